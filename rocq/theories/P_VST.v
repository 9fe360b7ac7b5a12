(* C98: groups of valued-set tableaux, and the test is_semistandard *)
From Coq Require Import List ZArith Lia Bool Permutation Sorted.
From Verif Require Import PyBase M_Partitions M_Tableaux S_Tableaux L_Tableaux S_Strips S_Semistandard S_Standardize P_Standardize M_Transposed S_Transposed M_VST S_VST L_VST.
Import ListNotations.
Local Open Scope Z_scope.

Lemma sorted_strict : forall (key : box -> box) l, (forall a b, key a = key b -> a = b) -> NoDup l ->
  StronglySorted (fun a b => box_ltb (key a) (key b) = true) (isort (fun a b => negb (box_ltb (key b) (key a))) l) /\ Permutation l (isort (fun a b => negb (box_ltb (key b) (key a))) l).
Proof.
  intros key l I N. set (ble := fun a b => negb (box_ltb (key b) (key a))).
  assert (T1 : forall x y, ble x y = true \/ ble y x = true). { intros x y. unfold ble, box_ltb. rewrite !negb_true_iff, !orb_false_iff, !andb_false_iff, !Z.ltb_ge, !Z.eqb_neq. lia. }
  assert (T2 : forall x y z, ble x y = true -> ble y z = true -> ble x z = true). { intros x y z. unfold ble, box_ltb. rewrite !negb_true_iff, !orb_false_iff, !andb_false_iff, !Z.ltb_ge, !Z.eqb_neq. lia. }
  pose proof (isort_perm ble l) as P. split; [|exact P]. pose proof (isort_sorted ble T1 T2 l) as S. pose proof (Permutation_NoDup P N) as N2. clear P N. induction (isort ble l) as [|a m IH]; [constructor|].
  inversion S as [|? ? S1 S2]; inversion N2 as [|? ? M1 M2]; subst. constructor; [apply IH; assumption|]. rewrite Forall_forall in *. intros b Hb. specialize (S2 b Hb). unfold ble, box_ltb in *.
  rewrite negb_true_iff, orb_false_iff, andb_false_iff, !Z.ltb_ge, Z.eqb_neq in S2. rewrite orb_true_iff, andb_true_iff, !Z.ltb_lt, Z.eqb_eq.
  destruct (Z.eq_dec (fst (key a)) (fst (key b))) as [E1|E1]; [|lia]. destruct (Z.eq_dec (snd (key a)) (snd (key b))) as [E2|E2]; [|lia].
  exfalso. apply M1. replace a with b; [exact Hb|]. apply I. destruct (key a), (key b). cbn [fst snd] in *. congruence.
Qed.
Lemma sorted_weaken : forall (A : Type) (R R' : A -> A -> Prop) l, (forall a b, R a b -> R' a b) -> StronglySorted R l -> StronglySorted R' l.
Proof. intros A R R' l H S. induction S as [|a l S IH F]; [constructor|]. constructor; [exact IH|]. rewrite Forall_forall in *. auto. Qed.
Definition left_of (c : box) : box := (fst c, snd c - 1).
Definition right_of (c : box) : box := (fst c, snd c + 1).
Definition above (c : box) : box := (fst c + 1, snd c).
Definition under (c : box) : box := (fst c - 1, snd c).
Lemma iter_left : forall k c, iter k left_of c = (fst c, snd c - Z.of_nat k).
Proof. induction k as [|k IH]; intros [i j]; cbn [iter fst snd]; [f_equal; lia|]. rewrite IH. unfold left_of. cbn [fst snd]. f_equal. lia. Qed.
Lemma iter_above : forall k c, iter k above c = (fst c + Z.of_nat k, snd c).
Proof. induction k as [|k IH]; intros [i j]; cbn [iter fst snd]; [f_equal; lia|]. rewrite IH. unfold above. cbn [fst snd]. f_equal. lia. Qed.
Lemma iter_right : forall k c, iter k right_of c = (fst c, snd c + Z.of_nat k).
Proof. induction k as [|k IH]; intros [i j]; cbn [iter fst snd]; [f_equal; lia|]. rewrite IH. unfold right_of. cbn [fst snd]. f_equal. lia. Qed.
Lemma iter_under : forall k c, iter k under c = (fst c - Z.of_nat k, snd c).
Proof. induction k as [|k IH]; intros [i j]; cbn [iter fst snd]; [f_equal; lia|]. rewrite IH. unfold under. cbn [fst snd]. f_equal. lia. Qed.

Section Groups.
  Variables T G : tab.
  Hypothesis TG : grouped T G.
  Lemma goes_iff : forall x c, goes T G x c = true <-> In (c, [x]) T /\ In (c, [1]) G.
  Proof.
    intros x c. split.
    - intro H. apply (goes_cell T G TG) in H. destruct H as [A B]. split; [apply tlookup_In; exact A|apply (truthy_ok T G TG); exact B].
    - intros [A B]. unfold goes. apply andb_true_iff. split; [apply (truthy_ok T G TG); exact B|apply (same_ok T G TG), (lookup_iff T G TG); exact A].
  Qed.
  Lemma row_link : forall x, 0 < x -> forall c, tlookup T c = Some [x] -> truthy G c = true -> tlookup T (right_of c) = Some [x].
  Proof. intros x Hx c E F. destruct (truthy_cell T G TG c F) as (y & E2 & _ & R & _). assert (y = x) by congruence. subst y. exact (R Hx). Qed.
  Lemma col_link : forall x, x < 0 -> forall c, tlookup T c = Some [x] -> truthy G c = true -> tlookup T (under c) = Some [x].
  Proof. intros x Hx c E F. destruct (truthy_cell T G TG c F) as (y & E2 & _ & _ & R). assert (y = x) by congruence. subst y. exact (R Hx). Qed.
  Lemma LRb : forall c, left_of (right_of c) = c. Proof. intros [i j]. unfold left_of, right_of. cbn [fst snd]. f_equal. lia. Qed.
  Lemma RLb : forall c, right_of (left_of c) = c. Proof. intros [i j]. unfold left_of, right_of. cbn [fst snd]. f_equal. lia. Qed.
  Lemma AUb : forall c, above (under c) = c. Proof. intros [i j]. unfold above, under. cbn [fst snd]. f_equal. lia. Qed.
  Lemma UAb : forall c, under (above c) = c. Proof. intros [i j]. unfold above, under. cbn [fst snd]. f_equal. lia. Qed.

  Lemma row_walk : forall x c k, In (c, [x]) T -> In (c, [0]) G -> (forall j, (1 <= j <= k)%nat -> goes T G x (iter j left_of c) = true) -> goes T G x (iter (S k) left_of c) = false ->
    row_group T G x (fst c) (snd c - Z.of_nat k) (snd c).
  Proof.
    intros x [i b] k I0 Z0 H1 H2. cbn [fst snd]. assert (Q : forall j, b - Z.of_nat k <= j < b -> In ((i, j), [x]) T /\ In ((i, j), [1]) G).
    { intros j Hj. apply goes_iff. replace (i, j) with (iter (Z.to_nat (b - j)) left_of (i, b)) by (rewrite iter_left; cbn [fst snd]; f_equal; lia). apply H1. lia. }
    split; [lia|]. split; [intros j Hj; destruct (Z.eq_dec j b) as [->|N]; [exact I0|apply Q; lia]|]. split; [intros j Hj; apply Q; lia|]. split; [exact Z0|].
    intro K. apply goes_iff in K. rewrite iter_left in H2. cbn [fst snd] in H2. replace (b - Z.of_nat (S k)) with (b - Z.of_nat k - 1) in H2 by lia. congruence.
  Qed.
  Lemma col_walk : forall x c k, In (c, [x]) T -> In (c, [0]) G -> (forall j, (1 <= j <= k)%nat -> goes T G x (iter j above c) = true) -> goes T G x (iter (S k) above c) = false ->
    column_group T G x (snd c) (fst c) (fst c + Z.of_nat k).
  Proof.
    intros x [a j] k I0 Z0 H1 H2. cbn [fst snd]. assert (Q : forall i, a < i <= a + Z.of_nat k -> In ((i, j), [x]) T /\ In ((i, j), [1]) G).
    { intros i Hi. apply goes_iff. replace (i, j) with (iter (Z.to_nat (i - a)) above (a, j)) by (rewrite iter_above; cbn [fst snd]; f_equal; lia). apply H1. lia. }
    split; [lia|]. split; [intros i Hi; destruct (Z.eq_dec i a) as [->|N]; [exact I0|apply Q; lia]|]. split; [intros i Hi; apply Q; lia|]. split; [exact Z0|].
    intro K. apply goes_iff in K. rewrite iter_above in H2. cbn [fst snd] in H2. replace (a + Z.of_nat (S k)) with (a + Z.of_nat k + 1) in H2 by lia. congruence.
  Qed.

  (* get_horizontals: the groups of entries x > 0, by rows, from right to left *)
  Theorem C98_get_horizontals : forall fuel x, 0 < x -> (length T <= fuel)%nat ->
    exists starts ends, get_horizontals fuel (T, G) x = Ok (starts, ends) /\ length starts = length ends /\
      StronglySorted (fun a b => fst a < fst b \/ (fst a = fst b /\ snd b < snd a)) ends /\
      (forall k, (k < length ends)%nat -> exists i a b, nth k starts (0, 0) = (i, a) /\ nth k ends (0, 0) = (i, b) /\ row_group T G x i a b) /\
      (forall i a b, row_group T G x i a b -> exists k, (k < length ends)%nat /\ nth k starts (0, 0) = (i, a) /\ nth k ends (0, 0) = (i, b)).
  Proof.
    intros fuel x Hx LF. unfold get_horizontals. replace (x <=? 0) with false by (symmetry; apply Z.leb_gt; lia).
    destruct (sorted_strict (fun c => (fst c, - snd c)) (with_entry (T, G) x)) as [SS PP]; [intros [i j] [p q] E; cbn [fst snd] in E; injection E as -> E; f_equal; lia|apply (with_entry_NoDup T G TG)|].
    cbv zeta. set (ends := isort _ (with_entry (T, G) x)) in *. assert (IE : forall c, In c ends <-> In (c, [x]) T /\ In (c, [0]) G).
    { intro c. rewrite <- (with_entry_In T G TG). split; intro H; [exact (Permutation_in _ (Permutation_sym PP) H)|exact (Permutation_in _ PP H)]. }
    destruct (rmap_spec box box (walk fuel left_of (T, G) x) (fun e s => exists k, s = iter k left_of e /\ (forall j, (1 <= j <= k)%nat -> goes T G x (iter j left_of e) = true) /\ goes T G x (iter (S k) left_of e) = false) ends) as (starts & ES & LS & HS).
    { intros e He. apply IE in He. destruct He as [I0 Z0]. destruct (walk_ok T G TG left_of (fun c => - snd c) x ltac:(intros [i j]; unfold left_of; cbn [fst snd]; lia) fuel e LF (proj2 (lookup_iff T G TG e [x]) I0)) as (k & E1 & E2 & E3).
      exists (iter k left_of e). split; [exact E1|]. exists k. split; [reflexivity|]. split; assumption. }
    exists starts, ends. split; [exact (f_equal (fun r => do s <- r; Ok (s, ends)) ES)|]. split; [exact LS|]. split.
    { eapply sorted_weaken; [|exact SS]; intros a b H; unfold box_ltb in H; cbn [fst snd] in H; rewrite orb_true_iff, andb_true_iff, !Z.ltb_lt, Z.eqb_eq in H; lia. }
    assert (SEG : forall k, (k < length ends)%nat -> exists i a b, nth k starts (0, 0) = (i, a) /\ nth k ends (0, 0) = (i, b) /\ row_group T G x i a b).
    { intros k Hk. destruct (HS k (0, 0) (0, 0) Hk) as (r & E1 & E2 & E3). pose proof (nth_In ends (0, 0) Hk) as I. apply IE in I. destruct I as [I0 Z0]. pose proof (row_walk x _ r I0 Z0 E2 E3) as RG.
      rewrite iter_left in E1. exists (fst (nth k ends (0, 0))), (snd (nth k ends (0, 0)) - Z.of_nat r), (snd (nth k ends (0, 0))). split; [exact E1|]. split; [apply surjective_pairing|exact RG]. }
    split; [exact SEG|]. intros i a b RG. pose proof RG as (L & A1 & A2 & Z0 & N). assert (I : In (i, b) ends) by (apply IE; split; [apply A1; lia|exact Z0]).
    apply (In_nth _ _ (0, 0)) in I. destruct I as (k & Hk & Ek). exists k. split; [exact Hk|]. split; [|exact Ek].
    destruct (SEG k Hk) as (i' & a' & b' & S1 & S2 & (L' & B1 & B2 & _ & N')). pose proof (eq_trans (eq_sym Ek) S2) as S3. injection S3 as <- <-. refine (eq_trans S1 _). f_equal.
    destruct (Z.lt_trichotomy a a') as [C|[C|C]]; [|congruence|].
    - exfalso. apply N'. split; [apply A1; lia|apply A2; lia].
    - exfalso. apply N. split; [apply B1; lia|apply B2; lia].
  Qed.
  Theorem C98_get_verticals : forall fuel x, x < 0 -> (length T <= fuel)%nat ->
    exists starts ends, get_verticals fuel (T, G) x = Ok (starts, ends) /\ length starts = length ends /\
      StronglySorted (fun a b => snd b < snd a \/ (snd a = snd b /\ fst a < fst b)) starts /\
      (forall k, (k < length ends)%nat -> exists j a b, nth k starts (0, 0) = (a, j) /\ nth k ends (0, 0) = (b, j) /\ column_group T G x j a b) /\
      (forall j a b, column_group T G x j a b -> exists k, (k < length ends)%nat /\ nth k starts (0, 0) = (a, j) /\ nth k ends (0, 0) = (b, j)).
  Proof.
    intros fuel x Hx LF. unfold get_verticals. replace (0 <=? x) with false by (symmetry; apply Z.leb_gt; lia).
    destruct (sorted_strict (fun c => (- snd c, fst c)) (with_entry (T, G) x)) as [SS PP]; [intros [i j] [p q] E; cbn [fst snd] in E; injection E as E ->; f_equal; lia|apply (with_entry_NoDup T G TG)|].
    cbv zeta. set (starts := isort _ (with_entry (T, G) x)) in *. assert (IE : forall c, In c starts <-> In (c, [x]) T /\ In (c, [0]) G).
    { intro c. rewrite <- (with_entry_In T G TG). split; intro H; [exact (Permutation_in _ (Permutation_sym PP) H)|exact (Permutation_in _ PP H)]. }
    destruct (rmap_spec box box (walk fuel above (T, G) x) (fun e s => exists k, s = iter k above e /\ (forall j, (1 <= j <= k)%nat -> goes T G x (iter j above e) = true) /\ goes T G x (iter (S k) above e) = false) starts) as (ends & ES & LS & HS).
    { intros e He. apply IE in He. destruct He as [I0 Z0]. destruct (walk_ok T G TG above (fun c => fst c) x ltac:(intros [i j]; unfold above; cbn [fst snd]; lia) fuel e LF (proj2 (lookup_iff T G TG e [x]) I0)) as (k & E1 & E2 & E3).
      exists (iter k above e). split; [exact E1|]. exists k. split; [reflexivity|]. split; assumption. }
    exists starts, ends. split; [exact (f_equal (fun r => do s <- r; Ok (starts, s)) ES)|]. split; [symmetry; exact LS|]. split.
    { eapply sorted_weaken; [|exact SS]; intros a b H; unfold box_ltb in H; cbn [fst snd] in H; rewrite orb_true_iff, andb_true_iff, !Z.ltb_lt, Z.eqb_eq in H; lia. }
    assert (SEG : forall k, (k < length ends)%nat -> exists j a b, nth k starts (0, 0) = (a, j) /\ nth k ends (0, 0) = (b, j) /\ column_group T G x j a b).
    { intros k Hk. rewrite LS in Hk. destruct (HS k (0, 0) (0, 0) Hk) as (r & E1 & E2 & E3). pose proof (nth_In starts (0, 0) Hk) as I. apply IE in I. destruct I as [I0 Z0]. pose proof (col_walk x _ r I0 Z0 E2 E3) as RG.
      rewrite iter_above in E1. exists (snd (nth k starts (0, 0))), (fst (nth k starts (0, 0))), (fst (nth k starts (0, 0)) + Z.of_nat r). split; [apply surjective_pairing|]. split; [exact E1|exact RG]. }
    split; [exact SEG|]. intros j a b RG. pose proof RG as (L & A1 & A2 & Z0 & N). assert (I : In (a, j) starts) by (apply IE; split; [apply A1; lia|exact Z0]).
    apply (In_nth _ _ (0, 0)) in I. destruct I as (k & Hk & Ek). exists k. rewrite LS. split; [exact Hk|]. split; [exact Ek|].
    destruct (SEG k ltac:(rewrite LS; exact Hk)) as (j' & a' & b' & S1 & S2 & (L' & B1 & B2 & _ & N')). pose proof (eq_trans (eq_sym Ek) S1) as S3. injection S3 as <- <-. refine (eq_trans S2 _). f_equal.
    destruct (Z.lt_trichotomy b b') as [C|[C|C]]; [|congruence|].
    - exfalso. apply N. split; [apply B1; lia|apply B2; lia].
    - exfalso. apply N'. split; [apply A1; lia|apply A2; lia].
  Qed.

  (* the groups cut the cells with an entry into disjoint intervals *)
  Theorem C98_row_groups : forall x i j, 0 < x -> In ((i, j), [x]) T ->
    exists a b, a <= j <= b /\ row_group T G x i a b /\ forall a' b', a' <= j <= b' -> row_group T G x i a' b' -> a' = a /\ b' = b.
  Proof.
    intros x i j Hx I0. pose proof (proj2 (lookup_iff T G TG (i, j) [x]) I0) as E.
    destruct (in_segment T G TG left_of right_of (fun c => - snd c) x LRb RLb ltac:(intros [p q]; unfold left_of; cbn [fst snd]; lia) (row_link x Hx) (i, j) E) as (m & He). cbv zeta in He. set (e := iter m right_of (i, j)) in *. destruct He as (E1 & E2 & E3).
    destruct (walk_ok T G TG left_of (fun c => - snd c) x ltac:(intros [p q]; unfold left_of; cbn [fst snd]; lia) (length T) e (le_n _) E1) as (k & _ & K1 & K2).
    destruct (E3 k K1 K2) as [Lm Ec]. pose proof (row_walk x e k (tlookup_In _ _ _ E1) (proj1 (label_zero T G TG e x E1) E2) K1 K2) as RG.
    assert (Ee : e = (i, j + Z.of_nat m)) by (unfold e; rewrite iter_right; reflexivity). rewrite Ee in RG. cbn [fst snd] in RG.
    exists (j + Z.of_nat m - Z.of_nat k), (j + Z.of_nat m). split; [lia|]. split; [exact RG|].
    intros a' b' B (L' & A1' & A2' & Z' & N'). destruct RG as (L & A1 & A2 & Z0 & N).
    assert (NL : forall c, In (c, [0]) G -> In (c, [1]) G -> False). { intros c H0 H1. apply (In_tlookup G) in H0; [|apply (WG T G TG)]. apply (In_tlookup G) in H1; [|apply (WG T G TG)]. congruence. }
    assert (EB : b' = j + Z.of_nat m).
    { destruct (Z.lt_trichotomy b' (j + Z.of_nat m)) as [C|[C|C]]; [|exact C|].
      - exfalso. apply (NL (i, b') Z'). apply A2. lia.
      - exfalso. apply (NL _ Z0). apply A2'. lia. }
    subst b'. split; [|reflexivity]. destruct (Z.lt_trichotomy a' (j + Z.of_nat m - Z.of_nat k)) as [C|[C|C]]; [|exact C|].
    - exfalso. apply N. split; [apply A1'; lia|apply A2'; lia].
    - exfalso. apply N'. split; [apply A1; lia|apply A2; lia].
  Qed.
  Theorem C98_column_groups : forall x i j, x < 0 -> In ((i, j), [x]) T ->
    exists a b, a <= i <= b /\ column_group T G x j a b /\ forall a' b', a' <= i <= b' -> column_group T G x j a' b' -> a' = a /\ b' = b.
  Proof.
    intros x i j Hx I0. pose proof (proj2 (lookup_iff T G TG (i, j) [x]) I0) as E.
    destruct (in_segment T G TG above under (fun c => fst c) x AUb UAb ltac:(intros [p q]; unfold above; cbn [fst snd]; lia) (col_link x Hx) (i, j) E) as (m & He). cbv zeta in He. set (e := iter m under (i, j)) in *. destruct He as (E1 & E2 & E3).
    destruct (walk_ok T G TG above (fun c => fst c) x ltac:(intros [p q]; unfold above; cbn [fst snd]; lia) (length T) e (le_n _) E1) as (k & _ & K1 & K2).
    destruct (E3 k K1 K2) as [Lm Ec]. pose proof (col_walk x e k (tlookup_In _ _ _ E1) (proj1 (label_zero T G TG e x E1) E2) K1 K2) as RG.
    assert (Ee : e = (i - Z.of_nat m, j)) by (unfold e; rewrite iter_under; reflexivity). rewrite Ee in RG. cbn [fst snd] in RG.
    exists (i - Z.of_nat m), (i - Z.of_nat m + Z.of_nat k). split; [lia|]. split; [exact RG|].
    intros a' b' B (L' & A1' & A2' & Z' & N'). destruct RG as (L & A1 & A2 & Z0 & N).
    assert (NL : forall c, In (c, [0]) G -> In (c, [1]) G -> False). { intros c H0 H1. apply (In_tlookup G) in H0; [|apply (WG T G TG)]. apply (In_tlookup G) in H1; [|apply (WG T G TG)]. congruence. }
    assert (EB : a' = i - Z.of_nat m).
    { destruct (Z.lt_trichotomy a' (i - Z.of_nat m)) as [C|[C|C]]; [|exact C|].
      - exfalso. apply (NL _ Z0). apply A2'. lia.
      - exfalso. apply (NL (a', j) Z'). apply A2. lia. }
    subst a'. split; [reflexivity|]. destruct (Z.lt_trichotomy b' (i - Z.of_nat m + Z.of_nat k)) as [C|[C|C]]; [|exact C|].
    - exfalso. apply N'. split; [apply A1; lia|apply A2; lia].
    - exfalso. apply N. split; [apply A1'; lia|apply A2'; lia].
  Qed.

  (* is_group_end and is_group_start: one cell of each group is its end and one its start *)
  Lemma NL : forall c, In (c, [0]) G -> In (c, [1]) G -> False.
  Proof. intros c H0 H1. apply (In_tlookup G) in H0; [|apply (WG T G TG)]. apply (In_tlookup G) in H1; [|apply (WG T G TG)]. congruence. Qed.
  Lemma one_entry : forall c x y, In (c, [x]) T -> In (c, [y]) T -> x = y.
  Proof. intros c x y H0 H1. apply (lookup_iff T G TG) in H0, H1. congruence. Qed.
  Definition ends_at (i j : Z) : Prop := exists x, (0 < x /\ exists a, row_group T G x i a j) \/ (x < 0 /\ exists b, column_group T G x j i b).
  Definition starts_at (i j : Z) : Prop := exists x, (0 < x /\ exists b, row_group T G x i j b) \/ (x < 0 /\ exists a, column_group T G x j a i).
  Theorem C98_is_group_end : forall i j, is_group_end (T, G) (i, j) = true <-> ends_at i j.
  Proof.
    intros i j. unfold is_group_end. cbn [fst snd]. rewrite andb_true_iff, negb_true_iff, (mem_ok T G TG). split.
    - intros [(x & E) F]. pose proof (proj1 (label_zero T G TG _ _ E) F) as Z0. apply tlookup_In in E. destruct (lookup_single T G TG (i, j) [x] (proj2 (lookup_iff T G TG _ _) E)) as (x' & Ex & Nx). injection Ex as <-. exists x.
      destruct (Z.lt_trichotomy x 0) as [C|[C|C]]; [right|contradiction|left]; (split; [exact C|]).
      + destruct (C98_column_groups x i j C E) as (a & b & B & R & _). exists b. replace i with a; [exact R|]. destruct R as (_ & _ & R2 & _). destruct (Z.eq_dec a i) as [D|D]; [exact D|]. exfalso. apply (NL _ Z0). apply R2. lia.
      + destruct (C98_row_groups x i j C E) as (a & b & B & R & _). exists a. replace j with b; [exact R|]. destruct R as (_ & _ & R2 & _). destruct (Z.eq_dec b j) as [D|D]; [exact D|]. exfalso. apply (NL _ Z0). apply R2. lia.
    - intros (x & [[_ (a & L & A & _ & Z0 & _)]|[_ (b & L & A & _ & Z0 & _)]]).
      + pose proof (proj2 (lookup_iff T G TG (i, j) [x]) (A j ltac:(lia))) as E. split; [exists x; exact E|apply (label_zero T G TG _ _ E); exact Z0].
      + pose proof (proj2 (lookup_iff T G TG (i, j) [x]) (A i ltac:(lia))) as E. split; [exists x; exact E|apply (label_zero T G TG _ _ E); exact Z0].
  Qed.
  Theorem C98_is_group_start : forall i j, exists b, is_group_start (T, G) (i, j) = Ok b /\ (b = true <-> starts_at i j).
  Proof.
    intros i j. unfold is_group_start. cbn [fst snd]. destruct (lookup_cases T G TG (i, j)) as [E|(x & E & N)].
    - unfold tmem. rewrite E. exists false. split; [reflexivity|]. split; [discriminate|]. intros (x & [[_ (b & L & A & _)]|[_ (a & L & A & _)]]); exfalso.
      + specialize (A j ltac:(lia)). apply (lookup_iff T G TG) in A. congruence.
      + specialize (A i ltac:(lia)). apply (lookup_iff T G TG) in A. congruence.
    - assert (M : tmem T (i, j) = true) by (apply (mem_ok T G TG); exists x; exact E). rewrite M. cbn [negb]. rewrite (entry_ok T _ _ E). cbn [rbind]. pose proof (tlookup_In _ _ _ E) as I0.
      assert (ONE : forall y, In ((i, j), [y]) T -> y = x) by (intros y Hy; exact (one_entry _ _ _ Hy I0)).
      destruct (Z.ltb_spec 0 x) as [P|P].
      + assert (SA : starts_at i j <-> ~ (In ((i, j - 1), [x]) T /\ In ((i, j - 1), [1]) G)).
        { split.
          - intros (y & [[Py (b & L & A & _ & _ & Q)]|[Py (a & L & A & _)]]); [rewrite (ONE y (A j ltac:(lia))) in Q; exact Q|]. exfalso. specialize (ONE y (A i ltac:(lia))). lia.
          - intro Q. exists x. left. split; [exact P|]. destruct (C98_row_groups x i j P I0) as (a & b & B & R & _). exists b. replace j with a; [exact R|]. destruct R as (_ & R1 & R2 & _). destruct (Z.eq_dec a j) as [D|D]; [exact D|]. exfalso. apply Q. split; [apply R1; lia|apply R2; lia]. }
        destruct (lookup_cases T G TG (i, j - 1)) as [F|(y & F & Ny)].
        * unfold tmem. rewrite F. exists true. split; [reflexivity|]. rewrite SA. split; [intros _ [K _]; apply (lookup_iff T G TG) in K; congruence|reflexivity].
        * rewrite (proj2 (mem_ok T G TG (i, j - 1)) (ex_intro _ y F)). rewrite (entry_ok T _ _ F). cbn [rbind]. eexists. split; [reflexivity|]. rewrite SA, negb_true_iff, andb_false_iff. split.
          -- intros [K|K] [K1 K2].
             ++ apply (lookup_iff T G TG) in K1. apply Z.ltb_ge in K. assert (y = x) by congruence. lia.
             ++ apply (truthy_ok T G TG) in K2. congruence.
          -- intro Q. destruct (0 <? y) eqn:Y; [right|left; reflexivity]. destruct (truthy G (i, j - 1)) eqn:W; [|reflexivity]. exfalso. apply Q. destruct (truthy_cell T G TG _ W) as (z & Z1 & _ & Z2 & _). cbn [fst snd] in Z2.
             apply Z.ltb_lt in Y. assert (z = y) by congruence. subst z. specialize (Z2 Y). replace (j - 1 + 1) with j in Z2 by lia. assert (y = x) by congruence. subst y. split; [apply tlookup_In; exact F|apply (truthy_ok T G TG); exact W].
      + assert (P' : x < 0) by lia. rewrite (proj2 (Z.ltb_lt x 0) P').
        assert (SA : starts_at i j <-> ~ (In ((i + 1, j), [x]) T /\ In ((i + 1, j), [1]) G)).
        { split.
          - intros (y & [[Py (b & L & A & _)]|[Py (a & L & A & _ & _ & Q)]]); [|rewrite (ONE y (A i ltac:(lia))) in Q; exact Q]. exfalso. specialize (ONE y (A j ltac:(lia))). lia.
          - intro Q. exists x. right. split; [exact P'|]. destruct (C98_column_groups x i j P' I0) as (a & b & B & R & _). exists a. replace i with b; [exact R|]. destruct R as (_ & R1 & R2 & _). destruct (Z.eq_dec b i) as [D|D]; [exact D|]. exfalso. apply Q. split; [apply R1; lia|apply R2; lia]. }
        destruct (lookup_cases T G TG (i + 1, j)) as [F|(y & F & Ny)].
        * unfold tmem. rewrite F. exists true. split; [reflexivity|]. rewrite SA. split; [intros _ [K _]; apply (lookup_iff T G TG) in K; congruence|reflexivity].
        * rewrite (proj2 (mem_ok T G TG (i + 1, j)) (ex_intro _ y F)). rewrite (entry_ok T _ _ F). cbn [rbind]. eexists. split; [reflexivity|]. rewrite SA, negb_true_iff, andb_false_iff. split.
          -- intros [K|K] [K1 K2].
             ++ apply (lookup_iff T G TG) in K1. apply Z.ltb_ge in K. assert (y = x) by congruence. lia.
             ++ apply (truthy_ok T G TG) in K2. congruence.
          -- intro Q. destruct (y <? 0) eqn:Y; [right|left; reflexivity]. destruct (truthy G (i + 1, j)) eqn:W; [|reflexivity]. exfalso. apply Q. destruct (truthy_cell T G TG _ W) as (z & Z1 & _ & _ & Z2). cbn [fst snd] in Z2.
             apply Z.ltb_lt in Y. assert (z = y) by congruence. subst z. specialize (Z2 Y). replace (i + 1 - 1) with i in Z2 by lia. assert (y = x) by congruence. subst y. split; [apply tlookup_In; exact F|apply (truthy_ok T G TG); exact W].
  Qed.

  Lemma keep_ok : forall (p : box -> res bool) (P : box -> Prop) l, (forall c, In c l -> exists b, p c = Ok b /\ (b = true <-> P c)) ->
    exists r, keep p l = Ok r /\ (forall c, In c r <-> In c l /\ P c) /\ (NoDup l -> NoDup r).
  Proof.
    induction l as [|c l IH]; intro H; [exists []; split; [reflexivity|]; split; [intro c; cbn; tauto|auto]|].
    destruct (H c (or_introl eq_refl)) as (b & E & Hb). destruct IH as (r & Er & Hr & Nr); [intros d Hd; apply H; right; exact Hd|]. cbn [keep]. rewrite E. cbn [rbind]. rewrite Er. cbn [rbind].
    exists (if b then c :: r else r). split; [reflexivity|]. split.
    - intro d. destruct b; cbn [In]; rewrite Hr; split.
      + intros [<-|[A B]]; [split; [left; reflexivity|apply Hb; reflexivity]|split; [right; exact A|exact B]].
      + intros [[<-|A] B]; [left; reflexivity|right; split; assumption].
      + intros [A B]. split; [right; exact A|exact B].
      + intros [[<-|A] B]; [apply Hb in B; discriminate|split; assumption].
    - intro N. inversion N as [|? ? N1 N2]; subst. destruct b; [|exact (Nr N2)]. constructor; [|exact (Nr N2)]. intro K. apply Hr in K. apply N1. apply K.
  Qed.
  Lemma allr_ok : forall (p : box -> res bool) (P : box -> Prop) l, (forall c, In c l -> exists b, p c = Ok b /\ (b = true <-> P c)) ->
    exists b, allr p l = Ok b /\ (b = true <-> forall c, In c l -> P c).
  Proof.
    induction l as [|c l IH]; intro H; [exists true; split; [reflexivity|]; split; [intros _ c []|reflexivity]|].
    destruct (H c (or_introl eq_refl)) as (b & E & Hb). destruct IH as (r & Er & Hr); [intros d Hd; apply H; right; exact Hd|]. cbn [allr]. rewrite E. cbn [rbind]. destruct b.
    - exists r. split; [exact Er|]. rewrite Hr. split; [intros K d [<-|D]; [apply Hb; reflexivity|apply K; exact D]|intros K d D; apply K; right; exact D].
    - exists false. split; [reflexivity|]. split; [discriminate|]. intro K. apply Hb. apply K. left. reflexivity.
  Qed.
  Lemma cell_iff : forall c, In c (map fst T) <-> exists x, In (c, [x]) T.
  Proof.
    intro c. rewrite in_map_iff. split.
    - intros ([d l] & E & H). cbn [fst] in E. subst d. destruct (proj1 (proj2 TG) c l H) as (x & -> & _). exists x. exact H.
    - intros (x & H). exists (c, [x]). split; [reflexivity|exact H].
  Qed.
  (* the group of (i, j), with entry x, is this cell alone *)
  Definition alone (i j x : Z) : Prop := (0 < x /\ row_group T G x i j j) \/ (x < 0 /\ column_group T G x j i i).
  Lemma singleton_ok : forall i j, exists b, is_singleton (T, G) (i, j) = Ok b /\ (b = true <-> exists x, alone i j x).
  Proof.
    intros i j. unfold is_singleton. destruct (C98_is_group_start i j) as (s & Es & Hs). pose proof (C98_is_group_end i j) as He. destruct (is_group_end (T, G) (i, j)).
    - exists s. split; [exact Es|]. rewrite Hs. split.
      + intros (x & [[P (b & R)]|[P (a & R)]]); exists x; [left|right]; (split; [exact P|]).
        * destruct (proj1 He eq_refl) as (y & [[Py (a & R')]|[Py (c & R')]]).
          -- replace b with j in R; [exact R|]. destruct R as (L & A & B & Z0 & N), R' as (L' & A' & B' & Z' & N'). destruct (Z.eq_dec b j) as [D|D]; [symmetry; exact D|]. exfalso. apply (NL _ Z'). apply B. lia.
          -- exfalso. destruct R as (L & A & _), R' as (L' & A' & _). pose proof (one_entry _ _ _ (A j ltac:(lia)) (A' i ltac:(lia))). lia.
        * destruct (proj1 He eq_refl) as (y & [[Py (c & R')]|[Py (c & R')]]).
          -- exfalso. destruct R as (L & A & _), R' as (L' & A' & _). pose proof (one_entry _ _ _ (A i ltac:(lia)) (A' j ltac:(lia))). lia.
          -- replace a with i in R; [exact R|]. destruct R as (L & A & B & Z0 & N), R' as (L' & A' & B' & Z' & N'). destruct (Z.eq_dec a i) as [D|D]; [symmetry; exact D|]. exfalso. apply (NL _ Z'). apply B. lia.
      + intros (x & [[P R]|[P R]]); exists x; [left|right]; (split; [exact P|]); [exists j|exists i]; exact R.
    - exists false. split; [reflexivity|]. split; [discriminate|]. intros (x & K). apply He. exists x. destruct K as [[P R]|[P R]]; [left|right]; (split; [exact P|]); [exists j|exists i]; exact R.
  Qed.
  Lemma alone_entry : forall i j x, alone i j x -> In ((i, j), [x]) T /\ x <> 0.
  Proof. intros i j x [[P (L & A & _)]|[P (L & A & _)]]; (split; [apply A; lia|lia]). Qed.
  Theorem C98_singletons : forall args, exists l, vst_singletons (T, G) args = Ok l /\ NoDup l /\
    forall i j, In (i, j) l <-> exists x, alone i j x /\ (args = [] \/ exists a, In a args /\ Z.abs a = Z.abs x).
  Proof.
    intro args. unfold vst_singletons. cbn [fst snd]. destruct (keep_ok (is_singleton (T, G)) (fun c => exists x, alone (fst c) (snd c) x) (map fst T)) as (r & Er & Hr & Nr); [intros [i j] _; apply singleton_ok|]. rewrite Er. cbn [rbind].
    destruct (keep_ok (fun c => if zlen args =? 0 then Ok true else do x <- entry T c; Ok (existsb (Z.eqb (Z.abs x)) (map Z.abs args))) (fun c => exists x, In (c, [x]) T /\ (args = [] \/ exists a, In a args /\ Z.abs a = Z.abs x)) r) as (l & El & Hl & Nl).
    { intros c Hc. apply Hr in Hc. destruct Hc as [_ (x & A)]. apply alone_entry in A. destruct A as [A _]. replace (fst c, snd c) with c in A by (destruct c; reflexivity). destruct args as [|a args].
      - exists true. split; [reflexivity|]. split; [intros _; exists x; split; [exact A|left; reflexivity]|reflexivity].
      - replace (zlen (a :: args) =? 0) with false by (symmetry; apply Z.eqb_neq; rewrite zlen_cons; pose proof (zlen_nonneg _ args); lia).
        rewrite (entry_ok T c x (proj2 (lookup_iff T G TG c [x]) A)). cbn [rbind]. eexists. split; [reflexivity|]. rewrite existsb_exists. split.
        + intros (y & Hy & E). apply in_map_iff in Hy. destruct Hy as (a' & <- & Ha). apply Z.eqb_eq in E. exists x. split; [exact A|]. right. exists a'. split; [exact Ha|symmetry; exact E].
        + intros (y & Hy & [K|(a' & Ha & E)]); [discriminate|]. pose proof (one_entry _ _ _ Hy A). subst y. exists (Z.abs a'). split; [apply in_map; exact Ha|apply Z.eqb_eq; symmetry; exact E]. }
    exists l. split; [exact El|]. split; [apply Nl, Nr; apply sorted_NoDup; apply (WT T G TG)|]. intros i j. rewrite Hl, Hr. cbn [fst snd]. split.
    - intros [[_ (x & A)] (y & Hy & K)]. pose proof (proj1 (alone_entry _ _ _ A)) as E. pose proof (one_entry _ _ _ Hy E). subst y. exists x. split; assumption.
    - intros (x & A & K). pose proof (proj1 (alone_entry _ _ _ A)) as E. split; [split; [apply cell_iff; exists x; exact E|exists x; exact A]|]. exists x. split; assumption.
  Qed.
  Theorem C98_is_highest_weight : is_highest_weight (T, G) = true <-> forall c, ~ In (c, [1]) G.
  Proof.
    unfold is_highest_weight. cbn [fst snd]. rewrite forallb_forall. split.
    - intros H c K. pose proof (proj2 (truthy_ok T G TG c) K) as F. destruct (truthy_cell T G TG c F) as (x & E & _). apply tlookup_In in E. specialize (H _ E). cbn [fst] in H. unfold tget in H. rewrite (In_tlookup G c [1]) in H by (first [apply (WG T G TG)|exact K]). discriminate.
    - intros H [c l] I. cbn [fst]. pose proof (proj2 (lookup_iff T G TG c l) I) as E. destruct (lookup_single T G TG c l E) as (x & -> & _). destruct (truthy G c) eqn:F; [apply (truthy_ok T G TG) in F; destruct (H c F)|].
      apply (label_zero T G TG c x E) in F. unfold tget. rewrite (In_tlookup G c [0]) by (first [apply (WG T G TG)|exact F]). reflexivity.
  Qed.

  (* is_semistandard *)
  Lemma ofn_cases : forall x, x <> 0 -> (0 < x /\ ofn x = 2 * x - 1) \/ (x < 0 /\ ofn x = 2 * (- x) - 2).
  Proof. intros x H. unfold ofn. destruct (Z.ltb_spec x 0); [right|left]; lia. Qed.
  Lemma even_ofn : forall x, x <> 0 -> (ofn x mod 2 =? 0) = (x <? 0).
  Proof.
    intros x H. destruct (ofn_cases x H) as [[P E]|[P E]]; rewrite E.
    - replace (2 * x - 1) with (1 + (x - 1) * 2) by lia. rewrite Z_mod_plus_full. change (1 mod 2) with 1. symmetry. apply Z.ltb_ge. lia.
    - replace (2 * - x - 2) with ((- x - 1) * 2) by lia. rewrite Z_mod_mult. symmetry. apply Z.ltb_lt. lia.
  Qed.
  Theorem C98_is_semistandard : exists b, vst_is_semistandard (T, G) = Ok b /\ (b = true <-> ordered_entries true T).
  Proof.
    unfold vst_is_semistandard. cbv zeta. cbn [fst snd].
    match goal with |- context [allr ?p (map fst T)] => destruct (allr_ok p (fun c => forall x y, In (c, [x]) T -> In ((fst c - 1, snd c), [y]) T -> column_ok y x) (map fst T)) as (b1 & E1 & H1) end.
    { intros c Hc. apply cell_iff in Hc. destruct Hc as (x & Hx). pose proof (proj2 (lookup_iff T G TG c [x]) Hx) as Ex. destruct (lookup_single T G TG c [x] Ex) as (x' & Q & Nx). injection Q as <-.
      destruct (lookup_cases T G TG (fst c - 1, snd c)) as [F|(y & F & Ny)].
      - unfold tmem. rewrite F. exists true. split; [reflexivity|]. split; [intros _ x1 y1 _ K; apply (lookup_iff T G TG) in K; congruence|reflexivity].
      - rewrite (proj2 (mem_ok T G TG (fst c - 1, snd c)) (ex_intro _ y F)), (entry_ok T _ _ F), (entry_ok T _ _ Ex). cbn [rbind]. eexists. split; [reflexivity|].
        rewrite (even_ofn x Nx), negb_true_iff, orb_false_iff, andb_false_iff, Z.ltb_ge, Z.eqb_neq, negb_false_iff, Z.ltb_lt. split.
        + intros K x1 y1 A B. pose proof (one_entry _ _ _ A Hx). apply (lookup_iff T G TG) in B. assert (y1 = y) by congruence. subst x1 y1. unfold column_ok. destruct (ofn_cases x Nx), (ofn_cases y Ny); lia.
        + intro K. specialize (K x y Hx (tlookup_In _ _ _ F)). unfold column_ok in K. destruct (ofn_cases x Nx), (ofn_cases y Ny); lia. }
    rewrite E1. cbn [rbind]. destruct b1.
    - match goal with |- context [allr ?p (map fst T)] => destruct (allr_ok p (fun c => forall x y, In (c, [x]) T -> In ((fst c, snd c + 1), [y]) T -> row_ok x y) (map fst T)) as (b2 & E2 & H2) end.
      { intros c Hc. apply cell_iff in Hc. destruct Hc as (x & Hx). pose proof (proj2 (lookup_iff T G TG c [x]) Hx) as Ex. destruct (lookup_single T G TG c [x] Ex) as (x' & Q & Nx). injection Q as <-.
        destruct (lookup_cases T G TG (fst c, snd c + 1)) as [F|(y & F & Ny)].
        - unfold tmem. rewrite F. exists true. split; [reflexivity|]. split; [intros _ x1 y1 _ K; apply (lookup_iff T G TG) in K; congruence|reflexivity].
        - rewrite (proj2 (mem_ok T G TG (fst c, snd c + 1)) (ex_intro _ y F)), (entry_ok T _ _ F), (entry_ok T _ _ Ex). cbn [rbind]. eexists. split; [reflexivity|].
          rewrite (even_ofn x Nx), negb_true_iff, orb_false_iff, andb_false_iff, Z.ltb_ge, Z.eqb_neq, Z.ltb_ge. split.
          + intros K x1 y1 A B. pose proof (one_entry _ _ _ A Hx). apply (lookup_iff T G TG) in B. assert (y1 = y) by congruence. subst x1 y1. unfold row_ok. destruct (ofn_cases x Nx), (ofn_cases y Ny); lia.
          + intro K. specialize (K x y Hx (tlookup_In _ _ _ F)). unfold row_ok in K. destruct (ofn_cases x Nx), (ofn_cases y Ny); lia. }
      exists b2. split; [exact E2|]. rewrite H2. split.
      + intro K. split; [|split; [|discriminate]].
        * intros i j x y Hx Hy. apply (holds_single T G TG) in Hx, Hy. apply (K (i, j)); [apply cell_iff; exists x| |]; apply tlookup_In; assumption.
        * intros i j x y Hx Hy. apply (holds_single T G TG) in Hx, Hy. apply (proj1 H1 eq_refl (i + 1, j) ltac:(apply cell_iff; exists y; apply tlookup_In; assumption)); cbn [fst snd]; [apply tlookup_In; assumption|]. replace (i + 1 - 1) with i by lia. apply tlookup_In. assumption.
      + intros (O1 & _ & _) [i j] _ x y Hx Hy. cbn [fst snd] in *. apply (O1 i j); apply (holds_single T G TG); apply (lookup_iff T G TG); assumption.
    - exists false. split; [reflexivity|]. split; [discriminate|]. intros (_ & O2 & _). apply H1. intros [i j] _ x y Hx Hy. cbn [fst snd] in *. apply (O2 (i - 1) j); apply (holds_single T G TG); apply (lookup_iff T G TG); [|replace (i - 1 + 1) with i by lia]; assumption.
  Qed.

  (* counting primes *)
  Lemma in_args_ok : forall (args : list Z) (c : box), in_args T args c = true <-> exists x, In (c, [x]) T /\ In x args.
  Proof.
    intros args c. unfold in_args, tget. destruct (lookup_cases T G TG c) as [E|(x & E & N)]; rewrite E.
    - split; [discriminate|]. intros (y & K & _). apply (lookup_iff T G TG) in K. congruence.
    - cbn. rewrite existsb_exists. split.
      + intros (y & Hy & K). apply Z.eqb_eq in K. subst y. exists x. split; [apply tlookup_In; exact E|exact Hy].
      + intros (y & K & Hy). apply (lookup_iff T G TG) in K. exists y. split; [exact Hy|]. apply Z.eqb_eq. congruence.
  Qed.
  Lemma keys_NoDup : NoDup (map fst T).
  Proof. apply sorted_NoDup. apply (WT T G TG). Qed.
  Theorem C98_diagonal_primes : exists N, diagonal_primes_count (T, G) = Ok N /\ cardinality (fun c => exists i x, c = (i, i) /\ x < 0 /\ In (c, [x]) T) N.
  Proof.
    unfold diagonal_primes_count. cbn [fst snd].
    destruct (keep_ok (fun c => if fst c =? snd c then do x <- entry T c; Ok (x <? 0) else Ok false) (fun c => exists i x, c = (i, i) /\ x < 0 /\ In (c, [x]) T) (map fst T)) as (r & Er & Hr & Nr).
    { intros c Hc. apply cell_iff in Hc. destruct Hc as (x & Hx). destruct (Z.eqb_spec (fst c) (snd c)) as [D|D].
      - rewrite (entry_ok T c x (proj2 (lookup_iff T G TG c [x]) Hx)). cbn [rbind]. eexists. split; [reflexivity|]. rewrite Z.ltb_lt. split.
        + intro K. exists (fst c), x. split; [destruct c; cbn [fst snd] in *; congruence|]. split; assumption.
        + intros (i & y & _ & Ny & Hy). rewrite (one_entry _ _ _ Hx Hy). exact Ny.
      - exists false. split; [reflexivity|]. split; [discriminate|]. intros (i & y & -> & _). destruct D. reflexivity. }
    rewrite Er. cbn [rbind]. exists (zlen r). split; [reflexivity|]. exists r. split; [apply Nr, keys_NoDup|]. split; [|reflexivity]. intro c. rewrite Hr. split; [intros [_ K]; exact K|intro K; split; [|exact K]].
    destruct K as (i & x & _ & _ & K). apply cell_iff. exists x. exact K.
  Qed.
  Theorem C98_primed_groups : forall args, exists N, primed_groups (T, G) args = Ok N /\
    cardinality (fun c => exists x b, x < 0 /\ column_group T G x (snd c) (fst c) b /\ (args = [] \/ exists a, In a args /\ Z.abs a = Z.abs x)) N.
  Proof.
    assert (GE : forall c x, In (c, [x]) T -> x < 0 -> truthy G c = false -> exists b, column_group T G x (snd c) (fst c) b).
    { intros [i j] x Hx Nx F. cbn [fst snd]. apply (label_zero T G TG _ _ (proj2 (lookup_iff T G TG (i, j) [x]) Hx)) in F. destruct (C98_column_groups x i j Nx Hx) as (a & b & B & R & _). exists b. replace i with a; [exact R|].
      destruct R as (_ & _ & R2 & _). destruct (Z.eq_dec a i) as [D|D]; [exact D|]. exfalso. apply (NL _ F). apply R2. lia. }
    assert (EG : forall c x b, column_group T G x (snd c) (fst c) b -> In (c, [x]) T /\ truthy G c = false).
    { intros [i j] x b (L & A & _ & Z0 & _). cbn [fst snd] in *. specialize (A i ltac:(lia)). split; [exact A|]. apply (label_zero T G TG _ _ (proj2 (lookup_iff T G TG (i, j) [x]) A)). exact Z0. }
    intro args. unfold primed_groups. cbn [fst snd]. destruct args as [|a0 args].
    - change (zlen (@nil Z) =? 0) with true. cbv iota.
      destruct (keep_ok (fun c => do x <- entry T c; Ok ((x <? 0) && negb (truthy G c))) (fun c => exists x b, x < 0 /\ column_group T G x (snd c) (fst c) b) (map fst T)) as (r & Er & Hr & Nr).
      { intros c Hc. apply cell_iff in Hc. destruct Hc as (x & Hx). rewrite (entry_ok T c x (proj2 (lookup_iff T G TG c [x]) Hx)). cbn [rbind]. eexists. split; [reflexivity|]. rewrite andb_true_iff, negb_true_iff, Z.ltb_lt. split.
        - intros [A B]. destruct (GE c x Hx A B) as (b & R). exists x, b. split; assumption.
        - intros (y & b & Ny & R). destruct (EG c y b R) as [A B]. rewrite (one_entry _ _ _ Hx A). split; assumption. }
      rewrite Er. cbn [rbind]. exists (zlen r). split; [reflexivity|]. exists r. split; [apply Nr, keys_NoDup|]. split; [|reflexivity]. intro c. rewrite Hr. split.
      + intros [_ (x & b & K)]. exists x, b. split; [apply K|]. split; [apply K|]. left. reflexivity.
      + intros (x & b & K & R & _). split; [apply cell_iff; exists x; apply (EG c x b R)|]. exists x, b. split; assumption.
    - replace (zlen (a0 :: args) =? 0) with false by (symmetry; apply Z.eqb_neq; rewrite zlen_cons; pose proof (zlen_nonneg _ args); lia). eexists. split; [reflexivity|].
      eexists. split; [apply NoDup_filter, keys_NoDup|]. split; [|reflexivity]. intro c. rewrite filter_In, andb_true_iff, negb_true_iff, in_args_ok. split.
      + intros (_ & (x & Hx & K) & F). apply in_map_iff in K. destruct K as (a & E & Ha). assert (Nx : x <> 0). { destruct (lookup_single T G TG c [x] (proj2 (lookup_iff T G TG c [x]) Hx)) as (x' & Q & N). injection Q as <-. exact N. }
        destruct (GE c x Hx ltac:(lia) F) as (b & R). exists x, b. split; [lia|]. split; [exact R|]. right. exists a. split; [exact Ha|lia].
      + intros (x & b & Nx & R & [K|(a & Ha & E)]); [discriminate|]. destruct (EG c x b R) as [A B]. split; [apply cell_iff; exists x; exact A|]. split; [|exact B]. exists x. split; [exact A|]. apply in_map_iff. exists a. split; [lia|exact Ha].
  Qed.
  Theorem C98_primed_diagonal_cells : forall args, let l := primed_diagonal_cells (T, G) args in
    StronglySorted Z.lt l /\ forall i, In i l <-> exists x, x < 0 /\ In ((i, i), [x]) T /\ exists a, In a args /\ Z.abs a = Z.abs x.
  Proof.
    intros args l. unfold l, primed_diagonal_cells. cbn [fst snd]. set (m := filter _ _).
    assert (M : forall c, In c m <-> fst c = snd c /\ exists x, x < 0 /\ In (c, [x]) T /\ exists a, In a args /\ Z.abs a = Z.abs x).
    { intro c. unfold m. rewrite filter_In, andb_true_iff, Z.eqb_eq, in_args_ok. split.
      - intros (_ & D & x & Hx & K). split; [exact D|]. apply in_map_iff in K. destruct K as (a & E & Ha). assert (Nx : x <> 0). { destruct (lookup_single T G TG c [x] (proj2 (lookup_iff T G TG c [x]) Hx)) as (x' & Q & N). injection Q as <-. exact N. }
        exists x. split; [lia|]. split; [exact Hx|]. exists a. split; [exact Ha|lia].
      - intros (D & x & Nx & Hx & a & Ha & E). split; [apply cell_iff; exists x; exact Hx|]. split; [exact D|]. exists x. split; [exact Hx|]. apply in_map_iff. exists a. split; [lia|exact Ha]. }
    assert (NM : NoDup (map fst m)). { apply NoDup_map_inj_in; [|apply NoDup_filter, keys_NoDup]. intros c d Hc Hd E. apply M in Hc, Hd. destruct c, d. cbn [fst snd] in *. f_equal; lia. }
    split.
    - pose proof (L_Tableaux.sorted_increasing (map fst m)) as S1. pose proof (L_Tableaux.sorted_perm (map fst m)) as P. pose proof (Permutation_NoDup P NM) as N. clear - S1 N.
      induction (sorted (map fst m)) as [|a r IH]; [constructor|]. inversion S1 as [|? ? S2 S3]; inversion N as [|? ? N1 N2]; subst. constructor; [apply IH; assumption|]. rewrite Forall_forall in *. intros b Hb. specialize (S3 b Hb). assert (a <> b) by (intros ->; contradiction). lia.
    - intro i. assert (PI : In i (sorted (map fst m)) <-> In i (map fst m)) by (split; apply Permutation_in; [apply Permutation_sym|]; apply L_Tableaux.sorted_perm). rewrite PI, in_map_iff. split.
      + intros (c & <- & Hc). apply M in Hc. destruct Hc as [D K]. replace (fst c, fst c) with c by (destruct c; cbn [fst snd] in *; congruence). exact K.
      + intro K. exists (i, i). split; [reflexivity|]. apply M. split; [reflexivity|exact K].
  Qed.
End Groups.

Theorem C98_wrong_sign : forall V fuel x,
  (x <= 0 -> get_horizontals fuel V x = Err AssertionError) /\ (0 <= x -> get_verticals fuel V x = Err AssertionError).
Proof. intros V fuel x. unfold get_horizontals, get_verticals. split; intro H; [rewrite (proj2 (Z.leb_le x 0) H)|rewrite (proj2 (Z.leb_le 0 x) H)]; reflexivity. Qed.
(* the valued-set tableaux enumerated by the library are such pairs *)
Theorem C98_valued_set_tableaux : forall c prime_ok n mu nu T G, valued_set_tableau c prime_ok n mu nu (T, G) -> grouped T G.
Proof.
  intros c p n mu nu T G [[_ (W & _ & L & B & _)] H2]. cbn [fst snd] in *. split; [exact W|]. split; [|exact H2]. intros [i j] l H. destruct (L i j l H) as (_ & _ & K). specialize (K eq_refl). destruct l as [|x [|y l]]; try discriminate.
  exists x. split; [reflexivity|]. assert (Q : holds T i j x) by (exists [x]; split; [exact H|left; reflexivity]). apply B in Q. lia.
Qed.

(* the tableau with rows 1 1 1 2', 2' 2 and 3 (from the bottom in French notation), with three groups marked *)
Definition ex_T : tab := [((1, 1), [1]); ((1, 2), [1]); ((1, 3), [1]); ((1, 4), [-2]); ((2, 2), [-2]); ((2, 3), [2]); ((3, 3), [3])].
Definition ex_G : tab := [((1, 1), [1]); ((1, 2), [1]); ((1, 3), [0]); ((1, 4), [0]); ((2, 2), [0]); ((2, 3), [0]); ((3, 3), [0])].
Lemma ex_grouped : grouped ex_T ex_G.
Proof.
  assert (W : forall l : list Z, In l [[1]; [0]; [2]; [3]; [-2]] -> increasing l). { intros l H. cbn [In] in H. decompose [or] H; subst; try contradiction; repeat constructor. }
  split; [|split; [|split; [|split]]].
  - split; [repeat (first [apply SSorted_cons|apply SSorted_nil|apply Forall_cons|apply Forall_nil]); unfold before; cbn [fst snd]; lia|]. intros c l H. unfold ex_T in H. cbn [In] in H. decompose [or] H; try contradiction; match goal with K : _ = _ |- _ => injection K as <- <- end; (split; [cbn; lia|]; split; [cbn; lia|]; apply W; cbn [In]; tauto).
  - intros c l H. unfold ex_T in H. cbn [In] in H. decompose [or] H; try contradiction; match goal with K : _ = _ |- _ => injection K as <- <- end; (eexists; split; [reflexivity|lia]).
  - split; [repeat (first [apply SSorted_cons|apply SSorted_nil|apply Forall_cons|apply Forall_nil]); unfold before; cbn [fst snd]; lia|]. intros c l H. unfold ex_G in H. cbn [In] in H. decompose [or] H; try contradiction; match goal with K : _ = _ |- _ => injection K as <- <- end; (split; [cbn; lia|]; split; [cbn; lia|]; apply W; cbn [In]; tauto).
  - intros i j. assert (F : forall c : box, In c (map fst ex_G) <-> In c (map fst ex_T)) by (intro c; reflexivity). pose proof (F (i, j)) as K. split; intros (l & H); apply (in_map fst) in H; cbn [fst] in H; [pose proof (proj1 K H) as Q|pose proof (proj2 K H) as Q]; clear H; rename Q into H; apply in_map_iff in H; destruct H as ([c l'] & E & H); cbn [fst] in E; subst c; exists l'; exact H.
  - intros i j l H. unfold ex_G in H. cbn [In] in H. decompose [or] H; try contradiction; match goal with K : _ = _ |- _ => injection K as <- <- <- end; try (left; reflexivity); right; (split; [reflexivity|]; exists 1; unfold holds, ex_T; repeat split; try lia; intros; try lia; exists [1]; cbn; tauto).
Qed.
Example C98_example : grouped ex_T ex_G /\ row_group ex_T ex_G 1 1 1 3 /\ get_horizontals 7 (ex_T, ex_G) 1 = Ok ([(1, 1)], [(1, 3)]) /\
  get_verticals 7 (ex_T, ex_G) (-2) = Ok ([(1, 4); (2, 2)], [(1, 4); (2, 2)]) /\ vst_is_semistandard (ex_T, ex_G) = Ok true /\ diagonal_singletons (ex_T, ex_G) [] = Ok [2; 3].
Proof.
  split; [exact ex_grouped|]. split.
  - split; [lia|]. split; [intros j Hj; assert (j = 1 \/ j = 2 \/ j = 3) as [->|[->| ->]] by lia; unfold ex_T; cbn; tauto|]. split; [intros j Hj; assert (j = 1 \/ j = 2) as [->| ->] by lia; unfold ex_G; cbn; tauto|]. split; [unfold ex_G; cbn; tauto|].
    intros [H _]. unfold ex_T in H. cbn in H. decompose [or] H; try contradiction; discriminate.
  - vm_compute. repeat split.
Qed.

Print Assumptions C98_get_horizontals.
Print Assumptions C98_get_verticals.
Print Assumptions C98_row_groups.
Print Assumptions C98_column_groups.
Print Assumptions C98_is_group_start.
Print Assumptions C98_is_group_end.
Print Assumptions C98_singletons.
Print Assumptions C98_is_highest_weight.
Print Assumptions C98_is_semistandard.
Print Assumptions C98_diagonal_primes.
Print Assumptions C98_primed_groups.
Print Assumptions C98_primed_diagonal_cells.
Print Assumptions C98_wrong_sign.
Print Assumptions C98_valued_set_tableaux.
