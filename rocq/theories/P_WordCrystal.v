(* C103: the crystal of the factorizations of the Hecke words of a permutation *)
From Coq Require Import List ZArith Bool Lia Sorted Permutation.
From Verif Require S_Semistandard S_Partitions S_Multi L_Partitions M_TabCrystal P_TabCrystal P_Multi P_Standardize S_Strips.
From Verif Require Import PyBase M_Partitions L_PartMore M_Perm S_Perm S_Levels L_PermWord L_PermDem P_Perm S_PermGroth M_PermGroth P_PermGroth M_Levels.
From Verif Require Import M_Tableaux S_Tableaux L_Tableaux P_Tableaux M_Insertion S_Insertion L_Insertion1 L_Insertion7 L_Insertion8 P_Insertion L_HeckeOnto2 P_HeckeOnto S_HeckeEquiv L_HeckeEquiv P_HeckeEquiv.
From Verif Require Import M_WordCrystal L_WordCrystal1 L_WordCrystal2.
Import ListNotations.
Local Open Scope Z_scope.

(* the shape of a straight tableau *)
Lemma shape_partition : forall L, shape L -> forall N : nat, (forall i, Z.of_nat N < i -> L i = 0) -> exists mu, S_Partitions.partition mu /\ forall i, 1 <= i -> S_Partitions.row mu (Z.to_nat (i - 1)) = L i.
Proof.
  intros L S. induction N as [|N IH]; intro Z0.
  - exists []. split; [split; [constructor|intro; rewrite !L_Partitions.row_nil; lia]|]. intros i Hi. rewrite L_Partitions.row_nil, Z0 by lia. reflexivity.
  - destruct (Z.eq_dec (L (Z.of_nat (Datatypes.S N))) 0) as [E|E].
    + apply IH. intros i Hi. destruct (Z.eq_dec i (Z.of_nat (Datatypes.S N))) as [->|]; [exact E|apply Z0; lia].
    + assert (G : forall i, 1 <= i <= Z.of_nat (Datatypes.S N) -> 0 < L i) by (intros i Hi; pose proof (proj1 S (Z.of_nat (Datatypes.S N)) ltac:(lia)); pose proof (shape_mono L i (Z.of_nat (Datatypes.S N)) S ltac:(lia) ltac:(lia)); lia).
      set (mu := map (fun n => L (Z.of_nat n + 1)) (seq 0 (Datatypes.S N))).
      assert (R : forall n, S_Partitions.row mu n = if (n <? Datatypes.S N)%nat then L (Z.of_nat n + 1) else 0).
      { intro n. unfold S_Partitions.row, mu. destruct (Nat.ltb_spec n (Datatypes.S N)) as [H|H].
        - rewrite (nth_indep _ 0 ((fun n => L (Z.of_nat n + 1)) 0%nat)) by (rewrite map_length, seq_length; exact H). rewrite (map_nth (fun n => L (Z.of_nat n + 1))). rewrite seq_nth by exact H. reflexivity.
        - apply nth_overflow. rewrite map_length, seq_length. exact H. }
      exists mu. split; [split|].
      * apply Forall_forall. intros x Hx. apply in_map_iff in Hx. destruct Hx as (n & <- & Hn). apply in_seq in Hn. apply G. lia.
      * intro n. rewrite !R. destruct (Nat.ltb_spec (Datatypes.S n) (Datatypes.S N)); destruct (Nat.ltb_spec n (Datatypes.S N)); try lia.
        -- replace (Z.of_nat (Datatypes.S n) + 1) with (Z.of_nat n + 1 + 1) by lia. apply (proj2 S). lia.
        -- pose proof (G (Z.of_nat n + 1) ltac:(lia)). lia.
      * intros i Hi. rewrite R. destruct (Nat.ltb_spec (Z.to_nat (i - 1)) (Datatypes.S N)) as [H|H]; [f_equal; lia|]. symmetry. apply Z0. lia.
Qed.
Lemma tableau_partition : forall p : tab, well_formed p -> increasing_tableau p -> exists mu, S_Partitions.partition mu /\ forall i j, cell p i j <-> S_Partitions.cell mu i j.
Proof.
  intros p W I. destruct (shape_exists p W I) as (L & g & S & _ & R).
  assert (C : forall i j, cell p i j <-> 1 <= i /\ 1 <= j <= L i).
  { intros i j. rewrite (cell_lookup p i j W), (Rep_lookup L g p i j R), <- inside_iff. destruct (inside L i j); split; intro H; try reflexivity; try discriminate; congruence. }
  assert (B : exists N : nat, forall i j l, In ((i, j), l) p -> i <= Z.of_nat N).
  { clear. induction p as [|[[i j] l] p (N & IH)]; [exists 0%nat; intros ? ? ? []|]. exists (Nat.max N (Z.to_nat i)). intros a b m [E|H]; [injection E as <- <- <-; lia|]. specialize (IH a b m H). lia. }
  destruct B as (N & B). destruct (shape_partition L S N) as (mu & Pm & Rm).
  { intros i Hi. destruct (Z.eq_dec (L i) 0) as [E|E]; [exact E|]. exfalso. pose proof (proj1 S i ltac:(lia)). assert (K : cell p i 1) by (apply C; lia). destruct K as [l K]. specialize (B i 1 l K). lia. }
  exists mu. split; [exact Pm|]. intros i j. rewrite C. unfold S_Partitions.cell. split; intros [H1 H2]; (split; [exact H1|]); [rewrite (Rm i H1)|rewrite (Rm i H1) in H2]; exact H2.
Qed.

Lemma row_word_In : forall (p : tab) i j l x, holds p i j l -> In x l -> In x (row_reading_word p).
Proof.
  intros p i j l x H Hx. unfold row_reading_word. apply in_flat_map. exists ((i, j), l). split; [|exact Hx]. refine (Permutation_in _ (P_Standardize.isort_perm row_order p) _). exact H.
Qed.
Lemma hecke_facts : forall multi k w r, Forall (fun x => 1 <= x) w -> compatible multi w r -> Forall (fun x => 1 <= x <= k) r ->
  exists p q mu, hecke w (Some r) multi = Ok (p, q) /\ well_formed p /\ well_formed q /\ increasing_tableau p /\ (forall i j x, holds p i j [x] -> 0 <= x) /\
    semistandard_cells multi q /\ (forall i j l x, holds q i j l -> In x l -> 1 <= x <= k) /\ (forall i j, cell p i j <-> cell q i j) /\
    S_Partitions.partition mu /\ (forall i j, cell q i j <-> S_Partitions.cell mu i j) /\ Permutation (flat_map snd q) r.
Proof.
  intros multi k w r Fw C Fr. destruct (C44_record w r multi C) as (p & q0 & q & E0 & E & H & SS). destruct (C44_total w multi) as (p' & q' & E' & IP & SQ & CC). rewrite E0 in E'. injection E' as <- <-.
  assert (CQ : forall i j, cell p i j <-> cell q i j).
  { intros i j. rewrite CC. split; intros [l Hl]; [eexists; apply H; exists l; split; [exact Hl|reflexivity]|]. apply H in Hl. destruct Hl as (m & Hm & _). exists m. exact Hm. }
  assert (VQ : forall i j l x, holds q i j l -> In x l -> 1 <= x <= k).
  { intros i j l x Hl Hx. apply H in Hl. destruct Hl as (m & Hm & ->). apply in_map_iff in Hx. destruct Hx as (v & <- & Hv). destruct SQ as (_ & _ & _ & RG & _). assert (K : 1 <= v <= zlen w) by (apply RG; apply in_flat_map; exists ((i, j), m); split; assumption).
    rewrite Forall_forall in Fr. apply Fr. apply nth_In. destruct C as [LC _]. unfold zlen in K. lia. }
  destruct (hecke_core w (Some r) multi r (check_compatible w r multi C)) as (p2 & q2 & D & E2 & W2 & _ & LD & P2 & SO & _). rewrite E in E2. injection E2 as <- Eq.
  assert (Wq : well_formed q) by (rewrite Eq; exact (q'_wf q2 D r W2 LD P2 SO)).
  destruct (hecke_parts w (Some r) multi p q E) as (p1 & q1 & EI & EP). pose proof (insertion_equiv w p1 q1 EI) as HE.
  assert (W1 : well_formed p1).
  { destruct start as (S0 & I0 & R0 & Q0 & N0). destruct (run w _ _ [] [] 0 S0 I0 R0 Q0) as (p' & q' & L & g & D' & E' & _ & _ & R & _). assert (K : Ok (p1, q1) = Ok (p', q')) by (exact (eq_trans (eq_sym EI) E')). injection K as -> ->. apply R. }
  assert (V1 : forall i j l x, holds p1 i j l -> In x l -> 0 <= x).
  { intros i j l x Hl Hx. pose proof (row_word_In p1 i j l x Hl Hx) as K. apply (he_letters _ _ HE) in K. rewrite Forall_forall in Fw. specialize (Fw x K). lia. }
  assert (WV : well_formed p /\ forall i j x, holds p i j [x] -> 0 <= x).
  { destruct multi.
    - injection EP as <-. split; [exact W1|]. intros i j x Hx. apply (V1 i j [x] x Hx). left. reflexivity.
    - destruct (C32_transpose p1 W1) as (pt & Ept & Wt & Lt & _). rewrite EP in Ept. injection Ept as <-. split; [exact Wt|]. intros i j x Hx. apply (holds_transpose p1 p W1 Wt Lt) in Hx. apply (V1 j i [x] x Hx). left. reflexivity. }
  destruct WV as [Wp Vp]. destruct (tableau_partition p Wp IP) as (mu & Pm & Cm).
  exists p, q, mu. split; [exact E|]. split; [exact Wp|]. split; [exact Wq|]. split; [exact IP|]. split; [exact Vp|]. split; [exact SS|]. split; [exact VQ|]. split; [exact CQ|]. split; [exact Pm|]. split; [intros i j; rewrite <- CQ; apply Cm|].
  destruct (C101_onto multi p q Wp Wq IP Vp SS) as (w' & r' & _ & _ & _ & _ & _ & PR & U); [intros i j l x Hl Hx; specialize (VQ i j l x Hl Hx); lia|exact CQ|].
  destruct (U w r) as [_ ->]; [eapply Forall_impl; [|exact Fw]; cbv beta; intros; lia|eapply Forall_impl; [|exact Fr]; cbv beta; intros; lia|exact C|exact E|exact PR].
Qed.

(* the operator that applies to the recording tableau *)
Definition f_record (multi : bool) (i : Z) (q : tab) : res (option tab) := if multi then M_TabCrystal.f_multisetvalued i q else M_TabCrystal.f_setvalued i q.
Definition e_record (multi : bool) (i : Z) (q : tab) : res (option tab) := if multi then M_TabCrystal.e_multisetvalued i q else M_TabCrystal.e_setvalued i q.
(* a recording tableau of shape mu with entries 1, ..., k *)
Definition record_tab (multi : bool) (k : Z) (mu : list Z) (q : tab) : Prop :=
  well_formed q /\ semistandard_cells multi q /\ (forall i j l x, holds q i j l -> In x l -> 1 <= x <= k) /\ (forall i j, cell q i j <-> S_Partitions.cell mu i j).
Lemma record_multi : forall k mu q, record_tab true k mu q -> S_Multi.multiset_ssyt mu q.
Proof.
  intros k mu q (W & (S1 & S2 & S3) & V & C). split; [exact W|]. split; [exact C|]. split; [intros [i j] l H; apply (S1 i j l H)|].
  split; intros x y a b (l & Hl & Ha) (m & Hm & Hb); [exact (S2 x y l m a b Hl Hm Ha Hb)|exact (S3 x y l m a b Hl Hm Ha Hb)].
Qed.
Lemma multi_record : forall k mu q, S_Multi.multiset_ssyt mu q -> (forall x, In x (flat_map snd q) -> 1 <= x <= k) -> record_tab true k mu q.
Proof.
  intros k mu q (W & C & N & R1 & R2) V. split; [exact W|]. split; [split; [|split]|].
  - intros i j l H. split; [exact (N (i, j) l H)|left; reflexivity].
  - intros i j l m x y Hl Hm Hx Hy. apply (R1 i j x y); [exists l|exists m]; split; assumption.
  - intros i j l m x y Hl Hm Hx Hy. apply (R2 i j x y); [exists l|exists m]; split; assumption.
  - split; [|exact C]. intros i j l x Hl Hx. apply V. apply in_flat_map. exists ((i, j), l). split; assumption.
Qed.
Notation ssyt := (S_Semistandard.semistandard_filling S_Partitions.cell (fun _ _ => False)).
Lemma no_cell : forall i j, ~ S_Partitions.cell [] i j.
Proof. intros i j [_ H]. rewrite L_Partitions.row_nil in H. lia. Qed.
Lemma record_set : forall k mu q, record_tab false k mu q <-> ssyt true k [] mu q.
Proof.
  intros k mu q. split.
  - intros (W & (S1 & S2 & S3) & V & C). split; [exact W|]. split; [|split; [|split; [|split]]].
    + intros i j. unfold S_Strips.in_skew. pose proof (no_cell i j). specialize (C i j). unfold cell, holds in C. tauto.
    + intros i j l H. destruct (S1 i j l H) as [A [B|B]]; [discriminate|]. split; [exact A|]. split; [exact B|discriminate].
    + intros i j x (l & Hl & Hx). specialize (V i j l x Hl Hx). lia.
    + intros i j x y (l & Hl & Hx) (m & Hm & Hy). specialize (S2 i j l m x y Hl Hm Hx Hy). pose proof (V i j l x Hl Hx). pose proof (V i (j + 1) m y Hm Hy). unfold S_Semistandard.row_ok. lia.
    + intros i j x y (l & Hl & Hx) (m & Hm & Hy). specialize (S3 i j l m x y Hl Hm Hx Hy). pose proof (V i j l x Hl Hx). pose proof (V (i + 1) j m y Hm Hy). unfold S_Semistandard.column_ok. lia.
  - intros (W & C & N & V & R1 & R2). assert (V' : forall i j l x, holds q i j l -> In x l -> 1 <= x <= k) by (intros i j l x Hl Hx; destruct (V i j x (ex_intro _ l (conj Hl Hx))) as [A B]; destruct (Z_lt_ge_dec x 0); [destruct (B ltac:(assumption))|lia]).
    split; [exact W|]. split; [split; [|split]|split; [exact V'|]].
    + intros i j l H. destruct (N i j l H) as (A & B & _). split; [exact A|right; exact B].
    + intros i j l m x y Hl Hm Hx Hy. pose proof (V' i j l x Hl Hx). pose proof (V' i (j + 1) m y Hm Hy). specialize (R1 i j x y (ex_intro _ l (conj Hl Hx)) (ex_intro _ m (conj Hm Hy))). unfold S_Semistandard.row_ok in R1. lia.
    + intros i j l m x y Hl Hm Hx Hy. pose proof (V' i j l x Hl Hx). pose proof (V' (i + 1) j m y Hm Hy). specialize (R2 i j x y (ex_intro _ l (conj Hl Hx)) (ex_intro _ m (conj Hm Hy))). unfold S_Semistandard.column_ok in R2. lia.
    + intros i j. specialize (C i j). unfold S_Strips.in_skew in C. pose proof (no_cell i j). unfold cell, holds. tauto.
Qed.
Lemma nil_partition : S_Partitions.partition [].
Proof. split; [constructor|intro; rewrite !L_Partitions.row_nil; lia]. Qed.
(* the operators stay inside the recording tableaux, move one entry, and invert each other *)
Lemma f_total : forall multi k mu q i, S_Partitions.partition mu -> record_tab multi k mu q -> exists o, f_record multi i q = Ok o.
Proof.
  intros multi k mu q i Pm H. destruct multi.
  - apply record_multi in H. destruct (P_Multi.C93_operators i mu q Pm H) as (A & _). exact A.
  - apply record_set in H. destruct (P_TabCrystal.C92_rule i true k [] mu q nil_partition Pm H) as (A & _). exact A.
Qed.
Lemma count_filter : forall (l : list Z) m, Forall (fun x => 0 < x) l -> Z.of_nat (length (filter (fun x => Z.abs x =? m) l)) = Z.of_nat (count_occ Z.eq_dec l m).
Proof.
  induction l as [|x l IH]; intros m F; [reflexivity|]. inversion F; subst. cbn [filter count_occ]. destruct (Z.eq_dec x m) as [E|E]; destruct (Z.eqb_spec (Z.abs x) m); try lia; cbn [length]; rewrite ?Nat2Z.inj_succ, IH by assumption; lia.
Qed.
Lemma f_closed : forall multi k mu q q' i, S_Partitions.partition mu -> record_tab multi k mu q -> 0 <= i < k -> f_record multi i q = Ok (Some q') ->
  1 <= i /\ record_tab multi k mu q' /\ Permutation (i :: flat_map snd q') ((i + 1) :: flat_map snd q).
Proof.
  intros multi k mu q q' i Pm H Hi E.
  assert (PV : forall q, record_tab multi k mu q -> forall x, In x (flat_map snd q) -> 1 <= x <= k).
  { intros t (_ & _ & V & _) x Hx. apply in_flat_map in Hx. destruct Hx as ([[a b] l] & Hl & Hx). exact (V a b l x Hl Hx). }
  destruct multi; cbn [f_record] in E.
  - pose proof (record_multi _ _ _ H) as H1. pose proof (P_Multi.C93_weight i mu q q' Pm H1 E) as Pw. unfold S_Multi.content in Pw.
    assert (I1 : 1 <= i). { destruct (Z.eq_dec i 0) as [->|]; [|lia]. assert (K : In 0 (0 + 1 :: flat_map snd q)) by (apply (Permutation_in _ Pw); left; reflexivity). destruct K as [K|K]; [lia|]. apply (PV q H) in K. lia. }
    split; [exact I1|]. split; [|exact Pw]. apply multi_record; [destruct (P_Multi.C93_operators i mu q Pm H1) as (_ & _ & FO & _); apply (proj1 (FO q') E)|]. intros x Hx.
    assert (K : In x (i + 1 :: flat_map snd q)) by (apply (Permutation_in _ Pw); right; exact Hx). destruct K as [K|K]; [lia|]. exact (PV q H x K).
  - pose proof (proj1 (record_set _ _ _) H) as H1.
    assert (I1 : 1 <= i). { destruct (Z.eq_dec i 0) as [->|]; [|lia]. destruct (P_TabCrystal.C92_range 0 true k [] mu q nil_partition Pm H1) as [K _]. rewrite K in E by (left; reflexivity). discriminate. }
    assert (H2 : record_tab false k mu q') by (apply record_set; apply (P_TabCrystal.C92_closed i true k [] mu q q' nil_partition Pm H1 ltac:(lia)); left; exact E).
    split; [exact I1|]. split; [exact H2|].
    assert (F1 : Forall (fun x => 0 < x) (flat_map snd q)) by (apply Forall_forall; intros x Hx; apply (PV q H) in Hx; lia).
    assert (F2 : Forall (fun x => 0 < x) (flat_map snd q')) by (apply Forall_forall; intros x Hx; apply (PV q' H2) in Hx; lia).
    apply (Permutation_count_occ Z.eq_dec). intro m. cbn [count_occ]. destruct (Z_lt_le_dec 0 m) as [Hm|Hm].
    + pose proof (P_TabCrystal.C92_weight i true k [] mu q q' m nil_partition Pm ltac:(lia) H1 E Hm) as Wt. unfold S_Semistandard.occurrences in Wt. pose proof (count_filter _ m F1) as K1. pose proof (count_filter _ m F2) as K2. unfold tab, box in *. rewrite K1, K2 in Wt.
      destruct (Z.eqb_spec m (i + 1)); destruct (Z.eqb_spec m i); destruct (Z.eq_dec i m); destruct (Z.eq_dec (i + 1) m); lia.
    + assert (Z1 : forall l, Forall (fun x => 0 < x) l -> count_occ Z.eq_dec l m = 0%nat) by (intros l F; apply count_occ_not_In; intro K; rewrite Forall_forall in F; specialize (F m K); lia). rewrite (Z1 _ F1), (Z1 _ F2). destruct (Z.eq_dec i m); destruct (Z.eq_dec (i + 1) m); lia.
Qed.
Lemma f_inverse : forall multi k mu q q' i, S_Partitions.partition mu -> 1 <= i < k -> record_tab multi k mu q -> record_tab multi k mu q' ->
  (f_record multi i q = Ok (Some q') <-> e_record multi i q' = Ok (Some q)).
Proof.
  intros multi k mu q q' i Pm Hi H H'. destruct multi.
  - apply (P_Multi.C93_inverse i mu); [exact Pm|eapply record_multi; exact H|eapply record_multi; exact H'].
  - apply (P_TabCrystal.C92_inverse i true k [] mu); [exact nil_partition|exact Pm|exact Hi|apply record_set; exact H|apply record_set; exact H'].
Qed.

Definition element (f : Z -> Z) (len : Z) (k : nat) (decreasing : bool) (w r : list Z) : Prop :=
  hecke_word f w /\ zlen w = len /\ compatible (negb decreasing) w r /\ Forall (fun x => 1 <= x <= Z.of_nat k) r.
Lemma pair_eqb_eq : forall a b, pair_eqb a b = true <-> a = b.
Proof. intros [a1 a2] [b1 b2]. unfold pair_eqb. cbn [fst snd]. rewrite andb_true_iff, !zlist_eqb_eq. split; [intros [-> ->]; reflexivity|intro E; injection E as -> ->; split; reflexivity]. Qed.
Lemma find_index : forall els ans, NoDup els -> In ans els -> exists y, filter (fun x => pair_eqb (nth x els ([], [])) ans) (seq 0 (length els)) = [y] /\ (y < length els)%nat /\ nth y els ([], []) = ans.
Proof.
  intros els ans N H. apply (In_nth _ _ ([], [])) in H. destruct H as (y & Hy & Ey). exists y. split; [|split; assumption].
  assert (P : Permutation (filter (fun x => pair_eqb (nth x els ([], [])) ans) (seq 0 (length els))) [y]).
  { apply NoDup_Permutation; [apply NoDup_filter; apply seq_NoDup|constructor; [intros []|constructor]|]. intro z. rewrite filter_In, in_seq, pair_eqb_eq. cbn [In]. split.
    - intros [A B]. left. apply (proj1 (NoDup_nth els ([], [])) N); [exact Hy|lia|congruence].
    - intros [<-|[]]. split; [lia|exact Ey]. }
  apply Permutation_sym, Permutation_length_1_inv in P. exact P.
Qed.

(* one step, for any duplicate-free list of the elements *)
Lemma step : forall f len k decreasing els, NoDup els -> (forall w r, In (w, r) els <-> element f len k decreasing w r) -> forall x i, (x < length els)%nat -> 0 <= i < Z.of_nat k ->
  exists p q, hecke (fst (nth x els ([], []))) (Some (snd (nth x els ([], [])))) (negb decreasing) = Ok (p, q) /\
    ((word_f els decreasing x i = Ok None /\ f_record (negb decreasing) i q = Ok None) \/
     (exists y q', word_f els decreasing x i = Ok (Some y) /\ (y < length els)%nat /\ f_record (negb decreasing) i q = Ok (Some q') /\
        hecke (fst (nth y els ([], []))) (Some (snd (nth y els ([], [])))) (negb decreasing) = Ok (p, q'))).
Proof.
  intros f len k dec els N M x i Hx Hi. destruct (nth x els ([], [])) as [w r] eqn:En. cbn [fst snd].
  assert (El : element f len k dec w r) by (apply M; rewrite <- En; apply nth_In; exact Hx). destruct El as (Hw & Lw & C & Fr).
  destruct (hecke_facts (negb dec) (Z.of_nat k) w r (proj1 Hw) C Fr) as (p & q & mu & E & Wp & Wq & IP & Vp & SS & Vq & CC & Pm & Cm & PR).
  exists p, q. split; [exact E|]. assert (RT : record_tab (negb dec) (Z.of_nat k) mu q) by (split; [exact Wq|]; split; [exact SS|]; split; [exact Vq|exact Cm]).
  destruct (f_total _ _ _ _ i Pm RT) as (o & Eo).
  assert (EW : word_f els dec x i = match o with None => Ok None | Some q' => do ans <- inverse_hecke p q' (negb dec); match filter (fun z => pair_eqb (nth z els ([], [])) ans) (seq 0 (length els)) with [z] => Ok (Some z) | _ => Err AssertionError end end).
  { unfold word_f. rewrite En, E. cbn [rbind fst snd]. unfold f_record in Eo. rewrite Eo. reflexivity. }
  destruct o as [q'|]; [right|left; split; [exact EW|exact Eo]].
  destruct (f_closed _ _ _ _ _ i Pm RT Hi Eo) as (I1 & (Wq' & SS' & Vq' & Cm') & PW).
  destruct (C101_onto (negb dec) p q' Wp Wq' IP Vp SS') as (w' & r' & EI & Fw' & Fr' & C' & EH & PR' & _); [intros a b l v Hl Hv; specialize (Vq' a b l v Hl Hv); lia|intros a b; rewrite CC, Cm, Cm'; reflexivity|].
  assert (El' : element f len k dec w' r').
  { destruct (C102_class (negb dec) w w' (Some r) (Some r') p q q' E EH) as [_ HC]. split; [apply HC; exact Hw|]. split; [|split; [exact C'|]].
    - pose proof (Permutation_length PW) as L1. cbn [length] in L1. pose proof (Permutation_length PR) as L2. pose proof (Permutation_length PR') as L3. destruct C as [C1 _]. destruct C' as [C1' _]. unfold zlen in *. unfold tab, box in *. lia.
    - apply Forall_forall. intros v Hv. apply (Permutation_in _ (Permutation_sym PR')) in Hv. apply in_flat_map in Hv. destruct Hv as ([[a b] l] & Hl & Hv). exact (Vq' a b l v Hl Hv). }
  apply M in El'. destruct (find_index els (w', r') N El') as (y & Ey & Hy & Ny). exists y, q'. rewrite EW, EI. cbn [rbind]. rewrite Ey. split; [reflexivity|]. split; [exact Hy|]. split; [exact Eo|]. rewrite Ny. exact EH.
Qed.

Lemma e_closed : forall multi k mu q q' i, S_Partitions.partition mu -> record_tab multi k mu q' -> 1 <= i < k -> e_record multi i q' = Ok (Some q) -> record_tab multi k mu q.
Proof.
  intros multi k mu q q' i Pm H Hi E. destruct multi; cbn [e_record] in E.
  - pose proof (record_multi _ _ _ H) as H1. destruct (P_Multi.C93_operators i mu q' Pm H1) as (_ & _ & _ & EO). pose proof (proj1 (proj1 (EO q) E)) as H2. apply (P_Multi.C93_inverse i mu q q' Pm H2 H1) in E.
    pose proof (P_Multi.C93_weight i mu q q' Pm H2 E) as Pw. apply multi_record; [exact H2|]. intros x Hx. assert (K : In x (i :: flat_map snd q')) by (apply (Permutation_in _ (Permutation_sym Pw)); right; exact Hx). destruct K as [K|K]; [lia|].
    apply in_flat_map in K. destruct K as ([[a b] l] & Hl & K). destruct H as (_ & _ & V & _). exact (V a b l x Hl K).
  - apply record_set. apply (P_TabCrystal.C92_closed i true k [] mu q' q nil_partition Pm); [apply record_set; exact H|lia|right; exact E].
Qed.
Lemma entry : forall f len k decreasing els, (forall w r, In (w, r) els <-> element f len k decreasing w r) -> forall x, (x < length els)%nat ->
  element f len k decreasing (fst (nth x els ([], []))) (snd (nth x els ([], []))).
Proof. intros f len k dec els M x Hx. apply M. rewrite <- surjective_pairing. apply nth_In. exact Hx. Qed.
Lemma step_inverse : forall f len k decreasing els, NoDup els -> (forall w r, In (w, r) els <-> element f len k decreasing w r) -> forall y i p q q', (y < length els)%nat -> 1 <= i < Z.of_nat k ->
  hecke (fst (nth y els ([], []))) (Some (snd (nth y els ([], [])))) (negb decreasing) = Ok (p, q') -> e_record (negb decreasing) i q' = Ok (Some q) ->
  exists x, (x < length els)%nat /\ hecke (fst (nth x els ([], []))) (Some (snd (nth x els ([], [])))) (negb decreasing) = Ok (p, q) /\ word_f els decreasing x i = Ok (Some y).
Proof.
  intros f len k dec els N M y i p q q' Hy Hi E Ee. pose proof (entry f len k dec els M y Hy) as El. destruct (nth y els ([], [])) as [w' r'] eqn:Ny. cbn [fst snd] in *. destruct El as (Hw & Lw & C & Fr).
  destruct (hecke_facts (negb dec) (Z.of_nat k) w' r' (proj1 Hw) C Fr) as (p1 & q1 & mu & E1 & Wp & Wq & IP & Vp & SS & Vq & CC & Pm & Cm & PR). rewrite E in E1. injection E1 as <- <-.
  assert (RT : record_tab (negb dec) (Z.of_nat k) mu q') by (split; [exact Wq|]; split; [exact SS|]; split; [exact Vq|exact Cm]).
  pose proof (e_closed _ _ _ _ _ i Pm RT Hi Ee) as RQ. pose proof (proj2 (f_inverse _ _ _ _ _ i Pm Hi RQ RT) Ee) as Ef. destruct (f_closed _ _ _ _ _ i Pm RQ ltac:(lia) Ef) as (_ & _ & PW). pose proof RQ as (Wq0 & SS0 & Vq0 & Cm0).
  destruct (C101_onto (negb dec) p q Wp Wq0 IP Vp SS0) as (w & r & EI & Fw0 & Fr0 & C0 & EH & PR0 & _); [intros a b l v Hl Hv; specialize (Vq0 a b l v Hl Hv); lia|intros a b; rewrite CC, Cm, Cm0; reflexivity|].
  assert (El0 : element f len k dec w r).
  { destruct (C102_class (negb dec) w' w (Some r') (Some r) p q' q E EH) as [_ HC]. split; [apply HC; exact Hw|]. split; [|split; [exact C0|]].
    - pose proof (Permutation_length PW) as L1. cbn [length] in L1. pose proof (Permutation_length PR) as L2. pose proof (Permutation_length PR0) as L3. destruct C as [C1 _]. destruct C0 as [C1' _]. unfold zlen in *. unfold tab, box in *. lia.
    - apply Forall_forall. intros v Hv. apply (Permutation_in _ (Permutation_sym PR0)) in Hv. apply in_flat_map in Hv. destruct Hv as ([[a b] l] & Hl & Hv). exact (Vq0 a b l v Hl Hv). }
  apply M in El0. destruct (find_index els (w, r) N El0) as (x & _ & Hx & Nx). exists x. split; [exact Hx|]. rewrite Nx. cbn [fst snd]. split; [exact EH|].
  destruct (step f len k dec els N M x i Hx ltac:(lia)) as (p2 & q2 & E2 & [[_ K]|(y2 & q3 & Ew & Hy2 & K & E3)]); rewrite Nx in E2; cbn [fst snd] in E2; rewrite EH in E2; injection E2 as <- <-; rewrite Ef in K; [discriminate|]. injection K as <-.
  rewrite Ew. f_equal. f_equal. apply (proj1 (NoDup_nth els ([], [])) N); [exact Hy2|exact Hy|]. pose proof (entry f len k dec els M y2 Hy2) as (Hw2 & _ & C2 & Fr2). rewrite Ny.
  destruct (nth y2 els ([], [])) as [w2 r2]. cbn [fst snd] in *. assert (NW : forall v : list Z, Forall (fun x => 1 <= x) v -> Forall (fun x => 0 <= x) v) by (intros v F; eapply Forall_impl; [|exact F]; cbv beta; intros; lia).
  assert (NR : forall v : list Z, Forall (fun x => 1 <= x <= Z.of_nat k) v -> Forall (fun x => 0 < x) v) by (intros v F; eapply Forall_impl; [|exact F]; cbv beta; intros; lia).
  destruct (C45_injective w2 r2 w' r' (negb dec)) as [-> ->]; [apply NW; apply Hw2|apply NR; exact Fr2|exact C2|apply NW; apply Hw|apply NR; exact Fr|exact C|rewrite E3, E; reflexivity|reflexivity].
Qed.
Lemma step_injective : forall f len k decreasing els, NoDup els -> (forall w r, In (w, r) els <-> element f len k decreasing w r) -> forall x x' y i, (x < length els)%nat -> (x' < length els)%nat -> 0 <= i < Z.of_nat k ->
  word_f els decreasing x i = Ok (Some y) -> word_f els decreasing x' i = Ok (Some y) -> x = x'.
Proof.
  intros f len k dec els N M x x' y i Hx Hx' Hi E E'.
  destruct (step f len k dec els N M x i Hx Hi) as (p & q & H & [[K _]|(y1 & q1 & K & Hy & Ef & Hh)]); rewrite E in K; [discriminate|]. injection K as <-.
  destruct (step f len k dec els N M x' i Hx' Hi) as (p' & q' & H' & [[K _]|(y1 & q1' & K & Hy' & Ef' & Hh')]); rewrite E' in K; [discriminate|]. injection K as <-. rewrite Hh in Hh'. injection Hh' as <- <-.
  pose proof (entry f len k dec els M x Hx) as (Hw & _ & C & Fr). pose proof (entry f len k dec els M x' Hx') as (Hw' & _ & C' & Fr').
  destruct (hecke_facts (negb dec) (Z.of_nat k) _ _ (proj1 Hw) C Fr) as (p2 & q2 & mu & E1 & Wp & Wq & IP & Vp & SS & Vq & CC & Pm & Cm & PR). rewrite H in E1. injection E1 as <- <-.
  destruct (hecke_facts (negb dec) (Z.of_nat k) _ _ (proj1 Hw') C' Fr') as (p2 & q2 & mu' & E1 & _ & Wq' & _ & _ & SS' & Vq' & CC' & _ & _ & _). rewrite H' in E1. injection E1 as <- <-.
  assert (RT : record_tab (negb dec) (Z.of_nat k) mu q) by (split; [exact Wq|]; split; [exact SS|]; split; [exact Vq|exact Cm]).
  assert (RT' : record_tab (negb dec) (Z.of_nat k) mu q') by (split; [exact Wq'|]; split; [exact SS'|]; split; [exact Vq'|]; intros a b; rewrite <- CC', CC; apply Cm).
  destruct (f_closed _ _ _ _ _ i Pm RT Hi Ef) as (I1 & RU & _). assert (Hi1 : 1 <= i < Z.of_nat k) by lia. apply (f_inverse _ _ _ _ _ i Pm Hi1 RT RU) in Ef. apply (f_inverse _ _ _ _ _ i Pm Hi1 RT' RU) in Ef'. rewrite Ef in Ef'. injection Ef' as <-.
  apply (proj1 (NoDup_nth els ([], [])) N); [exact Hx|exact Hx'|]. rewrite (surjective_pairing (nth x els ([], []))), (surjective_pairing (nth x' els ([], []))).
  assert (NW : forall v : list Z, Forall (fun x => 1 <= x) v -> Forall (fun x => 0 <= x) v) by (intros v F; eapply Forall_impl; [|exact F]; cbv beta; intros; lia).
  assert (NR : forall v : list Z, Forall (fun x => 1 <= x <= Z.of_nat k) v -> Forall (fun x => 0 < x) v) by (intros v F; eapply Forall_impl; [|exact F]; cbv beta; intros; lia).
  destruct (C45_injective _ _ _ _ (negb dec) (NW _ (proj1 Hw)) (NR _ Fr) C (NW _ (proj1 Hw')) (NR _ Fr') C') as [-> ->]; [rewrite H, H'; reflexivity|reflexivity].
Qed.

Section Generator.
  Variable ord : wlevel -> wlevel.
  Variable pick : nat -> list Z -> Z.
  Hypothesis ord_perm : forall l, Permutation (ord l) l.
  Hypothesis pick_in : chooses pick.

  (* the elements: the Hecke words of the given length with all compatible records 1, ..., k, once each *)
  Theorem C103_elements : forall oneline len k decreasing fuel c, signed_word oneline -> 0 <= len -> len + 1 < Z.of_nat fuel -> hecke_cache ord pick c ->
    exists c' words, crystal_words ord pick fuel c oneline len = Ok (c', words) /\ hecke_cache ord pick c' /\ NoDup (factorizations words k decreasing) /\
      forall w r, In (w, r) (factorizations words k decreasing) <->
        hecke_word (pcall oneline) w /\ zlen w = len /\ compatible (negb decreasing) w r /\ Forall (fun x => 1 <= x <= Z.of_nat k) r.
  Proof.
    intros l len k dec fuel c Hs Hl Hf Hc. destruct (crystal_words_ok ord pick ord_perm pick_in l len Hs Hl fuel c Hf Hc) as (c' & ws & E & Hc' & N & M). exists c', ws. split; [exact E|]. split; [exact Hc'|].
    destruct (elements_ok ws k dec N) as [N2 M2]. split; [exact N2|]. intros w r. rewrite M2, M. tauto.
  Qed.
  (* the operator never raises: it gives None exactly when the operator on the recording tableau does, and else the
     index of the element with the same insertion tableau and the changed recording tableau *)
  Theorem C103_operator : forall oneline len k decreasing fuel c c' words, signed_word oneline -> 0 <= len -> len + 1 < Z.of_nat fuel -> hecke_cache ord pick c ->
    crystal_words ord pick fuel c oneline len = Ok (c', words) -> let els := factorizations words k decreasing in
    forall x i, (x < length els)%nat -> 0 <= i < Z.of_nat k ->
    exists p q, hecke (fst (nth x els ([], []))) (Some (snd (nth x els ([], [])))) (negb decreasing) = Ok (p, q) /\
      ((word_f els decreasing x i = Ok None /\ f_record (negb decreasing) i q = Ok None) \/
       (exists y q', word_f els decreasing x i = Ok (Some y) /\ (y < length els)%nat /\ f_record (negb decreasing) i q = Ok (Some q') /\
          hecke (fst (nth y els ([], []))) (Some (snd (nth y els ([], [])))) (negb decreasing) = Ok (p, q'))).
  Proof.
    intros l len k dec fuel c c' words Hs Hl Hf Hc E els. destruct (C103_elements l len k dec fuel c Hs Hl Hf Hc) as (c1 & ws & E1 & _ & N & M). rewrite E in E1. injection E1 as <- <-. exact (step (pcall l) len k dec els N M).
  Qed.
  (* no two arrows with the same label end in one element, and one ends there exactly when the lowering operator
     applies to its recording tableau *)
  Theorem C103_arrows : forall oneline len k decreasing fuel c c' words, signed_word oneline -> 0 <= len -> len + 1 < Z.of_nat fuel -> hecke_cache ord pick c ->
    crystal_words ord pick fuel c oneline len = Ok (c', words) -> let els := factorizations words k decreasing in
    (forall x x' y i, (x < length els)%nat -> (x' < length els)%nat -> 0 <= i < Z.of_nat k ->
       word_f els decreasing x i = Ok (Some y) -> word_f els decreasing x' i = Ok (Some y) -> x = x') /\
    (forall y i p q q', (y < length els)%nat -> 1 <= i < Z.of_nat k ->
       hecke (fst (nth y els ([], []))) (Some (snd (nth y els ([], [])))) (negb decreasing) = Ok (p, q') -> e_record (negb decreasing) i q' = Ok (Some q) ->
       exists x, (x < length els)%nat /\ hecke (fst (nth x els ([], []))) (Some (snd (nth x els ([], [])))) (negb decreasing) = Ok (p, q) /\ word_f els decreasing x i = Ok (Some y)).
  Proof.
    intros l len k dec fuel c c' words Hs Hl Hf Hc E els. destruct (C103_elements l len k dec fuel c Hs Hl Hf Hc) as (c1 & ws & E1 & _ & N & M). rewrite E in E1. injection E1 as <- <-.
    split; [exact (step_injective (pcall l) len k dec els N M)|exact (step_inverse (pcall l) len k dec els N M)].
  Qed.
End Generator.
Print Assumptions C103_elements.
Print Assumptions C103_operator.
Print Assumptions C103_arrows.

(* the crystal of 321 with words of length 3 and two factors: the elements are 12|1 and 2|12, joined by an arrow *)
Example C103_example : exists c words, crystal_words (fun l => l) (fun _ l => hd 0 l) 10 [] [3; 2; 1] 3 = Ok (c, words) /\
  let els := factorizations words 2 false in
  length els = 2%nat /\ exists x y, word_f els false x 1 = Ok (Some y) /\ word_f els false y 1 = Ok None /\ x <> y.
Proof.
  eexists. eexists. split; [vm_compute; reflexivity|]. cbv zeta. split; [vm_compute; reflexivity|]. 
  first [exists 0%nat, 1%nat; split; [vm_compute; reflexivity|]; split; [vm_compute; reflexivity|discriminate]
        |exists 1%nat, 0%nat; split; [vm_compute; reflexivity|]; split; [vm_compute; reflexivity|discriminate]].
Qed.
Example C103_example_hypotheses : signed_word [3; 2; 1] /\ hecke_cache (fun l => l) (fun _ l => hd 0 l) [].
Proof.
  split; [|exact (hecke_history (fun l => l) (fun _ l => hd 0 l) [] I)]. unfold signed_word. change (map Z.abs [3; 2; 1]) with [3; 2; 1]. change (zrange 1 (zlen [3; 2; 1] + 1)) with [1; 2; 3]. exact (Permutation_sym (Permutation_rev [1; 2; 3])).
Qed.
