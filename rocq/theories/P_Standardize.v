(* C97: is_semistandard, is_standard and standardize (the model is in M_Tableaux) *)
From Coq Require Import List ZArith Lia Bool Permutation Sorted.
From Verif Require Import PyBase M_Partitions L_PartBasic L_PartMore M_Tableaux S_Tableaux L_Tableaux S_Strips S_Semistandard L_Insertion7 S_Standardize.
Import ListNotations.
Local Open Scope Z_scope.

Lemma fmax_ge : forall l a, a <= fold_left Z.max l a /\ (forall x, In x l -> x <= fold_left Z.max l a) /\ (fold_left Z.max l a = a \/ In (fold_left Z.max l a) l).
Proof.
  induction l as [|b l IH]; intro a; cbn [fold_left]; [split; [lia|]; split; [intros x []|left; reflexivity]|].
  destruct (IH (Z.max a b)) as (H1 & H2 & H3). split; [lia|]. split.
  - intros x [<-|H]; [lia|apply H2; assumption].
  - destruct H3 as [H3|H3]; [|right; right; assumption]. destruct (Z.max_spec a b) as [[_ K]|[_ K]]; rewrite K in H3 at 2; [right; left; symmetry; exact H3|left; exact H3].
Qed.
Lemma fmin_le : forall l a, fold_left Z.min l a <= a /\ (forall x, In x l -> fold_left Z.min l a <= x) /\ (fold_left Z.min l a = a \/ In (fold_left Z.min l a) l).
Proof.
  induction l as [|b l IH]; intro a; cbn [fold_left]; [split; [lia|]; split; [intros x []|left; reflexivity]|].
  destruct (IH (Z.min a b)) as (H1 & H2 & H3). split; [lia|]. split.
  - intros x [<-|H]; [lia|apply H2; assumption].
  - destruct H3 as [H3|H3]; [|right; right; assumption]. destruct (Z.min_spec a b) as [[_ K]|[_ K]]; rewrite K in H3 at 2; [left; exact H3|right; left; symmetry; exact H3].
Qed.
Lemma zmax_some : forall l, l <> [] -> exists m, zmax l = Some m /\ In m l /\ forall x, In x l -> x <= m.
Proof.
  intros [|a l] H; [contradiction|]. exists (fold_left Z.max l a). split; [reflexivity|]. destruct (fmax_ge l a) as (H1 & H2 & H3). split.
  - destruct H3 as [->|H3]; [left; reflexivity|right; assumption].
  - intros x [<-|K]; [assumption|apply H2; assumption].
Qed.
Lemma zmin_some : forall l, l <> [] -> exists m, zmin l = Some m /\ In m l /\ forall x, In x l -> m <= x.
Proof.
  intros [|a l] H; [contradiction|]. exists (fold_left Z.min l a). split; [reflexivity|]. destruct (fmin_le l a) as (H1 & H2 & H3). split.
  - destruct H3 as [->|H3]; [left; reflexivity|right; assumption].
  - intros x [<-|K]; [assumption|apply H2; assumption].
Qed.
Lemma map_ne : forall (A B : Type) (f : A -> B) l, l <> [] -> map f l <> [].
Proof. intros A B f [|a l] H; [contradiction|discriminate]. Qed.
Lemma dbl_cases : forall x, x <> 0 -> (0 < x /\ dbl x = 2 * x) \/ (x < 0 /\ dbl x = 2 * (- x) - 1).
Proof. intros x H. unfold dbl. destruct (Z.ltb_spec 0 x); [left|right]; lia. Qed.
Lemma even_dbl : forall x, x <> 0 -> (dbl x mod 2 =? 0) = (0 <? x).
Proof.
  intros x H. destruct (dbl_cases x H) as [[P E]|[P E]]; rewrite E.
  - replace (2 * x) with (x * 2) by lia. rewrite Z_mod_mult. symmetry. apply Z.ltb_lt. assumption.
  - replace (2 * - x - 1) with (1 + (- x - 1) * 2) by lia. rewrite Z_mod_plus_full. change (1 mod 2) with 1. symmetry. apply Z.ltb_ge. lia.
Qed.

(* one comparison of the largest entry of a cell with the smallest of its neighbour *)
Lemma row_test : forall l w M m, (forall x, In x l -> x <> 0) -> (forall x, In x w -> x <> 0) ->
  In M (map dbl l) -> (forall x, In x (map dbl l) -> x <= M) -> In m (map dbl w) -> (forall x, In x (map dbl w) -> m <= x) ->
  (((m <? M) || ((M =? m) && negb (m mod 2 =? 0))) = false <-> forall x y, In x l -> In y w -> row_ok x y).
Proof.
  intros l w M m Nl Nw IM LM Im Lm. apply in_map_iff in IM, Im. destruct IM as (x0 & <- & Ix), Im as (y0 & <- & Iy). rewrite (even_dbl y0 (Nw y0 Iy)).
  rewrite orb_false_iff, Z.ltb_ge, andb_false_iff, Z.eqb_neq, negb_false_iff, Z.ltb_lt. split.
  - intros [H1 H2] x y Hx Hy. specialize (LM (dbl x) (in_map dbl l x Hx)). specialize (Lm (dbl y) (in_map dbl w y Hy)). unfold row_ok.
    destruct (dbl_cases x (Nl x Hx)), (dbl_cases y (Nw y Hy)), (dbl_cases x0 (Nl x0 Ix)), (dbl_cases y0 (Nw y0 Iy)); lia.
  - intro H. specialize (H x0 y0 Ix Iy). unfold row_ok in H. destruct (dbl_cases x0 (Nl x0 Ix)), (dbl_cases y0 (Nw y0 Iy)); lia.
Qed.
Lemma col_test : forall l w M m, (forall x, In x l -> x <> 0) -> (forall x, In x w -> x <> 0) ->
  In M (map dbl l) -> (forall x, In x (map dbl l) -> x <= M) -> In m (map dbl w) -> (forall x, In x (map dbl w) -> m <= x) ->
  (((m <? M) || ((M =? m) && (m mod 2 =? 0))) = false <-> forall x y, In x l -> In y w -> column_ok x y).
Proof.
  intros l w M m Nl Nw IM LM Im Lm. apply in_map_iff in IM, Im. destruct IM as (x0 & <- & Ix), Im as (y0 & <- & Iy). rewrite (even_dbl y0 (Nw y0 Iy)).
  rewrite orb_false_iff, Z.ltb_ge, andb_false_iff, Z.eqb_neq, Z.ltb_ge. split.
  - intros [H1 H2] x y Hx Hy. specialize (LM (dbl x) (in_map dbl l x Hx)). specialize (Lm (dbl y) (in_map dbl w y Hy)). unfold column_ok.
    destruct (dbl_cases x (Nl x Hx)), (dbl_cases y (Nw y Hy)), (dbl_cases x0 (Nl x0 Ix)), (dbl_cases y0 (Nw y0 Iy)); lia.
  - intro H. specialize (H x0 y0 Ix Iy). unfold column_ok in H. destruct (dbl_cases x0 (Nl x0 Ix)), (dbl_cases y0 (Nw y0 Iy)); lia.
Qed.

Section Test.
  Variable T : tab.
  Hypothesis LT : lettered T.
  Variable dp : bool.
  (* the conditions on one cell *)
  Definition cell_ok (i j : Z) (l : list Z) : Prop :=
    (dp = false -> i = j -> forall x, In x l -> 0 < x) /\
    (forall w, tlookup T (i, j + 1) = Some w -> forall x y, In x l -> In y w -> row_ok x y) /\
    (forall w, tlookup T (i + 1, j) = Some w -> forall x y, In x l -> In y w -> column_ok x y).
  Lemma lookup_ok : forall c w, tlookup T c = Some w -> w <> [] /\ forall x, In x w -> x <> 0.
  Proof.
    intros c w E. apply tlookup_In in E. destruct LT as (W & N & Z). split; [exact (N c w E)|]. intros x Hx. apply (Z (fst c) (snd c)). exists w. destruct c. split; assumption.
  Qed.
  Lemma loop_test : forall l, incl l T -> exists b, is_semistandard_loop T dp l = Ok b /\ (b = true <-> forall i j v, In ((i, j), v) l -> cell_ok i j v).
  Proof.
    induction l as [|[[i j] v] l IH]; intro I; [exists true; split; [reflexivity|]; split; [intros _ i j v []|reflexivity]|].
    destruct (IH (fun x Hx => I x (or_intror Hx))) as (b & Eb & Hb).
    assert (Iv : In ((i, j), v) T) by (apply I; left; reflexivity). assert (Lv : tlookup T (i, j) = Some v) by (apply In_tlookup; [apply LT|assumption]).
    destruct (lookup_ok _ _ Lv) as [Nv Zv]. cbn [is_semistandard_loop].
    assert (NO : ~ cell_ok i j v -> (false = true <-> forall i0 j0 v0, In ((i0, j0), v0) (((i, j), v) :: l) -> cell_ok i0 j0 v0)).
    { intro K. split; [discriminate|]. intro H. exfalso. apply K. apply H. left. reflexivity. }
    assert (D : exists d, (if (i =? j) && negb dp then match zmin v with None => Err ValueError | Some m => Ok (m <? 0) end else Ok false) = Ok d /\ (d = false <-> (dp = false -> i = j -> forall x, In x v -> 0 < x))).
    { destruct (Z.eqb_spec i j) as [->|Nij]; cbn [andb].
      - destruct dp; cbn [negb]; [exists false; split; [reflexivity|split; [discriminate|reflexivity]]|].
        destruct (zmin_some v Nv) as (m & -> & Im & Lm). exists (m <? 0). split; [reflexivity|]. rewrite Z.ltb_ge. split.
        + intros H _ _ x Hx. specialize (Lm x Hx). specialize (Zv x Hx). lia.
        + intro H. specialize (H eq_refl eq_refl m Im). lia.
      - exists false. split; [reflexivity|]. split; [intros _ _ E; contradiction|reflexivity]. }
    destruct D as (d & -> & Hd). cbn [rbind]. destruct d.
    { exists false. split; [reflexivity|]. apply NO. intros [K _]. apply Hd in K. discriminate. }
    destruct (zmax_some (map dbl v) (map_ne _ _ dbl v Nv)) as (M & -> & IM & LM).
    assert (R : exists r, match tlookup T (i, j + 1) with None => Ok false | Some w => match zmin (map dbl w) with None => Err ValueError | Some minval => Ok ((minval <? M) || ((M =? minval) && negb (minval mod 2 =? 0))) end end = Ok r
       /\ (r = false <-> forall w, tlookup T (i, j + 1) = Some w -> forall x y, In x v -> In y w -> row_ok x y)).
    { destruct (tlookup T (i, j + 1)) as [w|] eqn:Ew; [|exists false; split; [reflexivity|]; split; [intros _ w K; discriminate|reflexivity]].
      destruct (lookup_ok _ _ Ew) as [Nw Zw]. destruct (zmin_some (map dbl w) (map_ne _ _ dbl w Nw)) as (m & -> & Im & Lm). eexists. split; [reflexivity|].
      rewrite (row_test v w M m Zv Zw IM LM Im Lm). split; [intros H w' K; injection K as <-; exact H|intro H; apply H; reflexivity]. }
    destruct R as (r & -> & Hr). cbn [rbind]. destruct r.
    { exists false. split; [reflexivity|]. apply NO. intros (_ & K & _). apply Hr in K. discriminate. }
    assert (U : exists u, match tlookup T (i + 1, j) with None => Ok false | Some w => match zmin (map dbl w) with None => Err ValueError | Some minval => Ok ((minval <? M) || ((M =? minval) && (minval mod 2 =? 0))) end end = Ok u
       /\ (u = false <-> forall w, tlookup T (i + 1, j) = Some w -> forall x y, In x v -> In y w -> column_ok x y)).
    { destruct (tlookup T (i + 1, j)) as [w|] eqn:Ew; [|exists false; split; [reflexivity|]; split; [intros _ w K; discriminate|reflexivity]].
      destruct (lookup_ok _ _ Ew) as [Nw Zw]. destruct (zmin_some (map dbl w) (map_ne _ _ dbl w Nw)) as (m & -> & Im & Lm). eexists. split; [reflexivity|].
      rewrite (col_test v w M m Zv Zw IM LM Im Lm). split; [intros H w' K; injection K as <-; exact H|intro H; apply H; reflexivity]. }
    destruct U as (u & -> & Hu). cbn [rbind]. destruct u.
    { exists false. split; [reflexivity|]. apply NO. intros (_ & _ & K). apply Hu in K. discriminate. }
    exists b. split; [exact Eb|]. rewrite Hb. split.
    - intros H i0 j0 v0 [E|K]; [injection E as <- <- <-; split; [apply Hd; reflexivity|split; [apply Hr; reflexivity|apply Hu; reflexivity]]|apply H; assumption].
    - intros H i0 j0 v0 K. apply H. right. assumption.
  Qed.
  Lemma holds_lookup : forall i j x, holds T i j x <-> exists l, tlookup T (i, j) = Some l /\ In x l.
  Proof.
    intros i j x. split; intros (l & A & B); exists l; (split; [|exact B]).
    - apply In_tlookup; [apply LT|exact A].
    - apply tlookup_In. exact A.
  Qed.
  Lemma cells_ordered : (forall i j v, In ((i, j), v) T -> cell_ok i j v) <-> ordered_entries dp T.
  Proof.
    unfold ordered_entries. split.
    - intro H. split; [|split].
      + intros i j x y (l & A & B) Hy. apply holds_lookup in Hy. destruct Hy as (w & Ew & Iw). apply (proj1 (proj2 (H i j l A)) w Ew); assumption.
      + intros i j x y (l & A & B) Hy. apply holds_lookup in Hy. destruct Hy as (w & Ew & Iw). apply (proj2 (proj2 (H i j l A)) w Ew); assumption.
      + intros E i x (l & A & B). apply (proj1 (H i i l A)); [exact E|reflexivity|exact B].
    - intros (H1 & H2 & H3) i j v A. split; [|split].
      + intros E -> x Hx. apply (H3 E j). exists v. split; assumption.
      + intros w Ew x y Hx Hy. apply (H1 i j); [exists v; split; assumption|]. exists w. split; [apply tlookup_In|]; assumption.
      + intros w Ew x y Hx Hy. apply (H2 i j); [exists v; split; assumption|]. exists w. split; [apply tlookup_In|]; assumption.
  Qed.
End Test.

Theorem C97_is_semistandard : forall T diagonal_primes, lettered T ->
  exists b, is_semistandard T diagonal_primes = Ok b /\ (b = true <-> ordered_entries diagonal_primes T).
Proof.
  intros T dp LT. destruct (loop_test T LT dp T (incl_refl T)) as (b & E & H). exists b. split; [exact E|]. rewrite H. apply (cells_ordered T LT dp).
Qed.

Lemma labelled_test : forall T, zlist_eqb (sorted (map Z.abs (flat_map snd T))) (zrange 1 (zlen (map Z.abs (flat_map snd T)) + 1)) = true <-> labelled_once (length (flat_map snd T)) T.
Proof.
  intro T. rewrite zlist_eqb_eq. unfold labelled_once. set (l := map Z.abs (flat_map snd T)). set (N := length (flat_map snd T)).
  assert (EN : zlen l = Z.of_nat N) by (unfold zlen, l, N; rewrite map_length; reflexivity). rewrite EN.
  assert (IX : forall x, In x (flat_map snd T) -> In (Z.abs x) l) by (intros; apply in_map; assumption).
  split.
  - intro E. assert (P : Permutation l (zrange 1 (Z.of_nat N + 1))) by (rewrite <- E; apply L_Tableaux.sorted_perm).
    split; [reflexivity|]. split; [exact (Permutation_NoDup (Permutation_sym P) (NoDup_zrange _ _))|].
    intros x Hx. pose proof (Permutation_in _ P (IX x Hx)) as K. apply In_zrange in K. lia.
  - intros (_ & ND & B). assert (P : Permutation l (zrange 1 (Z.of_nat N + 1))).
    { apply NoDup_Permutation_bis; [exact ND| |].
      - rewrite length_zrange. unfold zlen in EN. lia.
      - intros x Hx. apply in_map_iff in Hx. destruct Hx as (y & <- & Hy). apply In_zrange. specialize (B y Hy). lia. }
    apply increasing_perm_eq; [apply sorted_increasing| |exact (Permutation_trans (Permutation_sym (L_Tableaux.sorted_perm l)) P)].
    clear. assert (K : forall n a, increasing (zrange a (a + Z.of_nat n))).
    { induction n as [|n IH]; intro a; [rewrite zrange_nil by lia; constructor|]. rewrite zrange_cons by lia. constructor.
      - replace (a + Z.of_nat (S n)) with (a + 1 + Z.of_nat n) by lia. apply IH.
      - apply Forall_forall. intros x Hx. apply In_zrange in Hx. lia. }
    replace (Z.of_nat N + 1) with (1 + Z.of_nat N) by lia. apply K.
Qed.
Theorem C97_is_standard : forall T, lettered T ->
  exists b, is_standard T = Ok b /\ (b = true <-> ordered_entries false T /\ labelled_once (length (flat_map snd T)) T).
Proof.
  intros T LT. destruct (C97_is_semistandard T false LT) as (b & E & H). unfold is_standard. rewrite E. cbn [rbind]. destruct b.
  - eexists. split; [reflexivity|]. rewrite labelled_test. split; [intro K; split; [apply H; reflexivity|exact K]|intros [_ K]; exact K].
  - exists false. split; [reflexivity|]. split; [discriminate|]. intros [K _]. apply H in K. discriminate.
Qed.

(* ---------- standardize ---------- *)
Section Sort.
  Context {A : Type} (leb : A -> A -> bool).
  Hypothesis tot : forall x y, leb x y = true \/ leb y x = true.
  Hypothesis trans : forall x y z, leb x y = true -> leb y z = true -> leb x z = true.
  Lemma ins_by_perm : forall x l, Permutation (x :: l) (ins_by leb x l).
  Proof. induction l as [|y l IH]; cbn [ins_by]; [apply Permutation_refl|]. destruct (leb x y); [apply Permutation_refl|]. eapply Permutation_trans; [apply perm_swap|]. apply perm_skip. exact IH. Qed.
  Lemma isort_perm : forall l, Permutation l (isort leb l).
  Proof. induction l as [|y l IH]; [constructor|]. cbn [isort fold_right]. eapply Permutation_trans; [apply perm_skip; exact IH|apply ins_by_perm]. Qed.
  Lemma ins_by_sorted : forall x l, StronglySorted (fun a b => leb a b = true) l -> StronglySorted (fun a b => leb a b = true) (ins_by leb x l).
  Proof.
    induction l as [|y l IH]; intro H; cbn [ins_by]; [repeat constructor|]. inversion H as [|? ? H1 H2]; subst. destruct (leb x y) eqn:E.
    - constructor; [exact H|]. constructor; [exact E|]. rewrite Forall_forall in *. intros z Hz. exact (trans _ _ _ E (H2 z Hz)).
    - constructor; [apply IH; exact H1|]. rewrite Forall_forall in *. intros z Hz. apply (Permutation_in _ (Permutation_sym (ins_by_perm x l))) in Hz. destruct Hz as [<-|Hz]; [|apply H2; exact Hz].
      destruct (tot x y) as [K|K]; [congruence|exact K].
  Qed.
  Lemma isort_sorted : forall l, StronglySorted (fun a b => leb a b = true) (isort leb l).
  Proof. induction l as [|y l IH]; [constructor|]. cbn [isort fold_right]. apply ins_by_sorted. exact IH. Qed.
End Sort.
Lemma sorted_nth : forall (A : Type) (R : A -> A -> Prop) l d i j, StronglySorted R l -> (i < j < length l)%nat -> R (nth i l d) (nth j l d).
Proof.
  induction l as [|a l IH]; intros d i j H L; cbn [length] in L; [lia|]. inversion H as [|? ? H1 H2]; subst. destruct j as [|j]; [lia|]. destruct i as [|i]; cbn [nth].
  - rewrite Forall_forall in H2. apply H2. apply nth_In. lia.
  - apply IH; [exact H1|lia].
Qed.
Lemma std_total : forall x y, std_order x y = true \/ std_order y x = true.
Proof.
  intros [v [i j]] [w [r s]]. unfold std_order, box_ltb. cbn [fst snd]. rewrite !negb_true_iff, !orb_false_iff, !andb_false_iff, !Z.ltb_ge, !Z.eqb_neq.
  destruct (v <? 0), (w <? 0); cbn [fst snd]; lia.
Qed.
Lemma std_trans : forall x y z, std_order x y = true -> std_order y z = true -> std_order x z = true.
Proof.
  intros [v [i j]] [w [r s]] [u [p q]]. unfold std_order, box_ltb. cbn [fst snd]. rewrite !negb_true_iff, !orb_false_iff, !andb_false_iff, !Z.ltb_ge, !Z.eqb_neq.
  destruct (v <? 0), (w <? 0), (u <? 0); cbn [fst snd]; lia.
Qed.
Lemma std_meaning : forall v i j w p q, v <> 0 -> w <> 0 -> std_order (v, (i, j)) (w, (p, q)) = true ->
  letter_lt v w \/ (v = w /\ (0 < v -> j <= q) /\ (v < 0 -> i <= p)).
Proof.
  intros v i j w p q Nv Nw. unfold std_order, box_ltb, letter_lt. cbn [fst snd]. rewrite !negb_true_iff, !orb_false_iff, !andb_false_iff, !Z.ltb_ge, !Z.eqb_neq.
  destruct (Z.ltb_spec v 0), (Z.ltb_spec w 0); cbn [fst snd]; lia.
Qed.
Lemma rfold_map : forall (A B C : Type) (f : C -> B -> res C) (g : A -> B) l a, rfold f (map g l) a = rfold (fun c x => f c (g x)) l a.
Proof. induction l as [|x l IH]; intro a; [reflexivity|]. cbn [map rfold]. destruct (f a (g x)); [apply IH|reflexivity]. Qed.
Lemma number_In : forall (A : Type) (d : A) E s a e, In (a, e) (combine (zrange s (s + zlen E)) E) -> s <= a < s + zlen E /\ nth (Z.to_nat (a - s)) E d = e.
Proof.
  intros A d. induction E as [|x E IH]; intros s a e H; [destruct (zrange s (s + zlen [])); destruct H|].
  rewrite zlen_cons in *. pose proof (zlen_nonneg _ E). rewrite zrange_cons in H by lia. cbn [combine] in H. destruct H as [H|H].
  - injection H as <- <-. split; [lia|]. rewrite Z.sub_diag. reflexivity.
  - replace (s + (zlen E + 1)) with (s + 1 + zlen E) in H by lia. destruct (IH _ _ _ H) as [B K]. split; [lia|]. replace (Z.to_nat (a - s)) with (S (Z.to_nat (a - (s + 1)))) by lia. exact K.
Qed.
Lemma combine_fst : forall (A B : Type) (l : list A) (m : list B), length l = length m -> map fst (combine l m) = l.
Proof. induction l as [|a l IH]; intros [|b m] H; try discriminate; [reflexivity|]. cbn [combine map fst]. rewrite IH; [reflexivity|]. injection H. auto. Qed.
Lemma combine_snd : forall (A B : Type) (l : list A) (m : list B), length l = length m -> map snd (combine l m) = m.
Proof. induction l as [|a l IH]; intros [|b m] H; try discriminate; [reflexivity|]. cbn [combine map snd]. rewrite IH; [reflexivity|]. injection H. auto. Qed.
Lemma at_cell_In : forall c X x, In x (at_cell c X) <-> In (x, c) X.
Proof.
  intros c X x. unfold at_cell. rewrite in_map_iff. split.
  - intros ([y d] & <- & H). apply filter_In in H. destruct H as [H E]. apply box_eqb_eq in E. cbn [snd fst] in *. subst d. exact H.
  - intro H. exists (x, c). split; [reflexivity|]. apply filter_In. split; [exact H|apply box_eqb_refl].
Qed.
Lemma at_cells_perm : forall X Y, (forall c, Permutation (at_cell c X) (at_cell c Y)) -> Permutation X Y.
Proof.
  induction X as [|[x c] X IH]; intros Y H.
  - destruct Y as [|[y d] Y]; [constructor|]. specialize (H d). unfold at_cell in H. cbn [filter map snd] in H. rewrite box_eqb_refl in H. apply Permutation_nil in H. discriminate.
  - assert (I : In (x, c) Y). { apply at_cell_In. apply (Permutation_in _ (H c)). apply at_cell_In. left. reflexivity. }
    apply in_split in I. destruct I as (Y1 & Y2 & ->). apply Permutation_cons_app. apply IH. intro d. specialize (H d). rewrite at_cell_app in *. unfold at_cell in *. cbn [filter snd] in H.
    destruct (box_eqb c d); [cbn [map fst] in H; apply Permutation_cons_app_inv in H; exact H|exact H].
Qed.
Lemma before_ext : forall a b, StronglySorted before a -> StronglySorted before b -> (forall x, In x a <-> In x b) -> a = b.
Proof.
  induction a as [|x a IH]; intros [|y b] Ha Hb H.
  - reflexivity.
  - exfalso. apply (proj2 (H y)). left. reflexivity.
  - exfalso. apply (proj1 (H x)). left. reflexivity.
  - pose proof (sorted_head_notin _ _ Ha) as Na. pose proof (sorted_head_notin _ _ Hb) as Nb. inversion Ha as [|? ? A1 A2]; inversion Hb as [|? ? B1 B2]; subst. rewrite Forall_forall in *.
    assert (x = y).
    { destruct (proj1 (H x) (or_introl eq_refl)) as [E|I]; [congruence|]. destruct (proj2 (H y) (or_introl eq_refl)) as [E|J]; [exact E|]. exfalso. apply (before_irrefl x). eapply before_trans; [apply A2; exact J|apply B2; exact I]. }
    subst y. f_equal. apply IH; [assumption|assumption|]. intro z. split; intro K.
    + destruct (proj1 (H z) (or_intror K)) as [<-|L]; [contradiction|exact L].
    + destruct (proj2 (H z) (or_intror K)) as [<-|L]; [contradiction|exact L].
Qed.
Lemma tag_fst : forall t, map fst (tag t) = flat_map snd t.
Proof. induction t as [|[c l] t IH]; [reflexivity|]. unfold tag. cbn [flat_map fst snd]. rewrite map_app, map_map. cbn [fst]. rewrite map_id. f_equal. exact IH. Qed.

Definition srank (av : Z * (Z * box)) : Z * box := (if 0 <? fst (snd av) then fst av + 1 else - fst av - 1, snd (snd av)).
Lemma abs_srank : forall av, 0 <= fst av -> Z.abs (fst (srank av)) = fst av + 1.
Proof. intros [a [v c]] H. unfold srank. cbn [fst snd] in *. destruct (0 <? v); lia. Qed.

Theorem C97_standardize : forall T, lettered T -> exists S, standardize T = Ok S /\ standardization_of T S.
Proof.
  intros T LT. pose proof LT as (W & NE & NZ). set (E := isort std_order (tag T)). assert (PE : Permutation (tag T) E) by apply isort_perm.
  set (P := combine (zrange 0 (zlen E)) E). assert (LP : length (zrange 0 (zlen E)) = length E) by (rewrite length_zrange; unfold zlen; lia).
  set (X := map srank P). assert (SX : map snd X = map snd E).
  { unfold X. rewrite map_map. transitivity (map snd (map snd P)); [rewrite map_map; reflexivity|]. unfold P. rewrite combine_snd by exact LP. reflexivity. }
  assert (IT : forall v c, In (v, c) E <-> exists l, tlookup T c = Some l /\ In v l).
  { intros v c. rewrite <- (tag_In T v c) by apply W. split; intro H; [exact (Permutation_in _ (Permutation_sym PE) H)|exact (Permutation_in _ PE H)]. }
  destruct (tadds X [] wf_nil) as (u & Eu & Wu & Pu & Nu).
  { intros x c H. apply (in_map snd) in H. rewrite SX in H. apply in_map_iff in H. destruct H as ([v d] & Ed & H). cbn [snd] in Ed. subst d. apply IT in H. destruct H as (l & H & _). exact (proj1 (wf_lookup T c l W H)). }
  exists u. split.
  { unfold standardize. change (isort std_order (flat_map (fun cv => map (fun v => (v, fst cv)) (snd cv)) T)) with E. fold P. rewrite <- Eu. unfold X. rewrite rfold_map. reflexivity. }
  set (d0 := (0, (0, 0)) : Z * box). set (letter := fun a => fst (nth (Z.to_nat (a - 1)) E d0)).
  assert (IP : forall a v c, In (a, (v, c)) P -> 0 <= a < zlen E /\ nth (Z.to_nat a) E d0 = (v, c)).
  { intros a v c H. unfold P in H. destruct (number_In _ d0 E 0 a (v, c) H) as [B K]. rewrite Z.sub_0_r in K. split; [lia|exact K]. }
  assert (PT : Permutation (tag u) X).
  { apply at_cells_perm. intro c. rewrite at_cell_tag by apply Wu. exact (Pu c). }
  assert (AX : map Z.abs (map fst X) = zrange 1 (zlen E + 1)).
  { unfold X. rewrite map_map, map_map. transitivity (map (fun a => a + 1) (map fst P)).
    - rewrite map_map. apply map_ext_in. intros [a [v c]] H. apply abs_srank. apply IP in H. destruct H as [H _]. cbn [fst]. lia.
    - unfold P. rewrite combine_fst by exact LP. pose proof (zlen_nonneg _ E). assert (K : forall n s, map (fun a => a + 1) (zrange s (s + Z.of_nat n)) = zrange (s + 1) (s + Z.of_nat n + 1)).
      { induction n as [|n IH]; intro s; [rewrite !zrange_nil by lia; reflexivity|]. rewrite (zrange_cons s) by lia. rewrite (zrange_cons (s + 1) (s + Z.of_nat (S n) + 1)) by lia. cbn [map]. f_equal.
        replace (s + Z.of_nat (S n)) with (s + 1 + Z.of_nat n) by lia. apply IH. }
      specialize (K (Z.to_nat (zlen E)) 0). rewrite Z2Nat.id in K by lia. exact K. }
  assert (HX : forall i j s, holds u i j s -> exists k v, (k < length E)%nat /\ nth k E d0 = (v, (i, j)) /\ Z.abs s = Z.of_nat k + 1 /\ s = (if 0 <? v then Z.of_nat k + 1 else - (Z.of_nat k) - 1) /\ letter (Z.abs s) = v).
  { intros i j s (l & A & B). assert (I : In (s, (i, j)) X). { apply (Permutation_in _ PT). apply tag_In; [apply Wu|]. exists l. split; [apply In_tlookup; [apply Wu|exact A]|exact B]. }
    apply in_map_iff in I. destruct I as ([a [v c]] & Es & I). pose proof (IP a v c I) as [Ba Na]. pose proof (abs_srank (a, (v, c)) ltac:(cbn [fst]; lia)) as AB. rewrite Es in AB. cbn [fst] in AB.
    unfold srank in Es. cbn [fst snd] in Es. injection Es as Es Ec. subst c. exists (Z.to_nat a), v. split; [unfold zlen in Ba; lia|]. split; [exact Na|]. rewrite Z2Nat.id by lia. split; [exact AB|]. split; [symmetry; exact Es|].
    unfold letter. rewrite AB. replace (a + 1 - 1) with a by lia. rewrite Na. reflexivity. }
  assert (NZE : forall k, (k < length E)%nat -> fst (nth k E d0) <> 0).
  { intros k Hk. pose proof (nth_In E d0 Hk) as I. destruct (nth k E d0) as [v [i j]]. apply IT in I. destruct I as (l & A & B). apply (NZ i j). exists l. split; [apply tlookup_In; exact A|exact B]. }
  split; [exact Wu|]. split.
  { apply before_ext; [apply Wu|apply W|]. intro c. split; intro H.
    - destruct (tlookup T c) as [l|] eqn:El; [apply tlookup_In in El; apply (in_map fst) in El; exact El|]. exfalso. revert H. apply tlookup_None. apply Nu. split; [reflexivity|].
      rewrite SX. intro K. apply in_map_iff in K. destruct K as ([v d] & Ed & K). cbn [snd] in Ed. subst d. apply IT in K. destruct K as (l & K & _). congruence.
    - destruct (tlookup u c) as [l|] eqn:El; [apply tlookup_In in El; apply (in_map fst) in El; exact El|]. exfalso. apply Nu in El. destruct El as [_ K]. apply K. rewrite SX.
      apply in_map_iff in H. destruct H as ([d l] & Ed & H). cbn [fst] in Ed. subst d. destruct l as [|v l]; [exfalso; exact (NE c [] H eq_refl)|]. apply (in_map snd E (v, c)). apply IT. exists (v :: l). split; [apply In_tlookup; [apply W|exact H]|left; reflexivity]. }
  assert (EL : length E = length (flat_map snd T)).
  { rewrite <- tag_fst, map_length. symmetry. apply Permutation_length. exact PE. }
  assert (PL : Permutation (map Z.abs (flat_map snd u)) (zrange 1 (zlen E + 1))).
  { rewrite <- tag_fst, <- AX. apply Permutation_map, Permutation_map. exact PT. }
  split.
  { split; [|split].
    - apply Permutation_length in PL. rewrite map_length, length_zrange in PL. unfold zlen in PL. refine (eq_trans PL _). refine (eq_trans _ EL). lia.
    - exact (Permutation_NoDup (Permutation_sym PL) (NoDup_zrange _ _)).
    - intros x Hx. pose proof (Permutation_in _ PL (in_map Z.abs _ x Hx)) as K. apply In_zrange in K. unfold zlen in K. pose proof (f_equal Z.of_nat EL) as EL'. rewrite <- EL'. lia. }
  exists letter. split; [|split].
  - intros c l m Hl Hm. assert (Em : entries u c = m) by (unfold entries; rewrite (In_tlookup u c m) by (first [apply Wu|exact Hm]); reflexivity).
    assert (El : entries T c = l) by (unfold entries; rewrite (In_tlookup T c l) by (first [apply W|exact Hl]); reflexivity).
    rewrite <- Em, <- El. eapply Permutation_trans; [apply Permutation_map; apply Pu|]. cbn [entries tlookup app].
    replace (map (fun s => letter (Z.abs s)) (at_cell c X)) with (at_cell c E).
    { rewrite <- (at_cell_tag T c) by apply W. apply at_cell_perm. apply Permutation_sym. exact PE. }
    transitivity (at_cell c (map snd P)); [unfold P; rewrite combine_snd by exact LP; reflexivity|]. unfold X.
    assert (K : forall p, In p P -> letter (Z.abs (fst (srank p))) = fst (snd p)).
    { intros [a [v e]] H. destruct (IP a v e H) as [Ba Na]. rewrite abs_srank by (cbn [fst]; lia). unfold letter. cbn [fst snd]. replace (a + 1 - 1) with a by lia. rewrite Na. reflexivity. }
    clear -K. induction P as [|p P IH]; [reflexivity|]. unfold at_cell in *. cbn [map filter]. change (snd (srank p)) with (snd (snd p)). destruct (box_eqb (snd (snd p)) c); cbn [map].
    + f_equal; [symmetry; apply K; left; reflexivity|]. apply IH. intros; apply K; right; assumption.
    + apply IH. intros; apply K; right; assumption.
  - intros i j s H. destruct (HX i j s H) as (k & v & Hk & Ek & As & Es & Ls). rewrite Ls. pose proof (NZE k Hk) as Nv. rewrite Ek in Nv. cbn [fst] in Nv. destruct (Z.ltb_spec 0 v); lia.
  - intros i j a p q b Ha Hb Hab. destruct (HX i j a Ha) as (k & v & Hk & Ek & Aa & Ea & La). destruct (HX p q b Hb) as (k' & v' & Hk' & Ek' & Ab & Eb & Lb). rewrite La, Lb.
    pose proof (NZE k Hk) as Nv. pose proof (NZE k' Hk') as Nv'. rewrite Ek in Nv. rewrite Ek' in Nv'. cbn [fst] in *.
    pose proof (sorted_nth _ _ E d0 k k' (isort_sorted std_order std_total std_trans (tag T)) ltac:(lia)) as O. cbn beta in O. rewrite Ek, Ek' in O.
    exact (std_meaning v i j v' p q Nv Nv' O).
Qed.

Lemma NoDup_left : forall (A : Type) (a b : list A), NoDup (a ++ b) -> NoDup a.
Proof. induction a as [|x a IH]; intros b H; [constructor|]. cbn [app] in H. inversion H as [|? ? H1 H2]; subst. constructor; [intro K; apply H1; apply in_app_iff; left; exact K|exact (IH b H2)]. Qed.
Lemma NoDup_right : forall (A : Type) (a b : list A), NoDup (a ++ b) -> NoDup b.
Proof. induction a as [|x a IH]; intros b H; [exact H|]. cbn [app] in H. inversion H as [|? ? H1 H2]; subst. exact (IH b H2). Qed.
(* numbers determine their cells *)
Lemma label_cell : forall S i j a p q b, NoDup (map Z.abs (flat_map snd S)) -> holds S i j a -> holds S p q b -> Z.abs a = Z.abs b -> (i, j) = (p, q) /\ a = b.
Proof.
  induction S as [|[c l] S IH]; intros i j a p q b ND (la & A1 & A2) (lb & B1 & B2) E; [destruct A1|]. cbn [flat_map snd] in ND. rewrite map_app in ND.
  assert (N1 : NoDup (map Z.abs l)) by (exact (NoDup_left _ _ _ ND)).
  assert (N2 : NoDup (map Z.abs (flat_map snd S))) by (exact (NoDup_right _ _ _ ND)).
  assert (DJ : forall x y r s ls, In x l -> In ((r, s), ls) S -> In y ls -> Z.abs x <> Z.abs y).
  { intros x y r s ls Hx Hs Hy K. assert (I1 : In (Z.abs x) (map Z.abs l)) by (apply in_map; exact Hx).
    assert (I2 : In (Z.abs x) (map Z.abs (flat_map snd S))) by (rewrite K; apply in_map; apply in_flat_map; exists ((r, s), ls); split; assumption).
    revert I1 I2. clear -ND. generalize dependent (map Z.abs l). intro l'. induction l' as [|z m IHm]; intros ND I1 I2; [destruct I1|]. cbn [app] in ND. inversion ND as [|? ? M1 M2]; subst. destruct I1 as [->|I1]; [apply M1; apply in_app_iff; right; exact I2|apply IHm; assumption]. }
  destruct A1 as [A1|A1], B1 as [B1|B1].
  - injection A1 as -> ->. injection B1 as -> -> ->. split; [reflexivity|]. clear -N1 A2 B2 E. induction lb as [|z m IHm]; [destruct A2|]. cbn [map] in N1. inversion N1 as [|? ? M1 M2]; subst. destruct A2 as [->|A2], B2 as [->|B2].
    + reflexivity.
    + exfalso. apply M1. rewrite E. apply in_map. exact B2.
    + exfalso. apply M1. rewrite <- E. apply in_map. exact A2.
    + apply IHm; assumption.
  - injection A1 as -> ->. exfalso. exact (DJ a b p q lb A2 B1 B2 E).
  - injection B1 as -> ->. exfalso. exact (DJ b a i j la B2 A1 A2 (eq_sym E)).
  - apply (IH i j a p q b N2); [exists la; split; assumption|exists lb; split; assumption|exact E].
Qed.
Lemma std_cell : forall (T S : tab) c l, map fst S = map fst T -> In (c, l) S -> exists m, In (c, m) T.
Proof. intros T S c l E H. apply (in_map fst) in H. rewrite E in H. apply in_map_iff in H. destruct H as ([d m] & Ed & H). cbn [fst] in Ed. subst d. exists m. exact H. Qed.

Lemma standardized_lettered : forall T S, lettered T -> standardization_of T S -> lettered S.
Proof.
  intros T S (W & NE & NZ) (WS & K & (LN & ND & B) & letter & L1 & L2 & L3). split; [exact WS|]. split.
  - intros c m Hm ->. destruct (std_cell T S c [] K Hm) as (l & Hl). specialize (L1 c l [] Hl Hm). cbn [map] in L1. apply Permutation_nil in L1. exact (NE c l Hl L1).
  - intros i j x (l & A & C) ->. specialize (B 0 ltac:(apply in_flat_map; exists ((i, j), l); split; assumption)). cbn in B. lia.
Qed.

Theorem C97_standardized_order : forall T S diagonal_primes, lettered T -> ordered_entries diagonal_primes T -> standardization_of T S ->
  (forall i j a b, holds S i j a -> holds S i (j + 1) b -> Z.abs a < Z.abs b) /\
  (forall i j a b, holds S i j a -> holds S (i + 1) j b -> Z.abs a < Z.abs b) /\
  is_semistandard S diagonal_primes = Ok true /\ (diagonal_primes = false -> is_standard S = Ok true).
Proof.
  intros T S dp LT (O1 & O2 & O3) HS. pose proof (standardized_lettered T S LT HS) as LS. pose proof LT as (W & NE & NZ).
  pose proof HS as (WS & K & LO & letter & L1 & L2 & L3). pose proof LO as (LN & ND & B).
  assert (H0 : forall i j s, holds S i j s -> holds T i j (letter (Z.abs s)) /\ letter (Z.abs s) <> 0 /\ s <> 0).
  { intros i j s (m & A & C). destruct (std_cell T S (i, j) m K A) as (l & Hl). assert (HT : holds T i j (letter (Z.abs s))).
    { exists l. split; [exact Hl|]. apply (Permutation_in _ (L1 _ _ _ Hl A)). apply (in_map (fun s => letter (Z.abs s))). exact C. }
    split; [exact HT|]. split; [exact (NZ i j _ HT)|]. apply (proj2 (proj2 LS) i j). exists m. split; assumption. }
  assert (R1 : forall i j a b, holds S i j a -> holds S i (j + 1) b -> Z.abs a < Z.abs b).
  { intros i j a b Ha Hb. destruct (H0 _ _ _ Ha) as (Ta & Na & _), (H0 _ _ _ Hb) as (Tb & Nb & _). pose proof (O1 i j _ _ Ta Tb) as R. unfold row_ok in R.
    destruct (Z.lt_trichotomy (Z.abs a) (Z.abs b)) as [C|[C|C]]; [exact C| |].
    - destruct (label_cell S i j a i (j + 1) b ND Ha Hb C) as [E _]. injection E. lia.
    - destruct (L3 _ _ _ _ _ _ Hb Ha C) as [F|(F1 & F2 & F3)]; [unfold letter_lt in F; lia|]. rewrite F1 in F2. lia. }
  assert (R2 : forall i j a b, holds S i j a -> holds S (i + 1) j b -> Z.abs a < Z.abs b).
  { intros i j a b Ha Hb. destruct (H0 _ _ _ Ha) as (Ta & Na & _), (H0 _ _ _ Hb) as (Tb & Nb & _). pose proof (O2 i j _ _ Ta Tb) as R. unfold column_ok in R.
    destruct (Z.lt_trichotomy (Z.abs a) (Z.abs b)) as [C|[C|C]]; [exact C| |].
    - destruct (label_cell S i j a (i + 1) j b ND Ha Hb C) as [E _]. injection E. lia.
    - destruct (L3 _ _ _ _ _ _ Hb Ha C) as [F|(F1 & F2 & F3)]; [unfold letter_lt in F; lia|]. rewrite F1 in F3. lia. }
  assert (OS : ordered_entries dp S).
  { split; [intros i j a b Ha Hb; left; exact (R1 i j a b Ha Hb)|]. split; [intros i j a b Ha Hb; left; exact (R2 i j a b Ha Hb)|].
    intros E i x Hx. destruct (H0 _ _ _ Hx) as (Tx & _). apply (proj2 (L2 _ _ _ Hx)). exact (O3 E i _ Tx). }
  split; [exact R1|]. split; [exact R2|]. split.
  - destruct (C97_is_semistandard S dp LS) as (b & E & H). rewrite E. f_equal. apply H. exact OS.
  - intros ->. destruct (C97_is_standard S LS) as (b & E & H). rewrite E. f_equal. apply H. split; [exact OS|]. rewrite LN. exact LO.
Qed.

(* the standardisation and the number of entries of each absolute value determine a tableau *)
Lemma letters_all : forall (letter : Z -> Z) (T S : tab), map fst S = map fst T -> (forall c l m, In (c, l) T -> In (c, m) S -> Permutation (map (fun s => letter (Z.abs s)) m) l) ->
  Permutation (map (fun s => letter (Z.abs s)) (flat_map snd S)) (flat_map snd T).
Proof.
  intros letter T. induction T as [|[c l] T IH]; intros [|[d m] S] K H; try discriminate; [constructor|]. cbn [map fst] in K. injection K as -> K. cbn [flat_map snd]. rewrite map_app. apply Permutation_app.
  - apply (H c); left; reflexivity.
  - apply (IH S K). intros e a b Ha Hb. apply (H e); right; assumption.
Qed.
Lemma labels_all : forall N S, labelled_once N S -> Permutation (map Z.abs (flat_map snd S)) (zrange 1 (Z.of_nat N + 1)).
Proof.
  intros N S (L & ND & B). apply NoDup_Permutation_bis; [exact ND| |].
  - rewrite length_zrange, map_length. lia.
  - intros x Hx. apply in_map_iff in Hx. destruct Hx as (y & <- & Hy). apply In_zrange. specialize (B y Hy). lia.
Qed.
Lemma monotone_map : forall (f : Z -> Z) n s, (forall a b, s <= a -> a < b -> b < s + Z.of_nat n -> f a <= f b) -> increasing (map f (zrange s (s + Z.of_nat n))).
Proof.
  induction n as [|n IH]; intros s H; [rewrite zrange_nil by lia; constructor|]. rewrite zrange_cons by lia. cbn [map]. constructor.
  - replace (s + Z.of_nat (S n)) with (s + 1 + Z.of_nat n) by lia. apply IH. intros a b A1 A2 A3. apply H; lia.
  - apply Forall_forall. intros x Hx. apply in_map_iff in Hx. destruct Hx as (y & <- & Hy). apply In_zrange in Hy. apply H; lia.
Qed.
Lemma count_abs : forall m l, Z.of_nat (count_occ Z.eq_dec (map Z.abs l) m) = Z.of_nat (length (filter (fun x => Z.abs x =? m) l)).
Proof.
  induction l as [|x l IH]; [reflexivity|]. cbn [map count_occ filter]. destruct (Z.eq_dec (Z.abs x) m) as [E|E].
  - rewrite (proj2 (Z.eqb_eq _ _) E). cbn [length]. lia.
  - rewrite (proj2 (Z.eqb_neq _ _) E). exact IH.
Qed.
Lemma abs_letters : forall T S letter, standardization_of T S -> (forall c l m, In (c, l) T -> In (c, m) S -> Permutation (map (fun s => letter (Z.abs s)) m) l) ->
  (forall i j a p q b, holds S i j a -> holds S p q b -> Z.abs a < Z.abs b -> Z.abs (letter (Z.abs a)) <= Z.abs (letter (Z.abs b))) ->
  let N := length (flat_map snd T) in
  increasing (map (fun a => Z.abs (letter a)) (zrange 1 (1 + Z.of_nat N))) /\ Permutation (map (fun a => Z.abs (letter a)) (zrange 1 (1 + Z.of_nat N))) (map Z.abs (flat_map snd T)).
Proof.
  intros T S letter (WS & K & LO & _) L1 L3 N. pose proof (labels_all _ S LO) as PL. fold N in PL. replace (Z.of_nat N + 1) with (1 + Z.of_nat N) in PL by lia.
  assert (HL : forall a, 1 <= a < 1 + Z.of_nat N -> exists i j s, holds S i j s /\ Z.abs s = a).
  { intros a Ha. assert (I : In a (map Z.abs (flat_map snd S))) by (apply (Permutation_in _ (Permutation_sym PL)); apply In_zrange; lia).
    apply in_map_iff in I. destruct I as (s & Es & I). apply in_flat_map in I. destruct I as ([[i j] l] & A & B). exists i, j, s. split; [exists l; split; assumption|exact Es]. }
  split.
  - apply monotone_map. intros a b A1 A2 A3. destruct (HL a ltac:(lia)) as (i & j & s & Hs & <-). destruct (HL b ltac:(lia)) as (p & q & t & Ht & <-). exact (L3 i j s p q t Hs Ht A2).
  - eapply Permutation_trans; [apply Permutation_map; apply Permutation_sym; exact PL|]. rewrite map_map. rewrite <- (map_map (fun s => letter (Z.abs s)) Z.abs). apply Permutation_map. apply letters_all; assumption.
Qed.
Theorem C97_destandardize : forall T T' S, lettered T -> lettered T' -> standardization_of T S -> standardization_of T' S ->
  (forall m, occurrences m T = occurrences m T') -> T = T'.
Proof.
  intros T T' S (W & NE & NZ) (W' & NE' & NZ') HS HS' OC. pose proof HS as (WS & K & LO & letter & L1 & L2 & L3). pose proof HS' as (_ & K' & LO' & letter' & L1' & L2' & L3').
  destruct (abs_letters T S letter HS L1) as [I1 P1]. { intros i j a p q b Ha Hb Hab. destruct (L3 i j a p q b Ha Hb Hab) as [F|[F _]]; [unfold letter_lt in F; lia|rewrite F; lia]. }
  destruct (abs_letters T' S letter' HS' L1') as [I2 P2]. { intros i j a p q b Ha Hb Hab. destruct (L3' i j a p q b Ha Hb Hab) as [F|[F _]]; [unfold letter_lt in F; lia|rewrite F; lia]. }
  cbv zeta in *. assert (EN : length (flat_map snd T') = length (flat_map snd T)) by (rewrite <- (proj1 LO), <- (proj1 LO'); reflexivity). rewrite EN in *. set (N := length (flat_map snd T)) in *.
  assert (PP : Permutation (map Z.abs (flat_map snd T)) (map Z.abs (flat_map snd T'))).
  { apply (Permutation_count_occ Z.eq_dec). intro m. apply Nat2Z.inj. rewrite !count_abs. exact (OC m). }
  assert (EQ : map (fun a => Z.abs (letter a)) (zrange 1 (1 + Z.of_nat N)) = map (fun a => Z.abs (letter' a)) (zrange 1 (1 + Z.of_nat N))).
  { apply increasing_perm_eq; [exact I1|exact I2|]. eapply Permutation_trans; [exact P1|]. eapply Permutation_trans; [exact PP|]. apply Permutation_sym. exact P2. }
  assert (EL : forall i j s, holds S i j s -> letter (Z.abs s) = letter' (Z.abs s)).
  { intros i j s Hs. assert (A : Z.abs (letter (Z.abs s)) = Z.abs (letter' (Z.abs s))).
    { apply (ext_in_map EQ). apply In_zrange. destruct Hs as (l & A & B). destruct LO as (_ & _ & BD). specialize (BD s ltac:(apply in_flat_map; exists ((i, j), l); split; assumption)). lia. }
    pose proof (L2 i j s Hs). pose proof (L2' i j s Hs). lia. }
  apply wf_ext; [exact W|exact W'|]. intros [i j]. destruct (tlookup T (i, j)) as [l|] eqn:El.
  - pose proof (tlookup_In _ _ _ El) as Il. destruct (std_cell S T (i, j) l (eq_sym K) Il) as (m & Hm). destruct (std_cell T' S (i, j) m K' Hm) as (l' & Il').
    rewrite (In_tlookup T' (i, j) l') by (first [apply W'|exact Il']). f_equal. apply increasing_perm_eq; [apply (proj2 W (i, j) l Il)|apply (proj2 W' (i, j) l' Il')|].
    eapply Permutation_trans; [apply Permutation_sym; exact (L1 _ _ _ Il Hm)|]. eapply Permutation_trans; [|exact (L1' _ _ _ Il' Hm)].
    rewrite (map_ext_in _ (fun s => letter' (Z.abs s))); [apply Permutation_refl|]. intros s Is. apply (EL i j). exists m. split; assumption.
  - symmetry. apply tlookup_None. apply tlookup_None in El. intro C. apply El. pose proof (eq_trans (eq_sym K) K') as KK. refine (eq_ind_r (fun z => In (i, j) z) C KK).
Qed.

(* the rows 1 2',2 and 3' 3 of a shifted tableau: 2' and 2 share the cell (1, 2) *)
Definition example_T : tab := [((1, 1), [1]); ((1, 2), [-2; 2]); ((2, 2), [-3])].
Example C97_example :
  lettered example_T /\ ordered_entries true example_T /\
  is_semistandard example_T true = Ok true /\ is_semistandard example_T false = Ok false /\ is_standard example_T = Ok false /\
  standardize example_T = Ok [((1, 1), [1]); ((1, 2), [-2; 3]); ((2, 2), [-4])] /\
  is_semistandard [((1, 1), [1]); ((2, 1), [1])] true = Ok false /\ is_semistandard [((1, 1), [-1]); ((1, 2), [-1])] true = Ok false /\
  is_semistandard [((1, 1), [1]); ((1, 2), [1])] true = Ok true /\ is_semistandard [((1, 1), [-1]); ((2, 1), [-1])] true = Ok true /\
  standardize [((1, 1), [1]); ((1, 2), [1]); ((1, 3), [2]); ((2, 1), [2])] = Ok [((1, 1), [1]); ((1, 2), [2]); ((1, 3), [4]); ((2, 1), [3])] /\
  is_standard [((1, 1), [1]); ((1, 2), [2]); ((1, 3), [4]); ((2, 1), [3])] = Ok true.
Proof.
  assert (L : lettered example_T).
  { unfold example_T. split; [split|split].
    - repeat constructor; unfold before; cbn [fst snd]; lia.
    - intros c l [E|[E|[E|[]]]]; injection E as <- <-; cbn [fst snd]; (split; [lia|split; [lia|]]); repeat constructor; lia.
    - intros c l [E|[E|[E|[]]]]; injection E as <- <-; discriminate.
    - intros i j x (l & [E|[E|[E|[]]]] & I); injection E as <- <- <-; cbn [In] in I; intuition lia. }
  split; [exact L|]. split; [destruct (C97_is_semistandard example_T true L) as (b & E & H); apply H; vm_compute in E; injection E as <-; reflexivity|].
  repeat (split; [vm_compute; reflexivity|]). vm_compute. reflexivity.
Qed.
Print Assumptions C97_is_semistandard.
Print Assumptions C97_is_standard.
Print Assumptions C97_standardize.
Print Assumptions C97_standardized_order.
Print Assumptions C97_destandardize.
