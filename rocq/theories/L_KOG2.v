(* The two helpers as instances of the engine: which fillings they produce. *)
From Coq Require Import List ZArith Lia Bool Permutation Sorted.
From Verif Require Import PyBase L_PartEnum M_Tableaux L_Tableaux M_Rims L_Rims2 M_KOG S_KOG L_KOG1.
Import ListNotations.
Local Open Scope Z_scope.

Lemma existsb_ext_set : forall A (f : A -> bool) l1 l2, (forall x, In x l1 <-> In x l2) -> existsb f l1 = existsb f l2.
Proof.
  intros A f l1 l2 H. apply eq_true_iff_eq. rewrite !existsb_exists. split; intros (x & Hx & E); exists x; (split; [apply H; exact Hx|exact E]).
Qed.
Lemma existsb_ext_fun : forall A (f g : A -> bool) l, (forall x, f x = g x) -> existsb f l = existsb g l.
Proof. intros A f g l H. induction l as [|x l IH]; [reflexivity|]. cbn. rewrite H, IH. reflexivity. Qed.
Lemma bmem_ext : forall x l1 l2, (forall y, In y l1 <-> In y l2) -> bmem x l1 = bmem x l2.
Proof. intros x l1 l2 H. unfold bmem. apply existsb_ext_set. exact H. Qed.

Definition crn1 (n : Z) := kog_corner.
Definition skip1 (n : Z) (f : list fcell) : bool := false.
Definition crn2 := klg_corner.
Definition skip2 (n : Z) (f : list fcell) : bool := negb ((n <? 0) && negb (existsb (fun c => snd c =? - n) f)).
Lemma crn1_ext : forall n f1 f2 l1 l2 x, (forall c, In c f1 <-> In c f2) -> (forall y, In y l1 <-> In y l2) -> crn1 n f1 l1 x = crn1 n f2 l2 x.
Proof.
  intros n f1 f2 l1 l2 [i j] Hf Hl. unfold crn1, kog_corner. rewrite !(bmem_ext _ l1 l2 Hl). f_equal. f_equal. rewrite (existsb_ext_set _ _ f1 f2 Hf). apply existsb_ext_fun. intro c. apply existsb_ext_set. exact Hf.
Qed.
Lemma skip1_ext : forall n f1 f2, (forall c, In c f1 <-> In c f2) -> skip1 n f1 = skip1 n f2.
Proof. reflexivity. Qed.
Lemma crn2_ext : forall n f1 f2 l1 l2 x, (forall c, In c f1 <-> In c f2) -> (forall y, In y l1 <-> In y l2) -> crn2 n f1 l1 x = crn2 n f2 l2 x.
Proof.
  intros n f1 f2 l1 l2 [i j] Hf Hl. unfold crn2, klg_corner. rewrite !(bmem_ext _ l1 l2 Hl), !(existsb_ext_set _ _ f1 f2 Hf). reflexivity.
Qed.
Lemma skip2_ext : forall n f1 f2, (forall c, In c f1 <-> In c f2) -> skip2 n f1 = skip2 n f2.
Proof. intros n f1 f2 H. unfold skip2. rewrite (existsb_ext_set _ _ f1 f2 H). reflexivity. Qed.

Fixpoint down (n : nat) : list Z := match n with O => [] | S n' => Z.of_nat n :: down n' end.
Fixpoint klabels (n : nat) : list Z := match n with O => [] | S n' => Z.of_nat n :: - Z.of_nat n :: klabels n' end.
Lemma down_In : forall n v, In v (down n) <-> 1 <= v <= Z.of_nat n.
Proof. induction n as [|n IH]; intro v; cbn [down In]; [lia|]. rewrite IH. lia. Qed.
Lemma klabels_In : forall n v, In v (klabels n) <-> 1 <= Z.abs v <= Z.of_nat n.
Proof. induction n as [|n IH]; intro v; cbn [klabels In]; [lia|]. rewrite IH. lia. Qed.
Lemma down_sorted : forall n, StronglySorted (fun u v => v < u) (down n).
Proof. induction n as [|n IH]; cbn [down]; constructor; [exact IH|]. apply Forall_forall. intros v H. apply down_In in H. lia. Qed.
Lemma mark_rank_cases : forall v, 0 < v /\ mark_rank v = 2 * v \/ v <= 0 /\ mark_rank v = -2 * v - 1.
Proof. intro v. unfold mark_rank. destruct (Z.ltb_spec 0 v); [left|right]; split; lia. Qed.
Lemma mark_rank_inj : forall u v, mark_rank u = mark_rank v -> u = v.
Proof. intros u v. destruct (mark_rank_cases u) as [[A B]|[A B]], (mark_rank_cases v) as [[C D]|[C D]]; rewrite B, D; lia. Qed.
Lemma klabels_sorted : forall n, StronglySorted (fun u v => mark_rank v < mark_rank u) (klabels n).
Proof.
  induction n as [|n IH]; cbn [klabels]; [constructor|]. constructor; [constructor; [exact IH|]|].
  - apply Forall_forall. intros v H. apply klabels_In in H. destruct (mark_rank_cases v) as [[A B]|[A B]], (mark_rank_cases (- Z.of_nat (S n))) as [[C D]|[C D]]; rewrite B, D; lia.
  - constructor; [|apply Forall_forall; intros v H; apply klabels_In in H].
    + destruct (mark_rank_cases (Z.of_nat (S n))) as [[A B]|[A B]], (mark_rank_cases (- Z.of_nat (S n))) as [[C D]|[C D]]; rewrite B, D; lia.
    + destruct (mark_rank_cases v) as [[A B]|[A B]], (mark_rank_cases (Z.of_nat (S n))) as [[C D]|[C D]]; rewrite B, D; lia.
Qed.
Lemma sorted_split : forall r l1 (a : Z) l2, StronglySorted (fun u v => r v < r u) (l1 ++ a :: l2) -> forall m, In m l1 <-> In m (l1 ++ a :: l2) /\ (r a : Z) < r m.
Proof.
  intros r. induction l1 as [|b l1 IH]; intros a l2 S m; cbn [app] in *; inversion S as [|? ? S1 S2]; subst.
  - cbn [In]. split; [intros []|]. intros [[<-|H] K]; [lia|]. rewrite Forall_forall in S2. specialize (S2 m H). cbn beta in S2. lia.
  - cbn [In]. rewrite (IH a l2 S1). rewrite Forall_forall in S2. split; [|tauto]. intros [<-|[H K]]; [|tauto]. split; [tauto|]. apply S2. apply in_or_app. right. left. reflexivity.
Qed.
Lemma desc_NoDup : forall r (l : list Z), StronglySorted (fun u v => (r v : Z) < r u) l -> NoDup l.
Proof. intros r. induction l as [|a l IH]; intro S; [constructor|]. inversion S as [|? ? S1 S2]; subst. constructor; [|apply IH; exact S1]. intro H. rewrite Forall_forall in S2. specialize (S2 a H). cbn beta in S2. lia. Qed.

Lemma dec_exists : forall (f : box -> bool) C, (exists x, In x C /\ f x = true) \/ (forall x, In x C -> f x = false).
Proof.
  intros f C. destruct (existsb f C) eqn:E; [left; apply existsb_exists; exact E|right]. intros x Hx. apply not_true_is_false. intro K. assert (X : existsb f C = true) by (apply existsb_exists; exists x; tauto). congruence.
Qed.
Definition swb (x y : box) : bool := (fst y <=? fst x) && (snd x <=? snd y).
Lemma swb_ok : forall x y, swb x y = true <-> southwest x y.
Proof. intros x y. unfold swb, southwest. rewrite andb_true_iff, !Z.leb_le. tauto. Qed.

Lemma kog_valid : forall p C F, valid crn1 skip1 (down p) [] C F <-> kog_filling (fun x => In x C) (Z.of_nat p) F.
Proof.
  intros p C F. pose proof (down_sorted p) as DS. rewrite (valid_closed crn1 skip1 crn1_ext skip1_ext) by exact (desc_NoDup (fun v => v) _ DS).
  assert (SP : forall l1 n l2, down p = l1 ++ n :: l2 -> forall m, In m l1 <-> (1 <= m <= Z.of_nat p /\ n < m)).
  { intros l1 n l2 E m. rewrite E in DS. rewrite (sorted_split (fun v => v) l1 n l2 DS), <- E, down_In. tauto. }
  (* the corner test at a cell *)
  assert (CT : (forall x, In x C -> 1 <= F x <= Z.of_nat p) -> forall l1 n l2 i j, down p = l1 ++ n :: l2 -> In (i, j) C -> F (i, j) = n ->
    (crn1 n (graph F (filter (fun x => inz (F x) l1) C)) (filter (fun x => negb (inz (F x) l1)) C) (i, j) = true <->
      (In (i, j + 1) C -> n < F (i, j + 1)) /\ (In (i + 1, j) C -> n < F (i + 1, j)) /\
      (forall y z, In y C -> In z C -> southwest (i, j) y -> southwest z y -> n < F y -> F y < F z -> False))).
  { intros B l1 n l2 i j E Hx Ex. unfold crn1, kog_corner. rewrite !andb_true_iff, !negb_true_iff, <- !not_true_iff_false, !bmem_In, !filter_In, !negb_true_iff, <- !not_true_iff_false, !inz_In, !(SP l1 n l2 E). split.
    - intros [[H1 H2] H3]. split; [|split].
      + intro K. specialize (B _ K). destruct (Z_lt_le_dec n (F (i, j + 1))); [assumption|]. exfalso. apply H1. split; [exact K|]. lia.
      + intro K. specialize (B _ K). destruct (Z_lt_le_dec n (F (i + 1, j))); [assumption|]. exfalso. apply H2. split; [exact K|]. lia.
      + intros [k1 k2] [m1 m2] Hy Hz S1 S2 L1 L2. apply H3. apply existsb_exists. exists ((k1, k2), F (k1, k2)). split; [apply graph_In; split; [|reflexivity]; apply filter_In; split; [exact Hy|]; apply inz_In, (SP l1 n l2 E); specialize (B _ Hy); lia|].
        apply existsb_exists. exists ((m1, m2), F (m1, m2)). split; [apply graph_In; split; [|reflexivity]; apply filter_In; split; [exact Hz|]; apply inz_In, (SP l1 n l2 E); specialize (B _ Hz); lia|]. unfold southwest in *. cbn [fst snd] in *. rewrite !andb_true_iff. lia.
    - intros (H1 & H2 & H3). split; [split|].
      + intros [K Q]. specialize (H1 K). specialize (B _ K). apply Q. lia.
      + intros [K Q]. specialize (H2 K). specialize (B _ K). apply Q. lia.
      + intro K. apply existsb_exists in K. destruct K as ([[k1 k2] a] & Hy & K). apply existsb_exists in K. destruct K as ([[m1 m2] b] & Hz & K). apply graph_In in Hy, Hz. destruct Hy as [Hy ->], Hz as [Hz ->]. apply filter_In in Hy, Hz. destruct Hy as [Hy Iy], Hz as [Hz Iz]. apply inz_In, (SP l1 n l2 E) in Iy, Iz. rewrite !andb_true_iff in K. apply (H3 (k1, k2) (m1, m2) Hy Hz); unfold southwest; cbn [fst snd]; lia. }
  split.
  - intros [A D].
    assert (B : forall x, In x C -> 1 <= F x <= Z.of_nat p) by (intros x Hx; apply down_In; apply A; exact Hx).
    assert (D' : forall i j, In (i, j) C -> (In (i, j + 1) C -> F (i, j) < F (i, j + 1)) /\ (In (i + 1, j) C -> F (i, j) < F (i + 1, j)) /\
      (forall y z, In y C -> In z C -> southwest (i, j) y -> southwest z y -> F (i, j) < F y -> F y < F z -> False)).
    { intros i j Hx. specialize (A _ Hx). apply in_split in A. destruct A as (l1 & l2 & E). destruct (D l1 _ l2 E) as [D1 _]. cbv zeta in D1. cbn [app] in D1. apply (CT B l1 _ l2 i j E Hx eq_refl). apply D1; [exact Hx|reflexivity]. }
    split; [exact B|]. split; [|split; [split|]].
    + intros v Hv. apply down_In in Hv. apply in_split in Hv. destruct Hv as (l1 & l2 & E). destruct (D l1 _ l2 E) as [_ D2]. destruct D2 as [D2|D2]; [discriminate|exact D2].
    + intros i j H1 H2. apply (D' i j H1). exact H2.
    + intros i j H1 H2. apply (D' i j H1). exact H2.
    + intros y Hy. destruct (dec_exists (fun x => swb x y && (F x <? F y)) C) as [(x & Hx & E)|H].
      * left. intros z Hz Sz. apply andb_true_iff in E. destruct E as [E1 E2]. apply swb_ok in E1. apply Z.ltb_lt in E2. destruct (Z_le_gt_dec (F z) (F y)); [assumption|]. exfalso. destruct x as [i j]. destruct (D' i j Hx) as (_ & _ & K). apply (K y z Hy Hz E1 Sz E2). lia.
      * right. intros x Hx Sx. specialize (H x Hx). apply swb_ok in Sx. rewrite Sx in H. cbn [andb] in H. apply Z.ltb_ge in H. exact H.
  - intros (B & Sj & [I1 I2] & O). split; [intros x Hx; apply down_In, B; exact Hx|]. intros l1 n l2 E. cbv zeta. cbn [app]. split.
    + intros [i j] Hx Ex. apply (CT B l1 n l2 i j E Hx Ex). split; [intro K; rewrite <- Ex; apply I1; assumption|]. split; [intro K; rewrite <- Ex; apply I2; assumption|]. intros y z Hy Hz S1 S2 L1 L2. destruct (O y Hy) as [Q|Q]; [specialize (Q z Hz S2); lia|specialize (Q _ Hx S1); lia].
    + right. apply Sj. apply down_In. rewrite E. apply in_or_app. right. left. reflexivity.
Qed.

Lemma klg_valid : forall p C F, valid crn2 skip2 (klabels p) [] C F <-> klg_filling (fun x => In x C) (Z.of_nat p) F.
Proof.
  intros p C F. pose proof (klabels_sorted p) as DS. rewrite (valid_closed crn2 skip2 crn2_ext skip2_ext) by exact (desc_NoDup mark_rank _ DS).
  assert (SP : forall l1 n l2, klabels p = l1 ++ n :: l2 -> forall m, In m l1 <-> (1 <= Z.abs m <= Z.of_nat p /\ mark_rank n < mark_rank m)).
  { intros l1 n l2 E m. rewrite E in DS. rewrite (sorted_split mark_rank l1 n l2 DS), <- E, klabels_In. tauto. }
  assert (CT : (forall x, In x C -> 1 <= Z.abs (F x) <= Z.of_nat p) -> forall l1 n l2 i j, klabels p = l1 ++ n :: l2 -> In (i, j) C -> F (i, j) = n ->
    (crn2 n (graph F (filter (fun x => inz (F x) l1) C)) (filter (fun x => negb (inz (F x) l1)) C) (i, j) = true <->
      (In (i, j + 1) C -> mark_rank n < mark_rank (F (i, j + 1))) /\ (In (i + 1, j) C -> mark_rank n < mark_rank (F (i + 1, j))) /\
      (i = j -> 0 < n) /\ (forall y, In y C -> southwest (i, j) y -> F y < 0 -> mark_rank (F y) <= mark_rank n) /\
      (0 < n -> forall z, In z C -> southwest z (i, j) -> mark_rank (F z) <= mark_rank n))).
  { intros B l1 n l2 i j E Hx Ex. unfold crn2, klg_corner. rewrite !andb_true_iff, !orb_true_iff, !negb_true_iff, <- !not_true_iff_false, !bmem_In, !filter_In, !negb_true_iff, <- !not_true_iff_false, !inz_In, !(SP l1 n l2 E), Z.eqb_eq, !Z.ltb_lt. split.
    - intros [[[[H1 H2] H3] H4] H5]. split; [|split; [|split; [|split]]].
      + intro K. specialize (B _ K). destruct (Z_lt_le_dec (mark_rank n) (mark_rank (F (i, j + 1)))); [assumption|]. exfalso. apply H1. split; [exact K|]. lia.
      + intro K. specialize (B _ K). destruct (Z_lt_le_dec (mark_rank n) (mark_rank (F (i + 1, j)))); [assumption|]. exfalso. apply H2. split; [exact K|]. lia.
      + intro K. tauto.
      + intros [k1 k2] Hy S1 L1. destruct (Z_le_gt_dec (mark_rank (F (k1, k2))) (mark_rank n)) as [|G]; [assumption|]. exfalso. apply H4. apply existsb_exists. exists ((k1, k2), F (k1, k2)). split; [apply graph_In; split; [|reflexivity]; apply filter_In; split; [exact Hy|]; apply inz_In, (SP l1 n l2 E); specialize (B _ Hy); lia|]. unfold southwest in *. cbn [fst snd] in *. rewrite !andb_true_iff. lia.
      + intros L [m1 m2] Hz S1. destruct (Z_le_gt_dec (mark_rank (F (m1, m2))) (mark_rank n)) as [|G]; [assumption|]. exfalso. destruct H5 as [H5|H5]; [lia|]. apply H5. apply existsb_exists. exists ((m1, m2), F (m1, m2)). split; [apply graph_In; split; [|reflexivity]; apply filter_In; split; [exact Hz|]; apply inz_In, (SP l1 n l2 E); specialize (B _ Hz); lia|]. unfold southwest in *. cbn [fst snd] in *. rewrite !andb_true_iff. lia.
    - intros (H1 & H2 & H3 & H4 & H5). split; [split; [split; [split|]|]|].
      + intros [K Q]. specialize (H1 K). specialize (B _ K). apply Q. lia.
      + intros [K Q]. specialize (H2 K). specialize (B _ K). apply Q. lia.
      + destruct (Z.eq_dec i j) as [K|K]; [right; apply H3; exact K|left; exact K].
      + intro K. apply existsb_exists in K. destruct K as ([[k1 k2] a] & Hy & K). apply graph_In in Hy. destruct Hy as [Hy ->]. apply filter_In in Hy. destruct Hy as [Hy Iy]. apply inz_In, (SP l1 n l2 E) in Iy. rewrite !andb_true_iff in K. specialize (H4 (k1, k2) Hy). unfold southwest in H4. cbn [fst snd] in H4. lia.
      + destruct (Z_lt_le_dec n 0) as [L|L]; [left; exact L|right]. assert (P0 : 0 < n) by (specialize (B _ Hx); rewrite Ex in B; lia). intro K. apply existsb_exists in K. destruct K as ([[m1 m2] b] & Hz & K). apply graph_In in Hz. destruct Hz as [Hz ->]. apply filter_In in Hz. destruct Hz as [Hz Iz]. apply inz_In, (SP l1 n l2 E) in Iz. rewrite !andb_true_iff in K. specialize (H5 P0 (m1, m2) Hz). unfold southwest in H5. cbn [fst snd] in H5. lia. }
  split.
  - intros [A D].
    assert (B : forall x, In x C -> 1 <= Z.abs (F x) <= Z.of_nat p) by (intros x Hx; apply klabels_In; apply A; exact Hx).
    assert (D' : forall i j, In (i, j) C -> (In (i, j + 1) C -> mark_rank (F (i, j)) < mark_rank (F (i, j + 1))) /\ (In (i + 1, j) C -> mark_rank (F (i, j)) < mark_rank (F (i + 1, j))) /\
      (i = j -> 0 < F (i, j)) /\ (forall y, In y C -> southwest (i, j) y -> F y < 0 -> mark_rank (F y) <= mark_rank (F (i, j))) /\
      (0 < F (i, j) -> forall z, In z C -> southwest z (i, j) -> mark_rank (F z) <= mark_rank (F (i, j)))).
    { intros i j Hx. specialize (A _ Hx). apply in_split in A. destruct A as (l1 & l2 & E). destruct (D l1 _ l2 E) as [D1 _]. cbv zeta in D1. cbn [app] in D1. apply (CT B l1 _ l2 i j E Hx eq_refl). apply D1; [exact Hx|reflexivity]. }
    split; [exact B|]. split; [|split; [split|split; [|split]]].
    + intros v Hv. assert (Hv' : In (- v) (klabels p)) by (apply klabels_In; lia). apply in_split in Hv'. destruct Hv' as (l1 & l2 & E). destruct (D l1 _ l2 E) as [_ D2]. cbv zeta in D2. cbn [app] in D2. destruct D2 as [D2|(x & Hx & Ex)]; [|exists x; split; [exact Hx|lia]].
      unfold skip2 in D2. apply negb_true_iff, andb_false_iff in D2. destruct D2 as [D2|D2]; [lia|]. apply negb_false_iff, existsb_exists in D2. destruct D2 as ([x a] & Hx & Ea). cbn [snd] in Ea. apply graph_In in Hx. destruct Hx as [Hx ->]. apply filter_In in Hx. exists x. split; [apply Hx|lia].
    + intros i j H1 H2. apply (D' i j H1). exact H2.
    + intros i j H1 H2. apply (D' i j H1). exact H2.
    + intros i H. apply (D' i i H). reflexivity.
    + intros y Hy L [i j] Hx S. destruct (D' i j Hx) as (_ & _ & _ & K & _). apply K; assumption.
    + intros [i j] Hy L x Hx S. destruct (D' i j Hy) as (_ & _ & _ & _ & K). apply K; assumption.
  - intros (B & Sj & [I1 I2] & Dg & O1 & O2). split; [intros x Hx; apply klabels_In, B; exact Hx|]. intros l1 n l2 E. cbv zeta. cbn [app]. split.
    + intros [i j] Hx Ex. apply (CT B l1 n l2 i j E Hx Ex). rewrite <- Ex. split; [intro K; apply I1; assumption|]. split; [intro K; apply I2; assumption|]. split; [intro K; subst j; apply Dg; exact Hx|]. split.
      * intros y Hy S L. apply O1; assumption.
      * intros L z Hz S. apply O2; assumption.
    + assert (Hn : In n (klabels p)) by (rewrite E; apply in_or_app; right; left; reflexivity). apply klabels_In in Hn. unfold skip2. destruct (Z.ltb_spec n 0) as [L|L]; [|left; reflexivity]. destruct (Sj (Z.abs n) Hn) as (x & Hx & Ex). destruct (Z.eq_dec (F x) n) as [Q|Q]; [right; exists x; tauto|]. left. cbn [andb]. rewrite negb_involutive. apply existsb_exists. exists (x, F x). cbn [snd]. split; [|lia]. apply graph_In. split; [|reflexivity]. apply filter_In. split; [exact Hx|]. apply inz_In, (SP l1 n l2 E). split; [apply B; exact Hx|]. assert (F x = - n) by lia. destruct (mark_rank_cases n) as [[? U]|[? U]], (mark_rank_cases (F x)) as [[? V]|[? V]]; rewrite U, V; lia.
Qed.

(* the helpers *)
Section Helpers.
  Variable cord : list box -> list box.
  Hypothesis cord_perm : forall l, Permutation (cord l) l.
  Lemma cord_nil : cord [] = [].
  Proof. apply Permutation_nil. apply Permutation_sym, cord_perm. Qed.
  Lemma kog_peel : forall n f l, kog_aux cord n f l = peel cord crn1 skip1 (down n) f l.
  Proof.
    induction n as [|n IH]; intros f l; [destruct l; reflexivity|]. destruct l as [|x l].
    - cbn [kog_aux peel down filter]. rewrite cord_nil. reflexivity.
    - cbn [peel down skip1]. change (kog_aux cord (S n) f (x :: l)) with (flat_map (fun subset => let (new_cells, new_left) := fill (Z.of_nat (S n)) f (x :: l) subset in kog_aux cord n new_cells new_left) (subsets_from 1 (cord (filter (kog_corner f (x :: l)) (x :: l))))). apply flat_map_ext. intro S. cbn [fill fst snd]. apply IH.
  Qed.
  Lemma klg_round_peel : forall n ls f l, peel cord crn2 skip2 (n :: ls) f l = flat_map (fun fl => peel cord crn2 skip2 ls (fst fl) (snd fl)) (klg_round cord n f l).
  Proof.
    intros n ls f l. cbn [peel]. unfold klg_round. rewrite (flat_map_concat_map _ (map _ _)), map_map, <- flat_map_concat_map. unfold skip2. destruct ((n <? 0) && negb (existsb (fun c => snd c =? - n) f)); reflexivity.
  Qed.
  Lemma round_nil : forall n f, klg_round cord n f [] = if (n <? 0) && negb (existsb (fun c => snd c =? - n) f) then [] else [(f, [])].
  Proof. intros n f. unfold klg_round. cbn [filter]. rewrite cord_nil. destruct ((n <? 0) && negb (existsb (fun c => snd c =? - n) f)); [reflexivity|]. unfold subsets_from, fill. cbn. rewrite app_nil_r. reflexivity. Qed.
  Lemma klg_peel : forall n f l, (forall c, In c f -> Z.of_nat n < Z.abs (snd c)) -> klg_aux cord n f l = peel cord crn2 skip2 (klabels n) f l.
  Proof.
    induction n as [|n IH]; intros f l B; [destruct l; reflexivity|]. cbn [klabels]. rewrite klg_round_peel. destruct l as [|x l].
    - cbn [klg_aux]. rewrite round_nil. replace (Z.of_nat (S n) <? 0) with false by (symmetry; apply Z.ltb_ge; lia). cbn [andb flat_map fst snd]. rewrite app_nil_r, klg_round_peel, round_nil. replace (- Z.of_nat (S n) <? 0) with true by (symmetry; apply Z.ltb_lt; lia).
      replace (existsb (fun c => snd c =? - - Z.of_nat (S n)) f) with false; [reflexivity|]. symmetry. apply not_true_is_false. intro K. apply existsb_exists in K. destruct K as (c & Hc & K). specialize (B c Hc). apply Z.eqb_eq in K. lia.
    - change (klg_aux cord (S n) f (x :: l)) with (flat_map (fun fl1 => flat_map (fun fl2 => klg_aux cord n (fst fl2) (snd fl2)) (klg_round cord (- Z.of_nat (S n)) (fst fl1) (snd fl1))) (klg_round cord (Z.of_nat (S n)) f (x :: l))).
      rewrite !flat_map_concat_map. f_equal. apply map_ext_in. intros fl1 H1. rewrite klg_round_peel, !flat_map_concat_map. f_equal. apply map_ext_in. intros fl2 H2. apply IH. intros c Hc. unfold klg_round in H1, H2. apply in_map_iff in H1, H2. destruct H1 as (S1 & <- & _). destruct H2 as (S2 & <- & _). cbn [fill fst snd] in Hc. apply in_app_iff in Hc. destruct Hc as [Hc|Hc]; [apply in_app_iff in Hc; destruct Hc as [Hc|Hc]; [specialize (B c Hc); lia|]|]; apply in_map_iff in Hc; destruct Hc as (y & <- & _); cbn [snd]; lia.
  Qed.

  Theorem kog_aux_ok : forall p C, NoDup C -> let cs := kog_aux cord p [] C in
    NoDup (map (wordof C) cs) /\ (forall c, In c cs -> Permutation (map fst c) C /\ NoDup (map fst c)) /\
    forall F, In (map F C) (map (wordof C) cs) <-> kog_filling (fun x => In x C) (Z.of_nat p) F.
  Proof.
    intros p C N. cbv zeta. rewrite kog_peel. destruct (peel_ok cord cord_perm crn1 skip1 crn1_ext skip1_ext C (down p) [] C (desc_NoDup (fun v => v) _ (down_sorted p)) N (Permutation_refl _)) as [A B]. split; [exact A|]. split.
    - intros c H. apply (peel_cells cord cord_perm crn1 skip1 C (down p) [] C c N (Permutation_refl _) H).
    - intro F. rewrite B, kog_valid. split; [tauto|]. intro K. split; [intros x a []|exact K].
  Qed.
  Theorem klg_aux_ok : forall p C, NoDup C -> let cs := klg_aux cord p [] C in
    NoDup (map (wordof C) cs) /\ (forall c, In c cs -> Permutation (map fst c) C /\ NoDup (map fst c)) /\
    forall F, In (map F C) (map (wordof C) cs) <-> klg_filling (fun x => In x C) (Z.of_nat p) F.
  Proof.
    intros p C N. cbv zeta. rewrite klg_peel by (intros c []). destruct (peel_ok cord cord_perm crn2 skip2 crn2_ext skip2_ext C (klabels p) [] C (desc_NoDup mark_rank _ (klabels_sorted p)) N (Permutation_refl _)) as [A B]. split; [exact A|]. split.
    - intros c H. apply (peel_cells cord cord_perm crn2 skip2 C (klabels p) [] C c N (Permutation_refl _) H).
    - intro F. rewrite B, klg_valid. split; [tauto|]. intro K. split; [intros x a []|exact K].
  Qed.
End Helpers.
