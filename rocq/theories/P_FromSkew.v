(* C106: Partition.from_skew finds two partitions whose skew shape is the given set of positions moved to the left. *)
From Coq Require Import List ZArith Bool Lia.
From Verif Require Import PyBase M_Partitions S_Partitions L_Partitions M_SkewKey S_SkewKey P_SkewKey M_FromSkew L_FromSkew.
Import ListNotations.
Local Open Scope Z_scope.

(* [positions] is any list of the cells of lam/mu *)
Theorem C106_from_skew : forall shifted lam mu positions, part_b shifted lam -> part_b shifted mu -> (forall k, row mu k <= row lam k) -> positions <> [] ->
  (forall i j, In (i, j) positions <-> skew_cell shifted lam mu i j) ->
  exists nu' mu' c, from_skew positions shifted = Ok (nu', mu') /\ part_b shifted nu' /\ part_b shifted mu' /\
    (forall k, row mu' k <= row nu' k) /\ (length mu' < length nu')%nat /\ 0 <= c /\
    translated (skew_cell shifted nu' mu') (skew_cell shifted lam mu) 0 c /\
    (c = 0 <-> exists k, row mu k = 0 /\ 1 <= row lam k).
Proof.
  intros sh lam mu ps P Q S NE EQ. destruct (from_skew_spec sh lam mu ps P Q S NE EQ) as (nu' & mu' & m & c & E & P' & Q' & L & Z0 & C0 & CE & CL & AB & S' & R).
  exists nu', mu', c. split; [exact E|]. split; [exact P'|]. split; [exact Q'|]. split; [exact S'|]. split.
  { destruct (le_lt_dec (length nu') (length mu')) as [G|G]; [|exact G]. assert (X : (m < length mu')%nat) by lia. apply (pos_row mu' m (part_pos sh mu' Q')) in X. lia. }
  split; [exact C0|]. split.
  - intros i j. rewrite Z.add_0_r, !skew_cell_iff by (apply (part_wpart sh); assumption). split; intros (k & Ek & H); exists k; (split; [exact Ek|]).
    + apply R in H. lia.
    + apply R. lia.
  - split.
    + intro. exists m. lia.
    + intros (k & H1 & H2). destruct (le_lt_dec k m) as [G|G]; [|specialize (AB k G); lia]. pose proof (wpart_le sh mu (m - k) k (part_wpart sh mu Q)) as W. replace (m - k + k)%nat with m in W by lia. lia.
Qed.
Print Assumptions C106_from_skew.

Lemma part_nonneg : forall sh mu, part_b sh mu -> Forall (fun a => 0 <= a) mu.
Proof. intros sh mu P. apply (part_pos sh) in P. eapply Forall_impl; [|exact P]. cbn. intros; lia. Qed.

(* unshifted: the new shape has the same key *)
Theorem C106_key : forall lam mu positions, partition lam -> partition mu -> (forall k, row mu k <= row lam k) -> positions <> [] ->
  (forall i j, In (i, j) positions <-> skew_cell false lam mu i j) ->
  exists nu' mu', from_skew positions false = Ok (nu', mu') /\ skew_key nu' mu' false = skew_key lam mu false.
Proof.
  intros lam mu ps P Q S NE EQ. destruct (C106_from_skew false lam mu ps P Q S NE EQ) as (nu' & mu' & c & E & P' & Q' & _ & _ & _ & T & _).
  exists nu', mu'. split; [exact E|]. apply C105_unshifted; [apply (part_nonneg false); exact Q'|apply (part_nonneg false); exact Q|]. exists 0, c. exact T.
Qed.
Print Assumptions C106_key.

(* shifted: only shapes with a box on the diagonal keep their key, all others are moved onto the diagonal *)
Theorem C106_key_shifted : forall lam mu positions, strict_partition lam -> strict_partition mu -> (forall k, row mu k <= row lam k) -> positions <> [] ->
  (forall i j, In (i, j) positions <-> skew_cell true lam mu i j) ->
  exists nu' mu', from_skew positions true = Ok (nu', mu') /\ on_diagonal (skew_cell true nu' mu') /\
    (skew_key nu' mu' true = skew_key lam mu true <-> on_diagonal (skew_cell true lam mu)).
Proof.
  intros lam mu ps P Q S NE EQ. destruct (from_skew_spec true lam mu ps P Q S NE EQ) as (nu' & mu' & m & c & E & P' & Q' & L & Z0 & C0 & CE & CL & AB & S' & R).
  pose proof (proj1 (part_wpart true mu' Q')) as N'. pose proof (proj1 (part_wpart true mu Q)) as N.
  exists nu', mu'. split; [exact E|].
  assert (T : translated (skew_cell true nu' mu') (skew_cell true lam mu) 0 c).
  { intros i j. rewrite Z.add_0_r, !skew_cell_iff by assumption. split; intros (k & Ek & H); exists k; (split; [exact Ek|]); [apply R in H; lia|apply R; lia]. }
  assert (D : on_diagonal (skew_cell true nu' mu')).
  { exists (Z.of_nat m + 1). apply skew_cell_iff; [exact N'|]. exists m. split; [reflexivity|]. cbn [ws]. apply R. lia. }
  split; [exact D|]. rewrite C105_shifted by (apply (part_nonneg true); assumption). split.
  - intros [(d & TD)|(X & _)]; [|contradiction]. destruct D as (i & D). exists (i + d). apply TD. exact D.
  - intros (i & X). left. exists 0. assert (c = 0); [|subst c; rewrite H in T; exact T].
    apply skew_cell_iff in X; [|exact N]. destruct X as (k & Ek & X). cbn [ws] in X.
    destruct (le_lt_dec k m) as [G|G]; [|specialize (AB k G); lia]. pose proof (wpart_le true mu (m - k) k (part_wpart true mu Q)) as W. replace (m - k + k)%nat with m in W by lia. pose proof (N k). lia.
Qed.
Print Assumptions C106_key_shifted.

(* the result does not depend on the order of the set *)
Lemma lmin_set : forall l x l' x', (forall y, In y (x :: l) <-> In y (x' :: l')) -> lmin x l = lmin x' l' /\ lmax x l = lmax x' l'.
Proof.
  assert (MIN : forall l x, In (lmin x l) (x :: l) /\ forall y, In y (x :: l) -> lmin x l <= y).
  { unfold lmin. induction l as [|z l IH]; intro x; [split; [left; reflexivity|intros y [<-|[]]; cbn; lia]|]. cbn [fold_left]. destruct (IH (Z.min x z)) as [A B]. split.
    - destruct A as [A|A]; [rewrite <- A; destruct (Z.min_spec x z) as [[_ ->]|[_ ->]]; [left; reflexivity|right; left; reflexivity]|right; right; exact A].
    - intros y [<-|[<-|I]]; [specialize (B _ (or_introl eq_refl)); lia|specialize (B _ (or_introl eq_refl)); lia|apply B; right; exact I]. }
  assert (MAX : forall l x, In (lmax x l) (x :: l) /\ forall y, In y (x :: l) -> y <= lmax x l).
  { unfold lmax. induction l as [|z l IH]; intro x; [split; [left; reflexivity|intros y [<-|[]]; cbn; lia]|]. cbn [fold_left]. destruct (IH (Z.max x z)) as [A B]. split.
    - destruct A as [A|A]; [rewrite <- A; destruct (Z.max_spec x z) as [[_ ->]|[_ ->]]; [right; left; reflexivity|left; reflexivity]|right; right; exact A].
    - intros y [<-|[<-|I]]; [specialize (B _ (or_introl eq_refl)); lia|specialize (B _ (or_introl eq_refl)); lia|apply B; right; exact I]. }
  intros l x l' x' H. destruct (MIN l x) as [A B], (MIN l' x') as [A' B'], (MAX l x) as [C D], (MAX l' x') as [C' D'].
  apply H in A. apply B' in A. apply H in A'. apply B in A'. apply H in C. apply D' in C. apply H in C'. apply D in C'. lia.
Qed.
Lemma zmax_set : forall l l', (forall y, In y l -> In y l') -> zmax_list l <= zmax_list l'.
Proof.
  induction l as [|x l IH]; intros l' H; cbn [zmax_list fold_right].
  - clear H. induction l' as [|y l' IH]; cbn [zmax_list fold_right]; [lia|]. unfold zmax_list in IH. lia.
  - specialize (IH l' (fun y I => H y (or_intror I))). pose proof (zmax_ge l' x (H x (or_introl eq_refl))). unfold zmax_list in *. lia.
Qed.
Theorem C106_order : forall shifted ps ps', (forall p, In p ps <-> In p ps') -> from_skew ps shifted = from_skew ps' shifted.
Proof.
  intros sh ps ps' H. unfold from_skew.
  assert (F : zmax_list (map fst ps) = zmax_list (map fst ps')).
  { apply Z.le_antisymm; apply zmax_set; intros y I; apply in_map_iff in I; destruct I as (p & E & I); apply in_map_iff; exists p; (split; [exact E|apply H; exact I]). }
  rewrite F. assert (R : forall fuel i, fs_rows fuel sh ps i = fs_rows fuel sh ps' i); [|rewrite R; reflexivity].
  intro fuel. induction fuel as [|fuel IH]; intro i; cbn [fs_rows].
  - assert (X : existsb (fun p => i <=? fst p) ps = existsb (fun p => i <=? fst p) ps'); [|rewrite X; reflexivity].
    apply eq_true_iff_eq. rewrite !existsb_exists. split; intros (p & I & E); exists p; (split; [apply H; exact I|exact E]).
  - assert (X : existsb (fun p => i <=? fst p) ps = existsb (fun p => i <=? fst p) ps').
    { apply eq_true_iff_eq. rewrite !existsb_exists. split; intros (p & I & E); exists p; (split; [apply H; exact I|exact E]). }
    rewrite X, IH. assert (Y : forall y, In y (map snd (filter (fun p => fst p =? i) ps)) <-> In y (map snd (filter (fun p => fst p =? i) ps'))).
    { intro y. rewrite !in_map_iff. split; intros (p & E & I); apply filter_In in I; exists p; (split; [exact E|]); apply filter_In; (split; [apply H; apply I|apply I]). }
    destruct (map snd (filter (fun p => fst p =? i) ps)) as [|b l], (map snd (filter (fun p => fst p =? i) ps')) as [|b' l'].
    + reflexivity.
    + exfalso. apply (Y b'). left. reflexivity.
    + exfalso. apply (Y b). left. reflexivity.
    + destruct (lmin_set l b l' b' Y) as [-> ->]. reflexivity.
Qed.
Print Assumptions C106_order.

(* the empty set: the first loop makes no row, and the last loop never ends *)
Theorem C106_empty_refuted : forall shifted, fs_rows 0 shifted [] 1 = Ok [] /\ fs_fill shifted [] = [(0, 0)] /\
  forall fuel, fs_loop fuel (trim (map snd [(0, 0)])) (trim (map fst [(0, 0)])) = Err OutOfFuel.
Proof. intro sh. split; [reflexivity|]. split; [reflexivity|]. intro fuel. induction fuel as [|fuel IH]; [reflexivity|exact IH]. Qed.
Print Assumptions C106_empty_refuted.

(* a shape whose third row is empty; shifted shapes that are moved onto the diagonal *)
Example C106_example : from_skew (skew [5; 5; 3; 3] [4; 3; 3; 2] false) false = Ok ([3; 3; 1; 1], [2; 1; 1]) /\
  skew_key [3; 3; 1; 1] [2; 1; 1] false = skew_key [5; 5; 3; 3] [4; 3; 3; 2] false /\
  from_skew (skew [6; 4; 3] [5; 4; 1] true) true = Ok ([5; 3; 2], [4; 3]) /\
  from_skew [(1, 2)] true = Ok ([1], []) /\ skew_key [2] [1] true = Ok [(1, 2)] /\ skew_key [1] [] true = Ok [(1, 1)].
Proof. vm_compute. repeat split. Qed.
Example C106_hypotheses : partition [5; 5; 3; 3] /\ partition [4; 3; 3; 2] /\ skew [5; 5; 3; 3] [4; 3; 3; 2] false <> [].
Proof.
  split; [split; [repeat constructor|]|split; [split; [repeat constructor|]|discriminate]]; intro i; unfold row; do 5 (destruct i as [|i]; [cbn; lia|]); cbn; destruct i; lia.
Qed.
