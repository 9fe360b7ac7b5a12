(* The dictionaries built by the counting functions *)
From Coq Require Import List ZArith Lia Bool Permutation Sorted.
From Verif Require Import PyBase M_Rref P_Rref M_Partitions S_Partitions L_Partitions M_Tableaux M_Strips M_Semistandard S_Semistandard L_Count.
Import ListNotations.
Local Open Scope Z_scope.

Definition good (n : nat) (d : cdict) : Prop :=
  NoDup (map fst d) /\ forall p c, In (p, c) d -> partition p /\ (length p <= n)%nat /\ 0 < c.

Lemma cget_cincr : forall d k c alpha, cget (cincr d k c) alpha = cget d alpha + (if zlist_eqb k alpha then c else 0).
Proof.
  intros d k c alpha. unfold cincr, cget at 1. destruct (zlist_eqb k alpha) eqn:E.
  - apply zlist_eqb_eq in E. subst. rewrite (dget_dset_same zlist_eqb zlist_eqb_eq). reflexivity.
  - rewrite (dget_dset_other zlist_eqb zlist_eqb_eq) by (intro X; subst; rewrite zlist_eqb_refl in E; discriminate). unfold cget. lia.
Qed.
Lemma cget_nonneg : forall n d k, good n d -> 0 <= cget d k.
Proof.
  intros n d k [N H]. unfold cget. destruct (dget zlist_eqb d k) as [c|] eqn:E; [|lia]. apply (dget_In zlist_eqb zlist_eqb_eq) in E. apply H in E. lia.
Qed.
Lemma dset_pairs : forall (d : cdict) k v p c, NoDup (map fst d) -> In (p, c) (dset zlist_eqb d k v) -> (p = k /\ c = v) \/ In (p, c) d.
Proof.
  induction d as [|[k' v'] d IH]; intros k v p c N H; cbn [dset] in H.
  - destruct H as [H|[]]. injection H as -> ->. left. auto.
  - inversion N as [|? ? N1 N2]; subst. destruct (zlist_eqb k' k) eqn:E.
    + destruct H as [H|H]; [injection H as -> ->; apply zlist_eqb_eq in E; left; auto|right; right; assumption].
    + destruct H as [H|H]; [right; left; assumption|]. destruct (IH k v p c N2 H) as [X|X]; [left; assumption|right; right; assumption].
Qed.
Lemma good_cincr : forall n d k c, good n d -> partition k -> (length k <= n)%nat -> 0 < c -> good n (cincr d k c).
Proof.
  intros n d k c G P L C. pose proof (cget_nonneg n d k G). destruct G as [N H0]. unfold cincr. split; [apply (dset_NoDup zlist_eqb zlist_eqb_eq); assumption|].
  intros p x Hx. apply dset_pairs in Hx; [|assumption]. destruct Hx as [[-> ->]|Hx]; [split; [assumption|]; split; [assumption|lia]|apply H0; assumption].
Qed.

Lemma row_snoc : forall p m i, row (p ++ [m]) i = if (i <? length p)%nat then row p i else if (i =? length p)%nat then m else 0.
Proof.
  intros p m i. unfold row. destruct (i <? length p)%nat eqn:E; [apply Nat.ltb_lt in E; apply app_nth1; assumption|]. apply Nat.ltb_ge in E. rewrite app_nth2 by assumption.
  destruct (i =? length p)%nat eqn:F; [apply Nat.eqb_eq in F; subst; rewrite Nat.sub_diag; reflexivity|]. apply Nat.eqb_neq in F. destruct (i - length p)%nat eqn:G; [lia|]. destruct n; reflexivity.
Qed.
Lemma last_row : forall p, p <> [] -> last p 0 = row p (length p - 1).
Proof.
  intros p H. destruct (exists_last H) as (q & a & ->). rewrite last_last, row_snoc, app_length. cbn [length].
  replace (length q + 1 - 1)%nat with (length q) by lia. rewrite Nat.ltb_irrefl, Nat.eqb_refl. reflexivity.
Qed.
Lemma partition_snoc : forall p m, partition (p ++ [m]) <-> partition p /\ 0 < m /\ (p = [] \/ m <= last p 0).
Proof.
  intros p m. split.
  - intros [F D]. apply Forall_app in F. destruct F as [F1 F2]. inversion F2 as [|? ? F3 _]; subst. split; [split; [assumption|]|split; [assumption|]].
    + intro i. specialize (D i). rewrite !row_snoc in D. destruct (S i <? length p)%nat eqn:E.
      * apply Nat.ltb_lt in E. replace (i <? length p)%nat with true in D by (symmetry; apply Nat.ltb_lt; lia). assumption.
      * apply Nat.ltb_ge in E. unfold row at 1. rewrite nth_overflow by lia. unfold row. destruct (Nat.lt_ge_cases i (length p)) as [X|X]; [|rewrite nth_overflow by lia; lia].
        rewrite Forall_forall in F1. specialize (F1 (nth i p 0) (nth_In _ _ X)). lia.
    + destruct p as [|a p]; [left; reflexivity|right]. rewrite last_row by discriminate. specialize (D (length (a :: p) - 1)%nat). rewrite !row_snoc in D. cbn [length] in *.
      replace (S (S (length p) - 1)) with (S (length p)) in D by lia. rewrite Nat.ltb_irrefl, Nat.eqb_refl in D.
      replace (S (length p) - 1 <? S (length p))%nat with true in D by (symmetry; apply Nat.ltb_lt; lia). assumption.
  - intros ([F D] & Hm & L). split; [apply Forall_app; split; [assumption|]; constructor; [assumption|constructor]|].
    intro i. rewrite !row_snoc. destruct (S i <? length p)%nat eqn:E.
    + apply Nat.ltb_lt in E. replace (i <? length p)%nat with true by (symmetry; apply Nat.ltb_lt; lia). apply D.
    + apply Nat.ltb_ge in E. destruct (S i =? length p)%nat eqn:G.
      * apply Nat.eqb_eq in G. replace (i <? length p)%nat with true by (symmetry; apply Nat.ltb_lt; lia). destruct L as [->|L]; [discriminate|].
        rewrite last_row in L by (intros ->; discriminate). replace (length p - 1)%nat with i in L by lia. assumption.
      * apply Nat.eqb_neq in G. destruct (i <? length p)%nat eqn:H; [apply Nat.ltb_lt in H; lia|]. destruct (i =? length p)%nat; lia.
Qed.

(* what one step contributes to the entry at alpha *)
Definition contrib (n : nat) (alpha p : list Z) (c m : Z) : Z :=
  if m =? 0 then (if zlist_eqb p alpha then c else 0)
  else if (length p =? n)%nat && zlist_eqb (p ++ [m]) alpha then c else 0.

Lemma prune_contrib : forall n alpha p c m m', partition alpha -> (length p <= n)%nat -> 0 < m -> m <= m' -> prune (S n) p m = true -> contrib n alpha p c m' = 0.
Proof.
  intros n alpha p c m m' Ha Hp Hm Hm' E. unfold contrib. destruct (m' =? 0) eqn:E0; [apply Z.eqb_eq in E0; lia|]. destruct (length p =? n)%nat eqn:El; [|reflexivity]. cbn [andb].
  destruct (zlist_eqb (p ++ [m']) alpha) eqn:Ea; [|reflexivity]. exfalso. apply zlist_eqb_eq in Ea. subst alpha. apply partition_snoc in Ha. destruct Ha as (_ & _ & L).
  apply Nat.eqb_eq in El. unfold prune in E. apply orb_true_iff in E. destruct E as [E|E].
  - apply Z.ltb_lt in E. unfold zlen in E. lia.
  - destruct p as [|a p]; [discriminate|]. apply Z.ltb_lt in E. destruct L as [L|L]; [discriminate|]. lia.
Qed.
Lemma prune_ok : forall n p m, partition p -> (length p <= n)%nat -> 0 < m -> prune (S n) p m = false -> partition (p ++ [m]) /\ length p = n.
Proof.
  intros n p m Hp Hl Hm E. unfold prune in E. apply orb_false_iff in E. destruct E as [E1 E2]. apply Z.ltb_ge in E1. unfold zlen in E1. split; [|lia].
  apply partition_snoc. split; [assumption|]. split; [assumption|]. destruct p as [|a p]; [left; reflexivity|right]. apply Z.ltb_ge in E2. assumption.
Qed.

Lemma count_loop_spec : forall n p c base w, partition p -> (length p <= n)%nat -> 0 < c -> 0 <= base ->
  forall is ans, StronglySorted Z.lt is -> (forall i, In i is -> 0 <= i /\ 0 < w i /\ (base + i = 0 -> w i = 1)) -> good (S n) ans ->
  good (S n) (count_loop (S n) p c base w is ans) /\
  forall alpha, partition alpha ->
    cget (count_loop (S n) p c base w is ans) alpha = cget ans alpha + zs (fun i => contrib n alpha p c (base + i) * w i) is.
Proof.
  intros n p c base w Hp Hl Hc Hb. induction is as [|i is IH]; intros ans Hs Hw G; cbn [count_loop]; [split; [assumption|]; intros; rewrite zs_nil; lia|].
  inversion Hs as [|? ? S1 S2]; subst. destruct (Hw i (or_introl eq_refl)) as (W1 & W2 & W3).
  assert (Hw' : forall i0, In i0 is -> 0 <= i0 /\ 0 < w i0 /\ (base + i0 = 0 -> w i0 = 1)) by (intros; apply Hw; right; assumption).
  destruct (base + i =? 0) eqn:E.
  - apply Z.eqb_eq in E. destruct (IH (cincr ans p c) S1 Hw') as [G' H]; [apply good_cincr; try assumption; lia|]. split; [assumption|]. intros alpha Ha. rewrite (H alpha Ha), zs_cons, cget_cincr.
    unfold contrib at 2. rewrite E. cbn [Z.eqb]. rewrite (W3 E). lia.
  - apply Z.eqb_neq in E. destruct (prune (S n) p (base + i)) eqn:Ep.
    + split; [assumption|]. intros alpha Ha. rewrite zs_zero; [lia|]. intros j Hj.
      rewrite (prune_contrib n alpha p c (base + i) (base + j)); [lia|assumption|assumption|lia| |assumption].
      destruct Hj as [<-|Hj]; [lia|]. rewrite Forall_forall in S2. apply S2 in Hj. lia.
    + destruct (prune_ok n p (base + i) Hp Hl) as [Q1 Q2]; [lia|assumption|].
      destruct (IH (cincr ans (p ++ [base + i]) (c * w i)) S1 Hw') as [G' H]; [apply good_cincr; [assumption|assumption|rewrite app_length; cbn; lia|lia]|].
      split; [assumption|]. intros alpha Ha. rewrite (H alpha Ha), zs_cons, cget_cincr. unfold contrib at 2.
      replace (base + i =? 0) with false by (symmetry; apply Z.eqb_neq; assumption). rewrite Q2, Nat.eqb_refl. cbn [andb]. destruct (zlist_eqb (p ++ [base + i]) alpha); lia.
Qed.

(* the entry at alpha: the last part is the multiplicity of the new letter *)
Definition head_of (n : nat) (alpha : list Z) : list Z := if (length alpha =? S n)%nat then removelast alpha else alpha.
Definition tail_of (n : nat) (alpha : list Z) : Z := if (length alpha =? S n)%nat then last alpha 0 else 0.

Lemma contrib_split : forall n alpha p c m, partition alpha -> (length alpha <= S n)%nat -> (length p <= n)%nat -> 0 <= m ->
  contrib n alpha p c m = if (m =? tail_of n alpha) && zlist_eqb p (head_of n alpha) then c else 0.
Proof.
  intros n alpha p c m Ha Hl Hp Hm. unfold contrib, head_of, tail_of. destruct (length alpha =? S n)%nat eqn:E.
  - apply Nat.eqb_eq in E. destruct (exists_last (l := alpha)) as (q & a & ->); [intros ->; discriminate|]. rewrite removelast_last, last_last.
    apply partition_snoc in Ha. destruct Ha as (_ & Pa & _). rewrite app_length in E. cbn [length] in E.
    destruct (m =? 0) eqn:E0.
    + apply Z.eqb_eq in E0. subst m. replace (0 =? a) with false by (symmetry; apply Z.eqb_neq; lia). cbn [andb].
      destruct (zlist_eqb p (q ++ [a])) eqn:X; [|reflexivity]. exfalso. apply zlist_eqb_eq in X. subst p. rewrite app_length in Hp. cbn [length] in Hp. lia.
    + destruct (m =? a) eqn:Em; cbn [andb].
      * apply Z.eqb_eq in Em. subst m. destruct (zlist_eqb p q) eqn:X.
        -- apply zlist_eqb_eq in X. subst p. replace (length q) with n by lia. rewrite Nat.eqb_refl, zlist_eqb_refl. reflexivity.
        -- destruct (length p =? n)%nat; [|reflexivity]. cbn [andb]. destruct (zlist_eqb (p ++ [a]) (q ++ [a])) eqn:Y; [|reflexivity]. apply zlist_eqb_eq in Y. apply app_inj_tail in Y. destruct Y as [-> _]. rewrite zlist_eqb_refl in X. discriminate.
      * destruct (length p =? n)%nat; [|reflexivity]. cbn [andb]. destruct (zlist_eqb (p ++ [m]) (q ++ [a])) eqn:Y; [|reflexivity]. apply zlist_eqb_eq in Y. apply app_inj_tail in Y. destruct Y as [_ ->]. rewrite Z.eqb_refl in Em. discriminate.
  - apply Nat.eqb_neq in E. destruct (m =? 0); [reflexivity|]. cbn [andb]. destruct (length p =? n)%nat eqn:X; [|reflexivity]. cbn [andb].
    destruct (zlist_eqb (p ++ [m]) alpha) eqn:Y; [|reflexivity]. exfalso. apply zlist_eqb_eq in Y. subst alpha. apply Nat.eqb_eq in X. rewrite app_length in E. cbn [length] in E. lia.
Qed.

Lemma cget_sum : forall (d : cdict) k, NoDup (map fst d) -> zs (fun pc => if zlist_eqb (fst pc) k then snd pc else 0) d = cget d k.
Proof.
  induction d as [|[p c] d IH]; intros k N; [reflexivity|]. inversion N as [|? ? N1 N2]; subst. rewrite zs_cons, IH by assumption. cbn [fst snd]. unfold cget. cbn [dget].
  destruct (zlist_eqb p k) eqn:E; [|lia]. apply zlist_eqb_eq in E. subst k. replace (dget zlist_eqb d p) with (@None Z); [lia|]. symmetry. apply (dget_None_notIn zlist_eqb zlist_eqb_eq). assumption.
Qed.

(* a loop over the items of a dictionary, each contributing at the multiplicities ms with factor f *)
Lemma items_spec : forall n (A : Type) (g : list Z -> Z -> cdict -> cdict) (ms : list A) (m f : A -> Z),
  (forall x, In x ms -> 0 <= m x) ->
  (forall p c ans, partition p -> (length p <= n)%nat -> 0 < c -> good (S n) ans ->
     good (S n) (g p c ans) /\ forall alpha, partition alpha -> cget (g p c ans) alpha = cget ans alpha + zs (fun x => contrib n alpha p c (m x) * f x) ms) ->
  forall d, good n d -> forall ans, good (S n) ans ->
    good (S n) (fold_left (fun ans pc => g (fst pc) (snd pc) ans) d ans) /\
    forall alpha, partition alpha -> (length alpha <= S n)%nat ->
      cget (fold_left (fun ans pc => g (fst pc) (snd pc) ans) d ans) alpha =
      cget ans alpha + zs (fun x => (if m x =? tail_of n alpha then cget d (head_of n alpha) else 0) * f x) ms.
Proof.
  intros n A g ms m f Hm Hg d Gd ans Ga.
  assert (X : forall d0, (forall p c, In (p, c) d0 -> partition p /\ (length p <= n)%nat /\ 0 < c) -> forall ans, good (S n) ans ->
     good (S n) (fold_left (fun ans pc => g (fst pc) (snd pc) ans) d0 ans) /\
     forall alpha, partition alpha -> cget (fold_left (fun ans pc => g (fst pc) (snd pc) ans) d0 ans) alpha =
       cget ans alpha + zs (fun pc => zs (fun x => contrib n alpha (fst pc) (snd pc) (m x) * f x) ms) d0).
  { clear d Gd ans Ga. induction d0 as [|[p c] d IH]; intros Hd ans Ga; cbn [fold_left]; [split; [assumption|]; intros; rewrite zs_nil; lia|].
    destruct (Hd p c (or_introl eq_refl)) as (P1 & P2 & P3). destruct (Hg p c ans P1 P2 P3 Ga) as [G1 H1].
    destruct (IH (fun p c H => Hd p c (or_intror H)) (g p c ans) G1) as [G2 H2]. cbn [fst snd] in *. split; [assumption|]. intros alpha Ha. rewrite (H2 alpha Ha), (H1 alpha Ha), zs_cons. cbn [fst snd]. lia. }
  destruct Gd as [Nd Hd]. destruct (X d Hd ans Ga) as [G1 H1]. split; [assumption|]. intros alpha Ha Hl. rewrite (H1 alpha Ha). f_equal.
  rewrite zs_swap. apply zs_ext. intros x Hx.
  rewrite (zs_ext _ _ (fun pc => ((if m x =? tail_of n alpha then 1 else 0) * f x) * (if zlist_eqb (fst pc) (head_of n alpha) then snd pc else 0))).
  - rewrite zs_scale, cget_sum by assumption. destruct (m x =? tail_of n alpha); lia.
  - intros [p c] Hpc. cbn [fst snd]. destruct (Hd p c Hpc) as (P1 & P2 & P3). rewrite (contrib_split n alpha p c (m x) Ha Hl P2 (Hm x Hx)).
    destruct (m x =? tail_of n alpha), (zlist_eqb p (head_of n alpha)); cbn [andb]; lia.
Qed.

Lemma zrange_sorted : forall b, StronglySorted Z.lt (zrange 0 b).
Proof.
  intro b. unfold zrange. assert (G : forall n i, StronglySorted Z.lt (map Z.of_nat (seq i n))).
  { induction n as [|n IH]; intro i; cbn [seq map]; constructor; [apply IH|]. apply Forall_forall. intros x Hx. apply in_map_iff in Hx. destruct Hx as (y & <- & Hy). apply in_seq in Hy. lia. }
  specialize (G (Z.to_nat (b - 0)) 0%nat). exact G.
Qed.
Lemma nchoosek_pos : forall m i, 0 <= i <= m -> 0 < nchoosek m i.
Proof.
  intros m i H. destruct C11_nchoosek as (_ & E & _). specialize (E (Z.to_nat m) (Z.to_nat i) ltac:(lia)). rewrite !Z2Nat.id in E by lia.
  pose proof (lt_O_fact (Z.to_nat m)). pose proof (lt_O_fact (Z.to_nat i)). pose proof (lt_O_fact (Z.to_nat m - Z.to_nat i)). nia.
Qed.
Lemma corner_range_In : forall corners sv i, In i (corner_range corners sv) -> 0 <= i <= zlen corners.
Proof. intros corners sv i H. unfold corner_range in H. apply In_zrange in H. pose proof (zlen_nonneg _ corners). destruct sv; lia. Qed.

(* one strip of count_semistandard *)
Lemma strip_items : forall n (diff corners : list (Z * Z)) sv d ans, good n d -> good (S n) ans ->
  let r := fold_left (fun ans pc => count_loop (S n) (fst pc) (snd pc) (zlen diff) (nchoosek (zlen corners)) (corner_range corners sv) ans) d ans in
  good (S n) r /\ forall alpha, partition alpha -> (length alpha <= S n)%nat ->
    cget r alpha = cget ans alpha + zs (fun i => nchoosek (zlen corners) i * (if zlen diff + i =? tail_of n alpha then cget d (head_of n alpha) else 0)) (corner_range corners sv).
Proof.
  intros n diff corners sv d ans Gd Ga r. pose proof (zlen_nonneg _ diff). pose proof (zlen_nonneg _ corners).
  destruct (items_spec n Z (fun p c ans => count_loop (S n) p c (zlen diff) (nchoosek (zlen corners)) (corner_range corners sv) ans) (corner_range corners sv) (fun i => zlen diff + i) (nchoosek (zlen corners))) with (d := d) (ans := ans) as [G1 H1]; [| |assumption|assumption|].
  - intros x Hx. apply corner_range_In in Hx. lia.
  - intros p c a P1 P2 P3 G. apply count_loop_spec; [assumption|assumption|assumption|assumption|apply zrange_sorted| |assumption].
    intros i Hi. apply corner_range_In in Hi. split; [lia|]. split; [apply nchoosek_pos; lia|]. intro E. replace i with 0 by lia. apply nchoosek_0.
  - split; [assumption|]. intros alpha Ha Hl. etransitivity; [apply (H1 alpha Ha Hl)|]. f_equal. apply zs_ext. intros i _. lia.
Qed.

(* one pair of strips of the marked counters *)
Lemma pair_items : forall n base (corners1 corners2 : list (Z * Z)) sv d ans, 0 <= base -> good n d -> good (S n) ans ->
  let r := fold_left (fun ans pc => count_loop2 (S n) (fst pc) (snd pc) base corners1 corners2 sv ans) d ans in
  good (S n) r /\ forall alpha, partition alpha -> (length alpha <= S n)%nat ->
    cget r alpha = cget ans alpha + zs (fun i => nchoosek (zlen corners1) i * zs (fun j => nchoosek (zlen corners2) j * (if base + i + j =? tail_of n alpha then cget d (head_of n alpha) else 0)) (corner_range corners2 sv)) (corner_range corners1 sv).
Proof.
  intros n base corners1 corners2 sv d ans Hb Gd Ga r.
  set (ms := flat_map (fun i => map (pair i) (corner_range corners2 sv)) (corner_range corners1 sv)).
  assert (Hms : forall i j, In (i, j) ms -> In i (corner_range corners1 sv) /\ In j (corner_range corners2 sv)).
  { intros i j H. apply in_flat_map in H. destruct H as (x & Hx & H). apply in_map_iff in H. destruct H as (y & E & Hy). injection E as -> ->. auto. }
  assert (Zms : forall f : Z * Z -> Z, zs f ms = zs (fun i => zs (fun j => f (i, j)) (corner_range corners2 sv)) (corner_range corners1 sv)).
  { intro f. unfold ms. generalize (corner_range corners1 sv) as l0. induction l0 as [|i l IH]; [reflexivity|]. cbn [flat_map]. rewrite zs_app, zs_cons, IH, zs_map. reflexivity. }
  destruct (items_spec n (Z * Z) (fun p c ans => count_loop2 (S n) p c base corners1 corners2 sv ans) ms (fun x => base + fst x + snd x) (fun x => nchoosek (zlen corners1) (fst x) * nchoosek (zlen corners2) (snd x))) with (d := d) (ans := ans) as [G1 H1]; [| |assumption|assumption|].
  - intros [i j] H. apply Hms in H. destruct H as [H1 H2]. apply corner_range_In in H1, H2. cbn [fst snd]. lia.
  - intros p c a P1 P2 P3 G. unfold count_loop2.
    assert (X : forall is, (forall i, In i is -> In i (corner_range corners1 sv)) -> forall a, good (S n) a ->
       good (S n) (fold_left (fun ans i => count_loop (S n) p c (base + i) (fun j => nchoosek (zlen corners1) i * nchoosek (zlen corners2) j) (corner_range corners2 sv) ans) is a) /\
       forall alpha, partition alpha -> cget (fold_left (fun ans i => count_loop (S n) p c (base + i) (fun j => nchoosek (zlen corners1) i * nchoosek (zlen corners2) j) (corner_range corners2 sv) ans) is a) alpha =
         cget a alpha + zs (fun i => zs (fun j => contrib n alpha p c (base + i + j) * (nchoosek (zlen corners1) i * nchoosek (zlen corners2) j)) (corner_range corners2 sv)) is).
    { induction is as [|i is IH]; intros Hi b Gb; cbn [fold_left]; [split; [assumption|]; intros; rewrite zs_nil; lia|].
      pose proof (corner_range_In _ _ _ (Hi i (or_introl eq_refl))) as Ri.
      destruct (count_loop_spec n p c (base + i) (fun j => nchoosek (zlen corners1) i * nchoosek (zlen corners2) j) P1 P2 P3 ltac:(lia) (corner_range corners2 sv) b) as [G2 H2]; [apply zrange_sorted| |assumption|].
      - intros j Hj. apply corner_range_In in Hj. split; [lia|]. split; [apply Z.mul_pos_pos; apply nchoosek_pos; lia|]. intro E. replace i with 0 by lia. replace j with 0 by lia. rewrite !nchoosek_0. reflexivity.
      - destruct (IH (fun x H => Hi x (or_intror H)) _ G2) as [G3 H3]. split; [assumption|]. intros alpha Ha. rewrite (H3 alpha Ha), (H2 alpha Ha), zs_cons. lia. }
    destruct (X (corner_range corners1 sv) (fun i H => H) a G) as [G2 H2]. split; [assumption|]. intros alpha Ha. rewrite (H2 alpha Ha), Zms. reflexivity.
  - split; [assumption|]. intros alpha Ha Hl. etransitivity; [apply (H1 alpha Ha Hl)|]. f_equal. rewrite Zms. apply zs_ext. intros i _. cbn [fst snd]. rewrite <- zs_scale. apply zs_ext. intros j _. lia.
Qed.
