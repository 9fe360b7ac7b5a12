(* The smallest line of an unsigned involution, and the lines without consecutive b c a. *)
From Coq Require Import List ZArith Bool Lia Permutation Sorting.Sorted.
From Verif Require Import PyBase M_Partitions M_Perm S_Perm L_Perm L_PermLen L_PermWord L_LevelsInst M_PermGroth M_Atoms L_Atoms1 L_Atoms2 L_Atoms3.
Import ListNotations.
Local Open Scope Z_scope.

Notation incr := (StronglySorted Z.lt).
Lemma incr_unique : forall l m, incr l -> incr m -> (forall x, In x l <-> In x m) -> l = m.
Proof.
  induction l as [|x l IH]; intros m Hl Hm E.
  - destruct m as [|y m]; [reflexivity|]. exfalso. apply (E y). left. reflexivity.
  - destruct m as [|y m]; [exfalso; apply (E x); left; reflexivity|]. inversion Hl as [|? ? Hl1 Hl2]; subst. inversion Hm as [|? ? Hm1 Hm2]; subst. rewrite Forall_forall in *.
    assert (x = y).
    { destruct (proj1 (E x) (or_introl eq_refl)) as [Q|Q]; [auto|]. destruct (proj2 (E y) (or_introl eq_refl)) as [Q'|Q']; [auto|]. pose proof (Hm2 x Q). pose proof (Hl2 y Q'). lia. }
    subst y. f_equal. apply IH; [assumption|assumption|]. intro u. split; intro Hu.
    + destruct (proj1 (E u) (or_intror Hu)) as [<-|Q]; [pose proof (Hl2 x Hu); lia|exact Q].
    + destruct (proj2 (E u) (or_intror Hu)) as [<-|Q]; [pose proof (Hm2 x Hu); lia|exact Q].
Qed.
Lemma incr_NoDup : forall l, incr l -> NoDup l.
Proof. intros l H. induction H as [|x l H IH F]; constructor; [|exact IH]. intro Q. rewrite Forall_forall in F. specialize (F x Q). lia. Qed.
Lemma incr_zrange : forall a b, incr (zrange a b).
Proof.
  intros a b. unfold zrange. generalize 0%nat as s. induction (Z.to_nat (b - a)) as [|k IH]; intro s; cbn [seq map]; constructor; [apply IH|]. apply Forall_forall. intros x Hx. apply in_map_iff in Hx. destruct Hx as (j & <- & Hj). apply in_seq in Hj. lia.
Qed.
Lemma incr_filter : forall p l, incr l -> incr (filter p l).
Proof.
  intros p l H. induction H as [|x l H IH F]; cbn; [constructor|]. destruct (p x); [|exact IH]. constructor; [exact IH|]. rewrite Forall_forall in *. intros y Hy. apply filter_In in Hy. apply F. apply Hy.
Qed.
Lemma incr_nth : forall l, (forall k, 0 <= k -> k + 1 < zlen l -> nthz l k < nthz l (k + 1)) -> incr l.
Proof.
  induction l as [|x l IH]; intro H; [constructor|]. assert (I : incr l).
  { apply IH. intros k H1 H2. specialize (H (k + 1) ltac:(lia) ltac:(rewrite zlen_cons; lia)). unfold nthz in *. replace (Z.to_nat (k + 1)) with (S (Z.to_nat k)) in H by lia. replace (Z.to_nat (k + 1 + 1)) with (S (S (Z.to_nat k))) in H by lia. replace (Z.to_nat (k + 1)) with (S (Z.to_nat k)) by lia. exact H. }
  constructor; [exact I|]. destruct l as [|y l]; [constructor|]. specialize (H 0 ltac:(lia) ltac:(rewrite !zlen_cons; pose proof (zlen_nonneg _ l); lia)). change (x < y) in H. inversion I as [|? ? _ F]; subst. constructor; [exact H|]. eapply Forall_impl; [|exact F]. cbn. intros; lia.
Qed.
Lemma incr_nth_lt : forall l i j, incr l -> 0 <= i -> i < j -> j < zlen l -> nthz l i < nthz l j.
Proof.
  induction l as [|x l IH]; intros i j H Hi Hj Hl; [change (zlen (@nil Z)) with 0 in Hl; lia|]. rewrite zlen_cons in Hl. inversion H as [|? ? H1 F]; subst.
  assert (E : forall k, 0 < k -> nthz (x :: l) k = nthz l (k - 1)) by (intros k Hk; unfold nthz; replace (Z.to_nat k) with (S (Z.to_nat (k - 1))) by lia; reflexivity).
  rewrite (E j) by lia. destruct (Z.eq_dec i 0) as [->|N].
  - change (nthz (x :: l) 0) with x. rewrite Forall_forall in F. apply F. apply nthz_In. lia.
  - rewrite E by lia. apply IH; [exact H1|lia|lia|lia].
Qed.

Section Z0.
Variable z : list Z.
Hypothesis Hz : invol z.
Hypothesis Uz : unsig z.
Let n := zlen z.
Let f := pcall z.
Lemma Hf : pinvol f.
Proof. apply unsig_pinvol; assumption. Qed.
Lemma f_range : forall x, 1 <= x <= n -> 1 <= f x <= n.
Proof. intros x Hx. pose proof (Uz x ltac:(lia)) as U. pose proof (pcall_abs z x (proj1 (proj1 Hz)) Hx). unfold f, n. lia. Qed.
Lemma f_out : forall x, n < x -> f x = x.
Proof. intros x Hx. apply pcall_out. fold n. lia. Qed.

Definition lineof (w : list Z) : Prop := Permutation w (zrange 1 (n + 1)).
Definition pos (w : list Z) (x : Z) : Z := pcall (inv_line w) x.
Lemma n_nonneg : 0 <= n.
Proof. apply zlen_nonneg. Qed.
Lemma lineof_len : forall w, lineof w -> zlen w = n.
Proof. intros w H. unfold zlen. rewrite (Permutation_length H). change (zlen (zrange 1 (n + 1)) = n). rewrite zlen_zrange by (pose proof n_nonneg; lia). lia. Qed.
Lemma lineof_In : forall w x, lineof w -> (In x w <-> 1 <= x <= n).
Proof. intros w x H. split; intro Q; [apply (Permutation_in _ H) in Q; apply In_zrange in Q; lia|apply (Permutation_in _ (Permutation_sym H)); apply In_zrange; lia]. Qed.
Lemma lineof_signed : forall w, lineof w -> signed_word w.
Proof.
  intros w H. apply signed_word_intro.
  - intros x Hx. rewrite lineof_len by exact H. apply lineof_In in Hx; [lia|exact H].
  - assert (E : map Z.abs w = w).
    { transitivity (map (fun x => x) w); [|apply map_id]. apply map_ext_in. intros x Hx. apply lineof_In in Hx; [lia|exact H]. }
    rewrite E. eapply Permutation_NoDup; [apply Permutation_sym; exact H|apply NoDup_zrange].
Qed.
Lemma pos_nth : forall w k, lineof w -> 0 <= k < n -> pos w (nthz w k) = k + 1.
Proof. intros w k H Hk. unfold pos. pose proof (lineof_len w H). rewrite <- (inv_line_call w (k + 1)) by (apply lineof_signed; exact H). f_equal. rewrite pcall_pos by lia. f_equal. lia. Qed.
Lemma nth_pos : forall w x, lineof w -> 1 <= x <= n -> 1 <= pos w x <= n /\ nthz w (pos w x - 1) = x.
Proof.
  intros w x H Hx. pose proof (lineof_len w H). assert (Q : In x w) by (apply lineof_In; assumption). apply In_nthz in Q. destruct Q as (k & Hk & <-). rewrite pos_nth by (first [exact H|lia]). replace (k + 1 - 1) with k by lia. lia.
Qed.
Lemma pos_out : forall w x, lineof w -> n < x -> pos w x = x.
Proof. intros w x H Hx. apply pcall_out. rewrite zlen_inv_line, lineof_len by exact H. lia. Qed.
Lemma pos_inj : forall w, lineof w -> pinj (pos w).
Proof. intros w H x y _ _ E. apply (pcall_inj (inv_line w)); [apply inv_line_signed; apply lineof_signed; exact H|exact E]. Qed.
Definition good (w : list Z) : Prop := lineof w /\ cond f (pos w).

(* lines without b c a *)
Definition nobca (w : list Z) : Prop := forall k, 0 <= k -> k + 2 < n -> ~ (nthz w (k + 2) < nthz w k < nthz w (k + 1)).
Lemma adjacent : forall w x, good w -> nobca w -> 1 <= x -> x < f x -> pos w x = pos w (f x) + 1.
Proof.
  intros w x [H C] NB Hx Lx. assert (Xn : x <= n) by (destruct (Z_lt_ge_dec n x) as [Q|]; [rewrite f_out in Lx; lia|lia]). pose proof (f_range x ltac:(lia)) as Yn. set (y := f x) in *.
  destruct (nth_pos w x H ltac:(lia)) as [Px Ex]. destruct (nth_pos w y H ltac:(lia)) as [Py Ey]. set (Q := pos w x - 1) in *. set (P := pos w y - 1) in *.
  pose proof (proj1 C x Hx Lx) as LPQ. fold y in LPQ. assert (LPQ' : P < Q) by (unfold P, Q; lia).
  assert (First : forall d, (Z.of_nat d <= Q - P) -> (exists j, P <= j < P + Z.of_nat d /\ (forall i, P <= i <= j -> y <= nthz w i) /\ nthz w (j + 1) <= x) \/ (forall i, P <= i <= P + Z.of_nat d -> y <= nthz w i)).
  { induction d as [|d IH]; intro Hd.
    - right. intros i Hi. replace i with P by lia. rewrite Ey. lia.
    - destruct IH as [(j & Hj & J1 & J2)|K]; [lia|left; exists j; split; [lia|split; assumption]|]. set (e := nthz w (P + Z.of_nat (S d))).
      assert (De : e <= x \/ y <= e).
      { destruct (Z_le_gt_dec e x) as [|G]; [tauto|]. destruct (Z_le_gt_dec y e) as [|G2]; [tauto|]. exfalso. destruct C as (_ & C2 & _). apply (C2 x e Hx ltac:(fold y; lia)). fold y.
        assert (Ee : pos w e = P + Z.of_nat (S d) + 1) by (apply pos_nth; [exact H|lia]). assert (pos w e <> pos w x) by (intro Q'; apply (pos_inj w H) in Q'; lia). unfold P, Q in *. lia. }
      destruct De as [De|De].
      + left. exists (P + Z.of_nat d). split; [lia|]. split; [exact K|]. replace (P + Z.of_nat d + 1) with (P + Z.of_nat (S d)) by lia. exact De.
      + right. intros i Hi. destruct (Z.eq_dec i (P + Z.of_nat (S d))) as [->|]; [exact De|apply K; lia]. }
  destruct (First (Z.to_nat (Q - P)) ltac:(lia)) as [(j & Hj & J1 & J2)|K]; [|specialize (K Q ltac:(lia)); rewrite Ex in K; lia].
  assert (Aj : 1 <= nthz w (j + 1)) by (apply (lineof_In w _ H); apply nthz_In; rewrite lineof_len by exact H; lia).
  pose proof (J1 j ltac:(lia)) as Yj.
  assert (Cj : f (nthz w (j + 1)) = nthz w j).
  { apply (consecutive f Hf (pos w)); [apply pos_inj; exact H|exact C|exact Aj|lia|]. rewrite !pos_nth by (first [exact H|lia]). lia. }
  destruct (Z.eq_dec j P) as [->|Nj].
  - assert (Q' : nthz w (P + 1) = x).
    { rewrite Ey in Cj. destruct (Hf _ Aj) as [_ K]. rewrite Cj in K. rewrite <- K. unfold y. apply Hf. exact Hx. }
    assert (K : pos w (nthz w (P + 1)) = P + 1 + 1) by (apply pos_nth; [exact H|lia]). rewrite Q' in K. unfold P in K. lia.
  - exfalso. pose proof (J1 (j - 1) ltac:(lia)) as Yu. apply (NB (j - 1) ltac:(lia) ltac:(lia)). replace (j - 1 + 2) with (j + 1) by lia. replace (j - 1 + 1) with j by lia. split; [lia|].
    destruct (Z_lt_ge_dec (nthz w (j - 1)) (nthz w j)) as [|G]; [assumption|exfalso].
    assert (Ne : nthz w (j - 1) <> nthz w j) by (intro E; apply (f_equal (pos w)) in E; rewrite !pos_nth in E by (first [exact H|lia]); lia).
    assert (Cu : f (nthz w j) = nthz w (j - 1)).
    { apply (consecutive f Hf (pos w)); [apply pos_inj; exact H|exact C|lia|lia|]. rewrite !pos_nth by (first [exact H|lia]). lia. }
    destruct (Hf _ Aj) as [_ K]. rewrite Cj in K. lia.
Qed.
(* sorted by this key *)
Definition key (u : Z) : Z := if u <? f u then 2 * u + 1 else 2 * f u.
Lemma key_inj : forall u v, 1 <= u -> 1 <= v -> key u = key v -> u = v.
Proof.
  intros u v Hu Hv E. unfold key in E. destruct (Z.ltb_spec u (f u)), (Z.ltb_spec v (f v)); try lia. rewrite <- (proj2 (Hf u Hu)), <- (proj2 (Hf v Hv)). f_equal. lia.
Qed.
Lemma nobca_key : forall w, good w -> nobca w -> incr (map key w).
Proof.
  intros w [H C] NB. apply incr_nth. rewrite zlen_map, lineof_len by exact H. intros k K1 K2. rewrite !nthz_map by (rewrite lineof_len by exact H; lia). set (u := nthz w k). set (v := nthz w (k + 1)).
  assert (Pu : pos w u = k + 1) by (apply pos_nth; [exact H|lia]). assert (Pv : pos w v = k + 2) by (unfold v; rewrite pos_nth by (first [exact H|lia]); lia).
  assert (Ru : 1 <= u <= n) by (apply (lineof_In w _ H); apply nthz_In; rewrite lineof_len by exact H; lia). assert (Rv : 1 <= v <= n) by (apply (lineof_In w _ H); apply nthz_In; rewrite lineof_len by exact H; lia).
  assert (Nuv : u <> v) by (intro E; rewrite E in Pu; lia). pose proof (Hf u ltac:(lia)) as [Pfu Ffu]. pose proof (Hf v ltac:(lia)) as [Pfv Ffv].
  destruct (Z_lt_ge_dec v u) as [L|L].
  - assert (E : f v = u) by (apply (consecutive f Hf (pos w)); [apply pos_inj; exact H|exact C|lia|exact L|lia]). assert (E' : f u = v) by (rewrite <- E; exact Ffv). unfold key. rewrite E, E'. replace (u <? v) with false by lia. replace (v <? u) with true by lia. lia.
  - assert (Lv : u < v) by lia.
    assert (Nc : f u <> v) by (intro E; pose proof (proj1 C u ltac:(lia) ltac:(lia)) as Q; rewrite E in Q; lia).
    unfold key. destruct (Z.ltb_spec v (f v)) as [V|V].
    + destruct (Z.ltb_spec u (f u)); lia.
    + assert (K : Z.min u (f u) < f v).
      { destruct (Z_lt_ge_dec (Z.min u (f u)) (f v)) as [|G]; [assumption|exfalso]. assert (Nm : f v <> Z.min u (f u)).
        { intro E. destruct (Z.min_spec u (f u)) as [[_ E2]|[_ E2]]; [assert (f u = v) by (replace u with (f v) by lia; exact Ffv); lia|assert (u = v); [|lia]; rewrite <- Ffu, <- Ffv; f_equal; lia]. }
        assert (Lx : f v < v) by lia. pose proof (adjacent w (f v) (conj H C) NB Pfv ltac:(lia)) as A. rewrite Ffv in A.
        destruct (nth_pos w (f v) H (f_range v Rv)) as [B1 B2]. rewrite A, Pv in B2. apply (NB k K1 ltac:(rewrite A, Pv in B1; lia)). replace (k + 2 + 1 - 1) with (k + 2) in B2 by lia. rewrite B2. fold u v. lia. }
      destruct (Z.ltb_spec u (f u)); lia.
Qed.
(* lines sorted by the key *)
Lemma key_pos : forall w, lineof w -> incr (map key w) -> forall u v, 1 <= u <= n -> 1 <= v <= n -> key u < key v -> pos w u < pos w v.
Proof.
  intros w H I u v Hu Hv L. destruct (nth_pos w u H Hu) as [P1 E1]. destruct (nth_pos w v H Hv) as [P2 E2]. destruct (Z_lt_ge_dec (pos w u) (pos w v)) as [|G]; [assumption|exfalso].
  destruct (Z.eq_dec (pos w u) (pos w v)) as [E|N]; [apply (pos_inj w H) in E; [subst; lia|lia|lia]|].
  pose proof (incr_nth_lt _ (pos w v - 1) (pos w u - 1) I ltac:(lia) ltac:(lia) ltac:(rewrite zlen_map, lineof_len by exact H; lia)) as Q. rewrite !nthz_map in Q by (rewrite lineof_len by exact H; lia). rewrite E1, E2 in Q. lia.
Qed.
Lemma key_good : forall w, lineof w -> incr (map key w) -> good w.
Proof.
  intros w H I. split; [exact H|]. pose proof (key_pos w H I) as KP.
  assert (IN : forall x, 1 <= x -> x < f x -> x <= n) by (intros x Hx L; destruct (Z_lt_ge_dec n x) as [Q|]; [rewrite f_out in L; lia|lia]).
  assert (K1 : forall x, 1 <= x -> x < f x -> key x = 2 * x + 1 /\ key (f x) = 2 * x).
  { intros x Hx L. unfold key. replace (x <? f x) with true by lia. rewrite (proj2 (Hf x Hx)). replace (f x <? x) with false by lia. auto. }
  split; [|split].
  - intros x Hx L. pose proof (IN x Hx L). pose proof (K1 x Hx L). apply KP; [apply f_range; lia|lia|lia].
  - intros x e Hx L [Q1 Q2]. pose proof (IN x Hx ltac:(lia)) as Xn. pose proof (f_range x ltac:(lia)) as Fn. pose proof (K1 x Hx ltac:(lia)) as [E1 E2].
    assert (D : key e < key (f x) \/ key x < key e).
    { assert (key e <> key x) by (intro Q; apply key_inj in Q; lia). assert (key e <> key (f x)) by (intro Q; apply key_inj in Q; lia). lia. }
    destruct D as [D|D]; apply KP in D; lia.
  - intros x x1 Hx Hx1 L L1 O1 O2. destruct (Z_lt_ge_dec n (f x1)) as [G|G].
    + assert (E : f x1 = x1) by (destruct (Z_lt_ge_dec n x1) as [Q|Q]; [apply f_out; exact Q|pose proof (f_range x1 ltac:(lia)); lia]). rewrite E in *. rewrite (pos_out w x1 H) by lia.
      destruct (Z_lt_ge_dec n x) as [Q|Q]; [rewrite pos_out by (first [exact H|lia]); lia|]. pose proof (proj1 (nth_pos w x H ltac:(lia))). lia.
    + apply KP; [lia|lia|]. unfold key. rewrite (proj2 (Hf x1 Hx1)). destruct (Z.ltb_spec x (f x)), (Z.ltb_spec (f x1) x1); lia.
Qed.
Lemma key_unique : forall w w', lineof w -> lineof w' -> incr (map key w) -> incr (map key w') -> w = w'.
Proof.
  intros w w' H H' I I'. assert (E : map key w = map key w').
  { apply incr_unique; [exact I|exact I'|]. intro x. rewrite !in_map_iff. split; intros (u & <- & Hu); exists u; (split; [reflexivity|]); [apply (lineof_In w' u H'); apply (lineof_In w u H); exact Hu|apply (lineof_In w u H); apply (lineof_In w' u H'); exact Hu]. }
  apply nthz_ext; [rewrite !lineof_len by assumption; reflexivity|]. intros i Hi. apply (f_equal (fun l => nthz l i)) in E. rewrite !nthz_map in E by (first [exact Hi|rewrite lineof_len by exact H'; rewrite <- (lineof_len w H); exact Hi]).
  apply key_inj in E; [exact E| |]; [apply (lineof_In w _ H); apply nthz_In; exact Hi|apply (lineof_In w' _ H'); apply nthz_In; rewrite lineof_len by exact H'; rewrite <- (lineof_len w H); exact Hi].
Qed.

(* ---- the computed minimum ---- *)
Lemma pair_insert_perm : forall p l, Permutation (pair_insert p l) (p :: l).
Proof. intros p l. induction l as [|q l IH]; cbn; [apply Permutation_refl|]. destruct (pair_ltb q p); [|apply Permutation_refl]. eapply perm_trans; [apply perm_skip; exact IH|apply perm_swap]. Qed.
Lemma pair_sort_perm : forall l, Permutation (pair_sort l) l.
Proof. induction l as [|p l IH]; cbn; [constructor|]. eapply perm_trans; [apply pair_insert_perm|apply perm_skip; exact IH]. Qed.
Definition fsts_sorted (l : list (Z * Z)) : Prop := StronglySorted Z.le (map fst l).
Lemma pair_insert_sorted : forall p l, fsts_sorted l -> fsts_sorted (pair_insert p l).
Proof.
  intros p l H. induction l as [|q l IH]; [repeat constructor|]. unfold fsts_sorted in *. cbn [pair_insert]. inversion H as [|? ? H1 H2]; subst. destruct (pair_ltb q p) eqn:E.
  - cbn [map]. constructor; [apply IH; exact H1|]. rewrite Forall_forall in *. intros x Hx. apply (Permutation_in _ (Permutation_map fst (pair_insert_perm p l))) in Hx. destruct Hx as [<-|Hx]; [unfold pair_ltb in E; lia|apply H2; exact Hx].
  - cbn [map]. assert (L : fst p <= fst q) by (unfold pair_ltb in E; lia). constructor; [exact H|]. constructor; [exact L|]. rewrite Forall_forall in *. intros x Hx. specialize (H2 x Hx). lia.
Qed.
Lemma pair_sort_sorted : forall l, fsts_sorted (pair_sort l).
Proof. induction l as [|p l IH]; cbn; [constructor|apply pair_insert_sorted; exact IH]. Qed.
Lemma le_sorted_incr : forall l, StronglySorted Z.le l -> NoDup l -> incr l.
Proof.
  intros l H. induction H as [|x l H IH F]; intro N; [constructor|]. inversion N as [|? ? N1 N2]; subst. constructor; [apply IH; exact N2|]. rewrite Forall_forall in *. intros y Hy. specialize (F y Hy). assert (x <> y) by (intros ->; contradiction). lia.
Qed.
Definition mins : list Z := filter (fun a => a <=? f a) (zrange 1 (n + 1)).
Lemma cyc_eq : cyc z = map (fun a => (a, f a)) mins.
Proof.
  assert (In_iff : forall p, In p (ppair z ++ pnegs z ++ pfix z) <-> exists a, p = (a, f a) /\ In a mins).
  { intro p. unfold mins. rewrite !in_app_iff. unfold ppair, pnegs, pfix. fold n f. cbv zeta. split.
    - intros [Q|[Q|Q]]; apply in_map_iff in Q; destruct Q as (a & <- & Q); apply filter_In in Q; destruct Q as [Q1 Q2]; apply In_zrange in Q1.
      + apply andb_prop in Q2. destruct Q2 as [Q2 Q3]. apply Z.ltb_lt in Q2. apply Z.ltb_lt in Q3. assert (0 < a).
        { destruct (Z_lt_ge_dec a 0) as [L|L]; [|lia]. pose proof (Uz (- a) ltac:(lia)) as U. rewrite pcall_odd in U. fold f in U. lia. }
        exists a. split; [reflexivity|]. apply filter_In. split; [apply In_zrange; lia|]. apply Z.leb_le. lia.
      + apply Z.eqb_eq in Q2. pose proof (Uz a ltac:(lia)) as U. fold f in U. lia.
      + apply Z.eqb_eq in Q2. exists a. split; [rewrite Q2; reflexivity|]. apply filter_In. split; [apply In_zrange; lia|]. apply Z.leb_le. lia.
    - intros (a & -> & Q). apply filter_In in Q. destruct Q as [Q1 Q2]. apply In_zrange in Q1. apply Z.leb_le in Q2. destruct (Z.eq_dec a (f a)) as [E|N].
      + right. right. apply in_map_iff. exists a. split; [rewrite <- E; reflexivity|]. apply filter_In. split; [apply In_zrange; lia|]. apply Z.eqb_eq. auto.
      + left. apply in_map_iff. exists a. split; [reflexivity|]. apply filter_In. split; [apply In_zrange; lia|]. apply andb_true_intro. split; apply Z.ltb_lt; lia. }
  assert (ND : NoDup (map fst (ppair z ++ pnegs z ++ pfix z))).
  { rewrite !map_app. unfold ppair, pnegs, pfix. fold n f. cbv zeta. rewrite !map_map. cbn [fst]. rewrite !map_id.
    assert (E : filter (fun a => f a =? - a) (zrange 1 (n + 1)) = []).
    { apply incl_l_nil. intros a Q. apply filter_In in Q. destruct Q as [Q1 Q2]. apply In_zrange in Q1. apply Z.eqb_eq in Q2. pose proof (Uz a ltac:(lia)) as U. fold f in U. lia. }
    rewrite E. cbn [map app]. apply NoDup_app_intro; [apply NoDup_filter, NoDup_zrange|apply NoDup_filter, NoDup_zrange|].
    intros x H1 H2. apply filter_In in H1. apply filter_In in H2. destruct H1 as [_ H1]. destruct H2 as [_ H2]. apply Z.eqb_eq in H2. apply andb_prop in H1. destruct H1 as [H1 H1']. apply Z.ltb_lt in H1'. rewrite H2 in H1'. lia. }
  assert (E : map fst (cyc z) = mins).
  { apply incr_unique.
    - apply le_sorted_incr; [apply pair_sort_sorted|]. eapply Permutation_NoDup; [|exact ND]. apply Permutation_map. apply Permutation_sym. apply pair_sort_perm.
    - apply incr_filter, incr_zrange.
    - intro x. rewrite in_map_iff. split.
      + intros (p & <- & Hp). apply (Permutation_in _ (pair_sort_perm _)) in Hp. apply In_iff in Hp. destruct Hp as (a & -> & Ha). exact Ha.
      + intro Hx. exists (x, f x). split; [reflexivity|]. apply (Permutation_in _ (Permutation_sym (pair_sort_perm _))). apply In_iff. exists x. auto. }
  rewrite <- E. rewrite map_map. transitivity (map (fun p : Z * Z => p) (cyc z)); [symmetry; apply map_id|]. apply map_ext_in. intros p Hp. apply (Permutation_in _ (pair_sort_perm _)) in Hp. apply In_iff in Hp. destruct Hp as (a & -> & _). reflexivity.
Qed.
Definition blk (a : Z) : list Z := if f a =? a then [a] else [f a; a].
Lemma min_eq : min_inv_atom_oneline z = flat_map blk mins.
Proof.
  unfold min_inv_atom_oneline. cbv zeta. rewrite cyc_eq. rewrite flat_map_concat_map, map_map, <- flat_map_concat_map. cbn [fst snd].
  set (step := fun minimum i => if negb (zlen minimum =? 0) && (nthz minimum (zlen minimum - 1) =? i) then minimum else minimum ++ [i]).
  assert (Last : forall (l : list Z) x, nthz (l ++ [x]) (zlen (l ++ [x]) - 1) = x) by (intros l x; rewrite zlen_app; change (zlen [x]) with 1; rewrite nthz_app2 by lia; replace (zlen l + 1 - 1 - zlen l) with 0 by lia; reflexivity).
  assert (G : forall l acc, incr l -> (forall a, In a l -> a <= f a) -> (acc = [] \/ exists u x, acc = u ++ [x] /\ forall a, In a l -> x < a) ->
    fold_left step (flat_map (fun a => [f a; a]) l) acc = acc ++ flat_map blk l).
  { induction l as [|a l IH]; intros acc I L A; [cbn; rewrite app_nil_r; reflexivity|]. inversion I as [|? ? I1 I2]; subst. rewrite Forall_forall in I2. cbn [flat_map app fold_left].
    assert (S1 : step acc (f a) = acc ++ [f a]).
    { unfold step. destruct A as [->|(u & x & -> & Hx)]; [reflexivity|]. rewrite Last. specialize (Hx a (or_introl eq_refl)). specialize (L a (or_introl eq_refl)). replace (x =? f a) with false by lia. rewrite andb_false_r. reflexivity. }
    rewrite S1. assert (NZ : forall x, negb (zlen (acc ++ [x]) =? 0) = true) by (intro x; rewrite zlen_app; change (zlen [x]) with 1; pose proof (zlen_nonneg _ acc); replace (zlen acc + 1 =? 0) with false by lia; reflexivity).
    assert (S2 : step (acc ++ [f a]) a = acc ++ blk a).
    { unfold step, blk. rewrite Last, NZ. cbn [andb]. destruct (Z.eqb_spec (f a) a) as [->|_]; [reflexivity|]. rewrite <- app_assoc. reflexivity. }
    rewrite S2. rewrite IH; [rewrite app_assoc; reflexivity|exact I1|intros b Hb; apply L; right; exact Hb|]. right. unfold blk. destruct (f a =? a).
    - exists acc, a. split; [reflexivity|exact I2].
    - exists (acc ++ [f a]), a. split; [rewrite <- app_assoc; reflexivity|exact I2]. }
  rewrite G; [reflexivity|apply incr_filter, incr_zrange| |left; reflexivity]. intros a Ha. apply filter_In in Ha. destruct Ha as [_ Ha]. apply Z.leb_le. exact Ha.
Qed.
Lemma min_key : incr (map key (min_inv_atom_oneline z)).
Proof.
  rewrite min_eq. assert (G : forall l, incr l -> (forall a, In a l -> 1 <= a <= f a) -> incr (map key (flat_map blk l)) /\ forall k, In k (map key (flat_map blk l)) -> exists a, In a l /\ 2 * a <= k).
  { induction l as [|a l IH]; intros I L; [split; [constructor|intros k []]|]. inversion I as [|? ? I1 I2]; subst. rewrite Forall_forall in I2. destruct (IH I1 ltac:(intros b Hb; apply L; right; exact Hb)) as [J1 J2]. pose proof (L a (or_introl eq_refl)) as La.
    cbn [flat_map]. rewrite map_app. assert (K : map key (blk a) = if f a =? a then [2 * a] else [2 * a; 2 * a + 1]).
    { unfold blk. destruct (Z.eqb_spec (f a) a) as [E|N]; cbn [map]; unfold key; [rewrite E; replace (a <? a) with false by lia; rewrite ?E; reflexivity|]. rewrite (proj2 (Hf a ltac:(lia))). replace (f a <? a) with false by lia. replace (a <? f a) with true by lia. reflexivity. }
    rewrite K. assert (Lo : forall k, In k (map key (flat_map blk l)) -> 2 * a + 1 < k) by (intros k Hk; apply J2 in Hk; destruct Hk as (b & Hb & Hk); specialize (I2 b Hb); lia).
    split.
    - destruct (f a =? a); cbn [app]; repeat constructor; try exact J1; try lia; apply Forall_forall; intros k Hk; specialize (Lo k Hk); lia.
    - intros k Hk. apply in_app_iff in Hk. destruct Hk as [Hk|Hk]; [exists a; split; [left; reflexivity|]; destruct (f a =? a); [destruct Hk as [<-|[]]; lia|destruct Hk as [<-|[<-|[]]]; lia]|]. apply J2 in Hk. destruct Hk as (b & Hb & Hk). exists b. split; [right; exact Hb|exact Hk]. }
  apply G; [apply incr_filter, incr_zrange|]. intros a Ha. apply filter_In in Ha. destruct Ha as [H1 H2]. apply In_zrange in H1. apply Z.leb_le in H2. lia.
Qed.
Lemma min_lineof : lineof (min_inv_atom_oneline z).
Proof.
  apply NoDup_Permutation; [|apply NoDup_zrange|].
  - apply (NoDup_map_inv key). apply incr_NoDup. apply min_key.
  - intro x. rewrite min_eq. rewrite in_flat_map, In_zrange. split.
    + intros (a & Ha & Hx). apply filter_In in Ha. destruct Ha as [H1 H2]. apply In_zrange in H1. pose proof (f_range a ltac:(lia)). unfold blk in Hx. destruct (f a =? a); [destruct Hx as [<-|[]]; lia|destruct Hx as [<-|[<-|[]]]; lia].
    + intro Hx. pose proof (f_range x ltac:(lia)) as Fx. pose proof (proj2 (Hf x ltac:(lia))) as FF. destruct (Z_le_gt_dec x (f x)) as [L|L].
      * exists x. split; [apply filter_In; split; [apply In_zrange; lia|apply Z.leb_le; exact L]|]. unfold blk. destruct (f x =? x); [left; reflexivity|right; left; reflexivity].
      * exists (f x). split; [apply filter_In; split; [apply In_zrange; lia|apply Z.leb_le; rewrite FF; lia]|]. unfold blk. rewrite FF. replace (x =? f x) with false by lia. left. reflexivity.
Qed.
Lemma min_good : good (min_inv_atom_oneline z).
Proof. apply key_good; [apply min_lineof|apply min_key]. Qed.
Lemma nobca_min : forall w, good w -> nobca w -> w = min_inv_atom_oneline z.
Proof. intros w G NB. apply key_unique; [apply G|apply min_lineof|apply nobca_key; assumption|apply min_key]. Qed.
End Z0.
