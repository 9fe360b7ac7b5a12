From Coq Require Import List ZArith Lia Bool Permutation.
From Verif Require Import PyBase M_Partitions M_Perm S_Perm L_Words2 L_Perm L_PermLen L_PermWord L_PermDem.
Import ListNotations.
Local Open Scope Z_scope.

(* ---- length as number of inversions ---- *)
Lemma inversions_ell : forall f n, 0 <= n -> zlen (inversions f n) = ell (line f n).
Proof.
  intros f n Hn. unfold inversions, line.
  assert (G : forall k, 0 <= k -> forall a, a + k = n + 1 ->
    zlen (flat_map (fun i => map (fun j => (i, j, false)) (filter (fun j => f j <? f i) (zrange (i + 1) (n + 1))) ++
                     map (fun j => (i, j, true)) (filter (fun j => f j <? - f i) (zrange i (n + 1)))) (zrange a (n + 1)))
    = ell (map f (zrange a (n + 1)))).
  { apply (natlike_ind (fun k => forall a, a + k = n + 1 ->
    zlen (flat_map (fun i => map (fun j => (i, j, false)) (filter (fun j => f j <? f i) (zrange (i + 1) (n + 1))) ++
                     map (fun j => (i, j, true)) (filter (fun j => f j <? - f i) (zrange i (n + 1)))) (zrange a (n + 1)))
    = ell (map f (zrange a (n + 1))))).
    - intros a Ha. rewrite zrange_nil by lia. reflexivity.
    - intros k Hk IH a Ha. rewrite (zrange_cons a) by lia. cbn [flat_map map]. rewrite zlen_app, IH by lia.
      rewrite zlen_app, !zlen_map. rewrite (zrange_cons a (n + 1)) by lia.
      unfold ell, negl. cbn [invl nspl]. rewrite !cnt_map.
      fold (cnt (fun j => f j <? f a) (zrange (a + 1) (n + 1))). fold (cnt (fun j => f j <? - f a) (a :: zrange (a + 1) (n + 1))).
      rewrite !cnt_cons. rewrite !cnt_map. rewrite (cnt_ext (fun j => f j <? - f a) (fun j => f a + f j <? 0)) by (intros; lia).
      replace (f a <? - f a) with (f a <? 0) by lia. lia. }
  apply (G n); lia.
Qed.

Lemma plen_inversions : forall w n, canonical w -> zlen w <= n -> plen w = Ok (zlen (inversions (pcall w) n)).
Proof.
  intros w n Hw Hn. pose proof (zlen_nonneg _ w). rewrite plen_ok, inversions_ell by lia. rewrite ell_line by assumption. reflexivity.
Qed.

(* ---- code ---- *)
Fixpoint codel (l : list Z) : list Z := match l with [] => [] | x :: l' => cnt (fun y => y <? x) l' :: codel l' end.
Lemma zsum_codel : forall l, zsum (codel l) = invl l.
Proof. induction l as [|x l IH]; [reflexivity|]. cbn [codel zsum invl]. rewrite IH. reflexivity. Qed.
Lemma cnt_lt_mono : forall x y l, x < y -> In x l -> cnt (fun z => z <? x) l < cnt (fun z => z <? y) l.
Proof.
  intros x y l H. induction l as [|a l IH]; intro Hin; [destruct Hin|]. rewrite !cnt_cons.
  assert (M : cnt (fun z => z <? x) l <= cnt (fun z => z <? y) l).
  { clear IH Hin. induction l as [|b l IHl]; [rewrite !cnt_nil; lia|]. rewrite !cnt_cons. destruct (Z.ltb_spec b x), (Z.ltb_spec b y); lia. }
  destruct Hin as [->|Hin].
  - destruct (Z.ltb_spec x x), (Z.ltb_spec x y); lia.
  - specialize (IH Hin). destruct (Z.ltb_spec a x), (Z.ltb_spec a y); lia.
Qed.
Lemma codel_inj : forall l m, Permutation l m -> codel l = codel m -> l = m.
Proof.
  induction l as [|x l IH]; intros m P E.
  - apply Permutation_nil in P. congruence.
  - destruct m as [|y m]; [apply Permutation_sym, Permutation_nil in P; discriminate|]. cbn [codel] in E. injection E as E1 E2.
    assert (x = y).
    { assert (C1 : cnt (fun z => z <? x) (x :: l) = cnt (fun z => z <? y) (y :: m)) by (rewrite !cnt_cons, E1; destruct (Z.ltb_spec x x), (Z.ltb_spec y y); lia).
      rewrite <- (cnt_perm _ _ _ P) in C1. destruct (Z.lt_total x y) as [L|[L|L]]; [|assumption|].
      - pose proof (cnt_lt_mono x y (x :: l) L (or_introl eq_refl)). lia.
      - assert (Hy : In y (x :: l)) by (eapply Permutation_in; [apply Permutation_sym; exact P|left; reflexivity]).
        pose proof (cnt_lt_mono y x (x :: l) L Hy). lia. }
    subst y. f_equal. apply IH; [eapply Permutation_cons_inv; exact P|assumption].
Qed.

Lemma is_unsigned_spec : forall w, is_unsigned w = true <-> Forall (fun i => 0 < i) w.
Proof. intro w. unfold is_unsigned. rewrite forallb_forall, Forall_forall. split; intros H x Hx; apply H in Hx; lia. Qed.

Lemma code_ok : forall w, canonical w -> Forall (fun i => 0 < i) w -> code w = Ok (codel w).
Proof.
  intros w Hw Hu. unfold code. rewrite (proj2 (is_unsigned_spec w)) by assumption. f_equal. pose proof (zlen_nonneg _ w).
  assert (G : forall k, 0 <= k -> forall a p l, w = p ++ l -> a = zlen p + 1 -> zlen l = k ->
    map (fun i => zlen (filter (fun j => pcall w j <? pcall w i) (zrange (i + 1) (zlen w + i)))) (zrange a (1 + zlen w)) = codel l).
  { apply (natlike_ind (fun k => forall a p l, w = p ++ l -> a = zlen p + 1 -> zlen l = k ->
    map (fun i => zlen (filter (fun j => pcall w j <? pcall w i) (zrange (i + 1) (zlen w + i)))) (zrange a (1 + zlen w)) = codel l)).
    - intros a p l Ew Ea El. destruct l; [|rewrite zlen_cons in El; pose proof (zlen_nonneg _ l); lia]. rewrite app_nil_r in Ew. subst p. rewrite zrange_nil by lia. reflexivity.
    - intros k Hk IH a p l Ew Ea El. destruct l as [|x l]; [unfold zlen in El; simpl in El; lia|]. rewrite zlen_cons in El.
      assert (Lw : zlen w = zlen p + 1 + zlen l) by (rewrite Ew, zlen_app, zlen_cons; lia). pose proof (zlen_nonneg _ p).
      rewrite zrange_cons by lia. cbn [map codel]. f_equal.
      + rewrite (zrange_app (a + 1) (zlen w + 1) (zlen w + a)) by lia. rewrite filter_app, zlen_app.
        assert (Hx : pcall w a = x).
        { rewrite pcall_pos by lia. rewrite Ew, nthz_app2 by lia. replace (a - 1 - zlen p) with 0 by lia. reflexivity. }
        rewrite Hx. fold (cnt (fun j => pcall w j <? x) (zrange (a + 1) (zlen w + 1))). fold (cnt (fun j => pcall w j <? x) (zrange (zlen w + 1) (zlen w + a))).
        rewrite (cnt_zero _ (zrange (zlen w + 1) (zlen w + a))).
        2:{ intros j Hj. apply In_zrange in Hj. rewrite pcall_out by lia. pose proof (pcall_abs w a (proj1 Hw) ltac:(lia)). lia. }
        replace l with (map (pcall w) (zrange (a + 1) (zlen w + 1))).
        * rewrite cnt_map. lia.
        * apply nthz_ext; [rewrite zlen_map, zlen_zrange; lia|]. intros i Hi. rewrite zlen_map, zlen_zrange in Hi by lia.
          rewrite nthz_map by (rewrite zlen_zrange; lia). rewrite nthz_zrange by lia. rewrite pcall_pos by lia. rewrite Ew, nthz_app2 by lia.
          replace (a + 1 + i - 1 - zlen p) with (i + 1) by lia. apply nthz_succ. lia.
      + apply IH with (p := p ++ [x]); [rewrite <- app_assoc; exact Ew|rewrite zlen_app; change (zlen [x]) with 1; lia|lia]. }
  rewrite <- (G (zlen w) ltac:(lia) 1 [] w eq_refl eq_refl eq_refl). reflexivity.
Qed.
Lemma ell_unsigned : forall w, Forall (fun i => 0 < i) w -> ell w = invl w.
Proof.
  intros w H. unfold ell, negl. rewrite Forall_forall in H. rewrite cnt_zero by (intros x Hx; specialize (H x Hx); lia).
  assert (nspl w = 0); [|lia]. induction w as [|x w IH]; [reflexivity|]. cbn [nspl]. rewrite cnt_zero, IH; [reflexivity| |].
  - intros y Hy. apply H. right. assumption.
  - intros y Hy. pose proof (H x (or_introl eq_refl)). pose proof (H y (or_intror Hy)). lia.
Qed.

(* ---- powers ---- *)
Fixpoint iter_mul (w : list Z) (n : nat) : list Z := match n with O => [] | S n' => mulp w (iter_mul w n') end.
Lemma iter_mul_canonical : forall n w, canonical w -> canonical (iter_mul w n).
Proof. induction n as [|n IH]; intros w Hw; simpl; auto with perm. Qed.
Lemma iter_mul_add : forall a b w, canonical w -> iter_mul w (a + b) = mulp (iter_mul w a) (iter_mul w b).
Proof.
  induction a as [|a IH]; intros b w Hw; simpl; [rewrite mulp_1_l; [reflexivity|apply iter_mul_canonical; assumption]|].
  rewrite IH by assumption. pose proof (iter_mul_canonical a w Hw). pose proof (iter_mul_canonical b w Hw).
  rewrite mulp_assoc by auto with perm. reflexivity.
Qed.
Lemma ppow_pos_ok : forall fuel w n, canonical w -> 0 < n -> (Z.to_nat n < fuel)%nat -> ppow_pos fuel w n = Ok (iter_mul w (Z.to_nat n)).
Proof.
  induction fuel as [|fuel IH]; intros w n Hw Hn Hf; [lia|]. cbn [ppow_pos]. replace (n =? 0) with false by lia.
  destruct (Z.eqb_spec n 1) as [->|N].
  - rewrite mkperm_ok by auto with perm. rewrite strip_canonical_id by apply Hw. change (Z.to_nat 1) with 1%nat. cbn [iter_mul]. rewrite mulp_1_r by assumption. reflexivity.
  - assert (0 < n / 2 < n) by (split; [apply Z.div_str_pos; lia|apply Z.div_lt; lia]).
    rewrite (IH w (n / 2)) by (assumption || lia). cbn [rbind]. rewrite (IH w (n - n / 2)) by (assumption || lia). cbn [rbind].
    rewrite pmul_ok by (apply canonical_signed, iter_mul_canonical; assumption). rewrite <- iter_mul_add by assumption. repeat f_equal. lia.
Qed.
