(* C43 *)
From Coq Require Import List ZArith Lia Bool Ring.
From Verif Require Import PyBase FinSum M_Vectors L_Vectors M_Partitions M_Boxes L_Boxes.
Import ListNotations.
Local Open Scope Z_scope.

(* [normal_word w] (L_Boxes.v): no two adjacent letters of w are equal or opposite *)

Section C43.
  Context {R : Type} (rO rI : R) (radd rmul rsub : R -> R -> R) (ropp : R -> R) (rzero : R -> bool).
  Local Notation vwf := (@vwf bkey R rO).
  Local Notation bmul := (bmul rO rI radd rmul rzero).
  Local Notation badd := (badd rO radd rzero).
  Local Notation bsub := (bsub rO rsub rzero).
  Local Notation bscale := (bscale rO rmul rzero).
  Local Notation beq := (beq rO rsub rzero).
  Local Notation bone := (bone rI rzero).
  (* BoxOperator(b, i1, ..., ik) *)
  Local Notation bword := (fun b w => box_init rI rzero (b :: w)).

  Definition box_algebra_spec : Prop :=
    ring_theory rO rI radd rmul rsub ropp (@eq R) ->
    (forall x, rzero x = true <-> x = rO) ->
    (* closed, associative, distributive, bilinear *)
    (forall u v, vwf (bmul u v)) /\
    (forall u v w, vwf u -> vwf v -> vwf w -> beq (bmul (bmul u v) w) (bmul u (bmul v w)) = true) /\
    (forall u v w, vwf u -> vwf v -> vwf w ->
       beq (bmul (badd u v) w) (badd (bmul u w) (bmul v w)) = true /\
       beq (bmul u (badd v w)) (badd (bmul u v) (bmul u w)) = true /\
       beq (bmul (bsub u v) w) (bsub (bmul u w) (bmul v w)) = true) /\
    (forall u v c, vwf u -> vwf v ->
       beq (bmul (bscale u c) v) (bscale (bmul u v) c) = true /\
       beq (bmul u (bscale v c)) (bscale (bmul u v) c) = true) /\
    (* BoxOperator(0) is a unit on combinations of normal words, and only on them *)
    (forall v, vwf v -> rI <> rO ->
       (beq (bmul bone v) v = true <-> forall b w, In (b, w) (map fst v) -> normal_word w) /\
       (beq (bmul v bone) v = true <-> forall b w, In (b, w) (map fst v) -> normal_word w)) /\
    (* product of two words *)
    (forall b c u w, 0 <= b -> 0 <= c -> rI <> rO -> exists x y z,
       bword b u = Ok x /\ bword c w = Ok y /\ bword (b + c) (u ++ w) = Ok z /\
       (normal_word (u ++ w) -> beq (bmul x y) z = true) /\
       (beq (bmul x y) [] = true <-> ~ normal_word (u ++ w))).

End C43.

Theorem C43_box_algebra : forall R rO rI radd rmul rsub ropp rzero, @box_algebra_spec R rO rI radd rmul rsub ropp rzero.
Proof.
  intros R rO rI radd rmul rsub ropp rzero Rth Hz. pose proof bkey_eqb_eq as Hk.
  pose proof (box_mult_assoc rO rI radd rmul rsub ropp Rth) as Ha.
  assert (Hm : forall u v, vwf rO (bmul rO rI radd rmul rzero u v)) by (intros; eapply vmul_wf; eassumption).
  assert (Hw : forall k, vwf rO (vmake rzero [(k : bkey, rI)])) by (intro k; apply word_wf; assumption).
  split; [exact Hm|]. split.
  { intros u v w Hu Hv Hw'. eapply veq_spec; try eassumption; try apply Hm. intro k. eapply vmul_assoc; eassumption. }
  split.
  { intros u v w Hu Hv Hw'. split; [|split].
    - eapply veq_spec; try eassumption; [apply Hm|eapply vadd_wf; try eassumption; apply Hm|].
      intro k. eapply vmul_add_l; eassumption.
    - eapply veq_spec; try eassumption; [apply Hm|eapply vadd_wf; try eassumption; apply Hm|].
      intro k. eapply vmul_add_r; eassumption.
    - eapply veq_spec; try eassumption; [apply Hm|eapply vsub_wf; try eassumption; apply Hm|].
      intro k. unfold bsub. erewrite vsub_get; try eassumption; try apply Hm.
      rewrite !(bmul_get rO rI radd rmul rsub ropp rzero Rth Hz). eapply lin_vsub; eassumption. }
  split.
  { intros u v c Hu Hv. split; (eapply veq_spec; try eassumption; [apply Hm|eapply vscale_wf; try eassumption; apply Hm|]); intro k.
    - eapply vmul_scale_l; eassumption.
    - eapply vmul_scale_r; eassumption. }
  split.
  { intros v Hv H1. split; eapply unit_iff; try eassumption; try apply Hm; intro m.
    - eapply one_mul_get; eassumption.
    - eapply mul_one_get; eassumption. }
  intros b c u w Hb Hc H1. exists (vmake rzero [((b, u), rI)]), (vmake rzero [((c, w), rI)]), (vmake rzero [((b + c, u ++ w), rI)]).
  cbn [box_init]. replace (0 <=? b) with true by (symmetry; apply Z.leb_le; lia). replace (0 <=? c) with true by (symmetry; apply Z.leb_le; lia).
  replace (0 <=? b + c) with true by (symmetry; apply Z.leb_le; lia).
  split; [reflexivity|]. split; [reflexivity|]. split; [reflexivity|]. split.
  - intro N. unfold beq. rewrite (veq_spec bkey_eqb Hk rO rI radd rmul rsub ropp rzero Rth Hz _ _ (Hm _ _) (Hw _)). intro k.
    rewrite (word_mul_get rO rI radd rmul rsub ropp rzero Rth Hz) by assumption. rewrite (proj2 (normalb_spec _) N).
    rewrite (word_eq rO rI rzero Hz) by assumption. unfold vget, dget0, dget. destruct (bkey_eqb (b + c, u ++ w) k); reflexivity.
  - unfold beq. rewrite (veq_spec bkey_eqb Hk rO rI radd rmul rsub ropp rzero Rth Hz _ _ (Hm _ _)) by (split; constructor).
    rewrite <- normalb_spec. split.
    + intros E N. specialize (E (b + c, u ++ w)). rewrite (word_mul_get rO rI radd rmul rsub ropp rzero Rth Hz) in E by assumption.
      rewrite N, (proj2 (Hk _ _) eq_refl) in E. apply H1. exact E.
    + intros N k. rewrite (word_mul_get rO rI radd rmul rsub ropp rzero Rth Hz) by assumption.
      apply not_true_iff_false in N. rewrite N. reflexivity.
Qed.
Print Assumptions C43_box_algebra.

(* A word that is not normal can be entered directly, and the unit then kills it *)
Theorem C43_unit_refuted : exists v, box_init 1 (Z.eqb 0) [0; 1; 1] = Ok v /\
  vwf 0 v /\ beq 0 Z.sub (Z.eqb 0) (bmul 0 1 Z.add Z.mul (Z.eqb 0) (bone 1 (Z.eqb 0)) v) v = false.
Proof.
  exists [((0, [1; 1]), 1)]. split; [reflexivity|]. split; [|reflexivity].
  split; [repeat constructor; intros []|repeat constructor; discriminate].
Qed.
Print Assumptions C43_unit_refuted.

(* integer coefficients: (r1 + 2) * (r2 - 3 c1) = r1 r2 + 2 r2 - 6 c1, since r1 c1 = 0 *)
Example C43_example :
  bmul 0 1 Z.add Z.mul (Z.eqb 0) [((0, [1]), 1); ((0, []), 2)] [((0, [2]), 1); ((0, [-1]), -3)]
  = [((0, [1; 2]), 1); ((0, [2]), 2); ((0, [-1]), -6)] /\
  normal_word [1; 2] /\ ~ normal_word [1; -1] /\ (1 <> 0)%Z.
Proof.
  split; [reflexivity|]. split; [apply normalb_spec; reflexivity|]. split; [|lia].
  rewrite <- normalb_spec. discriminate.
Qed.
