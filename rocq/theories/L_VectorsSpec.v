From Coq Require Import List ZArith Lia Bool Ring.
From Verif Require Import PyBase FinSum M_Vectors L_Vectors S_Vectors.
Import ListNotations.

Lemma module_spec_holds : forall K R keqb rO rI radd rmul rsub ropp rzero,
  @module_spec K R keqb rO rI radd rmul rsub ropp rzero.
Proof.
  intros K R keqb rO rI radd rmul rsub ropp rzero Hk Hr Hz.
  split; [intros; apply vmake_wf; assumption|].
  split; [intros; split; [apply vadd_wf|apply vsub_wf]; assumption|].
  split; [intros; split; [apply vscale_wf|apply vneg_wf]; assumption|].
  split; [intros; apply vget_vmake; assumption|].
  split; [intros; eapply vadd_get; eassumption|].
  split; [intros; eapply vsub_get; eassumption|].
  split; [intros; eapply vscale_get; eassumption|].
  split; [intros; eapply vneg_get; eassumption|].
  split; [intros; eapply veq_spec; eassumption|].
  intros; eapply vis_zero_spec; eassumption.
Qed.

Lemma product_spec_holds : forall K R keqb rO rI radd rmul rsub ropp rzero,
  @product_spec K R keqb rO rI radd rmul rsub ropp rzero.
Proof.
  intros K R keqb rO rI radd rmul rsub ropp rzero Hk Hr Hz mult.
  split; [intros; eapply vmul_wf; eauto|].
  split; [intros; eapply vmul_get; eauto|].
  split; intros; split; eapply veq_spec; eauto;
    try (eapply vmul_wf; eauto); try (eapply vadd_wf; eauto; eapply vmul_wf; eauto);
    try (eapply vscale_wf; eauto; eapply vmul_wf; eauto); intro k;
    eauto using vmul_add_l, vmul_add_r, vmul_scale_l, vmul_scale_r.
Qed.

Lemma assoc_spec_holds : forall K R keqb rO rI radd rmul rsub ropp rzero,
  @assoc_spec K R keqb rO rI radd rmul rsub ropp rzero.
Proof.
  intros K R keqb rO rI radd rmul rsub ropp rzero Hk Hr Hz mult Ha.
  assert (Hit : forall v n, Nat.iter n (fun x => vmul keqb rO radd rmul rzero mult x v) v
                = viter keqb rO radd rmul rzero mult v n).
  { intros v n. induction n as [|n IH]; simpl; [reflexivity|]. rewrite IH. reflexivity. }
  split; intros; eapply veq_spec; eauto; try (eapply vmul_wf; eauto).
  - intro k. eapply vmul_assoc; eauto.
  - eapply vpow_wf; eauto.
  - rewrite Hit. eapply viter_wf; eauto.
  - intro k. rewrite Hit. eapply vpow_viter; eauto.
Qed.

