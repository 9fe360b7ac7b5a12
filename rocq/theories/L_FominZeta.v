(* Embeddings of words into chains are the zeta functions of decreasing and unimodal words. *)
From Coq Require Import List ZArith Lia Bool Permutation Arith.
From Verif Require Import PyBase M_Words S_Words L_Fomin L_FominWords L_FominB P_Words L_Count.
Import ListNotations.
Local Open Scope Z_scope.

Lemma pairwise_nil : forall rel, pairwise rel [].
Proof. intros rel p q H. cbn in H. lia. Qed.
Lemma pairwise_cons : forall rel a w, pairwise rel (a :: w) <-> Forall (rel a) w /\ pairwise rel w.
Proof.
  intros rel a w. split.
  - intro H. split.
    + apply Forall_forall. intros x Hx. apply (In_nth _ _ 0) in Hx. destruct Hx as (q & Hq & <-). apply (H 0%nat (S q)). cbn. lia.
    + intros p q Hq. apply (H (S p) (S q)). cbn. lia.
  - intros [H1 H2] p q Hq. destruct q as [|q]; [lia|]. cbn in Hq. destruct p as [|p].
    + cbn. rewrite Forall_forall in H1. apply H1. apply nth_In. lia.
    + cbn. apply H2. lia.
Qed.
Lemma pairwise_rev : forall w, pairwise Z.gt (rev w) <-> pairwise Z.lt w.
Proof.
  intro w. split; intros H p q Hq.
  - assert (L := H (length w - S q)%nat (length w - S p)%nat ltac:(rewrite rev_length; lia)). rewrite !rev_nth in L by lia.
    replace (length w - S (length w - S q))%nat with q in L by lia. replace (length w - S (length w - S p))%nat with p in L by lia. lia.
  - rewrite rev_length in Hq. rewrite !rev_nth by lia. assert (L := H (length w - S q)%nat (length w - S p)%nat ltac:(lia)). lia.
Qed.

Fixpoint dn (lo : Z) (k : nat) : list Z := match k with O => [] | S k' => lo + Z.of_nat k' :: dn lo k' end.
Fixpoint ddec (lo hi : Z) (v : list Z) : bool := match v with [] => true | a :: v' => (lo <=? a) && (a <=? hi) && ddec lo (a - 1) v' end.
Lemma emb_nil : forall l, emb l [] = 1.
Proof. induction l as [|i l IH]; cbn [emb]; [reflexivity|lia]. Qed.
Lemma emb_dn : forall k lo v, emb (dn lo k) v = b2z (ddec lo (lo + Z.of_nat k - 1) v).
Proof.
  induction k as [|k IH]; intros lo v.
  - cbn [dn emb]. destruct v as [|a v]; [reflexivity|]. cbn [ddec]. destruct (Z.leb_spec lo a), (Z.leb_spec a (lo + Z.of_nat 0 - 1)); try reflexivity. lia.
  - cbn [dn emb]. rewrite !IH. destruct v as [|a v]; [reflexivity|]. cbn [ddec]. rewrite Nat2Z.inj_succ. destruct (Z.eqb_spec a (lo + Z.of_nat k)) as [->|N].
    + replace (lo + Z.of_nat k <=? lo + Z.of_nat k - 1) with false by lia. rewrite andb_false_r. cbn [andb b2z]. rewrite IH.
      rewrite (proj2 (Z.leb_le lo (lo + Z.of_nat k))) by lia. rewrite (proj2 (Z.leb_le (lo + Z.of_nat k) (lo + Z.succ (Z.of_nat k) - 1))) by lia. reflexivity.
    + replace (a <=? lo + Z.succ (Z.of_nat k) - 1) with (a <=? lo + Z.of_nat k - 1) by (destruct (Z.leb_spec a (lo + Z.of_nat k - 1)), (Z.leb_spec a (lo + Z.succ (Z.of_nat k) - 1)); try reflexivity; lia). lia.
Qed.
Lemma ddec_spec : forall v lo hi, ddec lo hi v = true <-> pairwise Z.gt v /\ Forall (fun a => lo <= a <= hi) v.
Proof.
  induction v as [|a v IH]; intros lo hi; cbn [ddec].
  - split; [intro; split; [apply pairwise_nil|constructor]|reflexivity].
  - rewrite !andb_true_iff, IH, pairwise_cons, !Z.leb_le. split.
    + intros ((L & R) & Pw & F). split; [split; [|assumption]|].
      * eapply Forall_impl; [|exact F]. cbn. intros; lia.
      * constructor; [lia|]. eapply Forall_impl; [|exact F]. cbn. intros; lia.
    + intros ((G & Pw) & F). inversion F as [|? ? H1 H2]; subst. split; [lia|]. split; [assumption|]. rewrite Forall_forall in *. intros x Hx. specialize (G x Hx). specialize (H2 x Hx). lia.
Qed.
Lemma dec_zeta_emb : forall lo k v, Forall (fun a => lo <= a < lo + Z.of_nat k) v -> decreasing_zeta v = emb (dn lo k) v.
Proof.
  intros lo k v F. rewrite emb_dn. destruct (C24_zetas v) as (_ & (A & B) & _). destruct (ddec lo (lo + Z.of_nat k - 1) v) eqn:E; cbn [b2z].
  - apply A. apply ddec_spec in E. apply E.
  - apply B. intro Pw. assert (ddec lo (lo + Z.of_nat k - 1) v = true); [|congruence]. apply ddec_spec. split; [assumption|]. eapply Forall_impl; [|exact F]. cbn. intros; lia.
Qed.
Lemma emb_app : forall l1 l2 v, emb (l1 ++ l2) v = zs (fun i => emb l1 (firstn i v) * emb l2 (skipn i v)) (seq 0 (S (length v))).
Proof.
  induction l1 as [|a l1 IH]; intros l2 v.
  - cbn [app]. cbn [seq]. rewrite zs_cons. change (emb [] (firstn 0 v)) with 1. cbn [skipn]. rewrite zs_zero; [ring|]. intros i Hi. apply in_seq in Hi. destruct i as [|i]; [lia|]. destruct v as [|b v]; [cbn in Hi; lia|]. cbn. ring.
  - cbn [app emb]. rewrite IH. rewrite (zs_ext _ (fun i => emb (a :: l1) (firstn i v) * emb l2 (skipn i v))
      (fun i => emb l1 (firstn i v) * emb l2 (skipn i v) + match firstn i v with [] => 0 | b :: v' => if b =? a then emb l1 v' else 0 end * emb l2 (skipn i v))) by (intros; cbn [emb]; ring).
    rewrite zs_plus. f_equal. destruct v as [|b v].
    + cbn. reflexivity.
    + cbn [length]. change (seq 0 (S (S (length v)))) with (0%nat :: seq 1 (S (length v))). rewrite zs_cons. cbn [firstn]. rewrite Z.mul_0_l, Z.add_0_l. rewrite <- seq_shift, zs_map.
      destruct (Z.eqb_spec b a) as [->|N].
      * rewrite IH. apply zs_ext. intros i _. cbn [firstn skipn]. rewrite Z.eqb_refl. reflexivity.
      * symmetry. apply zs_zero. intros i _. cbn [firstn]. replace (b =? a) with false by lia. ring.
Qed.
Lemma emb_snoc : forall l i v, emb (l ++ [i]) v = emb l v + match rev v with [] => 0 | a :: r => if a =? i then emb l (rev r) else 0 end.
Proof.
  induction l as [|j l IH]; intros i v.
  - cbn [app emb]. destruct v as [|a v]; [reflexivity|]. destruct v as [|b v].
    + cbn. reflexivity.
    + cbn [emb]. destruct (rev (a :: b :: v)) as [|c r] eqn:E; [destruct (a =? i); reflexivity|].
      assert (L : length (rev r) <> 0%nat). { assert (Lr := f_equal (@length Z) E). rewrite rev_length in Lr. cbn in Lr. rewrite rev_length. lia. }
      destruct (rev r) as [|d q]; [cbn in L; lia|]. destruct (a =? i), (c =? i); reflexivity.
  - cbn [app emb]. rewrite IH. destruct v as [|a v]; [reflexivity|]. rewrite (IH i v). cbn [rev]. destruct (rev v) as [|c r] eqn:E.
    + assert (v = []) by (apply (f_equal (@rev Z)) in E; rewrite rev_involutive in E; exact E). subst v. cbn [app rev emb]. destruct (a =? i), (a =? j); ring.
    + cbn [app]. rewrite rev_app_distr. cbn [rev app emb]. destruct (a =? j), (c =? i); ring.
Qed.
Lemma emb_rev : forall l v, emb (rev l) (rev v) = emb l v.
Proof.
  induction l as [|i l IH]; intro v; cbn [rev].
  - destruct v as [|a v]; [reflexivity|]. cbn [emb]. destruct (rev (a :: v)) eqn:E; [|reflexivity]. apply (f_equal (@length Z)) in E. rewrite rev_length in E. discriminate.
  - rewrite emb_snoc, IH, rev_involutive. cbn [emb]. destruct v as [|a v]; [reflexivity|]. rewrite (IH v). reflexivity.
Qed.
Lemma inc_zeta_emb : forall lo k v, Forall (fun a => lo <= a < lo + Z.of_nat k) v -> increasing_zeta v = emb (rev (dn lo k)) v.
Proof.
  intros lo k v F. rewrite <- (rev_involutive v) at 2. rewrite emb_rev. rewrite <- (dec_zeta_emb lo k) by (apply Forall_rev; assumption).
  destruct (C24_zetas v) as ((A & B) & _). destruct (C24_zetas (rev v)) as (_ & (A' & B') & _).
  destruct (Z.eq_dec (increasing_zeta v) 1) as [E|E].
  - rewrite E. symmetry. apply A'. apply pairwise_rev. destruct (ddec lo (lo + Z.of_nat k - 1) (rev v)) eqn:D.
    + apply ddec_spec in D. apply pairwise_rev. apply D.
    + exfalso. assert (N : ~ pairwise Z.lt v). { intro Pw. apply pairwise_rev in Pw. assert (ddec lo (lo + Z.of_nat k - 1) (rev v) = true); [|congruence].
      apply ddec_spec. split; [assumption|]. apply Forall_rev in F. eapply Forall_impl; [|exact F]. cbn. intros; lia. }
      apply B in N. lia.
  - assert (N : ~ pairwise Z.lt v) by (intro Pw; apply E; apply A; assumption). rewrite (B N). symmetry. apply B'. intro Pw. apply N. apply pairwise_rev. assumption.
Qed.
Lemma kl_dn : forall m, kl m = dn 0 (S m) ++ rev (dn 0 (S m)).
Proof.
  induction m as [|m IH]; [reflexivity|]. change (kl (S m)) with (Z.of_nat (S m) :: kl m ++ [Z.of_nat (S m)]). rewrite IH.
  change (dn 0 (S (S m))) with (Z.of_nat (S m) :: dn 0 (S m)). cbn [rev app]. rewrite <- app_assoc. reflexivity.
Qed.
Lemma dl_dn : forall m, dl m = dn 1 m.
Proof. induction m as [|m IH]; [reflexivity|]. cbn [dl dn]. rewrite IH. f_equal. lia. Qed.
Lemma uni_zeta_emb : forall m v, Forall (fun a => 0 <= a <= Z.of_nat m) v -> unimodal_zeta v = emb (kl m) v.
Proof.
  intros m v F. rewrite kl_dn, emb_app. unfold unimodal_zeta, split_zeta, zs.
  assert (E : zrange 0 (zlen v + 1) = map Z.of_nat (seq 0 (S (length v)))).
  { unfold zrange. replace (Z.to_nat (zlen v + 1 - 0)) with (S (length v)) by (unfold zlen; lia). apply map_ext. intro; lia. }
  rewrite E, map_map. f_equal. apply map_ext_in. intros i _. rewrite Nat2Z.id.
  assert (F' : Forall (fun a => 0 <= a < 0 + Z.of_nat (S m)) v) by (eapply Forall_impl; [|exact F]; cbn; intros; lia).
  rewrite <- (firstn_skipn i v) in F'. apply Forall_app in F'. destruct F' as [F1 F2].
  rewrite (dec_zeta_emb 0 (S m)), (inc_zeta_emb 0 (S m)) by assumption. reflexivity.
Qed.
