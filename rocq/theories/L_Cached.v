From Coq Require Import List ZArith Lia Bool.
From Verif Require Import PyBase M_Cached.
Import ListNotations.

Section CachedFacts.
  Context {K V : Type} (keqb : K -> K -> bool).
  Hypothesis keqb_spec : forall a b, keqb a b = true <-> a = b.
  Variable body : K -> prog K V.

  Notation eval := (eval body).
  Notation evalc := (evalc keqb body).

  Lemma run_mono : forall ev1 ev2 p r,
    (forall k r, ev1 k = Some r -> ev2 k = Some r) ->
    run ev1 p = Some r -> @run K V ev2 p = Some r.
  Proof.
    intros ev1 ev2 p r H. revert r. induction p as [r0|k cont IH]; intros r Hr; simpl in *.
    - assumption.
    - destruct (ev1 k) as [r1|] eqn:E; [|discriminate].
      rewrite (H _ _ E). apply IH. assumption.
  Qed.

  Lemma eval_mono_S : forall n k r, eval n k = Some r -> eval (S n) k = Some r.
  Proof.
    induction n as [|n IH]; intros k r H; [discriminate|].
    simpl in H. change (run (eval (S n)) (body k) = Some r).
    eapply run_mono; [|exact H]. exact IH.
  Qed.

  Lemma eval_mono : forall n m k r, n <= m -> eval n k = Some r -> eval m k = Some r.
  Proof.
    intros n m k r H. induction H as [|m H IH]; auto.
    intro H1. apply eval_mono_S. auto.
  Qed.

  Lemma eval_det : forall n m k r1 r2, eval n k = Some r1 -> eval m k = Some r2 -> r1 = r2.
  Proof.
    intros n m k r1 r2 H1 H2.
    apply (eval_mono n (max n m)) in H1; [|lia].
    apply (eval_mono m (max n m)) in H2; [|lia]. congruence.
  Qed.

  Definition consistent (c : list (K * V)) : Prop :=
    forall k v, dget keqb c k = Some v -> exists n, eval n k = Some (Ok v).

  (* soundness of one cached evaluation *)
  Lemma evalc_sound : forall n k s r s',
    evalc n k s = Some (r, s') -> consistent (fst s) ->
    (exists m, eval m k = Some r) /\ consistent (fst s').
  Proof.
    induction n as [|n IH]; intros k s r s' H Hc; [discriminate|].
    simpl in H. destruct (dget keqb (fst s) k) as [v|] eqn:E.
    - injection H as H1 H2. subst. split; [apply Hc; assumption|assumption].
    - assert (Hrun : forall p s0 r0 s1, runc (evalc n) p s0 = Some (r0, s1) ->
                consistent (fst s0) ->
                (exists m, run (eval m) p = Some r0) /\ consistent (fst s1)).
      { induction p as [r1|k1 cont IHp]; intros s0 r0 s1 Hr Hc0; simpl in Hr.
        - injection Hr as H1 H2. subst. split; [exists O; reflexivity|assumption].
        - destruct (evalc n k1 s0) as [[r2 s2]|] eqn:E2; [|discriminate].
          destruct (IH _ _ _ _ E2 Hc0) as [[m1 Hm1] Hc2].
          destruct (IHp r2 s2 r0 s1 Hr Hc2) as [[m2 Hm2] Hc3].
          split; [|assumption]. exists (max m1 m2). simpl.
          rewrite (eval_mono m1 (max m1 m2) k1 r2) by (lia || assumption).
          eapply run_mono; [|exact Hm2]. intros k3 r3. apply eval_mono. lia. }
      destruct (runc (evalc n) (body k) s) as [[r1 [c1 l1]]|] eqn:E1; [|discriminate].
      destruct (Hrun _ _ _ _ E1 Hc) as [[m Hm] Hc1].
      destruct r1 as [v|e]; injection H as H1 H2; subst.
      + assert (Hv : eval (S m) k = Some (Ok v)) by exact Hm.
        split; [exists (S m); assumption|].
        intros k2 v2 H2. simpl in H2.
        destruct (keqb k k2) eqn:Ek.
        * apply keqb_spec in Ek. subst k2. rewrite dget_dset_same in H2 by assumption.
          injection H2 as H2. subst. exists (S m). assumption.
        * rewrite dget_dset_other in H2; [apply Hc1; assumption|assumption|].
          intro; subst. rewrite keqb_refl_ in Ek by assumption. discriminate.
      + split; [exists (S m); exact Hm|assumption].
  Qed.

  (* the cache only grows, and new keys have been evaluated *)
  Lemma evalc_extends : forall n k s r s',
    evalc n k s = Some (r, s') ->
    forall k2 v2, dget keqb (fst s) k2 = Some v2 -> exists v3, dget keqb (fst s') k2 = Some v3.
  Proof.
    induction n as [|n IH]; intros k s r s' H k2 v2 Hk2; [discriminate|].
    simpl in H. destruct (dget keqb (fst s) k) as [v|] eqn:E.
    - injection H as H1 H2. subst. eauto.
    - assert (Hrun : forall p s0 r0 s1 v0, runc (evalc n) p s0 = Some (r0, s1) ->
                dget keqb (fst s0) k2 = Some v0 -> exists v3, dget keqb (fst s1) k2 = Some v3).
      { induction p as [r1|k1 cont IHp]; intros s0 r0 s1 v0 Hr H0; simpl in Hr.
        - injection Hr as H1 H2. subst. eauto.
        - destruct (evalc n k1 s0) as [[r2 s2]|] eqn:E2; [|discriminate].
          destruct (IH _ _ _ _ E2 _ _ H0) as [v3 H3]. eauto. }
      destruct (runc (evalc n) (body k) s) as [[r1 [c1 l1]]|] eqn:E1; [|discriminate].
      destruct (Hrun _ _ _ _ _ E1 Hk2) as [v3 H3]. simpl in H3.
      destruct r1 as [v|e]; injection H as H1 H2; subst; simpl; eauto.
      destruct (keqb k k2) eqn:Ek.
      + apply keqb_spec in Ek. subst. rewrite dget_dset_same by assumption. eauto.
      + rewrite dget_dset_other; eauto. intro; subst. rewrite keqb_refl_ in Ek by assumption. discriminate.
  Qed.

  (* completeness: cached evaluation terminates whenever direct evaluation does *)
  Lemma runc_complete : forall m ev,
    (forall k r s, eval m k = Some r -> consistent (fst s) ->
       exists s', ev k s = Some (r, s') /\ consistent (fst s')) ->
    forall p r s, run (eval m) p = Some r -> consistent (fst s) ->
    exists s', runc ev p s = Some (r, s') /\ consistent (fst s').
  Proof.
    intros m ev Hev. induction p as [r1|k1 cont IHp]; intros r s Hr Hc; simpl in *.
    - injection Hr as Hr. subst. eauto.
    - destruct (eval m k1) as [r2|] eqn:E; [|discriminate].
      destruct (Hev k1 r2 s E Hc) as (s2 & Hs2 & Hc2). rewrite Hs2. eauto.
  Qed.

  Lemma evalc_complete : forall m k r s,
    eval m k = Some r -> consistent (fst s) ->
    exists s', evalc m k s = Some (r, s') /\ consistent (fst s').
  Proof.
    induction m as [|m IH]; intros k r s H Hc; [discriminate|].
    simpl. destruct (dget keqb (fst s) k) as [v|] eqn:E.
    - exists s. split; [|assumption].
      destruct (Hc _ _ E) as [n Hn]. rewrite (eval_det _ _ _ _ _ H Hn). reflexivity.
    - change (run (eval m) (body k) = Some r) in H.
      destruct (runc_complete m (evalc m)) with (p := body k) (r := r) (s := s)
        as (s' & Hs' & Hc'); auto.
      rewrite Hs'. destruct r as [v|e]; destruct s' as [c' l'].
      + eexists. split; [reflexivity|]. intros k2 v2 H2. simpl in H2.
        destruct (keqb k k2) eqn:Ek.
        * apply keqb_spec in Ek. subst k2. rewrite dget_dset_same in H2 by assumption.
          injection H2 as H2. subst. exists (S m). exact H.
        * rewrite dget_dset_other in H2; [apply Hc'; assumption|assumption|].
          intro; subst. rewrite keqb_refl_ in Ek by assumption. discriminate.
      + eexists. split; [reflexivity|assumption].
  Qed.

  Lemma history_sound : forall calls s rs s',
    consistent (fst s) -> history keqb body calls s = Some (rs, s') ->
    Forall2 (fun c r => exists m, eval m (snd c) = Some r) calls rs /\ consistent (fst s').
  Proof.
    induction calls as [|[n k] calls IH]; intros s rs s' Hc H; simpl in H.
    - injection H as H1 H2. subst. split; [constructor|assumption].
    - destruct (evalc n k s) as [[r s1]|] eqn:E; [|discriminate].
      destruct (history keqb body calls s1) as [[rs1 s2]|] eqn:E2; [|discriminate].
      injection H as H1 H2. subst.
      destruct (evalc_sound _ _ _ _ _ E Hc) as [Hm Hc1].
      destruct (IH _ _ _ Hc1 E2) as [H3 H4].
      split; [constructor; assumption|assumption].
  Qed.

  Lemma history_complete : forall calls rs,
    Forall2 (fun c r => eval (fst c) (snd c) = Some r) calls rs ->
    forall s, consistent (fst s) -> exists s', history keqb body calls s = Some (rs, s').
  Proof.
    intros calls rs H. induction H as [|[n k] r calls rs H1 H2 IH]; intros s Hc; simpl.
    - eauto.
    - destruct (evalc_complete _ _ _ _ H1 Hc) as (s1 & Hs1 & Hc1). simpl in Hs1. rewrite Hs1.
      destruct (IH _ Hc1) as [s2 Hs2]. rewrite Hs2. eauto.
  Qed.

  Lemma in_dec_dec : forall (k : K) l, In k l \/ ~ In k l.
  Proof.
    intros k l. induction l as [|a l IH]; [right; tauto|].
    destruct (keqb a k) eqn:E.
    - left. left. apply keqb_spec. assumption.
    - destruct IH as [IH|IH]; [left; right; assumption|right].
      intros [H|H]; [|contradiction]. subst. rewrite keqb_refl_ in E by assumption. discriminate.
  Qed.

  (* every key stored during an evaluation of k needs at most the depth of k,
     and strictly less unless it is k itself *)
  Lemma runc_new_depth_aux : forall n,
    (forall k s r s', evalc n k s = Some (r, s') -> consistent (fst s) ->
      forall m, eval m k = Some r ->
      forall k2, ~ In k2 (snd s) -> In k2 (snd s') ->
      (k2 = k \/ exists m2 r2, (m2 < m)%nat /\ eval m2 k2 = Some r2)) ->
    forall m k2 p s0 r0 s1, runc (evalc n) p s0 = Some (r0, s1) ->
      consistent (fst s0) -> run (eval m) p = Some r0 ->
      ~ In k2 (snd s0) -> In k2 (snd s1) ->
      exists m2 r2, (m2 < S m)%nat /\ eval m2 k2 = Some r2.
  Proof.
    intros n IH m k2.
    induction p as [r1|k1 cont IHp]; intros s0 r0 s1 Hr Hc0 Hp Hn0 Hi1; simpl in Hr, Hp.
    - injection Hr as H1 H2. subst. contradiction.
    - destruct (evalc n k1 s0) as [[r2 s2]|] eqn:E2; [|discriminate].
      destruct (eval m k1) as [r3|] eqn:E3; [|discriminate].
      destruct (evalc_sound _ _ _ _ _ E2 Hc0) as [[m4 Hm4] Hc2].
      assert (r3 = r2) by (eapply eval_det; eassumption). subst r3.
      destruct (in_dec_dec k2 (snd s2)) as [Hd|Hd].
      + destruct (IH _ _ _ _ E2 Hc0 _ E3 _ Hn0 Hd) as [H5|(m5 & r5 & H5 & H6)].
        * subst k2. exists m, r2. split; [lia|assumption].
        * exists m5, r5. split; [lia|assumption].
      + eapply IHp; eassumption.
  Qed.

  Lemma evalc_new_depth : forall n k s r s',
    evalc n k s = Some (r, s') -> consistent (fst s) ->
    forall m, eval m k = Some r ->
    forall k2, ~ In k2 (snd s) -> In k2 (snd s') ->
    (k2 = k \/ exists m2 r2, (m2 < m)%nat /\ eval m2 k2 = Some r2).
  Proof.
    induction n as [|n IH]; intros k s r s' H Hc m Hm k2 Hnin Hin; [discriminate|].
    simpl in H. destruct (dget keqb (fst s) k) as [v|] eqn:E.
    - injection H as H1 H2. subst. contradiction.
    - destruct m as [|m]; [discriminate|]. change (run (eval m) (body k) = Some r) in Hm.
      pose proof (runc_new_depth_aux n IH m k2) as Hrun.
      destruct (runc (evalc n) (body k) s) as [[r1 [c1 l1]]|] eqn:E1; [|discriminate].
      destruct r1 as [v|e]; injection H as H1 H2; subst.
      + simpl in Hin. destruct Hin as [Hin|Hin]; [left; congruence|].
        right. eapply Hrun; eauto.
      + right. eapply Hrun; eauto.
  Qed.

  (* the log of stored keys never repeats, and only stored keys are logged *)
  Definition logged (s : state (K:=K) (V:=V)) : Prop :=
    NoDup (snd s) /\ (forall k, In k (snd s) -> exists v, dget keqb (fst s) k = Some v).

  Lemma evalc_log : forall n k s r s',
    evalc n k s = Some (r, s') -> consistent (fst s) -> logged s -> logged s'.
  Proof.
    induction n as [|n IH]; intros k s r s' H Hc Hl; [discriminate|].
    pose proof (evalc_new_depth n) as Hnew.
    simpl in H. destruct (dget keqb (fst s) k) as [v|] eqn:E.
    { injection H as H1 H2. subst. assumption. }
    assert (Hrun : forall p s0 r0 s1, runc (evalc n) p s0 = Some (r0, s1) ->
              consistent (fst s0) -> logged s0 -> logged s1 /\ (exists m, run (eval m) p = Some r0)).
    { induction p as [r1|k1 cont IHp]; intros s0 r0 s1 Hr Hc0 Hl0; simpl in Hr.
      - injection Hr as H1 H2. subst. split; [assumption|exists O; reflexivity].
      - destruct (evalc n k1 s0) as [[r2 s2]|] eqn:E2; [|discriminate].
        destruct (evalc_sound _ _ _ _ _ E2 Hc0) as [[m1 Hm1] Hc2].
        destruct (IHp r2 s2 r0 s1 Hr Hc2 (IH _ _ _ _ E2 Hc0 Hl0)) as [Hl1 [m2 Hm2]].
        split; [assumption|]. exists (max m1 m2). simpl.
        rewrite (eval_mono m1 (max m1 m2) k1 r2) by (lia || assumption).
        eapply run_mono; [|exact Hm2]. intros k3 r3. apply eval_mono. lia. }
    destruct (runc (evalc n) (body k) s) as [[r1 [c1 l1]]|] eqn:E1; [|discriminate].
    destruct (Hrun _ _ _ _ E1 Hc Hl) as [[Hnd Hst] [m Hm]]. simpl in Hnd, Hst.
    destruct r1 as [v|e]; injection H as H1 H2; subst; [|split; assumption].
    split; simpl.
    - constructor; [|assumption]. intro Hin.
      assert (Hnot : ~ In k (snd s)).
      { intro Hk. destruct Hl as [_ Hl2]. destruct (Hl2 _ Hk) as [v0 Hv0]. congruence. }
      assert (Hdesc : forall q q0, (q < q0)%nat -> eval q k = Some (Ok v) -> False).
      { intros q q0. revert q. induction q0 as [|q0 IHq]; intros q Hq Hev; [lia|].
        destruct q as [|q]; [discriminate|].
        pose proof Hev as Hev2. change (run (eval q) (body k) = Some (Ok v)) in Hev2.
        destruct (runc_new_depth_aux n Hnew q k (body k) s (Ok v) (c1, l1) E1 Hc Hev2 Hnot Hin)
          as (m2 & r2 & Hm2 & He2).
        assert (r2 = Ok v) by (eapply eval_det; eassumption). subst r2.
        apply (IHq m2); [lia|assumption]. }
      apply (Hdesc (S m) (S (S m))); [lia|exact Hm].
    - intros k2 [Hk2|Hk2].
      + subst. rewrite dget_dset_same by assumption. eauto.
      + destruct (keqb k k2) eqn:Ek.
        * apply keqb_spec in Ek. subst. rewrite dget_dset_same by assumption. eauto.
        * rewrite dget_dset_other; eauto. intro; subst. rewrite keqb_refl_ in Ek by assumption. discriminate.
  Qed.

  Lemma history_log : forall calls s rs s',
    consistent (fst s) -> logged s -> history keqb body calls s = Some (rs, s') -> logged s'.
  Proof.
    induction calls as [|[n k] calls IH]; intros s rs s' Hc Hl H; simpl in H.
    - injection H as H1 H2. subst. assumption.
    - destruct (evalc n k s) as [[r s1]|] eqn:E; [|discriminate].
      destruct (history keqb body calls s1) as [[rs1 s2]|] eqn:E2; [|discriminate].
      injection H as H1 H2. subst.
      destruct (evalc_sound _ _ _ _ _ E Hc) as [Hm Hc1].
      eapply IH; [exact Hc1| |exact E2]. eapply evalc_log; eassumption.
  Qed.

  (* packaged *)
  Lemma consistent_nil : consistent [].
  Proof. intros k v H. discriminate. Qed.

  Lemma logged_nil : logged ([], []).
  Proof. split; [constructor|intros k []]. Qed.

  Lemma cached_history_correct : forall calls rs s',
    history keqb body calls ([], []) = Some (rs, s') ->
    Forall2 (fun c r => exists m, eval m (snd c) = Some r) calls rs.
  Proof.
    intros calls rs s' H. eapply history_sound; [|exact H]. apply consistent_nil.
  Qed.

  Lemma cached_history_total : forall calls rs,
    Forall2 (fun c r => eval (fst c) (snd c) = Some r) calls rs ->
    exists s', history keqb body calls ([], []) = Some (rs, s').
  Proof. intros calls rs H. eapply history_complete; [exact H|apply consistent_nil]. Qed.

  Lemma cached_history_once : forall calls rs s',
    history keqb body calls ([], []) = Some (rs, s') -> NoDup (snd s').
  Proof.
    intros calls rs s' H.
    destruct (history_log calls ([], []) rs s' consistent_nil logged_nil H) as [H1 _]. assumption.
  Qed.
End CachedFacts.
