(* Products of shortest involution words of an unsigned involution are the permutations satisfying [cond]. *)
From Coq Require Import List ZArith Bool Lia Permutation.
From Verif Require Import PyBase M_Partitions M_Perm S_Perm M_Levels S_Levels L_Perm L_PermLen L_PermWord L_PermDem L_LevelsInst P_Perm P_Levels L_PermActs M_PermGroth L_PermGroth7 S_PermGroth S_InvWords L_InvLen L_InvLen2 L_Atoms1.
Import ListNotations.
Local Open Scope Z_scope.

Definition unsig (z : list Z) : Prop := forall x, 1 <= x -> 1 <= pcall z x.
Lemma unsig_pinvol : forall z, invol z -> unsig z -> pinvol (pcall z).
Proof. intros z [_ H] U x Hx. split; [apply U; exact Hx|apply H]. Qed.
Lemma canonical_pinj : forall a, canonical a -> pinj (pcall a).
Proof. intros a [H _] x y _ _ E. apply (pcall_inj a); assumption. Qed.
Lemma simple_sw : forall i x, 1 <= i -> 1 <= x -> simple i x = sw i x.
Proof. intros i x Hi Hx. unfold simple, sw. replace (i =? 0) with false by lia. destruct (Z.eqb_spec x i); [reflexivity|]. destruct (Z.eqb_spec x (i + 1)); [reflexivity|]. replace (x =? - i) with false by lia. replace (x =? - i - 1) with false by lia. reflexivity. Qed.

(* one step of the action, seen on functions *)
Lemma step_cases : forall z i, invol z -> unsig z -> 1 <= i -> ~ descent (pcall z) i ->
  let y := cj z i in invol y /\ unsig y /\ descent (pcall y) i /\ pcall z i < pcall z (i + 1) /\
  ((pcall z i = i /\ pcall z (i + 1) = i + 1 /\ pcall y i = i + 1 /\ (forall x, 1 <= x -> pcall y x = pcall z (sw i x)) /\ (forall x, 1 <= x -> pcall z x = pcall y (sw i x))) \/
   (~ (pcall z i = i /\ pcall z (i + 1) = i + 1) /\ pcall y i <> i + 1 /\ (forall x, 1 <= x -> pcall y x = sw i (pcall z (sw i x))) /\ (forall x, 1 <= x -> pcall z x = sw i (pcall y (sw i x))))).
Proof.
  intros z i Hz U Hi D y. destruct (cj_rel z i Hz ltac:(lia)) as [R V]. fold y in R, V. pose proof Hz as [Hc Hv].
  assert (N : pcall z i <> pcall z (i + 1)) by (intro E; apply pcall_inj in E; [lia|apply Hc]).
  assert (Lt : pcall z i < pcall z (i + 1)) by (unfold descent in D; replace (i =? 0) with false in D by lia; lia).
  pose proof (U i Hi) as U1. pose proof (U (i + 1) ltac:(lia)) as U2.
  split; [exact V|].
  destruct R as [[D' _]|[(_ & C & E)|(_ & [x0 C] & E)]]; [contradiction| |].
  - assert (F : pcall z i = i /\ pcall z (i + 1) = i + 1).
    { pose proof (C i) as Q. rewrite (simple_sw i i), (simple_sw i (pcall z i)) in Q by lia. rewrite sw_i in Q. unfold sw in Q. destruct (Z.eqb_spec (pcall z i) i); [lia|]. destruct (Z.eqb_spec (pcall z i) (i + 1)); lia. }
    destruct F as [F1 F2].
    assert (E' : forall x, 1 <= x -> pcall y x = pcall z (sw i x)) by (intros x Hx; rewrite E; rewrite simple_sw by assumption; reflexivity).
    assert (Y1 : pcall y i = i + 1) by (rewrite E' by lia; rewrite sw_i; exact F2). assert (Y2 : pcall y (i + 1) = i) by (rewrite E' by lia; rewrite sw_i1; exact F1).
    split; [intros x Hx; rewrite E' by exact Hx; apply U; apply sw_pos; assumption|]. split; [unfold descent; replace (i =? 0) with false by lia; lia|]. split; [exact Lt|]. left. repeat split; try assumption.
    intros x Hx. rewrite E' by (apply sw_pos; assumption). rewrite sw_invol. reflexivity.
  - assert (NF : ~ (pcall z i = i /\ pcall z (i + 1) = i + 1)).
    { intros [F1 F2]. apply C. apply cj_commute; [exact Hz|lia|exact D|]. unfold descent. replace (i =? 0) with false by lia. rewrite !mulp_call by (first [apply sp_canonical; lia|apply Hc]). rewrite !sp_call by lia. rewrite F1, F2. rewrite simple_i, simple_i1 by lia. lia. }
    assert (E' : forall x, 1 <= x -> pcall y x = sw i (pcall z (sw i x))).
    { intros x Hx. rewrite E. rewrite (simple_sw i x) by assumption. apply simple_sw; [exact Hi|]. apply U. apply sw_pos; assumption. }
    assert (Nz : pcall z (i + 1) <> i) by (intro Q; assert (pcall z i = i + 1) by (rewrite <- Q at 1; apply Hv); lia).
    split; [intros x Hx; rewrite E' by exact Hx; apply sw_pos; [exact Hi|]; apply U; apply sw_pos; assumption|]. split.
    { unfold descent. replace (i =? 0) with false by lia. rewrite !E' by lia. rewrite sw_i, sw_i1. assert (Q : sw i (pcall z i) <> sw i (pcall z (i + 1))) by (intro Q; apply (f_equal (sw i)) in Q; rewrite !sw_invol in Q; contradiction).
      destruct (Z_lt_ge_dec (sw i (pcall z i)) (sw i (pcall z (i + 1)))) as [L|L]; [exact L|]. exfalso. assert (L' : sw i (pcall z (i + 1)) < sw i (pcall z i)) by lia. apply sw_lt in L'. destruct L' as [L'|[Q1 Q2]]; [lia|]. apply NF. tauto. }
    split; [exact Lt|]. right. split; [exact NF|]. split.
    { rewrite E' by lia. rewrite sw_i. intro Q. apply (f_equal (sw i)) in Q. rewrite sw_invol, sw_i1 in Q. contradiction. }
    split; [exact E'|]. intros x Hx. rewrite E' by (apply sw_pos; assumption). rewrite !sw_invol. reflexivity.
Qed.
Lemma iact_some : forall z i y, iact false z i = Some y -> ~ descent (pcall z) i /\ y = cj z i.
Proof.
  intros z i y E. unfold iact in E. cbn [orb] in E. destruct (peq (cj z i) z) eqn:Q; [discriminate|]. cbn [negb] in E. injection E as <-. split; [|reflexivity].
  intro D. rewrite (cj_descent z i D) in Q. unfold peq in Q. rewrite (proj2 (zlist_eqb_eq z z) eq_refl) in Q. discriminate.
Qed.
Lemma iact_asc : forall z i, descent (pcall (cj z i)) i -> ~ descent (pcall z) i -> iact false z i = Some (cj z i).
Proof.
  intros z i D N. unfold iact. cbn [orb]. destruct (peq (cj z i) z) eqn:Q; [|reflexivity]. apply zlist_eqb_eq in Q. rewrite Q in D. contradiction.
Qed.
Lemma mulp_sp_pos : forall a i x, canonical a -> 1 <= i -> 1 <= x -> pcall (mulp a (sp i)) x = pcall a (sw i x).
Proof. intros a i x Ha Hi Hx. rewrite mulp_call by (first [apply sp_canonical; lia|apply Ha]). rewrite sp_call by lia. rewrite simple_sw by assumption. reflexivity. Qed.
Lemma cond_nil : forall z, invol z -> unsig z -> cond (pcall z) (pcall []) -> z = [].
Proof.
  intros z Hz U (C1 & _ & _). apply canonical_ext; [apply Hz|apply nil_canonical|].
  assert (P : forall x, 1 <= x -> pcall z x = x).
  { intros x Hx. pose proof (C1 x Hx) as Q1. pose proof (C1 (pcall z x) (U x Hx)) as Q2. rewrite (proj2 Hz) in Q2. rewrite !pcall_nil in Q1, Q2. lia. }
  intro x. rewrite pcall_nil. destruct (Z_lt_ge_dec x 0) as [L|L]; [|destruct (Z.eq_dec x 0) as [->|N]; [apply pcall_zero|apply P; lia]].
  replace x with (- (- x)) by lia. rewrite pcall_odd, P by lia. reflexivity.
Qed.
Lemma nil_cond : cond (pcall []) (pcall []).
Proof. split; [|split]; intros; rewrite ?pcall_nil in *; lia. Qed.
Lemma unsig_nil : unsig [].
Proof. intros x Hx. rewrite pcall_nil. exact Hx. Qed.
(* every word of the product of letters >= 1 is unsigned *)
Lemma unsig_mulp : forall a i, canonical a -> 1 <= i -> (unsig (mulp a (sp i)) <-> unsig a).
Proof.
  intros a i Ha Hi. split; intros U x Hx.
  - specialize (U (sw i x) (sw_pos i x Hi Hx)). rewrite mulp_sp_pos in U by (first [assumption|apply sw_pos; assumption]). rewrite sw_invol in U. exact U.
  - rewrite mulp_sp_pos by assumption. apply U. apply sw_pos; assumption.
Qed.
(* shortest words only use positive letters *)
Lemma path_step0 : forall z, invol z -> ~ descent (pcall z) 0 -> ~ unsig (cj z 0).
Proof.
  intros z Hz D U. pose proof Hz as [Hc Hv]. destruct (cj_rel z 0 Hz ltac:(lia)) as [R _]. specialize (U 1 ltac:(lia)). unfold descent in D. cbn in D.
  assert (O : pcall z (-1) = - pcall z 1) by (change (-1) with (- (1)); apply pcall_odd). pose proof (pcall_nonzero z 1 (proj1 Hc) ltac:(lia)) as Nz.
  destruct R as [[D' _]|[(_ & C & E)|(_ & [x0 C] & E)]].
  - unfold descent in D'. cbn in D'. lia.
  - rewrite E in U. change (simple 0 1) with (-1) in U. lia.
  - rewrite E in U. change (simple 0 1) with (-1) in U. rewrite O in U. destruct (Z.eq_dec (pcall z 1) 1) as [E1|N1].
    + apply C. apply cj_commute; [exact Hz|lia|unfold descent; cbn; lia|]. unfold descent. change (0 =? 0) with true. cbv beta iota. rewrite mulp_call by (first [apply sp_canonical; lia|apply Hc]). rewrite sp_call by lia. rewrite E1. reflexivity.
    + unfold simple in U. change (0 =? 0) with true in U. cbv beta iota in U. replace (Z.abs (- pcall z 1) =? 1) with false in U by lia. lia.
Qed.
Lemma path_cond : forall v z, gens v -> path (iact false) [] v = Some z -> unsig z ->
  Forall (fun i => 1 <= i) v /\ invol z /\ canonical (wordp v) /\ unsig (wordp v) /\ cond (pcall z) (pcall (wordp v)).
Proof.
  induction v as [|i v IH] using rev_ind; intros z G P U.
  - cbn in P. injection P as <-. change (wordp []) with (@nil Z). split; [constructor|]. split; [apply invol_nil|]. split; [apply nil_canonical|]. split; [exact U|apply nil_cond].
  - apply gens_app in G. destruct G as [Gv Gi]. inversion Gi as [|? ? Hi _]; subst. rewrite path_snoc in P. destruct (path (iact false) [] v) as [y|] eqn:Ey; [|discriminate]. apply iact_some in P. destruct P as [D ->].
    assert (Vy : invol y) by (rewrite (path_cjs _ _ _ Ey); apply cjs_invol; [apply invol_nil|exact Gv]).
    assert (Hi1 : 1 <= i) by (destruct (Z.eq_dec i 0) as [->|]; [exfalso; apply (path_step0 y Vy D); exact U|lia]).
    assert (Uy : unsig y).
    { intros x Hx. destruct (cj_rel y i Vy Hi) as [R _]. destruct R as [[D' _]|[(_ & C & E)|(_ & _ & E)]]; [contradiction| |].
      - specialize (U (sw i x) (sw_pos i x Hi1 Hx)). rewrite E in U. rewrite simple_sw in U by (first [assumption|apply sw_pos; assumption]). rewrite sw_invol in U. exact U.
      - specialize (U (sw i x) (sw_pos i x Hi1 Hx)). rewrite E in U. rewrite (simple_sw i (sw i x)) in U by (first [assumption|apply sw_pos; assumption]). rewrite sw_invol in U. set (t := pcall y x) in *.
        unfold simple in U. replace (i =? 0) with false in U by lia. repeat match type of U with context [?p =? ?q] => destruct (Z.eqb_spec p q) end; lia. }
    destruct (IH y Gv eq_refl Uy) as (Fv & _ & Cv & Uv & Co). rewrite wordp_snoc.
    split; [apply Forall_app; split; [exact Fv|repeat constructor; exact Hi1]|].
    destruct (step_cases y i Vy Uy Hi1 D) as (V & _ & _ & Lt & K). split; [exact V|]. split; [apply mulp_canonical; [apply Cv|apply sp_canonical; lia]|]. split; [apply unsig_mulp; assumption|].
    destruct K as [(F1 & F2 & _ & E & _)|(NF & _ & E & _)].
    + apply (cond_join (pcall y) (pcall (wordp v)) _ _ i); auto using unsig_pinvol, canonical_pinj. intros x Hx. apply mulp_sp_pos; assumption.
    + apply (cond_up (pcall y) (pcall (wordp v)) _ _ i); auto using unsig_pinvol, canonical_pinj. intros x Hx. apply mulp_sp_pos; assumption.
Qed.
Lemma icut_unsig : forall z i, invol z -> unsig z -> 1 <= i -> descent (pcall z) i -> unsig (icut z i).
Proof.
  intros z i Hz U Hi D x Hx. unfold icut. destruct (peq (mulp z (sp i)) (mulp (sp i) z)).
  - rewrite mulp_sp_pos by (first [assumption|apply Hz]). apply U. apply sw_pos; assumption.
  - rewrite mulp_sp_pos by (first [assumption|apply mulp_canonical; [apply sp_canonical; lia|apply Hz]]). rewrite mulp_call by (first [apply sp_canonical; lia|apply Hz]). rewrite sp_call by lia.
    assert (Q : 1 <= pcall z (sw i x)) by (apply U; apply sw_pos; assumption). rewrite simple_sw by assumption. apply sw_pos; assumption.
Qed.
Lemma cond_path : forall v z, gens v -> invol z -> unsig z -> zlen v = ell (wordp v) -> unsig (wordp v) -> cond (pcall z) (pcall (wordp v)) -> path (iact false) [] v = Some z.
Proof.
  induction v as [|i v IH] using rev_ind; intros z G Hz U L Ua C.
  - change (wordp []) with (@nil Z) in C. rewrite (cond_nil z Hz U C). reflexivity.
  - apply gens_app in G. destruct G as [Gv Gi]. inversion Gi as [|? ? Hi _]; subst. rewrite wordp_snoc in *. set (b := wordp v) in *. assert (Cb : canonical b) by (apply wordp_canonical; exact Gv).
    assert (Lb : zlen v = ell b /\ ~ descent (pcall b) i).
    { rewrite zlen_app in L. change (zlen [i]) with 1 in L. pose proof (ell_word_le v Gv) as Q. fold b in Q. destruct (descent_dec (pcall b) i) as [D|D]; [rewrite ell_descent in L by assumption; lia|rewrite ell_ascent in L by assumption; split; [lia|exact D]]. }
    destruct Lb as [Lb Db].
    assert (Hi1 : 1 <= i).
    { destruct (Z.eq_dec i 0) as [->|]; [|lia]. exfalso. unfold descent in Db. cbn in Db. specialize (Ua 1 ltac:(lia)). rewrite mulp_call in Ua by (first [apply sp_canonical; lia|apply Cb]). rewrite sp_call in Ua by lia. change (simple 0 1) with (- (1)) in Ua. rewrite pcall_odd in Ua. lia. }
    set (a := mulp b (sp i)) in *. assert (Ca : canonical a) by (apply mulp_canonical; [apply Cb|apply sp_canonical; lia]).
    assert (Eb : forall x, 1 <= x -> pcall b x = pcall a (sw i x)) by (intros x Hx; unfold a; rewrite mulp_sp_pos by (first [assumption|apply sw_pos; assumption]); rewrite sw_invol; reflexivity).
    assert (Da : pcall a (i + 1) < pcall a i).
    { unfold descent in Db. replace (i =? 0) with false in Db by lia. rewrite !Eb in Db by lia. rewrite sw_i, sw_i1 in Db. assert (pcall a i <> pcall a (i + 1)) by (intro Q; apply pcall_inj in Q; [lia|apply Ca]). lia. }
    assert (Dz : descent (pcall z) i).
    { unfold descent. replace (i =? 0) with false by lia. assert (pcall z i <> pcall z (i + 1)) by (intro Q; apply pcall_inj in Q; [lia|apply Hz]). pose proof (cond_asc (pcall z) (pcall a) (unsig_pinvol z Hz U) C i Hi1). lia. }
    destruct (icut_ok z i Hz Hi Dz) as (Vy & Dy & Ey & _). set (y := icut z i) in *. assert (Uy : unsig y) by (apply icut_unsig; assumption).
    destruct (step_cases y i Vy Uy Hi1 Dy) as (_ & _ & D' & _ & K). rewrite Ey in K, D'.
    rewrite path_snoc. rewrite (IH y Gv Vy Uy Lb).
    + rewrite iact_asc by (rewrite ?Ey; assumption). rewrite Ey. reflexivity.
    + apply (unsig_mulp b i Cb Hi1). exact Ua.
    + destruct K as [(_ & _ & F & _ & E)|(_ & F & _ & E)].
      * apply (cond_cut (pcall z) (pcall a) _ _ i); auto using unsig_pinvol, canonical_pinj.
      * apply (cond_down (pcall z) (pcall a) _ _ i); auto using unsig_pinvol, canonical_pinj.
Qed.
(* atoms *)
Definition atomw (z a : list Z) : Prop := exists v, gens v /\ path (iact false) [] v = Some z /\ wordp v = a.
Theorem atomw_cond : forall z a, invol z -> unsig z -> (atomw z a <-> canonical a /\ unsig a /\ cond (pcall z) (pcall a)).
Proof.
  intros z a Hz U. split.
  - intros (v & G & P & <-). destruct (path_cond v z G P U) as (_ & _ & H1 & H2 & H3). auto.
  - intros (Ca & Ua & C). destruct (reduced_exists _ a Ca eq_refl) as (v & G & E & L). exists v. split; [exact G|]. split; [|exact E]. subst a. apply cond_path; assumption.
Qed.
Lemma path_len : forall v z, gens v -> path (iact false) [] v = Some z -> unsig z -> zlen v = ell (wordp v).
Proof.
  induction v as [|i v IH] using rev_ind; intros z G P U; [reflexivity|].
  destruct (path_cond _ z G P U) as (F & Hz & Ca & Ua & C). apply gens_app in G. destruct G as [Gv Gi]. inversion Gi as [|? ? Hi _]; subst.
  rewrite path_snoc in P. destruct (path (iact false) [] v) as [y|] eqn:Ey; [|discriminate]. apply iact_some in P. destruct P as [D ->].
  apply Forall_app in F. destruct F as [Fv Fi]. inversion Fi as [|? ? Hi1 _]; subst.
  assert (Vy : invol y) by (rewrite (path_cjs _ _ _ Ey); apply cjs_invol; [apply invol_nil|exact Gv]).
  assert (Uy : unsig y).
  { intros x Hx. destruct (cj_rel y i Vy Hi) as [R _]. destruct R as [[D' _]|[(_ & _ & E)|(_ & _ & E)]]; [contradiction| |].
    - specialize (U (sw i x) (sw_pos i x Hi1 Hx)). rewrite E in U. rewrite simple_sw in U by (first [assumption|apply sw_pos; assumption]). rewrite sw_invol in U. exact U.
    - specialize (U (sw i x) (sw_pos i x Hi1 Hx)). rewrite E in U. rewrite (simple_sw i (sw i x)) in U by (first [assumption|apply sw_pos; assumption]). rewrite sw_invol in U. set (t := pcall y x) in *.
      unfold simple in U. replace (i =? 0) with false in U by lia. repeat match type of U with context [?p =? ?q] => destruct (Z.eqb_spec p q) end; lia. }
  destruct (path_cond _ y Gv Ey Uy) as (_ & _ & Cb & _ & Cob). destruct (step_cases y i Vy Uy Hi1 D) as (_ & _ & _ & Lt & _).
  pose proof (cond_asc (pcall y) (pcall (wordp v)) (unsig_pinvol y Vy Uy) Cob i Hi1 Lt) as As.
  rewrite wordp_snoc, ell_ascent; [|exact Cb|lia|unfold descent; replace (i =? 0) with false by lia; lia]. rewrite zlen_app. change (zlen [i]) with 1. rewrite (IH y Gv eq_refl Uy). reflexivity.
Qed.
