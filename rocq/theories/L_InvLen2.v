(* Involution words: reduced words have the involution length, from/get round trips. *)
From Coq Require Import List ZArith Bool Lia Permutation.
From Verif Require Import PyBase FinSum M_Partitions M_Perm S_Perm L_Perm L_PermLen L_PermWord L_PermDem L_LevelsInst P_Perm P_Levels L_PermActs M_PermGroth L_InvLen.
Import ListNotations.
Local Open Scope Z_scope.

Definition il2 (z : list Z) : Z := ell z + nu z.
Lemma il2_nil : il2 [] = 0.
Proof. reflexivity. Qed.
Lemma il2_nonneg : forall z, 0 <= il2 z.
Proof. intro z. unfold il2, nu, zlen. pose proof (ell_nonneg z). lia. Qed.
Lemma descb_false : forall f i, descb f i = false <-> ~ descent f i.
Proof. intros f i. destruct (descb f i) eqn:E; split; intro H; try discriminate; try reflexivity; [apply descb_spec in E; contradiction|]. intro D. apply descb_spec in D. congruence. Qed.
Lemma cj_descent : forall z i, descent (pcall z) i -> cj z i = z.
Proof. intros z i D. unfold cj. apply descb_spec in D. rewrite D. reflexivity. Qed.
Lemma cj_ascent : forall z i, invol z -> 0 <= i -> ~ descent (pcall z) i -> il2 (cj z i) = il2 z + 2.
Proof. intros z i Hz Hi D. unfold il2. apply nu_step; assumption. Qed.

Lemma path_cjs : forall v a b, path (iact false) a v = Some b -> b = cjs a v.
Proof. induction v as [|j v IH]; intros a b Eb; cbn in Eb; [injection Eb as <-; reflexivity|]. unfold iact in Eb at 1. cbn [orb] in Eb. destruct (negb (peq (cj a j) a)); [|discriminate]. cbn. apply IH. exact Eb. Qed.

Lemma il2_mod : forall a v, invol a -> gens v -> exists k, 0 <= k /\ il2 (cjs a v) = il2 a + 2 * (zlen v - k) /\ (k = 0 <-> path (iact false) a v = Some (cjs a v)).
Proof.
  intros a v Ha. induction v as [|i v IH] using rev_ind; intro G.
  - exists 0. split; [lia|]. split; [cbn; lia|]. split; intros _; reflexivity.
  - apply Forall_app in G as [Gv Gi]. assert (Hi : 0 <= i) by (inversion Gi; subst; assumption). destruct (IH Gv) as (k & Hk & E & Kp).
    assert (Ec : cjs a (v ++ [i]) = cj (cjs a v) i) by (unfold cjs; rewrite fold_left_app; reflexivity).
    assert (Iv : invol (cjs a v)) by (apply cjs_invol; [exact Ha|exact Gv]).
    assert (Lv : zlen (v ++ [i]) = zlen v + 1) by (rewrite zlen_app; reflexivity).
    rewrite Ec, Lv, path_snoc. destruct (descent_dec (pcall (cjs a v)) i) as [D|D].
    + exists (k + 1). split; [lia|]. rewrite (cj_descent _ _ D). split; [lia|]. split; [lia|]. intro P. exfalso.
      destruct (path (iact false) a v) as [b|] eqn:Eb; [|discriminate]. 
      assert (b = cjs a v) as ->.
      { apply path_cjs. exact Eb. }
      unfold iact in P. rewrite (cj_descent _ _ D) in P. unfold peq in P. rewrite (proj2 (zlist_eqb_eq _ _) eq_refl) in P. discriminate.
    + pose proof (cj_ascent _ _ Iv Hi D) as A. exists k. split; [lia|]. split; [lia|].
      assert (Nq : peq (cj (cjs a v) i) (cjs a v) = false).
      { destruct (peq (cj (cjs a v) i) (cjs a v)) eqn:Q; [|reflexivity]. apply zlist_eqb_eq in Q. rewrite Q in A. lia. }
      rewrite Kp. split.
      * intros ->. unfold iact. rewrite Nq. reflexivity.
      * destruct (path (iact false) a v) as [b|] eqn:Eb; [|discriminate]. intros _. f_equal.
        apply path_cjs. exact Eb.
Qed.
Lemma path_true : forall v a, path (iact true) a v = Some (cjs a v).
Proof. induction v as [|j v IH]; intro a; cbn; [reflexivity|]. apply IH. Qed.
Lemma path_reduced : forall v w, gens v -> (path (iact false) [] v = Some w <-> w = cjs [] v /\ il2 w = 2 * zlen v).
Proof.
  intros v w G. destruct (il2_mod [] v invol_nil G) as (k & Hk & E & K). rewrite il2_nil in E. split.
  - intro P. pose proof (path_cjs _ _ _ P) as ->. split; [reflexivity|]. apply K in P. lia.
  - intros [-> E2]. apply K. lia.
Qed.
Lemma il2_le : forall v, gens v -> il2 (cjs [] v) <= 2 * zlen v.
Proof. intros v G. destruct (il2_mod [] v invol_nil G) as (k & Hk & E & _). rewrite il2_nil in E. lia. Qed.

(* ---- going down ---- *)
Lemma commute_block : forall z i, invol z -> 0 < i ->
  (pcall z i = i + 1 /\ pcall z (i + 1) = i) \/ (pcall z i = - i /\ pcall z (i + 1) = - i - 1) ->
  forall x, simple i (pcall z x) = pcall z (simple i x).
Proof.
  intros z i [Hc Hv] Hi V x.
  assert (W : (pcall z (- i) = - i - 1 /\ pcall z (- i - 1) = - i) \/ (pcall z (- i) = i /\ pcall z (- i - 1) = i + 1)).
  { replace (- i - 1) with (- (i + 1)) by lia. rewrite !pcall_odd. lia. }
  destruct (Z.eq_dec (simple i x) x) as [E|E].
  - rewrite E. assert (x <> i /\ x <> i + 1 /\ x <> - i /\ x <> - i - 1).
    { unfold simple in E. replace (i =? 0) with false in E by lia. repeat match type of E with context [?a =? ?b] => destruct (Z.eqb_spec a b) end; lia. }
    assert (forall y, In y [i; i + 1; - i; - i - 1] -> pcall z x <> y).
    { intros y Hy Q. assert (Hx : x = pcall z y) by (rewrite <- Q, Hv; reflexivity). cbn in Hy. destruct Hy as [<-|[<-|[<-|[<-|[]]]]]; lia. }
    assert (pcall z x <> i /\ pcall z x <> i + 1 /\ pcall z x <> - i /\ pcall z x <> - i - 1) by (repeat split; apply H0; cbn; tauto).
    unfold simple. replace (i =? 0) with false by lia. repeat match goal with |- context [?a =? ?b] => destruct (Z.eqb_spec a b) end; lia.
  - assert (x = i \/ x = i + 1 \/ x = - i \/ x = - i - 1) as Hx.
    { unfold simple in E. replace (i =? 0) with false in E by lia. repeat match type of E with context [?a =? ?b] => destruct (Z.eqb_spec a b) end; lia. }
    assert (S1 : simple i (- i) = - i - 1) by (rewrite simple_odd, simple_i by lia; lia).
    assert (S2 : simple i (- i - 1) = - i) by (replace (- i - 1) with (- (i + 1)) by lia; rewrite simple_odd, simple_i1 by lia; lia).
    destruct Hx as [->|[->|[->| ->]]]; rewrite ?S1, ?S2, ?simple_i, ?simple_i1 by assumption; destruct V as [[V1 V2]|[V1 V2]]; destruct W as [[W1 W2]|[W1 W2]]; try lia;
      rewrite ?V1, ?V2, ?W1, ?W2, ?S1, ?S2, ?simple_i, ?simple_i1 by assumption; reflexivity.
Qed.
Lemma commute_block0 : forall z, invol z -> pcall z 1 = -1 -> forall x, simple 0 (pcall z x) = pcall z (simple 0 x).
Proof.
  intros z [Hc Hv] V x. assert (W : pcall z (-1) = 1) by (change (-1) with (- (1)); rewrite pcall_odd, V; reflexivity).
  unfold simple. change (0 =? 0) with true. cbv beta iota.
  destruct (Z.eqb_spec (Z.abs x) 1) as [E|E].
  - assert (x = 1 \/ x = -1) as [->| ->] by lia; rewrite ?V, ?W; [change (- (1)) with (-1)|change (- (-1)) with 1]; rewrite ?V, ?W; reflexivity.
  - destruct (Z.eqb_spec (Z.abs (pcall z x)) 1) as [E2|E2]; [|reflexivity]. exfalso.
    assert (pcall z x = 1 \/ pcall z x = -1) as [Q|Q] by lia; assert (x = pcall z (pcall z x)) as Hx by (rewrite Hv; reflexivity); rewrite Q in Hx; lia.
Qed.

(* the permutation reached from w by undoing the last letter i of an involution word *)
Definition icut (w : list Z) (i : Z) : list Z :=
  if peq (mulp w (sp i)) (mulp (sp i) w) then mulp w (sp i) else mulp (mulp (sp i) w) (sp i).
Lemma icut_comm : forall w i, canonical w -> 0 <= i -> (peq (mulp w (sp i)) (mulp (sp i) w) = true <-> forall x, simple i (pcall w x) = pcall w (simple i x)).
Proof.
  intros w i Hc Hi. unfold peq. rewrite zlist_eqb_eq. split.
  - intros E x. assert (Q : pcall (mulp w (sp i)) x = pcall (mulp (sp i) w) x) by (rewrite E; reflexivity). rewrite !mulp_call in Q by auto 10 with perm. rewrite !sp_call in Q by assumption. congruence.
  - intro C. apply canonical_ext; [auto 10 with perm|auto 10 with perm|]. intro x. rewrite !mulp_call by auto 10 with perm. rewrite !sp_call by assumption. symmetry. apply C.
Qed.
Lemma icut_ok : forall w i, invol w -> 0 <= i -> descent (pcall w) i -> invol (icut w i) /\ ~ descent (pcall (icut w i)) i /\ cj (icut w i) i = w /\ ell (icut w i) < ell w.
Proof.
  intros w i Hw Hi D. pose proof Hw as [Hc Hv]. unfold icut. destruct (peq (mulp w (sp i)) (mulp (sp i) w)) eqn:E.
  - pose proof (proj1 (icut_comm w i Hc Hi) E) as C.
    assert (Ew : forall x, pcall (mulp w (sp i)) x = pcall w (simple i x)) by (intro x; rewrite mulp_call by auto 10 with perm; rewrite sp_call by assumption; reflexivity).
    assert (V : invol (mulp w (sp i))).
    { split; [auto 10 with perm|]. intro x. rewrite !Ew. rewrite C, simple_invol by assumption. apply Hv. }
    assert (A : ~ descent (pcall (mulp w (sp i))) i).
    { intro D2. pose proof (ell_descent w i Hc Hi D) as L1. pose proof (ell_descent _ i (proj1 V) Hi D2) as L2.
      assert (Q : mulp (mulp w (sp i)) (sp i) = w) by (apply canonical_ext; [auto 10 with perm|assumption|]; intro x; rewrite !mulp_call by auto 10 with perm; rewrite !sp_call, simple_invol by assumption; reflexivity).
      rewrite Q in L2. lia. }
    split; [exact V|]. split; [exact A|]. split; [|rewrite ell_descent by assumption; lia].
    unfold cj. rewrite (proj2 (descb_false _ _) A).
    assert (Q : mulp (sp i) (mulp w (sp i)) = w).
    { apply canonical_ext; [auto 10 with perm|assumption|]. intro x. rewrite !mulp_call by auto 10 with perm. rewrite !sp_call by assumption. rewrite C, simple_invol by assumption. reflexivity. }
    rewrite Q. unfold dm. apply descb_spec in D. rewrite D. reflexivity.
  - assert (NC : ~ forall x, simple i (pcall w x) = pcall w (simple i x)) by (intro C; apply (icut_comm w i Hc Hi) in C; congruence).
    set (b := mulp (mulp (sp i) w) (sp i)).
    assert (Eb : forall x, pcall b x = simple i (pcall w (simple i x))) by (intro x; unfold b; rewrite !mulp_call by auto 10 with perm; rewrite !sp_call by assumption; reflexivity).
    assert (V : invol b). { split; [unfold b; auto 10 with perm|]. intro x. rewrite !Eb, simple_invol by assumption. rewrite Hv. apply simple_invol. assumption. }
    assert (A : ~ descent (pcall b) i).
    { intro D2. apply NC. unfold descent in D, D2. rewrite !Eb in D2. destruct (Z.eqb_spec i 0) as [->|Ni].
      - change (simple 0 1) with (- (1)) in D2. rewrite pcall_odd in D2. apply commute_block0; [assumption|].
        unfold simple in D2. change (0 =? 0) with true in D2. cbv beta iota in D2. destruct (Z.eqb_spec (Z.abs (- pcall w 1)) 1); lia.
      - rewrite simple_i, simple_i1 in D2 by lia. apply commute_block; [assumption|lia|].
        destruct (simple_order i (pcall w (i + 1)) (pcall w i) ltac:(lia) D ltac:(lia)) as [[Q1 Q2]|[Q1 Q2]]; lia. }
    assert (Q1 : mulp b (sp i) = mulp (sp i) w).
    { apply canonical_ext; [unfold b; auto 10 with perm|auto 10 with perm|]. intro x. rewrite mulp_call by (unfold b; auto 10 with perm). rewrite Eb. rewrite sp_call by assumption. rewrite simple_invol by assumption. rewrite mulp_call by auto 10 with perm. rewrite sp_call by assumption. reflexivity. }
    assert (Q2 : mulp (mulp (sp i) b) (sp i) = w).
    { apply canonical_ext; [unfold b; auto 10 with perm|assumption|]. intro x. rewrite !mulp_call by (unfold b; auto 10 with perm). rewrite !sp_call by assumption. rewrite Eb. rewrite !simple_invol by assumption. reflexivity. }
    split; [exact V|]. split; [exact A|].
    assert (L1 : ell (mulp (sp i) w) = ell w - 1) by (apply ell_left_descent; [assumption|assumption|]; rewrite (invol_invp w Hw); assumption).
    assert (L2 : ell b = ell w - 2). { pose proof (ell_ascent b i (proj1 V) Hi A) as L. rewrite Q1 in L. lia. }
    split; [|lia].
    unfold cj. rewrite (proj2 (descb_false _ _) A). unfold dm.
    destruct (descb (pcall (mulp (sp i) b)) i) eqn:E2; [|exact Q2]. exfalso.
    apply descb_spec in E2. pose proof (ell_descent (mulp (sp i) b) i ltac:(unfold b; auto 10 with perm) Hi E2) as L3. rewrite Q2 in L3.
    assert (L4 : ell (mulp (sp i) b) = ell b + 1) by (apply ell_left_ascent; [apply V|assumption|]; rewrite (invol_invp b V); assumption). lia.
Qed.

Lemma is_involution_true : forall w, invol w -> is_involution w = Ok true.
Proof. intros w Hw. unfold is_involution. rewrite pinv_ok by apply Hw. cbn [rbind]. rewrite (invol_invp w Hw). unfold peq. rewrite (proj2 (zlist_eqb_eq _ _) eq_refl). reflexivity. Qed.

Lemma get_word_ok : forall fuel w, invol w -> ell w < Z.of_nat fuel -> exists v, get_involution_word fuel w = Ok v /\ gens v /\ path (iact false) [] v = Some w.
Proof.
  induction fuel as [|fuel IH]; intros w Hw Hf; [pose proof (ell_nonneg w); lia|]. pose proof Hw as [Hc Hv].
  cbn [get_involution_word]. rewrite is_involution_true by assumption. cbn [rbind negb]. rewrite ldes_ok by assumption. cbn [rbind]. rewrite (invol_invp w Hw).
  destruct (rdes w) as [|d0 d] eqn:Ed.
  - exists []. split; [reflexivity|]. split; [constructor|]. cbn. f_equal. symmetry. apply no_descent_id; [assumption|]. intros i Hi D.
    assert (In i (rdes w)) by (apply rdes_spec; [apply Hc|auto]). rewrite Ed in H. destruct H.
  - set (i := zmin (d0 :: d)). assert (Hd : In i (rdes w)) by (rewrite Ed; apply zmin_In; discriminate). apply rdes_spec in Hd; [|apply Hc]. destruct Hd as [Hi D].
    rewrite sp_ok by assumption. cbn [rbind]. rewrite !pmul_ok by auto 10 with perm. cbn [rbind].
    destruct (icut_ok w i Hw Hi D) as (V & A & Ecj & L).
    assert (E : (if peq (mulp w (sp i)) (mulp (sp i) w) then Ok (mulp w (sp i)) else pmul (mulp (sp i) w) (sp i)) = Ok (icut w i)).
    { unfold icut. destruct (peq (mulp w (sp i)) (mulp (sp i) w)); [reflexivity|]. apply pmul_ok; auto 10 with perm. }
    rewrite E. cbn [rbind]. destruct (IH (icut w i) V ltac:(lia)) as (v & Ev & Gv & Pv). rewrite Ev. cbn [rbind]. exists (v ++ [i]). split; [reflexivity|].
    split; [apply Forall_app; split; [exact Gv|repeat constructor; exact Hi]|].
    rewrite path_snoc, Pv. unfold iact. rewrite Ecj. assert (Nq : peq w (icut w i) = false).
    { destruct (peq w (icut w i)) eqn:Q; [|reflexivity]. apply zlist_eqb_eq in Q. rewrite <- Q in L. lia. }
    rewrite Nq. reflexivity.
Qed.

(* ---- from_involution_word ---- *)
Lemma memz_rdes : forall w i, canonical w -> 0 <= i -> memz i (rdes w) = descb (pcall w) i.
Proof.
  intros w i Hc Hi. apply eq_true_iff_eq. rewrite memz_In, descb_spec. rewrite rdes_spec by apply Hc. tauto.
Qed.
(* conjugate, or multiply if the two commute *)
Definition tw (w : list Z) (i : Z) : list Z := if peq (mulp (sp i) w) (mulp w (sp i)) then mulp w (sp i) else mulp (mulp (sp i) w) (sp i).
Lemma tw_invol : forall w i, invol w -> 0 <= i -> invol (tw w i).
Proof.
  intros w i Hw Hi. pose proof Hw as [Hc Hv]. unfold tw. destruct (peq (mulp (sp i) w) (mulp w (sp i))) eqn:E.
  - apply zlist_eqb_eq in E. assert (E' : peq (mulp w (sp i)) (mulp (sp i) w) = true) by (apply zlist_eqb_eq; auto).
    pose proof (proj1 (icut_comm w i Hc Hi) E') as C. split; [auto 10 with perm|]. intro x. rewrite !mulp_call by auto 10 with perm. rewrite !sp_call by assumption. rewrite C, simple_invol by assumption. apply Hv.
  - split; [auto 10 with perm|]. intro x. rewrite !mulp_call by auto 10 with perm. rewrite !sp_call, simple_invol by assumption. rewrite Hv. apply simple_invol. assumption.
Qed.
Lemma tw_cj : forall w i, invol w -> 0 <= i -> ~ descent (pcall w) i -> tw w i = cj w i.
Proof.
  intros w i Hw Hi D. pose proof Hw as [Hc Hv]. apply canonical_ext; [apply tw_invol; assumption|apply (proj2 (cj_rel w i Hw Hi))|]. 
  destruct (proj1 (cj_rel w i Hw Hi)) as [[D2 _]|[(_ & C & H)|(_ & (y & N) & H)]]; [contradiction| |]; intro x; rewrite H; unfold tw.
  - assert (E' : peq (mulp (sp i) w) (mulp w (sp i)) = true) by (apply zlist_eqb_eq; symmetry; apply zlist_eqb_eq; apply (icut_comm w i Hc Hi); exact C).
    rewrite E'. rewrite mulp_call by auto 10 with perm. rewrite sp_call by assumption. reflexivity.
  - assert (E' : peq (mulp (sp i) w) (mulp w (sp i)) = false).
    { destruct (peq (mulp (sp i) w) (mulp w (sp i))) eqn:E; [|reflexivity]. exfalso. apply N. apply (icut_comm w i Hc Hi). apply zlist_eqb_eq. symmetry. apply zlist_eqb_eq. exact E. }
    rewrite E'. rewrite !mulp_call by auto 10 with perm. rewrite !sp_call by assumption. reflexivity.
Qed.
Lemma loop_step : forall strict i word w, invol w -> 0 <= i ->
  from_involution_word_loop strict (i :: word) w = if descb (pcall w) i && strict then Ok None else from_involution_word_loop strict word (tw w i).
Proof.
  intros strict i word w Hw Hi. pose proof Hw as [Hc Hv]. cbn [from_involution_word_loop]. rewrite sp_ok by assumption. cbn [rbind]. rewrite memz_rdes by assumption.
  destruct (descb (pcall w) i && strict); [reflexivity|]. rewrite !pmul_ok by auto 10 with perm. cbn [rbind]. unfold tw. destruct (peq (mulp (sp i) w) (mulp w (sp i))); [reflexivity|]. rewrite pmul_ok by auto 10 with perm. reflexivity.
Qed.
Lemma loop_strict : forall word w, invol w -> gens word -> from_involution_word_loop true word w = Ok (path (iact false) w word).
Proof.
  induction word as [|i word IH]; intros w Hw G; [reflexivity|]. inversion G as [|? ? Hi G']; subst. rewrite loop_step by assumption. rewrite andb_true_r. cbn [path]. unfold iact at 1. cbn [orb].
  destruct (descb (pcall w) i) eqn:E.
  - apply descb_spec in E. rewrite (cj_descent _ _ E). unfold peq. rewrite (proj2 (zlist_eqb_eq _ _) eq_refl). reflexivity.
  - apply descb_false in E. rewrite (tw_cj w i Hw Hi E). assert (Nq : peq (cj w i) w = false).
    { destruct (peq (cj w i) w) eqn:Q; [|reflexivity]. apply zlist_eqb_eq in Q. pose proof (cj_ascent w i Hw Hi E) as A. rewrite Q in A. lia. }
    rewrite Nq. cbn [negb]. apply IH; [apply cj_rel; assumption|exact G'].
Qed.
Lemma loop_lenient : forall word w, invol w -> gens word -> from_involution_word_loop false word w = Ok (Some (fold_left tw word w)).
Proof.
  induction word as [|i word IH]; intros w Hw G; [reflexivity|]. inversion G as [|? ? Hi G']; subst. rewrite loop_step by assumption. rewrite andb_false_r. cbn [fold_left]. apply IH; [apply tw_invol; assumption|exact G'].
Qed.
Lemma loop_negative : forall strict word w, invol w -> ~ gens word -> from_involution_word_loop strict word w = Err AssertionError \/ (strict = true /\ from_involution_word_loop strict word w = Ok None).
Proof.
  intros strict word. induction word as [|i word IH]; intros w Hw G; [exfalso; apply G; constructor|].
  destruct (Z_lt_ge_dec i 0) as [N|P].
  - left. cbn [from_involution_word_loop]. unfold s_i. replace (0 <=? i) with false by lia. reflexivity.
  - assert (Hi : 0 <= i) by lia. rewrite loop_step by assumption. destruct (descb (pcall w) i && strict) eqn:E; [right; apply andb_prop in E; tauto|]. apply IH; [apply tw_invol; assumption|]. intro G'. apply G. constructor; assumption.
Qed.
