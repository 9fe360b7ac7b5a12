From Coq Require Import List ZArith Lia Bool Permutation Arith.
From Verif Require Import PyBase M_Partitions M_Words M_Perm M_PermGen M_Levels S_Perm S_Levels
  L_Perm L_PermLen L_PermWord L_PermDem L_Levels L_Peaks.
Import ListNotations.
Local Open Scope Z_scope.

Section Inst.
Variable ord : list (list Z * list Z) -> list (list Z * list Z).
Hypothesis ord_perm : forall l, Permutation (ord l) l.
Variable letters : list Z.
Hypothesis letters_nodup : NoDup letters.
Variable step : list Z -> Z -> list Z -> res (option (list Z * list Z)).
Variable valid : list Z -> Prop.
Variable act : list Z -> Z -> option (list Z).
Variable ok : list Z -> bool.
Hypothesis step_act : forall pi i w, valid pi -> In i letters ->
  step pi i w = Ok (match act pi i with Some sg => if ok (w ++ [i]) then Some (sg, w ++ [i]) else None | None => None end).
Hypothesis act_valid : forall pi i sg, valid pi -> In i letters -> act pi i = Some sg -> valid sg.
Hypothesis ok_prefix : forall w i, ok (w ++ [i]) = true -> w = [] \/ ok w = true.
Variable a0 : list Z.
Hypothesis a0_valid : valid a0.

Definition children (x : list Z * list Z) : wlevel :=
  flat_map (fun i => match act (fst x) i with Some sg => if ok (snd x ++ [i]) then [(sg, snd x ++ [i])] else [] | None => [] end) letters.
Definition expandp (l : wlevel) : wlevel := flat_map children (ord l).
Definition lvalid (l : wlevel) : Prop := Forall (fun x => valid (fst x)) l /\ NoDup (map snd l).

Lemma pair_eqb_eq : forall x y, pair_eqb x y = true <-> x = y.
Proof.
  intros [a b] [c d]. unfold pair_eqb. cbn. rewrite andb_true_iff, !zlist_eqb_eq. split; [intros [-> ->]; reflexivity|intro E; injection E as -> ->; auto].
Qed.
Lemma ladd_new : forall s x, ~ In x s -> ladd s x = s ++ [x].
Proof.
  intros s x H. unfold ladd. destruct (existsb (pair_eqb x) s) eqn:E; [|reflexivity]. exfalso. apply existsb_exists in E.
  destruct E as (y & Hy & E). apply pair_eqb_eq in E. congruence.
Qed.
Lemma children_snd : forall x y, In y (children x) -> exists i sg, In i letters /\ act (fst x) i = Some sg /\ ok (snd x ++ [i]) = true /\ y = (sg, snd x ++ [i]).
Proof.
  intros x y H. unfold children in H. apply in_flat_map in H. destruct H as (i & Hi & H). destruct (act (fst x) i) as [sg|] eqn:E; [|destruct H].
  destruct (ok (snd x ++ [i])) eqn:Eo; [|destruct H]. destruct H as [<-|[]]. exists i, sg. auto.
Qed.
Lemma children_nodup : forall x, NoDup (map snd (children x)).
Proof.
  intro x. unfold children. clear step_act act_valid. induction letters_nodup as [|i l Hi Hl IH]; [constructor|]. specialize (IH Hl). cbn [flat_map]. rewrite map_app. apply NoDup_app_intro.
  - destruct (act (fst x) i); [|constructor]. destruct (ok _); [repeat constructor; intros []|constructor].
  - exact IH.
  - intros w H1 H2. apply in_map_iff in H1. destruct H1 as (y1 & E1 & H1). apply in_map_iff in H2. destruct H2 as (y2 & E2 & H2).
    destruct (act (fst x) i) as [sg|]; [|destruct H1]. destruct (ok _); [|destruct H1]. destruct H1 as [<-|[]]. cbn in E1.
    apply in_flat_map in H2. destruct H2 as (j & Hj & H2). destruct (act (fst x) j) as [sg2|]; [|destruct H2]. destruct (ok (snd x ++ [j])); [|destruct H2]. destruct H2 as [<-|[]]. cbn in E2.
    rewrite <- E1 in E2. apply app_inj_tail in E2. destruct E2 as [_ ->]. contradiction.
Qed.
Lemma expandp_valid : forall l, lvalid l -> lvalid (expandp l).
Proof.
  intros l [Hv Hn]. assert (Pn : NoDup (map snd (ord l))) by (eapply Permutation_NoDup; [apply Permutation_map; apply Permutation_sym; apply ord_perm|assumption]).
  assert (Pv : Forall (fun x => valid (fst x)) (ord l)) by (eapply Permutation_Forall; [apply Permutation_sym; apply ord_perm|assumption]).
  unfold expandp. split.
  - apply Forall_forall. intros y Hy. apply in_flat_map in Hy. destruct Hy as (x & Hx & Hy). destruct (children_snd x y Hy) as (i & sg & Hi & Ha & _ & ->).
    cbn. rewrite Forall_forall in Pv. eapply act_valid; [apply Pv; exact Hx|exact Hi|exact Ha].
  - clear Hv Hn Pv. induction (ord l) as [|x m IH]; [constructor|]. cbn [flat_map map] in *. rewrite map_app. inversion Pn as [|? ? H1 H2]; subst. apply NoDup_app_intro.
    + apply children_nodup.
    + auto.
    + intros w E1 E2. apply in_map_iff in E1. destruct E1 as (y1 & E1 & C1). apply in_map_iff in E2. destruct E2 as (y2 & E2 & C2).
      apply in_flat_map in C2. destruct C2 as (x2 & X2 & C2). destruct (children_snd _ _ C1) as (i1 & s1 & _ & _ & _ & ->). destruct (children_snd _ _ C2) as (i2 & s2 & _ & _ & _ & ->).
      cbn in *. rewrite <- E1 in E2. apply app_inj_tail in E2. destruct E2 as [E2 _]. apply H1. rewrite <- E2. apply in_map. assumption.
Qed.
Lemma wexpand_ok : forall l, lvalid l -> wexpand ord letters step l = Ok (expandp l).
Proof.
  intros l [Hv Hn]. pose proof (expandp_valid l (conj Hv Hn)) as [_ Hnd].
  assert (Pv : Forall (fun x => valid (fst x)) (ord l)) by (eapply Permutation_Forall; [apply Permutation_sym; apply ord_perm|assumption]).
  unfold wexpand, expandp in *. clear Hv Hn. assert (Hnd' : NoDup (flat_map children (ord l))) by (eapply NoDup_map_inv; exact Hnd). clear Hnd.
  assert (G : forall m acc, Forall (fun x => valid (fst x)) m -> NoDup (acc ++ flat_map children m) ->
    fold_left (fun acc '(pi, w) => fold_left (fun acc i => do s <- acc; do r <- step pi i w; Ok (match r with Some x => ladd s x | None => s end)) letters acc) m (Ok acc) = Ok (acc ++ flat_map children m)).
  { induction m as [|[pi w] m IH]; intros acc Hf Hn; [cbn; rewrite app_nil_r; reflexivity|]. inversion Hf as [|? ? H1 H2]; subst. cbn [fst] in H1. cbn [fold_left flat_map] in *.
    assert (Gi : forall ls acc, incl ls letters -> NoDup (acc ++ flat_map (fun i => match act pi i with Some sg => if ok (w ++ [i]) then [(sg, w ++ [i])] else [] | None => [] end) ls) ->
      fold_left (fun acc i => do s <- acc; do r <- step pi i w; Ok (match r with Some x => ladd s x | None => s end)) ls (Ok acc) =
      Ok (acc ++ flat_map (fun i => match act pi i with Some sg => if ok (w ++ [i]) then [(sg, w ++ [i])] else [] | None => [] end) ls)).
    { clear IH Hn acc. induction ls as [|i ls IHl]; intros acc Hi Hn; [cbn; rewrite app_nil_r; reflexivity|]. cbn [fold_left flat_map rbind] in *.
      rewrite step_act; [|assumption|apply Hi; left; reflexivity]. cbn [rbind].
      assert (Hi' : incl ls letters) by (intros j Hj; apply Hi; right; assumption).
      destruct (act pi i) as [sg|]; [destruct (ok (w ++ [i]))|]; cbn [app] in *; try (apply IHl; assumption).
      rewrite ladd_new.
      - rewrite IHl; [rewrite <- app_assoc; reflexivity|assumption|rewrite <- app_assoc; assumption].
      - intro Hin. clear -Hin Hn. induction acc as [|a acc IHa]; [destruct Hin|]. cbn [app] in Hn. inversion Hn as [|? ? A B]; subst. destruct Hin as [->|Hin]; [|auto].
        apply A. apply in_app_iff. right. left. reflexivity. }
    rewrite Gi; [|intros j Hj; exact Hj|].
    - change (flat_map (fun i => match act pi i with Some sg => if ok (w ++ [i]) then [(sg, w ++ [i])] else [] | None => [] end) letters) with (children (pi, w)).
      rewrite IH; [rewrite app_assoc; reflexivity|assumption|rewrite <- app_assoc; assumption].
    - change (flat_map (fun i => match act pi i with Some sg => if ok (w ++ [i]) then [(sg, w ++ [i])] else [] | None => [] end) letters) with (children (pi, w)).
      rewrite app_assoc in Hn. clear -Hn. induction (acc ++ children (pi, w)) as [|x q IHq]; [constructor|]. cbn [app] in Hn. inversion Hn as [|? ? A B]; subst.
      constructor; [intro Q; apply A; apply in_app_iff; left; assumption|auto]. }
  rewrite G; [reflexivity|assumption|exact Hnd'].
Qed.

Fixpoint lvls (n : nat) : wlevel := match n with O => [(a0, [])] | S n' => expandp (lvls n') end.
Lemma lvls_valid : forall n, lvalid (lvls n).
Proof.
  induction n as [|n IH]; [|apply expandp_valid; assumption]. split; [repeat constructor; assumption|repeat constructor; intros []].
Qed.
Lemma lvls_expand : forall n, wexpand ord letters step (lvls n) = Ok (lvls (S n)).
Proof. intro n. apply wexpand_ok. apply lvls_valid. Qed.

(* the letters act from left to right *)
Fixpoint path (pi : list Z) (w : list Z) : option (list Z) :=
  match w with [] => Some pi | i :: w' => match act pi i with Some sg => path sg w' | None => None end end.
Lemma path_snoc : forall w pi i, path pi (w ++ [i]) = match path pi w with Some sg => act sg i | None => None end.
Proof.
  induction w as [|j w IH]; intros pi i; cbn; [destruct (act pi i); reflexivity|]. destruct (act pi j); [apply IH|reflexivity].
Qed.
Lemma lvls_spec : forall n pi w, In (pi, w) (lvls n) <->
  length w = n /\ Forall (fun i => In i letters) w /\ (w = [] \/ ok w = true) /\ path a0 w = Some pi.
Proof.
  induction n as [|n IH]; intros pi w.
  - cbn. split.
    + intros [E|[]]. injection E as <- <-. repeat split; auto.
    + intros (H & _ & _ & H2). destruct w; [|discriminate]. cbn in H2. left. congruence.
  - cbn [lvls]. unfold expandp. rewrite in_flat_map. split.
    + intros ([pi' w'] & Hx & Hy). assert (Hx' : In (pi', w') (lvls n)) by (eapply Permutation_in; [apply ord_perm|exact Hx]). apply IH in Hx'.
      destruct Hx' as (A & B & C & D). destruct (children_snd _ _ Hy) as (i & sg & Hi & Ha & Ho & E). cbn in *. injection E as <- ->.
      split; [rewrite app_length; cbn; lia|]. split; [apply Forall_app; split; [assumption|repeat constructor; assumption]|]. split; [right; assumption|].
      rewrite path_snoc, D. assumption.
    + intros (A & B & C & D). destruct w as [|i w' _] using rev_ind; [discriminate|]. apply Forall_app in B. destruct B as [B Bi]. inversion Bi as [|? ? Hi _]; subst.
      destruct C as [C|C]; [destruct w'; discriminate|]. rewrite path_snoc in D. destruct (path a0 w') as [sg|] eqn:Ep; [|discriminate].
      exists (sg, w'). split.
      * eapply Permutation_in; [apply Permutation_sym; apply ord_perm|]. apply IH. rewrite app_length in A. cbn in A. split; [lia|]. split; [assumption|]. split; [|assumption].
        apply (ok_prefix w' i). assumption.
      * unfold children. apply in_flat_map. exists i. split; [assumption|]. cbn. rewrite D, C. left. reflexivity.
Qed.
End Inst.

(* ---- the actions ---- *)
Section Acts.
Variable pick : nat -> list Z -> Z.
Hypothesis pick_in : forall k l, l <> [] -> In (pick k l) l.

Lemma pmodf_ok : forall u v word, canonical u -> canonical v -> reduced word v -> pmodf pick u v = Ok (dw u word).
Proof.
  intros u v word Hu Hv R. unfold pmodf. apply pmod_ok; try assumption. unfold rfuel. rewrite plen_ok. pose proof (ell_nonneg v). lia.
Qed.
Lemma reduced_sp : forall i, 0 <= i -> reduced [i] (sp i).
Proof.
  intros i Hi. split; [repeat constructor; assumption|]. unfold wordp. cbn [fold_left]. split; [apply mulp_1_l; auto with perm|].
  replace (sp i) with (mulp [] (sp i)) by (apply mulp_1_l; auto with perm). rewrite ell_ascent; [reflexivity|apply nil_canonical|assumption|].
  unfold descent. rewrite !pcall_nil. destruct (i =? 0); lia.
Qed.
Lemma pmodf_right : forall u i, canonical u -> 0 <= i -> pmodf pick u (sp i) = Ok (dm u i).
Proof. intros u i Hu Hi. rewrite (pmodf_ok u (sp i) [i]); auto with perm. apply reduced_sp. assumption. Qed.

Lemma dw_reduced : forall word v, canonical v -> reduced word v -> dw [] word = v.
Proof.
  induction word as [|i word IH] using rev_ind; intros v Hv R.
  - destruct R as (_ & P & _). exact P.
  - destruct (reduced_snoc_inv word i v Hv R) as (Hi & Hd & R'). rewrite dw_snoc. rewrite (IH (mulp v (sp i))); [|auto with perm|assumption].
    unfold dm. destruct (descb (pcall (mulp v (sp i))) i) eqn:E; [|apply mulp_sp_sp; assumption].
    exfalso. apply descb_spec in E. pose proof (ell_descent v i Hv Hi Hd). assert (Hc : canonical (mulp v (sp i))) by auto with perm.
    pose proof (ell_descent _ i Hc Hi E) as E2. rewrite mulp_sp_sp in E2 by assumption. lia.
Qed.
Lemma mulp_sp_l : forall v i, canonical v -> 0 <= i -> mulp (sp i) (mulp (sp i) v) = v.
Proof. intros v i Hv Hi. rewrite <- mulp_assoc by auto with perm. rewrite sp_sq by assumption. apply mulp_1_l. assumption. Qed.
Lemma dm_nil : forall i, 0 <= i -> dm [] i = sp i.
Proof.
  intros i Hi. unfold dm. destruct (descb (pcall []) i) eqn:E; [|apply mulp_1_l; auto with perm].
  exfalso. apply descb_spec in E. unfold descent in E. rewrite !pcall_nil in E. destruct (i =? 0); lia.
Qed.
Lemma dm_sp : forall i, 0 <= i -> dm (sp i) i = sp i.
Proof. intros i Hi. rewrite <- dm_nil by assumption. apply dm_idem; [apply nil_canonical|assumption]. Qed.
Lemma pmodf_left : forall z i, canonical z -> 0 <= i ->
  pmodf pick (sp i) z = Ok (if descb (pcall (invp z)) i then z else mulp (sp i) z).
Proof.
  intros z i Hz Hi. destruct (descb (pcall (invp z)) i) eqn:E.
  - apply descb_spec in E. pose proof (ell_left_descent z i Hz Hi E) as El.
    destruct (reduced_exists (ell z - 1) (mulp (sp i) z)) as (c & Gc & Pc & Lc); [auto with perm|assumption|].
    assert (R : reduced (i :: c) z).
    { split; [constructor; assumption|]. split; [rewrite wordp_cons by assumption; rewrite Pc; apply mulp_sp_l; assumption|]. rewrite zlen_cons. lia. }
    rewrite (pmodf_ok _ _ _ (sp_canonical i Hi) Hz R). f_equal. change (dw (sp i) (i :: c)) with (dw (dm (sp i) i) c). rewrite dm_sp by assumption.
    rewrite <- dm_nil by assumption. change (dw (dm [] i) c) with (dw [] (i :: c)). apply dw_reduced; assumption.
  - assert (E' : ~ descent (pcall (invp z)) i) by (intro H; apply descb_spec in H; congruence). pose proof (ell_left_ascent z i Hz Hi E') as El.
    destruct (reduced_exists (ell z) z Hz eq_refl) as (c & Gc & Pc & Lc).
    assert (R : reduced c z) by (split; [assumption|split; assumption]).
    assert (R2 : reduced (i :: c) (mulp (sp i) z)).
    { split; [constructor; assumption|]. split; [rewrite wordp_cons by assumption; rewrite Pc; reflexivity|]. rewrite zlen_cons. lia. }
    rewrite (pmodf_ok _ _ _ (sp_canonical i Hi) Hz R). f_equal. rewrite <- dm_nil at 1 by assumption. change (dw (dm [] i) c) with (dw [] (i :: c)).
    apply dw_reduced; [auto with perm|assumption].
Qed.

Definition invol (z : list Z) : Prop := canonical z /\ forall x, pcall z (pcall z x) = x.
Lemma invol_invp : forall z, invol z -> invp z = z.
Proof.
  intros z [Hz H]. apply canonical_ext; [auto with perm|assumption|]. intro x. rewrite <- (H x) at 1. rewrite invp_call by auto with perm. reflexivity.
Qed.
Lemma invp_invol : forall z, canonical z -> invp z = z -> invol z.
Proof. intros z Hz E. split; [assumption|]. intro x. rewrite <- E at 1. apply invp_call. auto with perm. Qed.

(* s % z % s *)
Definition cj (z : list Z) (i : Z) : list Z :=
  if descb (pcall z) i then z else dm (mulp (sp i) z) i.
Lemma cj_ok : forall z i, invol z -> 0 <= i -> (do t <- pmodf pick (sp i) z; pmodf pick t (sp i)) = Ok (cj z i).
Proof.
  intros z i Hz Hi. pose proof Hz as [Hc _]. rewrite pmodf_left by assumption. rewrite (invol_invp z Hz). unfold cj. cbn [rbind].
  destruct (descb (pcall z) i) eqn:E.
  - rewrite pmodf_right by assumption. unfold dm. rewrite E. reflexivity.
  - apply pmodf_right; auto with perm.
Qed.

Lemma simple_order : forall i a b, 0 < i -> a < b -> simple i b <= simple i a -> (a = i /\ b = i + 1) \/ (a = - i - 1 /\ b = - i).
Proof. intros i a b Hi H. unfold simple. replace (i =? 0) with false by lia.
  repeat match goal with |- context [?x =? ?y] => destruct (Z.eqb_spec x y) end; lia. Qed.

Lemma cj_commute : forall z i, invol z -> 0 <= i -> ~ descent (pcall z) i -> descent (pcall (mulp (sp i) z)) i ->
  forall x, simple i (pcall z x) = pcall z (simple i x).
Proof.
  intros z i [Hc Hv] Hi Hd Hd'. pose proof (pcall_inj z) as Inj. pose proof (proj1 Hc) as Hs.
  assert (Odd := pcall_odd z). unfold descent in *. destruct (Z.eqb_spec i 0) as [->|Ni].
  - rewrite mulp_call in Hd' by auto with perm. rewrite sp_call in Hd' by lia.
    assert (E1 : pcall z 1 = 1).
    { pose proof (pcall_nonzero z 1 Hs). unfold simple in Hd'. cbn in Hd'. destruct (Z.eqb_spec (Z.abs (pcall z 1)) 1); lia. }
    intro x. unfold simple. cbn. destruct (Z.eqb_spec (Z.abs x) 1) as [Hx|Hx].
    + assert (E2 : pcall z (-1) = -1) by (change (-1) with (- (1)); rewrite Odd, E1; reflexivity).
      assert (x = 1 \/ x = -1) as [->| ->] by lia.
      * rewrite E1. change (- (1)) with (-1). rewrite E2. reflexivity.
      * rewrite E2. change (- (-1)) with 1. rewrite E1. reflexivity.
    + destruct (Z.eqb_spec (Z.abs (pcall z x)) 1) as [Hy|Hy]; [|reflexivity]. exfalso.
      assert (pcall z x = 1 \/ pcall z x = -1) as [E|E] by lia.
      * assert (x = 1) by (apply (Inj x 1 Hs); congruence). lia.
      * assert (x = -1) by (apply (Inj x (-1) Hs); rewrite E; change (-1) with (- (1)); rewrite Odd, E1; reflexivity). lia.
  - rewrite !mulp_call in Hd' by auto with perm. rewrite !sp_call in Hd' by lia.
    assert (Hlt : pcall z i < pcall z (i + 1)).
    { assert (pcall z i <> pcall z (i + 1)) by (intro E; apply Inj in E; [lia|assumption]). lia. }
    destruct (simple_order i _ _ ltac:(lia) Hlt ltac:(lia)) as [[E1 E2]|[E1 E2]].
    + assert (N1 : pcall z (- i) = - i) by (rewrite Odd, E1; reflexivity). assert (N2 : pcall z (- i - 1) = - i - 1) by (replace (- i - 1) with (- (i + 1)) by lia; rewrite Odd, E2; reflexivity).
      intro x. unfold simple. replace (i =? 0) with false by lia.
      destruct (Z.eqb_spec x i) as [->|X1]; [rewrite E1, E2, Z.eqb_refl; reflexivity|].
      destruct (Z.eqb_spec x (i + 1)) as [->|X2]; [rewrite E2, E1; replace (i + 1 =? i) with false by lia; rewrite Z.eqb_refl; reflexivity|].
      destruct (Z.eqb_spec x (- i)) as [->|X3]; [rewrite N1, N2; replace (- i =? i) with false by lia; replace (- i =? i + 1) with false by lia; rewrite Z.eqb_refl; reflexivity|].
      destruct (Z.eqb_spec x (- i - 1)) as [->|X4]; [rewrite N1, N2; replace (- i - 1 =? i) with false by lia; replace (- i - 1 =? i + 1) with false by lia; replace (- i - 1 =? - i) with false by lia; rewrite Z.eqb_refl; reflexivity|].
      destruct (Z.eqb_spec (pcall z x) i) as [E|_]; [exfalso; apply X1; apply (Inj x i Hs); congruence|].
      destruct (Z.eqb_spec (pcall z x) (i + 1)) as [E|_]; [exfalso; apply X2; apply (Inj x (i + 1) Hs); congruence|].
      destruct (Z.eqb_spec (pcall z x) (- i)) as [E|_]; [exfalso; apply X3; apply (Inj x (- i) Hs); congruence|].
      destruct (Z.eqb_spec (pcall z x) (- i - 1)) as [E|_]; [exfalso; apply X4; apply (Inj x (- i - 1) Hs); congruence|reflexivity].
    + assert (N1 : pcall z (- i) = i + 1) by (rewrite Odd, E1; lia). assert (N2 : pcall z (- i - 1) = i) by (replace (- i - 1) with (- (i + 1)) by lia; rewrite Odd, E2; lia).
      intro x. unfold simple. replace (i =? 0) with false by lia.
      destruct (Z.eqb_spec x i) as [->|X1]; [rewrite E1, E2; replace (- i - 1 =? i) with false by lia; replace (- i - 1 =? i + 1) with false by lia; replace (- i - 1 =? - i) with false by lia; rewrite Z.eqb_refl; reflexivity|].
      destruct (Z.eqb_spec x (i + 1)) as [->|X2]; [rewrite E2, E1; replace (- i =? i) with false by lia; replace (- i =? i + 1) with false by lia; rewrite Z.eqb_refl; reflexivity|].
      destruct (Z.eqb_spec x (- i)) as [->|X3]; [rewrite N1, N2; replace (i + 1 =? i) with false by lia; rewrite Z.eqb_refl; reflexivity|].
      destruct (Z.eqb_spec x (- i - 1)) as [->|X4]; [rewrite N1, N2, Z.eqb_refl; reflexivity|].
      destruct (Z.eqb_spec (pcall z x) i) as [E|_]; [exfalso; apply X4; apply (Inj x (- i - 1) Hs); congruence|].
      destruct (Z.eqb_spec (pcall z x) (i + 1)) as [E|_]; [exfalso; apply X3; apply (Inj x (- i) Hs); congruence|].
      destruct (Z.eqb_spec (pcall z x) (- i)) as [E|_]; [exfalso; apply X2; apply (Inj x (i + 1) Hs); congruence|].
      destruct (Z.eqb_spec (pcall z x) (- i - 1)) as [E|_]; [exfalso; apply X1; apply (Inj x i Hs); congruence|reflexivity].
Qed.

Lemma cj_rel : forall z i, invol z -> 0 <= i -> conj_rel (pcall z) i (pcall (cj z i)) /\ invol (cj z i).
Proof.
  intros z i Hz Hi. pose proof Hz as [Hc Hv]. unfold cj. destruct (descb (pcall z) i) eqn:E.
  - apply descb_spec in E. split; [left; auto|assumption].
  - assert (E' : ~ descent (pcall z) i) by (intro H; apply descb_spec in H; congruence). unfold dm.
    destruct (descb (pcall (mulp (sp i) z)) i) eqn:E2.
    + apply descb_spec in E2. pose proof (cj_commute z i Hz Hi E' E2) as C.
      assert (Em : forall x, pcall (mulp (sp i) z) x = pcall z (simple i x)) by (intro x; rewrite mulp_call by auto with perm; rewrite sp_call by assumption; apply C).
      split; [right; left; auto|]. split; [auto with perm|]. intro x. rewrite !Em. rewrite <- C, Hv. apply simple_invol. assumption.
    + assert (E2' : ~ descent (pcall (mulp (sp i) z)) i) by (intro H; apply descb_spec in H; congruence).
      assert (Em : forall x, pcall (mulp (mulp (sp i) z) (sp i)) x = simple i (pcall z (simple i x))).
      { intro x. rewrite !mulp_call by auto with perm. rewrite !sp_call by assumption. reflexivity. }
      split.
      * right. right. split; [assumption|]. split; [|assumption].
        destruct (Z.eq_dec (simple i (pcall z i)) (pcall z (simple i i))) as [C1|C1]; [|exists i; assumption].
        destruct (Z.eq_dec (simple i (pcall z (i + 1))) (pcall z (simple i (i + 1)))) as [C2|C2]; [|exists (i + 1); assumption].
        exfalso. apply E2'. unfold descent in *. rewrite !mulp_call by auto with perm. rewrite !sp_call by assumption.
        destruct (Z.eqb_spec i 0) as [->|Ni].
        -- change (0 + 1) with 1 in C2. rewrite C2. change (simple 0 1) with (- (1)). rewrite pcall_odd. pose proof (pcall_nonzero z 1 (proj1 Hc)). lia.
        -- rewrite C1, C2. unfold simple. replace (i =? 0) with false by lia. rewrite !Z.eqb_refl. replace (i + 1 =? i) with false by lia.
           assert (pcall z i <> pcall z (i + 1)) by (intro Q; apply pcall_inj in Q; [lia|apply Hc]). lia.
      * assert (Hm : canonical (mulp (sp i) z)) by auto with perm. split; [auto with perm|]. intro x. rewrite !Em. rewrite simple_invol by assumption. rewrite Hv. apply simple_invol. assumption.
Qed.

Lemma conj_rel_fun : forall f i g g', conj_rel f i g -> conj_rel f i g' -> forall x, g x = g' x.
Proof.
  intros f i g g' [[A B]|[(A & C & B)|(A & (y & C) & B)]] [[A' B']|[(A' & C' & B')|(A' & (y' & C') & B')]] x; try contradiction; rewrite B, B'; try reflexivity; exfalso; auto.
Qed.
Lemma hecke_rel_fun : forall f i g g', hecke_rel f i g -> hecke_rel f i g' -> forall x, g x = g' x.
Proof. intros f i g g' [[A B]|[A B]] [[A' B']|[A' B']] x; try contradiction; rewrite B, B'; reflexivity. Qed.
Lemma dm_rel : forall u i, canonical u -> 0 <= i -> hecke_rel (pcall u) i (pcall (dm u i)).
Proof.
  intros u i Hu Hi. unfold dm. destruct (descb (pcall u) i) eqn:E.
  - left. split; [apply descb_spec; assumption|reflexivity].
  - right. split; [intro H; apply descb_spec in H; congruence|]. intro x. rewrite mulp_call by auto with perm. rewrite sp_call by assumption. reflexivity.
Qed.
End Acts.
