From Coq Require Import List ZArith Lia Bool Ring Sorted.
From Verif Require Import PyBase FinSum M_Vectors L_Vectors M_Polynomials.
Import ListNotations.
Local Open Scope Z_scope.

Definition Zth : ring_theory 0 1 Z.add Z.mul Z.sub Z.opp (@eq Z) := Zth.

Notation zlsum := (lsum 0 Z.add).
Notation zlin := (lin 0 Z.add Z.mul).

(* ---------- monomials ---------- *)
Lemma meqb_spec : forall a b, meqb a b = true <-> a = b.
Proof.
  induction a as [|[x e] a IH]; destruct b as [|[y f] b]; simpl; split; intro H;
    try reflexivity; try discriminate.
  - apply andb_true_iff in H. destruct H as [H H3]. apply andb_true_iff in H. destruct H as [H1 H2].
    apply Z.eqb_eq in H1, H2. apply IH in H3. congruence.
  - injection H as H1 H2 H3. subst. rewrite !Z.eqb_refl. simpl. apply IH. reflexivity.
Qed.

Definition zsorted (l : list Z) : Prop := StronglySorted Z.lt l.

Lemma zinsert_In : forall x l y, In y (zinsert x l) <-> y = x \/ In y l.
Proof.
  induction l as [|a l IH]; intro y; simpl; [intuition congruence|].
  destruct (x <? a) eqn:E1; [simpl; intuition congruence|].
  destruct (x =? a) eqn:E2.
  - apply Z.eqb_eq in E2. subst. simpl. intuition congruence.
  - simpl. rewrite IH. intuition congruence.
Qed.

Lemma zinsert_sorted : forall x l, zsorted l -> zsorted (zinsert x l).
Proof.
  unfold zsorted. induction l as [|a l IH]; intro H; simpl.
  - repeat constructor.
  - inversion H as [|b m Hs Hf]; subst. destruct (x <? a) eqn:E1.
    + apply Z.ltb_lt in E1. constructor; [assumption|]. constructor; [assumption|].
      eapply Forall_impl; [|exact Hf]. intros b Hb. lia.
    + destruct (x =? a) eqn:E2; [assumption|].
      apply Z.ltb_ge in E1. apply Z.eqb_neq in E2. constructor; [auto|].
      apply Forall_forall. intros y Hy. apply zinsert_In in Hy. destruct Hy as [Hy|Hy]; [lia|].
      rewrite Forall_forall in Hf. auto.
Qed.

Lemma zunion_sorted : forall a b, zsorted (zunion a b).
Proof.
  intros a b. unfold zunion. induction a as [|x a IH]; simpl.
  - induction b as [|y b IHb]; simpl; [constructor|]. apply zinsert_sorted. assumption.
  - apply zinsert_sorted. assumption.
Qed.

Lemma zunion_In : forall a b x, In x (zunion a b) <-> In x a \/ In x b.
Proof.
  intros a b x. unfold zunion. induction a as [|y a IH]; simpl.
  - induction b as [|z b IHb]; simpl; [tauto|]. rewrite zinsert_In. rewrite IHb. intuition congruence.
  - rewrite zinsert_In, IH. intuition congruence.
Qed.

Lemma zsorted_NoDup : forall l, zsorted l -> NoDup l.
Proof.
  induction l as [|a l IH]; intro H; constructor; inversion H as [|b m Hs Hf]; subst; auto.
  intro Hin. rewrite Forall_forall in Hf. specialize (Hf _ Hin). lia.
Qed.

(* canonical monomials: strictly sorted variables, no zero exponent *)
Definition mwf (m : mono) : Prop :=
  zsorted (map fst m) /\ Forall (fun te => snd te <> 0) m.

Lemma zsorted_filter_fst : forall (p : Z * Z -> bool) m,
  zsorted (map fst m) -> zsorted (map fst (filter p m)).
Proof.
  unfold zsorted. induction m as [|[t e] m IH]; intro H; simpl; [constructor|].
  simpl in H. inversion H as [|b l Hs Hf]; subst. destruct (p (t, e)); simpl; auto.
  constructor; [auto|]. apply Forall_forall. intros x Hx. rewrite Forall_forall in Hf. apply Hf.
  apply in_map_iff in Hx. destruct Hx as (te & E & Hx). apply filter_In in Hx.
  subst. apply in_map. tauto.
Qed.

Lemma mmul_wf : forall i j, mwf (mmul i j).
Proof.
  intros i j. unfold mmul. split.
  - apply zsorted_filter_fst. rewrite map_map. simpl. rewrite map_id. apply zunion_sorted.
  - apply Forall_forall. intros te H. apply filter_In in H. destruct H as [_ H].
    apply negb_true_iff, Z.eqb_neq in H. assumption.
Qed.

Lemma mget_filter_nz : forall m t, NoDup (map fst m) ->
  mget (filter (fun te => negb (Z.eqb (snd te) 0)) m) t = mget m t.
Proof.
  intros m t H.
  assert (Hz : forall x : Z, Z.eqb x 0 = true <-> x = 0) by (intro; apply Z.eqb_eq).
  exact (vget_vmake Z.eqb Z.eqb_eq 0 (fun x => Z.eqb x 0) Hz m t H).
Qed.

Lemma mget_mmul : forall i j t, mget (mmul i j) t = mget i t + mget j t.
Proof.
  intros i j t. unfold mmul. rewrite mget_filter_nz.
  - change (vget Z.eqb 0 (map (fun t => (t, mget i t + mget j t)) (zunion (map fst i) (map fst j))) t
            = mget i t + mget j t).
    rewrite (vget_map Z.eqb Z.eqb_eq 0 (fun t => mget i t + mget j t)).
    destruct (existsb (fun x => x =? t) (zunion (map fst i) (map fst j))) eqn:E; [reflexivity|].
    assert (Hn : ~ In t (zunion (map fst i) (map fst j))).
    { intro Hin. apply (existsb_In Z.eqb Z.eqb_eq) in Hin. congruence. }
    rewrite zunion_In in Hn.
    assert (H1 : mget i t = 0) by (apply (vget_notin Z.eqb Z.eqb_eq); tauto).
    assert (H2 : mget j t = 0) by (apply (vget_notin Z.eqb Z.eqb_eq); tauto).
    lia.
  - rewrite map_map. simpl. rewrite map_id. apply zsorted_NoDup, zunion_sorted.
Qed.

Lemma mwf_tail : forall te m, mwf (te :: m) -> mwf m.
Proof.
  intros te m [H1 H2]. split; [inversion H1|inversion H2]; assumption.
Qed.

Lemma mget_notin : forall m t, ~ In t (map fst m) -> mget m t = 0.
Proof. intros m t H. apply (vget_notin Z.eqb Z.eqb_eq). assumption. Qed.

Lemma mwf_head_notin : forall t e m, mwf ((t, e) :: m) -> forall s, s <= t -> ~ In s (map fst m).
Proof.
  intros t e m [H1 _] s Hs Hin. simpl in H1. inversion H1 as [|b l _ Hf]; subst.
  rewrite Forall_forall in Hf. specialize (Hf _ Hin). lia.
Qed.

Lemma mget_cons : forall t e m s, mget ((t, e) :: m) s = if t =? s then e else mget m s.
Proof. intros. unfold mget, dget0. simpl. destruct (t =? s); reflexivity. Qed.

Lemma mwf_ext : forall a b, mwf a -> mwf b -> (forall t, mget a t = mget b t) -> a = b.
Proof.
  induction a as [|[t e] a IH]; intros b Ha Hb H.
  - destruct b as [|[s f] b]; [reflexivity|]. exfalso.
    specialize (H s). rewrite mget_cons, Z.eqb_refl in H. unfold mget, dget0 in H. simpl in H.
    destruct Hb as [_ Hb]. inversion Hb; subst. simpl in *. lia.
  - destruct b as [|[s f] b].
    + exfalso. specialize (H t). rewrite mget_cons, Z.eqb_refl in H. unfold mget, dget0 in H. simpl in H.
      destruct Ha as [_ Ha]. inversion Ha; subst. simpl in *. lia.
    + pose proof (mwf_head_notin _ _ _ Ha) as Na. pose proof (mwf_head_notin _ _ _ Hb) as Nb.
      assert (He : e <> 0) by (destruct Ha as [_ Ha]; inversion Ha; assumption).
      assert (Hf : f <> 0) by (destruct Hb as [_ Hb]; inversion Hb; assumption).
      assert (Hts : t = s).
      { destruct (Z.lt_trichotomy t s) as [C|[C|C]]; [exfalso|assumption|exfalso].
        - specialize (H t). rewrite !mget_cons, Z.eqb_refl in H.
          replace (s =? t) with false in H by (symmetry; apply Z.eqb_neq; lia).
          rewrite (mget_notin b) in H by (apply Nb; lia). lia.
        - specialize (H s). rewrite !mget_cons, Z.eqb_refl in H.
          replace (t =? s) with false in H by (symmetry; apply Z.eqb_neq; lia).
          rewrite (mget_notin a) in H by (apply Na; lia). lia. }
      subst s. f_equal.
      * specialize (H t). rewrite !mget_cons, Z.eqb_refl in H. congruence.
      * apply IH; [eapply mwf_tail; eassumption|eapply mwf_tail; eassumption|].
        intro s. destruct (Z.eq_dec t s) as [E|E].
        -- subst. rewrite (mget_notin a), (mget_notin b); [reflexivity|apply Nb; lia|apply Na; lia].
        -- specialize (H s). rewrite !mget_cons in H.
           replace (t =? s) with false in H by (symmetry; apply Z.eqb_neq; lia). assumption.
Qed.

Lemma mmul_comm : forall i j, mmul i j = mmul j i.
Proof.
  intros. apply mwf_ext; try apply mmul_wf. intro t. rewrite !mget_mmul. lia.
Qed.

Lemma mmul_assoc : forall i j k, mmul (mmul i j) k = mmul i (mmul j k).
Proof.
  intros. apply mwf_ext; try apply mmul_wf. intro t. rewrite !mget_mmul. lia.
Qed.

Lemma mmul_nil_r : forall i, mwf i -> mmul i [] = i.
Proof.
  intros i H. apply mwf_ext; [apply mmul_wf|assumption|]. intro t. rewrite mget_mmul.
  unfold mget at 2. unfold dget0. simpl. lia.
Qed.

Lemma mmul_nil_l : forall i, mwf i -> mmul [] i = i.
Proof. intros. rewrite mmul_comm. apply mmul_nil_r. assumption. Qed.

(* ---------- polynomials ---------- *)
(* invariant: distinct canonical monomials, no stored zero coefficient *)
Definition pwf (p : poly) : Prop :=
  NoDup (map fst p) /\ Forall (fun iv => mwf (fst iv)) p /\ Forall (fun iv => snd iv <> 0) p.

Notation zvwf := (vwf (K:=mono) 0).

Lemma pwf_vwf : forall p, pwf p -> zvwf p.
Proof. intros p (H1 & H2 & H3). split; assumption. Qed.

Lemma pget_dset : forall p k v m, pget (dset meqb p k v) m = if meqb k m then v else pget p m.
Proof. exact (vget_dset meqb meqb_spec 0). Qed.

Lemma pget_ddel : forall p k m, NoDup (map fst p) ->
  pget (ddel meqb p k) m = if meqb k m then 0 else pget p m.
Proof.
  intros p k m H. unfold pget, dget0. destruct (meqb k m) eqn:E.
  - apply meqb_spec in E. subst. rewrite dget_ddel_same; auto. exact meqb_spec.
  - rewrite dget_ddel_other; auto; [exact meqb_spec|].
    intro; subst. rewrite (keqb_refl_ meqb meqb_spec) in E. discriminate.
Qed.

Lemma In_ddel : forall (p : poly) k x, In x (ddel meqb p k) -> In x p.
Proof.
  induction p as [|[k' v] p IH]; intros k x H; simpl in *; [contradiction|].
  destruct (meqb k' k); [right; assumption|]. destruct H as [H|H]; [left; assumption|right; eauto].
Qed.

Lemma In_dset : forall (p : poly) k v x, In x (dset meqb p k v) -> x = (k, v) \/ In x p.
Proof.
  induction p as [|[k' v'] p IH]; intros k v x H; simpl in *; [destruct H as [H|[]]; auto|].
  destruct (meqb k' k) eqn:E.
  - apply meqb_spec in E. subst. destruct H as [H|H]; [left; congruence|right; right; assumption].
  - destruct H as [H|H]; [right; left; assumption|]. apply IH in H. tauto.
Qed.

Definition pput (acc : poly) (k : mono) (v : Z) : poly :=
  let acc' := dset meqb acc k v in if v =? 0 then ddel meqb acc' k else acc'.

Lemma In_ddel_ne : forall (p : poly) k x, NoDup (map fst p) -> In x (ddel meqb p k) -> fst x <> k.
Proof.
  intros p k x Hn H.
  assert (Hin : In (fst x) (map fst (ddel meqb p k))) by (apply in_map; assumption).
  apply (ddel_keys_In meqb meqb_spec) in Hin; auto. tauto.
Qed.

Lemma pput_wf : forall acc k v, pwf acc -> mwf k -> pwf (pput acc k v).
Proof.
  intros acc k v (H1 & H2 & H3) Hk. unfold pput.
  pose proof (dset_NoDup meqb meqb_spec acc k v H1) as Hn.
  rewrite Forall_forall in H2, H3.
  destruct (v =? 0) eqn:E.
  - split; [apply ddel_NoDup; auto; exact meqb_spec|]. split; apply Forall_forall; intros x Hx.
    + apply In_ddel in Hx. apply In_dset in Hx. destruct Hx as [Hx|Hx]; [subst; assumption|auto].
    + pose proof (In_ddel_ne _ _ _ Hn Hx) as Hne.
      apply In_ddel in Hx. apply In_dset in Hx. destruct Hx as [Hx|Hx]; [subst; simpl in Hne; congruence|auto].
  - apply Z.eqb_neq in E. split; [assumption|]. split; apply Forall_forall; intros x Hx;
      apply In_dset in Hx; destruct Hx as [Hx|Hx]; subst; auto.
Qed.

Lemma pput_NoDup : forall acc k v, NoDup (map fst acc) -> NoDup (map fst (pput acc k v)).
Proof.
  intros acc k v H. unfold pput.
  pose proof (dset_NoDup meqb meqb_spec acc k v H) as Hn.
  destruct (v =? 0); [apply ddel_NoDup; auto; exact meqb_spec|assumption].
Qed.

Lemma pput_get : forall acc k v m, NoDup (map fst acc) ->
  pget (pput acc k v) m = if meqb k m then v else pget acc m.
Proof.
  intros acc k v m H. unfold pput. pose proof (dset_NoDup meqb meqb_spec acc k v H) as Hn.
  destruct (v =? 0) eqn:E.
  - rewrite pget_ddel by assumption. rewrite pget_dset.
    apply Z.eqb_eq in E. subst. destruct (meqb k m); reflexivity.
  - apply pget_dset.
Qed.

Lemma padd_fold_get : forall p q l acc m,
  NoDup (map fst acc) -> NoDup (map fst l) ->
  (forall k, ~ In k (map fst l) -> True) ->
  let r := fold_left (fun (acc : poly) (iv : mono * Z) => pput acc (fst iv) (pget p (fst iv) + pget q (fst iv))) l acc in
  NoDup (map fst r) /\
  pget r m = if existsb (fun x => meqb x m) (map fst l) then pget p m + pget q m else pget acc m.
Proof.
  intros p q. induction l as [|[k v] l IH]; intros acc m Ha Hl _; simpl.
  - split; [assumption|reflexivity].
  - simpl in Hl. inversion Hl as [|x y Hx Hy]; subst.
    destruct (IH (pput acc k (pget p k + pget q k)) m) as [H1 H2]; auto.
    { apply pput_NoDup. assumption. }
    split; [exact H1|]. simpl in H2. rewrite H2.
    destruct (existsb (fun x => meqb x m) (map fst l)) eqn:E; [rewrite orb_true_r; reflexivity|].
    rewrite pput_get by assumption. destruct (meqb k m) eqn:Ek; simpl; [|reflexivity].
    apply meqb_spec in Ek. subst. reflexivity.
Qed.

Lemma padd_eq_fold : forall p q,
  padd p q = fold_left (fun (acc : poly) (iv : mono * Z) => pput acc (fst iv) (pget p (fst iv) + pget q (fst iv))) q p.
Proof. reflexivity. Qed.

Lemma pget_notin : forall p m, ~ In m (map fst p) -> pget p m = 0.
Proof. exact (vget_notin meqb meqb_spec 0). Qed.

Lemma padd_get : forall p q m, NoDup (map fst p) -> NoDup (map fst q) ->
  pget (padd p q) m = pget p m + pget q m.
Proof.
  intros p q m Hp Hq. rewrite padd_eq_fold.
  destruct (padd_fold_get p q q p m Hp Hq (fun _ _ => I)) as [_ H].
  simpl in H. rewrite H. destruct (existsb (fun x => meqb x m) (map fst q)) eqn:E; [reflexivity|].
  rewrite (pget_notin q); [lia|]. intro Hin. apply (existsb_In meqb meqb_spec) in Hin. congruence.
Qed.

Lemma padd_wf : forall p q, pwf p -> pwf q -> pwf (padd p q).
Proof.
  intros p q Hp (Hq1 & Hq2 & Hq3). rewrite padd_eq_fold.
  assert (H : forall l acc, pwf acc -> Forall (fun iv => mwf (fst iv)) l ->
    pwf (fold_left (fun (acc : poly) (iv : mono * Z) => pput acc (fst iv) (pget p (fst iv) + pget q (fst iv))) l acc)).
  { induction l as [|[k v] l IH]; intros acc Ha Hl; simpl; [assumption|].
    inversion Hl; subst. apply IH; [|assumption]. apply pput_wf; assumption. }
  apply H; assumption.
Qed.

Definition pmult (a b : mono) : list (mono * Z) := [(mmul a b, 1)].

Lemma pmult_assoc : mult_assoc meqb 0 Z.add Z.mul pmult.
Proof.
  intros a b c m. unfold mcoef, pmult. simpl. rewrite mmul_assoc. reflexivity.
Qed.

Lemma pmul_step_put : forall acc k c, pmul_step acc k c = pput acc k (pget acc k + c).
Proof.
  intros. unfold pmul_step, pput, pget, dget0. destruct (dget meqb acc k); reflexivity.
Qed.

Lemma pmul_inner : forall p q a l acc m, NoDup (map fst acc) ->
  let r := fold_left (fun (acc : poly) (jy : mono * Z) => pmul_step acc (mmul a (fst jy)) (pget p a * pget q (fst jy))) l acc in
  NoDup (map fst r) /\
  pget r m = pget acc m + zlsum (fun jy => if meqb (mmul a (fst jy)) m then pget p a * pget q (fst jy) else 0) l.
Proof.
  intros p q a. induction l as [|[b y] l IH]; intros acc m Ha; simpl.
  - split; [assumption|lia].
  - rewrite pmul_step_put.
    destruct (IH (pput acc (mmul a b) (pget acc (mmul a b) + pget p a * pget q b)) m) as [H1 H2].
    { apply pput_NoDup. assumption. }
    split; [exact H1|]. simpl in H2. rewrite H2. rewrite pput_get by assumption.
    destruct (meqb (mmul a b) m) eqn:E; [|lia]. apply meqb_spec in E. subst. lia.
Qed.

Lemma pmul_outer : forall p q l acc m, NoDup (map fst acc) ->
  let r := fold_left (fun (acc : poly) (ix : mono * Z) => fold_left (fun (acc : poly) (jy : mono * Z) =>
      pmul_step acc (mmul (fst ix) (fst jy)) (pget p (fst ix) * pget q (fst jy))) q acc) l acc in
  NoDup (map fst r) /\
  pget r m = pget acc m + zlsum (fun ix => zlsum (fun jy =>
     if meqb (mmul (fst ix) (fst jy)) m then pget p (fst ix) * pget q (fst jy) else 0) q) l.
Proof.
  intros p q. induction l as [|[a x] l IH]; intros acc m Ha; simpl.
  - split; [assumption|lia].
  - destruct (pmul_inner p q a q acc m Ha) as [H1 H2].
    specialize (IH _ m H1). simpl in IH. destruct IH as [H3 H4].
    split; [exact H3|]. rewrite H4, H2. lia.
Qed.

Lemma pget_In : forall p m c, NoDup (map fst p) -> In (m, c) p -> pget p m = c.
Proof.
  intros p m c Hn Hin. unfold pget, dget0.
  rewrite (In_dget meqb meqb_spec p m c Hn Hin). reflexivity.
Qed.

(* convolution formula *)
Lemma pmul_get : forall p q m, NoDup (map fst p) -> NoDup (map fst q) ->
  pget (pmul p q) m =
  zlsum (fun ix => zlsum (fun jy => if meqb (mmul (fst ix) (fst jy)) m then snd ix * snd jy else 0) q) p.
Proof.
  intros p q m Hp Hq. unfold pmul.
  destruct (pmul_outer p q p [] m (NoDup_nil _)) as [_ H].
  etransitivity; [exact H|]. clear H. change (pget [] m) with 0. rewrite Z.add_0_l. apply lsum_ext. intros [a x] Ha. apply lsum_ext. intros [b y] Hb.
  simpl. rewrite (pget_In p a x), (pget_In q b y) by assumption. reflexivity.
Qed.

Lemma pmul_vmul : forall p q m, NoDup (map fst p) -> NoDup (map fst q) ->
  pget (pmul p q) m = vget meqb 0 (vmul meqb 0 Z.add Z.mul (Z.eqb 0) pmult p q) m.
Proof.
  intros p q m Hp Hq. rewrite pmul_get by assumption.
  rewrite (vmul_get meqb meqb_spec 0 1 Z.add Z.mul Z.sub Z.opp (Z.eqb 0) Zth
             ltac:(intro; rewrite Z.eqb_eq; split; congruence)).
  apply lsum_ext. intros [a x] _. apply lsum_ext. intros [b y] _. simpl.
  unfold mcoef, pmult. simpl. destruct (meqb (mmul a b) m); lia.
Qed.

Lemma pmul_NoDup : forall p q, NoDup (map fst (pmul p q)).
Proof.
  intros p q. unfold pmul. destruct (pmul_outer p q p [] [] (NoDup_nil _)) as [H _]. exact H.
Qed.

Lemma pmul_wf : forall p q, pwf (pmul p q).
Proof.
  intros p q. unfold pmul.
  assert (Hin : forall a l acc, pwf acc ->
    pwf (fold_left (fun (acc : poly) (jy : mono * Z) => pmul_step acc (mmul a (fst jy)) (pget p a * pget q (fst jy))) l acc)).
  { intros a. induction l as [|[b y] l IH]; intros acc Ha; simpl; [assumption|].
    apply IH. rewrite pmul_step_put. apply pput_wf; [assumption|apply mmul_wf]. }
  assert (Hout : forall l acc, pwf acc -> pwf (fold_left (fun (acc : poly) (ix : mono * Z) => fold_left (fun (acc : poly) (jy : mono * Z) =>
      pmul_step acc (mmul (fst ix) (fst jy)) (pget p (fst ix) * pget q (fst jy))) q acc) l acc)).
  { induction l as [|[a x] l IH]; intros acc Ha; simpl; [assumption|]. apply IH. apply Hin. assumption. }
  apply Hout. split; [constructor|]. split; constructor.
Qed.

Definition peq (p q : poly) : Prop := forall m, pget p m = pget q m.

Lemma peq_refl : forall p, peq p p. Proof. intros p m. reflexivity. Qed.
Lemma peq_sym : forall p q, peq p q -> peq q p. Proof. intros p q H m. symmetry. apply H. Qed.
Lemma peq_trans : forall p q r, peq p q -> peq q r -> peq p r.
Proof. intros p q r H1 H2 m. rewrite H1. apply H2. Qed.

Lemma zz_spec : forall x : Z, Z.eqb 0 x = true <-> x = 0.
Proof. intro. rewrite Z.eqb_eq. split; congruence. Qed.

Notation zvmul := (vmul meqb 0 Z.add Z.mul (Z.eqb 0) pmult).

Lemma pmul_ext : forall p p' q q', pwf p -> pwf p' -> pwf q -> pwf q' ->
  peq p p' -> peq q q' -> peq (pmul p q) (pmul p' q').
Proof.
  intros p p' q q' Hp Hp' Hq Hq' H1 H2 m.
  rewrite !pmul_vmul by (apply Hp || apply Hp' || apply Hq || apply Hq').
  apply (vmul_ext meqb meqb_spec 0 1 Z.add Z.mul Z.sub Z.opp (Z.eqb 0) Zth zz_spec); auto using pwf_vwf.
Qed.

Lemma padd_ext : forall p p' q q', pwf p -> pwf p' -> pwf q -> pwf q' ->
  peq p p' -> peq q q' -> peq (padd p q) (padd p' q').
Proof.
  intros p p' q q' Hp Hp' Hq Hq' H1 H2 m.
  rewrite !padd_get by (apply Hp || apply Hp' || apply Hq || apply Hq'). rewrite H1, H2. reflexivity.
Qed.

Lemma pmul_comm : forall p q, pwf p -> pwf q -> peq (pmul p q) (pmul q p).
Proof.
  intros p q Hp Hq m. rewrite !pmul_get by (apply Hp || apply Hq).
  rewrite (lsum_swap 0 1 Z.add Z.mul Z.sub Z.opp Zth). apply lsum_ext. intros [b y] _.
  apply lsum_ext. intros [a x] _. simpl. rewrite mmul_comm. destruct (meqb (mmul b a) m); lia.
Qed.

Lemma vmul_as_pmul : forall p q, pwf p -> pwf q -> forall k, vget meqb 0 (zvmul p q) k = pget (pmul p q) k.
Proof. intros p q Hp Hq k. rewrite pmul_vmul by (apply Hp || apply Hq). reflexivity. Qed.

Lemma pmul_assoc : forall p q r, pwf p -> pwf q -> pwf r ->
  peq (pmul (pmul p q) r) (pmul p (pmul q r)).
Proof.
  intros p q r Hp Hq Hr m.
  rewrite pmul_vmul by (apply pmul_wf || apply Hr).
  rewrite pmul_vmul by (apply pmul_wf || apply Hp).
  pose proof (vmul_wf meqb meqb_spec 0 1 Z.add Z.mul Z.sub Z.opp (Z.eqb 0) Zth zz_spec pmult) as Hvw.
  rewrite (vmul_ext meqb meqb_spec 0 1 Z.add Z.mul Z.sub Z.opp (Z.eqb 0) Zth zz_spec pmult
            (pmul p q) (zvmul p q) r r); auto using pwf_vwf, pmul_wf.
  2:{ intro k. symmetry. apply vmul_as_pmul; assumption. }
  rewrite (vmul_assoc meqb meqb_spec 0 1 Z.add Z.mul Z.sub Z.opp (Z.eqb 0) Zth zz_spec pmult pmult_assoc);
    auto using pwf_vwf.
  apply (vmul_ext meqb meqb_spec 0 1 Z.add Z.mul Z.sub Z.opp (Z.eqb 0) Zth zz_spec pmult);
    auto using pwf_vwf, pmul_wf.
  intro k. apply vmul_as_pmul; assumption.
Qed.

(* linear functionals *)
Lemma zlin_padd : forall p q F, pwf p -> pwf q -> zlin (padd p q) F = zlin p F + zlin q F.
Proof.
  intros p q F Hp Hq. apply (lin_plus_get 0 1 Z.add Z.mul Z.sub Z.opp Zth meqb meqb_spec).
  - apply padd_wf; assumption.
  - apply Hp.
  - apply Hq.
  - intro k. apply padd_get; [apply Hp|apply Hq].
Qed.

Lemma zlin_pmul : forall p q F, pwf p -> pwf q ->
  zlin (pmul p q) F = zlin p (fun a => zlin q (fun b => F (mmul a b))).
Proof.
  intros p q F Hp Hq.
  rewrite (lin_ext_get 0 1 Z.add Z.mul Z.sub Z.opp Zth meqb meqb_spec (pmul p q) (zvmul p q)).
  - rewrite (lin_vmul meqb meqb_spec 0 1 Z.add Z.mul Z.sub Z.opp (Z.eqb 0) Zth zz_spec pmult p q F)
      by (apply pwf_vwf; assumption).
    apply (lin_F_ext 0 Z.add Z.mul). intros a _. apply (lin_F_ext 0 Z.add Z.mul). intros b _.
    unfold pmult, lin, lsum. cbn [fold_right map fst snd]. rewrite Z.add_0_r, Z.mul_1_l. reflexivity.
  - apply pmul_NoDup.
  - apply (vmul_wf meqb meqb_spec 0 1 Z.add Z.mul Z.sub Z.opp (Z.eqb 0) Zth zz_spec pmult).
  - intro k. apply pmul_vmul; [apply Hp|apply Hq].
Qed.

Lemma pget_zlin : forall p m, NoDup (map fst p) -> pget p m = zlin p (fun k => if meqb k m then 1 else 0).
Proof. intros p m H. apply (dget0_lin 0 1 Z.add Z.mul Z.sub Z.opp Zth meqb meqb_spec). assumption. Qed.

Lemma pmul_get_zlin : forall p q m, pwf p -> pwf q ->
  pget (pmul p q) m = zlin p (fun a => zlin q (fun b => if meqb (mmul a b) m then 1 else 0)).
Proof. intros p q m Hp Hq. rewrite pget_zlin by apply pmul_NoDup. apply zlin_pmul; assumption. Qed.

Lemma pmul_add_l : forall p q r, pwf p -> pwf q -> pwf r ->
  peq (pmul (padd p q) r) (padd (pmul p r) (pmul q r)).
Proof.
  intros p q r Hp Hq Hr m. rewrite padd_get by apply pmul_NoDup.
  rewrite !pmul_get_zlin by (assumption || (apply padd_wf; assumption)).
  apply zlin_padd; assumption.
Qed.

Lemma pmul_add_r : forall p q r, pwf p -> pwf q -> pwf r ->
  peq (pmul p (padd q r)) (padd (pmul p q) (pmul p r)).
Proof.
  intros p q r Hp Hq Hr.
  eapply peq_trans; [apply pmul_comm; auto using padd_wf|].
  eapply peq_trans; [apply pmul_add_l; assumption|].
  apply padd_ext; auto using pmul_wf; apply pmul_comm; assumption.
Qed.

Lemma pconst_wf : forall c, c <> 0 -> pwf (pconst c).
Proof.
  intros c Hc. split; [|split].
  - repeat constructor. intros [].
  - repeat constructor.
  - repeat constructor. assumption.
Qed.

Lemma pone_wf : pwf pone.
Proof. apply pconst_wf. discriminate. Qed.

Lemma pmul_const : forall p c m, pwf p -> pget (pmul p (pconst c)) m = c * pget p m.
Proof.
  intros p c m Hp. rewrite pmul_get; [|apply Hp|repeat constructor; intros []].
  rewrite (pget_zlin p m) by apply Hp. unfold lin.
  rewrite <- (lsum_scale 0 1 Z.add Z.mul Z.sub Z.opp Zth). apply lsum_ext. intros [a x] Ha. simpl.
  assert (Hw : mwf a).
  { destruct Hp as (_ & H2 & _). rewrite Forall_forall in H2. exact (H2 _ Ha). }
  rewrite mmul_nil_r by assumption. destruct (meqb a m); lia.
Qed.

Lemma pmul_one_r : forall p, pwf p -> peq (pmul p pone) p.
Proof. intros p Hp m. change pone with (pconst 1). rewrite pmul_const by assumption. lia. Qed.

Lemma pmul_one_l : forall p, pwf p -> peq (pmul pone p) p.
Proof.
  intros p Hp. eapply peq_trans; [apply pmul_comm; [apply pone_wf|assumption]|]. apply pmul_one_r. assumption.
Qed.

Lemma pneg_get : forall p m, pwf p -> pget (pneg p) m = - pget p m.
Proof. intros p m Hp. unfold pneg. rewrite pmul_const by assumption. lia. Qed.

Lemma psub_get : forall p q m, pwf p -> pwf q -> pget (psub p q) m = pget p m - pget q m.
Proof.
  intros p q m Hp Hq. unfold psub. rewrite padd_get; [|apply Hp|apply pmul_NoDup].
  rewrite pneg_get by assumption. lia.
Qed.

Lemma psub_wf : forall p q, pwf p -> pwf q -> pwf (psub p q).
Proof. intros. apply padd_wf; [assumption|apply pmul_wf]. Qed.

Lemma pzero_get : forall m, pget pzero m = 0.
Proof. intro m. reflexivity. Qed.

Lemma pnnz_zero : forall p, pwf p -> (pnnz p = O <-> forall m, pget p m = 0).
Proof.
  intros p (H1 & H2 & H3). unfold pnnz. rewrite length_zero_iff_nil. split.
  - intros H m. destruct p as [|[k v] p]; [reflexivity|]. exfalso.
    simpl in H. unfold pget, dget0 in H. simpl in H. rewrite (keqb_refl_ meqb meqb_spec) in H.
    inversion H3 as [|? ? Hv ?]; subst. simpl in Hv. apply Z.eqb_neq in Hv. rewrite Hv in H. discriminate.
  - intro H. assert (Hf : forall l, filter (fun iv : mono * Z => negb (pget p (fst iv) =? 0)) l = []).
    { induction l as [|iv l IH]; simpl; [reflexivity|]. rewrite H. simpl. assumption. }
    apply Hf.
Qed.

Lemma peqb_spec : forall p q, pwf p -> pwf q -> (peqb p q = true <-> peq p q).
Proof.
  intros p q Hp Hq. unfold peqb. rewrite Nat.eqb_eq. rewrite pnnz_zero by (apply psub_wf; assumption).
  split; intros H m.
  - specialize (H m). rewrite psub_get in H by assumption. lia.
  - rewrite psub_get by assumption. rewrite H. lia.
Qed.

Lemma pis_zero_spec : forall p, pwf p -> (pis_zero p = true <-> forall m, pget p m = 0).
Proof. intros p Hp. unfold pis_zero. rewrite Nat.eqb_eq. apply pnnz_zero. assumption. Qed.

(* ---------- powers ---------- *)
Lemma ppow_nat_wf : forall p n, pwf (ppow_nat p n).
Proof. intros p n. destruct n; simpl; [apply pone_wf|apply pmul_wf]. Qed.

Lemma ppow_nat_add : forall p n m, pwf p ->
  peq (ppow_nat p (n + m)) (pmul (ppow_nat p n) (ppow_nat p m)).
Proof.
  intros p n m Hp. induction n as [|n IH]; simpl.
  - apply peq_sym. change (pmonomial 0 0) with pone. apply pmul_one_l. apply ppow_nat_wf.
  - eapply peq_trans; [apply pmul_ext; [| | | |apply peq_refl|apply IH]|]; auto using ppow_nat_wf, pmul_wf.
    apply peq_sym. apply pmul_assoc; auto using ppow_nat_wf.
Qed.
