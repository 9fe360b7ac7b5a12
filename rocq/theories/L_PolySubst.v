(* Substitution, truncation, coefficient extraction and powers of polynomials. *)
From Coq Require Import List ZArith Lia Bool Ring Sorted.
From Verif Require Import PyBase FinSum M_Vectors L_Vectors M_Polynomials L_Polynomials.
Import ListNotations.
Local Open Scope Z_scope.

(* ---------- monomial helpers ---------- *)
Lemma mdel_wf : forall m t, mwf m -> mwf (mdel m t).
Proof.
  intros m t [H1 H2]. split.
  - apply zsorted_filter_fst. assumption.
  - apply Forall_forall. intros x Hx. apply filter_In in Hx. rewrite Forall_forall in H2. apply H2. tauto.
Qed.

Lemma mget_mdel : forall m t s, mget (mdel m t) s = if t =? s then 0 else mget m s.
Proof.
  induction m as [|[k e] m IH]; intros t s; simpl.
  - unfold mget, dget0. simpl. destruct (t =? s); reflexivity.
  - destruct (k =? t) eqn:E; simpl.
    + rewrite IH, mget_cons. apply Z.eqb_eq in E. subst. destruct (t =? s) eqn:E2; reflexivity.
    + rewrite !mget_cons, IH. destruct (t =? s) eqn:E2; [|reflexivity].
      apply Z.eqb_eq in E2. subst. rewrite E. reflexivity.
Qed.

Lemma msingle_wf : forall j x, x <> 0 -> mwf [(j, x)].
Proof. intros. split; repeat constructor. assumption. Qed.

(* the monomial x_i^k (canonical: empty when k = 0) *)
Definition mvar (i k : Z) : mono := if k =? 0 then [] else [(i, k)].

Lemma mvar_wf : forall i k, mwf (mvar i k).
Proof.
  intros i k. unfold mvar. destruct (k =? 0) eqn:E; [split; constructor|].
  apply msingle_wf. apply Z.eqb_neq. assumption.
Qed.

Lemma mget_mvar : forall i k t, mget (mvar i k) t = if i =? t then k else 0.
Proof.
  intros i k t. unfold mvar. destruct (k =? 0) eqn:E.
  - apply Z.eqb_eq in E. subst. unfold mget, dget0. simpl. destruct (i =? t); reflexivity.
  - rewrite mget_cons. destruct (i =? t); reflexivity.
Qed.

Lemma pmonomial_mvar : forall i k, pmonomial i k = [(mvar i k, 1)].
Proof. intros. unfold pmonomial, mvar. destruct (k =? 0); reflexivity. Qed.

Lemma psingle_wf : forall m c, mwf m -> c <> 0 -> pwf [(m, c)].
Proof.
  intros m c Hm Hc. split; [repeat constructor; intros []|]. split; (constructor; [assumption|constructor]).
Qed.

Lemma pmonomial_wf : forall i k, pwf (pmonomial i k).
Proof. intros. rewrite pmonomial_mvar. apply psingle_wf; [apply mvar_wf|discriminate]. Qed.

Lemma pmul_single : forall a b, pmul [(a, 1)] [(b, 1)] = [(mmul a b, 1)].
Proof.
  intros a b. unfold pmul. simpl. unfold pget, dget0. simpl.
  rewrite !(keqb_refl_ meqb meqb_spec). simpl. reflexivity.
Qed.

(* ---------- the substitution image of a monomial ---------- *)
Definition Tm (i : Z) (e : poly) (a : mono) : poly :=
  pmul [(mdel a i, 1)] (ppow_nat e (Z.to_nat (mget a i))).

Lemma Tm_wf : forall i e a, pwf (Tm i e a).
Proof. intros. apply pmul_wf. Qed.

Lemma mwf_cons_inv : forall j x rest, mwf ((j, x) :: rest) -> x <> 0 /\ mget rest j = 0 /\ mwf rest.
Proof.
  intros j x rest H. split; [destruct H as [_ H]; inversion H; assumption|]. split.
  - apply mget_notin. eapply mwf_head_notin; [eassumption|lia].
  - eapply mwf_tail; eassumption.
Qed.

Lemma psub_term_ok : forall i e ind term, pwf e -> mwf ind -> pwf term -> 0 <= mget ind i ->
  exists r, psub_term i e ind term = Ok r /\ pwf r /\ peq r (pmul term (Tm i e ind)).
Proof.
  intros i e ind. induction ind as [|[j x] rest IH]; intros term He Hind Ht Hpos; simpl.
  - exists term. split; [reflexivity|]. split; [assumption|].
    apply peq_sym. unfold Tm. simpl. change (mget [] i) with 0. simpl.
    change (pmonomial 0 0) with pone. change [([], 1)] with pone.
    eapply peq_trans; [apply pmul_ext|apply pmul_one_r; assumption]; auto using pmul_wf, pone_wf, peq_refl.
  - destruct (mwf_cons_inv _ _ _ Hind) as (Hx & Hj & Hr). rewrite mget_cons in Hpos.
    destruct (i =? j) eqn:E; simpl.
    + apply Z.eqb_eq in E. subst j. rewrite Z.eqb_refl in Hpos.
      replace (0 <=? x) with true by (symmetry; apply Z.leb_le; lia).
      destruct (IH (pmul term (ppow_nat e (Z.to_nat x)))) as (r & H1 & H2 & H3);
        auto using pmul_wf; [rewrite Hj; lia|].
      exists r. split; [assumption|]. split; [assumption|].
      eapply peq_trans; [exact H3|].
      eapply peq_trans; [apply pmul_assoc; auto using ppow_nat_wf, Tm_wf|].
      apply pmul_ext; auto using pmul_wf, Tm_wf, peq_refl.
      eapply peq_trans; [apply pmul_comm; auto using ppow_nat_wf, Tm_wf|].
      unfold Tm. rewrite Hj. simpl ppow_nat. change (pmonomial 0 0) with pone.
      rewrite mget_cons, Z.eqb_refl.
      apply pmul_ext; auto using pmul_wf, ppow_nat_wf, peq_refl.
      { apply psingle_wf; [apply mdel_wf; assumption|discriminate]. }
      replace (mdel ((i, x) :: rest) i) with (mdel rest i)
        by (simpl; rewrite Z.eqb_refl; reflexivity).
      apply pmul_one_r. apply psingle_wf; [apply mdel_wf; assumption|discriminate].
    + assert (E' : j =? i = false) by (rewrite Z.eqb_sym; assumption).
      rewrite E' in Hpos.
      destruct (IH (pmul term (pmonomial j x))) as (r & H1 & H2 & H3); auto using pmul_wf.
      exists r. split; [assumption|]. split; [assumption|].
      eapply peq_trans; [exact H3|].
      eapply peq_trans; [apply pmul_assoc; auto using pmonomial_wf, Tm_wf|].
      apply pmul_ext; auto using pmul_wf, Tm_wf, peq_refl.
      unfold Tm. eapply peq_trans.
      { apply peq_sym. apply pmul_assoc; auto using pmonomial_wf, ppow_nat_wf.
        apply psingle_wf; [apply mdel_wf; assumption|discriminate]. }
      rewrite pmonomial_mvar, pmul_single. rewrite mget_cons, E'.
      replace (mmul (mvar j x) (mdel rest i)) with (mdel ((j, x) :: rest) i); [apply peq_refl|].
      apply mwf_ext; [apply mdel_wf; assumption|apply mmul_wf|].
      intro t. rewrite mget_mmul, mget_mvar, !mget_mdel, mget_cons.
      destruct (i =? t) eqn:Et.
      * apply Z.eqb_eq in Et. subst. rewrite E'. reflexivity.
      * destruct (j =? t) eqn:Ej; [|reflexivity]. apply Z.eqb_eq in Ej. subst. lia.
Qed.

Lemma psub_term_err : forall i e ind term, mwf ind -> mget ind i < 0 ->
  psub_term i e ind term = Err AssertionError.
Proof.
  intros i e ind. induction ind as [|[j x] rest IH]; intros term Hind Hneg; simpl.
  - unfold mget, dget0 in Hneg. simpl in Hneg. lia.
  - destruct (mwf_cons_inv _ _ _ Hind) as (Hx & Hj & Hr). rewrite mget_cons in Hneg.
    rewrite Z.eqb_sym. destruct (j =? i) eqn:E; simpl.
    + replace (0 <=? x) with false by (symmetry; apply Z.leb_gt; lia). reflexivity.
    + apply IH; assumption.
Qed.

Lemma pmul_one_const : forall c, pmul pone (pconst c) = if c =? 0 then [] else [([], c)].
Proof.
  intro c. unfold pmul. simpl. unfold pget, dget0. simpl.
  unfold pmul_step. simpl. destruct c; reflexivity.
Qed.

Lemma pmul_const_l_get : forall c p m, pwf p -> pget (pmul (pmul pone (pconst c)) p) m = c * pget p m.
Proof.
  intros c p m Hp.
  rewrite (pmul_comm _ _ (pmul_wf _ _) Hp m).
  destruct (Z.eq_dec c 0) as [E|E].
  - subst. rewrite pmul_get by (apply Hp || apply pmul_wf). rewrite pmul_one_const. simpl.
    apply lsum_zero with (1 := Zth). reflexivity.
  - rewrite pmul_one_const. replace (c =? 0) with false by (symmetry; apply Z.eqb_neq; assumption).
    apply pmul_const. assumption.
Qed.

(* p has no negative power of variable i *)
Definition nonneg_in (i : Z) (p : poly) : Prop := Forall (fun iv => 0 <= mget (fst iv) i) p.

Lemma psubstitute_aux_ok : forall i e terms ans, pwf e ->
  Forall (fun iv => mwf (fst iv)) terms -> nonneg_in i terms -> pwf ans ->
  exists r, psubstitute_aux i e terms ans = Ok r /\ pwf r /\
    forall m, pget r m = pget ans m + zlin terms (fun a => pget (Tm i e a) m).
Proof.
  intros i e terms. induction terms as [|[ind c] rest IH]; intros ans He Hw Hn Ha; simpl.
  - exists ans. split; [reflexivity|]. split; [assumption|]. intro m. unfold lin. simpl. lia.
  - inversion Hw as [|? ? Hw1 Hw2]; inversion Hn as [|? ? Hn1 Hn2]; subst. simpl in *.
    destruct (psub_term_ok i e ind (pmul pone (pconst c)) He Hw1 (pmul_wf _ _) Hn1) as (t & T1 & T2 & T3).
    rewrite T1. simpl.
    destruct (IH (padd ans t)) as (r & R1 & R2 & R3); auto using padd_wf.
    exists r. split; [assumption|]. split; [assumption|]. intro m. rewrite R3.
    rewrite padd_get by (apply Ha || apply T2). rewrite T3, pmul_const_l_get by apply Tm_wf.
    unfold lin. simpl. lia.
Qed.

Lemma psubstitute_ok : forall i e p, pwf e -> pwf p -> nonneg_in i p ->
  exists r, psubstitute p i e = Ok r /\ pwf r /\
    forall m, pget r m = zlin p (fun a => pget (Tm i e a) m).
Proof.
  intros i e p He (H1 & H2 & H3) Hn.
  destruct (psubstitute_aux_ok i e p [] He H2 Hn) as (r & R1 & R2 & R3).
  { split; [constructor|]. split; constructor. }
  exists r. split; [assumption|]. split; [assumption|]. intro m. rewrite R3. reflexivity.
Qed.

Lemma psubstitute_err : forall i e p, pwf e -> pwf p -> ~ nonneg_in i p ->
  psubstitute p i e = Err AssertionError.
Proof.
  intros i e p He (_ & H2 & _) Hn. unfold psubstitute.
  assert (H : forall terms ans, Forall (fun iv : mono * Z => mwf (fst iv)) terms -> pwf ans ->
     ~ nonneg_in i terms -> psubstitute_aux i e terms ans = Err AssertionError).
  { induction terms as [|[ind c] rest IH]; intros ans Hw Ha Hnn; simpl.
    - exfalso. apply Hnn. constructor.
    - inversion Hw as [|? ? Hw1 Hw2]; subst. simpl in Hw1. destruct (Z_lt_le_dec (mget ind i) 0) as [C|C].
      + rewrite psub_term_err by assumption. reflexivity.
      + destruct (psub_term_ok i e ind (pmul pone (pconst c)) He Hw1 (pmul_wf _ _) C) as (t & T1 & T2 & _).
        rewrite T1. simpl. apply IH; [assumption|apply padd_wf; assumption|].
        intro Hr. apply Hnn. constructor; assumption. }
  apply H; [assumption| |assumption]. split; [constructor|]. split; constructor.
Qed.

Lemma Tm_mmul : forall i e a b, pwf e -> mwf a -> mwf b -> 0 <= mget a i -> 0 <= mget b i ->
  peq (Tm i e (mmul a b)) (pmul (Tm i e a) (Tm i e b)).
Proof.
  intros i e a b He Ha Hb H1 H2. unfold Tm. rewrite mget_mmul, Z2Nat.inj_add by assumption.
  assert (Hd : mdel (mmul a b) i = mmul (mdel a i) (mdel b i)).
  { apply mwf_ext; [apply mdel_wf, mmul_wf|apply mmul_wf|]. intro t.
    rewrite mget_mmul, !mget_mdel, mget_mmul. destruct (i =? t); lia. }
  rewrite Hd, <- pmul_single.
  set (A := [(mdel a i, 1)]). set (B := [(mdel b i, 1)]).
  set (n := Z.to_nat (mget a i)). set (m := Z.to_nat (mget b i)).
  assert (WA : pwf A) by (apply psingle_wf; [apply mdel_wf; assumption|discriminate]).
  assert (WB : pwf B) by (apply psingle_wf; [apply mdel_wf; assumption|discriminate]).
  pose proof (ppow_nat_wf e n) as Wn. pose proof (ppow_nat_wf e m) as Wm.
  set (En := ppow_nat e n) in *. set (Em := ppow_nat e m) in *.
  pose proof (ppow_nat_wf e (n + m)) as Wnm.
  (* (AB)(En Em) = (A En)(B Em) *)
  apply peq_trans with (pmul (pmul A B) (pmul En Em)).
  { apply pmul_ext; auto using pmul_wf, peq_refl. apply ppow_nat_add. assumption. }
  eapply peq_trans; [apply pmul_assoc; auto using pmul_wf|].
  eapply peq_trans; [|apply peq_sym, pmul_assoc; auto using pmul_wf].
  apply pmul_ext; auto using pmul_wf, peq_refl.
  eapply peq_trans; [apply peq_sym, pmul_assoc; auto using pmul_wf|].
  eapply peq_trans; [|apply pmul_assoc; auto using pmul_wf].
  apply pmul_ext; auto using pmul_wf, peq_refl. apply pmul_comm; assumption.
Qed.

Lemma zlin_ext_In : forall (p : poly) F G, (forall k, In k (map fst p) -> F k = G k) -> zlin p F = zlin p G.
Proof. intros. apply (lin_F_ext 0 Z.add Z.mul). assumption. Qed.

Lemma zlin_swap : forall (p q : poly) (G : mono -> mono -> Z),
  zlin p (fun b => zlin q (fun x => G x b)) = zlin q (fun x => zlin p (fun b => G x b)).
Proof.
  intros p q G. unfold lin.
  rewrite (lsum_ext 0 Z.add _ _ (fun kv => zlsum (fun xv => snd kv * (snd xv * G (fst xv) (fst kv))) q)).
  - rewrite (lsum_swap 0 1 Z.add Z.mul Z.sub Z.opp Zth). apply lsum_ext. intros xv _.
    rewrite <- (lsum_scale 0 1 Z.add Z.mul Z.sub Z.opp Zth). apply lsum_ext. intros kv _. ring.
  - intros kv _. rewrite (lsum_scale 0 1 Z.add Z.mul Z.sub Z.opp Zth). reflexivity.
Qed.

Lemma nonneg_in_key : forall i p k, nonneg_in i p -> In k (map fst p) -> 0 <= mget k i.
Proof.
  intros i p k H Hk. apply in_map_iff in Hk. destruct Hk as ([m c] & E & Hin). subst.
  unfold nonneg_in in H. rewrite Forall_forall in H. exact (H _ Hin).
Qed.

Lemma pwf_key : forall p k, pwf p -> In k (map fst p) -> mwf k.
Proof.
  intros p k (_ & H & _) Hk. apply in_map_iff in Hk. destruct Hk as ([m c] & E & Hin). subst.
  rewrite Forall_forall in H. exact (H _ Hin).
Qed.

(* keys of a product are products of keys; keys of a sum are keys of a summand *)
Lemma pput_keys : forall acc k v x, In x (map fst (pput acc k v)) -> x = k \/ In x (map fst acc).
Proof.
  intros acc k v x H. unfold pput in H.
  assert (H' : In x (map fst (dset meqb acc k v))).
  { destruct (v =? 0); [|assumption]. apply in_map_iff in H. destruct H as (y & E & Hy).
    apply In_ddel in Hy. subst. apply in_map. assumption. }
  apply (dset_keys_In meqb meqb_spec) in H'. tauto.
Qed.

Lemma padd_keys : forall p q x, In x (map fst (padd p q)) -> In x (map fst p) \/ In x (map fst q).
Proof.
  intros p q x. rewrite padd_eq_fold.
  assert (H : forall l acc, In x (map fst (fold_left (fun (acc : poly) (iv : mono * Z) =>
      pput acc (fst iv) (pget p (fst iv) + pget q (fst iv))) l acc)) ->
      In x (map fst acc) \/ In x (map fst l)).
  { induction l as [|[k v] l IH]; intros acc Hx; simpl in *; [tauto|].
    apply IH in Hx. destruct Hx as [Hx|Hx]; [|tauto]. apply pput_keys in Hx. intuition congruence. }
  apply H.
Qed.

Lemma pmul_keys : forall p q x, In x (map fst (pmul p q)) ->
  exists a b, In a (map fst p) /\ In b (map fst q) /\ x = mmul a b.
Proof.
  intros p q x Hx.
  destruct (in_dec (list_eq_dec (fun a b : Z * Z => ltac:(decide equality; apply Z.eq_dec))) x
     (flat_map (fun a => map (fun b => mmul a b) (map fst q)) (map fst p))) as [C|C].
  - apply in_flat_map in C. destruct C as (a & Ha & C). apply in_map_iff in C.
    destruct C as (b & E & Hb). exists a, b. auto.
  - exfalso. unfold pmul in Hx.
    assert (H1 : forall a l acc, In a (map fst p) -> incl l q ->
      In x (map fst (fold_left (fun (acc : poly) (jy : mono * Z) =>
        pmul_step acc (mmul a (fst jy)) (pget p a * pget q (fst jy))) l acc)) -> In x (map fst acc)).
    { intros a. induction l as [|[b y] l IH]; intros acc Ha Hi Hin; simpl in *; [assumption|].
      apply IH in Hin; [|assumption|intros z Hz; apply Hi; right; assumption].
      rewrite pmul_step_put in Hin. apply pput_keys in Hin. destruct Hin as [Hin|Hin]; [|assumption].
      exfalso. apply C. apply in_flat_map. exists a. split; [assumption|]. apply in_map_iff.
      exists b. split; [congruence|]. apply in_map_iff. exists (b, y). split; [reflexivity|]. apply Hi. left. reflexivity. }
    assert (H2 : forall l acc, incl l p ->
      In x (map fst (fold_left (fun (acc : poly) (ix : mono * Z) => fold_left (fun (acc : poly) (jy : mono * Z) =>
        pmul_step acc (mmul (fst ix) (fst jy)) (pget p (fst ix) * pget q (fst jy))) q acc) l acc)) -> In x (map fst acc)).
    { induction l as [|[a y] l IH]; intros acc Hi Hin; simpl in *; [assumption|].
      apply IH in Hin; [|intros z Hz; apply Hi; right; assumption].
      apply H1 in Hin; [assumption| |apply incl_refl].
      apply in_map_iff. exists (a, y). split; [reflexivity|]. apply Hi. left. reflexivity. }
    apply H2 in Hx; [destruct Hx|apply incl_refl].
Qed.

Lemma nonneg_in_keys : forall i p, (forall k, In k (map fst p) -> 0 <= mget k i) -> nonneg_in i p.
Proof. intros i p H. apply Forall_forall. intros [k c] Hin. apply H. apply in_map_iff. exists (k, c). auto. Qed.

Lemma nonneg_in_padd : forall i p q, nonneg_in i p -> nonneg_in i q -> nonneg_in i (padd p q).
Proof.
  intros i p q Hp Hq. apply nonneg_in_keys. intros k Hk. apply padd_keys in Hk.
  destruct Hk as [Hk|Hk]; [exact (nonneg_in_key _ _ _ Hp Hk)|exact (nonneg_in_key _ _ _ Hq Hk)].
Qed.

Lemma nonneg_in_pmul : forall i p q, nonneg_in i p -> nonneg_in i q -> nonneg_in i (pmul p q).
Proof.
  intros i p q Hp Hq. apply nonneg_in_keys. intros k Hk. apply pmul_keys in Hk.
  destruct Hk as (a & b & Ha & Hb & E). subst. rewrite mget_mmul.
  pose proof (nonneg_in_key _ _ _ Hp Ha). pose proof (nonneg_in_key _ _ _ Hq Hb). lia.
Qed.

Lemma psubstitute_add : forall i e p q p' q', pwf e -> pwf p -> pwf q ->
  psubstitute p i e = Ok p' -> psubstitute q i e = Ok q' ->
  exists r, psubstitute (padd p q) i e = Ok r /\ peq r (padd p' q').
Proof.
  intros i e p q p' q' He Hp Hq H1 H2.
  assert (Np : nonneg_in i p).
  { destruct (Forall_dec (fun iv => 0 <= mget (fst iv) i) (fun iv => Z_le_dec 0 (mget (fst iv) i)) p) as [C|C]; [assumption|].
    rewrite psubstitute_err in H1 by assumption. discriminate. }
  assert (Nq : nonneg_in i q).
  { destruct (Forall_dec (fun iv => 0 <= mget (fst iv) i) (fun iv => Z_le_dec 0 (mget (fst iv) i)) q) as [C|C]; [assumption|].
    rewrite psubstitute_err in H2 by assumption. discriminate. }
  destruct (psubstitute_ok i e p He Hp Np) as (p2 & A1 & A2 & A3). rewrite A1 in H1. injection H1 as <-.
  destruct (psubstitute_ok i e q He Hq Nq) as (q2 & B1 & B2 & B3). rewrite B1 in H2. injection H2 as <-.
  destruct (psubstitute_ok i e (padd p q) He (padd_wf _ _ Hp Hq) (nonneg_in_padd _ _ _ Np Nq)) as (r & R1 & R2 & R3).
  exists r. split; [assumption|]. intro m. rewrite R3, padd_get by (apply A2 || apply B2).
  rewrite A3, B3. apply zlin_padd; assumption.
Qed.

Lemma psubstitute_mul : forall i e p q p' q', pwf e -> pwf p -> pwf q ->
  psubstitute p i e = Ok p' -> psubstitute q i e = Ok q' ->
  exists r, psubstitute (pmul p q) i e = Ok r /\ peq r (pmul p' q').
Proof.
  intros i e p q p' q' He Hp Hq H1 H2.
  assert (Np : nonneg_in i p).
  { destruct (Forall_dec (fun iv => 0 <= mget (fst iv) i) (fun iv => Z_le_dec 0 (mget (fst iv) i)) p) as [C|C]; [assumption|].
    rewrite psubstitute_err in H1 by assumption. discriminate. }
  assert (Nq : nonneg_in i q).
  { destruct (Forall_dec (fun iv => 0 <= mget (fst iv) i) (fun iv => Z_le_dec 0 (mget (fst iv) i)) q) as [C|C]; [assumption|].
    rewrite psubstitute_err in H2 by assumption. discriminate. }
  destruct (psubstitute_ok i e p He Hp Np) as (p2 & A1 & A2 & A3). rewrite A1 in H1. injection H1 as <-.
  destruct (psubstitute_ok i e q He Hq Nq) as (q2 & B1 & B2 & B3). rewrite B1 in H2. injection H2 as <-.
  destruct (psubstitute_ok i e (pmul p q) He (pmul_wf _ _) (nonneg_in_pmul _ _ _ Np Nq)) as (r & R1 & R2 & R3).
  exists r. split; [assumption|]. intro m. rewrite R3.
  rewrite zlin_pmul by assumption.
  (* both sides are linear in p and q *)
  assert (HL : forall F, zlin p2 F = zlin p (fun a => zlin (Tm i e a) F)).
  { intro F. set (S := dedup meqb (map fst p2 ++ flat_map (fun a => map fst (Tm i e a)) (map fst p))).
    pose proof (dedup_NoDup meqb meqb_spec (map fst p2 ++ flat_map (fun a => map fst (Tm i e a)) (map fst p))) as HS.
    fold S in HS.
    rewrite (lin_support 0 1 Z.add Z.mul Z.sub Z.opp Zth meqb meqb_spec S p2 F); [|apply A2|exact HS|].
    2:{ intros x Hx. apply dedup_In; [exact meqb_spec|]. apply in_or_app. left. assumption. }
    transitivity (zlin p (fun a => zlsum (fun k => pget (Tm i e a) k * F k) S)).
    - rewrite (lsum_ext 0 Z.add _ _ (fun k => zlsum (fun av => snd av * (pget (Tm i e (fst av)) k * F k)) p)).
      + rewrite (lsum_swap 0 1 Z.add Z.mul Z.sub Z.opp Zth). unfold lin. apply lsum_ext. intros av _.
        rewrite (lsum_scale 0 1 Z.add Z.mul Z.sub Z.opp Zth). reflexivity.
      + intros k _. change (dget0 0 meqb p2 k) with (pget p2 k). rewrite A3. unfold lin.
        rewrite <- (lsum_scale_r 0 1 Z.add Z.mul Z.sub Z.opp Zth). apply lsum_ext. intros av _. ring.
    - apply zlin_ext_In. intros a Ha. symmetry.
      apply (lin_support 0 1 Z.add Z.mul Z.sub Z.opp Zth meqb meqb_spec); [apply Tm_wf|exact HS|].
      intros x Hx. apply dedup_In; [exact meqb_spec|]. apply in_or_app. right.
      apply in_flat_map. exists a. auto. }
  assert (HL2 : forall F, zlin q2 F = zlin q (fun a => zlin (Tm i e a) F)).
  { intro F. set (S := dedup meqb (map fst q2 ++ flat_map (fun a => map fst (Tm i e a)) (map fst q))).
    pose proof (dedup_NoDup meqb meqb_spec (map fst q2 ++ flat_map (fun a => map fst (Tm i e a)) (map fst q))) as HS.
    fold S in HS.
    rewrite (lin_support 0 1 Z.add Z.mul Z.sub Z.opp Zth meqb meqb_spec S q2 F); [|apply B2|exact HS|].
    2:{ intros x Hx. apply dedup_In; [exact meqb_spec|]. apply in_or_app. left. assumption. }
    transitivity (zlin q (fun a => zlsum (fun k => pget (Tm i e a) k * F k) S)).
    - rewrite (lsum_ext 0 Z.add _ _ (fun k => zlsum (fun av => snd av * (pget (Tm i e (fst av)) k * F k)) q)).
      + rewrite (lsum_swap 0 1 Z.add Z.mul Z.sub Z.opp Zth). unfold lin. apply lsum_ext. intros av _.
        rewrite (lsum_scale 0 1 Z.add Z.mul Z.sub Z.opp Zth). reflexivity.
      + intros k _. change (dget0 0 meqb q2 k) with (pget q2 k). rewrite B3. unfold lin.
        rewrite <- (lsum_scale_r 0 1 Z.add Z.mul Z.sub Z.opp Zth). apply lsum_ext. intros av _. ring.
    - apply zlin_ext_In. intros a Ha. symmetry.
      apply (lin_support 0 1 Z.add Z.mul Z.sub Z.opp Zth meqb meqb_spec); [apply Tm_wf|exact HS|].
      intros x Hx. apply dedup_In; [exact meqb_spec|]. apply in_or_app. right.
      apply in_flat_map. exists a. auto. }
  rewrite pmul_get_zlin by assumption. rewrite HL. apply zlin_ext_In. intros a Ha.
  transitivity (zlin q (fun b => zlin (Tm i e a) (fun x => zlin (Tm i e b) (fun y => if meqb (mmul x y) m then 1 else 0)))).
  - apply zlin_ext_In. intros b Hb. rewrite (Tm_mmul i e a b He); eauto using pwf_key, nonneg_in_key.
    apply pmul_get_zlin; apply Tm_wf.
  - transitivity (zlin (Tm i e a) (fun x => zlin q (fun b => zlin (Tm i e b) (fun y => if meqb (mmul x y) m then 1 else 0)))).
    + apply (zlin_swap q (Tm i e a)).
    + apply zlin_ext_In. intros x _. symmetry. apply HL2.
Qed.

Lemma psubstitute_monomial : forall i e a, pwf e -> mwf a -> 0 <= mget a i ->
  exists r, psubstitute [(a, 1)] i e = Ok r /\ peq r (Tm i e a).
Proof.
  intros i e a He Ha Hn.
  destruct (psubstitute_ok i e [(a, 1)] He) as (r & R1 & R2 & R3).
  - apply psingle_wf; [assumption|discriminate].
  - constructor; [assumption|constructor].
  - exists r. split; [assumption|]. intro m. rewrite R3. unfold lin, lsum. cbn [fold_right map fst snd]. ring.
Qed.

Lemma psubstitute_var : forall i e, pwf e -> exists r, psubstitute (pmonomial i 1) i e = Ok r /\ peq r e.
Proof.
  intros i e He. rewrite pmonomial_mvar.
  destruct (psubstitute_monomial i e (mvar i 1) He) as (r & R1 & R2).
  - apply mvar_wf.
  - rewrite mget_mvar, Z.eqb_refl. lia.
  - exists r. split; [assumption|]. eapply peq_trans; [exact R2|].
    unfold Tm. rewrite mget_mvar, Z.eqb_refl. unfold mvar. simpl. rewrite Z.eqb_refl. simpl.
    change [([], 1)] with pone. change (pmonomial 0 0) with pone.
    eapply peq_trans; [apply pmul_one_l; apply pmul_wf|]. apply pmul_one_r. assumption.
Qed.

Lemma psubstitute_other : forall i j k e, pwf e -> i <> j ->
  exists r, psubstitute (pmonomial j k) i e = Ok r /\ peq r (pmonomial j k).
Proof.
  intros i j k e He Hij. rewrite pmonomial_mvar.
  assert (Hz : mget (mvar j k) i = 0).
  { rewrite mget_mvar. replace (j =? i) with false by (symmetry; apply Z.eqb_neq; lia). reflexivity. }
  destruct (psubstitute_monomial i e (mvar j k) He) as (r & R1 & R2).
  - apply mvar_wf.
  - lia.
  - exists r. split; [assumption|]. eapply peq_trans; [exact R2|].
    unfold Tm. rewrite Hz. simpl. change (pmonomial 0 0) with pone.
    replace (mdel (mvar j k) i) with (mvar j k).
    + apply pmul_one_r. apply psingle_wf; [apply mvar_wf|discriminate].
    + apply mwf_ext; [apply mvar_wf|apply mdel_wf, mvar_wf|]. intro t. rewrite mget_mdel.
      destruct (i =? t) eqn:E; [|reflexivity]. apply Z.eqb_eq in E. subst. assumption.
Qed.

Lemma psubstitute_const : forall i c e, pwf e -> c <> 0 ->
  exists r, psubstitute (pconst c) i e = Ok r /\ peq r (pconst c).
Proof.
  intros i c e He Hc.
  destruct (psubstitute_ok i e (pconst c) He (pconst_wf _ Hc)) as (r & R1 & R2 & R3).
  - constructor; [|constructor]. simpl. unfold mget, dget0. simpl. lia.
  - exists r. split; [assumption|]. intro m. rewrite R3. unfold lin, pconst, lsum. cbn [fold_right map fst snd].
    unfold Tm. simpl. change (mget [] i) with 0. simpl. change [([], 1)] with pone. change (pmonomial 0 0) with pone.
    rewrite (pmul_one_r pone pone_wf m).
    unfold pget, pone, pmonomial, dget0. simpl. destruct m; simpl; lia.
Qed.

(* ---------- truncate ---------- *)
Lemma ptruncate_get : forall p d m, pwf p ->
  pget (ptruncate p d) m = if mdegree m <=? d then pget p m else 0.
Proof.
  intros p d m (Hn & _ & _). unfold ptruncate. induction p as [|[k c] p IH]; simpl.
  - unfold pget, dget0. simpl. destruct (mdegree m <=? d); reflexivity.
  - simpl in Hn. inversion Hn as [|? ? Hk Hn']; subst. specialize (IH Hn').
    destruct (meqb k m) eqn:E.
    + apply meqb_spec in E. subst k. destruct (mdegree m <=? d) eqn:Ed.
      * unfold pget, dget0. simpl. rewrite (keqb_refl_ meqb meqb_spec). reflexivity.
      * exact IH.
    + assert (H1 : forall q, pget ((k, c) :: q) m = pget q m).
      { intro q. unfold pget, dget0. simpl. rewrite E. reflexivity. }
      destruct (mdegree k <=? d); rewrite ?H1; exact IH.
Qed.

Lemma filter_pwf : forall f p, pwf p -> pwf (filter f p).
Proof.
  intros f p (H1 & H2 & H3). split; [|split].
  - apply (map_fst_filter_NoDup f). assumption.
  - apply Forall_forall. intros x Hx. apply filter_In in Hx. rewrite Forall_forall in H2. apply H2. tauto.
  - apply Forall_forall. intros x Hx. apply filter_In in Hx. rewrite Forall_forall in H3. apply H3. tauto.
Qed.

(* total exponent *)
Lemma mdegree_sum : forall m, mdegree m = zsum (map snd m).
Proof.
  intro m. unfold mdegree. assert (H : forall m a, fold_left (fun d (te : Z * Z) => d + snd te) m a = a + zsum (map snd m)).
  { induction m0 as [|[k e] m0 IH]; intro a; simpl; [unfold zsum; simpl; lia|]. rewrite IH. unfold zsum; simpl; lia. }
  rewrite H. lia.
Qed.

(* ---------- coefficient ---------- *)
Lemma mhas_spec : forall m t, mwf m -> mhas m t = negb (mget m t =? 0).
Proof.
  induction m as [|[k e] m IH]; intros t H; simpl; [reflexivity|].
  destruct (mwf_cons_inv _ _ _ H) as (H1 & H2 & H3). rewrite mget_cons, IH by assumption.
  destruct (k =? t) eqn:E; simpl; [|reflexivity]. symmetry. apply negb_true_iff, Z.eqb_neq. assumption.
Qed.

Lemma pcoefficient_get : forall p i k m, pwf p -> mwf m ->
  pwf (pcoefficient p i k) /\
  pget (pcoefficient p i k) m = if mget m i =? 0 then pget p (mmul m (mvar i k)) else 0.
Proof.
  intros p i k m (Hn & Hw & Hz) Hm. unfold pcoefficient.
  assert (H : forall l acc, pwf acc -> NoDup (map fst l) -> Forall (fun iv => mwf (fst iv)) l ->
     Forall (fun iv => snd iv <> 0) l ->
     let r := fold_left (fun x iv =>
        let term := fst iv in
        if (mhas term i && (mget term i =? k)) || ((k =? 0) && negb (mhas term i))
        then padd x [((if k =? 0 then term else mdel term i), snd iv)] else x) l acc in
     pwf r /\ pget r m = pget acc m + if mget m i =? 0 then pget l (mmul m (mvar i k)) else 0).
  { induction l as [|[t c] l IH]; intros acc Ha Hnl Hwl Hzl; simpl.
    - split; [assumption|]. unfold pget at 3. unfold dget0. simpl. destruct (mget m i =? 0); lia.
    - simpl in Hnl. inversion Hnl as [|? ? Hk Hn']; inversion Hwl as [|? ? Hw1 Hw2];
        inversion Hzl as [|? ? Hz1 Hz2]; subst. simpl in Hw1, Hz1.
      assert (Hc : ((mhas t i && (mget t i =? k)) || ((k =? 0) && negb (mhas t i))) = (mget t i =? k)).
      { rewrite mhas_spec by assumption. destruct (mget t i =? 0) eqn:E0; simpl.
        - apply Z.eqb_eq in E0. rewrite E0. rewrite andb_true_r. apply Z.eqb_sym.
        - rewrite andb_false_r, orb_false_r. reflexivity. }
      assert (Hd : (if mget t i =? k then (if k =? 0 then t else mdel t i) else t) = if mget t i =? k then mdel t i else t).
      { destruct (mget t i =? k) eqn:E1; [|reflexivity]. destruct (k =? 0) eqn:E2; [|reflexivity].
        apply Z.eqb_eq in E1, E2. apply mwf_ext; auto using mdel_wf. intro s. rewrite mget_mdel.
        destruct (i =? s) eqn:E3; [|reflexivity]. apply Z.eqb_eq in E3. subst. congruence. }
      rewrite Hc.
      assert (Hkey : (mget t i =? k) && meqb (mdel t i) m = (mget m i =? 0) && meqb t (mmul m (mvar i k))).
      { apply eq_true_iff_eq. rewrite !andb_true_iff, !Z.eqb_eq, !meqb_spec. split.
        - intros [E1 E2]. subst m. rewrite mget_mdel, Z.eqb_refl. split; [reflexivity|].
          apply mwf_ext; [assumption|apply mmul_wf|]. intro s. rewrite mget_mmul, mget_mdel, mget_mvar.
          destruct (i =? s) eqn:E3; [|lia]. apply Z.eqb_eq in E3. subst. lia.
        - intros [E1 E2]. subst t. rewrite mget_mmul, mget_mvar, Z.eqb_refl. split; [lia|].
          apply mwf_ext; [apply mdel_wf, mmul_wf|assumption|]. intro s. rewrite mget_mdel, mget_mmul, mget_mvar.
          destruct (i =? s) eqn:E3; [|lia]. apply Z.eqb_eq in E3. subst. lia. }
      assert (Hpc : pget ((t, c) :: l) (mmul m (mvar i k)) =
                    (if meqb t (mmul m (mvar i k)) then c else 0) + pget l (mmul m (mvar i k))).
      { unfold pget at 1. unfold dget0. simpl. destruct (meqb t (mmul m (mvar i k))) eqn:E3; [|reflexivity].
        apply meqb_spec in E3. subst t. rewrite (pget_notin l) by assumption. lia. }
      destruct (mget t i =? k) eqn:E.
      + rewrite Hd. assert (Ws : pwf [(mdel t i, c)]) by (apply psingle_wf; auto using mdel_wf).
        specialize (IH (padd acc [(mdel t i, c)]) (padd_wf _ _ Ha Ws) Hn' Hw2 Hz2). simpl in IH.
        destruct IH as [I1 I2]. split; [exact I1|].
        etransitivity; [exact I2|]. rewrite padd_get by (apply Ha || apply Ws).
        unfold pget at 2. unfold dget0 at 1. simpl. simpl in Hkey.
        rewrite Hpc. destruct (mget m i =? 0); simpl in Hkey; rewrite Hkey.
        * destruct (meqb t (mmul m (mvar i k))); lia.
        * lia.
      + specialize (IH acc Ha Hn' Hw2 Hz2). simpl in IH. destruct IH as [I1 I2]. split; [exact I1|].
        etransitivity; [exact I2|]. rewrite Hpc. simpl in Hkey.
        destruct (mget m i =? 0); simpl in Hkey; rewrite <- ?Hkey; lia. }
  specialize (H p [] (conj (NoDup_nil _) (conj (Forall_nil _) (Forall_nil _))) Hn Hw Hz).
  simpl in H. destruct H as [H1 H2]. split; [exact H1|]. etransitivity; [exact H2|]. reflexivity.
Qed.

(* ---------- powers ---------- *)
Lemma ppow_nonneg : forall p i, 0 <= i -> ppow p i = Some (ppow_nat p (Z.to_nat i)).
Proof.
  intros p i H. unfold ppow. destruct (i =? 0) eqn:E.
  - apply Z.eqb_eq in E. subst. reflexivity.
  - replace (i <? 0) with false by (symmetry; apply Z.ltb_ge; lia). reflexivity.
Qed.

Lemma ppow_nat_single : forall a n, mwf a ->
  exists b, mwf b /\ ppow_nat [(a, 1)] n = [(b, 1)] /\ forall t, mget b t = Z.of_nat n * mget a t.
Proof.
  intros a n Ha. induction n as [|n IH].
  - exists []. split; [split; constructor|]. split; [reflexivity|]. intro t. reflexivity.
  - destruct IH as (b & H1 & H2 & H3). exists (mmul a b). split; [apply mmul_wf|]. split.
    + simpl. rewrite H2. apply pmul_single.
    + intro t. rewrite mget_mmul, H3. lia.
Qed.

Lemma mget_scale : forall a n t, mget (map (fun te : Z * Z => (fst te, snd te * n)) a) t = mget a t * n.
Proof.
  induction a as [|[k e] a IH]; intros n t; simpl; [reflexivity|].
  rewrite !mget_cons, IH. destruct (k =? t); reflexivity.
Qed.

Lemma mscale_wf : forall a n, mwf a -> n <> 0 -> mwf (map (fun te : Z * Z => (fst te, snd te * n)) a).
Proof.
  intros a n [H1 H2] Hn. split.
  - rewrite map_map. simpl. assumption.
  - apply Forall_forall. intros x Hx. apply in_map_iff in Hx. destruct Hx as ([k e] & E & Hin).
    rewrite Forall_forall in H2. specialize (H2 _ Hin). subst. simpl in *. nia.
Qed.

(* negative powers of monomials with coefficient +1 are inverses *)
Lemma ppow_neg : forall a n, mwf a -> 0 < n ->
  exists q, ppow [(a, 1)] (- n) = Some q /\ pwf q /\ peq (pmul q (ppow_nat [(a, 1)] (Z.to_nat n))) pone.
Proof.
  intros a n Ha Hn. unfold ppow.
  replace (- n =? 0) with false by (symmetry; apply Z.eqb_neq; lia).
  replace (- n <? 0) with true by (symmetry; apply Z.ltb_lt; lia). simpl.
  eexists. split; [reflexivity|]. split.
  - apply psingle_wf; [apply mscale_wf; [assumption|lia]|discriminate].
  - destruct (ppow_nat_single a (Z.to_nat n) Ha) as (b & H1 & H2 & H3). rewrite H2, pmul_single.
    replace (mmul _ b) with (@nil (Z * Z)); [apply peq_refl|].
    apply mwf_ext; [split; constructor|apply mmul_wf|]. intro t. rewrite mget_mmul, mget_scale, H3.
    rewrite Z2Nat.id by lia. unfold mget at 1. unfold dget0. simpl. lia.
Qed.

(* coefficient -1: inverse exactly for odd exponents *)
Lemma pmul_single_gen : forall a x b y, x * y <> 0 -> pmul [(a, x)] [(b, y)] = [(mmul a b, x * y)].
Proof.
  intros a x b y H. unfold pmul. simpl. unfold pget, dget0. simpl.
  rewrite !(keqb_refl_ meqb meqb_spec). simpl. unfold pmul_step. simpl.
  apply Z.eqb_neq in H. rewrite H. reflexivity.
Qed.

Lemma ppow_nat_single_neg : forall a n, mwf a ->
  exists b, mwf b /\ ppow_nat [(a, -1)] n = [(b, if Nat.even n then 1 else -1)] /\
    forall t, mget b t = Z.of_nat n * mget a t.
Proof.
  intros a n Ha. induction n as [|n IH].
  - exists []. split; [split; constructor|]. split; [reflexivity|]. intro t. reflexivity.
  - destruct IH as (b & H1 & H2 & H3). exists (mmul a b). split; [apply mmul_wf|]. split.
    + cbn [ppow_nat]. rewrite H2. rewrite Nat.even_succ, <- Nat.negb_even.
      rewrite pmul_single_gen; destruct (Nat.even n); simpl; try reflexivity; lia.
    + intro t. rewrite mget_mmul, H3. lia.
Qed.

Lemma ppow_neg_minus : forall a n, mwf a -> 0 < n ->
  exists q, ppow [(a, -1)] (- n) = Some q /\ pwf q /\
   peq (pmul q (ppow_nat [(a, -1)] (Z.to_nat n))) (pconst (if Z.even n then -1 else 1)).
Proof.
  intros a n Ha Hn. unfold ppow.
  replace (- n =? 0) with false by (symmetry; apply Z.eqb_neq; lia).
  replace (- n <? 0) with true by (symmetry; apply Z.ltb_lt; lia). simpl.
  eexists. split; [reflexivity|]. split.
  - apply psingle_wf; [apply mscale_wf; [assumption|lia]|discriminate].
  - destruct (ppow_nat_single_neg a (Z.to_nat n) Ha) as (b & H1 & H2 & H3). rewrite H2.
    assert (Hev : Nat.even (Z.to_nat n) = Z.even n).
    { rewrite <- (Z2Nat.id n) at 2 by lia. apply eq_true_iff_eq. rewrite Nat.even_spec, Z.even_spec.
      split; intros [k Hk]; [exists (Z.of_nat k); lia|exists (Z.to_nat k); lia]. }
    rewrite Hev. rewrite pmul_single_gen by (destruct (Z.even n); discriminate).
    unfold pconst. replace (mmul _ b) with (@nil (Z * Z)).
    + destruct (Z.even n); apply peq_refl.
    + apply mwf_ext; [split; constructor|apply mmul_wf|]. intro t. rewrite mget_mmul, mget_scale, H3.
      rewrite Z2Nat.id by lia. unfold mget at 1. unfold dget0. simpl. lia.
Qed.
