(* C03 - C07 *)
From Coq Require Import List ZArith Lia Bool String Sorted.
From Verif Require Import PyBase FinSum M_Polynomials L_Polynomials L_PolySubst M_PolyHash S_Polynomials.
Import ListNotations.
Local Open Scope Z_scope.

Lemma same_ok : forall p q, canon p -> canon q -> (peqb p q = true <-> same p q).
Proof. exact peqb_spec. Qed.

Lemma expo_mget : forall m t, expo m t = mget m t.
Proof. induction m as [|[s e] m IH]; intro t; simpl; [reflexivity|]. rewrite mget_cons, IH. reflexivity. Qed.

Lemma eqp : forall p q, canon p -> canon q -> peq p q -> peqb p q = true.
Proof. intros p q Hp Hq H. apply peqb_spec; assumption. Qed.

(* monomials are multiplied by adding exponents, and are determined by their exponents *)
Lemma mono_law : forall a b t, expo (mmul a b) t = expo a t + expo b t.
Proof. intros. rewrite !expo_mget. apply mget_mmul. Qed.

Lemma mono_ext : forall a b, canon_mono a -> canon_mono b -> (forall t, expo a t = expo b t) -> a = b.
Proof. intros a b Ha Hb H. apply mwf_ext; try assumption. intro t. rewrite <- !expo_mget. apply H. Qed.

Lemma conv_eq : forall p q m,
  convolution p q m =
  FinSum.lsum 0 Z.add (fun ix => FinSum.lsum 0 Z.add (fun jy => if meqb (mmul (fst ix) (fst jy)) m then snd ix * snd jy else 0) q) p.
Proof.
  intros p q m. unfold convolution. induction p as [|ax p IH]; simpl; [reflexivity|].
  rewrite IH. f_equal. clear. induction q as [|by_ q IH]; simpl; [reflexivity|]. rewrite IH. reflexivity.
Qed.

Lemma zeroneg : forall p, canon p -> peq (padd p (pneg p)) [].
Proof.
  intros p Hp m. rewrite padd_get by (apply Hp || apply pmul_wf). rewrite pneg_get by assumption.
  change (pget [] m) with 0. lia.
Qed.

Ltac wf := repeat first [assumption | apply pmul_wf | apply padd_wf | apply ppow_nat_wf | apply pone_wf].

Theorem C03_polynomial_ring :
  (* exponent vectors: product adds exponents; canonical monomials are determined by exponents *)
  (forall a b t, expo (mmul a b) t = expo a t + expo b t) /\
  (forall a b, canon_mono a -> canon_mono b -> (forall t, expo a t = expo b t) -> a = b) /\
  (* coefficientwise meaning of + - * *)
  (forall p q m, canon p -> canon q -> coeff (padd p q) m = coeff p m + coeff q m) /\
  (forall p q m, canon p -> canon q -> coeff (psub p q) m = coeff p m - coeff q m) /\
  (forall p m, canon p -> coeff (pneg p) m = - coeff p m) /\
  (forall p q m, canon p -> canon q -> coeff (pmul p q) m = convolution p q m) /\
  (* commutative ring laws up to == *)
  (forall p q r, canon p -> canon q -> canon r ->
     peqb (padd p q) (padd q p) = true /\
     peqb (padd (padd p q) r) (padd p (padd q r)) = true /\
     peqb (padd p pzero) p = true /\
     peqb (padd p (pneg p)) pzero = true /\
     peqb (pmul p q) (pmul q p) = true /\
     peqb (pmul (pmul p q) r) (pmul p (pmul q r)) = true /\
     peqb (pmul p pone) p = true /\
     peqb (pmul p (padd q r)) (padd (pmul p q) (pmul p r)) = true /\
     peqb (pmul (padd p q) r) (padd (pmul p r) (pmul q r)) = true).
Proof.
  split; [exact mono_law|]. split; [exact mono_ext|].
  split; [intros p q m Hp Hq; apply padd_get; [apply Hp|apply Hq]|].
  split; [exact psub_get|]. split; [intros p m; apply pneg_get|].
  split; [intros p q m Hp Hq; rewrite conv_eq; apply pmul_get; [apply Hp|apply Hq]|].
  intros p q r Hp Hq Hr.
  assert (Wz : pwf pzero) by (apply pmul_wf).
  pose proof (pmul_wf p (pconst (-1))) as Wn. change (pwf (pneg p)) in Wn.
  split; [apply eqp; [apply padd_wf; assumption|apply padd_wf; assumption|]|].
  { intro m. rewrite !padd_get by (apply Hp || apply Hq). lia. }
  split; [apply eqp; [wf|wf|]|].
  { intro m. rewrite !padd_get by (apply Hp || apply Hq || apply Hr || (apply padd_wf; assumption)). lia. }
  split; [apply eqp; [wf|assumption|]|].
  { intro m. rewrite !padd_get by (apply Hp || apply Wz). rewrite pzero_get. lia. }
  split; [apply eqp; [wf|assumption|]|].
  { intro m. rewrite (zeroneg p Hp m). reflexivity. }
  split; [apply eqp; [apply pmul_wf|apply pmul_wf|apply pmul_comm; assumption]|].
  split; [apply eqp; [apply pmul_wf|apply pmul_wf|apply pmul_assoc; assumption]|].
  split; [apply eqp; [apply pmul_wf|assumption|apply pmul_one_r; assumption]|].
  split; (apply eqp; [wf|wf|]).
  - apply pmul_add_r; assumption.
  - apply pmul_add_l; assumption.
Qed.
Print Assumptions C03_polynomial_ring.

Theorem C04_polynomial_equality :
  (forall p q, canon p -> canon q -> (peqb p q = true <-> same p q)) /\
  (forall p, canon p -> (pis_zero p = true <-> forall m, coeff p m = 0)) /\
  (* + - * never store a zero coefficient, so len counts the terms *)
  (forall p q, canon p -> canon q -> canon (padd p q) /\ canon (psub p q)) /\
  (forall p q, canon (pmul p q)) /\ (forall p, canon (pneg p)) /\
  (forall i k, canon (pmonomial i k)) /\ canon pone /\ canon pzero /\
  (forall p, canon p -> pnnz p = List.length p) /\
  (forall p m, canon p -> (In m (map fst p) <-> coeff p m <> 0)).
Proof.
  split; [exact peqb_spec|]. split; [exact pis_zero_spec|].
  split; [intros p q Hp Hq; split; [apply padd_wf|apply psub_wf]; assumption|].
  split; [exact pmul_wf|]. split; [intro; apply pmul_wf|].
  split; [exact pmonomial_wf|]. split; [exact pone_wf|]. split; [apply pmul_wf|].
  assert (Hc : forall p m, canon p -> (In m (map fst p) <-> coeff p m <> 0)).
  { intros p m (H1 & H2 & H3). split.
    - intro Hin. apply in_map_iff in Hin. destruct Hin as ([k c] & E & Hin). simpl in E. subst k.
      unfold coeff. rewrite (pget_In p m c H1 Hin). rewrite Forall_forall in H3. exact (H3 _ Hin).
    - intro Hne. destruct (in_dec (list_eq_dec (fun a b : Z * Z => ltac:(decide equality; apply Z.eq_dec))) m (map fst p)) as [C|C]; [assumption|].
      exfalso. apply Hne. apply pget_notin. assumption. }
  split; [|exact Hc].
  intros p Hp. unfold pnnz.
  assert (H : forall l, incl l p -> filter (fun iv : mono * Z => negb (pget p (fst iv) =? 0)) l = l).
  { induction l as [|[k c] l IH]; intro Hi; simpl; [reflexivity|].
    assert (Hk : coeff p k <> 0).
    { apply Hc; [assumption|]. apply in_map_iff. exists (k, c). split; [reflexivity|]. apply Hi. left. reflexivity. }
    apply Z.eqb_neq in Hk. unfold coeff in Hk. rewrite Hk. simpl. f_equal. apply IH. intros x Hx. apply Hi. right. assumption. }
  rewrite H by apply incl_refl. reflexivity.
Qed.
Print Assumptions C04_polynomial_equality.

Theorem C05_powers :
  (* f ** n is the n-fold product for n >= 0, and f ** (n+m) == f**n * f**m *)
  (forall p n, 0 <= n -> ppow p n = Some (Nat.iter (Z.to_nat n) (pmul p) pone)) /\
  (forall p n m, canon p -> peqb (ppow_nat p (n + m)) (pmul (ppow_nat p n) (ppow_nat p m)) = true) /\
  (* negative powers: a monomial with coefficient 1 *)
  (forall a n, canon_mono a -> 0 < n ->
     exists q, ppow [(a, 1)] (- n) = Some q /\
       forall r, ppow [(a, 1)] n = Some r -> peqb (pmul q r) pone = true) /\
  (* a monomial with coefficient -1: inverse for odd n, MINUS the inverse for even n *)
  (forall a n, canon_mono a -> 0 < n ->
     exists q, ppow [(a, -1)] (- n) = Some q /\
       forall r, ppow [(a, -1)] n = Some r ->
         peqb (pmul q r) (pconst (if Z.even n then -1 else 1)) = true) /\
  (* everything else has no negative powers: the answer is None *)
  (forall p n, canon p -> 0 < n ->
     (ppow p (- n) = None <-> ~ exists a, p = [(a, 1)] \/ p = [(a, -1)])).
Proof.
  split; [|split; [|split; [|split]]].
  - intros p n Hn. rewrite ppow_nonneg by assumption. f_equal.
    generalize (Z.to_nat n). intro k. induction k as [|k IH]; simpl; [reflexivity|]. rewrite IH. reflexivity.
  - intros p n m Hp. apply eqp; [wf|wf|]. apply ppow_nat_add. assumption.
  - intros a n Ha Hn. destruct (ppow_neg a n Ha Hn) as (q & H1 & H2 & H3). exists q. split; [assumption|].
    intros r Hr. rewrite ppow_nonneg in Hr by lia. injection Hr as <-. apply eqp; [wf|wf|assumption].
  - intros a n Ha Hn. destruct (ppow_neg_minus a n Ha Hn) as (q & H1 & H2 & H3). exists q. split; [assumption|].
    intros r Hr. rewrite ppow_nonneg in Hr by lia. injection Hr as <-. apply eqp; [wf| |assumption].
    apply pconst_wf. destruct (Z.even n); discriminate.
  - intros p n Hp Hn. unfold ppow.
    replace (- n =? 0) with false by (symmetry; apply Z.eqb_neq; lia).
    replace (- n <? 0) with true by (symmetry; apply Z.ltb_lt; lia).
    destruct p as [|[a c] [|t p]].
    + split; [|reflexivity]. intros _ (a & [E|E]); discriminate.
    + assert (Hc0 : c <> 0).
      { destruct Hp as (_ & _ & Hp). apply Forall_inv in Hp. exact Hp. }
      destruct (1 <? Z.abs c) eqn:E.
      * apply Z.ltb_lt in E. split; [|reflexivity]. intros _ (b & [Eb|Eb]); injection Eb; intros; subst; simpl in E; lia.
      * apply Z.ltb_ge in E. split; [discriminate|]. intro H. exfalso. apply H. exists a.
        assert (Hc : c = 1 \/ c = -1) by lia. destruct Hc; subst; auto.
    + split; [|reflexivity]. intros _ (b & [E|E]); discriminate.
Qed.
Print Assumptions C05_powers.

(* f = -x_1: f**(-2) is -x_1^-2, and f**(-2) * f**2 == -1 *)
Theorem C05_negative_power_refuted :
  exists f g h, canon f /\ ppow f (-2) = Some g /\ ppow f 2 = Some h /\
    peqb (pmul g h) pone = false /\ peqb (pmul g h) (pconst (-1)) = true.
Proof.
  exists [([(1, 1)], -1)], [([(1, -2)], -1)], [([(1, 2)], 1)].
  split.
  - apply psingle_wf; [apply msingle_wf|]; discriminate.
  - vm_compute. auto.
Qed.
Print Assumptions C05_negative_power_refuted.

Theorem C06_substitution :
  forall i e, canon e ->
  (* defined exactly when no negative power of x_i occurs *)
  (forall p, canon p ->
     (Forall (fun iv => 0 <= expo (fst iv) i) p -> exists r, psubstitute p i e = Ok r /\ canon r) /\
     (~ Forall (fun iv => 0 <= expo (fst iv) i) p -> psubstitute p i e = Err AssertionError)) /\
  (forall p q p' q', canon p -> canon q -> psubstitute p i e = Ok p' -> psubstitute q i e = Ok q' ->
     (exists r, psubstitute (padd p q) i e = Ok r /\ same r (padd p' q')) /\
     (exists r, psubstitute (pmul p q) i e = Ok r /\ same r (pmul p' q'))) /\
  (exists r, psubstitute (pmonomial i 1) i e = Ok r /\ same r e) /\
  (forall j k, i <> j -> exists r, psubstitute (pmonomial j k) i e = Ok r /\ same r (pmonomial j k)) /\
  (forall c, c <> 0 -> exists r, psubstitute (pconst c) i e = Ok r /\ same r (pconst c)).
Proof.
  intros i e He.
  assert (Hn : forall p, Forall (fun iv => 0 <= expo (fst iv) i) p <-> nonneg_in i p).
  { intro p. split; intro H; (eapply Forall_impl; [|exact H]); intros a Ha; simpl in *; rewrite ?expo_mget in *; assumption. }
  split; [|split; [|split; [|split]]].
  - intros p Hp. split; intro H.
    + apply Hn in H. destruct (psubstitute_ok i e p He Hp H) as (r & R1 & R2 & _). exists r. auto.
    + apply psubstitute_err; auto. intro C. apply H. apply Hn. assumption.
  - intros p q p' q' Hp Hq H1 H2. split.
    + apply psubstitute_add; assumption.
    + apply psubstitute_mul; assumption.
  - apply psubstitute_var. assumption.
  - intros j k Hij. apply psubstitute_other; assumption.
  - intros c Hc. apply psubstitute_const; assumption.
Qed.
Print Assumptions C06_substitution.

Theorem C06_truncate_coefficient :
  (forall p d, canon p -> canon (ptruncate p d)) /\
  (forall p d m, canon p ->
     coeff (ptruncate p d) m = if zsum (map snd m) <=? d then coeff p m else 0) /\
  (* coefficient(i,k): the terms of p containing exactly x_i^k, with x_i^k removed *)
  (forall p i k m, canon p -> canon_mono m ->
     coeff (pcoefficient p i k) m =
       if expo m i =? 0 then coeff p (mmul m (if k =? 0 then [] else [(i, k)])) else 0).
Proof.
  split; [|split].
  - intros. apply filter_pwf. assumption.
  - intros p d m Hp. unfold coeff. rewrite ptruncate_get by assumption. rewrite mdegree_sum. reflexivity.
  - intros p i k m Hp Hm. rewrite expo_mget. apply pcoefficient_get; assumption.
Qed.
Print Assumptions C06_truncate_coefficient.

(* f < f is True for every f *)
Theorem C07_lt_irreflexive_refuted : forall f, canon f -> plt f f = true /\ pgt f f = true.
Proof.
  intros f Hf. assert (H : psub f f = []).
  { pose proof (psub_wf f f Hf Hf) as (H1 & H2 & H3). destruct (psub f f) as [|[k c] r] eqn:E; [reflexivity|].
    exfalso. inversion H3 as [|? ? Hc ?]; subst. simpl in Hc. apply Hc.
    rewrite <- (pget_In (psub f f) k c); [|rewrite E; assumption|rewrite E; left; reflexivity].
    rewrite psub_get by assumption. lia. }
  unfold plt, pgt. rewrite H. split; reflexivity.
Qed.
Print Assumptions C07_lt_irreflexive_refuted.

(* x_1/x_2 + x_2/x_1 summed in the two orders: equal polynomials, different hash inputs *)
Theorem C07_hash_refuted :
  exists f g, canon f /\ canon g /\ peqb (padd f g) (padd g f) = true /\
    phash_input (padd f g) <> phash_input (padd g f).
Proof.
  exists (pmul (pmonomial 1 1) (pmonomial 2 (-1))), (pmul (pmonomial 2 1) (pmonomial 1 (-1))).
  split; [apply pmul_wf|]. split; [apply pmul_wf|]. split; vm_compute; [reflexivity|discriminate].
Qed.
Print Assumptions C07_hash_refuted.

(* ---- examples: the hypotheses are satisfiable by non-trivial data ---- *)
Definition ex_f : poly := padd (pmonomial 1 2) (pmul (pmonomial 2 (-1)) (pconst 3)).  (* x1^2 + 3/x2 *)
Definition ex_g : poly := psub (pmonomial 1 1) pone.                                  (* x1 - 1 *)
Example C03_example : canon ex_f /\ canon ex_g /\
  pmul ex_f ex_g = [([(1, 3)], 1); ([(1, 2)], -1); ([(1, 1); (2, -1)], 3); ([(2, -1)], -3)].
Proof.
  split; [apply padd_wf; [apply pmonomial_wf|apply pmul_wf]|].
  split; [apply psub_wf; [apply pmonomial_wf|apply pone_wf]|]. vm_compute. reflexivity.
Qed.
Example C06_example : psubstitute ex_f 1 ex_g =
  Ok [([(1, 2)], 1); ([(1, 1)], -2); ([], 1); ([(2, -1)], 3)].
Proof. vm_compute. reflexivity. Qed.
Example C06_example_err : psubstitute ex_f 2 ex_g = Err AssertionError.
Proof. vm_compute. reflexivity. Qed.
Example C06_example_coeff : pcoefficient ex_f 2 (-1) = [([], 3)].
Proof. vm_compute. reflexivity. Qed.
Example C07_example_repr : phash_input ex_f = "3x_2^-1 + x_1^2"%string.
Proof. vm_compute. reflexivity. Qed.
