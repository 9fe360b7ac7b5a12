(* C38: symmetric polynomials as polynomials *)
From Coq Require Import List ZArith Lia Bool Permutation Sorted Arith.
From Verif Require Import PyBase FinSum M_Partitions S_Partitions L_Partitions L_PartBasic L_PartEnum M_Vectors M_Polynomials S_Polynomials L_Polynomials P_Polynomials M_Semistandard M_Symmetric S_Symmetric L_CountCache L_Count L_Count2 L_Destand L_Destand2 L_SymPoly L_SymMul.
Import ListNotations.
Local Open Scope Z_scope.

Lemma svar_variable : forall isx i, svar isx (Z.of_nat i) = variable isx i.
Proof. intros [|] i; reflexivity. Qed.
Lemma zrange_seq : forall n, zrange 1 (Z.of_nat n + 1) = map Z.of_nat (seq 1 n).
Proof.
  intro n. unfold zrange. replace (Z.to_nat (Z.of_nat n + 1 - 1)) with n by lia. rewrite <- (seq_shift n 0), map_map. apply map_ext. intro i. lia.
Qed.
Lemma nz_smon_get : forall isx (idx : list nat) e t, NoDup idx -> length idx = length e ->
  (forall i a, nth_error idx i = Some a -> mget (smon isx (combine (map Z.of_nat idx) e)) (variable isx a) = nth i e 0) /\
  ((forall a, In a idx -> variable isx a <> t) -> mget (smon isx (combine (map Z.of_nat idx) e)) t = 0).
Proof.
  intros isx idx e t N. revert e. induction idx as [|a idx IH]; intros [|x e] L; try discriminate.
  - split; [intros [|i] b H; discriminate|]. intros _. reflexivity.
  - inversion N as [|? ? N1 N2]; subst. cbn [length] in L. destruct (IH N2 e ltac:(lia)) as [I1 I2].
    assert (G : forall s, mget (smon isx (combine (map Z.of_nat (a :: idx)) (x :: e))) s = (if variable isx a =? s then x else 0) + mget (smon isx (combine (map Z.of_nat idx) e)) s).
    { intro s. cbn [map combine]. rewrite !smon_get, zs_cons. cbn [fst snd]. rewrite svar_variable. reflexivity. }
    assert (VI : forall u v, variable isx u = variable isx v -> u = v) by (intros u v; destruct isx; unfold variable; lia).
    split.
    + intros [|i] b H; cbn [nth_error nth] in *.
      * injection H as <-. rewrite G, Z.eqb_refl. rewrite smon_get, zs_zero; [lia|]. intros [u v] Hu. cbn [fst snd]. apply in_combine_l in Hu. apply in_map_iff in Hu. destruct Hu as (w & <- & Hw). rewrite svar_variable.
        replace (variable isx w =? variable isx a) with false; [reflexivity|]. symmetry. apply Z.eqb_neq. intro X. apply VI in X. subst. contradiction.
      * rewrite G, (I1 i b H). replace (variable isx a =? variable isx b) with false; [lia|]. symmetry. apply Z.eqb_neq. intro X. apply VI in X. subst. apply N1. eapply nth_error_In. exact H.
    + intro H. rewrite G, I2 by (intros; apply H; right; assumption). replace (variable isx a =? t) with false; [lia|]. symmetry. apply Z.eqb_neq. apply H. left. reflexivity.
Qed.
Lemma vmon_exponents : forall isx e, exponents isx (length e) (vmon isx e) = e.
Proof.
  intros isx e. unfold exponents, vmon. rewrite zrange_seq.
  destruct (nz_smon_get isx (seq 1 (length e)) e 0 (seq_NoDup _ _) (seq_length _ _)) as [H _].
  apply list_ext; [rewrite map_length, seq_length; reflexivity|]. intros i Hi. rewrite map_length, seq_length in Hi.
  rewrite (nth_indep _ 0 (expo (smon isx (combine (map Z.of_nat (seq 1 (length e))) e)) (variable isx 0%nat))) by (rewrite map_length, seq_length; lia).
  rewrite (map_nth (fun i => expo _ (variable isx i))). rewrite expo_mget. apply H. rewrite (nth_error_nth' _ 0%nat) by (rewrite seq_length; lia). reflexivity.
Qed.
Lemma exponents_vmon : forall isx n m, canon_mono m -> (forall t, expo m t <> 0 -> exists i, In i (seq 1 n) /\ t = variable isx i) -> vmon isx (exponents isx n m) = m.
Proof.
  intros isx n m C H. apply mwf_ext; [apply smon_wf|exact C|]. intro t. unfold vmon, exponents. rewrite map_length, seq_length, zrange_seq.
  set (e := map (fun i => expo m (variable isx i)) (seq 1 n)).
  assert (Le : length (seq 1 n) = length e) by (unfold e; rewrite map_length; reflexivity).
  destruct (nz_smon_get isx (seq 1 n) e t (seq_NoDup _ _) Le) as [G1 G2].
  destruct (in_dec Z.eq_dec t (map (variable isx) (seq 1 n))) as [I|I].
  - apply in_map_iff in I. destruct I as (i & <- & Hi). apply In_nth_error in Hi. destruct Hi as (k & Hk). rewrite (G1 k i Hk). unfold e.
    rewrite <- expo_mget. pose proof (nth_error_Some (seq 1 n) k) as X. rewrite Hk in X. assert (Lk : (k < length (seq 1 n))%nat) by (apply X; discriminate).
    rewrite (nth_indep _ 0 (expo m (variable isx 0%nat))) by (rewrite map_length; assumption). rewrite (map_nth (fun i => expo m (variable isx i))). f_equal. f_equal. apply nth_error_nth. assumption.
  - rewrite G2 by (intros a Ha E; apply I; rewrite <- E; apply in_map; assumption). rewrite <- expo_mget. destruct (Z.eq_dec (expo m t) 0) as [E|E]; [lia|]. destruct (H t E) as (i & Hi & ->). exfalso. apply I, in_map, Hi.
Qed.

(* the polynomial of a monomial symmetric function is the sum of the monomials of its type *)
Theorem C38_monomial_symmetric_function : forall ord isx n mu, (forall l, Permutation (ord l) l) -> partition mu ->
  exists p, mpolynomial ord isx (n, mu) = Ok p /\ canon p /\
    forall m, canon_mono m -> (of_type isx n mu m -> coeff p m = 1) /\ (~ of_type isx n mu m -> coeff p m = 0).
Proof.
  intros ord isx n mu Ho Pm. destruct (mpolynomial_ok ord Ho isx n mu Pm) as (p & E & W & H). exists p. split; [assumption|]. split; [exact W|].
  apply partition_desc in Pm. destruct Pm as [Fm Dm]. destruct (destandardize_spec n mu Fm Dm) as [N M].
  intros m C. unfold coeff. rewrite ev_get by apply W. rewrite H.
  assert (In_iff : In (exponents isx n m) (destandardize n mu) /\ vmon isx (exponents isx n m) = m <-> of_type isx n mu m).
  { rewrite M. unfold of_type, arr. split.
    - intros [[L P] V]. split; [exact P|]. intros t Ht. destruct (in_dec Z.eq_dec t (map (variable isx) (seq 1 n))) as [I|I].
      + apply in_map_iff in I. destruct I as (i & <- & Hi). exists i. split; [assumption|reflexivity].
      + exfalso. apply Ht. rewrite <- V, expo_mget. unfold vmon. rewrite L, zrange_seq. apply nz_smon_get; [apply seq_NoDup|rewrite seq_length; symmetry; assumption|]. intros a Ha E1. apply I. rewrite <- E1. apply in_map. assumption.
    - intros [P V]. split; [split; [unfold exponents; rewrite map_length, seq_length; reflexivity|exact P]|]. apply exponents_vmon; assumption. }
  assert (V : forall e, In e (destandardize n mu) -> vmon isx e = m -> e = exponents isx n m).
  { intros e He Ve. apply M in He. destruct He as [L _]. rewrite <- Ve, <- L. symmetry. apply vmon_exponents. }
  split.
  - intro T. apply In_iff in T. destruct T as [T1 T2]. clear -N V T1 T2. set (e0 := exponents isx n m) in *. clearbody e0. induction (destandardize n mu) as [|a l IH]; [destruct T1|]. inversion N as [|? ? N1 N2]; subst. rewrite zs_cons. destruct T1 as [->|T1].
    + rewrite meqb_refl, zs_zero; [reflexivity|]. intros x Hx. destruct (meqb (vmon isx x) (vmon isx e0)) eqn:X; [|reflexivity]. apply meqb_spec in X. apply V in X; [|right; assumption]. subst. contradiction.
    + rewrite IH; [|assumption|intros e He; apply V; right; assumption|assumption]. destruct (meqb (vmon isx a) (vmon isx e0)) eqn:X; [|reflexivity]. apply meqb_spec in X. apply V in X; [|left; reflexivity]. subst. contradiction.
  - intro T. apply zs_zero. intros e He. destruct (meqb (vmon isx e) m) eqn:X; [|reflexivity]. exfalso. apply meqb_spec in X. apply T. apply In_iff. pose proof (V e He X) as Ee. subst e. split; assumption.
Qed.

Lemma coefs_peqb : forall p q, pwf p -> pwf q -> (forall F, ev p F = ev q F) -> peqb p q = true.
Proof. intros p q Wp Wq H. apply peqb_spec; [assumption|assumption|]. apply peq_ev; [apply Wp|apply Wq|assumption]. Qed.

Section Generic.
  Context {R : Type} (rO : R) (radd rmul : R -> R -> R) (rzero : R -> bool) (rint : Z -> R) (coef : R -> poly) (rok : R -> Prop).
  Hypothesis rok_O : rok rO.
  Hypothesis rok_add : forall a b, rok a -> rok b -> rok (radd a b).
  Hypothesis rok_mul : forall a b, rok a -> rok b -> rok (rmul a b).
  Hypothesis rok_int : forall z, z <> 0 -> rok (rint z).
  Hypothesis rok_NoDup : forall a, rok a -> NoDup (map fst (coef a)).
  Hypothesis cev_O : forall F, cev coef rO F = 0.
  Hypothesis cev_add : forall a b F, rok a -> rok b -> cev coef (radd a b) F = cev coef a F + cev coef b F.
  Hypothesis cev_mul : forall a b F, rok a -> rok b -> cev coef (rmul a b) F = cev coef a (fun u => cev coef b (fun v => F (mmul u v))).
  Hypothesis cev_int : forall z F, cev coef (rint z) F = z * F [].
  Hypothesis cev_zero : forall a F, rok a -> rzero a = true -> cev coef a F = 0.

  Lemma canon_keyed : forall n f (okc : R -> Prop), (forall c, okc c -> rok c) -> sym_canon okc n f -> keyed rok n f.
  Proof. intros n f okc Ho [_ H] [k mu] c Hm. destruct (H k mu c Hm) as (H1 & H2 & H3 & H4). cbn [fst snd]. auto. Qed.

  Lemma product_generic : forall (okc : R -> Prop) ord isx n f g, (forall c, okc c -> rok c) -> (forall c, rok c -> rzero c = false -> okc c) ->
    (forall l, Permutation (ord l) l) -> sym_canon okc n f -> sym_canon okc n g ->
    exists h P Q S, smul rO radd rmul rzero rint f g = Ok h /\ sym_canon okc n h /\
      spolynomial coef ord isx f = Ok P /\ spolynomial coef ord isx g = Ok Q /\ spolynomial coef ord isx h = Ok S /\ canon S /\ peqb S (pmul P Q) = true.
  Proof.
    intros okc ord isx n f g O1 O2 Ho Cf Cg. pose proof (canon_keyed n f okc O1 Cf) as Kf. pose proof (canon_keyed n g okc O1 Cg) as Kg.
    destruct (smul_ok rO radd rmul rzero rint coef rok rok_O rok_add rok_mul rok_int cev_O cev_add cev_mul cev_int cev_zero isx n f g Kf Kg) as (h & Eh & Kh & Nh & Zh & Hh).
    destruct (spolynomial_ok coef rok rok_NoDup ord Ho isx n f Kf) as (P & EP & WP & HP).
    destruct (spolynomial_ok coef rok rok_NoDup ord Ho isx n g Kg) as (Q & EQ & WQ & HQ).
    destruct (spolynomial_ok coef rok rok_NoDup ord Ho isx n h Kh) as (S & ES & WS & HS).
    exists h, P, Q, S. split; [assumption|]. split.
    { split; [assumption|]. intros k mu c Hm. destruct (Kh _ _ Hm) as (H1 & H2 & H3 & H4). cbn [fst snd] in *. split; [assumption|]. split; [assumption|]. split; [assumption|]. apply O2; [assumption|]. rewrite Forall_forall in Zh. apply (Zh _ Hm). }
    split; [assumption|]. split; [assumption|]. split; [assumption|]. split; [exact WS|]. apply coefs_peqb; [assumption|apply pmul_wf|].
    intro F. rewrite HS, Hh, ev_pmul by (apply WP || apply WQ). rewrite HP. unfold SV. apply zs_ext. intros mc _. unfold mp. apply zs_ext. intros e _. unfold cev. apply ev_ext. intro u. rewrite HQ. reflexivity.
  Qed.
End Generic.

(* integer coefficients *)
Theorem C38_product_int : forall ord isx n f g, (forall l, Permutation (ord l) l) ->
  sym_canon nonzero_int n f -> sym_canon nonzero_int n g ->
  exists h P Q S, smul_int f g = Ok h /\ sym_canon nonzero_int n h /\
    spolynomial pconst ord isx f = Ok P /\ spolynomial pconst ord isx g = Ok Q /\ spolynomial pconst ord isx h = Ok S /\ canon S /\
    peqb S (pmul P Q) = true.
Proof.
  assert (CE : forall c F, cev pconst c F = c * F []).
  { intros c F. unfold cev, pconst. rewrite ev_zs, zs_cons, zs_nil. cbn [fst snd]. lia. }
  intros ord isx n f g Ho Cf Cg.
  apply (product_generic 0 Z.add Z.mul (fun c => c =? 0) (fun c => c) pconst (fun _ => True)) with (okc := nonzero_int); auto.
  - intros a _. cbn. repeat constructor. intros [].
  - intros a b F _ _. rewrite !CE. lia.
  - intros a b F _ _. rewrite !CE. change (mmul [] []) with ([] : mono). lia.
  - intros a F _ E. apply Z.eqb_eq in E. subst. rewrite CE. lia.
  - intros c _ E. apply Z.eqb_neq in E. exact E.
Qed.

(* Polynomial coefficients *)
Theorem C38_product_polynomial : forall ord isx n f g, (forall l, Permutation (ord l) l) ->
  sym_canon nonzero_poly n f -> sym_canon nonzero_poly n g ->
  exists h P Q S, smul_poly f g = Ok h /\ sym_canon nonzero_poly n h /\
    spolynomial (fun c => c) ord isx f = Ok P /\ spolynomial (fun c => c) ord isx g = Ok Q /\ spolynomial (fun c => c) ord isx h = Ok S /\ canon S /\
    peqb S (pmul P Q) = true.
Proof.
  intros ord isx n f g Ho Cf Cg.
  apply (product_generic [] padd pmul pis_zero pconst (fun c => c) pwf) with (okc := nonzero_poly); auto.
  - split; [constructor|split; constructor].
  - apply padd_wf.
  - intros a b _ _. apply pmul_wf.
  - intros z Hz. split; [repeat constructor; intros []|]. split; repeat constructor. assumption.
  - intros a Ha. apply Ha.
  - intros a b F Ha Hb. apply ev_padd; assumption.
  - intros a b F Ha Hb. apply ev_pmul; [apply Ha|apply Hb].
  - intros z F. unfold cev, pconst. rewrite ev_zs, zs_cons, zs_nil. cbn [fst snd]. lia.
  - intros a F Ha E. unfold cev. rewrite (ev_peq a []); [reflexivity|apply Ha|constructor|]. intro m. apply pis_zero_spec; assumption.
  - intros c Hc. apply Hc.
  - intros c Hc E. split; [exact Hc|]. intros ->. discriminate.
Qed.

(* m_{21} * m_{1} in three variables is m_{31} + 2 m_{22} + 2 m_{211} *)
Example C38_example :
  let f := [((3%nat, [2; 1]), 1)] in
  let g := [((3%nat, [1]), 1)] in
  sym_canon nonzero_int 3 f /\ sym_canon nonzero_int 3 g /\
  smul_int f g = Ok [((3%nat, [2; 1; 1]), 2); ((3%nat, [2; 2]), 2); ((3%nat, [3; 1]), 1)].
Proof.
  cbv zeta. split; [|split; [|reflexivity]].
  - split; [repeat constructor; intros []|]. intros k mu c [E|[]]. injection E as <- <- <-. split; [reflexivity|]. split; [|split; [cbn; lia|unfold nonzero_int; lia]]. apply partition_desc; split; repeat (constructor; try lia).
  - split; [repeat constructor; intros []|]. intros k mu c [E|[]]. injection E as <- <- <-. split; [reflexivity|]. split; [|split; [cbn; lia|unfold nonzero_int; lia]]. apply partition_desc; split; repeat (constructor; try lia).
Qed.
Example C38_example_poly :
  smul_poly [((2%nat, [1]), [([(0, 1)], 1)])] [((2%nat, [1]), [([(0, 1)], 1); ([], 1)])] =
  Ok [((2%nat, [1; 1]), [([(0, 2)], 2); ([(0, 1)], 2)]); ((2%nat, [2]), [([(0, 2)], 1); ([(0, 1)], 1)])] /\
  spolynomial (fun c => c) (fun l => l) true [((2%nat, [2; 1]), [([(0, 1)], 1); ([], 3)])] =
  Ok [([(0, 1); (1, 2); (2, 1)], 1); ([(1, 2); (2, 1)], 3); ([(0, 1); (1, 1); (2, 2)], 1); ([(1, 1); (2, 2)], 3)].
Proof. split; reflexivity. Qed.

Print Assumptions C38_monomial_symmetric_function.
Print Assumptions C38_product_int.
Print Assumptions C38_product_polynomial.
