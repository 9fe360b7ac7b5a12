(* The dual families: polynomials, the slow path, and expansions from the highest degree *)
From Coq Require Import List ZArith Lia Bool Permutation Arith Sorting.Sorted.
From Verif Require Import PyBase FinSum M_Partitions S_Partitions L_Partitions L_PartBasic L_PartMore L_PartEnum L_Destand L_Destand2 M_Vectors L_Vectors M_Polynomials S_Polynomials L_Polynomials P_Polynomials L_PolySubst
  M_Tableaux S_Tableaux L_Tableaux S_Strips M_RPP S_RPP M_Semistandard S_Semistandard L_Strips2 L_Shape L_Semi L_Semi2 L_Semi3 L_Semi4 L_Semi5 L_Count L_Count2 L_Count3 L_CountCache M_Symmetric S_Symmetric M_Expansion S_Expansion M_Slow M_Families M_Dual
  L_SymPoly L_SymMul L_Growth L_Kostka L_Num L_Expand1 L_Expand2 L_Expand3 L_Expand4 L_Expand5 L_Expand6 L_Expand7 P_Symmetric P_Expansion P_Semistandard P_Count L_Sym1 L_Sym2 L_Sym3 L_Sym4 L_Sym5 L_Sym6 L_Sym8 L_Sym11 L_Slow P_Symmetry L_Insertion6 L_Families L_Families2 P_Families L_ShiftTri L_RPP1 L_RPP2 L_RPP3 L_RPP4 P_RPP L_RPP6 L_Dual L_Dual2 S_Dual.
Import ListNotations.
Local Open Scope Z_scope.
Local Notation sg := (nget smono_eqb).
Local Notation lg := (nget zlist_eqb).

Lemma fwf_sym_canon : forall n f, fwf n (fits n) f -> sym_canon beta_num n f.
Proof.
  intros n f [[N H] K]. split; [assumption|]. intros k mu c Hin. destruct (K (k, mu)) as (K1 & K2 & K3); [apply (in_map fst) in Hin; exact Hin|]. cbn [fst snd] in *. subst k. split; [reflexivity|]. split; [apply K2|]. split; [apply K2|].
  rewrite Forall_forall in H. specialize (H _ Hin). cbn [snd] in H. rewrite (nget_In smono_eqb smono_eqb_eq f (n, mu) c N Hin) in K3. split; [apply num_canon_ok; assumption|apply beta_only_pure; [apply H|assumption]].
Qed.
Lemma dual_fwf : forall n k N g, dual_counts n k N g -> fwf n (fits n) g.
Proof.
  intros n k N g (W & K & _ & H). split; [assumption|]. intros m Hm. destruct (K m Hm) as [K1 K2]. split; [assumption|]. split; [assumption|].
  destruct m as [n' alpha]. cbn [fst snd] in *. subst n'. intros G HG. rewrite H by assumption. rewrite HG. lia.
Qed.
Lemma signed_alt : forall e N, signed e N = alt e * N.
Proof. intros e N. unfold signed, alt. destruct (Z.even e); lia. Qed.
Lemma canon_mvar : forall m e, canon_mono m -> ((forall t, expo m t = if t =? 0 then e else 0) <-> m = mvar 0 e).
Proof.
  intros m e C. split.
  - intro H. apply mwf_ext; [exact C|apply mvar_wf|]. intro t. rewrite mget_mvar, <- expo_mget, H, (Z.eqb_sym t 0). reflexivity.
  - intros -> t. rewrite expo_mget, mget_mvar, (Z.eqb_sym t 0). reflexivity.
Qed.
Lemma beta_term_ev : forall c e x, nok x -> (forall G, nev x G = c * G (mvar 0 e)) -> beta_term c e x.
Proof.
  intros c e x Ox H m C. rewrite ncoeff_nev by assumption. rewrite H. split.
  - intro E. apply (canon_mvar m e C) in E. subst m. replace (meqb (mvar 0 e) (mvar 0 e)) with true by (symmetry; apply meqb_spec; reflexivity). cbn [ind]. lia.
  - intro E. destruct (meqb (mvar 0 e) m) eqn:Em; [|cbn [ind]; lia]. exfalso. apply meqb_spec in Em. apply E. apply (canon_mvar m e C). symmetry. assumption.
Qed.
Lemma dual_coeffs : forall n k N g (W : list Z -> tab -> Prop) Q, dual_counts n k N g ->
  (forall p, fits n p -> cardinality (fun T => Q T /\ W p T) (N p)) -> (forall p, fits n p -> N p <> 0 -> zsum p <= k) -> dual_coefficients n k W Q g.
Proof.
  intros n k N g W Q D C B. split; [apply fwf_sym_canon, (dual_fwf n k N), D|]. intros alpha Pa La. exists (N alpha). split; [apply C; split; assumption|]. split; [apply B; split; assumption|].
  destruct D as (Wg & _ & _ & H). apply beta_term_ev; [apply nget_ok, nvwf_oks; assumption|]. intro G. unfold at_monomial. rewrite H by (split; assumption). rewrite signed_alt. reflexivity.
Qed.

Lemma monomial_form : forall isx n m (h : Z -> Z), canon_mono m -> let e0 := exponents isx n m in
  (in_variables true isx n m /\ expo m 0 = h (zsum e0) <-> m = mmul (vmon isx e0) (mvar 0 (h (zsum e0)))).
Proof.
  intros isx n m h C e0. assert (L0 : length e0 = n) by (unfold e0, exponents; rewrite map_length, seq_length; reflexivity).
  assert (Vz : forall i, In i (seq 1 n) -> variable isx i <> 0) by (intros i Hi; apply in_seq in Hi; unfold variable; destruct isx; lia).
  split.
      - intros [Vm E]. apply mwf_ext; [exact C|apply mmul_wf|]. intro t. rewrite mget_mmul, mget_mvar, <- !expo_mget. destruct (Z.eqb_spec 0 t) as [<-|Nt].
        + rewrite E, (expo_mget (vmon isx e0) 0), vmon_zero. lia.
        + destruct (in_dec Z.eq_dec t (map (variable isx) (seq 1 n))) as [I|I].
          * apply in_map_iff in I. destruct I as (i & <- & Hi). pose proof (vmon_exponents isx e0) as Q. rewrite L0 in Q. unfold e0 in Q at 2. unfold exponents in Q.
            assert (Q' : expo (vmon isx e0) (variable isx i) = expo m (variable isx i)); [|lia]. clear -Q Hi. induction (seq 1 n) as [|a l IH]; [destruct Hi|]. cbn [map] in Q. injection Q as Q1 Q2. destruct Hi as [->|Hi]; [assumption|apply IH; assumption].
          * assert (Z1 : expo m t = 0). { destruct (Z.eq_dec (expo m t) 0) as [Z0|Z0]; [assumption|]. destruct (Vm t Z0) as [[_ ->]|(i & Hi & ->)]; [contradiction|]. exfalso. apply I, in_map, Hi. }
            rewrite Z1, expo_mget. unfold vmon. rewrite L0, zrange_seq. rewrite (proj2 (nz_smon_get isx (seq 1 n) e0 t (seq_NoDup _ _) ltac:(rewrite seq_length; symmetry; exact L0))); [reflexivity|]. intros a Ha E1. apply I. rewrite <- E1. apply in_map. assumption.
      - intro E. assert (Ex : forall t, expo m t = mget (vmon isx e0) t + (if 0 =? t then h (zsum e0) else 0)) by (intro t; rewrite E at 1; rewrite expo_mget, mget_mmul, mget_mvar; reflexivity).
        split; [|rewrite Ex, vmon_zero; reflexivity]. intros t Ht. destruct (Z.eq_dec t 0) as [Et|Et]; [left; split; [reflexivity|assumption]|]. rewrite Ex in Ht. replace (0 =? t) with false in Ht by (symmetry; apply Z.eqb_neq; lia). right.
        destruct (in_dec Z.eq_dec t (map (variable isx) (seq 1 n))) as [I|I]; [apply in_map_iff in I; destruct I as (i & <- & Hi); exists i; split; [assumption|reflexivity]|].
        exfalso. apply Ht. rewrite Z.add_0_r. unfold vmon. rewrite L0, zrange_seq. rewrite (proj2 (nz_smon_get isx (seq 1 n) e0 t (seq_NoDup _ _) ltac:(rewrite seq_length; symmetry; exact L0))); [reflexivity|]. intros a Ha E1. apply I. rewrite <- E1. apply in_map. assumption.
Qed.

Lemma dual_polynomial : forall pord isx n k N g (W : list Z -> tab -> Prop) Q, (forall l, Permutation (pord l) l) -> dual_counts n k N g ->
  (forall e, length e = n -> Forall (fun x => 0 <= x) e -> cardinality (fun T => Q T /\ W e T) (N (psort e true))) ->
  (forall e T, length e = n -> W e T -> Forall (fun x => 0 <= x) e) ->
  exists P, spolynomial num_terms pord isx g = Ok P /\ generates_dual isx n k W Q P.
Proof.
  intros pord isx n k N g W Q Hp (Wg & Kg & _ & Hg) HN HW.
  destruct (nsym_polynomial pord isx n g (fun p => alt (k - zsum p) * N p) (fun z => k - z) Hp Wg Kg Hg) as (P & EP & CP & H). exists P. split; [assumption|]. split; [assumption|]. intros m C. destruct (H m C) as [H1 H2]. clear H.
  set (e0 := exponents isx n m) in *. assert (L0 : length e0 = n) by (unfold e0, exponents; rewrite map_length, seq_length; reflexivity).
  pose proof (monomial_form isx n m (fun z => k - z) C) as V. fold e0 in V. cbv beta in V. split.
  - intro Vm. destruct (Forall_dec (fun x => 0 <= x) (Z_le_dec 0) e0) as [F0|F0].
    + exists (N (psort e0 true)). split; [apply HN; assumption|]. change (size e0) with (zsum e0). destruct (Z.eqb_spec (expo m 0) (k - zsum e0)) as [Eh|Eh].
      * rewrite (H1 F0 (proj1 V (conj Vm Eh))). destruct (sort_arr n e0 L0 F0) as (_ & _ & Sz & _). rewrite Sz, Eh, signed_alt. reflexivity.
      * rewrite H2 by (intros [_ X]; apply Eh; apply V; assumption). reflexivity.
    + exists 0. split; [exists []; split; [constructor|]; split; [|reflexivity]; intro T; split; [intros []|]; intros [_ X]; destruct (F0 (HW e0 T L0 X))|].
      rewrite H2 by (intros [X _]; contradiction). unfold signed. destruct (_ =? _); [destruct (Z.even _)|]; reflexivity.
  - intro Vm. apply H2. intros [_ X]. apply Vm. apply V. assumption.
Qed.

(* ---------- the slow path ---------- *)
Section SlowBy.
  Variable weight : tab -> nat -> res (list Z).
  Variable n : nat.
  Variable W : list Z -> tab -> Prop.
  Variable R : list tab.
  Hypothesis HR : forall T, In T R -> exists w, weight T n = Ok w /\ length w = n /\ Forall (fun x => 0 <= x) w /\ forall alpha, length alpha = n -> (W alpha T <-> w = alpha).
  Hypothesis NR : NoDup R.

  Lemma slow_by_counts : exists D, slow_counts_by weight n R = Ok D /\ NoDup (map fst D) /\ (forall a, In a (map fst D) -> length a = n /\ Forall (fun x => 0 <= x) a /\ cget D a <> 0) /\
    forall alpha, length alpha = n -> cardinality (fun T => In T R /\ W alpha T) (cget D alpha).
  Proof.
    unfold slow_counts_by.
    assert (G : forall l d, NoDup l -> (forall t, In t l -> In t R) -> NoDup (map fst d) -> (forall a, In a (map fst d) -> length a = n /\ Forall (fun x => 0 <= x) a /\ 0 < cget d a) -> (forall a, 0 <= cget d a) ->
      exists D, rfold (fun d t => do w <- weight t n; Ok (cincr d w 1)) l d = Ok D /\ NoDup (map fst D) /\ (forall a, In a (map fst D) -> length a = n /\ Forall (fun x => 0 <= x) a /\ 0 < cget D a) /\
        forall alpha, length alpha = n -> exists c, cget D alpha = cget d alpha + c /\ cardinality (fun T => In T l /\ W alpha T) c).
    { induction l as [|t l IH]; intros d Nl Hl N Hk H0.
      - exists d. split; [reflexivity|]. split; [assumption|]. split; [assumption|]. intros alpha La. exists 0. split; [lia|]. exists []. split; [constructor|]. split; [|reflexivity]. intro T. split; [intros []|]. intros [[] _].
      - inversion Nl as [|? ? N1 N2]; subst. cbn [rfold]. destruct (HR t (Hl t (or_introl eq_refl))) as (w & Ew & Lw & Fw & Hw). rewrite Ew. cbn [rbind].
        destruct (IH (cincr d w 1)) as (D & E1 & E2 & E3 & E4).
        + assumption.
        + intros u Hu. apply Hl. right. assumption.
        + unfold cincr. apply (dset_NoDup zlist_eqb zlist_eqb_eq). assumption.
        + intros a Ha. rewrite cget_cincr. pose proof (H0 a). unfold cincr in Ha. apply (dset_keys_In zlist_eqb zlist_eqb_eq) in Ha. destruct (zlist_eqb w a) eqn:Ewa.
          * apply zlist_eqb_eq in Ewa. subst a. split; [assumption|]. split; [assumption|]. lia.
          * destruct Ha as [->|Ha]; [rewrite zlist_eqb_refl in Ewa; discriminate|]. destruct (Hk a Ha) as (A1 & A2 & A3). split; [assumption|]. split; [assumption|]. lia.
        + intro a. rewrite cget_cincr. specialize (H0 a). destruct (zlist_eqb w a); lia.
        + exists D. split; [assumption|]. split; [assumption|]. split; [assumption|]. intros alpha La. destruct (E4 alpha La) as (c & Ec & Cc). rewrite cget_cincr in Ec. destruct (zlist_eqb w alpha) eqn:E.
          * apply zlist_eqb_eq in E. exists (1 + c). split; [rewrite Ec; lia|]. destruct Cc as (r & Nr & Hr & Lr). exists (t :: r). split; [constructor; [|assumption]; intro I; apply Hr in I; apply N1, I|]. split; [|cbn [length]; lia].
            intro T. cbn [In]. rewrite Hr. split; [intros [<-|[I X]]; [split; [left; reflexivity|apply Hw; assumption]|split; [right; assumption|assumption]]|]. intros [[->|I] X]; [left; reflexivity|right; split; assumption].
          * exists c. split; [rewrite Ec; lia|]. refine (counts_ext _ _ _ _ _ _ eq_refl Cc). intro T. cbn [In]. split; [intros [I X]; split; [right; assumption|assumption]|]. intros [[->|I] X]; [|split; assumption]. apply Hw in X; [|assumption]. apply zlist_eqb_eq in X. congruence. }
    destruct (G R [] NR (fun t h => h) (NoDup_nil _)) as (D & E1 & E2 & E3 & E4); [intros a []|intro a; unfold cget; cbn [dget]; lia|].
    exists D. split; [assumption|]. split; [assumption|]. split; [intros a Ha; destruct (E3 a Ha) as (A1 & A2 & A3); split; [assumption|]; split; [assumption|lia]|]. intros alpha La. destruct (E4 alpha La) as (c & -> & C). unfold cget at 1. cbn [dget]. rewrite Z.add_0_l. assumption.
  Qed.

  (* slow_vectorize_by either raises because the counts are not symmetric, or returns the coefficients *)
  Lemma slow_by_vec : forall check, (exists f, slow_vectorize_by weight n R (Some neg_inv_beta_pow) check = Ok f /\ nvwf f /\ (forall m, In m (map fst f) -> fst m = n /\ fits n (snd m)) /\
      forall p, fits n p -> exists c, cardinality (fun T => In T R /\ W (padz p n) T) c /\ forall G, nev (sg f (n, p)) G = alt (zsum p) * c * G (mvar 0 (- zsum p))) \/
    (slow_vectorize_by weight n R (Some neg_inv_beta_pow) check = Err AssertionError /\ check = true /\
      exists a, length a = n /\ exists c c', cardinality (fun T => In T R /\ W (psort a false) T) c /\ cardinality (fun T => In T R /\ W a T) c' /\ c <> c').
  Proof.
    intro check. destruct slow_by_counts as (D & E & N & K & C). unfold slow_vectorize_by. rewrite E. cbn [rbind].
    destruct (check && negb (slow_check D)) eqn:Chk.
    - right. split; [reflexivity|]. apply andb_true_iff in Chk. destruct Chk as [-> Chk]. split; [reflexivity|]. apply negb_true_iff in Chk. unfold slow_check in Chk.
      assert (Q : exists a, In a (map fst D) /\ cget D (psort a false) <> cget D a).
      { clear -Chk. induction (map fst D) as [|a l IH]; [discriminate|]. cbn [forallb] in Chk. destruct (Z.eqb_spec (cget D (psort a false)) (cget D a)) as [X|X]; [destruct (IH Chk) as (b & B1 & B2); exists b; split; [right; assumption|assumption]|exists a; split; [left; reflexivity|assumption]]. }
      destruct Q as (a & Ha & Hne). destruct (K a Ha) as [La _]. exists a. split; [assumption|]. exists (cget D (psort a false)), (cget D a). split; [apply C; rewrite (Permutation_length (psort_perm a)); assumption|]. split; [apply C; assumption|assumption].
    - left. assert (SO : forall alpha c, nok (slow_coeff (Some neg_inv_beta_pow) alpha c)) by (intros; apply nok_mul).
      destruct (slow_loop (Some neg_inv_beta_pow) SO n D [] N (fun a Ha => proj1 (K a Ha))) as (r & E1 & E2 & E3 & E4 & E5); [constructor|constructor|intros m []|].
      rewrite E1. cbn [rbind]. exists (vmake nzero r). split; [reflexivity|]. split; [apply vmake_nvwf; assumption|]. split.
      + intros m Hm. apply E4. apply in_map_iff in Hm. destruct Hm as (x & <- & Hx). apply in_map. apply filter_In in Hx. apply Hx.
      + intros p Fp. exists (cget D (padz p n)). split; [apply C, padz_length, Fp|]. intro G. rewrite (vmake_get smono_eqb smono_eqb_eq r _ E2 E3), (E5 p Fp), cget_dget.
        destruct (dget zlist_eqb D (padz p n)) as [c|]; [|rewrite nget_nil; cbn [nev]; lia].
        assert (Ez : zsum (padz p n) = zsum p) by apply size_padz. assert (0 <= zsum p) by (apply zsum_pos_nonneg; apply Fp).
        cbn [slow_coeff]. rewrite nev_mul by (try exact I; apply neg_inv_wf). cbn [nev]. rewrite Ez, neg_inv_ev, mmul_nil_l by apply mvar_wf. unfold altn. replace (zsum p <? 0) with false by (symmetry; apply Z.ltb_ge; lia). lia.
  Qed.
End SlowBy.

(* ---------- expansions from the highest degree ---------- *)
Section FamilyHi.
  Variable n : nat.
  Variable F : nat -> list Z -> res nsym.
  Variable K : list Z -> list Z -> Z.
  Hypothesis HF : forall mu, partition mu -> F n mu = Ok (Fv n F mu) /\ nvwf (Fv n F mu) /\
    (forall m, In m (map fst (Fv n F mu)) -> fst m = n /\ fits n (snd m)) /\
    forall alpha G, fits n alpha -> nev (sg (Fv n F mu) (n, alpha)) G = K mu alpha * G (mvar 0 (size mu - size alpha)).
  Hypothesis HK : forall mu alpha, partition mu -> fits n alpha -> K mu alpha <> 0 -> alpha = mu \/ after true mu alpha.
  Hypothesis HK1 : forall mu, fits n mu -> K mu mu = 1.

  Lemma hi_in : forall mu alpha, partition mu -> In (n, alpha) (map fst (Fv n F mu)) -> fits n alpha /\ K mu alpha <> 0.
  Proof.
    intros mu alpha Pm Hin. destruct (HF mu Pm) as (_ & W & D & E). destruct (D _ Hin) as [_ Fa]. cbn [snd] in Fa. split; [assumption|]. intro Z0.
    pose proof (proj1 (nget_nonzero smono_eqb smono_eqb_eq _ _ W) Hin) as Z1. assert (Z2 : nzero (sg (Fv n F mu) (n, alpha)) = true); [|congruence].
    apply nzero_spec; [apply nget_ok, nvwf_oks; assumption|]. intro G. rewrite E by assumption. rewrite Z0. lia.
  Qed.
  Lemma hi_fwf : forall p, fits n p -> F n p = Ok (Fv n F p) /\ fwf n (fits n) (Fv n F p).
  Proof.
    intros p [Pp Lp]. destruct (HF p Pp) as (E & W & D & H). split; [assumption|]. split; [assumption|]. intros m Hm. destruct (D m Hm) as [D1 D2]. split; [assumption|]. split; [assumption|].
    destruct m as [n' alpha]. cbn [fst snd] in *. subst n'. intros G HG. rewrite H by assumption. rewrite HG. lia.
  Qed.
  Lemma hi_lead : forall p, fits n p -> neqv (sg (Fv n F p) (n, p)) (NI 1) /\ 1 <> 0.
  Proof.
    intros p Fp. split; [|lia]. intro G. destruct (HF p (proj1 Fp)) as (_ & _ & _ & H). rewrite H by assumption. rewrite HK1 by assumption. cbn [nev]. rewrite Z.sub_diag. reflexivity.
  Qed.
  Lemma hi_tri : forall p q, fits n p -> In (n, q) (map fst (Fv n F p)) -> q = p \/ after true p q.
  Proof. intros p q Fp Hin. destruct (hi_in p q (proj1 Fp) Hin) as [Fq Hk]. apply HK; [apply Fp|assumption|assumption]. Qed.
  Lemma hi_box : forall l, (forall q, In q l -> fits n q) -> exists B, incl l B /\ forall p q, In p B -> fits n p -> In (n, q) (map fst (Fv n F p)) -> In q B.
  Proof.
    intros l Hl.
    assert (Le : forall q m, fits n q -> zsum q <= m -> In q (filter (fun q => zsum q <=? m) (lists_upto n m))).
    { intros q m [Pq Lq] Hm. apply filter_In. split; [|apply Z.leb_le; assumption]. apply lists_upto_In. split; [assumption|]. destruct Pq as [Pq _]. clear Lq Hl. revert m Hm. induction Pq as [|a q A Pq IH]; intros m Hm; [constructor|].
      assert (0 <= zsum q) by (apply zsum_pos_nonneg; assumption). change (zsum (a :: q)) with (a + zsum q) in Hm. constructor; [lia|]. apply IH. lia. }
    assert (M : exists m, forall q, In q l -> zsum q <= m).
    { clear. induction l as [|a l (m & M2)]; [exists 0; intros q []|]. exists (Z.max m (zsum a)). intros q [<-|Hq]; [lia|]. specialize (M2 q Hq). lia. }
    destruct M as (m & M2). exists (filter (fun q => zsum q <=? m) (lists_upto n m)). split; [intros q Hq; apply Le; [apply Hl; assumption|apply M2; assumption]|].
    intros p q Hp Fp Hin. destruct (hi_in p q (proj1 Fp) Hin) as [Fq _]. apply filter_In in Hp. destruct Hp as [_ Hp]. apply Z.leb_le in Hp. apply Le; [assumption|]. destruct (hi_tri p q Fp Hin) as [->|[H|[H _]]]; [assumption| |]; lia.
  Qed.
  Theorem hi_expansion : forall f, fwf n (fits n) f -> outcome true n F (fits n) f.
  Proof.
    intros f Wf. apply (expansion_main true n F (fits n) (fits n) (fun _ => 1) hi_fwf hi_lead hi_tri hi_box (fun _ => True)); [|assumption|exact I].
    intros f0 p k W0 _ [L1 _] _. split; [apply (proj2 W0 _ L1)|]. eexists. split; [symmetry; apply Z.mul_1_r|]. intros; exact I.
  Qed.
  Theorem hi_unique : forall v w, vok (fits n) v -> vok (fits n) w -> (forall alpha G, recon n F v alpha G = recon n F w alpha G) -> forall mu, neqv (lg v mu) (lg w mu).
  Proof. exact (recon_inj true n F (fits n) (fun _ => 1) hi_lead hi_tri). Qed.

  Lemma hi_total : forall f, sym_canon beta_num n f -> exists v basis N, idx_canon n v /\
    (forall fuel, (N <= fuel)%nat -> expansion F term_from_highest_degree fuel f = Ok v) /\
    (forall mu, partition mu -> F n mu = Ok (basis mu)) /\
    forall alpha m, combination basis v (n, alpha) m = ncoeff (at_monomial f n alpha) m.
  Proof.
    intros f Cf. pose proof (sym_canon_fwf n f Cf) as Wf. destruct (hi_expansion f Wf) as (v & N & Vv & Rv & Ev). exists v, (Fv n F), N. split; [apply idx_canon_vok; assumption|]. split; [exact Ev|]. split; [intros mu Pm; apply (HF mu Pm)|].
    intros alpha m. rewrite combination_recon, Rv. symmetry. apply ncoeff_nev. eapply fwf_ok. exact Wf.
  Qed.
  Lemma hi_coefficients : forall f c basis, sym_canon beta_num n f -> idx_canon n c ->
    (forall mu, partition mu -> F n mu = Ok (basis mu)) ->
    (forall alpha m, combination basis c (n, alpha) m = ncoeff (at_monomial f n alpha) m) ->
    exists v N, (forall fuel, (N <= fuel)%nat -> expansion F term_from_highest_degree fuel f = Ok v) /\
      forall mu m, ncoeff (at_index v mu) m = ncoeff (at_index c mu) m.
  Proof.
    intros f c basis Cf Cc Hb Hc. pose proof (sym_canon_fwf n f Cf) as Wf. pose proof (proj1 (idx_canon_vok n c) Cc) as Vc. destruct (hi_expansion f Wf) as (v & N & Vv & Rv & Ev). exists v, N. split; [exact Ev|].
    assert (R : forall alpha G, recon n F v alpha G = recon n F c alpha G).
    { destruct (combine_loop n F (fits n) (fits n) hi_fwf c None) as (e & C1 & C2 & C3 & C4).
      - intros mu y Hin. destruct (proj2 Cc mu y Hin) as (P & L & Q1 & Q2). split; [split; assumption|]. apply num_canon_ok in Q1 as Q3. split; [apply Q3|]. apply beta_only_pure; [apply Q3|assumption].
      - apply fwf_nil.
      - intros alpha G. rewrite Rv. assert (E : recon n F c alpha G = nev (nget smono_eqb (accv e) (n, alpha)) G) by (rewrite C4; cbn [accv]; rewrite nget_nil; cbn [nev]; lia). rewrite E. apply ncoeff_eqv; [eapply fwf_ok; exact Wf|eapply fwf_ok; exact C3|].
        intro m. rewrite (ncoeff_nev (nget smono_eqb (accv e) (n, alpha))) by (eapply fwf_ok; exact C3). rewrite C4. cbn [accv]. rewrite nget_nil. cbn [nev]. etransitivity; [symmetry; apply (Hc alpha m)|].
        rewrite <- combination_recon. rewrite Z.mul_0_l, Z.add_0_l. apply combination_ext. intros mu y Hin. destruct (proj2 Cc mu y Hin) as (P & _). specialize (Hb mu P). rewrite (proj1 (HF mu P)) in Hb. injection Hb as ->. reflexivity. }
    intros mu m. unfold at_index. rewrite !ncoeff_nev by (apply nget_ok, nvwf_oks; [apply Vv || apply Vc]). apply (hi_unique v c Vv Vc R).
  Qed.
End FamilyHi.

(* changing the sign of beta *)
Lemma dual_negatable : forall n k N g, dual_counts n k N g -> (forall p, fits n p -> N p <> 0 -> zsum p <= k) -> negatable g.
Proof.
  intros n k N g (Wg & Kg & Np & Hg) Hk. apply Forall_forall. intros [key x] Hin. rewrite Forall_forall in Np. destruct (Np _ Hin) as (v & Ev). cbn [snd] in *. subst x. exists v. split; [reflexivity|].
  assert (Wv : pwf v) by (destruct Wg as [_ Wg]; rewrite Forall_forall in Wg; apply (Wg _ Hin)).
  assert (Eg : sg g key = NP v) by (apply (nget_In smono_eqb smono_eqb_eq); [apply Wg|assumption]).
  destruct key as [n' p]. destruct (Kg (n', p)) as [E Fp]; [apply (in_map fst) in Hin; exact Hin|]. cbn [fst snd] in *. subst n'.
  apply Forall_forall. intros [m c] Hm. cbn [fst]. assert (Ec : pget v m = c). { unfold pget, dget0. rewrite (In_dget meqb meqb_spec v m c (proj1 Wv) Hm). reflexivity. }
  assert (Nc : c <> 0). { destruct Wv as (_ & _ & W3). rewrite Forall_forall in W3. apply (W3 _ Hm). }
  assert (X : ncoeff (sg g (n, p)) m = c) by (rewrite Eg; exact Ec). rewrite ncoeff_nev in X by (apply nget_ok, nvwf_oks; assumption). rewrite (Hg p _ Fp) in X.
  destruct (meqb (mvar 0 (k - zsum p)) m) eqn:Em; [|cbn [ind] in X; lia]. apply meqb_spec in Em. subst m. rewrite mget_mvar. cbn [Z.eqb]. cbn [ind] in X.
  assert (Nw : N p <> 0) by (intro Z0; rewrite Z0 in X; lia). specialize (Hk p Fp Nw). lia.
Qed.
Lemma dual_negated : forall n k N g, dual_counts n k N g -> (forall p, fits n p -> N p <> 0 -> zsum p <= k) ->
  exists g', negate_beta g = Ok g' /\ nvwf g' /\ (forall m, In m (map fst g') -> fst m = n /\ fits n (snd m)) /\
    (forall key m, ncoeff (sg g' key) m = sgn0 m * ncoeff (sg g key) m) /\
    forall p G, fits n p -> nev (sg g' (n, p)) G = N p * G (mvar 0 (k - zsum p)).
Proof.
  intros n k N g D Hk. pose proof (dual_negatable n k N g D Hk) as Ng. destruct D as (Wg & Kg & Np & Hg).
  destruct (negate_beta_ok g Wg Ng) as (g' & E' & W' & K' & H'). exists g'. split; [assumption|]. split; [assumption|]. split; [intros m Hm; apply Kg, K'; assumption|]. split; [assumption|].
  intros p G Fp. assert (Y : neqv (sg g' (n, p)) (nmul (NI (N p)) (NP (beta_pow (k - zsum p))))).
  { apply ncoeff_eqv; [apply nget_ok, nvwf_oks; assumption|apply nok_mul|]. intro m. rewrite H', !ncoeff_nev by (try apply nok_mul; apply nget_ok, nvwf_oks; assumption). rewrite (Hg p _ Fp). rewrite nev_mul by (try exact I; apply beta_pow_wf). cbn [nev]. rewrite beta_pow_ev, mmul_nil_l by apply mvar_wf.
    destruct (meqb (mvar 0 (k - zsum p)) m) eqn:Em; cbn [ind]; [|lia]. apply meqb_spec in Em. subst m. unfold sgn0. rewrite expo_mget, mget_mvar. cbn [Z.eqb]. fold (alt (k - zsum p)). rewrite !Z.mul_1_r, Z.mul_assoc, alt_sq. lia. }
  rewrite (Y G). rewrite nev_mul by (try exact I; apply beta_pow_wf). cbn [nev]. rewrite beta_pow_ev, mmul_nil_l by apply mvar_wf. lia.
Qed.
