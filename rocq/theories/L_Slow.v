(* The slow path of symmetric.py, and skew stable Grothendieck polynomials with a degree bound *)
From Coq Require Import List ZArith Lia Bool Permutation Arith.
From Verif Require Import PyBase FinSum M_Partitions S_Partitions L_Partitions L_PartBasic L_PartEnum L_Destand L_Destand2 M_Vectors L_Vectors M_Polynomials L_Polynomials L_PolySubst
  M_Tableaux S_Tableaux M_Semistandard S_Semistandard L_Strips2 L_Shape L_Semi L_Semi3 L_Semi4 L_Count L_Count2 L_Count3 L_CountCache M_Symmetric M_Expansion M_Slow
  L_SymPoly L_SymMul L_Kostka L_Num L_Expand1 L_Expand2 L_Expand3 L_Expand4 L_Expand5 P_Count L_Sym1 L_Sym2 L_Sym3 L_Sym4 L_Sym5.
Import ListNotations.
Local Open Scope Z_scope.
Local Notation sg := (nget smono_eqb).

Lemma occ_above : forall (n : nat) t m, (forall x, In x (flat_map snd t) -> 1 <= Z.abs x <= Z.of_nat n) -> Z.of_nat n < m -> occurrences m t = 0.
Proof.
  intros n t m H Hm. unfold occurrences. rewrite filter_none; [reflexivity|]. intros x Hx. apply Z.eqb_neq. specialize (H x Hx). lia.
Qed.
Lemma occ_nonneg : forall m t, 0 <= occurrences m t.
Proof. intros. unfold occurrences. lia. Qed.

Lemma slow_counts_ok : forall n R, (forall t, In t R -> forall x, In x (flat_map snd t) -> 1 <= Z.abs x <= Z.of_nat n) ->
  exists D, slow_counts n R = Ok D /\ NoDup (map fst D) /\ (forall a, In a (map fst D) -> length a = n /\ Forall (fun x => 0 <= x) a) /\
    forall alpha, length alpha = n -> cget D alpha = wcount n R alpha.
Proof.
  intros n R H. unfold slow_counts.
  assert (G : forall l d, (forall t, In t l -> In t R) -> NoDup (map fst d) -> (forall a, In a (map fst d) -> length a = n /\ Forall (fun x => 0 <= x) a) ->
    exists D, rfold (fun d t => do w <- tweight t (Some (Z.of_nat n)); Ok (cincr d w 1)) l d = Ok D /\ NoDup (map fst D) /\ (forall a, In a (map fst D) -> length a = n /\ Forall (fun x => 0 <= x) a) /\
      forall alpha, length alpha = n -> cget D alpha = cget d alpha + wcount n l alpha).
  { induction l as [|t l IH]; intros d Hl N Hk.
    - exists d. split; [reflexivity|]. split; [assumption|]. split; [assumption|]. intros. unfold wcount. rewrite zs_nil. lia.
    - cbn [rfold]. assert (Ht : forall x, In x (flat_map snd t) -> 1 <= Z.abs x <= Z.of_nat n) by (apply H, Hl; left; reflexivity).
      destruct (C35_weight t n Ht) as (w & Ew & Lw & Hw). rewrite Ew. cbn [rbind].
      destruct (IH (cincr d w 1)) as (D & E1 & E2 & E3 & E4).
      + intros u Hu. apply Hl. right. assumption.
      + unfold cincr. apply (dset_NoDup zlist_eqb zlist_eqb_eq). assumption.
      + intros a Ha. unfold cincr in Ha. apply (dset_keys_In zlist_eqb zlist_eqb_eq) in Ha. destruct Ha as [->|Ha]; [|apply Hk; assumption]. split; [assumption|].
        apply Forall_forall. intros x Hx. apply (In_nth _ _ 0) in Hx. destruct Hx as (k & _ & <-). rewrite <- Hw. apply occ_nonneg.
      + exists D. split; [assumption|]. split; [assumption|]. split; [assumption|]. intros alpha La. rewrite (E4 alpha La), cget_cincr. unfold wcount. rewrite zs_cons.
        assert (X : zlist_eqb w alpha = zlist_eqb (wts n t) (rev alpha)); [|rewrite X; rewrite <- Z.add_assoc; reflexivity].
        pose proof (has_weight_wts n t alpha La (fun m Hm => occ_above n t m Ht Hm)) as Q.
        destruct (zlist_eqb w alpha) eqn:E.
        * apply zlist_eqb_eq in E. subst alpha. symmetry. apply Q. assumption.
        * destruct (zlist_eqb (wts n t) (rev alpha)) eqn:E'; [|reflexivity]. exfalso. pose proof (proj1 Q eq_refl) as Q1. assert (W : w = alpha); [|apply zlist_eqb_eq in W; congruence].
          apply nth_ext with (d := 0) (d' := 0); [congruence|]. intros k _. rewrite <- Hw. apply Q1. }
  destruct (G R [] (fun t h => h) (NoDup_nil _)) as (D & E1 & E2 & E3 & E4); [intros a []|].
  exists D. split; [assumption|]. split; [assumption|]. split; [assumption|]. intros alpha La. rewrite (E4 alpha La). reflexivity.
Qed.

Lemma sort_weak : forall alpha, is_partition alpha = true -> psort alpha true = trim alpha.
Proof.
  intros alpha H. apply is_partition_weak in H. change (psort alpha true) with (trim (psort alpha false)). f_equal.
  apply desc_unique; [apply psort_sorted| |apply psort_perm]. apply desc_row. intros i _. apply H.
Qed.
Lemma padz_weak : forall p n, partition p -> is_partition (padz p n) = true.
Proof.
  intros p n P. apply is_partition_weak. split.
  - unfold padz. apply Forall_app. split; [apply pos_nonneg; apply P|]. apply Forall_forall. intros x Hx. apply repeat_spec in Hx. lia.
  - intro i. rewrite !padz_row. apply P.
Qed.
Lemma trim_padz_iff : forall alpha p n, partition p -> length alpha = n -> is_partition alpha = true -> (trim alpha = p <-> alpha = padz p n).
Proof.
  intros alpha p n P L H. split.
  - intros <-. apply row_ext_len; [rewrite padz_length; [assumption|]|].
    + rewrite <- L. apply trim_length.
    + intro i. rewrite padz_row. symmetry. apply trim_row.
  - intros ->. apply trim_padz. apply partition_trimmed. assumption.
Qed.

Lemma cget_dget : forall (d : cdict) a, cget d a = match dget zlist_eqb d a with Some c => c | None => 0 end.
Proof. reflexivity. Qed.

Section SlowVec.
  Variable signs : option (Z -> poly).
  Variable h : Z -> Z.
  Hypothesis sv_ok : forall alpha c, nok (slow_coeff signs alpha c).
  Hypothesis sv_ev : forall alpha c G, 0 <= zsum alpha -> nev (slow_coeff signs alpha c) G = c * G (mvar 0 (h (zsum alpha))).
  Variable n : nat.

  Lemma slow_loop : forall (l : cdict) (f : nsym), NoDup (map fst l) -> (forall a, In a (map fst l) -> length a = n) ->
    NoDup (map fst f) -> oks f -> (forall m, In m (map fst f) -> fst m = n /\ fits n (snd m)) ->
    exists r, rfold (fun f ac => if is_partition (fst ac) then do m <- smake n (fst ac); Ok (dset smono_eqb f m (slow_coeff signs (fst ac) (snd ac))) else Ok f) l f = Ok r /\
      NoDup (map fst r) /\ oks r /\ (forall m, In m (map fst r) -> fst m = n /\ fits n (snd m)) /\
      forall p, fits n p -> sg r (n, p) = match dget zlist_eqb l (padz p n) with Some c => slow_coeff signs (padz p n) c | None => sg f (n, p) end.
  Proof.
    induction l as [|[a c] l IH]; intros f Nl Hl Nf Of Kf.
    - exists f. split; [reflexivity|]. split; [assumption|]. split; [assumption|]. split; [assumption|]. intros; reflexivity.
    - cbn [map fst] in Nl. inversion Nl as [|? ? N1 N2]; subst. cbn [rfold fst snd]. assert (La : length a = n) by (apply Hl; left; reflexivity).
      assert (Hl' : forall b, In b (map fst l) -> length b = n) by (intros b Hb; apply Hl; right; assumption).
      assert (Nd : dget zlist_eqb l a = None) by (apply (dget_None_notIn zlist_eqb zlist_eqb_eq); assumption).
      destruct (is_partition a) eqn:Pa.
      + unfold smake. replace (length a <=? n)%nat with true by (symmetry; apply Nat.leb_le; lia). cbn [rbind]. rewrite (sort_weak a Pa).
        assert (Pt : fits n (trim a)) by (split; [apply weak_trim_partition, is_partition_weak; assumption|rewrite <- La; apply trim_length]).
        destruct (IH (dset smono_eqb f (n, trim a) (slow_coeff signs a c)) N2 Hl') as (r & E1 & E2 & E3 & E4 & E5).
        * apply (dset_NoDup smono_eqb smono_eqb_eq). assumption.
        * apply oks_dset; [assumption|apply sv_ok].
        * intros m Hm. apply (dset_keys_In smono_eqb smono_eqb_eq) in Hm. destruct Hm as [->|Hm]; [|apply Kf; assumption]. split; [reflexivity|assumption].
        * exists r. split; [assumption|]. split; [assumption|]. split; [assumption|]. split; [assumption|]. intros p Fp. rewrite (E5 p Fp), nget_dset. cbn [dget].
          pose proof (trim_padz_iff a p n (proj1 Fp) La Pa) as Q. destruct (zlist_eqb a (padz p n)) eqn:E.
          -- apply zlist_eqb_eq in E. pose proof (proj2 Q E) as Et. rewrite <- E, Nd, Et. replace (smono_eqb (n, p) (n, p)) with true by (symmetry; apply smono_eqb_eq; reflexivity). reflexivity.
          -- replace (smono_eqb (n, trim a) (n, p)) with false; [reflexivity|]. symmetry. destruct (smono_eqb (n, trim a) (n, p)) eqn:E'; [|reflexivity]. apply smono_eqb_eq in E'. apply (f_equal snd) in E'. cbn [snd] in E'. apply Q in E'. apply zlist_eqb_eq in E'. congruence.
      + destruct (IH f N2 Hl' Nf Of Kf) as (r & E1 & E2 & E3 & E4 & E5). exists r. split; [assumption|]. split; [assumption|]. split; [assumption|]. split; [assumption|]. intros p Fp. rewrite (E5 p Fp). cbn [dget].
        destruct (zlist_eqb a (padz p n)) eqn:E; [|reflexivity]. apply zlist_eqb_eq in E. subst a. rewrite padz_weak in Pa by apply Fp. discriminate.
  Qed.

  Lemma slow_vectorize_ok : forall R check, (forall t, In t R -> forall x, In x (flat_map snd t) -> 1 <= Z.abs x <= Z.of_nat n) ->
    (check = true -> forall alpha, length alpha = n -> wcount n R (psort alpha false) = wcount n R alpha) ->
    exists f, slow_vectorize n R signs check = Ok f /\ nvwf f /\ (forall m, In m (map fst f) -> fst m = n /\ fits n (snd m)) /\
      forall p G, fits n p -> nev (sg f (n, p)) G = wcount n R (padz p n) * G (mvar 0 (h (zsum p))).
  Proof.
    intros R check H S. destruct (slow_counts_ok n R H) as (D & E & N & K & C). unfold slow_vectorize. rewrite E. cbn [rbind].
    assert (Chk : check && negb (slow_check D) = false).
    { destruct check; [|reflexivity]. cbn [andb]. apply negb_false_iff. unfold slow_check. apply forallb_forall. intros a Ha. apply Z.eqb_eq. destruct (K a Ha) as [La _]. rewrite !C; [apply S; [reflexivity|assumption]|assumption|].
      rewrite (Permutation_length (psort_perm a)). assumption. }
    rewrite Chk. destruct (slow_loop D [] N (fun a Ha => proj1 (K a Ha))) as (r & E1 & E2 & E3 & E4 & E5); [constructor|constructor|intros m []|].
    rewrite E1. cbn [rbind]. exists (vmake nzero r). split; [reflexivity|]. split; [apply vmake_nvwf; assumption|]. split.
    - intros m Hm. apply E4. apply in_map_iff in Hm. destruct Hm as (x & <- & Hx). apply in_map. apply filter_In in Hx. apply Hx.
    - intros p G Fp. rewrite (vmake_get smono_eqb smono_eqb_eq r _ E2 E3), (E5 p Fp). rewrite <- C by (apply padz_length; apply Fp). rewrite cget_dget.
      destruct (dget zlist_eqb D (padz p n)) as [c|]; [|rewrite nget_nil; reflexivity]. 
      assert (Ez : zsum (padz p n) = zsum p) by apply size_padz.
      rewrite sv_ev; rewrite Ez; [reflexivity|]. apply zsum_pos_nonneg. apply Fp.
  Qed.
End SlowVec.

Lemma slow_none : (forall alpha c, nok (slow_coeff None alpha c)) /\ (forall alpha c G, 0 <= zsum alpha -> nev (slow_coeff None alpha c) G = c * G (mvar 0 0)).
Proof. split; [intros; exact I|]. intros alpha c G H. cbn [slow_coeff nev]. rewrite Z.pow_1_l by assumption. rewrite Z.mul_1_r. reflexivity. Qed.
Lemma slow_beta : (forall alpha c, nok (slow_coeff (Some beta_pow) alpha c)) /\
  (forall alpha c G, 0 <= zsum alpha -> nev (slow_coeff (Some beta_pow) alpha c) G = c * G (mvar 0 (zsum alpha))).
Proof.
  split; [intros; apply nok_mul|]. intros alpha c G _. cbn [slow_coeff]. rewrite nev_mul by (try exact I; apply beta_pow_wf). cbn [nev]. rewrite beta_pow_ev, mmul_nil_l by apply mvar_wf. lia.
Qed.

(* the filter of a degree bound *)
Definition within (b : option Z) (alpha : list Z) : bool := match b with Some d => zsum alpha <=? d | None => true end.
Lemma nget_filter : forall (q : smono -> bool) (d : nsym) m, sg (filter (fun mc => q (fst mc)) d) m = if q m then sg d m else NI 0.
Proof.
  intros q d m. induction d as [|[a x] d IH]; [destruct (q m); reflexivity|]. cbn [filter fst]. destruct (q a) eqn:Qa; rewrite ?nget_cons, IH; destruct (smono_eqb a m) eqn:E; try reflexivity.
  - apply smono_eqb_eq in E. subst. rewrite Qa. reflexivity.
  - apply smono_eqb_eq in E. subst. rewrite Qa. reflexivity.
Qed.
Lemma filter_fst_NoDup : forall (q : smono * num -> bool) (d : nsym), NoDup (map fst d) -> NoDup (map fst (filter q d)).
Proof.
  intros q d. induction d as [|x d IH]; intro N; [constructor|]. cbn [map] in N. inversion N as [|? ? N1 N2]; subst. cbn [filter]. destruct (q x); [|apply IH; assumption]. cbn [map]. constructor; [|apply IH; assumption].
  intro I. apply N1. apply in_map_iff in I. destruct I as (y & <- & Hy). apply in_map. apply filter_In in Hy. apply Hy.
Qed.

Lemma groth_of_dict : forall n (mu nu : list Z) b d, good n d ->
  exists f g, nvectorize n d beta_pow b = Ok f /\ g = nvscale smono_eqb f (NP (beta_pow (zsum nu - zsum mu))) /\ nvwf g /\ (forall m, In m (map fst g) -> fst m = n /\ fits n (snd m)) /\
    forall p G, fits n p -> nev (sg g (n, p)) G = (if within b p then cget d p else 0) * G (mvar 0 (zsum p + zsum nu - zsum mu)).
Proof.
  intros n mu nu b d Gd. pose proof (good_short _ _ Gd) as Sd. destruct Gd as [Nd Hd].
  destruct (nv_loop beta_pow (fun _ => 1) (fun k => k) beta_pow_wf beta_pow_ev n d [] Sd) as (r & E1 & E2 & E3 & E4 & E5); [constructor|constructor|].
  set (r' := match b with Some b0 => filter (fun mc : smono * num => zsum (snd (fst mc)) <=? b0) r | None => r end).
  assert (N' : NoDup (map fst r')) by (unfold r'; destruct b; [apply filter_fst_NoDup|]; assumption).
  assert (O' : oks r') by (unfold r'; destruct b; [|assumption]; unfold oks in *; rewrite Forall_forall in *; intros x Hx; apply filter_In in Hx; apply E3, Hx).
  assert (G' : forall k p, sg r' (k, p) = if within b p then sg r (k, p) else NI 0).
  { intros k p. unfold r'. destruct b as [b0|]; [|reflexivity]. rewrite (nget_filter (fun m => zsum (snd m) <=? b0)). reflexivity. }
  assert (K' : forall m, In m (map fst r') -> In m (map fst r)).
  { intros m Hm. unfold r' in Hm. destruct b; [|assumption]. apply in_map_iff in Hm. destruct Hm as (y & <- & Hy). apply in_map. apply filter_In in Hy. apply Hy. }
  assert (W1 : nvwf (vmake nzero r')) by (apply vmake_nvwf; assumption).
  assert (Oc : nok (NP (beta_pow (zsum nu - zsum mu)))) by apply beta_pow_wf.
  destruct (nvscale_ok smono_eqb smono_eqb_eq (vmake nzero r') _ W1 Oc) as [W2 H2].
  assert (V : nvectorize n d beta_pow b = Ok (vmake nzero r')).
  { unfold nvectorize. match goal with |- rbind ?x _ = _ => assert (E1' : x = Ok r) by exact E1 end. rewrite E1'. reflexivity. }
  set (g := nvscale smono_eqb (vmake nzero r') (NP (beta_pow (zsum nu - zsum mu)))) in *.
  exists (vmake nzero r'), g. split; [assumption|]. split; [reflexivity|]. split; [assumption|]. split.
  - intros m Hm. pose proof (proj1 (nget_nonzero smono_eqb smono_eqb_eq g m W2) Hm) as Z0.
    assert (I : In m (map fst r')).
    { destruct (in_dec (keq_dec smono_eqb smono_eqb_eq) m (map fst r')) as [I|I]; [assumption|]. exfalso. assert (Z1 : nzero (sg g m) = true); [|congruence].
      apply nzero_spec; [apply nget_ok, nvwf_oks; assumption|]. intro G. rewrite H2. rewrite (vmake_get smono_eqb smono_eqb_eq r' m N' O'). rewrite (nget_notin smono_eqb smono_eqb_eq r') by assumption. cbn [nev]. lia. }
    destruct (E4 m (K' m I)) as [[]|(p & P1 & ->)]. cbn [fst snd]. split; [reflexivity|]. apply in_map_iff in P1. destruct P1 as ([q c] & <- & Q). cbn [fst]. destruct (Hd q c Q) as (Pq & Lq & _). rewrite psort_partition by assumption. split; assumption.
  - intros p G Fp. rewrite H2, (vmake_get smono_eqb smono_eqb_eq r' _ N' O'), G'. destruct (within b p); [|cbn [nev]; lia].
    rewrite E5, nget_nil. cbn [nev]. etransitivity; [apply Z.add_0_l|].
    transitivity (lin 0 Z.add Z.mul d (fun q => G (mvar 0 (zsum p + zsum nu - zsum mu)) * ind (smono_eqb (n, psort q true) (n, p)))).
    + apply (lin_F_ext 0 Z.add Z.mul). intros q Hq. destruct (smono_eqb (n, psort q true) (n, p)) eqn:Em; cbn [ind]; [|lia]. apply smono_eqb_eq in Em. apply (f_equal snd) in Em. cbn [snd] in Em.
      apply in_map_iff in Hq. destruct Hq as ([q' c] & <- & Q). cbn [fst] in *. destruct (Hd q' c Q) as (Pq & _ & _). rewrite psort_partition in Em by assumption. subst p. rewrite beta_pow_ev, mvar_mul. replace (zsum q' + (zsum nu - zsum mu)) with (zsum q' + zsum nu - zsum mu) by lia. lia.
    + rewrite (lin_F_scale 0 1 Z.add Z.mul Z.sub Z.opp InitialRing.Zth). rewrite lin_psort by (split; assumption). lia.
Qed.

Lemma groth_of_counts : forall ord n mu nu b d, count_semistandard ord n mu nu true = Ok d -> good n d ->
  exists g, stable_grothendieck ord n mu nu b = Ok g /\ nvwf g /\ (forall m, In m (map fst g) -> fst m = n /\ fits n (snd m)) /\
    forall p G, fits n p -> nev (sg g (n, p)) G = (if within b p then cget d p else 0) * G (mvar 0 (zsum p + zsum nu - zsum mu)).
Proof.
  intros ord n mu nu b d E Gd. destruct (groth_of_dict n mu nu b d Gd) as (f & g & V & -> & H). eexists. split; [unfold stable_grothendieck; rewrite E; cbn [rbind]; rewrite V; reflexivity|exact H].
Qed.
