(* C61-C63: expansions in the P, Q families and their K-theoretic versions; the S family; omega.
   The parameter ord is the unspecified iteration order of Python sets. *)
From Coq Require Import List ZArith Lia Bool Permutation Arith.
From Verif Require Import PyBase FinSum M_Partitions S_Partitions L_Partitions L_PartBasic L_PartEnum P_Partitions L_Destand L_Destand2 M_Vectors L_Vectors M_Polynomials S_Polynomials L_Polynomials P_Polynomials L_PolySubst
  M_Tableaux S_Tableaux L_Tableaux S_Strips M_Semistandard S_Semistandard L_Strips2 L_Shape L_Semi L_Semi3 L_Semi4 L_Semi5 L_Count L_Count2 L_Count3 L_CountCache M_Symmetric S_Symmetric M_Expansion S_Expansion M_Slow M_Families M_Expansion2
  L_SymPoly L_SymMul L_Growth L_Kostka L_Num L_Expand1 L_Expand2 L_Expand3 L_Expand4 L_Expand5 L_Expand6 L_Expand7 P_Symmetric P_Expansion P_Semistandard P_Count L_Sym1 L_Sym2 L_Sym3 L_Sym4 L_Sym5 L_Sym6 L_Slow P_Symmetry L_Families L_Families2 P_Families L_ShiftTri.
Import ListNotations.
Local Open Scope Z_scope.
Local Notation sg := (nget smono_eqb).
Local Notation lg := (nget zlist_eqb).

(* the sign of beta changed in a symmetric polynomial with coefficients in powers of beta *)
Lemma negate_counts : forall n k Q r g, tabpack n Q r -> beta_counts n k None r g ->
  (forall T alpha, Q T -> length alpha = n -> has_weight alpha T -> k <= zsum alpha) -> Forall (fun kx => exists v, snd kx = NP v) g ->
  exists g', negate_beta g = Ok g' /\ nvwf g' /\ (forall m, In m (map fst g') -> fst m = n /\ fits n (snd m)) /\
    forall p G, fits n p -> nev (sg g' (n, p)) G = (if Z.even (zsum p - k) then 1 else -1) * wcount n r (padz p n) * G (mvar 0 (zsum p - k)).
Proof.
  intros n k Q r g T B Hk Np. pose proof (beta_negatable n k None Q r g T B Hk Np) as Ng. destruct B as (Wg & Kg & Hg).
  destruct (negate_beta_ok g Wg Ng) as (g' & E' & W' & K' & H'). exists g'. split; [assumption|]. split; [assumption|]. split; [intros m Hm; apply Kg, K'; assumption|].
  intros p G Fp. set (N' := (if Z.even (zsum p - k) then 1 else -1) * wcount n r (padz p n)).
  assert (Y : neqv (sg g' (n, p)) (nmul (NI N') (NP (beta_pow (zsum p - k))))).
  { apply ncoeff_eqv; [apply nget_ok, nvwf_oks; assumption|apply nok_mul|]. intro m. rewrite H', !ncoeff_nev by (try apply nok_mul; apply nget_ok, nvwf_oks; assumption). rewrite (Hg p _ Fp). rewrite nev_mul by (try exact I; apply beta_pow_wf). cbn [nev]. rewrite beta_pow_ev, mmul_nil_l by apply mvar_wf.
    destruct (meqb (mvar 0 (zsum p - k)) m) eqn:Em; cbn [ind]; [|lia]. apply meqb_spec in Em. subst m. unfold N', sgn0. rewrite expo_mget, mget_mvar. cbn [Z.eqb within]. lia. }
  rewrite (Y G). rewrite nev_mul by (try exact I; apply beta_pow_wf). cbn [nev]. rewrite beta_pow_ev, mmul_nil_l by apply mvar_wf. lia.
Qed.

Section Strict.
  Variable ord : list (list Z) -> list (list Z).
  Hypothesis ord_perm : forall l, Permutation (ord l) l.

  (* the shifted tableaux *)
  Definition stabs (dp sv : bool) (n : nat) (mu : list Z) : list tab := match semistandard_shifted_marked ord idl idl n mu [] dp sv with Ok r => r | Err _ => [] end.
  Definition sK (dp sv : bool) (n : nat) (mu alpha : list Z) : Z := wcount n (stabs dp sv n mu) (padz alpha n).
  Lemma stabs_pack : forall dp sv n mu, strict_partition mu -> exists d, count_semistandard_shifted_marked ord n mu [] dp sv = Ok d /\
    tabpack n (tableau_of shifted_cell (pprime dp) sv n mu []) (stabs dp sv n mu) /\ dictpack n (stabs dp sv n mu) d.
  Proof.
    intros dp sv n mu Hm. destruct (pack_shifted' ord idl idl ord_perm idl_perm idl_perm n mu [] dp sv Hm strict_nil) as (r & d & Er & Ed & T & D). exists d. assert (X : stabs dp sv n mu = r) by exact (f_equal (fun x => match x with Ok r => r | Err _ => [] end) Er). rewrite X. split; [assumption|]. split; assumption.
  Qed.
  Lemma sK_tri : forall dp sv n mu alpha, strict_partition mu -> fits n alpha -> sK dp sv n mu alpha <> 0 -> alpha = mu \/ after false mu alpha.
  Proof.
    intros dp sv n mu alpha Hm [Pa La] Hk. destruct (stabs_pack dp sv n mu Hm) as (d & _ & (Nr & HQ & Lt & Sy) & _). unfold sK, wcount in Hk. apply zs_nonzero in Hk. destruct Hk as (T & HT & E). destruct (zlist_eqb (wts n T) (rev (padz alpha n))) eqn:Ew; [|congruence].
    apply has_weight_wts in Ew; [|apply padz_length; assumption|intros m Hm'; apply (occ_above n); [apply Lt; assumption|assumption]]. apply has_weight_padz in Ew.
    destruct (shifted_dominance _ _ _ _ _ _ Hm Pa La (proj1 (HQ T) HT) Ew) as [H|[H [H'|H']]]; [right; left; exact H|left; assumption|right; right; split; [exact H|assumption]].
  Qed.
  Lemma sK_one : forall dp sv n mu, strict_partition mu -> (length mu <= n)%nat -> sK dp sv n mu mu <> 0.
  Proof.
    intros dp sv n mu Hm Lm. destruct (stabs_pack dp sv n mu Hm) as (d & _ & (Nr & HQ & Lt & Sy) & _). unfold sK, wcount.
    assert (I : In (superstandard mu) (stabs dp sv n mu)) by (apply HQ, superstandard_tableau; assumption).
    assert (W : zlist_eqb (wts n (superstandard mu)) (rev (padz mu n)) = true).
    { apply has_weight_wts; [apply padz_length; assumption|intros m Hm'; apply (occ_above n); [apply Lt; assumption|assumption]|]. apply has_weight_padz, superstandard_weight. assumption. }
    assert (Ge : forall l : list tab, 0 <= zs (fun t => if zlist_eqb (wts n t) (rev (padz mu n)) then 1 else 0) l).
    { induction l as [|t l IH]; [rewrite zs_nil; lia|]. rewrite zs_cons. apply Z.add_nonneg_nonneg; [cbv beta; match goal with |- context [if ?b then _ else _] => destruct b end; lia|exact IH]. }
    enough (0 < zs (fun t => if zlist_eqb (wts n t) (rev (padz mu n)) then 1 else 0) (stabs dp sv n mu)) by lia.
    clear -I W Ge. induction (stabs dp sv n mu) as [|t l IH]; [destruct I|]. rewrite zs_cons. destruct I as [->|I].
    - cbv beta; rewrite W. apply Z.add_pos_nonneg; [lia|exact (Ge l)].
    - apply Z.add_nonneg_pos; [cbv beta; match goal with |- context [if ?b then _ else _] => destruct b end; lia|exact (IH I)].
  Qed.

  Lemma strict_only : forall dp sv n mu d, partition mu -> count_semistandard_shifted_marked ord n mu [] dp sv = Ok d -> strict_partition mu.
  Proof.
    intros dp sv n mu d Pm E. destruct (is_strict_partition mu) eqn:S1.
    - split; [apply Pm|]. unfold is_strict_partition in S1. rewrite forallb_forall in S1. intros i Hi. specialize (S1 (Z.of_nat (S i))). rewrite Z.ltb_lt in S1.
      assert (X : forall k, nthz mu (Z.of_nat k) = row mu k). { intro k. unfold nthz, row. rewrite Nat2Z.id. destruct (Z.ltb_spec (Z.of_nat k) 0); [lia|reflexivity]. }
      rewrite <- !X. replace (Z.of_nat (S i) - 1) with (Z.of_nat i) in S1 by lia. apply S1. apply In_zrange. unfold zlen. lia.
    - destruct n as [|n]; cbn [count_semistandard_shifted_marked] in E; rewrite S1 in E; discriminate.
  Qed.

  Definition plain_num (dp : bool) (n : nat) (mu : list Z) : res nsym := do f <- (do d <- count_semistandard_shifted_marked ord n mu [] dp false; vectorize n d); Ok (int_coefficients f).
  Lemma plain_expands : forall dp n, expands (expansion (plain_num dp) (term false)) n strict_partition (plain_num dp n).
  Proof.
    intros dp n. apply (powers_expands false n (plain_num dp) strict_partition (sK dp false n) (fun _ _ => 0)).
    - exact strict_is_partition.
    - intros mu Hm. destruct (stabs_pack dp false n mu Hm) as (d & Ed & T & (Gd & HN)). destruct (schur_vec n d Gd) as (f & Ef & Wf & Kf & _ & Hf).
      assert (X : plain_num dp n mu = Ok (int_coefficients f)) by (unfold plain_num; rewrite Ed; cbn [rbind]; rewrite Ef; reflexivity).
      unfold Fv. rewrite X. split; [reflexivity|]. split; [assumption|]. split; [assumption|]. intros alpha G Fa. unfold sK. rewrite <- (HN alpha Fa). apply Hf. assumption.
    - reflexivity.
    - intros mu alpha. apply sK_tri.
    - intros mu. apply sK_one.
    - intros p g Pp E. unfold plain_num in E. destruct (count_semistandard_shifted_marked ord n p [] dp false) as [d|] eqn:Ed; [|discriminate]. eapply strict_only; eassumption.
  Qed.
  Definition beta_num_fam (dp : bool) (n : nat) (mu : list Z) : res nsym := do d <- count_semistandard_shifted_marked ord n mu [] dp true; beta_vectorize n d mu [] None.
  Lemma beta_fam : forall dp n mu, strict_partition mu -> exists g, beta_num_fam dp n mu = Ok g /\ tabpack n (tableau_of shifted_cell (pprime dp) true n mu []) (stabs dp true n mu) /\ beta_counts n (zsum mu - 0) None (stabs dp true n mu) g.
  Proof.
    intros dp n mu Hm. destruct (stabs_pack dp true n mu Hm) as (d & Ed & T & D). destruct (dict_beta_counts n mu [] None _ d D) as (g & Eg & B). exists g. split; [unfold beta_num_fam; rewrite Ed; exact Eg|]. split; assumption.
  Qed.
  Lemma beta_expands : forall dp n, expands (expansion (beta_num_fam dp) (term false)) n strict_partition (beta_num_fam dp n).
  Proof.
    intros dp n. apply (powers_expands false n (beta_num_fam dp) strict_partition (sK dp true n) (fun mu alpha => zsum alpha - (zsum mu - 0))).
    - exact strict_is_partition.
    - intros mu Hm. destruct (beta_fam dp n mu Hm) as (g & Eg & T & (Wg & Kg & Hg)). unfold Fv. rewrite Eg. split; [reflexivity|]. split; [assumption|]. split; [assumption|]. intros alpha G Fa. apply Hg. assumption.
    - intro mu. lia.
    - intros mu alpha. apply sK_tri.
    - intros mu. apply sK_one.
    - intros p g Pp E. unfold beta_num_fam in E. destruct (count_semistandard_shifted_marked ord n p [] dp true) as [d|] eqn:Ed; [|discriminate]. eapply strict_only; eassumption.
  Qed.
  Definition neg_fam (dp : bool) (n : nat) (mu : list Z) : res nsym := do g <- beta_num_fam dp n mu; negate_beta g.
  Lemma beta_fam_np : forall dp n mu g, beta_num_fam dp n mu = Ok g -> Forall (fun kx => exists v, snd kx = NP v) g.
  Proof.
    intros dp n mu g E. unfold beta_num_fam, beta_vectorize in E. destruct (count_semistandard_shifted_marked ord n mu [] dp true) as [d|]; [|discriminate]. cbn [rbind] in E. destruct (nvectorize n d beta_pow None) as [f|]; [|discriminate]. cbn [rbind] in E. injection E as <-. apply np_scale.
  Qed.
  Lemma neg_expands : forall dp n, expands (expansion (neg_fam dp) (term false)) n strict_partition (neg_fam dp n).
  Proof.
    intros dp n. apply (powers_expands false n (neg_fam dp) strict_partition (fun mu alpha => (if Z.even (zsum alpha - (zsum mu - 0)) then 1 else -1) * sK dp true n mu alpha) (fun mu alpha => zsum alpha - (zsum mu - 0))).
    - exact strict_is_partition.
    - intros mu Hm. destruct (beta_fam dp n mu Hm) as (g & Eg & T & B).
      destruct (negate_counts n (zsum mu - 0) _ _ g T B) as (g' & Eg' & Wg & Kg & Hg); [|eapply beta_fam_np; eassumption|].
      + intros T0 alpha HT La Hw. exact (tableau_size true _ _ n mu [] T0 alpha Hm strict_nil HT La Hw).
      + assert (X : neg_fam dp n mu = Ok g') by (unfold neg_fam; rewrite Eg; exact Eg'). unfold Fv. rewrite X. split; [reflexivity|]. split; [assumption|]. split; [assumption|]. intros alpha G Fa. apply Hg. assumption.
    - intro mu. lia.
    - intros mu alpha Hm Fa Hk. apply (sK_tri dp true n); [assumption|assumption|]. intro Z0. rewrite Z0 in Hk. lia.
    - intros mu Hm Lm. pose proof (sK_one dp true n mu Hm Lm). destruct (Z.even _); lia.
    - intros p g Pp E. unfold neg_fam, beta_num_fam in E. destruct (count_semistandard_shifted_marked ord n p [] dp true) as [d|] eqn:Ed; [|discriminate]. eapply strict_only; eassumption.
  Qed.
End Strict.

(* C61: these return on exactly the combinations of the family, with the coefficients of the combination *)
Theorem C61_P_expansion : forall ord n, (forall l, Permutation (ord l) l) -> expands (P_expansion ord) n strict_partition (schur_p_num ord n).
Proof. intros ord n H. exact (plain_expands ord H false n). Qed.
Theorem C61_Q_expansion : forall ord n, (forall l, Permutation (ord l) l) -> expands (Q_expansion ord) n strict_partition (schur_q_num ord n).
Proof. intros ord n H. exact (plain_expands ord H true n). Qed.
Theorem C61_GP_expansion : forall ord n, (forall l, Permutation (ord l) l) -> expands (GP_expansion ord) n strict_partition (fun mu => stable_grothendieck_p ord n mu [] None).
Proof. intros ord n H. exact (beta_expands ord H false n). Qed.
Theorem C61_GQ_expansion : forall ord n, (forall l, Permutation (ord l) l) -> expands (GQ_expansion ord) n strict_partition (fun mu => stable_grothendieck_q ord n mu [] None).
Proof. intros ord n H. exact (beta_expands ord H true n). Qed.
Theorem C61_mn_GP_expansion : forall ord n, (forall l, Permutation (ord l) l) -> expands (mn_GP_expansion ord) n strict_partition (fun mu => mn_stable_grothendieck_p ord n mu []).
Proof. intros ord n H. exact (neg_expands ord H false n). Qed.
Theorem C61_mn_GQ_expansion : forall ord n, (forall l, Permutation (ord l) l) -> expands (mn_GQ_expansion ord) n strict_partition (fun mu => mn_stable_grothendieck_q ord n mu []).
Proof. intros ord n H. exact (neg_expands ord H true n). Qed.

Section Mn.
  Variable ord : list (list Z) -> list (list Z).
  Hypothesis ord_perm : forall l, Permutation (ord l) l.
  Definition mnF (n : nat) (mu : list Z) : res nsym := mn_stable_grothendieck ord n mu [].
  Definition mnK (n : nat) (mu alpha : list Z) : Z := (if Z.even (zsum alpha - (zsum mu - 0)) then 1 else -1) * kostka ord true n mu alpha.
  Lemma mn_family : forall n mu, partition mu -> mnF n mu = Ok (Fv n mnF mu) /\ nvwf (Fv n mnF mu) /\
    (forall m, In m (map fst (Fv n mnF mu)) -> fst m = n /\ fits n (snd m)) /\
    forall alpha G, fits n alpha -> nev (sg (Fv n mnF mu) (n, alpha)) G = mnK n mu alpha * G (mvar 0 (size alpha - size mu)).
  Proof.
    intros n mu Pm. assert (P0 : partition []) by (apply strict_is_partition, strict_nil).
    destruct (pack_plain ord idl idl ord_perm idl_perm idl_perm n mu [] true Pm P0) as (r & d & Er & Ed & T & D). destruct (dict_beta_counts n mu [] None r d D) as (g & Eg & B).
    assert (X : stable_grothendieck ord n mu [] None = Ok g) by (unfold stable_grothendieck; rewrite Ed; exact Eg).
    destruct (negate_counts n (zsum mu - 0) _ _ g T B) as (g' & Eg' & Wg & Kg & Hg).
    - intros T0 alpha HT La Hw. exact (tableau_size false _ _ n mu [] T0 alpha Pm P0 HT La Hw).
    - exact (beta_vectorize_np n d mu [] None g Eg).
    - assert (X' : mnF n mu = Ok g') by (unfold mnF, mn_stable_grothendieck; rewrite X; exact Eg'). unfold Fv. rewrite X'. split; [reflexivity|]. split; [assumption|]. split; [assumption|]. intros alpha G Fa. rewrite (Hg alpha G Fa). unfold mnK, kostka.
      assert (E : kdict ord true n mu = d) by (unfold kdict; rewrite Ed; reflexivity). rewrite E. destruct D as [_ HN]. rewrite (HN alpha Fa). unfold size. rewrite Z.sub_0_r. reflexivity.
  Qed.
  Lemma mnK_tri : forall n mu alpha, partition mu -> fits n alpha -> mnK n mu alpha <> 0 ->
    (size mu < size alpha \/ (size mu = size alpha /\ (alpha = mu \/ lex_ltb alpha mu = true))) /\ row alpha 0 <= row mu 0.
  Proof. intros n mu alpha Pm Fa Hk. apply (kostka_tri ord ord_perm true n); [assumption|assumption|]. intro Z0. unfold mnK in Hk. rewrite Z0 in Hk. lia. Qed.
  Lemma mnK_one : forall n mu, fits n mu -> mnK n mu mu = 1.
  Proof. intros n mu Fm. unfold mnK. rewrite (kostka_one ord ord_perm true n mu Fm). rewrite Z.sub_0_r, Z.sub_diag. reflexivity. Qed.
End Mn.
(* C62: mn_grothendieck_expansion returns on every symmetric polynomial with coefficients in powers of beta *)
Theorem C62_mn_grothendieck_expansion : forall ord n f, (forall l, Permutation (ord l) l) -> sym_canon beta_num n f ->
  exists v basis N, idx_canon n v /\
    (forall fuel, (N <= fuel)%nat -> mn_grothendieck_expansion ord fuel f = Ok v) /\
    (forall mu, partition mu -> mn_stable_grothendieck ord n mu [] = Ok (basis mu)) /\
    forall alpha m, combination basis v (n, alpha) m = ncoeff (at_monomial f n alpha) m.
Proof.
  intros ord n f H. apply (generic_total n (mnF ord)); [intros mu P; apply (mn_family ord H n mu P)|].
  exact (family_expansion n (mnF ord) (mnK ord n) (mn_family ord H n) (mnK_tri ord H n) (mnK_one ord H n)).
Qed.
Theorem C62_mn_grothendieck_coefficients : forall ord n f c basis, (forall l, Permutation (ord l) l) -> sym_canon beta_num n f -> idx_canon n c ->
  (forall mu, partition mu -> mn_stable_grothendieck ord n mu [] = Ok (basis mu)) ->
  (forall alpha m, combination basis c (n, alpha) m = ncoeff (at_monomial f n alpha) m) ->
  exists v N, (forall fuel, (N <= fuel)%nat -> mn_grothendieck_expansion ord fuel f = Ok v) /\
    forall mu m, ncoeff (at_index v mu) m = ncoeff (at_index c mu) m.
Proof.
  intros ord n f c basis H. apply (generic_unique n (mnF ord)); [intros mu P; apply (mn_family ord H n mu P)| | |].
  - apply (family_fwf n (mnF ord) (mnK ord n) (mn_family ord H n)).
  - exact (family_expansion n (mnF ord) (mnK ord n) (mn_family ord H n) (mnK_tri ord H n) (mnK_one ord H n)).
  - exact (family_unique n (mnF ord) (mnK ord n) (mn_family ord H n) (mnK_tri ord H n) (mnK_one ord H n)).
Qed.

(* C63: omega_schur_expansion transposes the indices of schur_expansion *)
Lemma transposed_fold : forall (v : nvec (list Z)) acc, NoDup (map fst acc) -> NoDup (map fst v) -> (forall mu c, In (mu, c) v -> partition mu) ->
  (forall mu, In mu (map fst acc) -> partition mu) -> (forall mu, In mu (map fst v) -> ~ In (transpose mu) (map fst acc)) ->
  let w := fold_left (fun d xy => dset zlist_eqb d (transpose (fst xy)) (snd xy)) v acc in
  NoDup (map fst w) /\ forall nu c, In (nu, c) w <-> In (nu, c) acc \/ exists mu, In (mu, c) v /\ nu = transpose mu.
Proof.
  induction v as [|[mu c] v IH]; intros acc Na Nv Pv Pa Hd.
  - cbn [fold_left]. split; [assumption|]. intros nu c. split; [left; assumption|intros [H|(? & [] & _)]; assumption].
  - cbn [fold_left fst snd]. inversion Nv as [|? ? Nm Nv']; subst.
    assert (Nin : ~ In (transpose mu) (map fst acc)) by (apply Hd; left; reflexivity).
    assert (Ed : dset zlist_eqb acc (transpose mu) c = acc ++ [(transpose mu, c)]).
    { clear -Nin. induction acc as [|[k x] acc IH]; [reflexivity|]. cbn [dset app]. destruct (zlist_eqb k (transpose mu)) eqn:E; [exfalso; apply Nin; left; apply zlist_eqb_eq; assumption|]. rewrite IH; [reflexivity|]. intro I. apply Nin. right. assumption. }
    rewrite Ed. destruct (IH (acc ++ [(transpose mu, c)])) as [I1 I2].
    + rewrite map_app. apply NoDup_app_intro; [assumption|cbn; constructor; [intros []|constructor]|]. intros x Hx [<-|[]]. contradiction.
    + assumption.
    + intros nu c0 Hin. apply (Pv nu c0). right. assumption.
    + intros nu Hin. rewrite map_app in Hin. apply in_app_or in Hin. destruct Hin as [Hin|[<-|[]]]; [apply Pa; assumption|]. cbn [fst]. apply transpose_partition, partition_weak, (Pv mu c). left. reflexivity.
    + intros nu Hin H. rewrite map_app in H. apply in_app_or in H. destruct H as [H|[H|[]]]; [apply (Hd nu); [right; assumption|assumption]|]. cbn [fst] in H. apply Nm. replace mu with nu; [assumption|].
      apply in_map_iff in Hin. destruct Hin as ([nu0 c0] & E & Hin). cbn [fst] in E. subst nu0. rewrite <- (transpose_involutive nu) by (apply (Pv nu c0); right; assumption). rewrite <- H. apply transpose_involutive. apply (Pv mu c). left. reflexivity.
    + split; [assumption|]. intros nu c0. rewrite I2. rewrite in_app_iff. cbn [In]. split.
      * intros [[H|[H|[]]]|(m & Hm & ->)]; [left; assumption| |right; exists m; split; [right; assumption|reflexivity]]. injection H as <- <-. right. exists mu. split; [left; reflexivity|reflexivity].
      * intros [H|(m & [H|H] & ->)]; [left; left; assumption| |right; exists m; split; [assumption|reflexivity]]. injection H as -> ->. left. right. left. reflexivity.
Qed.
Theorem C63_omega_schur_expansion : forall ord n f, (forall l, Permutation (ord l) l) -> sym_canon beta_num n f ->
  exists v w basis N, idx_canon n v /\ (forall mu, partition mu -> schur_num ord n mu = Ok (basis mu)) /\
    (forall alpha m, combination basis v (n, alpha) m = ncoeff (at_monomial f n alpha) m) /\
    (forall fuel, (N <= fuel)%nat -> omega_schur_expansion ord fuel f = Ok w) /\ NoDup (map fst w) /\
    (forall mu c, In (mu, c) w <-> exists nu, In (nu, c) v /\ partition nu /\ partition mu /\ forall i j, cell mu i j <-> cell nu j i).
Proof.
  intros ord n f H Cf. destruct (C39_schur_expansion ord n f H Cf) as (v & basis & N & Iv & Ev & Hb & Hc).
  destruct (transposed_fold v [] (NoDup_nil _) (proj1 Iv)) as [N1 N2]; [intros mu c Hin; apply (proj2 Iv mu c Hin)|intros mu []|intros mu _ []|].
  set (w := fold_left (fun d xy => dset zlist_eqb d (transpose (fst xy)) (snd xy)) v []) in *.
  assert (W : vmake nzero w = w).
  { unfold vmake. assert (Fw : Forall (fun x => nzero (snd x) = false) w).
    - apply Forall_forall. intros [nu c] Hin. apply N2 in Hin. destruct Hin as [[]|(mu & Hin & ->)]. destruct (proj2 Iv mu c Hin) as (_ & _ & Cc & _). cbn [snd]. apply num_canon_ok in Cc. apply Cc.
    - clear -Fw. induction w as [|x w IH]; [reflexivity|]. inversion Fw; subst. cbn [filter]. rewrite H1. cbn [negb]. f_equal. apply IH. assumption. }
  exists v, w, basis, N. split; [assumption|]. split; [assumption|]. split; [assumption|]. split; [|split; [assumption|]].
  - intros fuel Hf. unfold omega_schur_expansion. rewrite (Ev fuel Hf). cbn [rbind]. fold w. rewrite W. reflexivity.
  - intros mu c. rewrite N2. split.
    + intros [[]|(nu & Hin & ->)]. exists nu. destruct (proj2 Iv nu c Hin) as (Pn & _). split; [assumption|]. split; [assumption|]. split; [apply transpose_partition, partition_weak; assumption|]. intros i j. apply transpose_cell, partition_weak. assumption.
    + intros (nu & Hin & Pn & Pm & Hc'). right. exists nu. split; [assumption|]. apply (part_ext false); [assumption|apply transpose_partition, partition_weak; assumption|].
      intros [i j]. unfold dc. cbn [fst snd]. rewrite Hc'. rewrite transpose_cell by (apply partition_weak; assumption). reflexivity.
Qed.

(* C64: S_expansion raises on the S-polynomial of (2,1), at every recursion limit *)
Theorem C64_S_expansion_refuted : exists f, schur_s_num idl 2 [2; 1] = Ok f /\ forall fuel v, S_expansion idl fuel f <> Ok v.
Proof.
  eexists. split; [vm_compute; reflexivity|]. intros fuel v. do 4 (destruct fuel as [|fuel]; [vm_compute; discriminate|]). vm_compute. discriminate.
Qed.
(* the S-polynomials are not independent: those of (1,1) and (2) are equal *)
Theorem C64_S_family_dependent : exists f, schur_s_num idl 2 [1; 1] = Ok f /\ schur_s_num idl 2 [2] = Ok f.
Proof. eexists. split; vm_compute; reflexivity. Qed.

(* 3 Q_31 + Q_3 beta in two variables, computed by hand: Q_3 = 2 m_3 + 4 m_21 and Q_31 = 4 m_31 + 8 m_22 *)
Example C61_Q_example : Q_expansion idl 9 [((2%nat, [3; 1]), NI 12); ((2%nat, [2; 2]), NI 24); ((2%nat, [3]), NP [([(0, 1)], 2)]); ((2%nat, [2; 1]), NP [([(0, 1)], 4)])]
  = Ok [([3; 1], NP [([], 3)]); ([3], NP [([(0, 1)], 1)])].
Proof. vm_compute. reflexivity. Qed.
(* a canonical f and c meeting the hypotheses of C61_Q_expansion *)
Example C61_Q_hypotheses : let f := [((2%nat, [3; 1]), NI 12); ((2%nat, [2; 2]), NI 24); ((2%nat, [3]), NP [([(0, 1)], 2)]); ((2%nat, [2; 1]), NP [([(0, 1)], 4)])] in
  sym_canon beta_num 2 f /\ idx_in strict_partition 2 [([3; 1], NP [([], 3)]); ([3], NP [([(0, 1)], 1)])] /\ is_combination 2 (schur_q_num idl 2) [([3; 1], NP [([], 3)]); ([3], NP [([(0, 1)], 1)])] f.
Proof.
  cbv zeta. match goal with |- ?A /\ _ => assert (H : A) end.
  - split; [repeat constructor; cbn; intuition discriminate|].
    intros k mu c [E|[E|[E|[E|[]]]]]; injection E as <- <- <-; (split; [reflexivity|]); (split; [split; [repeat constructor; lia|intros [|[|[|i]]]; cbn; lia]|]); (split; [cbn; lia|]).
    1,2: split; [cbn; lia|]; intros m c [X|[]] t _; injection X as <- _; reflexivity.
    1,2: split; [split; [split; [repeat constructor; intros []|split; repeat constructor; cbn; lia]|discriminate]|].
    1,2: intros m c [X|[]] t Ht; injection X as <- _; cbn [expo]; destruct (Z.eqb_spec 0 t); [lia|reflexivity].
  - split; [exact H|]. exact (proj2 (C61_Q_expansion idl 2 idl_perm _ H) 9%nat _ C61_Q_example).
Qed.
Example C61_Q_outside : Q_expansion idl 9 [((2%nat, [2]), NI 1)] = Err AssertionError.
Proof. vm_compute. reflexivity. Qed.
Example C61_GP_example : (do f <- stable_grothendieck_p idl 2 [2] [] None; do g <- stable_grothendieck_p idl 2 [2; 1] [] None; GP_expansion idl 9 (nvadd smono_eqb f (nvscale smono_eqb g (NI (-5)))))
  = Ok [([2; 1], NP [([], -5)]); ([2], NP [([], 1)])].
Proof. vm_compute. reflexivity. Qed.
Example C61_mn_GQ_example : (do f <- mn_stable_grothendieck_q idl 2 [2] []; mn_GQ_expansion idl 9 f) = Ok [([2], NP [([], 1)])].
Proof. vm_compute. reflexivity. Qed.
Example C62_mn_example : mn_grothendieck_expansion idl 9 [((2%nat, [1]), NI 1)] = Ok [([1; 1], NP [([(0, 1)], 1)]); ([1], NP [([], 1)])].
Proof. vm_compute. reflexivity. Qed.
Example C63_omega_example : omega_schur_expansion idl 9 [((3%nat, [2]), NI 1); ((3%nat, [1; 1]), NI 5)] = Ok [([2], NP [([], 4)]); ([1; 1], NP [([], 1)])].
Proof. vm_compute. reflexivity. Qed.

Print Assumptions C61_P_expansion.
Print Assumptions C61_Q_expansion.
Print Assumptions C61_GP_expansion.
Print Assumptions C61_GQ_expansion.
Print Assumptions C61_mn_GP_expansion.
Print Assumptions C61_mn_GQ_expansion.
Print Assumptions C62_mn_grothendieck_expansion.
Print Assumptions C62_mn_grothendieck_coefficients.
Print Assumptions C63_omega_schur_expansion.
Print Assumptions C64_S_expansion_refuted.
