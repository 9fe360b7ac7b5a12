(* The doublebar combinations and the change of sign of beta. *)
From Coq Require Import List ZArith Lia Bool Permutation Arith.
From Verif Require Import PyBase FinSum M_Partitions S_Partitions L_Partitions L_PartBasic L_PartEnum L_Destand L_Destand2 M_Vectors L_Vectors M_Polynomials S_Polynomials L_Polynomials P_Polynomials L_PolySubst
  M_Tableaux S_Tableaux L_Tableaux S_Strips M_Semistandard S_Semistandard L_Strips2 L_Shape L_Semi L_Semi3 L_Semi4 L_Semi5 L_Count L_Count2 L_Count3 L_CountCache M_Symmetric S_Symmetric M_Expansion S_Expansion M_Slow M_Families
  L_SymPoly L_SymMul L_Growth L_Kostka L_Num L_Expand1 L_Expand2 L_Expand3 L_Expand4 L_Expand5 L_Expand6 P_Symmetric P_Expansion P_Semistandard P_Count L_Sym1 L_Sym2 L_Sym3 L_Sym4 L_Sym5 L_Sym6 L_Sym11 L_Slow P_Symmetry L_Insertion6 L_Families.
Import ListNotations.
Local Open Scope Z_scope.
Local Notation sg := (nget smono_eqb).

(* every tableau has at least one entry per cell *)
Lemma total_occ : forall n l, (forall x, In x l -> 1 <= Z.abs x <= Z.of_nat n) -> zlen l = psum (fun k => Z.of_nat (length (filter (fun x => Z.abs x =? Z.of_nat k + 1) l))) n.
Proof.
  intros n l. induction l as [|x l IH]; intro H.
  - cbn [filter length]. change (zlen (@nil Z)) with 0. induction n as [|n IHn]; [reflexivity|]. cbn [psum]. rewrite <- IHn; [reflexivity|intros y []].
  - rewrite (psum_ext _ (fun k => Z.of_nat (length (filter (fun x => Z.abs x =? Z.of_nat k + 1) l)) + (if Z.abs x =? Z.of_nat k + 1 then 1 else 0))).
    2:{ intros k _. cbn [filter]. destruct (Z.abs x =? Z.of_nat k + 1); cbn [length]; lia. }
    rewrite psum_add, <- IH by (intros; apply H; right; assumption). unfold zlen. cbn [length]. specialize (H x (or_introl eq_refl)).
    assert (E : forall m, psum (fun k => if Z.abs x =? Z.of_nat k + 1 then 1 else 0) m = if Z.abs x <=? Z.of_nat m then 1 else 0).
    { induction m as [|m IHm]; [cbn [psum]; replace (Z.abs x <=? Z.of_nat 0) with false by (symmetry; apply Z.leb_gt; lia); reflexivity|]. cbn [psum]. rewrite IHm.
      destruct (Z.leb_spec (Z.abs x) (Z.of_nat m)), (Z.eqb_spec (Z.abs x) (Z.of_nat m + 1)), (Z.leb_spec (Z.abs x) (Z.of_nat (S m))); lia. }
    rewrite E. replace (Z.abs x <=? Z.of_nat n) with true by (symmetry; apply Z.leb_le; lia). lia.
Qed.
Lemma flat_map_len : forall (T : tab), (forall i j l, In ((i, j), l) T -> l <> []) -> zlen T <= zlen (flat_map snd T).
Proof.
  unfold zlen. induction T as [|[[i j] l] T IH]; intro H; [cbn; lia|]. cbn [flat_map snd]. rewrite app_length. cbn [length]. specialize (IH ltac:(intros i' j' l' X; apply (H i' j' l'); right; exact X)).
  assert (length l <> 0%nat) by (intro E; apply (H i j l (or_introl eq_refl)); destruct l; [reflexivity|discriminate]). lia.
Qed.
Lemma cells_size : forall (sh : bool) mu nu d, (if sh then strict_partition mu else partition mu) -> (if sh then strict_partition nu else partition nu) ->
  (forall i j, (if sh then shifted_cell else cell) nu i j -> (if sh then shifted_cell else cell) mu i j) -> NoDup d ->
  (forall a b, In (a, b) d <-> in_skew (if sh then shifted_cell else cell) mu nu a b) -> zlen d = size mu - size nu.
Proof.
  intros sh mu nu d Hm Hn Hi Nd Hd.
  assert (Le : forall i, row nu i <= row mu i) by (apply (part_incl sh); [destruct sh; assumption|destruct sh; assumption|intros [i j]; destruct sh; apply Hi]).
  destruct sh; [|apply skew_count; assumption].
  rewrite <- (skew_count mu nu (map (fun ij => (fst ij, snd ij - fst ij + 1)) d)); [unfold zlen; rewrite map_length; reflexivity|apply strict_is_partition; assumption|apply strict_is_partition; assumption|assumption| |].
  - apply NoDup_map_inj_in; [|assumption]. intros [a b] [a' b'] _ _ E. cbn [fst snd] in E. injection E as -> E. f_equal. lia.
  - intros a b. rewrite in_map_iff. split.
    + intros ([a' b'] & E & Hin). cbn [fst snd] in E. injection E as <- <-. apply Hd in Hin. unfold in_skew, shifted_cell, cell in *. lia.
    + intro H. exists (a, b + a - 1). cbn [fst snd]. split; [f_equal; lia|]. apply Hd. unfold in_skew, shifted_cell, cell in *. lia.
Qed.
Lemma tableau_size : forall (sh : bool) pr sv n mu nu T alpha, (if sh then strict_partition mu else partition mu) -> (if sh then strict_partition nu else partition nu) ->
  tableau_of (if sh then shifted_cell else cell) pr sv n mu nu T -> length alpha = n -> has_weight alpha T -> zsum mu - zsum nu <= zsum alpha.
Proof.
  intros sh pr sv n mu nu T alpha Hm Hn (Hi & W & D & L & H & _) La Hw.
  pose proof (cells_size sh mu nu (map fst T) Hm Hn Hi (sorted_NoDup _ (proj1 W))) as C.
  assert (Lt : forall x, In x (flat_map snd T) -> 1 <= Z.abs x <= Z.of_nat n).
  { intros x Hx. apply in_flat_map in Hx. destruct Hx as ([[i j] l] & H1 & H2). apply (H i j x). exists l. split; assumption. }
  pose proof (total_occ n (flat_map snd T) Lt) as E. pose proof (flat_map_len T ltac:(intros i j l X; apply (L i j l X))) as F.
  assert (Ea : zsum alpha = psum (row alpha) n) by (rewrite <- La; apply size_psum_len). rewrite (psum_ext _ (row alpha)) in E by (intros k _; apply Hw).
  change (size mu - size nu <= zsum alpha). rewrite <- C; [rewrite Ea, <- E; etransitivity; [|exact F]; unfold zlen; rewrite map_length; apply Z.le_refl|]. intros a b. rewrite in_map_iff. rewrite <- (D a b). split.
  - intros ([c l] & E1 & E2). cbn [fst] in E1. subst c. exists l. assumption.
  - intros (l & X). exists ((a, b), l). split; [reflexivity|assumption].
Qed.

(* ---------- changing the sign of beta ---------- *)
Definition sgn0 (m : mono) : Z := if Z.even (expo m 0) then 1 else -1.
Lemma Tm_neg : forall a m, mwf a -> 0 <= mget a 0 -> pget (Tm 0 (pneg beta) a) m = sgn0 a * ind (meqb a m).
Proof.
  intros a m Wa Na. unfold Tm.
  destruct (ppow_nat_single_neg [(0, 1)] (Z.to_nat (mget a 0))) as (b & Wb & Eb & Hb); [repeat constructor; cbn; intuition lia|].
  assert (Eb' : ppow_nat (pneg beta) (Z.to_nat (mget a 0)) = [(b, if Nat.even (Z.to_nat (mget a 0)) then 1 else -1)]) by exact Eb. rewrite Eb'.
  assert (Ev : Nat.even (Z.to_nat (mget a 0)) = Z.even (mget a 0)) by (rewrite <- (Z2Nat.id (mget a 0)) at 2 by assumption; generalize (Z.to_nat (mget a 0)); induction n as [|n IHn]; [reflexivity|]; rewrite Nat2Z.inj_succ, Z.even_succ, <- Z.negb_even, Nat.even_succ, <- Nat.negb_even, IHn; reflexivity).
  rewrite pmul_single_gen by (destruct (Nat.even _); lia).
  assert (Em : mmul (mdel a 0) b = a).
  { apply mwf_ext; [apply mmul_wf|assumption|]. intro t. rewrite mget_mmul, mget_mdel, Hb. cbn [mget dget0]. change (mget [(0, 1)] t) with (mget (mvar 0 1) t). rewrite mget_mvar. destruct (Z.eqb_spec 0 t) as [<-|]; [rewrite Z2Nat.id by assumption; lia|lia]. }
  rewrite Em, Ev, Z.mul_1_l. unfold sgn0. rewrite expo_mget. unfold pget, dget0. cbn [dget]. destruct (meqb a m); cbn [ind]; lia.
Qed.
Lemma negate_poly : forall v, pwf v -> nonneg_in 0 v -> exists r, psubstitute v 0 (pneg beta) = Ok r /\ pwf r /\ forall m, pget r m = sgn0 m * pget v m.
Proof.
  intros v Wv Nv. destruct (psubstitute_ok 0 (pneg beta) v (pneg_wf _) Wv Nv) as (r & E & W & H). exists r. split; [assumption|]. split; [assumption|]. intro m. rewrite H.
  rewrite (zlin_ext_In v _ (fun a => sgn0 m * ind (meqb a m))).
  2:{ intros k Hk. rewrite Tm_neg; [|apply (pwf_key v); assumption|apply (nonneg_in_key 0 v); assumption]. destruct (meqb k m) eqn:E1; [apply meqb_spec in E1; subst; reflexivity|]. cbn [ind]. lia. }
  rewrite (lin_F_scale 0 1 Z.add Z.mul Z.sub Z.opp InitialRing.Zth). f_equal. destruct Wv as [N _]. clear -N. unfold pget, dget0.
  induction v as [|[k c] v IH]; [reflexivity|]. cbn [map fst] in N. inversion N as [|? ? N1 N2]; subst. unfold lin in *. cbn [lsum fst snd dget]. destruct (meqb k m) eqn:E.
  - apply meqb_spec in E. subst k. rewrite IH by assumption. replace (dget meqb v m) with (@None Z); [cbn [ind]; lia|]. symmetry. apply (dget_None_notIn meqb meqb_spec). assumption.
  - rewrite IH by assumption. cbn [ind]. lia.
Qed.
Definition negatable (g : nsym) : Prop := Forall (fun kx => exists v, snd kx = NP v /\ nonneg_in 0 v) g.
Lemma negate_beta_ok : forall g, nvwf g -> negatable g -> exists g', negate_beta g = Ok g' /\ nvwf g' /\ (forall k, In k (map fst g') -> In k (map fst g)) /\
  forall k m, ncoeff (sg g' k) m = sgn0 m * ncoeff (sg g k) m.
Proof.
  intros g Wg Ng.
  assert (X : exists d, rmap (fun kv : smono * num => match snd kv with NI _ => Err AttributeError | NP v => do v' <- psubstitute v 0 (pneg beta); Ok (fst kv, NP v') end) g = Ok d /\
    map fst d = map fst g /\ oks d /\ forall k m, ncoeff (sg d k) m = sgn0 m * ncoeff (sg g k) m).
  { destruct Wg as [_ Wg]. induction g as [|[k x] g IH].
    - exists []. split; [reflexivity|]. split; [reflexivity|]. split; [constructor|]. intros. rewrite nget_nil. change (ncoeff (NI 0) m) with (pget (pconst 0) m). assert (Z0 : pget (pconst 0) m = 0) by (unfold pget, pconst, dget0; cbn [dget]; destruct (meqb [] m); reflexivity). rewrite Z0. lia.
    - inversion Wg as [|? ? W1 W2]; inversion Ng as [|? ? N1 N2]; subst. destruct N1 as (v & Ev & Nv). cbn [snd] in *. subst x. destruct (IH W2 N2) as (d & E & F & O & H).
      destruct (negate_poly v (proj1 W1) Nv) as (r & Er & Wr & Hr). exists ((k, NP r) :: d). cbn [rmap fst snd]. rewrite Er. cbn [rbind]. rewrite E. cbn [rbind]. split; [reflexivity|]. split; [cbn [map fst]; f_equal; assumption|]. split; [constructor; assumption|].
      intros k' m. rewrite !nget_cons. destruct (smono_eqb k k'); [|apply H]. apply Hr. }
  destruct X as (d & E & F & O & H). assert (Nd : NoDup (map fst d)) by (rewrite F; apply Wg).
  exists (vmake nzero d). split; [unfold negate_beta; rewrite E; reflexivity|]. split; [apply vmake_nvwf; assumption|]. split.
  - intros k Hk. rewrite <- F. apply in_map_iff in Hk. destruct Hk as (y & <- & Hy). apply in_map. apply filter_In in Hy. apply Hy.
  - intros k m. rewrite <- H. rewrite !ncoeff_nev; [apply (vmake_get smono_eqb smono_eqb_eq); assumption|apply nget_ok; assumption|apply nget_ok, nvwf_oks, vmake_nvwf; assumption].
Qed.

(* ---------- the doublebar combinations ---------- *)
Lemma wcount_app : forall n r s alpha, wcount n (r ++ s) alpha = wcount n r alpha + wcount n s alpha.
Proof. intros. unfold wcount. apply zs_app. Qed.

Lemma doublebar_ok : forall n (family : list Z -> res nsym) (Q : list Z -> tab -> Prop) mu nu b xs,
  NoDup xs -> (forall x y T, In x xs -> In y xs -> Q x T -> Q y T -> x = y) ->
  (forall x, In x xs -> exists r g, tabpack n (Q x) r /\ family x = Ok g /\ beta_counts n (zsum mu - zsum x) b r g) ->
  exists r g, tabpack n (fun T => exists x, In x xs /\ Q x T) r /\ doublebar_loop family nu (map Some xs) = Ok g /\ beta_counts n (zsum mu - zsum nu) b r g.
Proof.
  intros n family Q mu nu b xs Nx Dj H. unfold doublebar_loop.
  assert (X : forall ys r0 g0 (Q0 : tab -> Prop), NoDup ys -> (forall x, In x ys -> In x xs) -> (forall x T, In x ys -> Q0 T -> ~ Q x T) ->
    tabpack n Q0 r0 -> beta_counts n (zsum mu - zsum nu) b r0 g0 ->
    exists r g, tabpack n (fun T => Q0 T \/ exists x, In x ys /\ Q x T) r /\
      rfold (fun ans ox => match ox with Some x => do g <- family x; Ok (nvadd smono_eqb ans (nvscale smono_eqb g (NP (beta_pow (zsum nu - zsum x))))) | None => Err TypeError end) (map Some ys) g0 = Ok g /\
      beta_counts n (zsum mu - zsum nu) b r g).
  { induction ys as [|x ys IH]; intros r0 g0 Q0 Ny Sub D0 T0 B0.
    - exists r0, g0. split; [|split; [reflexivity|assumption]]. destruct T0 as (A1 & A2 & A3). split; [assumption|]. split; [|assumption]. intro T. rewrite A2. split; [auto|]. intros [X|(x & [] & _)]. assumption.
    - inversion Ny as [|? ? N1 N2]; subst. destruct (H x (Sub x (or_introl eq_refl))) as (r & g & Tp & Ef & Bg).
      destruct Bg as (Wg & Kg & Hg). destruct B0 as (W0 & K0 & H0).
      assert (Oc : nok (NP (beta_pow (zsum nu - zsum x)))) by apply beta_pow_wf.
      destruct (nvscale_ok smono_eqb smono_eqb_eq g _ Wg Oc) as [W2 H2]. set (g2 := nvscale smono_eqb g (NP (beta_pow (zsum nu - zsum x)))) in *.
      destruct (nvadd_ok smono_eqb smono_eqb_eq g0 g2 W0 W2) as [W3 H3]. set (g3 := nvadd smono_eqb g0 g2) in *.
      destruct (IH (r0 ++ r) g3 (fun T => Q0 T \/ Q x T)) as (r' & g' & T' & E' & B').
      + assumption.
      + intros y Hy. apply Sub. right. assumption.
      + intros y T Hy [X|X] Y; [apply (D0 y T (or_intror Hy) X Y)|]. assert (x = y) by (apply (Dj x y T); [apply Sub; left; reflexivity|apply Sub; right; assumption|assumption|assumption]). subst. contradiction.
      + destruct T0 as (A1 & A2 & A3 & A4), Tp as (C1 & C2 & C3 & C4). split; [apply NoDup_app_intro; [assumption|assumption|]|].
        * intros T X Y. apply A2 in X. apply C2 in Y. apply (D0 x T (or_introl eq_refl) X Y).
        * split; [intro T; rewrite in_app_iff, A2, C2; reflexivity|]. split; [intros t Ht; apply in_app_iff in Ht; destruct Ht as [Ht|Ht]; [apply A3|apply C3]; assumption|].
          intros alpha beta La P. rewrite !wcount_app, (A4 alpha beta La P), (C4 alpha beta La P). reflexivity.
      + split; [assumption|]. split.
        * intros m Hin. destruct (in_dec (keq_dec smono_eqb smono_eqb_eq) m (map fst g0)) as [I|I]; [apply K0; assumption|]. destruct (in_dec (keq_dec smono_eqb smono_eqb_eq) m (map fst g)) as [J|J]; [apply Kg; assumption|].
          exfalso. pose proof (proj1 (nget_nonzero smono_eqb smono_eqb_eq g3 m W3) Hin) as Z0. assert (Z1 : nzero (sg g3 m) = true); [|congruence].
          apply nzero_spec; [apply nget_ok, nvwf_oks; assumption|]. intro G. rewrite H3, H2, (nget_notin smono_eqb smono_eqb_eq g0), (nget_notin smono_eqb smono_eqb_eq g) by assumption. cbn [nev]. lia.
        * intros p G Fp. rewrite H3, H2, (H0 p G Fp), (Hg p _ Fp). cbn [nev]. rewrite beta_pow_ev, mvar_mul, wcount_app. replace (zsum p - (zsum mu - zsum x) + (zsum nu - zsum x)) with (zsum p - (zsum mu - zsum nu)) by lia. destruct (within b p); lia.
      + exists r', g'. split; [|split; [cbn [map rfold]; rewrite Ef; exact E'|assumption]].
        destruct T' as (A1 & A2 & A3). split; [assumption|]. split; [|assumption]. intro T. rewrite A2. split.
        * intros [[X|X]|(y & Y1 & Y2)]; [left; assumption|right; exists x; split; [left; reflexivity|assumption]|right; exists y; split; [right; assumption|assumption]].
        * intros [X|(y & [<-|Y1] & Y2)]; [left; left; assumption|left; right; assumption|right; exists y; split; assumption]. }
  destruct (X xs [] [] (fun _ => False)) as (r & g & T & E & B).
  - assumption.
  - auto.
  - intros x T _ [].
  - apply empty_pack. intros T [].
  - split; [split; constructor|]. split; [intros m []|]. intros p G Fp. rewrite nget_nil. cbn [nev]. destruct (within b p); reflexivity.
  - exists r, g. split; [|split; assumption]. destruct T as (A1 & A2 & A3). split; [assumption|]. split; [|assumption]. intro T. rewrite A2. split; [intros [[]|Y]; assumption|auto].
Qed.

Lemma np_scale : forall (f : nsym) q, Forall (fun kx => exists v, snd kx = NP v) (nvscale smono_eqb f (NP q)).
Proof.
  intros f q. unfold nvscale, vscale, vmake. apply Forall_forall. intros [k x] H. apply filter_In in H. destruct H as [H _]. apply in_map_iff in H. destruct H as (k' & E & _). apply (f_equal snd) in E. cbn [snd] in *. subst x.
  destruct (vget smono_eqb (NI 0) f k'); cbn [nmul]; eexists; reflexivity.
Qed.
Lemma beta_negatable : forall n k b Q r g, tabpack n Q r -> beta_counts n k b r g -> (forall T alpha, Q T -> length alpha = n -> has_weight alpha T -> k <= zsum alpha) ->
  Forall (fun kx => exists v, snd kx = NP v) g -> negatable g.
Proof.
  intros n k b Q r g (Nr & HQ & Lt & _) (Wg & Kg & Hg) Hk Np. apply Forall_forall. intros [key x] Hin. rewrite Forall_forall in Np. destruct (Np _ Hin) as (v & Ev). cbn [snd] in *. subst x. exists v. split; [reflexivity|].
  assert (Wv : pwf v) by (destruct Wg as [_ Wg]; rewrite Forall_forall in Wg; apply (Wg _ Hin)).
  assert (Eg : sg g key = NP v) by (apply (nget_In smono_eqb smono_eqb_eq); [apply Wg|assumption]).
  destruct key as [n' p]. destruct (Kg (n', p)) as [E Fp]; [apply (in_map fst) in Hin; exact Hin|]. cbn [fst snd] in *. subst n'.
  apply Forall_forall. intros [m c] Hm. cbn [fst]. assert (Ec : pget v m = c). { unfold pget, dget0. rewrite (In_dget meqb meqb_spec v m c (proj1 Wv) Hm). reflexivity. }
  assert (Nc : c <> 0). { destruct Wv as (_ & _ & W3). rewrite Forall_forall in W3. apply (W3 _ Hm). }
  assert (X : ncoeff (sg g (n, p)) m = c) by (rewrite Eg; exact Ec). rewrite ncoeff_nev in X by (apply nget_ok, nvwf_oks; assumption). rewrite (Hg p _ Fp) in X.
  destruct (meqb (mvar 0 (zsum p - k)) m) eqn:Em; [|cbn [ind] in X; lia]. apply meqb_spec in Em. subst m. rewrite mget_mvar. cbn [Z.eqb]. destruct (within b p); [|lia]. cbn [ind] in X.
  assert (Nw : wcount n r (padz p n) <> 0) by lia. unfold wcount in Nw. apply zs_nonzero in Nw. destruct Nw as (T & HT & E). destruct (zlist_eqb (wts n T) (rev (padz p n))) eqn:Ew; [|congruence].
  assert (Lp : length (padz p n) = n) by (apply padz_length, Fp).
  apply has_weight_wts in Ew; [|assumption|intros m Hm'; apply (occ_above n); [apply Lt; assumption|assumption]].
  specialize (Hk T (padz p n) (proj1 (HQ T) HT) Lp Ew). assert (Ez : zsum (padz p n) = zsum p) by apply size_padz. lia.
Qed.
Lemma negate_polynomial : forall pord isx n k b Q r g, (forall l, Permutation (pord l) l) -> tabpack n Q r -> beta_counts n k b r g ->
  (forall T alpha, Q T -> length alpha = n -> has_weight alpha T -> k <= zsum alpha) -> Forall (fun kx => exists v, snd kx = NP v) g ->
  exists P g' P', spolynomial num_terms pord isx g = Ok P /\ negate_beta g = Ok g' /\ spolynomial num_terms pord isx g' = Ok P' /\ canon P' /\
    forall m, canon_mono m -> coeff P' m = (if Z.even (expo m 0) then 1 else -1) * coeff P m.
Proof.
  intros pord isx n k b Q r g Hp T B Hk Np. pose proof (beta_negatable n k b Q r g T B Hk Np) as Ng. destruct B as (Wg & Kg & Hg).
  destruct (negate_beta_ok g Wg Ng) as (g' & E' & W' & K' & H').
  destruct (nsym_polynomial pord isx n g (fun p => if within b p then wcount n r (padz p n) else 0) (fun j => j - k) Hp Wg Kg Hg) as (P & EP & CP & H).
  destruct (nsym_polynomial pord isx n g' (fun p => (if Z.even (zsum p - k) then 1 else -1) * (if within b p then wcount n r (padz p n) else 0)) (fun j => j - k) Hp W') as (P' & EP' & CP' & HP').
  - intros m Hm. apply Kg, K'. assumption.
  - intros p G Fp. set (N' := (if Z.even (zsum p - k) then 1 else -1) * (if within b p then wcount n r (padz p n) else 0)).
    assert (Y : neqv (sg g' (n, p)) (nmul (NI N') (NP (beta_pow (zsum p - k))))).
    { apply ncoeff_eqv; [apply nget_ok, nvwf_oks; assumption|apply nok_mul|]. intro m. rewrite H', !ncoeff_nev by (try apply nok_mul; apply nget_ok, nvwf_oks; assumption). rewrite (Hg p _ Fp). rewrite nev_mul by (try exact I; apply beta_pow_wf). cbn [nev]. rewrite beta_pow_ev, mmul_nil_l by apply mvar_wf.
      destruct (meqb (mvar 0 (zsum p - k)) m) eqn:Em; cbn [ind]; [|lia]. apply meqb_spec in Em. subst m. unfold N', sgn0. rewrite expo_mget, mget_mvar. cbn [Z.eqb]. lia. }
    rewrite (Y G). rewrite nev_mul by (try exact I; apply beta_pow_wf). cbn [nev]. rewrite beta_pow_ev, mmul_nil_l by apply mvar_wf. lia.
  - exists P, g', P'. split; [assumption|]. split; [assumption|]. split; [assumption|]. split; [assumption|]. intros m C. destruct (H m C) as [H1 H2]. destruct (HP' m C) as [H3 H4]. set (e0 := exponents isx n m) in *.
    assert (L0 : length e0 = n) by (unfold e0, exponents; rewrite map_length, seq_length; reflexivity).
    destruct (Forall_dec (fun x => 0 <= x) (Z_le_dec 0) e0) as [F0|F0].
    + destruct (meqb m (mmul (vmon isx e0) (mvar 0 (zsum e0 - k)))) eqn:X.
      * apply meqb_spec in X. rewrite (H1 F0 X), (H3 F0 X). destruct (sort_arr n e0 L0 F0) as (_ & _ & Sz & _). rewrite Sz. f_equal.
        assert (Ex : expo m 0 = zsum e0 - k) by (rewrite X, expo_mget, mget_mmul, vmon_zero, mget_mvar; reflexivity). rewrite Ex. reflexivity.
      * rewrite H2, H4; [lia| |]; intros [_ Y]; apply meqb_spec in Y; congruence.
    + rewrite H2, H4; [lia| |]; intros [Y _]; contradiction.
Qed.
