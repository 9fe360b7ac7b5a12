(* The coefficients of the transposed dual polynomials *)
From Coq Require Import List ZArith Lia Bool Permutation Arith Sorting.Sorted.
From Verif Require Import PyBase FinSum M_Partitions S_Partitions L_Partitions L_PartBasic L_PartEnum M_Vectors L_Vectors M_Polynomials L_Polynomials L_PolySubst M_Tableaux S_Tableaux L_Tableaux S_Strips M_Semistandard S_Semistandard L_Strips2 L_Shape M_RPP M_Symmetric M_Expansion M_Slow M_Dual
  L_SymPoly L_SymMul L_Kostka L_Num L_Expand1 L_Expand2 L_Expand3 L_Expand4 L_Expand5 P_Count L_Sym1 L_Sym3 L_Slow L_Families L_Dual S_Transposed M_Transposed L_CountCache L_Count L_Trans1 L_Trans2 L_Trans3.
Import ListNotations.
Local Open Scope Z_scope.
Local Notation sg := (nget smono_eqb).

(* ---------- powers of beta ---------- *)
Lemma opp_pow_eq : forall k, opp_pow k = beta_pow k.
Proof. intro k. unfold opp_pow. change (pneg (pneg beta)) with beta. reflexivity. Qed.
Lemma opp_inv_eq : forall k, 0 <= k -> opp_inv_pow k = [(mvar 0 (- k), 1)].
Proof.
  intros k Hk. unfold opp_inv_pow. change (pneg (neg_beta_pow (-1))) with [(mvar 0 (-1), 1)]. replace k with (Z.of_nat (Z.to_nat k)) at 1 by lia. rewrite ppow_nonneg_nat.
  destruct (ppow_single (mvar 0 (-1)) (Z.to_nat k) (mvar_wf 0 (-1))) as (m & E & Wm & H). rewrite E. f_equal. f_equal. apply mwf_ext; [assumption|apply mvar_wf|]. intro t. rewrite H, !mget_mvar. destruct (0 =? t); lia.
Qed.

(* ---------- exponent tuples ---------- *)
Definition tup (n : nat) (m : mono) : list Z := map (mget m) (zrange 1 (Z.of_nat n + 1)).
Lemma tup_length : forall n m, length (tup n m) = n.
Proof. intros. unfold tup. rewrite map_length. apply zrange_length1. Qed.
Lemma nth_tup : forall n m k, (k < n)%nat -> nth k (tup n m) 0 = mget m (Z.of_nat k + 1).
Proof.
  intros n m k L. unfold tup, zrange. replace (Z.to_nat (Z.of_nat n + 1 - 1)) with n by lia. rewrite map_map.
  rewrite (nth_indep _ 0 ((fun x => mget m (1 + Z.of_nat x)) 0%nat)) by (rewrite map_length, seq_length; assumption). rewrite (map_nth (fun x => mget m (1 + Z.of_nat x))), seq_nth by assumption. cbn [Nat.add]. f_equal. lia.
Qed.
Lemma tup_vec : forall n l, tup n (monof l) = vec n l.
Proof. intros n l. unfold tup, vec. apply map_ext. intro t. apply monof_get. Qed.
Lemma nth_upd : forall (l : list Z) i v k, (i < length l)%nat -> nth k (upd l i v) 0 = if (k =? i)%nat then v else nth k l 0.
Proof. exact L_PartBasic.upd_row. Qed.
Lemma set_loop : forall n (m : mono) l, NoDup (map fst m) -> (forall t, In t (map fst m) -> 1 <= t <= Z.of_nat n) -> length l = n ->
  exists r, rfold (fun (tup : list Z) (ie : Z * Z) => set_at tup (fst ie - 1) (snd ie)) m l = Ok r /\ length r = n /\
    forall k, (k < n)%nat -> nth k r 0 = match dget Z.eqb m (Z.of_nat k + 1) with Some e => e | None => nth k l 0 end.
Proof.
  intros n m. induction m as [|[t e] m IH]; intros l N H L.
  - exists l. split; [reflexivity|]. split; [assumption|]. intros; reflexivity.
  - cbn [map fst] in N. inversion N as [|? ? N1 N2]; subst. specialize (H t (or_introl eq_refl)) as Ht. cbn [rfold fst snd].
    assert (E : set_at l (t - 1) e = Ok (upd l (Z.to_nat (t - 1)) e)).
    { unfold set_at, zlen. replace (t - 1 <? 0) with false by (symmetry; apply Z.ltb_ge; lia). cbv zeta. replace (0 <=? t - 1) with true by (symmetry; apply Z.leb_le; lia). replace (t - 1 <? Z.of_nat (length l)) with true by (symmetry; apply Z.ltb_lt; lia). reflexivity. }
    rewrite E. cbn [rbind]. destruct (IH (upd l (Z.to_nat (t - 1)) e) N2) as (r & E1 & E2 & E3); [intros s Hs; apply H; right; assumption|apply L_PartBasic.upd_length|].
    exists r. split; [assumption|]. split; [assumption|]. intros k Hk. rewrite (E3 k Hk). cbn [dget]. rewrite nth_upd by lia.
    destruct (Z.eqb_spec t (Z.of_nat k + 1)) as [X|X].
    + replace (dget Z.eqb m (Z.of_nat k + 1)) with (@None Z); [replace (k =? Z.to_nat (t - 1))%nat with true by (symmetry; apply Nat.eqb_eq; lia); reflexivity|]. symmetry. apply (dget_None_notIn Z.eqb Z.eqb_eq). rewrite <- X. assumption.
    + replace (k =? Z.to_nat (t - 1))%nat with false by (symmetry; apply Nat.eqb_neq; lia). reflexivity.
Qed.
Lemma set_tup : forall n (m : mono), mwf m -> (forall t, mget m t <> 0 -> 1 <= t <= Z.of_nat n) ->
  rfold (fun (tup : list Z) (ie : Z * Z) => set_at tup (fst ie - 1) (snd ie)) m (repeat 0 n) = Ok (tup n m).
Proof.
  intros n m Wm H. assert (N : NoDup (map fst m)) by (apply zsorted_NoDup, Wm). destruct (set_loop n m (repeat 0 n) N) as (r & E & L & K); [|apply repeat_length|].
  - intros t Ht. apply H. apply in_map_iff in Ht. destruct Ht as ([t' e] & <- & Ht). destruct Wm as [_ Wm]. rewrite Forall_forall in Wm. pose proof (Wm _ Ht) as X. cbn [fst snd] in *. unfold mget, dget0. rewrite (In_dget Z.eqb Z.eqb_eq m t' e N Ht). exact X.
  - rewrite E. f_equal. apply nth_ext with (d := 0) (d' := 0); [rewrite tup_length; assumption|]. intros k Hk. rewrite L in Hk. rewrite K, nth_tup by assumption. unfold mget, dget0. destruct (dget Z.eqb m (Z.of_nat k + 1)); [reflexivity|]. apply nth_repeat.
Qed.

(* ---------- the dictionary ---------- *)
Lemma dset_fresh : forall (d : cdict) a c, ~ In a (map fst d) -> dset zlist_eqb d a c = d ++ [(a, c)].
Proof.
  induction d as [|[b x] d IH]; intros a c H; [reflexivity|]. cbn [dset app]. destruct (zlist_eqb b a) eqn:E; [apply zlist_eqb_eq in E; subst b; destruct H; left; reflexivity|]. rewrite IH; [reflexivity|]. intro I0. apply H. right. assumption.
Qed.
Definition onvars (n : nat) (m : mono) : Prop := mwf m /\ forall t, mget m t <> 0 -> 1 <= t <= Z.of_nat n.
Lemma tup_inj : forall n a b, onvars n a -> onvars n b -> tup n a = tup n b -> a = b.
Proof.
  intros n a b [Wa Ha] [Wb Hb] E. apply mwf_ext; try assumption. intro t. destruct (Z_le_dec 1 t) as [L1|L1]; [destruct (Z_le_dec t (Z.of_nat n)) as [L2|L2]|].
  - apply (f_equal (fun l => nth (Z.to_nat (t - 1)) l 0)) in E. rewrite !nth_tup in E by lia. replace (Z.of_nat (Z.to_nat (t - 1)) + 1) with t in E by lia. exact E.
  - assert (mget a t = 0) by (destruct (Z.eq_dec (mget a t) 0) as [|N]; [assumption|apply Ha in N; lia]). assert (mget b t = 0) by (destruct (Z.eq_dec (mget b t) 0) as [|N]; [assumption|apply Hb in N; lia]). congruence.
  - assert (mget a t = 0) by (destruct (Z.eq_dec (mget a t) 0) as [|N]; [assumption|apply Ha in N; lia]). assert (mget b t = 0) by (destruct (Z.eq_dec (mget b t) 0) as [|N]; [assumption|apply Hb in N; lia]). congruence.
Qed.
Definition tuples (n : nat) (p : poly) : cdict := map (fun ec => (tup n (fst ec), snd ec)) p.
Lemma tuples_NoDup : forall n p, NoDup (map fst p) -> (forall m, In m (map fst p) -> onvars n m) -> NoDup (map fst (tuples n p)).
Proof.
  intros n p. induction p as [|[m c] p IH]; intros N H; [constructor|]. cbn [map fst] in N. inversion N as [|? ? N1 N2]; subst. cbn [tuples map fst snd]. constructor; [|apply IH; [assumption|intros m' H'; apply H; right; assumption]].
  intro I0. unfold tuples in I0. rewrite map_map in I0. apply in_map_iff in I0. destruct I0 as ([m' c'] & E & I0). cbn [fst] in E. apply (in_map fst) in I0. cbn [fst] in I0. apply tup_inj in E; [subst m'; contradiction|apply H; right; assumption|apply H; left; reflexivity].
Qed.
Lemma dictionary_ok : forall n p, NoDup (map fst p) -> (forall m, In m (map fst p) -> onvars n m) -> j_dictionary n p = Ok (tuples n p).
Proof.
  intros n p N H. unfold j_dictionary. pose proof (tuples_NoDup n p N H) as ND. revert ND H. change (tuples n p) with ([] ++ tuples n p) at 2.
  replace (map fst (tuples n p)) with (map fst (@nil (list Z * Z)) ++ map fst (tuples n p)) by reflexivity. generalize (@nil (list Z * Z)) as d. clear N. induction p as [|[m c] p IH]; intros d N H; [rewrite app_nil_r; reflexivity|].
  cbn [rfold fst snd]. destruct (H m (or_introl eq_refl)) as [Wm Hm]. rewrite (set_tup n m Wm Hm). cbn [rbind]. cbn [tuples map fst snd] in N. rewrite dset_fresh.
  - rewrite IH.
    + rewrite <- app_assoc. reflexivity.
    + rewrite map_app. cbn [map fst]. rewrite <- app_assoc. exact N.
    + intros m' H'. apply H. right. assumption.
  - apply NoDup_remove_2 in N. intro I0. apply N. apply in_or_app. left. assumption.
Qed.
Lemma cget_tuples : forall n p a, NoDup (map fst (tuples n p)) -> cget (tuples n p) a = ev p (fun m => ind (zlist_eqb (tup n m) a)).
Proof.
  intros n p a. induction p as [|[m c] p IH]; intro N; [reflexivity|]. cbn [tuples map fst snd] in N. inversion N as [|? ? N1 N2]; subst. rewrite ev_cons. rewrite <- IH by assumption. rewrite cget_dget. cbn [tuples map fst snd dget].
  destruct (zlist_eqb (tup n m) a) eqn:E.
  - apply zlist_eqb_eq in E. subst a. unfold cget at 1. replace (dget zlist_eqb (tuples n p) (tup n m)) with (@None Z); [cbn [ind]; lia|]. symmetry. apply (dget_None_notIn zlist_eqb zlist_eqb_eq). assumption.
  - cbn [ind]. rewrite cget_dget. unfold tuples. lia.
Qed.

Lemma flat_len : forall A B C (f : A -> C -> bool) (h : A -> C -> B) (k : A -> list C) l, Z.of_nat (length (flat_map (fun T => map (h T) (filter (f T) (k T))) l)) = zs (fun T => zs (fun g => ind (f T g)) (k T)) l.
Proof.
  intros A B C f h k. induction l as [|T l IH]; [reflexivity|]. cbn [flat_map]. rewrite zs_cons, app_length, map_length, Nat2Z.inj_add, IH. f_equal.
  generalize (k T) as L. induction L as [|g L IHL]; [reflexivity|]. cbn [filter]. rewrite zs_cons, <- IHL. destruct (f T g); cbn [ind length]; lia.
Qed.

(* ---------- the sum over the tableaux ---------- *)
Section Sum.
  Variable sh : bool.
  Variable pr : Z -> Z -> Prop.
  Variable n : nat.
  Variables (lam mu : list Z).
  Variable stat : list (box * Z) -> Z -> Z * Z.
  Variable R : list tab.
  Hypothesis HR : forall T, In T R -> semistandard_filling (dcell sh) pr false (Z.of_nat n) lam mu T.
  Hypothesis NR : NoDup R.
  Hypothesis HS : forall T, In T R -> theads T = Ok (heads T) /\ forall i, 1 <= i <= Z.of_nat n -> stat (heads T) i = (Z.of_nat (npick i false (cellsL T)), Z.of_nat (npick i true (cellsL T))).

  Lemma j_sum_ok : exists p, j_sum stat n R = Ok p /\ pwf p /\ forall G, ev p G = zs (fun T => jev (cellsL T) G) R.
  Proof.
    unfold j_sum. assert (X : forall l p0, (forall T, In T l -> In T R) -> pwf p0 -> exists p, rfold (fun p t => do m <- j_monomial stat n t; Ok (plus_num p m)) l p0 = Ok p /\ pwf p /\ forall G, ev p G = ev p0 G + zs (fun T => jev (cellsL T) G) l).
    { induction l as [|T l IH]; intros p0 Hl W0; [exists p0; split; [reflexivity|]; split; [assumption|]; intro G; rewrite zs_nil; lia|]. cbn [rfold].
      destruct (HS T (Hl T (or_introl eq_refl))) as [Eh Hs]. destruct (j_monomial_ok stat n T (heads T) (cellsL T) Eh) as (m & Em & Om & Hm); [apply (cellsL_range sh pr (Z.of_nat n) lam mu), HR, Hl; left; reflexivity|exact Hs|].
      rewrite Em. cbn [rbind].
      assert (Wp : pwf (plus_num p0 m)) by (destruct m; cbn [plus_num]; apply padd_wf; [assumption|apply pint_wf|assumption|exact Om]).
      assert (Ep : forall G, ev (plus_num p0 m) G = ev p0 G + jev (cellsL T) G).
      { intro G. rewrite <- Hm. destruct m as [a|q]; cbn [plus_num nev]; rewrite ev_padd; try assumption; try apply pint_wf; [rewrite ev_pint; reflexivity|reflexivity]. }
      destruct (IH (plus_num p0 m)) as (p & E1 & E2 & E3); [intros U HU; apply Hl; right; assumption|assumption|]. exists p. split; [assumption|]. split; [assumption|]. intro G. rewrite E3, Ep, zs_cons. lia. }
    destruct (X R pzero (fun T h => h)) as (p & E1 & E2 & E3); [split; [constructor|split; constructor]|]. exists p. split; [assumption|]. split; [assumption|]. intro G. rewrite E3. reflexivity.
  Qed.

  Definition ngroups (alpha : list Z) : Z := zs (fun T => zs (fun g => ind (zlist_eqb (vec n (kept (cellsL T) g)) alpha)) (masks (map snd (cellsL T)))) R.
  Lemma ngroups_card : forall alpha, length alpha = n -> cardinality (fun V => In (fst V) R /\ grouping_of (fst V) (snd V) /\ group_weight alpha V) (ngroups alpha).
  Proof.
    clear HS stat.
    intros alpha La. unfold ngroups. set (ok := fun T g => zlist_eqb (vec n (kept (cellsL T) g)) alpha).
    exists (flat_map (fun T => map (fun g => (T, grp_of T g)) (filter (ok T) (masks (map snd (cellsL T))))) R). split; [|split].
    - assert (X : forall l, NoDup l -> (forall T, In T l -> In T R) -> NoDup (flat_map (fun T => map (fun g => (T, grp_of T g)) (filter (ok T) (masks (map snd (cellsL T))))) l)); [|apply X; [exact NR|intros T H; exact H]].
      induction l as [|T l IH]; intros N H; [constructor|]. inversion N as [|? ? N1 N2]; subst. cbn [flat_map]. apply NoDup_app_intro; [|apply IH; [assumption|intros U HU; apply H; right; assumption]|].
      + pose proof (mask_length T) as M. pose proof (NoDup_filter _ (ok T) _ (masks_NoDup (map snd (cellsL T)))) as N0.
        assert (M' : forall g, In g (filter (ok T) (masks (map snd (cellsL T)))) -> length g = length T) by (intros g Hg; apply filter_In in Hg; apply M, Hg).
        revert M' N0. generalize (filter (ok T) (masks (map snd (cellsL T)))) as L. clear. induction L as [|g L IH]; intros M N; [constructor|]. inversion N as [|? ? N1 N2]; subst. cbn [map]. constructor.
        * intro I0. apply in_map_iff in I0. destruct I0 as (g' & E & H). injection E as E. assert (g' = g) by (apply (grp_inj T); [apply M; right; assumption|apply M; left; reflexivity|assumption]). subst g'. contradiction.
        * apply IH; [intros g' H; apply M; right; assumption|assumption].
      + intros [U G] I1 I2. apply in_map_iff in I1. destruct I1 as (g & E & _). injection E as <- _. apply in_flat_map in I2. destruct I2 as (U & HU & I2). apply in_map_iff in I2. destruct I2 as (g' & E & _). injection E as <- _. contradiction.
    - intros [T G]. cbn [fst snd]. rewrite in_flat_map. split.
      + intros (U & HU & I0). apply in_map_iff in I0. destruct I0 as (g & E & I0). injection E as <- <-. apply filter_In in I0. destruct I0 as [I0 O]. apply zlist_eqb_eq in O. split; [assumption|]. split.
        * apply (grouping_In sh pr (Z.of_nat n) lam mu U (HR U HU)). unfold groupings. apply in_map. assumption.
        * apply (group_weight_vec sh pr (Z.of_nat n) lam mu U (HR U HU) n g alpha eq_refl); [apply mask_length; assumption|assumption|assumption].
      + intros (HU & Hg & W). exists T. split; [assumption|]. apply (grouping_In sh pr (Z.of_nat n) lam mu T (HR T HU)) in Hg. unfold groupings in Hg. apply in_map_iff in Hg. destruct Hg as (g & <- & Hg). apply in_map_iff. exists g. split; [reflexivity|]. apply filter_In. split; [assumption|].
        apply zlist_eqb_eq. apply (group_weight_vec sh pr (Z.of_nat n) lam mu T (HR T HU) n g alpha eq_refl); [apply mask_length; assumption|assumption|assumption].
    - exact (flat_len _ _ _ ok (fun T g => (T, grp_of T g)) (fun T => masks (map snd (cellsL T))) R).
  Qed.

  Lemma transposed_ok : exists f, transposed_dual stat n R mu lam = Ok f /\ nvwf f /\ (forall m, In m (map fst f) -> fst m = n /\ fits n (snd m)) /\
    forall alpha G, fits n alpha -> nev (sg f (n, alpha)) G = ngroups (padz alpha n) * G (mvar 0 (zsum mu - zsum lam - zsum alpha)).
  Proof.
    destruct j_sum_ok as (p & Ep & Wp & Hp).
    assert (Kp : forall m, In m (map fst p) -> onvars n m).
    { intros m Hm. assert (Wm : mwf m) by (destruct Wp as (_ & W & _); rewrite Forall_forall in W; apply in_map_iff in Hm; destruct Hm as (x & <- & Hx); apply (W x Hx)). split; [assumption|].
      assert (Nz : pget p m <> 0).
      { apply in_map_iff in Hm. destruct Hm as ([m' c] & <- & Hm). cbn [fst]. rewrite (pget_In p m' c); [|apply Wp|assumption]. destruct Wp as (_ & _ & F). rewrite Forall_forall in F. apply (F _ Hm). }
      rewrite ev_get in Nz by apply Wp. rewrite Hp in Nz. apply zs_nonzero in Nz. destruct Nz as (T & HT & Nz). rewrite jev_masks in Nz. apply zs_nonzero in Nz. destruct Nz as (g & Hg & Nz).
      destruct (meqb (monof (kept (cellsL T) g)) m) eqn:E; [|cbn [ind] in Nz; lia]. apply meqb_spec in E. subst m. intros t Ht. rewrite monof_get in Ht.
      destruct (filter (Z.eqb t) (kept (cellsL T) g)) as [|v l] eqn:F; [cbn in Ht; lia|]. assert (I0 : In v (filter (Z.eqb t) (kept (cellsL T) g))) by (rewrite F; left; reflexivity). apply filter_In in I0. destruct I0 as [I0 Ev]. apply Z.eqb_eq in Ev. subst v. exact (kept_range sh pr (Z.of_nat n) lam mu T (HR T HT) g t I0). }
    pose proof (dictionary_ok n p (proj1 Wp) Kp) as Ed. pose proof (tuples_NoDup n p (proj1 Wp) Kp) as Nd. set (D := tuples n p) in *.
    assert (C : forall a, cget D a = ngroups a).
    { intro a. unfold D. rewrite cget_tuples by assumption. rewrite Hp. unfold ngroups. apply zs_ext. intros T _. rewrite jev_masks. apply zs_ext. intros g _. rewrite tup_vec. reflexivity. }
    assert (SO : forall alpha c, nok (slow_coeff (Some opp_inv_pow) alpha c)) by (intros; apply nok_mul).
    assert (LD : forall a, In a (map fst D) -> length a = n) by (intros a Ha; unfold D, tuples in Ha; rewrite map_map in Ha; apply in_map_iff in Ha; destruct Ha as (x & <- & _); apply tup_length).
    destruct (slow_loop (Some opp_inv_pow) SO n D [] Nd LD) as (r & E1 & E2 & E3 & E4 & E5); [constructor|constructor|intros m []|].
    set (k := zsum mu - zsum lam). assert (W1 : nvwf (vmake nzero r)) by (apply vmake_nvwf; assumption).
    assert (Oc : nok (NP (opp_pow k))) by (rewrite opp_pow_eq; apply beta_pow_wf).
    destruct (nvscale_ok smono_eqb smono_eqb_eq (vmake nzero r) _ W1 Oc) as [W2 H2].
    exists (nvscale smono_eqb (vmake nzero r) (NP (opp_pow k))). split; [|split; [assumption|split]].
    - unfold transposed_dual. rewrite Ep. cbn [rbind]. rewrite Ed. cbn [rbind]. rewrite E1. reflexivity.
    - apply scaled_keys; [assumption|assumption|]. intros m Hm. apply E4. apply in_map_iff in Hm. destruct Hm as (x & <- & Hx). apply in_map. apply filter_In in Hx. apply Hx.
    - intros alpha G Fa. rewrite H2, (vmake_get smono_eqb smono_eqb_eq r _ E2 E3), (E5 alpha Fa), <- C, cget_dget.
      destruct (dget zlist_eqb D (padz alpha n)) as [c|]; [|rewrite nget_nil; cbn [nev]; lia].
      assert (Ez : zsum (padz alpha n) = zsum alpha) by apply size_padz. assert (0 <= zsum alpha) by (apply zsum_pos_nonneg; apply Fa).
      cbn [slow_coeff]. rewrite Ez, opp_inv_eq by assumption. rewrite nev_mul by (try exact I; apply single_wf; lia). cbn [nev]. rewrite opp_pow_eq, ev_cons, beta_pow_ev. change (ev [] _) with 0. rewrite mmul_nil_l by apply mvar_wf. rewrite mvar_mul. replace (- zsum alpha + k) with (k - zsum alpha) by lia. lia.
  Qed.
End Sum.
