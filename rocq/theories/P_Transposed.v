(* C75-C77: valued-set tableaux, the transposed dual stable Grothendieck families and their expansions.
   The parameters ord, bord, tord are the unspecified iteration orders of Python sets. *)
From Coq Require Import List ZArith Lia Bool Permutation Arith Sorting.Sorted.
From Verif Require Import PyBase FinSum M_Partitions S_Partitions L_Partitions L_PartBasic L_PartMore L_PartEnum L_Destand L_Destand2 M_Vectors L_Vectors M_Polynomials S_Polynomials L_Polynomials P_Polynomials L_PolySubst
  M_Tableaux S_Tableaux L_Tableaux S_Strips M_RPP S_RPP M_Semistandard S_Semistandard L_Strips2 L_Shape L_Semi L_Semi2 L_Semi3 L_Semi4 L_Semi5 L_Count L_Count2 L_Count3 L_CountCache M_Symmetric S_Symmetric M_Expansion S_Expansion M_Slow M_Families M_Dual
  L_SymPoly L_SymMul L_Growth L_Kostka L_Num L_Expand1 L_Expand2 L_Expand3 L_Expand4 L_Expand5 L_Expand6 L_Expand7 P_Symmetric P_Expansion P_Semistandard P_Count L_Sym1 L_Sym2 L_Sym3 L_Sym4 L_Sym5 L_Sym6 L_Sym8 L_Sym11 L_Slow P_Symmetry L_Insertion6 L_Families L_Families2 P_Families L_ShiftTri L_RPP1 L_RPP2 L_RPP3 L_RPP4 P_RPP L_RPP6 L_Dual L_Dual2 S_Dual L_Dual3 P_Dual
  S_Transposed M_Transposed L_Trans1 L_Trans2 L_Trans3 L_Trans4 L_Trans5 L_Trans6.
Import ListNotations.
Local Open Scope Z_scope.
Local Notation sg := (nget smono_eqb).

Lemma transposed_coeffs : forall (sh : bool) (pr : Z -> Z -> Prop) n (lam mu : list Z) (R : list tab) (f : nsym), (if sh then strict_partition mu else partition mu) -> (if sh then strict_partition lam else partition lam) ->
  (forall T, In T R <-> tableau_of (dcell sh) pr false n mu lam T) -> NoDup R -> nvwf f ->
  (forall m, In m (map fst f) -> fst m = n /\ fits n (snd m)) ->
  (forall alpha G, fits n alpha -> nev (sg f (n, alpha)) G = ngroups n R (padz alpha n) * G (mvar 0 (zsum mu - zsum lam - zsum alpha))) ->
  transposed_coefficients n (size mu - size lam) (valued_set_tableau (dcell sh) pr n mu lam) f.
Proof.
  intros sh pr n lam mu R f Hm Hl HR NR Wf Kf Hf. split.
  - apply fwf_sym_canon. split; [assumption|]. intros m Hin. destruct (Kf m Hin) as [K1 K2]. split; [assumption|]. split; [assumption|].
    destruct m as [n' alpha]. cbn [fst snd] in *. subst n'. intros G HG. rewrite Hf by assumption. rewrite HG. lia.
  - intros alpha Pa La. exists (ngroups n R (padz alpha n)). split; [apply (numbers_card sh pr n lam mu R HR NR alpha La)|].
    split; [apply (numbers_le sh pr n lam mu R Hm Hl HR alpha La)|]. apply beta_term_ev; [apply nget_ok, nvwf_oks; assumption|]. intro G. exact (Hf alpha G (conj Pa La)).
Qed.

Section Statements.
  Variable ord : list (list Z) -> list (list Z).
  Variable bord : list (Z * Z) -> list (Z * Z).
  Variable tord : list tab -> list tab.
  Hypothesis ord_perm : forall l, Permutation (ord l) l.
  Hypothesis bord_perm : forall l, Permutation (bord l) l.
  Hypothesis tord_perm : forall l, Permutation (tord l) l.

  Lemma tord_In : forall r T, In T (tord r) <-> In T r.
  Proof. intros r T. split; intro H; [exact (Permutation_in _ (tord_perm r) H)|exact (Permutation_in _ (Permutation_sym (tord_perm r)) H)]. Qed.
  Lemma tord_NoDup : forall r, NoDup r -> NoDup (tord r).
  Proof. intros r H. exact (Permutation_NoDup (Permutation_sym (tord_perm r)) H). Qed.

  Lemma plain_R : forall n mu nu, partition mu -> partition nu -> exists r, semistandard ord bord tord n mu nu false = Ok r /\ NoDup (tord r) /\
    forall T, In T (tord r) <-> tableau_of (dcell false) nowhere false n mu nu T.
  Proof.
    intros n mu nu Hm Hn. destruct (pack_plain ord bord tord ord_perm bord_perm tord_perm n mu nu false Hm Hn) as (r & _ & E & _ & (N & H & _) & _).
    exists r. split; [assumption|]. split; [apply tord_NoDup; assumption|]. intro T. rewrite tord_In. apply H.
  Qed.
  Lemma shifted_R : forall dp n mu nu, strict_partition mu -> strict_partition nu -> exists r, semistandard_shifted_marked ord bord tord n mu nu dp false = Ok r /\ NoDup (tord r) /\
    forall T, In T (tord r) <-> tableau_of (dcell true) (pprime dp) false n mu nu T.
  Proof.
    intros dp n mu nu Hm Hn. destruct (pack_shifted' ord bord tord ord_perm bord_perm tord_perm n mu nu dp false Hm Hn) as (r & _ & E & _ & (N & H & _) & _).
    exists r. split; [assumption|]. split; [apply tord_NoDup; assumption|]. intro T. rewrite tord_In. apply H.
  Qed.
  Lemma plain_sum : forall n mu nu R, (forall T, In T R <-> tableau_of (dcell false) nowhere false n mu nu T) ->
    exists f, transposed_dual stat_plain n R mu nu = Ok f /\ nvwf f /\ (forall m, In m (map fst f) -> fst m = n /\ fits n (snd m)) /\
      forall alpha G, fits n alpha -> nev (sg f (n, alpha)) G = ngroups n R (padz alpha n) * G (mvar 0 (zsum mu - zsum nu - zsum alpha)).
  Proof.
    intros n mu nu R HR. assert (HT : forall T, In T R -> semistandard_filling (dcell false) nowhere false (Z.of_nat n) nu mu T) by (intros T I; apply HR in I; apply I).
    apply (transposed_ok false nowhere n nu mu stat_plain R HT). intros T I. specialize (HT T I). split; [exact (theads_eq _ _ _ _ _ _ HT)|].
    intros i [Hi _]. apply (stat_plain_ok _ _ _ _ _ _ HT); [intros a b []|assumption].
  Qed.
  Lemma marked_sum : forall pr n mu nu R, strict_partition mu -> strict_partition nu -> (forall T, In T R <-> tableau_of (dcell true) pr false n mu nu T) ->
    exists f, transposed_dual stat_marked n R mu nu = Ok f /\ nvwf f /\ (forall m, In m (map fst f) -> fst m = n /\ fits n (snd m)) /\
      forall alpha G, fits n alpha -> nev (sg f (n, alpha)) G = ngroups n R (padz alpha n) * G (mvar 0 (zsum mu - zsum nu - zsum alpha)).
  Proof.
    intros pr n mu nu R Hm Hn HR. assert (HT : forall T, In T R -> semistandard_filling (dcell true) pr false (Z.of_nat n) nu mu T) by (intros T I; apply HR in I; apply I).
    apply (transposed_ok true pr n nu mu stat_marked R HT). intros T I. specialize (HT T I). split; [exact (theads_eq _ _ _ _ _ _ HT)|].
    intros i [Hi _]. apply (stat_marked_ok true pr (Z.of_nat n) nu mu T Hm Hn HT i Hi).
  Qed.

  (* C75: ValuedSetTableau.all and weight *)
  Theorem C75_vst_all : forall n mu nu diagonal_primes, strict_partition mu -> strict_partition nu ->
    exists r, vst_all ord bord tord n mu nu diagonal_primes = Ok r /\ NoDup r /\
      forall V, In V r <-> valued_set_tableau shifted_cell (fun i j => diagonal_primes = true \/ i <> j) n mu nu V.
  Proof.
    intros n mu nu dp Hm Hn. destruct (pack_shifted ord bord tord ord_perm bord_perm tord_perm n mu nu dp false Hm Hn) as (r & _ & E & _ & (N & H & _) & _).
    assert (HT : forall T, In T (tord r) -> semistandard_filling (dcell true) (fun i j => dp = true \/ i <> j) false (Z.of_nat n) nu mu T) by (intros T I; apply (tord_In r T), H in I; apply I).
    destruct (rconcat_ok _ _ vst_over (tord r)) as (a & Ea & Ha).
    { intros T I. destruct (vst_over_ok _ _ _ _ _ T (HT T I)) as (L & EL & _). exists L. exact EL. }
    exists (set_vst a). unfold vst_all. rewrite E. cbn [rbind]. rewrite Ea. cbn [rbind]. destruct (set_vst_spec a) as [S1 S2]. split; [reflexivity|]. split; [exact S1|].
    intro V. rewrite (S2 V), (Ha V). unfold valued_set_tableau. split.
    - intros (T & ys & I & Ey & Iy). destruct (vst_over_ok _ _ _ _ _ T (HT T I)) as (L & EL & _ & HL). assert (ys = L) by congruence. subst ys. apply HL in Iy. destruct Iy as [E1 G1]. split; [refine (eq_ind_r (tableau_of shifted_cell (fun i j => dp = true \/ i <> j) false n mu nu) _ E1); apply H, tord_In; assumption|exact (eq_ind_r (fun X => grouping_of X (snd V)) G1 E1)].
    - intros [T1 G1]. pose proof (proj2 (tord_In r (fst V)) (proj2 (H (fst V)) T1)) as I. destruct (vst_over_ok _ _ _ _ _ (fst V) (HT _ I)) as (L & EL & _ & HL). exists (fst V), L. split; [assumption|]. split; [assumption|]. apply HL. split; [reflexivity|assumption].
  Qed.
  Theorem C75_vst_not_strict : forall n mu nu diagonal_primes, is_strict_partition mu = false -> vst_all ord bord tord n mu nu diagonal_primes = Err AssertionError.
  Proof. intros n mu nu dp E. unfold vst_all. replace (semistandard_shifted_marked ord bord tord n mu nu dp false) with (@Err (list tab) AssertionError); [reflexivity|]. destruct n; cbn [semistandard_shifted_marked]; rewrite E; reflexivity. Qed.
  Theorem C75_vst_weight : forall n mu nu prime_ok V, valued_set_tableau shifted_cell prime_ok n mu nu V ->
    exists w, vst_weight V n = Ok w /\ length w = n /\ forall alpha, length alpha = n -> (group_weight alpha V <-> w = alpha).
  Proof.
    intros n mu nu pr [T G] [[_ HT] HG]. cbn [fst snd] in *. change shifted_cell with (dcell true) in HT. pose proof (proj2 (grouping_In true pr (Z.of_nat n) nu mu T HT G) HG) as IG.
    unfold groupings in IG. apply in_map_iff in IG. destruct IG as (g & <- & Ig). destruct (vst_weight_ok true pr n nu mu T HT g Ig) as (w & Ew & Lw & Gw). exists w. split; [assumption|]. split; [assumption|].
    intros alpha La. split; [|intros <-; assumption]. intro Ga. apply (nth_ext _ _ 0 0); [congruence|]. intros k Hk. refine (card_unique _ _ _ _ (Gw k) _). exact (Ga k).
  Qed.

  (* C76: the families *)
  Theorem C76_transposed_dual_stable_grothendieck : forall n mu nu, partition mu -> partition nu ->
    exists f, transposed_dual_stable_grothendieck ord bord tord n mu nu = Ok f /\ transposed_coefficients n (size mu - size nu) (valued_set_tableau cell nowhere n mu nu) f.
  Proof.
    intros n mu nu Hm Hn. destruct (plain_R n mu nu Hm Hn) as (r & E & N & H). destruct (plain_sum n mu nu (tord r) H) as (f & Ef & Wf & Kf & Hf).
    exists f. split; [unfold transposed_dual_stable_grothendieck; rewrite E; exact Ef|]. exact (transposed_coeffs false nowhere n nu mu (tord r) f Hm Hn H N Wf Kf Hf).
  Qed.
  Theorem C76_transposed_dual_stable_grothendieck_p : forall n mu nu, strict_partition mu -> strict_partition nu ->
    exists f, transposed_dual_stable_grothendieck_p ord bord tord n mu nu = Ok f /\ transposed_coefficients n (size mu - size nu) (valued_set_tableau shifted_cell off_diagonal n mu nu) f.
  Proof.
    intros n mu nu Hm Hn. destruct (shifted_R false n mu nu Hm Hn) as (r & E & N & H). destruct (marked_sum off_diagonal n mu nu (tord r) Hm Hn H) as (f & Ef & Wf & Kf & Hf).
    exists f. split; [unfold transposed_dual_stable_grothendieck_p; rewrite E; exact Ef|]. exact (transposed_coeffs true off_diagonal n nu mu (tord r) f Hm Hn H N Wf Kf Hf).
  Qed.
  Theorem C76_transposed_dual_stable_grothendieck_q : forall n mu nu, strict_partition mu -> strict_partition nu ->
    exists f, transposed_dual_stable_grothendieck_q ord bord tord n mu nu = Ok f /\ transposed_coefficients n (size mu - size nu) (valued_set_tableau shifted_cell anywhere n mu nu) f.
  Proof.
    intros n mu nu Hm Hn. destruct (shifted_R true n mu nu Hm Hn) as (r & E & N & H). destruct (marked_sum anywhere n mu nu (tord r) Hm Hn H) as (f & Ef & Wf & Kf & Hf).
    exists f. split; [unfold transposed_dual_stable_grothendieck_q; rewrite E; exact Ef|]. exact (transposed_coeffs true anywhere n nu mu (tord r) f Hm Hn H N Wf Kf Hf).
  Qed.
  Theorem C76_transposed_dual_stable_grothendieck_s : forall n mu nu, partition mu -> partition nu ->
    exists f shifted_mu shifted_nu, transposed_dual_stable_grothendieck_s ord bord tord n mu nu = Ok f /\
      strict_partition shifted_mu /\ strict_partition shifted_nu /\ length shifted_mu = length mu /\ length shifted_nu = length mu /\
      (forall i, (i < length mu)%nat -> row shifted_mu i = row mu i + Z.of_nat (length mu) - Z.of_nat i /\ row shifted_nu i = row nu i + Z.of_nat (length mu) - Z.of_nat i) /\
      transposed_coefficients n (size shifted_mu - size shifted_nu) (valued_set_tableau shifted_cell anywhere n shifted_mu shifted_nu) f.
  Proof.
    intros n mu nu Pm Pn. set (k := length mu). destruct (C76_transposed_dual_stable_grothendieck_q n (add_staircase k mu) (add_staircase k nu) (stair_strict k mu Pm) (stair_strict k nu Pn)) as (g & Eg & D).
    exists g, (add_staircase k mu), (add_staircase k nu). split.
    - unfold transposed_dual_stable_grothendieck_s. fold k. replace ((k =? 0)%nat || (0 <? nth (k - 1) mu 0)) with true; [exact Eg|]. symmetry. apply orb_true_iff. destruct (Nat.eqb_spec k 0) as [E|E]; [left; reflexivity|right]. apply Z.ltb_lt.
      destruct Pm as [Pm _]. rewrite Forall_forall in Pm. apply Pm. apply nth_In. unfold k in *. lia.
    - split; [apply stair_strict; assumption|]. split; [apply stair_strict; assumption|]. split; [unfold add_staircase; rewrite map_length, seq_length; reflexivity|]. split; [unfold add_staircase; rewrite map_length, seq_length; reflexivity|].
      split; [intros i Hi; split; apply stair_row; assumption|exact D].
  Qed.

  (* C77: the expansions *)
  Definition jf (n : nat) (mu : list Z) : res nsym := transposed_dual_stable_grothendieck ord bord tord n mu [].
  Definition jk (n : nat) (mu alpha : list Z) : Z := match semistandard ord bord tord n mu [] false with Ok r => ngroups n (tord r) (padz alpha n) | Err _ => 0 end.
  Lemma jf_family : forall n mu, partition mu -> jf n mu = Ok (Fv n jf mu) /\ nvwf (Fv n jf mu) /\ (forall m, In m (map fst (Fv n jf mu)) -> fst m = n /\ fits n (snd m)) /\
    forall alpha G, fits n alpha -> nev (sg (Fv n jf mu) (n, alpha)) G = jk n mu alpha * G (mvar 0 (size mu - size alpha)).
  Proof.
    intros n mu Hm. destruct (plain_R n mu [] Hm pnil) as (r & E & N & H). destruct (plain_sum n mu [] (tord r) H) as (f & Ef & Wf & Kf & Hf).
    assert (Ej : jf n mu = Ok f) by (unfold jf, transposed_dual_stable_grothendieck; rewrite E; exact Ef).
    assert (EF : Fv n jf mu = f) by (unfold Fv; rewrite Ej; reflexivity). rewrite EF. split; [assumption|]. split; [assumption|]. split; [assumption|]. intros alpha G Fa. unfold jk. rewrite E, (Hf alpha G Fa). change (zsum []) with 0. rewrite Z.sub_0_r. reflexivity.
  Qed.
  Lemma jk_tri : forall n mu alpha, partition mu -> fits n alpha -> jk n mu alpha <> 0 -> alpha = mu \/ after true mu alpha.
  Proof.
    intros n mu alpha Hm Fa. unfold jk. destruct (plain_R n mu [] Hm pnil) as (r & E & N & H). rewrite E. intro Nz.
    pose proof (numbers_le false nowhere n [] mu (tord r) Hm pnil H alpha (proj2 Fa) Nz) as Le. change (size []) with 0 in Le. rewrite Z.sub_0_r in Le.
    destruct (Z.eq_dec (size alpha) (size mu)) as [Es|Es]; [|right; left; change (zsum alpha < zsum mu); unfold size in *; change (zsum alpha <= zsum mu) in Le; change (zsum alpha <> zsum mu) in Es; lia].
    destruct (numbers_top false nowhere n [] mu (tord r) Hm pnil H alpha (proj2 Fa) Nz) as (T & HT & HW); [change (size []) with 0; rewrite Z.sub_0_r; assumption|].
    destruct (plain_dominance ord ord_perm n mu alpha T Hm Fa HT HW) as [X|X]; [left; assumption|right; right; split; [symmetry; exact Es|assumption]].
  Qed.
  Lemma jk_one : forall n mu, fits n mu -> jk n mu mu = 1.
  Proof.
    intros n mu Fm. pose proof (proj1 Fm) as Hm. unfold jk. destruct (plain_R n mu [] Hm pnil) as (r & E & N & H). rewrite E.
    pose proof (kostka_counts ord ord_perm n mu mu Hm Fm) as C. rewrite (kostka_diagonal ord ord_perm false n mu Hm (proj2 Fm)) in C.
    destruct C as (l & Nl & Hl & Ll). destruct l as [|T [|T' l]]; [discriminate| |cbn [length] in Ll; lia]. destruct (proj1 (Hl T) (or_introl eq_refl)) as [HT HW].
    apply (numbers_one false nowhere n [] mu (tord r) Hm pnil H N mu T (proj2 Fm)); [change (size []) with 0; lia|exact HT|exact HW|].
    intros U HU WU. destruct (proj2 (Hl U) (conj HU WU)) as [<-|[]]. reflexivity.
  Qed.
  Theorem C77_j_expansion : forall n f, sym_canon beta_num n f ->
    exists v basis N, idx_canon n v /\
      (forall fuel, (N <= fuel)%nat -> j_expansion ord bord tord fuel f = Ok v) /\
      (forall mu, partition mu -> transposed_dual_stable_grothendieck ord bord tord n mu [] = Ok (basis mu)) /\
      forall alpha m, combination basis v (n, alpha) m = ncoeff (at_monomial f n alpha) m.
  Proof. intro n. exact (hi_total n jf _ (jf_family n) (jk_tri n) (jk_one n)). Qed.
  Theorem C77_j_coefficients : forall n f c basis, sym_canon beta_num n f -> idx_canon n c ->
    (forall mu, partition mu -> transposed_dual_stable_grothendieck ord bord tord n mu [] = Ok (basis mu)) ->
    (forall alpha m, combination basis c (n, alpha) m = ncoeff (at_monomial f n alpha) m) ->
    exists v N, (forall fuel, (N <= fuel)%nat -> j_expansion ord bord tord fuel f = Ok v) /\
      forall mu m, ncoeff (at_index v mu) m = ncoeff (at_index c mu) m.
  Proof. intro n. exact (hi_coefficients n jf _ (jf_family n) (jk_tri n) (jk_one n)). Qed.

  Definition jmf (dp : bool) (n : nat) (mu : list Z) : res nsym := do r <- semistandard_shifted_marked ord bord tord n mu [] dp false; transposed_dual stat_marked n (tord r) mu [].
  Definition jmk (dp : bool) (n : nat) (mu alpha : list Z) : Z := match semistandard_shifted_marked ord bord tord n mu [] dp false with Ok r => ngroups n (tord r) (padz alpha n) | Err _ => 0 end.
  Lemma jmf_expands : forall dp n, expands (expansion (jmf dp) (term true)) n strict_partition (jmf dp n).
  Proof.
    intros dp n. apply (powers_expands true n (jmf dp) strict_partition (jmk dp n) (fun mu alpha => size mu - size alpha)).
    - intros p Hp. apply strict_is_partition. assumption.
    - intros mu Hm. destruct (shifted_R dp n mu [] Hm strict_nil) as (r & E & N & H). destruct (marked_sum (pprime dp) n mu [] (tord r) Hm strict_nil H) as (f & Ef & Wf & Kf & Hf).
      assert (Ej : jmf dp n mu = Ok f) by (unfold jmf; rewrite E; exact Ef).
      assert (EF : Fv n (jmf dp) mu = f) by (unfold Fv; rewrite Ej; reflexivity). rewrite EF. split; [assumption|]. split; [assumption|]. split; [assumption|]. intros alpha G Fa. unfold jmk. rewrite E, (Hf alpha G Fa). change (zsum []) with 0. rewrite Z.sub_0_r. reflexivity.
    - intro mu. lia.
    - intros mu alpha Hm Fa. unfold jmk. destruct (shifted_R dp n mu [] Hm strict_nil) as (r & E & N & H). rewrite E. intro Nz.
      pose proof (numbers_le true (pprime dp) n [] mu (tord r) Hm strict_nil H alpha (proj2 Fa) Nz) as Le. change (size []) with 0 in Le. rewrite Z.sub_0_r in Le.
      destruct (Z.eq_dec (size alpha) (size mu)) as [Es|Es]; [|right; left; change (zsum alpha < zsum mu); unfold size in *; change (zsum alpha <= zsum mu) in Le; change (zsum alpha <> zsum mu) in Es; lia].
      destruct (numbers_top true (pprime dp) n [] mu (tord r) Hm strict_nil H alpha (proj2 Fa) Nz) as (T & HT & HW); [change (size []) with 0; rewrite Z.sub_0_r; assumption|].
      destruct (shifted_dominance (pprime dp) false n mu T alpha Hm (proj1 Fa) (proj2 Fa) HT HW) as [X|[_ [X|X]]]; [lia|left; assumption|right; right; split; [symmetry; exact Es|assumption]].
    - intros mu Hm Ln. unfold jmk. destruct (shifted_R dp n mu [] Hm strict_nil) as (r & E & N & H). rewrite E.
      pose proof (numbers_has true (pprime dp) n [] mu (tord r) H N mu (superstandard mu) Ln (superstandard_tableau _ _ _ _ Hm Ln) (superstandard_weight mu Hm)). lia.
    - intros p g Pp E. destruct (is_strict_partition p) eqn:S1.
      + split; [apply Pp|]. unfold is_strict_partition in S1. rewrite forallb_forall in S1. intros i Hi. specialize (S1 (Z.of_nat (S i))). rewrite Z.ltb_lt in S1.
        assert (X : forall k, nthz p (Z.of_nat k) = row p k). { intro k. unfold nthz, row. rewrite Nat2Z.id. destruct (Z.ltb_spec (Z.of_nat k) 0); [lia|reflexivity]. }
        rewrite <- !X. replace (Z.of_nat (S i) - 1) with (Z.of_nat i) in S1 by lia. apply S1. apply In_zrange. unfold zlen. lia.
      + unfold jmf in E. replace (semistandard_shifted_marked ord bord tord n p [] dp false) with (@Err (list tab) AssertionError) in E; [discriminate|]. destruct n; cbn [semistandard_shifted_marked]; rewrite S1; reflexivity.
  Qed.
  Theorem C77_jp_expansion : forall n, expands (jp_expansion ord bord tord) n strict_partition (fun mu => transposed_dual_stable_grothendieck_p ord bord tord n mu []).
  Proof. exact (jmf_expands false). Qed.
  Theorem C77_jq_expansion : forall n, expands (jq_expansion ord bord tord) n strict_partition (fun mu => transposed_dual_stable_grothendieck_q ord bord tord n mu []).
  Proof. exact (jmf_expands true). Qed.
End Statements.

(* js_expansion raises on the js-polynomial of (2,1), at every recursion limit *)
Theorem C77_js_expansion_refuted : exists f, transposed_dual_stable_grothendieck_s idl idl idl 2 [2; 1] [] = Ok f /\ forall fuel v, js_expansion idl idl idl fuel f <> Ok v.
Proof.
  eexists. split; [vm_compute; reflexivity|]. intros fuel v. do 4 (destruct fuel as [|fuel]; [vm_compute; discriminate|]). vm_compute. discriminate.
Qed.
Theorem C77_js_family_dependent : exists f g, transposed_dual_stable_grothendieck_s idl idl idl 2 [1; 1] [] = Ok f /\ transposed_dual_stable_grothendieck_s idl idl idl 2 [2] [] = Ok g /\ nveq smono_eqb f g = true.
Proof. eexists. eexists. split; [vm_compute; reflexivity|]. split; [vm_compute; reflexivity|]. vm_compute; reflexivity. Qed.

(* one valued-set tableau groups the two equal entries of (1 1) *)
Example C75_example : strict_partition [2] /\ vst_all idl idl idl 1 [2] [] true = Ok
  [([((1, 1), [1]); ((1, 2), [1])], [((1, 1), [0]); ((1, 2), [0])]);
   ([((1, 1), [1]); ((1, 2), [1])], [((1, 1), [1]); ((1, 2), [0])]);
   ([((1, 1), [-1]); ((1, 2), [1])], [((1, 1), [0]); ((1, 2), [0])])] /\
  vst_weight ([((1, 1), [1]); ((1, 2), [1])], [((1, 1), [1]); ((1, 2), [0])]) 1 = Ok [1].
Proof. split; [split; [repeat constructor|intros [|i]; cbn; lia]|]. split; vm_compute; reflexivity. Qed.
Example C76_example : transposed_dual_stable_grothendieck idl idl idl 2 [2; 1] [] = Ok [((2%nat, [2; 1]), NP [([], 1)]); ((2%nat, [1; 1]), NP [([(0, 1)], 1)])] /\
  transposed_dual_stable_grothendieck_q idl idl idl 2 [2; 1] [] = Ok [((2%nat, [2; 1]), NP [([], 4)]); ((2%nat, [1; 1]), NP [([(0, 1)], 4)])].
Proof. split; vm_compute; reflexivity. Qed.
(* m_21 in two variables is j_21 - beta j_11 *)
Example C77_example : sym_canon beta_num 2 [((2%nat, [2; 1]), NI 1)] /\ j_expansion idl idl idl 9 [((2%nat, [2; 1]), NI 1)] = Ok [([1; 1], NP [([(0, 1)], -1)]); ([2; 1], NP [([], 1)])].
Proof. split; [exact (proj1 C72_example)|vm_compute; reflexivity]. Qed.
Example C77_example_q : exists f, transposed_dual_stable_grothendieck_q idl idl idl 2 [2; 1] [] = Ok f /\ jq_expansion idl idl idl 9 f = Ok [([2; 1], NP [([], 1)])].
Proof. eexists. split; [vm_compute; reflexivity|]. vm_compute. reflexivity. Qed.

Print Assumptions C75_vst_all.
Print Assumptions C75_vst_not_strict.
Print Assumptions C75_vst_weight.
Print Assumptions C76_transposed_dual_stable_grothendieck.
Print Assumptions C76_transposed_dual_stable_grothendieck_p.
Print Assumptions C76_transposed_dual_stable_grothendieck_q.
Print Assumptions C76_transposed_dual_stable_grothendieck_s.
Print Assumptions C77_j_expansion.
Print Assumptions C77_j_coefficients.
Print Assumptions C77_jp_expansion.
Print Assumptions C77_jq_expansion.
Print Assumptions C77_js_expansion_refuted.
Print Assumptions C77_js_family_dependent.
