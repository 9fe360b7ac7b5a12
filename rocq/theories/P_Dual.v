(* C68-C74: the dual stable Grothendieck families.
   The parameters ord, bord, tord, pord are the unspecified iteration orders of Python sets. *)
From Coq Require Import List ZArith Lia Bool Permutation Arith Sorting.Sorted.
From Verif Require Import PyBase FinSum M_Partitions S_Partitions L_Partitions L_PartBasic L_PartMore L_PartEnum L_Destand L_Destand2 M_Vectors L_Vectors M_Polynomials S_Polynomials L_Polynomials P_Polynomials L_PolySubst
  M_Tableaux S_Tableaux L_Tableaux S_Strips M_RPP S_RPP M_Semistandard S_Semistandard L_Strips2 L_Shape L_Semi L_Semi2 L_Semi3 L_Semi4 L_Semi5 L_Count L_Count2 L_Count3 L_CountCache M_Symmetric S_Symmetric M_Expansion S_Expansion M_Slow M_Families M_Dual
  L_SymPoly L_SymMul L_Growth L_Kostka L_Num L_Expand1 L_Expand2 L_Expand3 L_Expand4 L_Expand5 L_Expand6 L_Expand7 P_Symmetric P_Expansion P_Semistandard P_Count L_Sym1 L_Sym2 L_Sym3 L_Sym4 L_Sym5 L_Sym6 L_Sym8 L_Sym11 L_Slow P_Symmetry L_Insertion6 L_Families L_Families2 P_Families L_ShiftTri L_RPP1 L_RPP2 L_RPP3 L_RPP4 P_RPP L_RPP6 L_Dual L_Dual2 S_Dual L_Dual3.
Import ListNotations.
Local Open Scope Z_scope.
Local Notation sg := (nget smono_eqb).

Lemma pnil : partition [].
Proof. exact (strict_is_partition _ strict_nil). Qed.
Lemma column_padz : forall p n T, column_weight (padz p n) T <-> column_weight p T.
Proof. intros p n T. unfold column_weight. assert (E : forall i, nth i (padz p n) 0 = nth i p 0) by (intro i; exact (padz_row p n i)). split; intros H i; specialize (H i); rewrite E in *; exact H. Qed.
Lemma marked_padz : forall p n T, marked_weight (padz p n) T <-> marked_weight p T.
Proof. intros p n T. unfold marked_weight. assert (E : forall i, nth i (padz p n) 0 = nth i p 0) by (intro i; exact (padz_row p n i)). split; intros H i; specialize (H i); rewrite E in *; exact H. Qed.
Lemma column_nonneg : forall e T, column_weight e T -> Forall (fun x => 0 <= x) e.
Proof. intros e T H. apply Forall_forall. intros x Hx. destruct (In_nth e x 0 Hx) as (k & Hk & <-). destruct (H k) as (l & _ & _ & E). rewrite <- E. lia. Qed.
Lemma rpp_pw : forall n mu nu alpha T, partition mu -> length alpha = n ->
  (pweighted false al_plain nu (2 * Z.of_nat (length alpha)) mu (wt alpha) T <-> rpp_of n mu nu T /\ column_weight alpha T).
Proof.
  intros n mu nu alpha T Pm L. rewrite L. unfold pweighted, rpp_of. split.
  - intros [F W]. assert (O : okS false nu mu) by apply F. split; [split; [intros i j; exact (proj2 O (i, j))|apply rpp_of_pfill; assumption]|]. apply (column_weight_eq nu (2 * Z.of_nat n) mu alpha T F). exact W.
  - intros [[I R] W]. assert (O : okS false nu mu) by (split; [assumption|intros [i j]; apply I]). pose proof (proj2 (rpp_of_pfill _ _ _ _ O) R) as F. split; [exact F|]. apply (column_weight_eq nu (2 * Z.of_nat n) mu alpha T F). exact W.
Qed.

(* C68: the number of reverse plane partitions of a given weight is symmetric in the weight *)
Theorem C68_rpp_symmetric : forall n mu nu, partition mu -> partition nu -> forall alpha beta, length alpha = n -> Permutation alpha beta ->
  exists N, cardinality (fun T => rpp_of n mu nu T /\ column_weight alpha T) N /\ cardinality (fun T => rpp_of n mu nu T /\ column_weight beta T) N.
Proof.
  intros n mu nu Pm Pn alpha beta La Hp. destruct (rpp_symmetric idl idl_perm nu Pn alpha beta mu Pm Hp) as (N & H1 & H2). exists N.
  pose proof (Permutation_length Hp) as Lb. split; [refine (counts_ext _ _ _ _ _ _ eq_refl H1)|refine (counts_ext _ _ _ _ _ _ eq_refl H2)]; intro T; [apply rpp_pw; assumption|].
  rewrite Lb. apply rpp_pw; [assumption|]. rewrite <- Lb. assumption.
Qed.

Section Packs.
  Variable ord : list (list Z) -> list (list Z).
  Variable bord : list (Z * Z) -> list (Z * Z).
  Variable tord : list tab -> list tab.
  Hypothesis ord_perm : forall l, Permutation (ord l) l.
  Hypothesis bord_perm : forall l, Permutation (bord l) l.
  Hypothesis tord_perm : forall l, Permutation (tord l) l.

  Lemma plain_pack : forall n mu nu, partition mu -> partition nu -> exists d r g, count_semistandard_rpp ord n mu nu = Ok d /\ semistandard_rpp ord bord tord n mu nu = Ok r /\
    dual_stable_grothendieck ord n mu nu = Ok g /\ NoDup r /\ (forall T, In T r <-> rpp_of n mu nu T) /\ dual_counts n (zsum mu - zsum nu) (cget d) g /\
    pcount_ok false al_plain nu n mu d /\
    (forall p, fits n p -> cget d p <> 0 -> zsum p <= zsum mu - zsum nu) /\ forall p, fits n p -> cardinality (fun T => rpp_of n mu nu T /\ column_weight p T) (cget d p).
  Proof.
    intros n mu nu Pm Pn. destruct (C66_count_semistandard_rpp ord bord tord ord_perm bord_perm tord_perm n mu nu Pm Pn) as (d & r & Ed & Er & _ & _ & Hc). destruct (count_rpp_ok ord ord_perm nu Pn n mu Pm) as (d' & Ed' & Hd). rewrite Ed in Ed'. injection Ed' as <-.
    destruct (C65_semistandard_rpp ord bord tord ord_perm bord_perm tord_perm n mu nu Pm Pn) as (r' & Er' & Nr & R1 & R2). rewrite Er in Er'. injection Er' as <-.
    assert (HR : forall T, In T r <-> rpp_of n mu nu T).
    { intro T. split; [intro H|intros [I H]; apply R1; assumption]. destruct (okS_dec false nu Pn mu Pm) as [O|O].
      - assert (I : forall i j, cell nu i j -> cell mu i j) by (intros i j; exact (proj2 O (i, j))). split; [exact I|]. apply R1; assumption.
      - rewrite R2 in H; [destruct H|]. intro I. apply O. split; [assumption|]. intros [i j]. apply I. }
    assert (B : forall p, fits n p -> cget d p <> 0 -> zsum p <= zsum mu - zsum nu) by (intros p Fp Np; exact (proj1 (pcount_bound false (fun _ _ x => 0 < x) nu Pn n mu d Pm Hd p Fp Np))).
    destruct (dual_of_dict n mu nu d (proj1 Hd) B) as (g & Eg & Dg). exists d, r, g. split; [assumption|]. split; [assumption|]. split; [unfold dual_stable_grothendieck; rewrite Ed; exact Eg|]. split; [assumption|]. split; [assumption|]. split; [assumption|]. split; [assumption|]. split; [assumption|].
    intros p [Pp Lp]. refine (counts_ext _ _ _ _ _ _ eq_refl (Hc p Pp Lp)). intro T. rewrite HR. reflexivity.
  Qed.
  Lemma plain_arr : forall n mu nu d, partition mu -> partition nu -> count_semistandard_rpp ord n mu nu = Ok d ->
    forall e, length e = n -> Forall (fun x => 0 <= x) e -> cardinality (fun T => rpp_of n mu nu T /\ column_weight e T) (cget d (psort e true)).
  Proof.
    intros n mu nu d Pm Pn Ed e Le Fe. destruct (plain_pack n mu nu Pm Pn) as (d' & r & g & Ed' & _ & _ & _ & _ & _ & _ & _ & C). rewrite Ed in Ed'. injection Ed' as <-.
    destruct (sort_arr n e Le Fe) as (Fp & _ & _ & Pe). specialize (C _ Fp). destruct (C68_rpp_symmetric n mu nu Pm Pn (padz (psort e true) n) e) as (N & C1 & C2); [apply padz_length; apply Fp|assumption|].
    assert (E : cget d (psort e true) = N); [|rewrite E; assumption]. refine (card_unique _ _ _ _ C _). refine (counts_ext _ _ _ _ _ _ eq_refl C1). intro T. rewrite column_padz. reflexivity.
  Qed.
  Definition mcount (dnp : bool) n mu nu := count_semistandard_marked_rpp ord n mu nu dnp.
  Definition mfam (dnp : bool) n mu nu : res nsym := do d <- mcount dnp n mu nu; dual_vectorize n d mu nu.
  Lemma marked_pack : forall dnp n mu nu, strict_partition mu -> strict_partition nu -> exists d r g, mcount dnp n mu nu = Ok d /\ semistandard_marked_rpp ord bord tord n mu nu dnp = Ok r /\
    mfam dnp n mu nu = Ok g /\ NoDup r /\ (forall T, In T r <-> marked_rpp_of dnp n mu nu T) /\ dual_counts n (zsum mu - zsum nu) (cget d) g /\
    pcount_ok true (al_marked dnp) nu n mu d /\
    (forall p, fits n p -> cget d p <> 0 -> zsum p <= zsum mu - zsum nu) /\ forall p, fits n p -> cardinality (fun T => marked_rpp_of dnp n mu nu T /\ marked_weight p T) (cget d p).
  Proof.
    intros dnp n mu nu Pm Pn. destruct (C66_count_semistandard_marked_rpp ord bord tord ord_perm bord_perm tord_perm n mu nu dnp Pm Pn) as (d & r & Ed & Er & _ & _ & Hc). destruct (count_marked_rpp_ok ord ord_perm dnp nu Pn n mu Pm) as (d' & Ed' & Hd). rewrite Ed in Ed'. injection Ed' as <-.
    destruct (C65_semistandard_marked_rpp ord bord tord ord_perm bord_perm tord_perm n mu nu dnp Pm Pn) as (r' & Er' & Nr & R1 & R2). rewrite Er in Er'. injection Er' as <-.
    assert (HR : forall T, In T r <-> marked_rpp_of dnp n mu nu T).
    { intro T. split; [intro H|intros [I H]; apply R1; assumption]. destruct (okS_dec true nu Pn mu Pm) as [O|O].
      - assert (I : forall i j, shifted_cell nu i j -> shifted_cell mu i j) by (intros i j; exact (proj2 O (i, j))). split; [exact I|]. apply R1; assumption.
      - rewrite R2 in H; [destruct H|]. intro I. apply O. split; [assumption|]. intros [i j]. apply I. }
    assert (B : forall p, fits n p -> cget d p <> 0 -> zsum p <= zsum mu - zsum nu) by (intros p Fp Np; exact (proj1 (pcount_bound true (fun i j x => dnp = false -> i = j -> x < 0) nu Pn n mu d Pm Hd p Fp Np))).
    destruct (dual_of_dict n mu nu d (proj1 Hd) B) as (g & Eg & Dg). exists d, r, g. split; [assumption|]. split; [assumption|]. split; [unfold mfam, mcount; rewrite Ed; exact Eg|]. split; [assumption|]. split; [assumption|]. split; [assumption|]. split; [assumption|]. split; [assumption|].
    intros p [Pp Lp]. refine (counts_ext _ _ _ _ _ _ eq_refl (Hc p Pp Lp)). intro T. rewrite HR. reflexivity.
  Qed.
End Packs.

Section Statements.
  Variable ord : list (list Z) -> list (list Z).
  Variable bord : list (Z * Z) -> list (Z * Z).
  Variable tord : list (list ((Z * Z) * list Z)) -> list (list ((Z * Z) * list Z)).
  Hypothesis ord_perm : forall l, Permutation (ord l) l.
  Hypothesis bord_perm : forall l, Permutation (bord l) l.
  Hypothesis tord_perm : forall l, Permutation (tord l) l.

  (* C69 *)
  Theorem C69_dual_stable_grothendieck : forall pord isx n mu nu, (forall l, Permutation (pord l) l) -> partition mu -> partition nu ->
    exists g P, dual_stable_grothendieck ord n mu nu = Ok g /\ dual_coefficients n (size mu - size nu) column_weight (rpp_of n mu nu) g /\
      spolynomial num_terms pord isx g = Ok P /\ generates_dual isx n (size mu - size nu) column_weight (rpp_of n mu nu) P.
  Proof.
    intros pord isx n mu nu Hp Pm Pn. destruct (plain_pack ord idl idl ord_perm idl_perm idl_perm n mu nu Pm Pn) as (d & r & g & Ed & _ & Eg & _ & _ & D & _ & B & C).
    destruct (dual_polynomial pord isx n (zsum mu - zsum nu) (cget d) g column_weight (rpp_of n mu nu) Hp D) as (P & EP & G).
    - apply (plain_arr ord idl idl ord_perm idl_perm idl_perm n mu nu d Pm Pn Ed).
    - intros e T _ W. exact (column_nonneg e T W).
    - exists g, P. split; [assumption|]. split; [exact (dual_coeffs n (zsum mu - zsum nu) (cget d) g _ _ D C B)|]. split; [assumption|exact G].
  Qed.

  (* C70 *)
  Theorem C70_dual_stable_grothendieck_p : forall n mu nu, strict_partition mu -> strict_partition nu ->
    exists g, dual_stable_grothendieck_p ord n mu nu = Ok g /\ dual_coefficients n (size mu - size nu) marked_weight (marked_rpp_of false n mu nu) g.
  Proof.
    intros n mu nu Pm Pn. destruct (marked_pack ord idl idl ord_perm idl_perm idl_perm false n mu nu Pm Pn) as (d & r & g & _ & _ & Eg & _ & _ & D & _ & B & C). exists g. split; [exact Eg|].
    exact (dual_coeffs n (zsum mu - zsum nu) (cget d) g _ _ D C B).
  Qed.
  Theorem C70_dual_stable_grothendieck_q : forall n mu nu, strict_partition mu -> strict_partition nu ->
    exists g, dual_stable_grothendieck_q ord n mu nu = Ok g /\ dual_coefficients n (size mu - size nu) marked_weight (marked_rpp_of true n mu nu) g.
  Proof.
    intros n mu nu Pm Pn. destruct (marked_pack ord idl idl ord_perm idl_perm idl_perm true n mu nu Pm Pn) as (d & r & g & _ & _ & Eg & _ & _ & D & _ & B & C). exists g. split; [exact Eg|].
    exact (dual_coeffs n (zsum mu - zsum nu) (cget d) g _ _ D C B).
  Qed.
  Lemma stair_row : forall k mu i, (i < k)%nat -> row (add_staircase k mu) i = row mu i + Z.of_nat k - Z.of_nat i.
  Proof.
    intros k mu i H. unfold row, add_staircase. rewrite (nth_indep _ 0 ((if (0 <? length mu)%nat then nth 0 mu 0 else 0) + Z.of_nat k - Z.of_nat 0)) by (rewrite map_length, seq_length; assumption).
    rewrite (map_nth (fun i => (if (i <? length mu)%nat then nth i mu 0 else 0) + Z.of_nat k - Z.of_nat i)), seq_nth by assumption. cbn [Nat.add].
    destruct (Nat.ltb_spec i (length mu)); [reflexivity|]. rewrite (nth_overflow mu) by lia. reflexivity.
  Qed.
  Lemma stair_strict : forall k mu, partition mu -> strict_partition (add_staircase k mu).
  Proof.
    intros k mu Pm. assert (L : length (add_staircase k mu) = k) by (unfold add_staircase; rewrite map_length, seq_length; reflexivity). split.
    - apply Forall_forall. intros x Hx. destruct (In_nth _ x 0 Hx) as (i & Hi & <-). rewrite L in Hi. change (0 < row (add_staircase k mu) i). rewrite stair_row by assumption. pose proof (partition_nonneg mu i Pm). lia.
    - intros i Hi. rewrite L in Hi. rewrite !stair_row by lia. pose proof (proj2 Pm i). cbv beta in *. lia.
  Qed.
  Theorem C70_dual_stable_grothendieck_s : forall n mu nu, partition mu -> partition nu ->
    exists g shifted_mu shifted_nu, dual_stable_grothendieck_s ord n mu nu = Ok g /\
      strict_partition shifted_mu /\ strict_partition shifted_nu /\ length shifted_mu = length mu /\ length shifted_nu = length mu /\
      (forall i, (i < length mu)%nat -> row shifted_mu i = row mu i + Z.of_nat (length mu) - Z.of_nat i /\ row shifted_nu i = row nu i + Z.of_nat (length mu) - Z.of_nat i) /\
      dual_coefficients n (size shifted_mu - size shifted_nu) marked_weight (marked_rpp_of true n shifted_mu shifted_nu) g.
  Proof.
    intros n mu nu Pm Pn. set (k := length mu). destruct (C70_dual_stable_grothendieck_q n (add_staircase k mu) (add_staircase k nu) (stair_strict k mu Pm) (stair_strict k nu Pn)) as (g & Eg & D).
    exists g, (add_staircase k mu), (add_staircase k nu). split.
    - unfold dual_stable_grothendieck_s. fold k. replace ((k =? 0)%nat || (0 <? nth (k - 1) mu 0)) with true; [exact Eg|]. symmetry. apply orb_true_iff. destruct (Nat.eqb_spec k 0) as [E|E]; [left; reflexivity|right]. apply Z.ltb_lt.
      destruct Pm as [Pm _]. rewrite Forall_forall in Pm. apply Pm. apply nth_In. unfold k in *. lia.
    - split; [apply stair_strict; assumption|]. split; [apply stair_strict; assumption|]. split; [unfold add_staircase; rewrite map_length, seq_length; reflexivity|]. split; [unfold add_staircase; rewrite map_length, seq_length; reflexivity|].
      split; [intros i Hi; split; apply stair_row; assumption|exact D].
  Qed.

  (* C71: the slow version *)
  Lemma cardinality_ext : forall (P Q : list ((Z * Z) * list Z) -> Prop) N, (forall T, P T <-> Q T) -> cardinality P N -> cardinality Q N.
  Proof. intros P Q N H C. refine (counts_ext _ _ _ _ _ _ eq_refl C). intro T. apply H. Qed.
  Lemma scaled_slow : forall n mu nu f g N, nvwf f -> (forall m, In m (map fst f) -> fst m = n /\ fits n (snd m)) ->
    (forall p G, fits n p -> nev (sg f (n, p)) G = alt (zsum p) * N p * G (mvar 0 (- zsum p))) -> dual_counts n (zsum mu - zsum nu) N g ->
    (forall p, fits n p -> N p <> 0 -> zsum p <= zsum mu - zsum nu) ->
    nveq smono_eqb (nvscale smono_eqb f (NP (neg_beta_pow (zsum mu - zsum nu)))) g = true /\ forall k m, ncoeff (sg (nvscale smono_eqb f (NP (neg_beta_pow (zsum mu - zsum nu)))) k) m = ncoeff (sg g k) m.
  Proof.
    intros n mu nu f g N Wf Kf Hf (Wg & Kg & _ & Hg) B. set (k := zsum mu - zsum nu) in *. assert (Oc : nok (NP (neg_beta_pow k))) by apply neg_beta_wf.
    destruct (nvscale_ok smono_eqb smono_eqb_eq f _ Wf Oc) as [W2 H2]. apply (same_vec n _ g W2 Wg); [apply scaled_keys; assumption|assumption|].
    intros p G Fp. rewrite H2, (Hf p _ Fp), (Hg p G Fp). cbn [nev]. rewrite neg_beta_ev, mvar_mul. replace (- zsum p + k) with (k - zsum p) by lia. rewrite alt_sub.
    destruct (Z.eq_dec (N p) 0) as [Z0|Z0]; [rewrite Z0; lia|]. specialize (B p Fp Z0). assert (0 <= zsum p) by (apply zsum_pos_nonneg; apply Fp).
    unfold altn. replace (k <? 0) with false by (symmetry; apply Z.ltb_ge; lia). lia.
  Qed.
  Lemma weight_is : forall (W : list Z -> tab -> Prop) n T w, W w T -> length w = n -> (forall a b k, W a T -> W b T -> nth k a 0 = nth k b 0) -> forall alpha, length alpha = n -> (W alpha T <-> w = alpha).
  Proof.
    intros W n T w Ww Lw U alpha La. split; [|intros ->; assumption]. intro H. apply (nth_ext w alpha 0 0); [lia|]. intros k _. exact (U w alpha k Ww H).
  Qed.
  Theorem C71_slow_dual_stable_grothendieck : forall n mu nu, partition mu -> partition nu ->
    exists f g, slow_dual_stable_grothendieck ord bord tord n mu nu = Ok f /\ dual_stable_grothendieck ord n mu nu = Ok g /\
      nveq smono_eqb f g = true /\ forall k m, ncoeff (nget smono_eqb f k) m = ncoeff (nget smono_eqb g k) m.
  Proof.
    intros n mu nu Pm Pn. destruct (plain_pack ord bord tord ord_perm bord_perm tord_perm n mu nu Pm Pn) as (d & r & g & Ed & Er & Eg & Nr & Hr & D & _ & B & C).
    assert (IR : forall T, In T (tord r) <-> rpp_of n mu nu T). { intro T. rewrite <- Hr. split; intro H; [exact (Permutation_in _ (tord_perm r) H)|exact (Permutation_in _ (Permutation_sym (tord_perm r)) H)]. }
    assert (NR : NoDup (tord r)) by (apply (Permutation_NoDup (Permutation_sym (tord_perm r))); assumption).
    destruct (slow_by_vec rpp_weight n column_weight (tord r)) with (check := true) as [(f & Ef & Wf & Kf & Hf)|(_ & _ & a & La & c & c' & C1 & C2 & Ne)]; [|assumption| |].
    - intros T HT. apply IR in HT. destruct HT as [_ HT]. destruct (C67_rpp_weight n nu mu T HT) as (w & Ew & Lw & Ww). exists w. split; [assumption|]. split; [assumption|]. split; [exact (column_nonneg w T Ww)|].
      apply weight_is; [assumption|assumption|]. intros a b k Ha Hb. exact (card_unique _ _ _ _ (Ha k) (Hb k)).
    - destruct (scaled_slow n mu nu f g (cget d) Wf Kf) with (2 := D) as [Q1 Q2]; [|assumption|].
      + intros p G Fp. destruct (Hf p Fp) as (c & Cc & E). rewrite E. f_equal. f_equal. apply (card_unique _ (fun T => rpp_of n mu nu T /\ column_weight p T)); [|apply C; assumption].
        refine (cardinality_ext _ _ _ _ Cc). intro T. rewrite IR, column_padz. reflexivity.
      + eexists. exists g. split; [unfold slow_dual_stable_grothendieck; rewrite Er; cbn [rbind]; rewrite Ef; cbn [rbind]; reflexivity|]. split; [assumption|]. split; [exact Q1|exact Q2].
    - exfalso. apply Ne. destruct (C68_rpp_symmetric n mu nu Pm Pn (psort a false) a) as (N & D1 & D2); [rewrite (Permutation_length (psort_perm a)); assumption|apply psort_perm|].
      assert (E1 : c = N). { refine (card_unique _ _ _ _ C1 _). refine (cardinality_ext _ _ _ _ D1). intro T. rewrite IR. reflexivity. }
      assert (E2 : c' = N). { refine (card_unique _ _ _ _ C2 _). refine (cardinality_ext _ _ _ _ D2). intro T. rewrite IR. reflexivity. }
      congruence.
  Qed.
  Lemma marked_nonneg : forall e T, marked_weight e T -> Forall (fun x => 0 <= x) e.
  Proof. intros e T H. apply Forall_forall. intros x Hx. destruct (In_nth e x 0 Hx) as (k & Hk & <-). destruct (H k) as (a & b & (l & _ & _ & E) & (l' & _ & _ & E') & Eq). rewrite Eq, <- E, <- E'. lia. Qed.
  Lemma marked_unique : forall a b k T, marked_weight a T -> marked_weight b T -> nth k a 0 = nth k b 0.
  Proof. intros a b k T Ha Hb. destruct (Ha k) as (x & y & X & Y & ->). destruct (Hb k) as (x' & y' & X' & Y' & ->). rewrite (card_unique _ _ _ _ X X'), (card_unique _ _ _ _ Y Y'). reflexivity. Qed.
  Lemma slow_marked : forall dnp n mu nu, strict_partition mu -> strict_partition nu -> exists r g, semistandard_marked_rpp ord bord tord n mu nu dnp = Ok r /\ mfam ord dnp n mu nu = Ok g /\
    ((exists f, (do f <- slow_vectorize_by marked_rpp_weight n (tord r) (Some neg_inv_beta_pow) true; Ok (nvscale smono_eqb f (NP (neg_beta_pow (zsum mu - zsum nu))))) = Ok f /\
        nveq smono_eqb f g = true /\ forall k m, ncoeff (sg f k) m = ncoeff (sg g k) m) \/
     (slow_vectorize_by marked_rpp_weight n (tord r) (Some neg_inv_beta_pow) true = Err AssertionError /\
        exists alpha N N', length alpha = n /\ cardinality (fun T => marked_rpp_of dnp n mu nu T /\ marked_weight (psort alpha false) T) N /\ cardinality (fun T => marked_rpp_of dnp n mu nu T /\ marked_weight alpha T) N' /\ N <> N')).
  Proof.
    intros dnp n mu nu Pm Pn. destruct (marked_pack ord bord tord ord_perm bord_perm tord_perm dnp n mu nu Pm Pn) as (d & r & g & Ed & Er & Eg & Nr & Hr & D & _ & B & C). exists r, g. split; [assumption|]. split; [assumption|].
    assert (IR : forall T, In T (tord r) <-> marked_rpp_of dnp n mu nu T). { intro T. rewrite <- Hr. split; intro H; [exact (Permutation_in _ (tord_perm r) H)|exact (Permutation_in _ (Permutation_sym (tord_perm r)) H)]. }
    assert (NR : NoDup (tord r)) by (apply (Permutation_NoDup (Permutation_sym (tord_perm r))); assumption).
    destruct (slow_by_vec marked_rpp_weight n marked_weight (tord r)) with (check := true) as [(f & Ef & Wf & Kf & Hf)|(Ef & _ & a & La & c & c' & C1 & C2 & Ne)]; [|assumption| |].
    - intros T HT. apply IR in HT. destruct HT as [_ HT]. destruct (C67_marked_rpp_weight dnp n nu mu T HT) as (w & Ew & Lw & Ww). exists w. split; [assumption|]. split; [assumption|]. split; [exact (marked_nonneg w T Ww)|].
      apply weight_is; [assumption|assumption|]. intros a b k Ha Hb. exact (marked_unique a b k T Ha Hb).
    - left. destruct (scaled_slow n mu nu f g (cget d) Wf Kf) with (2 := D) as [Q1 Q2]; [|assumption|].
      + intros p G Fp. destruct (Hf p Fp) as (c & Cc & E). rewrite E. f_equal. f_equal. apply (card_unique _ (fun T => marked_rpp_of dnp n mu nu T /\ marked_weight p T)); [|apply C; assumption].
        refine (cardinality_ext _ _ _ _ Cc). intro T. rewrite IR, marked_padz. reflexivity.
      + eexists. rewrite Ef. split; [cbn [rbind]; reflexivity|]. split; [exact Q1|exact Q2].
    - right. split; [assumption|]. exists a, c, c'. split; [assumption|]. split; [refine (cardinality_ext _ _ _ _ C1); intro T; rewrite IR; reflexivity|]. split; [refine (cardinality_ext _ _ _ _ C2); intro T; rewrite IR; reflexivity|assumption].
  Qed.
  (* in the shifted case the slow version checks the symmetry that the fast one assumes: it returns the
     same coefficients, or raises, and then the numbers of tableaux by weight are not symmetric *)
  Theorem C71_slow_dual_stable_grothendieck_p : forall n mu nu, strict_partition mu -> strict_partition nu ->
    exists g, dual_stable_grothendieck_p ord n mu nu = Ok g /\
    ((exists f, slow_dual_stable_grothendieck_p ord bord tord n mu nu = Ok f /\ nveq smono_eqb f g = true /\ forall k m, ncoeff (nget smono_eqb f k) m = ncoeff (nget smono_eqb g k) m) \/
     (slow_dual_stable_grothendieck_p ord bord tord n mu nu = Err AssertionError /\
      exists alpha beta N N', length alpha = n /\ Permutation alpha beta /\ cardinality (fun T => marked_rpp_of false n mu nu T /\ marked_weight alpha T) N /\ cardinality (fun T => marked_rpp_of false n mu nu T /\ marked_weight beta T) N' /\ N <> N')).
  Proof.
    intros n mu nu Pm Pn. destruct (slow_marked false n mu nu Pm Pn) as (r & g & Er & Eg & H). exists g. split; [exact Eg|]. unfold slow_dual_stable_grothendieck_p. rewrite Er. cbn [rbind]. destruct H as [H|[E (a & N & N' & La & C1 & C2 & Ne)]]; [left; exact H|right].
    rewrite E. split; [reflexivity|]. exists a, (psort a false), N', N. split; [assumption|]. split; [apply Permutation_sym, psort_perm|]. split; [assumption|]. split; [assumption|congruence].
  Qed.
  Theorem C71_slow_dual_stable_grothendieck_q : forall n mu nu, strict_partition mu -> strict_partition nu ->
    exists g, dual_stable_grothendieck_q ord n mu nu = Ok g /\
    ((exists f, slow_dual_stable_grothendieck_q ord bord tord n mu nu = Ok f /\ nveq smono_eqb f g = true /\ forall k m, ncoeff (nget smono_eqb f k) m = ncoeff (nget smono_eqb g k) m) \/
     (slow_dual_stable_grothendieck_q ord bord tord n mu nu = Err AssertionError /\
      exists alpha beta N N', length alpha = n /\ Permutation alpha beta /\ cardinality (fun T => marked_rpp_of true n mu nu T /\ marked_weight alpha T) N /\ cardinality (fun T => marked_rpp_of true n mu nu T /\ marked_weight beta T) N' /\ N <> N')).
  Proof.
    intros n mu nu Pm Pn. destruct (slow_marked true n mu nu Pm Pn) as (r & g & Er & Eg & H). exists g. split; [exact Eg|]. unfold slow_dual_stable_grothendieck_q. rewrite Er. cbn [rbind]. destruct H as [H|[E (a & N & N' & La & C1 & C2 & Ne)]]; [left; exact H|right].
    rewrite E. split; [reflexivity|]. exists a, (psort a false), N', N. split; [assumption|]. split; [apply Permutation_sym, psort_perm|]. split; [assumption|]. split; [assumption|congruence].
  Qed.

  (* C74: the versions with the sign of beta changed *)
  Lemma sign_changed : forall pord isx n k N g, (forall l, Permutation (pord l) l) -> dual_counts n k N g -> (forall p, fits n p -> N p <> 0 -> zsum p <= k) ->
    exists P g' P', spolynomial num_terms pord isx g = Ok P /\ negate_beta g = Ok g' /\ spolynomial num_terms pord isx g' = Ok P' /\ canon P' /\
      (forall key m, ncoeff (sg g' key) m = (if Z.even (expo m 0) then 1 else -1) * ncoeff (sg g key) m) /\
      forall m, canon_mono m -> coeff P' m = (if Z.even (expo m 0) then 1 else -1) * coeff P m.
  Proof.
    intros pord isx n k N g Hp D B. destruct (dual_negated n k N g D B) as (g' & E' & W' & K' & H' & H2). destruct D as (Wg & Kg & _ & Hg).
    destruct (nsym_polynomial pord isx n g (fun p => alt (k - zsum p) * N p) (fun z => k - z) Hp Wg Kg Hg) as (P & EP & CP & HP).
    destruct (nsym_polynomial pord isx n g' N (fun z => k - z) Hp W' K' H2) as (P' & EP' & CP' & HP').
    exists P, g', P'. split; [assumption|]. split; [assumption|]. split; [assumption|]. split; [assumption|]. split; [exact H'|].
    intros m C. destruct (HP m C) as [A1 A2]. destruct (HP' m C) as [A1' A2']. clear HP HP'. set (e0 := exponents isx n m) in *.
    destruct (Forall_dec (fun x => 0 <= x) (Z_le_dec 0) e0) as [F0|F0]; [|rewrite A2, A2' by tauto; lia].
    assert (Lz : length e0 = n) by (unfold e0, exponents; rewrite map_length, seq_length; reflexivity).
    assert (Dm : m = mmul (vmon isx e0) (mvar 0 (k - zsum e0)) \/ m <> mmul (vmon isx e0) (mvar 0 (k - zsum e0))) by (destruct (meqb m (mmul (vmon isx e0) (mvar 0 (k - zsum e0)))) eqn:Q; [left; apply meqb_spec; assumption|right; intro X; apply meqb_spec in X; congruence]).
    destruct Dm as [Em|Em]; [|rewrite A2, A2' by tauto; lia].
    rewrite (A1 F0 Em), (A1' F0 Em). pose proof (proj2 (monomial_form isx n m (fun z => k - z) C) Em) as [_ X]. fold e0 in X. cbv beta in X. destruct (sort_arr n e0 Lz F0) as (_ & _ & Sz & _). rewrite X, Sz. fold (alt (k - zsum e0)). rewrite Z.mul_assoc, alt_sq. lia.
  Qed.
  Theorem C74_mp_dual_stable_grothendieck : forall pord isx n mu nu, (forall l, Permutation (pord l) l) -> partition mu -> partition nu ->
    exists g P g' P', dual_stable_grothendieck ord n mu nu = Ok g /\ spolynomial num_terms pord isx g = Ok P /\
      mp_dual_stable_grothendieck ord n mu nu = Ok g' /\ spolynomial num_terms pord isx g' = Ok P' /\ canon P' /\
      (forall key m, ncoeff (nget smono_eqb g' key) m = (if Z.even (expo m 0) then 1 else -1) * ncoeff (nget smono_eqb g key) m) /\
      forall m, canon_mono m -> coeff P' m = (if Z.even (expo m 0) then 1 else -1) * coeff P m.
  Proof.
    intros pord isx n mu nu Hp Pm Pn. destruct (plain_pack ord idl idl ord_perm idl_perm idl_perm n mu nu Pm Pn) as (d & r & g & _ & _ & Eg & _ & _ & D & _ & B & _).
    destruct (sign_changed pord isx n _ _ g Hp D B) as (P & g' & P' & E1 & E2 & E3 & H). exists g, P, g', P'. unfold mp_dual_stable_grothendieck. rewrite Eg. split; [reflexivity|]. split; [assumption|]. split; [assumption|]. split; [assumption|]. exact H.
  Qed.
  Theorem C74_mp_dual_stable_grothendieck_p : forall pord isx n mu nu, (forall l, Permutation (pord l) l) -> strict_partition mu -> strict_partition nu ->
    exists g P g' P', dual_stable_grothendieck_p ord n mu nu = Ok g /\ spolynomial num_terms pord isx g = Ok P /\
      mp_dual_stable_grothendieck_p ord n mu nu = Ok g' /\ spolynomial num_terms pord isx g' = Ok P' /\ canon P' /\
      (forall key m, ncoeff (nget smono_eqb g' key) m = (if Z.even (expo m 0) then 1 else -1) * ncoeff (nget smono_eqb g key) m) /\
      forall m, canon_mono m -> coeff P' m = (if Z.even (expo m 0) then 1 else -1) * coeff P m.
  Proof.
    intros pord isx n mu nu Hp Pm Pn. destruct (marked_pack ord idl idl ord_perm idl_perm idl_perm false n mu nu Pm Pn) as (d & r & g & _ & _ & Eg & _ & _ & D & _ & B & _).
    change (dual_stable_grothendieck_p ord n mu nu = Ok g) in Eg.
    destruct (sign_changed pord isx n _ _ g Hp D B) as (P & g' & P' & E1 & E2 & E3 & H). exists g, P, g', P'. unfold mp_dual_stable_grothendieck_p. rewrite Eg. split; [reflexivity|]. split; [assumption|]. split; [assumption|]. split; [assumption|]. exact H.
  Qed.
  Theorem C74_mp_dual_stable_grothendieck_q : forall pord isx n mu nu, (forall l, Permutation (pord l) l) -> strict_partition mu -> strict_partition nu ->
    exists g P g' P', dual_stable_grothendieck_q ord n mu nu = Ok g /\ spolynomial num_terms pord isx g = Ok P /\
      mp_dual_stable_grothendieck_q ord n mu nu = Ok g' /\ spolynomial num_terms pord isx g' = Ok P' /\ canon P' /\
      (forall key m, ncoeff (nget smono_eqb g' key) m = (if Z.even (expo m 0) then 1 else -1) * ncoeff (nget smono_eqb g key) m) /\
      forall m, canon_mono m -> coeff P' m = (if Z.even (expo m 0) then 1 else -1) * coeff P m.
  Proof.
    intros pord isx n mu nu Hp Pm Pn. destruct (marked_pack ord idl idl ord_perm idl_perm idl_perm true n mu nu Pm Pn) as (d & r & g & _ & _ & Eg & _ & _ & D & _ & B & _).
    change (dual_stable_grothendieck_q ord n mu nu = Ok g) in Eg.
    destruct (sign_changed pord isx n _ _ g Hp D B) as (P & g' & P' & E1 & E2 & E3 & H). exists g, P, g', P'. unfold mp_dual_stable_grothendieck_q. rewrite Eg. split; [reflexivity|]. split; [assumption|]. split; [assumption|]. split; [assumption|]. exact H.
  Qed.

  (* ---------- expansions ---------- *)
  Definition rk (n : nat) (mu alpha : list Z) : Z := match count_semistandard_rpp ord n mu [] with Ok d => cget d alpha | Err _ => 0 end.
  Definition mk (dnp : bool) (n : nat) (mu alpha : list Z) : Z := match mcount ord dnp n mu [] with Ok d => cget d alpha | Err _ => 0 end.
  Lemma rk_tri : forall n mu alpha, partition mu -> fits n alpha -> rk n mu alpha <> 0 -> alpha = mu \/ after true mu alpha.
  Proof.
    intros n mu alpha Pm Fa Nz. unfold rk in Nz. destruct (plain_pack ord idl idl ord_perm idl_perm idl_perm n mu [] Pm pnil) as (d & r & g & Ed & _ & _ & _ & _ & _ & Hd & _ & _). rewrite Ed in Nz.
    destruct (pcount_bound false (fun _ _ x => 0 < x) [] pnil n mu d Pm Hd alpha Fa Nz) as [Le Eq]. change (zsum []) with 0 in *. rewrite Z.sub_0_r in *.
    destruct (Z.eq_dec (zsum alpha) (zsum mu)) as [E|E]; [|right; left; lia]. destruct (Eq E) as (T & HW & HT).
    assert (HT' : tableau_of cell (fun _ _ => False) false n mu [] T).
    { apply (weaken_primes cell _ (fun _ _ => False)) in HT; [|intros i j (x & X1 & X2); lia]. destruct HT as (I & W & D & L & R & Q). split; [assumption|]. split; [assumption|]. split; [assumption|]. split; [assumption|]. split; [|assumption]. intros i j x Hx. destruct (R i j x Hx) as [R1 R2]. split; [|assumption]. pose proof (proj2 Fa). lia. }
    destruct (plain_dominance ord ord_perm n mu alpha T Pm Fa HT' HW) as [->|H]; [left; reflexivity|right; right; split; [symmetry; assumption|assumption]].
  Qed.
  Lemma rk_one : forall n mu, fits n mu -> rk n mu mu = 1.
  Proof.
    intros n mu Fm. pose proof (proj1 Fm) as Pm. unfold rk. destruct (plain_pack ord idl idl ord_perm idl_perm idl_perm n mu [] Pm pnil) as (d & r & g & Ed & _ & _ & _ & _ & _ & Hd & _ & C). rewrite Ed.
    destruct Hd as [_ H]. specialize (H mu (wt mu) Pm (proj2 Fm) ltac:(reflexivity)).
    destruct (rows_filling false mu (fun _ _ x => 0 < x) Pm) as [F W]; [intros i j Hc; pose proof (row_of_cell false mu Pm i j Hc); lia|].
    assert (O : okS false [] mu) by (split; [assumption|]; intros [i j] Hc; exfalso; unfold dc, dcell, cell, row in Hc; cbn [fst snd] in Hc; rewrite nth_overflow in Hc by (cbn; lia); lia).
    assert (I : forall i j, cell [] i j -> cell mu i j) by (intros i j; exact (proj2 O (i, j))).
    apply (counts_one _ _ _ (formula false (fun i _ => i) mu) H).
    - split; [apply (rpp_of_pfill (Z.of_nat (length mu)) [] mu); [assumption|exact F]|]. apply is_weight_wt. assumption.
    - intros y [Fy Wy].
      assert (K1 : cardinality (fun T => tableau_of cell (fun _ _ => False) false (length mu) mu [] T /\ has_weight mu T) (kostka ord false (length mu) mu mu)) by (apply kostka_counts; [assumption|assumption|split; [assumption|lia]]).
      rewrite (kostka_diagonal ord ord_perm false (length mu) mu Pm (le_n _)) in K1.
      assert (S1 : forall T, reverse_plane_partition (Z.of_nat (length mu)) [] mu T -> is_weight mu T -> tableau_of cell (fun _ _ => False) false (length mu) mu [] T /\ has_weight mu T).
      { intros T RT WT. destruct (weight_eq false (fun _ _ x => 0 < x) (length mu) [] mu T Pm pnil I RT mu (le_n _) WT) as [H1 H2]; [change (zsum mu = zsum mu - 0); lia|]. split; [|exact H1].
        refine (weaken_primes cell _ (fun _ _ => False) false (length mu) mu [] T _ H2). intros i j (x & X1 & X2). lia. }
      destruct K1 as (l & Nl & Hl & Ll). pose proof (proj2 (Hl _) (S1 _ F W)) as I1. assert (Ry : reverse_plane_partition (Z.of_nat (length mu)) [] mu y) by (apply rpp_of_pfill; assumption).
      pose proof (proj2 (Hl _) (S1 y Ry (proj2 (is_weight_wt mu y) Wy))) as I2. destruct l as [|x [|x' l]]; [destruct I1| |cbn [length] in Ll; lia]. destruct I1 as [<-|[]]. destruct I2 as [<-|[]]. reflexivity.
  Qed.
  Definition df (n : nat) (mu : list Z) : res nsym := dual_stable_grothendieck ord n mu [].
  Definition mdf (n : nat) (mu : list Z) : res nsym := mp_dual_stable_grothendieck ord n mu [].
  Lemma df_family : forall n mu, partition mu -> df n mu = Ok (Fv n df mu) /\ nvwf (Fv n df mu) /\ (forall m, In m (map fst (Fv n df mu)) -> fst m = n /\ fits n (snd m)) /\
    forall alpha G, fits n alpha -> nev (sg (Fv n df mu) (n, alpha)) G = (alt (size mu - size alpha) * rk n mu alpha) * G (mvar 0 (size mu - size alpha)).
  Proof.
    intros n mu Pm. destruct (plain_pack ord idl idl ord_perm idl_perm idl_perm n mu [] Pm pnil) as (d & r & g & Ed & _ & Eg & _ & _ & (W & K & _ & H) & _ & _ & _).
    assert (E : Fv n df mu = g) by (unfold Fv, df; rewrite Eg; reflexivity). rewrite E. split; [exact Eg|]. split; [assumption|]. split; [assumption|]. intros alpha G Fa. unfold rk. rewrite Ed, (H alpha G Fa). change (zsum []) with 0. rewrite Z.sub_0_r. reflexivity.
  Qed.
  Lemma mdf_family : forall n mu, partition mu -> mdf n mu = Ok (Fv n mdf mu) /\ nvwf (Fv n mdf mu) /\ (forall m, In m (map fst (Fv n mdf mu)) -> fst m = n /\ fits n (snd m)) /\
    forall alpha G, fits n alpha -> nev (sg (Fv n mdf mu) (n, alpha)) G = rk n mu alpha * G (mvar 0 (size mu - size alpha)).
  Proof.
    intros n mu Pm. destruct (plain_pack ord idl idl ord_perm idl_perm idl_perm n mu [] Pm pnil) as (d & r & g & Ed & _ & Eg & _ & _ & D & _ & B & _).
    destruct (dual_negated n _ (cget d) g D B) as (g' & E' & W & K & _ & H). assert (Em : mdf n mu = Ok g') by (unfold mdf, mp_dual_stable_grothendieck; rewrite Eg; exact E').
    assert (E : Fv n mdf mu = g') by (unfold Fv; rewrite Em; reflexivity). rewrite E. split; [exact Em|]. split; [assumption|]. split; [assumption|]. intros alpha G Fa. unfold rk. rewrite Ed, (H alpha G Fa). change (zsum []) with 0. rewrite Z.sub_0_r. reflexivity.
  Qed.
  Lemma signed_tri : forall n mu alpha, partition mu -> fits n alpha -> alt (size mu - size alpha) * rk n mu alpha <> 0 -> alpha = mu \/ after true mu alpha.
  Proof. intros n mu alpha Pm Fa Nz. apply (rk_tri n); [assumption|assumption|]. intro Z0. rewrite Z0 in Nz. lia. Qed.
  Lemma signed_one : forall n mu, fits n mu -> alt (size mu - size mu) * rk n mu mu = 1.
  Proof. intros n mu Fm. rewrite rk_one by assumption. rewrite Z.sub_diag. reflexivity. Qed.

  (* C72 *)
  Theorem C72_dual_grothendieck_expansion : forall n f, sym_canon beta_num n f ->
    exists v basis N, idx_canon n v /\
      (forall fuel, (N <= fuel)%nat -> dual_grothendieck_expansion ord fuel f = Ok v) /\
      (forall mu, partition mu -> dual_stable_grothendieck ord n mu [] = Ok (basis mu)) /\
      forall alpha m, combination basis v (n, alpha) m = ncoeff (at_monomial f n alpha) m.
  Proof. intro n. exact (hi_total n df _ (df_family n) (signed_tri n) (signed_one n)). Qed.
  Theorem C72_dual_grothendieck_coefficients : forall n f c basis, sym_canon beta_num n f -> idx_canon n c ->
    (forall mu, partition mu -> dual_stable_grothendieck ord n mu [] = Ok (basis mu)) ->
    (forall alpha m, combination basis c (n, alpha) m = ncoeff (at_monomial f n alpha) m) ->
    exists v N, (forall fuel, (N <= fuel)%nat -> dual_grothendieck_expansion ord fuel f = Ok v) /\
      forall mu m, ncoeff (at_index v mu) m = ncoeff (at_index c mu) m.
  Proof. intro n. exact (hi_coefficients n df _ (df_family n) (signed_tri n) (signed_one n)). Qed.
  Theorem C72_mp_dual_grothendieck_expansion : forall n f, sym_canon beta_num n f ->
    exists v basis N, idx_canon n v /\
      (forall fuel, (N <= fuel)%nat -> mp_dual_grothendieck_expansion ord fuel f = Ok v) /\
      (forall mu, partition mu -> mp_dual_stable_grothendieck ord n mu [] = Ok (basis mu)) /\
      forall alpha m, combination basis v (n, alpha) m = ncoeff (at_monomial f n alpha) m.
  Proof. intro n. exact (hi_total n mdf _ (mdf_family n) (rk_tri n) (rk_one n)). Qed.
  Theorem C72_mp_dual_grothendieck_coefficients : forall n f c basis, sym_canon beta_num n f -> idx_canon n c ->
    (forall mu, partition mu -> mp_dual_stable_grothendieck ord n mu [] = Ok (basis mu)) ->
    (forall alpha m, combination basis c (n, alpha) m = ncoeff (at_monomial f n alpha) m) ->
    exists v N, (forall fuel, (N <= fuel)%nat -> mp_dual_grothendieck_expansion ord fuel f = Ok v) /\
      forall mu m, ncoeff (at_index v mu) m = ncoeff (at_index c mu) m.
  Proof. intro n. exact (hi_coefficients n mdf _ (mdf_family n) (rk_tri n) (rk_one n)). Qed.

  (* C73 *)
  Lemma mk_tri : forall dnp n mu alpha, strict_partition mu -> fits n alpha -> mk dnp n mu alpha <> 0 -> alpha = mu \/ after true mu alpha.
  Proof.
    intros dnp n mu alpha Pm Fa Nz. unfold mk in Nz. destruct (marked_pack ord idl idl ord_perm idl_perm idl_perm dnp n mu [] Pm strict_nil) as (d & r & g & Ed & _ & _ & _ & _ & _ & Hd & _ & _). rewrite Ed in Nz.
    destruct (pcount_bound true (fun i j x => dnp = false -> i = j -> x < 0) [] strict_nil n mu d Pm Hd alpha Fa Nz) as [Le Eq]. change (zsum []) with 0 in *. rewrite Z.sub_0_r in *.
    destruct (Z.eq_dec (zsum alpha) (zsum mu)) as [E|E]; [|right; left; lia]. destruct (Eq E) as (T & HW & HT).
    destruct (shifted_dominance _ false (length alpha) mu T alpha Pm (proj1 Fa) (le_n _) HT HW) as [H|[_ [H|H]]]; [unfold size in H; change (zsum mu < zsum alpha) in H; lia|left; assumption|right; right; split; [symmetry; assumption|assumption]].
  Qed.
  Lemma mk_diag : forall dnp n mu, strict_partition mu -> (length mu <= n)%nat -> mk dnp n mu mu <> 0.
  Proof.
    intros dnp n mu Pm Ln. unfold mk. destruct (marked_pack ord idl idl ord_perm idl_perm idl_perm dnp n mu [] Pm strict_nil) as (d & r & g & Ed & _ & _ & _ & _ & _ & Hd & _ & _). rewrite Ed. pose proof (strict_is_partition mu Pm) as Pp.
    destruct Hd as [_ H]. specialize (H mu (wt mu) Pp Ln ltac:(reflexivity)).
    assert (O : okS true [] mu) by (split; [assumption|]; intros [i j] Hc; exfalso; unfold dc, dcell, shifted_cell, row in Hc; cbn [fst snd] in Hc; rewrite nth_overflow in Hc by (cbn; lia); lia).
    assert (X : exists T, marked_reverse_plane_partition dnp (Z.of_nat (length mu)) [] mu T /\ is_weight mu T).
    { destruct dnp.
      - destruct (rows_filling true mu (fun i j x => true = false -> i = j -> x < 0) Pm) as [F W]; [intros i j _ X; discriminate|]. eexists. split; [exact F|exact W].
      - destruct (diag_filling mu Pm) as [F W]. exists (formula true diag_f mu). split; [|exact W]. destruct F as (A1 & A2 & A3 & A4 & A5). split; [exact A1|]. split; [exact A2|]. split; [exact A3|]. split; [|exact A5]. intros i j x Hx. destruct (A4 i j x Hx) as [B1 B2]. split; [assumption|]. intros _. exact B2. }
    destruct X as (T & F & W). assert (0 < cget d mu); [|lia]. apply (counts_has _ _ _ T H). split; [apply (marked_of_pfill dnp (Z.of_nat (length mu)) [] mu); assumption|]. apply is_weight_wt. assumption.
  Qed.
  Lemma mk_strict : forall dnp n mu d, partition mu -> mcount ord dnp n mu [] = Ok d -> strict_partition mu.
  Proof.
    intros dnp n mu d Pm E. destruct (is_strict_partition mu) eqn:S1.
    - split; [apply Pm|]. unfold is_strict_partition in S1. rewrite forallb_forall in S1. intros i Hi. specialize (S1 (Z.of_nat (S i))). rewrite Z.ltb_lt in S1.
      assert (X : forall k, nthz mu (Z.of_nat k) = row mu k). { intro k. unfold nthz, row. rewrite Nat2Z.id. destruct (Z.ltb_spec (Z.of_nat k) 0); [lia|reflexivity]. }
      rewrite <- !X. replace (Z.of_nat (S i) - 1) with (Z.of_nat i) in S1 by lia. apply S1. apply In_zrange. unfold zlen. lia.
    - unfold mcount in E. rewrite (proj2 (C66_not_strict ord idl idl n mu [] dnp S1)) in E. discriminate.
  Qed.
  Definition mf (dnp : bool) (n : nat) (mu : list Z) : res nsym := mfam ord dnp n mu [].
  Definition mpf (dnp : bool) (n : nat) (mu : list Z) : res nsym := do g <- mf dnp n mu; negate_beta g.
  Lemma mf_expands : forall dnp n, expands (expansion (mf dnp) (term true)) n strict_partition (mf dnp n).
  Proof.
    intros dnp n. apply (powers_expands true n (mf dnp) strict_partition (fun mu alpha => alt (size mu - size alpha) * mk dnp n mu alpha) (fun mu alpha => size mu - size alpha)).
    - intros p Hp. apply strict_is_partition. assumption.
    - intros mu Pm. destruct (marked_pack ord idl idl ord_perm idl_perm idl_perm dnp n mu [] Pm strict_nil) as (d & r & g & Ed & _ & Eg & _ & _ & (W & K & _ & H) & _ & _ & _).
      assert (E : Fv n (mf dnp) mu = g) by (unfold Fv, mf; rewrite Eg; reflexivity). rewrite E. split; [exact Eg|]. split; [assumption|]. split; [assumption|]. intros alpha G Fa. unfold mk. rewrite Ed, (H alpha G Fa). change (zsum []) with 0. rewrite Z.sub_0_r. reflexivity.
    - intro mu. lia.
    - intros mu alpha Pm Fa Nz. apply (mk_tri dnp n); [assumption|assumption|]. intro Z0. rewrite Z0 in Nz. lia.
    - intros mu Pm Ln. rewrite Z.sub_diag. pose proof (mk_diag dnp n mu Pm Ln). change (alt 0) with 1. lia.
    - intros p g Pp E. unfold mf, mfam in E. destruct (mcount ord dnp n p []) as [d|] eqn:Ed; [|discriminate]. exact (mk_strict dnp n p d Pp Ed).
  Qed.
  Lemma mpf_expands : forall dnp n, expands (expansion (mpf dnp) (term true)) n strict_partition (mpf dnp n).
  Proof.
    intros dnp n. apply (powers_expands true n (mpf dnp) strict_partition (fun mu alpha => mk dnp n mu alpha) (fun mu alpha => size mu - size alpha)).
    - intros p Hp. apply strict_is_partition. assumption.
    - intros mu Pm. destruct (marked_pack ord idl idl ord_perm idl_perm idl_perm dnp n mu [] Pm strict_nil) as (d & r & g & Ed & _ & Eg & _ & _ & D & _ & B & _).
      destruct (dual_negated n _ (cget d) g D B) as (g' & E' & W & K & _ & H). assert (Em : mpf dnp n mu = Ok g') by (unfold mpf, mf; rewrite Eg; exact E').
      assert (E : Fv n (mpf dnp) mu = g') by (unfold Fv; rewrite Em; reflexivity). rewrite E. split; [exact Em|]. split; [assumption|]. split; [assumption|]. intros alpha G Fa. unfold mk. rewrite Ed, (H alpha G Fa). change (zsum []) with 0. rewrite Z.sub_0_r. reflexivity.
    - intro mu. lia.
    - intros mu alpha Pm Fa Nz. apply (mk_tri dnp n); assumption.
    - intros mu Pm Ln. apply (mk_diag dnp n mu Pm Ln).
    - intros p g Pp E. unfold mpf, mf, mfam in E. destruct (mcount ord dnp n p []) as [d|] eqn:Ed; [|discriminate]. exact (mk_strict dnp n p d Pp Ed).
  Qed.
  Theorem C73_gp_expansion : forall n, expands (gp_expansion ord) n strict_partition (fun mu => dual_stable_grothendieck_p ord n mu []).
  Proof. exact (mf_expands false). Qed.
  Theorem C73_gq_expansion : forall n, expands (gq_expansion ord) n strict_partition (fun mu => dual_stable_grothendieck_q ord n mu []).
  Proof. exact (mf_expands true). Qed.
  Theorem C73_mp_gp_expansion : forall n, expands (mp_gp_expansion ord) n strict_partition (fun mu => mp_dual_stable_grothendieck_p ord n mu []).
  Proof. exact (mpf_expands false). Qed.
  Theorem C73_mp_gq_expansion : forall n, expands (mp_gq_expansion ord) n strict_partition (fun mu => mp_dual_stable_grothendieck_q ord n mu []).
  Proof. exact (mpf_expands true). Qed.
End Statements.

(* gs_expansion raises on the gs-polynomial of (2,1), at every recursion limit *)
Theorem C73_gs_expansion_refuted : exists f, dual_stable_grothendieck_s idl 2 [2; 1] [] = Ok f /\ forall fuel v, gs_expansion idl fuel f <> Ok v.
Proof.
  eexists. split; [vm_compute; reflexivity|]. intros fuel v. do 4 (destruct fuel as [|fuel]; [vm_compute; discriminate|]). vm_compute. discriminate.
Qed.
(* the gs-polynomials are not independent: those of (1,1) and (2) are equal *)
Theorem C73_gs_family_dependent : exists f g, dual_stable_grothendieck_s idl 2 [1; 1] [] = Ok f /\ dual_stable_grothendieck_s idl 2 [2] [] = Ok g /\ nveq smono_eqb f g = true /\ Permutation f g.
Proof. eexists. eexists. split; [vm_compute; reflexivity|]. split; [vm_compute; reflexivity|]. split; [vm_compute; reflexivity|]. apply perm_skip, perm_swap. Qed.

(* g_21 = m_21 - beta (m_11 + m_2) in two variables *)
Example C69_example : dual_stable_grothendieck idl 2 [2; 1] [] = Ok [((2%nat, [2; 1]), NP [([], 1)]); ((2%nat, [1; 1]), NP [([(0, 1)], -1)]); ((2%nat, [2]), NP [([(0, 1)], -1)])].
Proof. vm_compute. reflexivity. Qed.
Example C69_polynomial : exists P, (do g <- dual_stable_grothendieck idl 2 [2; 1] []; spolynomial num_terms idl true g) = Ok P /\ coeff P [(1, 2); (2, 1)] = 1 /\ coeff P [(0, 1); (1, 1); (2, 1)] = -1 /\ coeff P [(0, 1); (2, 2)] = -1 /\ coeff P [(1, 1); (2, 1)] = 0.
Proof. eexists. split; [vm_compute; reflexivity|]. repeat split; reflexivity. Qed.
Example C70_example : exists g, dual_stable_grothendieck_q idl 2 [2; 1] [] = Ok g /\ ncoeff (at_monomial g 2 [2; 1]) [] = 4 /\ ncoeff (at_monomial g 2 [2]) [(0, 1)] = -4.
Proof. eexists. split; [vm_compute; reflexivity|]. split; reflexivity. Qed.
Example C71_example : exists f, slow_dual_stable_grothendieck_p idl idl idl 2 [2; 1] [] = Ok f /\ (exists g, dual_stable_grothendieck_p idl 2 [2; 1] [] = Ok g /\ nveq smono_eqb f g = true).
Proof. eexists. split; [vm_compute; reflexivity|]. eexists. split; vm_compute; reflexivity. Qed.
(* m_21 in two variables is g_21 + beta g_2 *)
Example C72_example : sym_canon beta_num 2 [((2%nat, [2; 1]), NI 1)] /\ dual_grothendieck_expansion idl 9 [((2%nat, [2; 1]), NI 1)] = Ok [([2], NP [([(0, 1)], 1)]); ([2; 1], NP [([], 1)])].
Proof.
  split; [|vm_compute; reflexivity]. split; [repeat constructor; cbn; intuition discriminate|]. intros k mu c [E|[]]. injection E as <- <- <-. split; [reflexivity|]. split; [split; [repeat constructor; lia|intros [|[|[|i]]]; cbn; lia]|]. split; [cbn; lia|]. split; [cbn; lia|]. intros m c [X|[]] t _. injection X as <- _. reflexivity.
Qed.
Example C73_example : exists f, dual_stable_grothendieck_q idl 2 [2; 1] [] = Ok f /\ exists v, gq_expansion idl 9 f = Ok v /\ ncoeff (at_index v [2; 1]) [] = 1 /\ ncoeff (at_index v [2]) [(0, 1)] = 0.
Proof. eexists. split; [vm_compute; reflexivity|]. eexists. split; [vm_compute; reflexivity|]. split; reflexivity. Qed.
Example C74_example : mp_dual_stable_grothendieck idl 2 [2; 1] [] = Ok [((2%nat, [2; 1]), NP [([], 1)]); ((2%nat, [1; 1]), NP [([(0, 1)], 1)]); ((2%nat, [2]), NP [([(0, 1)], 1)])].
Proof. vm_compute. reflexivity. Qed.

Print Assumptions C68_rpp_symmetric.
Print Assumptions C69_dual_stable_grothendieck.
Print Assumptions C70_dual_stable_grothendieck_p.
Print Assumptions C70_dual_stable_grothendieck_q.
Print Assumptions C70_dual_stable_grothendieck_s.
Print Assumptions C71_slow_dual_stable_grothendieck.
Print Assumptions C71_slow_dual_stable_grothendieck_p.
Print Assumptions C71_slow_dual_stable_grothendieck_q.
Print Assumptions C74_mp_dual_stable_grothendieck.
Print Assumptions C74_mp_dual_stable_grothendieck_p.
Print Assumptions C74_mp_dual_stable_grothendieck_q.
Print Assumptions C72_dual_grothendieck_expansion.
Print Assumptions C72_dual_grothendieck_coefficients.
Print Assumptions C72_mp_dual_grothendieck_expansion.
Print Assumptions C72_mp_dual_grothendieck_coefficients.
Print Assumptions C73_gp_expansion.
Print Assumptions C73_gq_expansion.
Print Assumptions C73_mp_gp_expansion.
Print Assumptions C73_mp_gq_expansion.
Print Assumptions C73_gs_expansion_refuted.
Print Assumptions C73_gs_family_dependent.
