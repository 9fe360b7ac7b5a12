(* C37, C53: (set-valued) semistandard tableaux by weight, Schur and stable Grothendieck polynomials
   as polynomials, and the slow path.
   The parameters ord, bord, tord, pord are the unspecified iteration orders of Python sets. *)
From Coq Require Import List ZArith Lia Bool Permutation Arith.
From Verif Require Import PyBase FinSum M_Partitions S_Partitions L_Partitions L_PartBasic L_PartEnum L_Destand L_Destand2 M_Vectors L_Vectors M_Polynomials S_Polynomials L_Polynomials P_Polynomials L_PolySubst
  M_Tableaux S_Tableaux M_Semistandard S_Semistandard L_Strips2 L_Shape L_Semi L_Semi3 L_Semi4 L_Count L_Count2 L_Count3 L_CountCache M_Symmetric S_Symmetric M_Expansion S_Expansion M_Slow
  L_SymPoly L_SymMul L_Kostka L_Num L_Expand1 L_Expand2 L_Expand3 L_Expand4 L_Expand5 L_Expand6 P_Symmetric P_Expansion P_Semistandard P_Count L_Sym1 L_Sym2 L_Sym3 L_Sym4 L_Sym5 L_Sym6 L_Slow.
Import ListNotations.
Local Open Scope Z_scope.
Local Notation sg := (nget smono_eqb).

(* x_1, ..., x_n (or y_1, ..., y_n) are the only variables of m, apart from beta (index 0) if [withbeta] *)
Definition in_variables (withbeta isx : bool) (n : nat) (m : mono) : Prop :=
  forall t, expo m t <> 0 -> (withbeta = true /\ t = 0) \/ exists i, In i (seq 1 n) /\ t = variable isx i.

Lemma full_letters : forall sh pr sv lam n mu T x, full sh pr sv lam (2 * Z.of_nat n) mu T -> In x (flat_map snd T) -> 1 <= Z.abs x <= Z.of_nat n.
Proof.
  intros sh pr sv lam n mu T x F Hx. apply in_flat_map in Hx. destruct Hx as ([b l] & H1 & H2). cbn [snd] in H2. destruct F as [P (_ & D & _)].
  destruct (D b x) as [L _]; [exists l; split; [rewrite <- surjective_pairing; assumption|assumption]|]. unfold letters in L. destruct (dbl_cases x); lia.
Qed.
Lemma cell_dec : forall mu nu, partition mu -> partition nu -> {forall i j, cell nu i j -> cell mu i j} + {~ forall i j, cell nu i j -> cell mu i j}.
Proof.
  intros mu nu Hm Hn. destruct (contains mu nu) eqn:E.
  - left. intros i j. exact (proj1 (contains_incl false mu nu Hm Hn) E (i, j)).
  - right. intro H. assert (X : contains mu nu = true) by (apply (contains_incl false mu nu Hm Hn); intros [i j]; apply H). congruence.
Qed.
Lemma has_weight_padz : forall p n T, has_weight (padz p n) T <-> has_weight p T.
Proof. intros p n T. unfold has_weight. split; intros H k; specialize (H k); change (nth k (padz p n) 0) with (row (padz p n) k) in *; rewrite padz_row in *; exact H. Qed.

Section Statements.
  Variable ord : list (list Z) -> list (list Z).
  Variable bord : list (Z * Z) -> list (Z * Z).
  Variable tord : list (list ((Z * Z) * list Z)) -> list (list ((Z * Z) * list Z)).
  Hypothesis ord_perm : forall l, Permutation (ord l) l.
  Hypothesis bord_perm : forall l, Permutation (bord l) l.
  Hypothesis tord_perm : forall l, Permutation (tord l) l.

  Lemma both : forall n mu nu sv, partition mu -> partition nu -> exists r d, semistandard ord bord tord n mu nu sv = Ok r /\ NoDup r /\ count_semistandard ord n mu nu sv = Ok d /\ good n d /\
    (forall t, In t r -> forall x, In x (flat_map snd t) -> 1 <= Z.abs x <= Z.of_nat n) /\
    (forall alpha beta, length alpha = n -> Permutation alpha beta -> wcount n r alpha = wcount n r beta) /\
    (forall p, fits n p -> cget d p = wcount n r (padz p n)).
  Proof.
    intros n mu nu sv Hm Hn. destruct (cell_dec mu nu Hm Hn) as [Hi|Hi].
    - assert (Hi' : forall b, dc false nu b -> dc false mu b) by (intros [i j]; apply Hi).
      destruct (semistandard_full ord bord tord ord_perm bord_perm tord_perm sv nu Hn n mu Hm Hi') as (r & E & Nr & H).
      destruct (count_semistandard_ok ord ord_perm sv nu Hn n mu Hm Hi') as (d & Ed & Gd & Cd). exists r, d.
      assert (Lt : forall t, In t r -> forall x, In x (flat_map snd t) -> 1 <= Z.abs x <= Z.of_nat n) by (intros t Ht x Hx; apply H in Ht; eapply full_letters; eassumption).
      split; [assumption|]. split; [assumption|]. split; [assumption|]. split; [assumption|]. split; [assumption|]. split.
      + intros alpha beta La P. apply (full_symmetric sv nu n mu r Hn Hm Hi' Nr H alpha beta La P).
      + intros p [Pp Lp]. apply (counts_unique _ (fun T => In T r /\ has_weight p T)).
        * destruct (count_ok_by_weight false noprime sv nu n mu d r (conj Gd Cd) H) as (_ & _ & Q). apply Q; assumption.
        * refine (counts_ext _ (fun T => In T r /\ has_weight (padz p n) T) _ _ _ _ eq_refl _); [intro T; rewrite has_weight_padz; reflexivity|].
          apply wcount_cardinality; [assumption|apply padz_length; assumption|]. intros T m HT Hgt. apply (occ_above n); [apply Lt; assumption|assumption].
    - exists [], []. split; [apply C34_not_contained; assumption|]. split; [constructor|]. split; [apply C35_not_contained; assumption|]. split; [split; [constructor|intros ? ? []]|]. split; [intros t []|]. split; reflexivity.
  Qed.

  (* the number of tableaux of a given weight does not change when the weight is permuted *)
  Theorem C37_symmetric : forall n mu nu setvalued, partition mu -> partition nu ->
    exists r, semistandard ord bord tord n mu nu setvalued = Ok r /\
      forall alpha beta, length alpha = n -> Permutation alpha beta ->
        exists N, cardinality (fun T => In T r /\ has_weight alpha T) N /\ cardinality (fun T => In T r /\ has_weight beta T) N.
  Proof.
    intros n mu nu sv Hm Hn. destruct (both n mu nu sv Hm Hn) as (r & d & E & Nr & _ & _ & Lt & Sy & _). exists r. split; [assumption|]. intros alpha beta La P. exists (wcount n r alpha).
    assert (O : forall T m, In T r -> Z.of_nat n < m -> occurrences m T = 0) by (intros T m HT Hgt; apply (occ_above n); [apply Lt; assumption|assumption]).
    split; [apply wcount_cardinality; assumption|]. rewrite (Sy alpha beta La P). apply wcount_cardinality; [assumption|rewrite <- La; symmetry; apply Permutation_length; assumption|assumption].
  Qed.

  Lemma poly_general : forall pord isx n (r : list tab) (f : nsym) (N : list Z -> Z) (h : Z -> Z) (b : option Z), (forall l, Permutation (pord l) l) -> nvwf f -> (forall m, In m (map fst f) -> fst m = n /\ fits n (snd m)) ->
    (forall p G, fits n p -> nev (sg f (n, p)) G = (if within b p then N p else 0) * G (mvar 0 (h (zsum p)))) ->
    NoDup r -> (forall t, In t r -> forall x, In x (flat_map snd t) -> 1 <= Z.abs x <= Z.of_nat n) ->
    (forall alpha beta, length alpha = n -> Permutation alpha beta -> wcount n r alpha = wcount n r beta) ->
    (forall p, fits n p -> N p = wcount n r (padz p n)) ->
    exists P, spolynomial num_terms pord isx f = Ok P /\ canon P /\ forall m, canon_mono m ->
      (in_variables true isx n m -> cardinality (fun T => In T r /\ has_weight (exponents isx n m) T /\ expo m 0 = h (zsum (exponents isx n m)) /\ within b (exponents isx n m) = true) (coeff P m)) /\
      (~ (in_variables true isx n m /\ expo m 0 = h (zsum (exponents isx n m))) -> coeff P m = 0).
  Proof.
    intros pord isx n r f N h b Hp Wf Kf Hf Nr Lt Sy HN.
    destruct (nsym_polynomial pord isx n f (fun p => if within b p then N p else 0) h Hp Wf Kf Hf) as (P & EP & CP & H). exists P. split; [assumption|]. split; [assumption|]. intros m C. destruct (H m C) as [H1 H2]. clear H.
    set (e0 := exponents isx n m) in *. assert (L0 : length e0 = n) by (unfold e0, exponents; rewrite map_length, seq_length; reflexivity).
    assert (Vz : forall i, In i (seq 1 n) -> variable isx i <> 0) by (intros i Hi; apply in_seq in Hi; unfold variable; destruct isx; lia).
    assert (V : in_variables true isx n m /\ expo m 0 = h (zsum e0) <-> m = mmul (vmon isx e0) (mvar 0 (h (zsum e0)))).
    { split.
      - intros [Vm E]. apply mwf_ext; [exact C|apply mmul_wf|]. intro t. rewrite mget_mmul, mget_mvar, <- !expo_mget. destruct (Z.eqb_spec 0 t) as [<-|Nt].
        + rewrite E, (expo_mget (vmon isx e0) 0), vmon_zero. lia.
        + destruct (in_dec Z.eq_dec t (map (variable isx) (seq 1 n))) as [I|I].
          * apply in_map_iff in I. destruct I as (i & <- & Hi). pose proof (vmon_exponents isx e0) as Q. rewrite L0 in Q. unfold e0 in Q at 2. unfold exponents in Q.
            assert (Q' : expo (vmon isx e0) (variable isx i) = expo m (variable isx i)); [|lia]. clear -Q Hi. induction (seq 1 n) as [|a l IH]; [destruct Hi|]. cbn [map] in Q. injection Q as Q1 Q2. destruct Hi as [->|Hi]; [assumption|apply IH; assumption].
          * assert (Z1 : expo m t = 0). { destruct (Z.eq_dec (expo m t) 0) as [Z0|Z0]; [assumption|]. destruct (Vm t Z0) as [[_ ->]|(i & Hi & ->)]; [contradiction|]. exfalso. apply I, in_map, Hi. }
            rewrite Z1, expo_mget. unfold vmon. rewrite L0, zrange_seq. rewrite (proj2 (nz_smon_get isx (seq 1 n) e0 t (seq_NoDup _ _) ltac:(rewrite seq_length; symmetry; exact L0))); [reflexivity|]. intros a Ha E1. apply I. rewrite <- E1. apply in_map. assumption.
      - intro E. assert (Ex : forall t, expo m t = mget (vmon isx e0) t + (if 0 =? t then h (zsum e0) else 0)) by (intro t; rewrite E at 1; rewrite expo_mget, mget_mmul, mget_mvar; reflexivity).
        split; [|rewrite Ex, vmon_zero; reflexivity]. intros t Ht. destruct (Z.eq_dec t 0) as [Et|Et]; [left; split; [reflexivity|assumption]|]. rewrite Ex in Ht. replace (0 =? t) with false in Ht by (symmetry; apply Z.eqb_neq; lia). right.
        destruct (in_dec Z.eq_dec t (map (variable isx) (seq 1 n))) as [I|I]; [apply in_map_iff in I; destruct I as (i & <- & Hi); exists i; split; [assumption|reflexivity]|].
        exfalso. apply Ht. rewrite Z.add_0_r. unfold vmon. rewrite L0, zrange_seq. rewrite (proj2 (nz_smon_get isx (seq 1 n) e0 t (seq_NoDup _ _) ltac:(rewrite seq_length; symmetry; exact L0))); [reflexivity|]. intros a Ha E1. apply I. rewrite <- E1. apply in_map. assumption. }
    assert (O : forall T k, In T r -> Z.of_nat n < k -> occurrences k T = 0) by (intros T k HT Hgt; apply (occ_above n); [apply Lt; assumption|assumption]).
    assert (Empty : forall Q : tab -> Prop, (forall T, ~ Q T) -> cardinality Q 0) by (intros Q HQ; exists []; split; [constructor|]; split; [|reflexivity]; intro T; split; [intros []|]; intro X; destruct (HQ T X)).
    split.
    - intro Vm. destruct (Forall_dec (fun x => 0 <= x) (Z_le_dec 0) e0) as [F0|F0].
      + destruct (Z.eq_dec (expo m 0) (h (zsum e0))) as [Eh|Eh].
        * rewrite (H1 F0 (proj1 V (conj Vm Eh))). destruct (sort_arr n e0 L0 F0) as (Fp & _ & Sz & Pz). assert (Wi : within b (psort e0 true) = within b e0) by (unfold within; rewrite Sz; reflexivity). rewrite Wi. destruct (within b e0) eqn:Wb.
          -- rewrite (HN _ Fp). rewrite (Sy _ e0) by (try assumption; apply padz_length, Fp). refine (counts_ext _ (fun T => In T r /\ has_weight e0 T) _ _ _ _ eq_refl _); [intro T; intuition|]. apply wcount_cardinality; assumption.
          -- apply Empty. intros T (_ & _ & _ & X). discriminate.
        * rewrite H2 by (intros [_ X]; apply Eh; apply V; assumption). apply Empty. intros T (_ & _ & X & _). contradiction.
      + rewrite H2 by (intros [X _]; contradiction). apply Empty. intros T (_ & X & _). apply F0. apply Forall_forall. intros x Hx. apply (In_nth _ _ 0) in Hx. destruct Hx as (k & _ & <-). rewrite <- X. apply occ_nonneg.
    - intro Vm. apply H2. intros [_ X]. apply Vm. apply V. assumption.
  Qed.

  Lemma schur_vec : forall n d, good n d -> exists f, vectorize n d = Ok f /\
    let f' := map (fun mc : smono * Z => (fst mc, NI (snd mc))) f : nsym in
    nvwf f' /\ (forall m, In m (map fst f') -> fst m = n /\ fits n (snd m)) /\ (forall m, sg f' m = NI (sget f m)) /\
    forall p G, fits n p -> nev (sg f' (n, p)) G = cget d p * G (mvar 0 0).
  Proof.
    intros n d Gd. destruct (vectorize_short n d (good_short _ _ Gd)) as (f & Ef & Nf & Zf & Hf). exists f. split; [assumption|]. intro f'.
    assert (Fm : map fst f' = map fst f) by (unfold f'; rewrite map_map; reflexivity).
    assert (Gt : forall m, sg f' m = NI (sget f m)).
    { intro m. unfold f'. clear. induction f as [|[a c] f IH]; [reflexivity|]. cbn [map fst snd]. rewrite nget_cons, IH. unfold sget, dget0. cbn [dget]. destruct (smono_eqb a m); reflexivity. }
    split.
    { split; [rewrite Fm; assumption|]. apply Forall_forall. intros x Hx. apply in_map_iff in Hx. destruct Hx as (mc & <- & Hx). cbn [snd nok nzero]. split; [exact I|]. apply Z.eqb_neq. rewrite Forall_forall in Zf. apply Zf. assumption. }
    split; [|split; [assumption|]].
    - intros m Hin. rewrite Fm in Hin. assert (Sn : sget f m <> 0).
      { apply in_map_iff in Hin. destruct Hin as ([m0 c] & <- & Hin). cbn [fst]. unfold sget, dget0. rewrite (In_dget smono_eqb smono_eqb_eq f m0 c Nf Hin). rewrite Forall_forall in Zf. apply (Zf _ Hin). }
      rewrite Hf in Sn. destruct Gd as [Nd Hd]. clear -Sn Hd.
      assert (Q : exists p, In p (map fst d) /\ smono_eqb (n, psort p true) m = true).
      { induction d as [|[p c] d IH]; [exfalso; apply Sn; reflexivity|]. unfold lin in Sn; cbn [lsum fst snd] in Sn; fold (lin 0 Z.add Z.mul d (fun p => ind (smono_eqb (n, psort p true) m))) in Sn. destruct (smono_eqb (n, psort p true) m) eqn:Em; [exists p; split; [left; reflexivity|assumption]|].
        destruct IH as (q & Q1 & Q2); [intros; apply (Hd p0 c0); right; assumption|cbn [ind] in Sn; lia|]. exists q. split; [right; assumption|assumption]. }
      destruct Q as (p & Q1 & Q2). apply smono_eqb_eq in Q2. subst m. cbn [fst snd]. split; [reflexivity|]. apply in_map_iff in Q1. destruct Q1 as ([q c] & <- & Q1). cbn [fst]. destruct (Hd q c Q1) as (Pq & Lq & _). rewrite psort_partition by assumption. split; assumption.
    - intros p G Fp. rewrite Gt, Hf, lin_psort by assumption. reflexivity.
  Qed.

  (* the polynomial of schur(n, mu, nu) is the sum of the monomials of the semistandard tableaux *)
  Theorem C37_schur_polynomial : forall pord isx n mu nu, (forall l, Permutation (pord l) l) -> partition mu -> partition nu ->
    exists f P r, schur ord n mu nu = Ok f /\ spolynomial pconst pord isx f = Ok P /\ canon P /\ semistandard ord bord tord n mu nu false = Ok r /\
      forall m, canon_mono m ->
        (in_variables false isx n m -> cardinality (fun T => In T r /\ has_weight (exponents isx n m) T) (coeff P m)) /\
        (~ in_variables false isx n m -> coeff P m = 0).
  Proof.
    intros pord isx n mu nu Hp Hm Hn. destruct (both n mu nu false Hm Hn) as (r & d & E & Nr & Ed & Gd & Lt & Sy & HN).
    destruct (schur_vec n d Gd) as (f & Ef & Wf & Kf & _ & Hf).
    destruct (poly_general pord isx n r _ (cget d) (fun _ => 0) None Hp Wf Kf Hf Nr Lt Sy HN) as (P & EP & CP & H).
    exists f, P, r. split; [unfold schur; rewrite Ed; cbn [rbind]; assumption|]. split.
      { assert (X : forall l a, rfold (fun ans mc => do p <- mpolynomial pord isx (fst mc); Ok (padd ans (pmul p (num_terms (snd mc))))) (map (fun mc : smono * Z => (fst mc, NI (snd mc))) l) a = rfold (fun ans mc => do p <- mpolynomial pord isx (fst mc); Ok (padd ans (pmul p (pconst (snd mc))))) l a).
        { induction l as [|[k c] l IH]; intro a; [reflexivity|]. cbn [map rfold fst snd num_terms]. destruct (mpolynomial pord isx k) as [p|]; cbn [rbind]; [|reflexivity]. apply IH. }
        rewrite <- EP. symmetry. apply X. }
      split; [assumption|]. split; [assumption|]. intros m C. destruct (H m C) as [H1 H2].
      assert (V : in_variables false isx n m <-> in_variables true isx n m /\ expo m 0 = 0).
      { split.
        - intro Vm. split; [intros t Ht; right; destruct (Vm t Ht) as [[X _]|X]; [discriminate|assumption]|]. destruct (Z.eq_dec (expo m 0) 0) as [Z0|Z0]; [assumption|]. destruct (Vm 0 Z0) as [[X _]|(i & Hi & X)]; [discriminate|]. apply in_seq in Hi. unfold variable in X. destruct isx; lia.
        - intros [Vm Z0] t Ht. destruct (Vm t Ht) as [[_ ->]|X]; [contradiction|right; assumption]. }
      split.
      + intro Vm. apply V in Vm. destruct Vm as [Vm Z0]. refine (counts_ext _ _ _ _ _ _ eq_refl (H1 Vm)). intro T. unfold within. intuition.
      + intro Vm. apply H2. intro X. apply Vm, V. assumption.
  Qed.

  Lemma grothendieck_general : forall pord isx n mu nu b, (forall l, Permutation (pord l) l) -> partition mu -> partition nu ->
    exists g P r, stable_grothendieck ord n mu nu b = Ok g /\ spolynomial num_terms pord isx g = Ok P /\ canon P /\ semistandard ord bord tord n mu nu true = Ok r /\
      forall m, canon_mono m ->
        (in_variables true isx n m ->
           cardinality (fun T => In T r /\ has_weight (exponents isx n m) T /\ expo m 0 = size (exponents isx n m) + size nu - size mu /\ within b (exponents isx n m) = true) (coeff P m)) /\
        (~ in_variables true isx n m -> coeff P m = 0).
  Proof.
    intros pord isx n mu nu b Hp Hm Hn. destruct (both n mu nu true Hm Hn) as (r & d & E & Nr & Ed & Gd & Lt & Sy & HN).
    destruct (groth_of_counts ord n mu nu b d Ed Gd) as (g & Eg & Wg & Kg & Hg).
    destruct (poly_general pord isx n r g (cget d) (fun k => k + zsum nu - zsum mu) b Hp Wg Kg Hg Nr Lt Sy HN) as (P & EP & CP & H).
    exists g, P, r. split; [assumption|]. split; [assumption|]. split; [assumption|]. split; [assumption|]. intros m C. destruct (H m C) as [H1 H2]. split; [exact H1|]. intro V. apply H2. intros [X _]. contradiction.
  Qed.

  (* the polynomial of stable_grothendieck(n, mu, nu) is the sum of beta^(|T| - |mu/nu|) x^T over the
     set-valued tableaux T *)
  Theorem C37_grothendieck_polynomial : forall pord isx n mu nu, (forall l, Permutation (pord l) l) -> partition mu -> partition nu ->
    exists g P r, stable_grothendieck ord n mu nu None = Ok g /\ spolynomial num_terms pord isx g = Ok P /\ canon P /\ semistandard ord bord tord n mu nu true = Ok r /\
      forall m, canon_mono m ->
        (in_variables true isx n m ->
           cardinality (fun T => In T r /\ has_weight (exponents isx n m) T /\ expo m 0 = size (exponents isx n m) - (size mu - size nu)) (coeff P m)) /\
        (~ in_variables true isx n m -> coeff P m = 0).
  Proof.
    intros pord isx n mu nu Hp Hm Hn. destruct (grothendieck_general pord isx n mu nu None Hp Hm Hn) as (g & P & r & E1 & E2 & E3 & E4 & H). exists g, P, r. split; [assumption|]. split; [assumption|]. split; [assumption|]. split; [assumption|].
    intros m C. destruct (H m C) as [H1 H2]. split; [|assumption]. intro V. refine (counts_ext _ _ _ _ _ _ eq_refl (H1 V)). intro T. cbn [within]. split; intros (X1 & X2 & X3); (split; [assumption|]; split; [assumption|]); [lia|split; [lia|reflexivity]].
  Qed.

  (* with a degree bound, exactly the terms of degree at most the bound in x_1, ..., x_n remain *)
  Theorem C53_degree_bound : forall pord isx n mu nu b, (forall l, Permutation (pord l) l) -> partition mu -> partition nu ->
    exists g P g' P', stable_grothendieck ord n mu nu None = Ok g /\ spolynomial num_terms pord isx g = Ok P /\ canon P /\
      stable_grothendieck ord n mu nu (Some b) = Ok g' /\ spolynomial num_terms pord isx g' = Ok P' /\ canon P' /\
      forall m, canon_mono m -> coeff P' m = if size (exponents isx n m) <=? b then coeff P m else 0.
  Proof.
    intros pord isx n mu nu b Hp Hm Hn. destruct (both n mu nu true Hm Hn) as (r & d & E & Nr & Ed & Gd & Lt & Sy & HN).
    destruct (groth_of_counts ord n mu nu None d Ed Gd) as (g & Eg & Wg & Kg & Hg).
    destruct (groth_of_counts ord n mu nu (Some b) d Ed Gd) as (g' & Eg' & Wg' & Kg' & Hg').
    destruct (nsym_polynomial pord isx n g (fun p => if within None p then cget d p else 0) (fun k => k + zsum nu - zsum mu) Hp Wg Kg Hg) as (P & EP & CP & H).
    destruct (nsym_polynomial pord isx n g' (fun p => if within (Some b) p then cget d p else 0) (fun k => k + zsum nu - zsum mu) Hp Wg' Kg' Hg') as (P' & EP' & CP' & H').
    exists g, P, g', P'. split; [assumption|]. split; [assumption|]. split; [assumption|]. split; [assumption|]. split; [assumption|]. split; [assumption|].
    intros m C. destruct (H m C) as [H1 H2]. destruct (H' m C) as [H1' H2']. set (e0 := exponents isx n m) in *. assert (L0 : length e0 = n) by (unfold e0, exponents; rewrite map_length, seq_length; reflexivity).
    destruct (Forall_dec (fun x => 0 <= x) (Z_le_dec 0) e0) as [F0|F0].
    - destruct (meqb m (mmul (vmon isx e0) (mvar 0 (zsum e0 + zsum nu - zsum mu)))) eqn:X.
      + apply meqb_spec in X. rewrite (H1 F0 X), (H1' F0 X). destruct (sort_arr n e0 L0 F0) as (_ & _ & Sz & _). unfold within. rewrite Sz. reflexivity.
      + rewrite H2, H2'; [destruct (_ <=? _); reflexivity| |]; intros [_ Y]; apply meqb_spec in Y; congruence.
    - rewrite H2, H2'; [destruct (_ <=? _); reflexivity| |]; intros [Y _]; contradiction.
  Qed.

  Lemma wcount_perm : forall n r r' alpha, Permutation r r' -> wcount n r alpha = wcount n r' alpha.
  Proof. intros. unfold wcount. apply zs_perm. assumption. Qed.
  Lemma same_vec : forall n (f g : nsym), nvwf f -> nvwf g -> (forall m, In m (map fst f) -> fst m = n /\ fits n (snd m)) -> (forall m, In m (map fst g) -> fst m = n /\ fits n (snd m)) ->
    (forall p G, fits n p -> nev (sg f (n, p)) G = nev (sg g (n, p)) G) -> nveq smono_eqb f g = true /\ forall k m, ncoeff (sg f k) m = ncoeff (sg g k) m.
  Proof.
    intros n f g Wf Wg Kf Kg H. assert (Q : forall k, neqv (sg f k) (sg g k)).
    { intros [k p] G. destruct (in_dec (keq_dec smono_eqb smono_eqb_eq) (k, p) (map fst f)) as [If|If].
      - destruct (Kf _ If) as [K1 K2]. cbn [fst snd] in *. subst k. apply H. assumption.
      - destruct (in_dec (keq_dec smono_eqb smono_eqb_eq) (k, p) (map fst g)) as [Ig|Ig].
        + destruct (Kg _ Ig) as [K1 K2]. cbn [fst snd] in *. subst k. apply H. assumption.
        + rewrite (nget_notin smono_eqb smono_eqb_eq f), (nget_notin smono_eqb smono_eqb_eq g) by assumption. reflexivity. }
    split; [apply (nveq_ok smono_eqb smono_eqb_eq); assumption|]. intros k m. rewrite !ncoeff_nev by (apply nget_ok, nvwf_oks; assumption). apply Q.
  Qed.

  (* the symmetry assertion of the slow path never fails, and the result is the same *)
  Theorem C37_slow_schur : forall n mu nu, partition mu -> partition nu ->
    exists f g, slow_schur ord bord tord n mu nu = Ok f /\ schur ord n mu nu = Ok g /\
      nveq smono_eqb f (map (fun mc => (fst mc, NI (snd mc))) g) = true /\ forall k m, ncoeff (nget smono_eqb f k) m = ncoeff (NI (sget g k)) m.
  Proof.
    intros n mu nu Hm Hn. destruct (both n mu nu false Hm Hn) as (r & d & E & Nr & Ed & Gd & Lt & Sy & HN).
    destruct (schur_vec n d Gd) as (g & Eg & Wg & Kg & Gg & Hg).
    destruct (slow_vectorize_ok None (fun _ => 0) (proj1 slow_none) (proj2 slow_none) n (tord r) true) as (f & Ef & Wf & Kf & Hf).
    - intros t Ht. apply Lt. eapply Permutation_in; [apply tord_perm|exact Ht].
    - intros _ alpha La. rewrite !(wcount_perm n (tord r) r) by apply tord_perm. symmetry. apply Sy; [assumption|]. apply Permutation_sym, psort_perm.
    - exists f, g. split; [unfold slow_schur; rewrite E; exact Ef|]. split; [unfold schur; rewrite Ed; exact Eg|].
      destruct (same_vec n f _ Wf Wg Kf Kg) as [Q1 Q2].
      + intros p G Fp. rewrite (Hf p G Fp), (Hg p G Fp), (HN p Fp), (wcount_perm n (tord r) r) by apply tord_perm. reflexivity.
      + split; [assumption|]. intros k m. rewrite Q2, Gg. reflexivity.
  Qed.
  Theorem C37_slow_grothendieck : forall n mu nu, partition mu -> partition nu ->
    exists f g, slow_stable_grothendieck ord bord tord n mu nu = Ok f /\ stable_grothendieck ord n mu nu None = Ok g /\
      nveq smono_eqb f g = true /\ forall k m, ncoeff (nget smono_eqb f k) m = ncoeff (nget smono_eqb g k) m.
  Proof.
    intros n mu nu Hm Hn. destruct (both n mu nu true Hm Hn) as (r & d & E & Nr & Ed & Gd & Lt & Sy & HN).
    destruct (groth_of_counts ord n mu nu None d Ed Gd) as (g & Eg & Wg & Kg & Hg).
    destruct (slow_vectorize_ok (Some beta_pow) (fun k => k) (proj1 slow_beta) (proj2 slow_beta) n (tord r) true) as (f & Ef & Wf & Kf & Hf).
    - intros t Ht. apply Lt. eapply Permutation_in; [apply tord_perm|exact Ht].
    - intros _ alpha La. rewrite !(wcount_perm n (tord r) r) by apply tord_perm. symmetry. apply Sy; [assumption|]. apply Permutation_sym, psort_perm.
    - assert (Oc : nok (NP (beta_pow (zsum nu - zsum mu)))) by apply beta_pow_wf.
      destruct (nvscale_ok smono_eqb smono_eqb_eq f _ Wf Oc) as [W2 H2]. set (f2 := nvscale smono_eqb f (NP (beta_pow (zsum nu - zsum mu)))) in *.
      exists f2, g. split; [unfold slow_stable_grothendieck; rewrite E; cbn [rbind]; rewrite Ef; reflexivity|]. split; [assumption|].
      apply (same_vec n f2 g W2 Wg); [|assumption|].
      + intros m Hin. destruct (in_dec (keq_dec smono_eqb smono_eqb_eq) m (map fst f)) as [I|I]; [apply Kf; assumption|]. exfalso. pose proof (proj1 (nget_nonzero smono_eqb smono_eqb_eq f2 m W2) Hin) as Z0. assert (Z1 : nzero (sg f2 m) = true); [|congruence].
        apply nzero_spec; [apply nget_ok, nvwf_oks; assumption|]. intro G. rewrite H2, (nget_notin smono_eqb smono_eqb_eq f) by assumption. cbn [nev]. lia.
      + intros p G Fp. rewrite H2, (Hf p _ Fp), (Hg p G Fp). cbn [within nev]. rewrite beta_pow_ev, mvar_mul, (HN p Fp), (wcount_perm n (tord r) r) by apply tord_perm. replace (zsum p + (zsum nu - zsum mu)) with (zsum p + zsum nu - zsum mu) by lia. lia.
  Qed.
End Statements.

Print Assumptions C37_symmetric.
Print Assumptions C37_schur_polynomial.
Print Assumptions C37_grothendieck_polynomial.
Print Assumptions C37_slow_schur.
Print Assumptions C37_slow_grothendieck.
Print Assumptions C53_degree_bound.

(* the polynomial of schur(2, (3, 1)) / (1) *)
Example C37_example_schur :
  partition [3; 1] /\ partition [1] /\
  (exists f, schur idl 2 [3; 1] [1] = Ok f /\
    spolynomial pconst idl true f = Ok [([(1, 2); (2, 1)], 2); ([(1, 1); (2, 2)], 2); ([(1, 3)], 1); ([(2, 3)], 1)]) /\
  (exists r, semistandard idl idl idl 2 [3; 1] [1] false = Ok r /\ length r = 6%nat).
Proof.
  split; [apply partition_desc; split; repeat (constructor; try lia)|]. split; [apply partition_desc; split; repeat (constructor; try lia)|].
  split; eexists; (split; [vm_compute; reflexivity|]); vm_compute; reflexivity.
Qed.
(* stable_grothendieck(2, (1,)) = x1 + x2 + beta*x1*x2; slow and truncated versions *)
Example C37_example_grothendieck :
  stable_grothendieck idl 2 [1] [] None = Ok [((2%nat, [1]), NP [([], 1)]); ((2%nat, [1; 1]), NP [([(0, 1)], 1)])] /\
  slow_stable_grothendieck idl idl idl 2 [1] [] = Ok [((2%nat, [1]), NP [([], 1)]); ((2%nat, [1; 1]), NP [([(0, 1)], 1)])] /\
  spolynomial num_terms idl true [((2%nat, [1; 1]), NP [([(0, 1)], 1)]); ((2%nat, [1]), NP [([], 1)])] = Ok [([(0, 1); (1, 1); (2, 1)], 1); ([(1, 1)], 1); ([(2, 1)], 1)] /\
  stable_grothendieck idl 2 [1] [] (Some 1) = Ok [((2%nat, [1]), NP [([], 1)])].
Proof. repeat split; vm_compute; reflexivity. Qed.
(* an asymmetric set of tableaux makes the assertion fail *)
Example C37_example_assertion :
  slow_vectorize 2 [[((1, 1), [2])]] None true = Err AssertionError /\
  slow_vectorize 2 [[((1, 1), [2])]] None false = Ok [] /\
  slow_schur idl idl idl 2 [1] [] = Ok [((2%nat, [1]), NI 1)].
Proof. repeat split; vm_compute; reflexivity. Qed.
