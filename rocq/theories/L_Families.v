(* The generating functions and the slow path for all kinds of semistandard tableaux at once. *)
From Coq Require Import List ZArith Lia Bool Permutation Arith.
From Verif Require Import PyBase FinSum M_Partitions S_Partitions L_Partitions L_PartBasic L_PartEnum L_Destand L_Destand2 M_Vectors L_Vectors M_Polynomials S_Polynomials L_Polynomials P_Polynomials L_PolySubst
  M_Tableaux S_Tableaux M_Semistandard S_Semistandard L_Strips2 L_Shape L_Semi L_Semi3 L_Semi4 L_Semi5 L_Count L_Count2 L_Count3 L_CountCache M_Symmetric S_Symmetric M_Expansion S_Expansion M_Slow M_Families
  L_SymPoly L_SymMul L_Kostka L_Num L_Expand1 L_Expand2 L_Expand3 L_Expand4 L_Expand5 L_Expand6 P_Symmetric P_Expansion P_Semistandard P_Count L_Sym1 L_Sym2 L_Sym3 L_Sym4 L_Sym5 L_Sym6 L_Sym11 L_Slow P_Symmetry.
Import ListNotations.
Local Open Scope Z_scope.
Local Notation sg := (nget smono_eqb).

(* T is a tableau of shape mu/nu; there is none unless nu is contained in mu *)
Definition tableau_of (c : list Z -> Z -> Z -> Prop) (prime_ok : Z -> Z -> Prop) (setvalued : bool) (n : nat) (mu nu : list Z) (T : list ((Z * Z) * list Z)) : Prop :=
  (forall i j, c nu i j -> c mu i j) /\ semistandard_filling c prime_ok setvalued (Z.of_nat n) nu mu T.

(* P is the sum of the monomials x^weight(T) over the T with property Q *)
Definition generates (isx : bool) (n : nat) (Q : tab -> Prop) (P : poly) : Prop :=
  canon P /\ forall m, canon_mono m ->
    (in_variables false isx n m -> cardinality (fun T => Q T /\ has_weight (exponents isx n m) T) (coeff P m)) /\
    (~ in_variables false isx n m -> coeff P m = 0).
(* P is the sum of beta^(|T| - k) x^weight(T) over the T with property Q, |T| at most the bound if there is one *)
Definition generates_beta (isx : bool) (n : nat) (k : Z) (bound : option Z) (Q : tab -> Prop) (P : poly) : Prop :=
  canon P /\ forall m, canon_mono m ->
    (in_variables true isx n m -> cardinality (fun T => Q T /\ has_weight (exponents isx n m) T /\
       expo m 0 = size (exponents isx n m) - k /\ match bound with Some b => size (exponents isx n m) <= b | None => True end) (coeff P m)) /\
    (~ in_variables true isx n m -> coeff P m = 0).

(* r lists the tableaux with property Q, and they are symmetric by weight *)
Definition tabpack (n : nat) (Q : tab -> Prop) (r : list tab) : Prop :=
  NoDup r /\ (forall T, In T r <-> Q T) /\
  (forall t, In t r -> forall x, In x (flat_map snd t) -> 1 <= Z.abs x <= Z.of_nat n) /\
  (forall alpha beta, length alpha = n -> Permutation alpha beta -> wcount n r alpha = wcount n r beta).
Definition dictpack (n : nat) (r : list tab) (d : cdict) : Prop := good n d /\ forall p, fits n p -> cget d p = wcount n r (padz p n).

Lemma shifted_cell_dec : forall mu nu, strict_partition mu -> strict_partition nu -> {forall i j, shifted_cell nu i j -> shifted_cell mu i j} + {~ forall i j, shifted_cell nu i j -> shifted_cell mu i j}.
Proof.
  intros mu nu Hm Hn. destruct (contains mu nu) eqn:E.
  - left. intros i j. exact (proj1 (contains_incl true mu nu Hm Hn) E (i, j)).
  - right. intro H. assert (X : contains mu nu = true) by (apply (contains_incl true mu nu Hm Hn); intros [i j]; apply H). congruence.
Qed.

Section Packs.
  Variable ord : list (list Z) -> list (list Z).
  Variable bord : list (Z * Z) -> list (Z * Z).
  Variable tord : list tab -> list tab.
  Hypothesis ord_perm : forall l, Permutation (ord l) l.
  Hypothesis bord_perm : forall l, Permutation (bord l) l.
  Hypothesis tord_perm : forall l, Permutation (tord l) l.

  Lemma pack_of : forall sh pr sv nu n mu d r, NoDup r -> (forall T, In T r <-> full sh pr sv nu (2 * Z.of_nat n) mu T) -> count_ok sh pr sv nu n mu d ->
    (forall alpha beta, length alpha = n -> Permutation alpha beta -> wcount n r alpha = wcount n r beta) ->
    forall Q : tab -> Prop, (forall T, In T r <-> Q T) -> tabpack n Q r /\ dictpack n r d.
  Proof.
    intros sh pr sv nu n mu d r Nr H [Gd Cd] Sy Q HQ.
    assert (Lt : forall t, In t r -> forall x, In x (flat_map snd t) -> 1 <= Z.abs x <= Z.of_nat n) by (intros t Ht x Hx; apply H in Ht; eapply full_letters; eassumption).
    split; [split; [assumption|]; split; [assumption|]; split; assumption|]. split; [assumption|].
    intros p [Pp Lp]. apply (counts_unique _ (fun T => In T r /\ has_weight p T)).
    - destruct (count_ok_by_weight sh pr sv nu n mu d r (conj Gd Cd) H) as (_ & _ & X). apply X; assumption.
    - refine (counts_ext _ (fun T => In T r /\ has_weight (padz p n) T) _ _ _ _ eq_refl _); [intro T; rewrite has_weight_padz; reflexivity|].
      apply wcount_cardinality; [assumption|apply padz_length; assumption|]. intros T m HT Hgt. apply (occ_above n); [apply Lt; assumption|assumption].
  Qed.
  Lemma empty_pack : forall n (Q : tab -> Prop), (forall T, ~ Q T) -> tabpack n Q [] /\ dictpack n [] [].
  Proof.
    intros n Q HQ. split; [split; [constructor|]; split; [|split; [intros t []|reflexivity]]|].
    - intro T. split; [intros []|]. intro X. destruct (HQ T X).
    - split; [split; [constructor|intros ? ? []]|reflexivity].
  Qed.

  Lemma pack_plain : forall n mu nu sv, partition mu -> partition nu -> exists r d, semistandard ord bord tord n mu nu sv = Ok r /\ count_semistandard ord n mu nu sv = Ok d /\
    tabpack n (tableau_of cell (fun _ _ => False) sv n mu nu) r /\ dictpack n r d.
  Proof.
    intros n mu nu sv Hm Hn. destruct (cell_dec mu nu Hm Hn) as [Hi|Hi].
    - assert (Hi' : forall b, dc false nu b -> dc false mu b) by (intros [i j]; apply Hi).
      destruct (semistandard_full ord bord tord ord_perm bord_perm tord_perm sv nu Hn n mu Hm Hi') as (r & E & Nr & H).
      destruct (count_semistandard_ok ord ord_perm sv nu Hn n mu Hm Hi') as (d & Ed & Cd). exists r, d. split; [assumption|]. split; [assumption|].
      eapply pack_of; try eassumption; [exact (full_symmetric sv nu n mu r Hn Hm Hi' Nr H)|].
      destruct (C34_semistandard ord bord tord ord_perm bord_perm tord_perm n mu nu sv Hm Hn Hi) as (r' & E' & _ & H'). assert (r' = r) by congruence. subst r'.
      intro T. rewrite H'. unfold tableau_of. tauto.
    - exists [], []. split; [apply C34_not_contained; assumption|]. split; [apply C35_not_contained; assumption|]. apply empty_pack. intros T [X _]. contradiction.
  Qed.
  Lemma pack_marked : forall n mu nu sv, partition mu -> partition nu -> exists r d, semistandard_marked ord bord tord n mu nu sv = Ok r /\ count_semistandard_marked ord n mu nu sv = Ok d /\
    tabpack n (tableau_of cell (fun _ _ => True) sv n mu nu) r /\ dictpack n r d.
  Proof.
    intros n mu nu sv Hm Hn. destruct (cell_dec mu nu Hm Hn) as [Hi|Hi].
    - assert (Hi' : forall b, dc false nu b -> dc false mu b) by (intros [i j]; apply Hi).
      destruct (semistandard_marked_full ord bord tord ord_perm bord_perm tord_perm sv nu Hn n mu Hm Hi') as (r & E & Nr & H).
      destruct (count_semistandard_marked_ok ord ord_perm sv nu Hn n mu Hm Hi') as (d & Ed & Cd). exists r, d. split; [assumption|]. split; [assumption|].
      eapply pack_of; try eassumption; [exact (marked_symmetric sv nu n mu r Hn Hm Hi' Nr H)|].
      destruct (C51_marked ord bord tord ord_perm bord_perm tord_perm n mu nu sv Hm Hn Hi) as (r' & E' & _ & H'). assert (r' = r) by congruence. subst r'.
      intro T. rewrite H'. unfold tableau_of. tauto.
    - exists [], []. split; [apply C34_not_contained; assumption|]. split; [apply C35_not_contained; assumption|]. apply empty_pack. intros T [X _]. contradiction.
  Qed.
  Lemma pack_shifted : forall n mu nu dp sv, strict_partition mu -> strict_partition nu -> exists r d,
    semistandard_shifted_marked ord bord tord n mu nu dp sv = Ok r /\ count_semistandard_shifted_marked ord n mu nu dp sv = Ok d /\
    tabpack n (tableau_of shifted_cell (fun i j => dp = true \/ i <> j) sv n mu nu) r /\ dictpack n r d.
  Proof.
    intros n mu nu dp sv Hm Hn. destruct (shifted_cell_dec mu nu Hm Hn) as [Hi|Hi].
    - assert (Hi' : forall b, dc true nu b -> dc true mu b) by (intros [i j]; apply Hi).
      destruct (semistandard_shifted_marked_full ord bord tord ord_perm bord_perm tord_perm dp sv nu Hn n mu Hm Hi') as (r & E & Nr & H).
      destruct (count_semistandard_shifted_marked_ok ord ord_perm dp sv nu Hn n mu Hm Hi') as (d & Ed & Cd). exists r, d. split; [assumption|]. split; [assumption|].
      eapply pack_of; try eassumption; [exact (shifted_symmetric dp sv nu n mu r Hn Hm Hi' Nr H)|].
      destruct (C51_shifted_marked ord bord tord ord_perm bord_perm tord_perm n mu nu dp sv Hm Hn Hi) as (r' & E' & _ & H'). assert (r' = r) by congruence. subst r'.
      intro T. rewrite H'. unfold tableau_of. tauto.
    - exists [], []. split; [apply C51_shifted_not_contained; assumption|]. split; [apply C36_not_contained; assumption|]. apply empty_pack. intros T [X _]. contradiction.
  Qed.
End Packs.

Lemma symmetric_of_pack : forall n Q r alpha beta, tabpack n Q r -> length alpha = n -> Permutation alpha beta ->
  exists N, cardinality (fun T => Q T /\ has_weight alpha T) N /\ cardinality (fun T => Q T /\ has_weight beta T) N.
Proof.
  intros n Q r alpha beta (Nr & HQ & Lt & Sy) La P. exists (wcount n r alpha).
  assert (O : forall T m, In T r -> Z.of_nat n < m -> occurrences m T = 0) by (intros T m HT Hgt; apply (occ_above n); [apply Lt; assumption|assumption]).
  split.
  - refine (counts_ext _ (fun T => In T r /\ has_weight alpha T) _ _ _ _ eq_refl _); [intro T; rewrite HQ; reflexivity|]. apply wcount_cardinality; assumption.
  - rewrite (Sy alpha beta La P). refine (counts_ext _ (fun T => In T r /\ has_weight beta T) _ _ _ _ eq_refl _); [intro T; rewrite HQ; reflexivity|].
    apply wcount_cardinality; [assumption|rewrite <- La; symmetry; apply Permutation_length; assumption|assumption].
Qed.

Lemma plain_generates : forall pord isx n Q r d, (forall l, Permutation (pord l) l) -> tabpack n Q r -> dictpack n r d ->
  exists f P, vectorize n d = Ok f /\ spolynomial pconst pord isx f = Ok P /\ generates isx n Q P.
Proof.
  intros pord isx n Q r d Hp (Nr & HQ & Lt & Sy) (Gd & HN).
  destruct (schur_vec n d Gd) as (f & Ef & Wf & Kf & _ & Hf).
  destruct (poly_general pord isx n r _ (cget d) (fun _ => 0) None Hp Wf Kf Hf Nr Lt Sy HN) as (P & EP & CP & H).
  exists f, P. split; [assumption|]. split.
  { assert (X : forall l a, rfold (fun ans mc => do p <- mpolynomial pord isx (fst mc); Ok (padd ans (pmul p (num_terms (snd mc))))) (map (fun mc : smono * Z => (fst mc, NI (snd mc))) l) a = rfold (fun ans mc => do p <- mpolynomial pord isx (fst mc); Ok (padd ans (pmul p (pconst (snd mc))))) l a).
    { induction l as [|[k c] l IH]; intro a; [reflexivity|]. cbn [map rfold fst snd num_terms]. destruct (mpolynomial pord isx k) as [p|]; cbn [rbind]; [|reflexivity]. apply IH. }
    rewrite <- EP. symmetry. apply X. }
  split; [assumption|]. intros m C. destruct (H m C) as [H1 H2].
  assert (V : in_variables false isx n m <-> in_variables true isx n m /\ expo m 0 = 0).
  { split.
    - intro Vm. split; [intros t Ht; right; destruct (Vm t Ht) as [[X _]|X]; [discriminate|assumption]|]. destruct (Z.eq_dec (expo m 0) 0) as [Z0|Z0]; [assumption|]. destruct (Vm 0 Z0) as [[X _]|(i & Hi & X)]; [discriminate|]. apply in_seq in Hi. unfold variable in X. destruct isx; lia.
    - intros [Vm Z0] t Ht. destruct (Vm t Ht) as [[_ ->]|X]; [contradiction|right; assumption]. }
  split.
  - intro Vm. apply V in Vm. destruct Vm as [Vm Z0]. refine (counts_ext _ _ _ _ _ _ eq_refl (H1 Vm)). intro T. rewrite HQ. unfold within. intuition.
  - intro Vm. apply H2. intro X. apply Vm, V. assumption.
Qed.

(* a symmetric polynomial whose coefficients are counts times powers of beta *)
Definition beta_counts (n : nat) (k : Z) (b : option Z) (r : list tab) (g : nsym) : Prop :=
  nvwf g /\ (forall m, In m (map fst g) -> fst m = n /\ fits n (snd m)) /\
  forall p G, fits n p -> nev (sg g (n, p)) G = (if within b p then wcount n r (padz p n) else 0) * G (mvar 0 (zsum p - k)).

Lemma beta_generates : forall pord isx n k b Q r g, (forall l, Permutation (pord l) l) -> tabpack n Q r -> beta_counts n k b r g ->
  exists P, spolynomial num_terms pord isx g = Ok P /\ generates_beta isx n k b Q P.
Proof.
  intros pord isx n k b Q r g Hp (Nr & HQ & Lt & Sy) (Wg & Kg & Hg).
  destruct (poly_general pord isx n r g (fun p => wcount n r (padz p n)) (fun j => j - k) b Hp Wg Kg Hg Nr Lt Sy ltac:(reflexivity)) as (P & EP & CP & H).
  exists P. split; [assumption|]. split; [assumption|]. intros m C. destruct (H m C) as [H1 H2]. split; [|intro V; apply H2; intros [X _]; contradiction].
  intro V. refine (counts_ext _ _ _ _ _ _ eq_refl (H1 V)). intro T. rewrite HQ. unfold within. destruct b as [b|]; [rewrite Z.leb_le|]; intuition.
Qed.
Lemma dict_beta_counts : forall n mu nu b r d, dictpack n r d -> exists g, beta_vectorize n d mu nu b = Ok g /\ beta_counts n (zsum mu - zsum nu) b r g.
Proof.
  intros n mu nu b r d (Gd & HN). destruct (groth_of_dict n mu nu b d Gd) as (f & g & V & Eg & Wg & Kg & Hg). exists g. split; [unfold beta_vectorize; rewrite V, Eg; reflexivity|].
  split; [assumption|]. split; [assumption|]. intros p G Fp. rewrite (Hg p G Fp), (HN p Fp). replace (zsum p + zsum nu - zsum mu) with (zsum p - (zsum mu - zsum nu)) by lia. reflexivity.
Qed.

Lemma plain_slow : forall (tord : list tab -> list tab) n Q r d, (forall l, Permutation (tord l) l) -> tabpack n Q r -> dictpack n r d ->
  exists f g, slow_vectorize n (tord r) None true = Ok f /\ vectorize n d = Ok g /\
    nveq smono_eqb f (map (fun mc => (fst mc, NI (snd mc))) g) = true /\ forall k m, ncoeff (sg f k) m = ncoeff (NI (sget g k)) m.
Proof.
  intros tord n Q r d Ht (Nr & HQ & Lt & Sy) (Gd & HN). destruct (schur_vec n d Gd) as (g & Eg & Wg & Kg & Gg & Hg).
  destruct (slow_vectorize_ok None (fun _ => 0) (proj1 slow_none) (proj2 slow_none) n (tord r) true) as (f & Ef & Wf & Kf & Hf).
  - intros t Hin. apply Lt. eapply Permutation_in; [apply Ht|exact Hin].
  - intros _ alpha La. rewrite !(wcount_perm n (tord r) r) by apply Ht. symmetry. apply Sy; [assumption|]. apply Permutation_sym, psort_perm.
  - exists f, g. split; [assumption|]. split; [assumption|]. destruct (same_vec n f _ Wf Wg Kf Kg) as [Q1 Q2].
    + intros p G Fp. rewrite (Hf p G Fp), (Hg p G Fp), (HN p Fp), (wcount_perm n (tord r) r) by apply Ht. reflexivity.
    + split; [assumption|]. intros k m. rewrite Q2, Gg. reflexivity.
Qed.
Lemma beta_slow : forall (tord : list tab -> list tab) n mu nu Q r g, (forall l, Permutation (tord l) l) -> tabpack n Q r -> beta_counts n (zsum mu - zsum nu) None r g ->
  exists f, slow_vectorize n (tord r) (Some beta_pow) true = Ok f /\
    nveq smono_eqb (nvscale smono_eqb f (NP (beta_pow (zsum nu - zsum mu)))) g = true /\
    forall k m, ncoeff (sg (nvscale smono_eqb f (NP (beta_pow (zsum nu - zsum mu)))) k) m = ncoeff (sg g k) m.
Proof.
  intros tord n mu nu Q r g Ht (Nr & HQ & Lt & Sy) (Wg & Kg & Hg).
  destruct (slow_vectorize_ok (Some beta_pow) (fun k => k) (proj1 slow_beta) (proj2 slow_beta) n (tord r) true) as (f & Ef & Wf & Kf & Hf).
  - intros t Hin. apply Lt. eapply Permutation_in; [apply Ht|exact Hin].
  - intros _ alpha La. rewrite !(wcount_perm n (tord r) r) by apply Ht. symmetry. apply Sy; [assumption|]. apply Permutation_sym, psort_perm.
  - exists f. split; [assumption|]. assert (Oc : nok (NP (beta_pow (zsum nu - zsum mu)))) by apply beta_pow_wf.
    destruct (nvscale_ok smono_eqb smono_eqb_eq f _ Wf Oc) as [W2 H2]. set (f2 := nvscale smono_eqb f (NP (beta_pow (zsum nu - zsum mu)))) in *.
    apply (same_vec n f2 g W2 Wg); [|assumption|].
    + intros m Hin. destruct (in_dec (keq_dec smono_eqb smono_eqb_eq) m (map fst f)) as [I|I]; [apply Kf; assumption|]. exfalso. pose proof (proj1 (nget_nonzero smono_eqb smono_eqb_eq f2 m W2) Hin) as Z0. assert (Z1 : nzero (sg f2 m) = true); [|congruence].
      apply nzero_spec; [apply nget_ok, nvwf_oks; assumption|]. intro G. rewrite H2, (nget_notin smono_eqb smono_eqb_eq f) by assumption. cbn [nev]. lia.
    + intros p G Fp. rewrite H2, (Hf p _ Fp), (Hg p G Fp). cbn [within nev]. rewrite beta_pow_ev, mvar_mul, (wcount_perm n (tord r) r) by apply Ht. replace (zsum p + (zsum nu - zsum mu)) with (zsum p - (zsum mu - zsum nu)) by lia. lia.
Qed.
