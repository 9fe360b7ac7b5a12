(* C55-C60: the S, P, Q families, their K-theoretic versions, doublebar combinations and the sign of
   beta; the slow path for all of them.
   The parameters ord, bord, tord, pord are the unspecified iteration orders of Python sets. *)
From Coq Require Import List ZArith Lia Bool Permutation Arith.
From Verif Require Import PyBase FinSum M_Partitions S_Partitions L_Partitions L_PartBasic L_PartEnum P_Partitions L_Destand L_Destand2 M_Vectors L_Vectors M_Polynomials S_Polynomials L_Polynomials P_Polynomials L_PolySubst
  M_Tableaux S_Tableaux L_Tableaux S_Strips M_Semistandard S_Semistandard L_Strips2 L_Shape L_Semi L_Semi3 L_Semi4 L_Semi5 L_Count L_Count2 L_Count3 L_CountCache M_Symmetric S_Symmetric M_Expansion S_Expansion M_Slow M_Families
  L_SymPoly L_SymMul L_Growth L_Kostka L_Num L_Expand1 L_Expand2 L_Expand3 L_Expand4 L_Expand5 L_Expand6 P_Symmetric P_Expansion P_Semistandard P_Count L_Sym1 L_Sym2 L_Sym3 L_Sym4 L_Sym5 L_Sym6 L_Slow P_Symmetry L_Families L_Families2.
Import ListNotations.
Local Open Scope Z_scope.
Local Notation sg := (nget smono_eqb).

(* where primed letters may stand *)
Definition nowhere (i j : Z) : Prop := False.
Definition anywhere (i j : Z) : Prop := True.
Definition off_diagonal (i j : Z) : Prop := i <> j.
(* kappa is nu without some of its corners *)
Definition corners_removed (nu kappa : list Z) : Prop :=
  partition kappa /\ included kappa nu /\ (forall i j, cell nu i j -> ~ cell kappa i j -> corner_cell nu i j).
Definition shifted_corners_removed (nu kappa : list Z) : Prop :=
  strict_partition kappa /\ (forall i j, shifted_cell kappa i j -> shifted_cell nu i j) /\
  (forall i j, shifted_cell nu i j -> ~ shifted_cell kappa i j -> shifted_corner_cell nu i j).

Lemma tabpack_ext : forall n (Q Q' : tab -> Prop) r, (forall T, Q T <-> Q' T) -> tabpack n Q r -> tabpack n Q' r.
Proof. intros n Q Q' r H (A1 & A2 & A3). split; [assumption|]. split; [|assumption]. intro T. rewrite A2. apply H. Qed.
Lemma tableau_ext : forall c p q sv n mu nu T, (forall i j, p i j <-> q i j) -> (tableau_of c p sv n mu nu T <-> tableau_of c q sv n mu nu T).
Proof. intros c p q sv n mu nu T H. unfold tableau_of. rewrite (filling_ext c p q sv (Z.of_nat n) nu mu T H). reflexivity. Qed.

Section Slow.
  Variable ord : list (list Z) -> list (list Z).
  Variable bord : list (Z * Z) -> list (Z * Z).
  Variable tord : list tab -> list tab.
  Hypothesis ord_perm : forall l, Permutation (ord l) l.
  Hypothesis bord_perm : forall l, Permutation (bord l) l.
  Hypothesis tord_perm : forall l, Permutation (tord l) l.

  Definition pprime (dp : bool) : Z -> Z -> Prop := if dp then anywhere else off_diagonal.
  Lemma pack_shifted' : forall n mu nu dp sv, strict_partition mu -> strict_partition nu -> exists r d,
    semistandard_shifted_marked ord bord tord n mu nu dp sv = Ok r /\ count_semistandard_shifted_marked ord n mu nu dp sv = Ok d /\
    tabpack n (tableau_of shifted_cell (pprime dp) sv n mu nu) r /\ dictpack n r d.
  Proof.
    intros n mu nu dp sv Hm Hn. destruct (pack_shifted ord bord tord ord_perm bord_perm tord_perm n mu nu dp sv Hm Hn) as (r & d & E1 & E2 & T & D). exists r, d. split; [assumption|]. split; [assumption|]. split; [|assumption].
    eapply tabpack_ext; [|exact T]. intro t. apply tableau_ext. intros i j. unfold pprime, anywhere, off_diagonal. destruct dp; intuition discriminate.
  Qed.

  Lemma counts_s : forall n mu nu b, partition mu -> partition nu -> exists r g, stable_grothendieck_s ord n mu nu b = Ok g /\
    tabpack n (tableau_of cell anywhere true n mu nu) r /\ beta_counts n (zsum mu - zsum nu) b r g /\ semistandard_marked ord bord tord n mu nu true = Ok r.
  Proof.
    intros n mu nu b Hm Hn. destruct (pack_marked ord bord tord ord_perm bord_perm tord_perm n mu nu true Hm Hn) as (r & d & Er & Ed & T & D).
    destruct (dict_beta_counts n mu nu b r d D) as (g & Eg & B). exists r, g. split; [unfold stable_grothendieck_s; rewrite Ed; exact Eg|]. split; [assumption|]. split; assumption.
  Qed.
  Lemma counts_q : forall n mu nu b, strict_partition mu -> strict_partition nu -> exists r g, stable_grothendieck_q ord n mu nu b = Ok g /\
    tabpack n (tableau_of shifted_cell anywhere true n mu nu) r /\ beta_counts n (zsum mu - zsum nu) b r g /\ semistandard_shifted_marked ord bord tord n mu nu true true = Ok r.
  Proof.
    intros n mu nu b Hm Hn. destruct (pack_shifted' n mu nu true true Hm Hn) as (r & d & Er & Ed & T & D).
    destruct (dict_beta_counts n mu nu b r d D) as (g & Eg & B). exists r, g. split; [unfold stable_grothendieck_q; rewrite Ed; exact Eg|]. split; [assumption|]. split; assumption.
  Qed.
  Lemma counts_p : forall n mu nu b, strict_partition mu -> strict_partition nu -> exists r g, stable_grothendieck_p ord n mu nu b = Ok g /\
    tabpack n (tableau_of shifted_cell off_diagonal true n mu nu) r /\ beta_counts n (zsum mu - zsum nu) b r g /\ semistandard_shifted_marked ord bord tord n mu nu false true = Ok r.
  Proof.
    intros n mu nu b Hm Hn. destruct (pack_shifted' n mu nu false true Hm Hn) as (r & d & Er & Ed & T & D).
    destruct (dict_beta_counts n mu nu b r d D) as (g & Eg & B). exists r, g. split; [unfold stable_grothendieck_p; rewrite Ed; exact Eg|]. split; [assumption|]. split; assumption.
  Qed.
  Lemma counts_g : forall n mu nu b, partition mu -> partition nu -> exists r g, stable_grothendieck ord n mu nu b = Ok g /\
    tabpack n (tableau_of cell nowhere true n mu nu) r /\ beta_counts n (zsum mu - zsum nu) b r g.
  Proof.
    intros n mu nu b Hm Hn. destruct (pack_plain ord bord tord ord_perm bord_perm tord_perm n mu nu true Hm Hn) as (r & d & Er & Ed & T & D).
    destruct (dict_beta_counts n mu nu b r d D) as (g & Eg & B). exists r, g. split; [unfold stable_grothendieck; rewrite Ed; exact Eg|]. split; assumption.
  Qed.

  (* C57: the slow path *)
  Theorem C57_slow_schur_s : forall n mu nu, partition mu -> partition nu ->
    exists f g, slow_schur_s ord bord tord n mu nu = Ok f /\ schur_s ord n mu nu = Ok g /\
      nveq smono_eqb f (map (fun mc => (fst mc, NI (snd mc))) g) = true /\ forall k m, ncoeff (nget smono_eqb f k) m = ncoeff (NI (sget g k)) m.
  Proof.
    intros n mu nu Hm Hn. destruct (pack_marked ord bord tord ord_perm bord_perm tord_perm n mu nu false Hm Hn) as (r & d & Er & Ed & T & D).
    unfold slow_schur_s, schur_s. rewrite Er, Ed. exact (plain_slow tord n _ r d tord_perm T D).
  Qed.
  Theorem C57_slow_schur_q : forall n mu nu, strict_partition mu -> strict_partition nu ->
    exists f g, slow_schur_q ord bord tord n mu nu = Ok f /\ schur_q ord n mu nu = Ok g /\
      nveq smono_eqb f (map (fun mc => (fst mc, NI (snd mc))) g) = true /\ forall k m, ncoeff (nget smono_eqb f k) m = ncoeff (NI (sget g k)) m.
  Proof.
    intros n mu nu Hm Hn. destruct (pack_shifted' n mu nu true false Hm Hn) as (r & d & Er & Ed & T & D).
    unfold slow_schur_q, schur_q. rewrite Er, Ed. exact (plain_slow tord n _ r d tord_perm T D).
  Qed.
  Theorem C57_slow_schur_p : forall n mu nu, strict_partition mu -> strict_partition nu ->
    exists f g, slow_schur_p ord bord tord n mu nu = Ok f /\ schur_p ord n mu nu = Ok g /\
      nveq smono_eqb f (map (fun mc => (fst mc, NI (snd mc))) g) = true /\ forall k m, ncoeff (nget smono_eqb f k) m = ncoeff (NI (sget g k)) m.
  Proof.
    intros n mu nu Hm Hn. destruct (pack_shifted' n mu nu false false Hm Hn) as (r & d & Er & Ed & T & D).
    unfold slow_schur_p, schur_p. rewrite Er, Ed. exact (plain_slow tord n _ r d tord_perm T D).
  Qed.
  Theorem C57_slow_grothendieck_s : forall n mu nu, partition mu -> partition nu ->
    exists f g, slow_stable_grothendieck_s ord bord tord n mu nu = Ok f /\ stable_grothendieck_s ord n mu nu None = Ok g /\
      nveq smono_eqb f g = true /\ forall k m, ncoeff (nget smono_eqb f k) m = ncoeff (nget smono_eqb g k) m.
  Proof.
    intros n mu nu Hm Hn. destruct (counts_s n mu nu None Hm Hn) as (r & g & Eg & T & B & Er).
    destruct (beta_slow tord n mu nu _ r g tord_perm T B) as (f & Ef & H). eexists. exists g. split; [unfold slow_stable_grothendieck_s; rewrite Er; cbn [rbind]; rewrite Ef; reflexivity|]. split; assumption.
  Qed.
  Theorem C57_slow_grothendieck_q : forall n mu nu, strict_partition mu -> strict_partition nu ->
    exists f g, slow_stable_grothendieck_q ord bord tord n mu nu = Ok f /\ stable_grothendieck_q ord n mu nu None = Ok g /\
      nveq smono_eqb f g = true /\ forall k m, ncoeff (nget smono_eqb f k) m = ncoeff (nget smono_eqb g k) m.
  Proof.
    intros n mu nu Hm Hn. destruct (counts_q n mu nu None Hm Hn) as (r & g & Eg & T & B & Er).
    destruct (beta_slow tord n mu nu _ r g tord_perm T B) as (f & Ef & H). eexists. exists g. split; [unfold slow_stable_grothendieck_q; rewrite Er; cbn [rbind]; rewrite Ef; reflexivity|]. split; assumption.
  Qed.
  Theorem C57_slow_grothendieck_p : forall n mu nu, strict_partition mu -> strict_partition nu ->
    exists f g, slow_stable_grothendieck_p ord bord tord n mu nu = Ok f /\ stable_grothendieck_p ord n mu nu None = Ok g /\
      nveq smono_eqb f g = true /\ forall k m, ncoeff (nget smono_eqb f k) m = ncoeff (nget smono_eqb g k) m.
  Proof.
    intros n mu nu Hm Hn. destruct (counts_p n mu nu None Hm Hn) as (r & g & Eg & T & B & Er).
    destruct (beta_slow tord n mu nu _ r g tord_perm T B) as (f & Ef & H). eexists. exists g. split; [unfold slow_stable_grothendieck_p; rewrite Er; cbn [rbind]; rewrite Ef; reflexivity|]. split; assumption.
  Qed.

End Slow.

Lemma idl_perm : forall A (l : list A), Permutation (idl l) l.
Proof. reflexivity. Qed.
Arguments idl_perm {A} l.

  (* C58: numbers of tableaux by weight *)
Theorem C58_marked_symmetric : forall n mu nu setvalued, partition mu -> partition nu ->
    forall alpha beta, length alpha = n -> Permutation alpha beta -> exists N,
      cardinality (fun T => tableau_of cell anywhere setvalued n mu nu T /\ has_weight alpha T) N /\
      cardinality (fun T => tableau_of cell anywhere setvalued n mu nu T /\ has_weight beta T) N.
Proof.
    intros n mu nu sv Hm Hn alpha beta La P. destruct (pack_marked idl idl idl idl_perm idl_perm idl_perm n mu nu sv Hm Hn) as (r & d & _ & _ & T & _). exact (symmetric_of_pack n _ r alpha beta T La P).
Qed.
Theorem C58_shifted_marked_symmetric : forall n mu nu setvalued (diagonal_primes : bool), strict_partition mu -> strict_partition nu ->
    forall alpha beta, length alpha = n -> Permutation alpha beta -> exists N,
      cardinality (fun T => tableau_of shifted_cell (if diagonal_primes then anywhere else off_diagonal) setvalued n mu nu T /\ has_weight alpha T) N /\
      cardinality (fun T => tableau_of shifted_cell (if diagonal_primes then anywhere else off_diagonal) setvalued n mu nu T /\ has_weight beta T) N.
Proof.
    intros n mu nu sv dp Hm Hn alpha beta La P. destruct (pack_shifted' idl idl idl idl_perm idl_perm idl_perm n mu nu dp sv Hm Hn) as (r & d & _ & _ & T & _). exact (symmetric_of_pack n _ r alpha beta T La P).
Qed.


Section Statements.
  Variable ord : list (list Z) -> list (list Z).
  Hypothesis ord_perm : forall l, Permutation (ord l) l.

  (* C55: the polynomials of schur_s, schur_q, schur_p *)
  Theorem C55_schur_s : forall pord isx n mu nu, (forall l, Permutation (pord l) l) -> partition mu -> partition nu ->
    exists f P, schur_s ord n mu nu = Ok f /\ spolynomial pconst pord isx f = Ok P /\ generates isx n (tableau_of cell anywhere false n mu nu) P.
  Proof.
    intros pord isx n mu nu Hp Hm Hn. destruct (pack_marked ord idl idl ord_perm idl_perm idl_perm n mu nu false Hm Hn) as (r & d & _ & Ed & T & D).
    unfold schur_s. rewrite Ed. exact (plain_generates pord isx n _ r d Hp T D).
  Qed.
  Theorem C55_schur_q : forall pord isx n mu nu, (forall l, Permutation (pord l) l) -> strict_partition mu -> strict_partition nu ->
    exists f P, schur_q ord n mu nu = Ok f /\ spolynomial pconst pord isx f = Ok P /\ generates isx n (tableau_of shifted_cell anywhere false n mu nu) P.
  Proof.
    intros pord isx n mu nu Hp Hm Hn. destruct (pack_shifted' ord idl idl ord_perm idl_perm idl_perm n mu nu true false Hm Hn) as (r & d & _ & Ed & T & D).
    unfold schur_q. rewrite Ed. exact (plain_generates pord isx n _ r d Hp T D).
  Qed.
  Theorem C55_schur_p : forall pord isx n mu nu, (forall l, Permutation (pord l) l) -> strict_partition mu -> strict_partition nu ->
    exists f P, schur_p ord n mu nu = Ok f /\ spolynomial pconst pord isx f = Ok P /\ generates isx n (tableau_of shifted_cell off_diagonal false n mu nu) P.
  Proof.
    intros pord isx n mu nu Hp Hm Hn. destruct (pack_shifted' ord idl idl ord_perm idl_perm idl_perm n mu nu false false Hm Hn) as (r & d & _ & Ed & T & D).
    unfold schur_p. rewrite Ed. exact (plain_generates pord isx n _ r d Hp T D).
  Qed.

  (* C56: the polynomials of stable_grothendieck_s, _q, _p, with an optional degree bound *)
  Theorem C56_stable_grothendieck_s : forall pord isx n mu nu bound, (forall l, Permutation (pord l) l) -> partition mu -> partition nu ->
    exists g P, stable_grothendieck_s ord n mu nu bound = Ok g /\ spolynomial num_terms pord isx g = Ok P /\
      generates_beta isx n (size mu - size nu) bound (tableau_of cell anywhere true n mu nu) P.
  Proof.
    intros pord isx n mu nu b Hp Hm Hn. destruct (counts_s ord idl idl ord_perm idl_perm idl_perm n mu nu b Hm Hn) as (r & g & Eg & T & B & _). destruct (beta_generates pord isx n _ b _ r g Hp T B) as (P & E & H). exists g, P. split; [assumption|]. split; assumption.
  Qed.
  Theorem C56_stable_grothendieck_q : forall pord isx n mu nu bound, (forall l, Permutation (pord l) l) -> strict_partition mu -> strict_partition nu ->
    exists g P, stable_grothendieck_q ord n mu nu bound = Ok g /\ spolynomial num_terms pord isx g = Ok P /\
      generates_beta isx n (size mu - size nu) bound (tableau_of shifted_cell anywhere true n mu nu) P.
  Proof.
    intros pord isx n mu nu b Hp Hm Hn. destruct (counts_q ord idl idl ord_perm idl_perm idl_perm n mu nu b Hm Hn) as (r & g & Eg & T & B & _). destruct (beta_generates pord isx n _ b _ r g Hp T B) as (P & E & H). exists g, P. split; [assumption|]. split; assumption.
  Qed.
  Theorem C56_stable_grothendieck_p : forall pord isx n mu nu bound, (forall l, Permutation (pord l) l) -> strict_partition mu -> strict_partition nu ->
    exists g P, stable_grothendieck_p ord n mu nu bound = Ok g /\ spolynomial num_terms pord isx g = Ok P /\
      generates_beta isx n (size mu - size nu) bound (tableau_of shifted_cell off_diagonal true n mu nu) P.
  Proof.
    intros pord isx n mu nu b Hp Hm Hn. destruct (counts_p ord idl idl ord_perm idl_perm idl_perm n mu nu b Hm Hn) as (r & g & Eg & T & B & _). destruct (beta_generates pord isx n _ b _ r g Hp T B) as (P & E & H). exists g, P. split; [assumption|]. split; assumption.
  Qed.

  (* C59: the doublebar combinations *)
  Lemma skew_determined : forall (sh : bool) pr sv n mu x y T, part_b sh mu -> part_b sh x -> part_b sh y ->
    tableau_of (if sh then shifted_cell else cell) pr sv n mu x T -> tableau_of (if sh then shifted_cell else cell) pr sv n mu y T -> x = y.
  Proof.
    intros sh pr sv n mu x y T Hm Hx Hy (Ix & _ & Dx & _) (Iy & _ & Dy & _). apply (part_ext sh x y Hx Hy). intros [i j].
    assert (E : in_skew (if sh then shifted_cell else cell) mu x i j <-> in_skew (if sh then shifted_cell else cell) mu y i j) by (rewrite <- Dx, <- Dy; reflexivity).
    assert (Dec : forall l, {(if sh then shifted_cell else cell) l i j} + {~ (if sh then shifted_cell else cell) l i j}).
    { intro l. destruct sh; unfold shifted_cell, cell; destruct (Z_le_dec 1 i), (Z_le_dec i j), (Z_le_dec 1 j), (Z_le_dec j (i - 1 + row l (Z.to_nat (i - 1)))), (Z_le_dec j (row l (Z.to_nat (i - 1)))); (left; lia) || (right; lia). }
    specialize (Ix i j). specialize (Iy i j). unfold in_skew in E. unfold dc. destruct (Dec x), (Dec y), (Dec mu); destruct sh; cbn [fst snd]; tauto.
  Qed.
  Lemma doublebar_general : forall (sh : bool) pr pord isx n mu nu b xs (family : list Z -> res nsym) code, (forall l, Permutation (pord l) l) -> part_b sh mu -> part_b sh nu ->
    NoDup xs -> (forall x, In x xs -> part_b sh x) ->
    (forall x, part_b sh x -> exists r g, family x = Ok g /\ tabpack n (tableau_of (if sh then shifted_cell else cell) pr true n mu x) r /\ beta_counts n (zsum mu - zsum x) b r g) ->
    code = (if contains mu nu then doublebar_loop family nu (map Some xs) else Ok []) ->
    exists g P, code = Ok g /\ spolynomial num_terms pord isx g = Ok P /\
      generates_beta isx n (size mu - size nu) b (fun T => (forall i j, (if sh then shifted_cell else cell) nu i j -> (if sh then shifted_cell else cell) mu i j) /\
        exists x, In x xs /\ tableau_of (if sh then shifted_cell else cell) pr true n mu x T) P.
  Proof.
    intros sh pr pord isx n mu nu b xs family code Hp Hm Hn Nx Px HF ->.
    assert (Ci : contains mu nu = true <-> forall i j, (if sh then shifted_cell else cell) nu i j -> (if sh then shifted_cell else cell) mu i j).
    { pose proof (contains_incl sh mu nu Hm Hn) as C. rewrite C. split; [intros H i j; specialize (H (i, j)); destruct sh; exact H|intros H [i j]; specialize (H i j); destruct sh; exact H]. }
    destruct (contains mu nu) eqn:E.
    - destruct (doublebar_ok n family (fun x => tableau_of (if sh then shifted_cell else cell) pr true n mu x) mu nu b xs Nx) as (r & g & T & Eg & B).
      + intros x y T Hx Hy Tx Ty. eapply (skew_determined sh); [exact Hm|apply Px; exact Hx|apply Px; exact Hy|exact Tx|exact Ty].
      + intros x Hx. destruct (HF x (Px x Hx)) as (r & g & H1 & H2 & H3). exists r, g. split; [assumption|]. split; assumption.
      + destruct (beta_generates pord isx n _ b _ r g Hp T B) as (P & EP & G). exists g, P. split; [assumption|]. split; [assumption|].
        assert (Tt : tabpack n (fun T => (forall i j, (if sh then shifted_cell else cell) nu i j -> (if sh then shifted_cell else cell) mu i j) /\ exists x, In x xs /\ tableau_of (if sh then shifted_cell else cell) pr true n mu x T) r).
        { eapply tabpack_ext; [|exact T]. intro t. split; [intro H; split; [apply Ci; reflexivity|assumption]|intros [_ H]; assumption]. }
        destruct (beta_generates pord isx n _ b _ r g Hp Tt B) as (P' & EP' & G'). assert (P' = P) by congruence. subst P'. exact G'.
    - assert (Nc : ~ forall i j, (if sh then shifted_cell else cell) nu i j -> (if sh then shifted_cell else cell) mu i j) by (intro H; apply Ci in H; discriminate).
      destruct (empty_pack n (fun T => (forall i j, (if sh then shifted_cell else cell) nu i j -> (if sh then shifted_cell else cell) mu i j) /\ exists x, In x xs /\ tableau_of (if sh then shifted_cell else cell) pr true n mu x T)) as [T _]; [intros T [X _]; contradiction|].
      assert (B : beta_counts n (zsum mu - zsum nu) b [] []).
      { split; [split; constructor|]. split; [intros m []|]. intros p G Fp. rewrite nget_nil. cbn [nev]. destruct (within b p); reflexivity. }
      destruct (beta_generates pord isx n _ b _ [] [] Hp T B) as (P & EP & G). exists [], P. split; [reflexivity|]. split; assumption.
  Qed.
  Lemma generates_beta_ext : forall isx n k b (Q Q' : tab -> Prop) P, (forall T, Q T <-> Q' T) -> generates_beta isx n k b Q P -> generates_beta isx n k b Q' P.
  Proof.
    intros isx n k b Q Q' P H [C G]. split; [assumption|]. intros m Cm. destruct (G m Cm) as [G1 G2]. split; [|assumption]. intro V. refine (counts_ext _ _ _ _ _ _ eq_refl (G1 V)). intro T. rewrite H. reflexivity.
  Qed.

  Theorem C59_doublebar : forall pord isx n mu nu bound, (forall l, Permutation (pord l) l) -> partition mu -> partition nu ->
    exists g P, stable_grothendieck_doublebar ord n mu nu bound = Ok g /\ spolynomial num_terms pord isx g = Ok P /\
      generates_beta isx n (size mu - size nu) bound (fun T => included nu mu /\ exists kappa, corners_removed nu kappa /\ tableau_of cell nowhere true n mu kappa T) P.
  Proof.
    intros pord isx n mu nu b Hp Hm Hn. destruct (C18_remove_inner_corners nu Hn) as (xs & Ex & Nx & Hx).
    destruct (doublebar_general false nowhere pord isx n mu nu b xs (fun x => stable_grothendieck ord n mu x b) (stable_grothendieck_doublebar ord n mu nu b) Hp Hm Hn Nx) as (g & P & E1 & E2 & G).
    - intros x I. apply Hx in I. apply I.
    - intros x I. apply (counts_g ord idl idl ord_perm idl_perm idl_perm); assumption.
    - unfold stable_grothendieck_doublebar. rewrite Ex. reflexivity.
    - exists g, P. split; [assumption|]. split; [assumption|]. eapply generates_beta_ext; [|exact G]. intro T. unfold corners_removed. split; intros [X (x & Y & V)]; (split; [exact X|]); exists x; (split; [apply Hx; exact Y|exact V]).
  Qed.
  Theorem C59_doublebar_s : forall pord isx n mu nu bound, (forall l, Permutation (pord l) l) -> partition mu -> partition nu ->
    exists g P, stable_grothendieck_s_doublebar ord n mu nu bound = Ok g /\ spolynomial num_terms pord isx g = Ok P /\
      generates_beta isx n (size mu - size nu) bound (fun T => included nu mu /\ exists kappa, corners_removed nu kappa /\ tableau_of cell anywhere true n mu kappa T) P.
  Proof.
    intros pord isx n mu nu b Hp Hm Hn. destruct (C18_remove_inner_corners nu Hn) as (xs & Ex & Nx & Hx).
    destruct (doublebar_general false anywhere pord isx n mu nu b xs (fun x => stable_grothendieck_s ord n mu x b) (stable_grothendieck_s_doublebar ord n mu nu b) Hp Hm Hn Nx) as (g & P & E1 & E2 & G).
    - intros x I. apply Hx in I. apply I.
    - intros x I. destruct (counts_s ord idl idl ord_perm idl_perm idl_perm n mu x b Hm I) as (r & g & H1 & H2 & H3 & _). exists r, g. split; [assumption|]. split; assumption.
    - unfold stable_grothendieck_s_doublebar. rewrite Ex. reflexivity.
    - exists g, P. split; [assumption|]. split; [assumption|]. eapply generates_beta_ext; [|exact G]. intro T. unfold corners_removed. split; intros [X (x & Y & V)]; (split; [exact X|]); exists x; (split; [apply Hx; exact Y|exact V]).
  Qed.
  Theorem C59_doublebar_q : forall pord isx n mu nu bound, (forall l, Permutation (pord l) l) -> strict_partition mu -> strict_partition nu ->
    exists g P, stable_grothendieck_q_doublebar ord n mu nu bound = Ok g /\ spolynomial num_terms pord isx g = Ok P /\
      generates_beta isx n (size mu - size nu) bound (fun T => (forall i j, shifted_cell nu i j -> shifted_cell mu i j) /\
        exists kappa, shifted_corners_removed nu kappa /\ tableau_of shifted_cell anywhere true n mu kappa T) P.
  Proof.
    intros pord isx n mu nu b Hp Hm Hn. destruct (C18_remove_shifted_inner_corners nu Hn) as (xs & Ex & Nx & Hx).
    destruct (doublebar_general true anywhere pord isx n mu nu b xs (fun x => stable_grothendieck_q ord n mu x b) (stable_grothendieck_q_doublebar ord n mu nu b) Hp Hm Hn Nx) as (g & P & E1 & E2 & G).
    - intros x I. apply Hx in I. apply I.
    - intros x I. destruct (counts_q ord idl idl ord_perm idl_perm idl_perm n mu x b Hm I) as (r & g & H1 & H2 & H3 & _). exists r, g. split; [assumption|]. split; assumption.
    - unfold stable_grothendieck_q_doublebar. rewrite Ex. reflexivity.
    - exists g, P. split; [assumption|]. split; [assumption|]. eapply generates_beta_ext; [|exact G]. intro T. unfold shifted_corners_removed. split; intros [X (x & Y & V)]; (split; [exact X|]); exists x; (split; [apply Hx; exact Y|exact V]).
  Qed.
  Theorem C59_doublebar_p : forall pord isx n mu nu bound, (forall l, Permutation (pord l) l) -> strict_partition mu -> strict_partition nu ->
    exists g P, stable_grothendieck_p_doublebar ord n mu nu bound = Ok g /\ spolynomial num_terms pord isx g = Ok P /\
      generates_beta isx n (size mu - size nu) bound (fun T => (forall i j, shifted_cell nu i j -> shifted_cell mu i j) /\
        exists kappa, shifted_corners_removed nu kappa /\ tableau_of shifted_cell off_diagonal true n mu kappa T) P.
  Proof.
    intros pord isx n mu nu b Hp Hm Hn. destruct (C18_remove_shifted_inner_corners nu Hn) as (xs & Ex & Nx & Hx).
    destruct (doublebar_general true off_diagonal pord isx n mu nu b xs (fun x => stable_grothendieck_p ord n mu x b) (stable_grothendieck_p_doublebar ord n mu nu b) Hp Hm Hn Nx) as (g & P & E1 & E2 & G).
    - intros x I. apply Hx in I. apply I.
    - intros x I. destruct (counts_p ord idl idl ord_perm idl_perm idl_perm n mu x b Hm I) as (r & g & H1 & H2 & H3 & _). exists r, g. split; [assumption|]. split; assumption.
    - unfold stable_grothendieck_p_doublebar. rewrite Ex. reflexivity.
    - exists g, P. split; [assumption|]. split; [assumption|]. eapply generates_beta_ext; [|exact G]. intro T. unfold shifted_corners_removed. split; intros [X (x & Y & V)]; (split; [exact X|]); exists x; (split; [apply Hx; exact Y|exact V]).
  Qed.
End Statements.

(* C60: negate_beta on any symmetric polynomial whose coefficients are Polynomials without negative powers of beta *)
Theorem C60_negate_beta : forall n f, sym_canon (fun c => num_canon c /\ exists p, c = NP p /\ Forall (fun iv => 0 <= expo (fst iv) 0) p) n f ->
  exists g, negate_beta f = Ok g /\ sym_canon num_canon n g /\
    forall k m, ncoeff (nget smono_eqb g k) m = (if Z.even (expo m 0) then 1 else -1) * ncoeff (nget smono_eqb f k) m.
Proof.
  intros n f [N H]. assert (Wf : nvwf f).
  { split; [assumption|]. apply Forall_forall. intros [[k mu] c] Hin. cbn [snd]. destruct (H k mu c Hin) as (_ & _ & _ & Q & _). apply num_canon_ok. exact Q. }
  assert (Ng : negatable f).
  { apply Forall_forall. intros [[k mu] c] Hin. cbn [snd]. destruct (H k mu c Hin) as (_ & _ & _ & _ & p & -> & Fp). exists p. split; [reflexivity|]. eapply Forall_impl; [|exact Fp]. intros a Ha. cbn beta in Ha. rewrite expo_mget in Ha. exact Ha. }
  destruct (negate_beta_ok f Wf Ng) as (g & E & Wg & Kg & Hg). exists g. split; [assumption|]. split; [|exact Hg]. split; [apply Wg|].
  intros k mu c Hin. assert (I : In (k, mu) (map fst f)) by (apply Kg; apply (in_map fst) in Hin; exact Hin). apply in_map_iff in I. destruct I as ([[k' mu'] c'] & E' & I). cbn [fst] in E'. injection E' as -> ->.
  destruct (H k mu c' I) as (A1 & A2 & A3 & _). split; [assumption|]. split; [assumption|]. split; [assumption|].
  apply num_canon_ok. destruct Wg as [_ Wg]. rewrite Forall_forall in Wg. apply (Wg _ Hin).
Qed.
Section Negated.
  Variable ord : list (list Z) -> list (list Z).
  Hypothesis ord_perm : forall l, Permutation (ord l) l.

  Lemma beta_vectorize_np : forall n d mu nu b g, beta_vectorize n d mu nu b = Ok g -> Forall (fun kx => exists v, snd kx = NP v) g.
  Proof. intros n d mu nu b g. unfold beta_vectorize. destruct (nvectorize n d beta_pow b); cbn [rbind]; [|discriminate]. intro E. injection E as <-. apply np_scale. Qed.

  Theorem C60_mn_stable_grothendieck : forall pord isx n mu nu, (forall l, Permutation (pord l) l) -> partition mu -> partition nu ->
    exists g P g' P', stable_grothendieck ord n mu nu None = Ok g /\ spolynomial num_terms pord isx g = Ok P /\
      mn_stable_grothendieck ord n mu nu = Ok g' /\ spolynomial num_terms pord isx g' = Ok P' /\ canon P' /\
      forall m, canon_mono m -> coeff P' m = (if Z.even (expo m 0) then 1 else -1) * coeff P m.
  Proof.
    intros pord isx n mu nu Hp Hm Hn. destruct (counts_g ord idl idl ord_perm idl_perm idl_perm n mu nu None Hm Hn) as (r & g & Eg & T & B).
    destruct (negate_polynomial pord isx n _ None _ r g Hp T B) as (P & g' & P' & E1 & E2 & E3 & E4 & H).
    - intros t alpha Ht La Hw. exact (tableau_size false nowhere true n mu nu t alpha Hm Hn Ht La Hw).
    - unfold stable_grothendieck in Eg. destruct (count_semistandard ord n mu nu true) as [d|]; cbn [rbind] in Eg; [|discriminate]. exact (beta_vectorize_np n d mu nu None g Eg).
    - exists g, P, g', P'. unfold mn_stable_grothendieck. rewrite Eg. repeat (split; [assumption || reflexivity|]). exact H.
  Qed.
  Theorem C60_mn_stable_grothendieck_q : forall pord isx n mu nu, (forall l, Permutation (pord l) l) -> strict_partition mu -> strict_partition nu ->
    exists g P g' P', stable_grothendieck_q ord n mu nu None = Ok g /\ spolynomial num_terms pord isx g = Ok P /\
      mn_stable_grothendieck_q ord n mu nu = Ok g' /\ spolynomial num_terms pord isx g' = Ok P' /\ canon P' /\
      forall m, canon_mono m -> coeff P' m = (if Z.even (expo m 0) then 1 else -1) * coeff P m.
  Proof.
    intros pord isx n mu nu Hp Hm Hn. destruct (counts_q ord idl idl ord_perm idl_perm idl_perm n mu nu None Hm Hn) as (r & g & Eg & T & B & _).
    destruct (negate_polynomial pord isx n _ None _ r g Hp T B) as (P & g' & P' & E1 & E2 & E3 & E4 & H).
    - intros t alpha Ht La Hw. exact (tableau_size true anywhere true n mu nu t alpha Hm Hn Ht La Hw).
    - unfold stable_grothendieck_q in Eg. destruct (count_semistandard_shifted_marked ord n mu nu true true) as [d|]; cbn [rbind] in Eg; [|discriminate]. exact (beta_vectorize_np n d mu nu None g Eg).
    - exists g, P, g', P'. unfold mn_stable_grothendieck_q. rewrite Eg. repeat (split; [assumption || reflexivity|]). exact H.
  Qed.
  Theorem C60_mn_stable_grothendieck_p : forall pord isx n mu nu, (forall l, Permutation (pord l) l) -> strict_partition mu -> strict_partition nu ->
    exists g P g' P', stable_grothendieck_p ord n mu nu None = Ok g /\ spolynomial num_terms pord isx g = Ok P /\
      mn_stable_grothendieck_p ord n mu nu = Ok g' /\ spolynomial num_terms pord isx g' = Ok P' /\ canon P' /\
      forall m, canon_mono m -> coeff P' m = (if Z.even (expo m 0) then 1 else -1) * coeff P m.
  Proof.
    intros pord isx n mu nu Hp Hm Hn. destruct (counts_p ord idl idl ord_perm idl_perm idl_perm n mu nu None Hm Hn) as (r & g & Eg & T & B & _).
    destruct (negate_polynomial pord isx n _ None _ r g Hp T B) as (P & g' & P' & E1 & E2 & E3 & E4 & H).
    - intros t alpha Ht La Hw. exact (tableau_size true off_diagonal true n mu nu t alpha Hm Hn Ht La Hw).
    - unfold stable_grothendieck_p in Eg. destruct (count_semistandard_shifted_marked ord n mu nu false true) as [d|]; cbn [rbind] in Eg; [|discriminate]. exact (beta_vectorize_np n d mu nu None g Eg).
    - exists g, P, g', P'. unfold mn_stable_grothendieck_p. rewrite Eg. repeat (split; [assumption || reflexivity|]). exact H.
  Qed.
End Negated.

Print Assumptions C55_schur_s.
Print Assumptions C55_schur_q.
Print Assumptions C55_schur_p.
Print Assumptions C56_stable_grothendieck_s.
Print Assumptions C56_stable_grothendieck_q.
Print Assumptions C56_stable_grothendieck_p.
Print Assumptions C57_slow_schur_s.
Print Assumptions C57_slow_schur_q.
Print Assumptions C57_slow_schur_p.
Print Assumptions C57_slow_grothendieck_s.
Print Assumptions C57_slow_grothendieck_q.
Print Assumptions C57_slow_grothendieck_p.
Print Assumptions C58_marked_symmetric.
Print Assumptions C58_shifted_marked_symmetric.
Print Assumptions C59_doublebar.
Print Assumptions C59_doublebar_s.
Print Assumptions C59_doublebar_q.
Print Assumptions C59_doublebar_p.
Print Assumptions C60_negate_beta.
Print Assumptions C60_mn_stable_grothendieck.
Print Assumptions C60_mn_stable_grothendieck_q.
Print Assumptions C60_mn_stable_grothendieck_p.

Example C55_example :
  strict_partition [2; 1] /\ strict_partition [1] /\ partition [1; 1] /\
  schur_q idl 2 [2; 1] [1] = Ok [((2%nat, [1; 1]), 4); ((2%nat, [2]), 2)] /\
  schur_p idl 2 [2; 1] [] = Ok [((2%nat, [2; 1]), 1)] /\
  schur_s idl 2 [1; 1] [] = Ok [((2%nat, [1; 1]), 4); ((2%nat, [2]), 2)] /\
  spolynomial pconst idl true [((2%nat, [1; 1]), 4); ((2%nat, [2]), 2)] = Ok [([(1, 1); (2, 1)], 4); ([(1, 2)], 2); ([(2, 2)], 2)].
Proof.
  split; [split; [repeat constructor|intros [|[|i]]; cbn; lia]|]. split; [split; [repeat constructor|intros [|[|i]]; cbn; lia]|].
  split; [split; [repeat constructor|intros [|[|[|i]]]; cbn; lia]|]. repeat split; vm_compute; reflexivity.
Qed.
Example C56_example :
  stable_grothendieck_p idl 2 [2] [] None =
    Ok [((2%nat, [1; 1]), NP [([], 2)]); ((2%nat, [2]), NP [([], 1)]); ((2%nat, [2; 1]), NP [([(0, 1)], 2)]); ((2%nat, [2; 2]), NP [([(0, 2)], 1)])] /\
  stable_grothendieck_q idl 2 [2] [] (Some 3) =
    Ok [((2%nat, [1; 1]), NP [([], 4)]); ((2%nat, [2; 1]), NP [([(0, 1)], 6)]); ((2%nat, [2]), NP [([], 2)]); ((2%nat, [3]), NP [([(0, 1)], 1)])].
Proof. split; vm_compute; reflexivity. Qed.
Example C57_example : slow_stable_grothendieck_p idl idl idl 2 [2] [] = stable_grothendieck_p idl 2 [2] [] None.
Proof. vm_compute. reflexivity. Qed.
(* set-valued shifted marked tableaux of shape (2, 1) by weight *)
Example C58_example : exists r, semistandard_shifted_marked idl idl idl 3 [2; 1] [] false true = Ok r /\
  wcount 3 r [1; 2; 1] = 3 /\ wcount 3 r [2; 1; 1] = 3.
Proof. eexists. split; [vm_compute; reflexivity|]. split; vm_compute; reflexivity. Qed.
Example C59_example :
  stable_grothendieck_doublebar idl 2 [1] [1] None = Ok [((2%nat, []), NP [([], 1)]); ((2%nat, [1]), NP [([(0, 1)], 1)]); ((2%nat, [1; 1]), NP [([(0, 2)], 1)])] /\
  corners_removed [1] [] /\ corners_removed [1] [1].
Proof.
  split; [vm_compute; reflexivity|]. split.
  - split; [apply partition_nil|]. split; [intros i j [H1 H2]; destruct (Z.to_nat (i - 1)); cbn in H2; lia|].
    intros i j [H1 H2] _. assert (R : forall k, row [1] k = if (k =? 0)%nat then 1 else 0) by (intros [|[|k]]; reflexivity). unfold corner_cell, cell. rewrite !R in *. replace (i + 1 - 1) with i by lia.
    destruct (Nat.eqb_spec (Z.to_nat (i - 1)) 0), (Nat.eqb_spec (Z.to_nat i) 0); lia.
  - split; [split; [repeat constructor|intros [|[|i]]; cbn; lia]|]. split; [intros i j H; exact H|]. intros i j H N. contradiction.
Qed.
Example C60_example :
  mn_stable_grothendieck_p idl 2 [2] [] =
    Ok [((2%nat, [1; 1]), NP [([], 2)]); ((2%nat, [2]), NP [([], 1)]); ((2%nat, [2; 1]), NP [([(0, 1)], -2)]); ((2%nat, [2; 2]), NP [([(0, 2)], 1)])].
Proof. vm_compute. reflexivity. Qed.
