(* C39, C52: expansions of symmetric polynomials *)
From Coq Require Import List ZArith Lia Bool Permutation.
From Verif Require Import PyBase FinSum M_Partitions M_Vectors L_Vectors M_Polynomials L_Polynomials L_PolySubst M_Tableaux M_Semistandard M_Symmetric M_Expansion S_Polynomials S_Partitions S_Symmetric S_Expansion L_CountCache L_SymPoly L_Kostka L_Num L_Expand1 L_Expand2 L_Expand3 L_Expand4 L_Expand5 L_Expand6.
Import ListNotations.
Local Open Scope Z_scope.

Definition num_vec {K} (f : nvec K) : Prop := NoDup (map fst f) /\ Forall (fun kc => num_canon (snd kc)) f.
Lemma num_vec_ok : forall K (f : nvec K), num_vec f <-> nvwf f.
Proof.
  intros K f. split; intros [N H]; (split; [assumption|]); (eapply Forall_impl; [|exact H]); intros a Ha; apply num_canon_ok; exact Ha.
Qed.

(* whatever the family and the rule for leading terms: a returned expansion sums up to the input *)
Theorem C39_sound : forall function get_term fuel f v,
  (forall n mu g, function n mu = Ok g -> num_vec g) -> num_vec f ->
  expansion function get_term fuel f = Ok v ->
  (f = [] -> v = []) /\
  (f <> [] -> exists n mu0 basis, get_term f = Ok (n, mu0) /\ (forall mu c, In (mu, c) v -> function n mu = Ok (basis mu)) /\
     forall k m, combination basis v k m = ncoeff (nget smono_eqb f k) m).
Proof.
  intros F T fuel f v HF Hf E. destruct (expansion_sound F T (fun n mu g H => proj1 (num_vec_ok _ g) (HF n mu g H)) fuel f v (proj1 (num_vec_ok _ f) Hf) E) as (_ & H1 & H2).
  split; [assumption|]. intro Ne. destruct (H2 Ne) as ([n mu0] & Et & Hv & Hc). exists n, mu0, (Fv n F). split; [assumption|]. split; [|assumption].
  intros mu c Hin. destruct (Hv mu c Hin) as (g & Eg). cbn [fst] in Eg. unfold Fv. rewrite Eg. reflexivity.
Qed.

Section Generic.
  Variable n : nat.
  Variable F : nat -> list Z -> res nsym.
  Hypothesis HF : forall mu, partition mu -> F n mu = Ok (Fv n F mu).
  Hypothesis HW : forall p, fits n p -> F n p = Ok (Fv n F p) /\ fwf n (fits n) (Fv n F p).
  Hypothesis Hout : forall f, fwf n (fits n) f -> outcome false n F (fits n) f.
  Hypothesis Huni : forall v w, vok (fits n) v -> vok (fits n) w -> (forall alpha G, recon n F v alpha G = recon n F w alpha G) -> forall mu, neqv (nget zlist_eqb v mu) (nget zlist_eqb w mu).

  Lemma generic_total : forall f, sym_canon beta_num n f -> exists v basis N, idx_canon n v /\
    (forall fuel, (N <= fuel)%nat -> expansion F term_from_lowest_degree fuel f = Ok v) /\
    (forall mu, partition mu -> F n mu = Ok (basis mu)) /\
    forall alpha m, combination basis v (n, alpha) m = ncoeff (at_monomial f n alpha) m.
  Proof.
    intros f Cf. pose proof (sym_canon_fwf n f Cf) as Wf. destruct (Hout f Wf) as (v & N & Vv & Rv & Ev). exists v, (Fv n F), N. split; [apply idx_canon_vok; assumption|]. split; [assumption|]. split; [assumption|].
    intros alpha m. rewrite combination_recon, Rv. symmetry. apply ncoeff_nev. eapply fwf_ok. exact Wf.
  Qed.
  Lemma generic_unique : forall f c basis, sym_canon beta_num n f -> idx_canon n c ->
    (forall mu, partition mu -> F n mu = Ok (basis mu)) ->
    (forall alpha m, combination basis c (n, alpha) m = ncoeff (at_monomial f n alpha) m) ->
    exists v N, (forall fuel, (N <= fuel)%nat -> expansion F term_from_lowest_degree fuel f = Ok v) /\
      forall mu m, ncoeff (at_index v mu) m = ncoeff (at_index c mu) m.
  Proof.
    intros f c basis Cf Cc Hb Hc. pose proof (sym_canon_fwf n f Cf) as Wf. pose proof (proj1 (idx_canon_vok n c) Cc) as Vc. destruct (Hout f Wf) as (v & N & Vv & Rv & Ev). exists v, N. split; [assumption|].
    assert (R : forall alpha G, recon n F v alpha G = recon n F c alpha G).
    { destruct (combine_loop n F (fits n) (fits n) HW c None) as (e & C1 & C2 & C3 & C4).
      - intros mu y Hin. destruct (proj2 Cc mu y Hin) as (P & L & Q1 & Q2). split; [split; assumption|]. apply num_canon_ok in Q1 as Q3. split; [apply Q3|]. apply beta_only_pure; [apply Q3|assumption].
      - apply fwf_nil.
      - intros alpha G. rewrite Rv. assert (E : recon n F c alpha G = nev (nget smono_eqb (accv e) (n, alpha)) G) by (rewrite C4; cbn [accv]; rewrite nget_nil; cbn [nev]; lia). rewrite E. apply ncoeff_eqv; [eapply fwf_ok; exact Wf|eapply fwf_ok; exact C3|].
        intro m. rewrite (ncoeff_nev (nget smono_eqb (accv e) (n, alpha))) by (eapply fwf_ok; exact C3). rewrite C4. cbn [accv]. rewrite nget_nil. cbn [nev]. etransitivity; [symmetry; apply (Hc alpha m)|].
        rewrite <- combination_recon. rewrite Z.mul_0_l, Z.add_0_l. apply combination_ext. intros mu y Hin. destruct (proj2 Cc mu y Hin) as (P & _). specialize (Hb mu P). rewrite (HF mu P) in Hb. injection Hb as ->. reflexivity. }
    intros mu m. unfold at_index. rewrite !ncoeff_nev by (apply nget_ok, nvwf_oks; [apply Vv || apply Vc]). apply (Huni v c Vv Vc R).
  Qed.
End Generic.

Section C39.
  Variable ord : list (list Z) -> list (list Z).
  Hypothesis ord_perm : forall l, Permutation (ord l) l.

  Lemma schur_fwf : forall n p, fits n p -> schur_num ord n p = Ok (Fv n (schur_num ord) p) /\ fwf n (fits n) (Fv n (schur_num ord) p).
  Proof. intro n. apply (family_fwf n (schur_num ord) (kostka ord false n) (schur_family ord ord_perm n)). Qed.
  Lemma groth_fwf : forall n p, fits n p -> groth ord n p = Ok (Fv n (groth ord) p) /\ fwf n (fits n) (Fv n (groth ord) p).
  Proof. intro n. apply (family_fwf n (groth ord) (kostka ord true n) (groth_family ord ord_perm n)). Qed.
End C39.

(* schur_expansion returns on every symmetric polynomial with coefficients in powers of beta *)
Theorem C39_schur_expansion : forall ord n f, (forall l, Permutation (ord l) l) -> sym_canon beta_num n f ->
  exists v basis N, idx_canon n v /\
    (forall fuel, (N <= fuel)%nat -> schur_expansion ord fuel f = Ok v) /\
    (forall mu, partition mu -> schur_num ord n mu = Ok (basis mu)) /\
    forall alpha m, combination basis v (n, alpha) m = ncoeff (at_monomial f n alpha) m.
Proof.
  intros ord n f Hord. apply generic_total; [intros mu P; apply (schur_family ord Hord n mu P)|exact (schur_outcome ord Hord n)].
Qed.
(* and returns the coefficients of any combination of Schur polynomials *)
Theorem C39_schur_coefficients : forall ord n f c basis, (forall l, Permutation (ord l) l) -> sym_canon beta_num n f -> idx_canon n c ->
  (forall mu, partition mu -> schur_num ord n mu = Ok (basis mu)) ->
  (forall alpha m, combination basis c (n, alpha) m = ncoeff (at_monomial f n alpha) m) ->
  exists v N, (forall fuel, (N <= fuel)%nat -> schur_expansion ord fuel f = Ok v) /\
    forall mu m, ncoeff (at_index v mu) m = ncoeff (at_index c mu) m.
Proof.
  intros ord n f c basis Hord. apply generic_unique; [intros mu P; apply (schur_family ord Hord n mu P)|exact (schur_fwf ord Hord n)|exact (schur_outcome ord Hord n)|exact (schur_unique ord Hord n)].
Qed.

Theorem C52_grothendieck_expansion : forall ord n f, (forall l, Permutation (ord l) l) -> sym_canon beta_num n f ->
  exists v basis N, idx_canon n v /\
    (forall fuel, (N <= fuel)%nat -> grothendieck_expansion ord fuel f = Ok v) /\
    (forall mu, partition mu -> stable_grothendieck ord n mu [] None = Ok (basis mu)) /\
    forall alpha m, combination basis v (n, alpha) m = ncoeff (at_monomial f n alpha) m.
Proof.
  intros ord n f Hord. apply (generic_total n (groth ord)); [intros mu P; apply (groth_family ord Hord n mu P)|exact (groth_outcome ord Hord n)].
Qed.
Theorem C52_grothendieck_coefficients : forall ord n f c basis, (forall l, Permutation (ord l) l) -> sym_canon beta_num n f -> idx_canon n c ->
  (forall mu, partition mu -> stable_grothendieck ord n mu [] None = Ok (basis mu)) ->
  (forall alpha m, combination basis c (n, alpha) m = ncoeff (at_monomial f n alpha) m) ->
  exists v N, (forall fuel, (N <= fuel)%nat -> grothendieck_expansion ord fuel f = Ok v) /\
    forall mu m, ncoeff (at_index v mu) m = ncoeff (at_index c mu) m.
Proof.
  intros ord n f c basis Hord. apply (generic_unique n (groth ord)); [intros mu P; apply (groth_family ord Hord n mu P)|exact (groth_fwf ord Hord n)|exact (groth_outcome ord Hord n)|exact (groth_unique ord Hord n)].
Qed.

(* a coefficient with another variable: the recursion never ends (RecursionError in Python) *)
Definition x1 : num := NP [([(1, 1)], 1)].
Theorem C39_other_variables_refuted : forall ord n mu, (forall l, Permutation (ord l) l) -> partition mu -> (length mu <= n)%nat ->
  forall fuel, schur_expansion ord fuel [((n, mu), x1)] = Err OutOfFuel /\ grothendieck_expansion ord fuel [((n, mu), x1)] = Err OutOfFuel.
Proof.
  assert (G : forall F n mu g, F n mu = Ok g -> nvwf g -> neqv (nget smono_eqb g (n, mu)) (NI 1) ->
    forall fuel, expansion F term_from_lowest_degree fuel [((n, mu), x1)] = Err OutOfFuel).
  { intros F n mu g Eg Wg L. induction fuel as [|fuel IH]; [reflexivity|]. cbn [expansion].
    assert (Et : term_from_lowest_degree [((n, mu), x1)] = Ok (n, mu)).
    { unfold term_from_lowest_degree, lowest_degree_terms. cbn [map fst zmin fold_left filter]. rewrite Z.eqb_refl. reflexivity. }
    rewrite Et. cbn [rbind fst snd]. rewrite Eg. cbn [rbind].
    assert (Ef : nget smono_eqb [((n, mu), x1)] (n, mu) = x1) by (rewrite nget_cons; replace (smono_eqb (n, mu) (n, mu)) with true by (symmetry; apply smono_eqb_eq; reflexivity); reflexivity).
    rewrite Ef. change (leading x1) with (Ok (NP [], 1)). cbn [rbind].
    rewrite (divisor_ok _ 1) by (try assumption; apply nget_ok, nvwf_oks; assumption). cbn [rbind fst snd]. change (quotient (NP []) 1 1) with (Ok ([] : poly)). cbn [rbind].
    assert (Es : nvscale smono_eqb g (NP []) = []).
    { apply (nvec_empty smono_eqb smono_eqb_eq); [apply (nvscale_ok smono_eqb smono_eqb_eq); [assumption|repeat constructor]|]. intros k G. rewrite (proj2 (nvscale_ok smono_eqb smono_eqb_eq g (NP []) Wg ltac:(repeat constructor))).
      cbn [nev]. transitivity (nev (nget smono_eqb g k) (fun _ => 0)); [apply nev_ext; [apply nget_ok, nvwf_oks; assumption|reflexivity]|]. rewrite nev_zero. lia. }
    rewrite Es. change (nvsub smono_eqb [((n, mu), x1)] []) with [((n, mu), x1)]. rewrite IH. reflexivity. }
  intros ord n mu Hord P L fuel. split.
  - destruct (schur_family ord Hord n mu P) as (E & W & _). eapply G; [exact E|exact W|].
    apply (family_lead n (schur_num ord) (kostka ord false n) (schur_family ord Hord n) (kostka_one ord Hord false n)). split; assumption.
  - destruct (groth_family ord Hord n mu P) as (E & W & _). eapply G; [exact E|exact W|].
    apply (family_lead n (groth ord) (kostka ord true n) (groth_family ord Hord n) (kostka_one ord Hord true n)). split; assumption.
Qed.

(* s_1^2 = s_2 + s_11 in three variables *)
Example C39_schur_example :
  schur_expansion (fun l => l) 5 [((3%nat, [2]), NI 1); ((3%nat, [1; 1]), NI 2)] = Ok [([1; 1], NP [([], 1)]); ([2], NP [([], 1)])].
Proof. vm_compute. reflexivity. Qed.
Example C39_schur_example_canon : sym_canon beta_num 3 [((3%nat, [2]), NI 1); ((3%nat, [1; 1]), NI 2)].
Proof.
  split; [repeat constructor; cbn; intuition discriminate|]. intros k mu c [E|[E|[]]]; injection E as <- <- <-; (split; [reflexivity|]).
  - split; [split; [repeat constructor|intros [|[|i]]; cbn; lia]|]. split; [cbn; lia|]. split; [cbn; lia|]. intros m c [X|[]] t _. injection X as <- _. reflexivity.
  - split; [split; [repeat constructor|intros [|[|[|i]]]; cbn; lia]|]. split; [cbn; lia|]. split; [cbn; lia|]. intros m c [X|[]] t _. injection X as <- _. reflexivity.
Qed.
Example C52_grothendieck_example :
  grothendieck_expansion (fun l => l) 12 [((2%nat, [2]), NI 1); ((2%nat, [1; 1]), NP [([(0, 1)], 2)])]
  = Ok [([2; 2], NP [([(0, 2)], 1)]); ([2; 1], NP [([(0, 1)], -1)]); ([1; 1], NP [([], -1); ([(0, 1)], 2)]); ([2], NP [([], 1)])].
Proof. vm_compute. reflexivity. Qed.
(* the sums of this expansion: beta^2 G_22 - beta G_21 + (2 beta - 1) G_11 + G_2 has no m_21 term *)
Definition example_basis (mu : list Z) : nsym := match stable_grothendieck (fun l => l) 2 mu [] None with Ok g => g | Err _ => [] end.
Example C52_combination_example :
  combination example_basis [([2; 2], NP [([(0, 2)], 1)]); ([2; 1], NP [([(0, 1)], -1)]); ([1; 1], NP [([], -1); ([(0, 1)], 2)]); ([2], NP [([], 1)])] (2%nat, [1; 1]) [(0, 1)] = 2 /\
  combination example_basis [([2; 2], NP [([(0, 2)], 1)]); ([2; 1], NP [([(0, 1)], -1)]); ([1; 1], NP [([], -1); ([(0, 1)], 2)]); ([2], NP [([], 1)])] (2%nat, [2; 1]) [(0, 1)] = 0.
Proof. split; vm_compute; reflexivity. Qed.
Example C39_other_variables_example : schur_expansion (fun l => l) 40 [((2%nat, [1]), x1)] = Err OutOfFuel.
Proof. vm_compute. reflexivity. Qed.

Print Assumptions C39_sound.
Print Assumptions C39_schur_expansion.
Print Assumptions C39_schur_coefficients.
Print Assumptions C39_other_variables_refuted.
Print Assumptions C52_grothendieck_expansion.
Print Assumptions C52_grothendieck_coefficients.
