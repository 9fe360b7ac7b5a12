(* From the specification vocabulary of S_Expansion.v to linear functionals, and the final check of
   _expansion for arbitrary families *)
From Coq Require Import List ZArith Lia Bool Permutation.
From Verif Require Import PyBase FinSum M_Partitions M_Vectors L_Vectors M_Polynomials L_Polynomials L_PolySubst M_Tableaux M_Semistandard M_Symmetric M_Expansion S_Polynomials S_Partitions S_Symmetric S_Expansion L_Count L_CountCache L_Destand2 L_SymPoly L_Num L_Expand1 L_Expand2 L_Expand4 P_Polynomials.
Import ListNotations.
Local Open Scope Z_scope.

Local Notation sg := (nget smono_eqb).
Local Notation lg := (nget zlist_eqb).

Lemma nev_terms : forall x G, nev x G = ev (num_terms x) G.
Proof. intros [z|p] G; [|reflexivity]. cbn [nev num_terms]. rewrite ev_cons. change (ev [] G) with 0. lia. Qed.
Lemma conv_ev : forall p q m, convolution p q m = ev p (fun a => ev q (fun b => ind (meqb (mmul a b) m))).
Proof.
  intros p q m. unfold convolution. induction p as [|[a x] p IH]; [reflexivity|]. rewrite ev_cons. cbn [map fold_right fst snd]. rewrite IH. f_equal. clear IH.
  induction q as [|[b y] q IH]; [change (ev [] _) with 0; cbn; lia|]. rewrite ev_cons. cbn [map fold_right fst snd]. rewrite IH. unfold ind. destruct (meqb (mmul a b) m); lia.
Qed.
Lemma conv_nev : forall x y m, convolution (num_terms x) (num_terms y) m = nev x (fun a => nev y (fun b => ind (meqb (mmul a b) m))).
Proof. intros x y m. rewrite conv_ev, nev_terms. apply ev_ext. intro a. symmetry. apply nev_terms. Qed.
Lemma ncoeff_nev : forall x m, nok x -> ncoeff x m = nev x (fun k => ind (meqb k m)).
Proof.
  intros [z|p] m O; unfold ncoeff, coeff; cbn [num_terms nev nok] in *.
  - unfold pget, dget0. cbn [dget]. unfold ind. destruct (meqb [] m); lia.
  - apply ev_get. apply O.
Qed.
Lemma ncoeff_eqv : forall x y, nok x -> nok y -> (forall m, ncoeff x m = ncoeff y m) -> neqv x y.
Proof.
  intros x y Ox Oy H. apply nzero_nsub; try assumption. destruct (nzero (nsub x y)) eqn:E; [reflexivity|]. exfalso.
  destruct (nzero_false _ (nok_sub x y Ox Oy) E) as (m & Hm). apply Hm. rewrite nev_sub by assumption. rewrite <- !ncoeff_nev by assumption. rewrite H. lia.
Qed.

Lemma num_canon_ok : forall x, num_canon x <-> nok x /\ nzero x = false.
Proof.
  intros [z|p]; cbn [num_canon nok nzero].
  - rewrite Z.eqb_neq. tauto.
  - split.
    + intros [C Ne]. split; [exact C|]. destruct (pis_zero p) eqn:Z0; [|reflexivity]. exfalso. destruct p as [|[m c] p]; [congruence|].
      pose proof (proj1 (nzero_spec (NP ((m, c) :: p)) C) Z0 (fun k => ind (meqb k m))) as E. cbn [nev] in E. rewrite <- ev_get in E by apply C. unfold pget, dget0 in E. cbn [dget] in E. rewrite meqb_refl in E. destruct C as (_ & _ & F). inversion F; subst. cbn [snd] in *. contradiction.
    + intros [C Z0]. split; [exact C|]. intros ->. discriminate.
Qed.
Lemma beta_only_pure : forall x, nok x -> (beta_only x <-> spure x).
Proof.
  intros x O. split.
  - intros B G H. rewrite nev_terms.
    assert (K : forall m c, In (m, c) (num_terms x) -> G m = 0).
    { intros m c Hin. assert (Wm : mwf m). { destruct x as [z|p]; cbn [num_terms nok] in *; [destruct Hin as [E|[]]; injection E as <- _; split; constructor|]. destruct O as (_ & F & _). rewrite Forall_forall in F. apply (F _ Hin). }
      replace m with (mvar 0 (mget m 0)); [apply H|]. symmetry. apply mwf_ext; [assumption|apply mvar_wf|]. intro t. rewrite mget_mvar. destruct (0 =? t) eqn:E; [apply Z.eqb_eq in E; subst; reflexivity|]. apply Z.eqb_neq in E. rewrite <- expo_mget. apply (B m c Hin). lia. }
    clear -K. induction (num_terms x) as [|[m c] l IH]; [reflexivity|]. rewrite ev_cons, (K m c) by (left; reflexivity). rewrite IH by (intros; apply (K m0 c0); right; assumption). lia.
  - intros P m c Hin t Ht. destruct x as [z|p]; cbn [num_terms nok] in *; [destruct Hin as [E|[]]; injection E as <- _; reflexivity|].
    destruct (spure_keys p m O P) as (k & ->); [change m with (fst (m, c)); apply in_map; assumption|]. rewrite expo_mget, mget_mvar. replace (0 =? t) with false; [reflexivity|]. symmetry. apply Z.eqb_neq. lia.
Qed.

Lemma sym_canon_fwf : forall n f, sym_canon beta_num n f -> fwf n (fits n) f.
Proof.
  intros n f [N H]. assert (A : forall m c, In (m, c) f -> fst m = n /\ fits n (snd m) /\ beta_num c).
  { intros [k mu] c Hin. destruct (H k mu c Hin) as (H1 & H2 & H3 & H4). cbn [fst snd]. split; [assumption|]. split; [split; assumption|assumption]. }
  split.
  - split; [assumption|]. apply Forall_forall. intros [m c] Hin. cbn [snd]. apply num_canon_ok. apply (A m c Hin).
  - intros m Hm. apply in_map_iff in Hm. destruct Hm as ([m0 c] & <- & Hin). cbn [fst]. destruct (A m0 c Hin) as (A1 & A2 & A3 & A4). split; [assumption|]. split; [assumption|].
    rewrite (nget_In smono_eqb smono_eqb_eq f m0 c N Hin). apply beta_only_pure; [apply num_canon_ok; assumption|assumption].
Qed.
Lemma idx_canon_vok : forall n v, idx_canon n v <-> vok (fits n) v.
Proof.
  intros n v. split.
  - intros [N H]. split.
    + split; [assumption|]. apply Forall_forall. intros [m c] Hin. cbn [snd]. apply num_canon_ok. apply (H m c Hin).
    + intros mu Hm. apply in_map_iff in Hm. destruct Hm as ([m0 c] & <- & Hin). cbn [fst]. destruct (H m0 c Hin) as (A1 & A2 & A3 & A4). split; [split; assumption|].
      rewrite (nget_In zlist_eqb zlist_eqb_eq v m0 c N Hin). apply beta_only_pure; [apply num_canon_ok; assumption|assumption].
  - intros [[N F] H]. split; [assumption|]. intros mu c Hin. assert (I : In mu (map fst v)) by (change mu with (fst (mu, c)); apply in_map; assumption). destruct (H mu I) as [[P L] Q]. split; [assumption|]. split; [assumption|].
    rewrite Forall_forall in F. specialize (F _ Hin). cbn [snd] in F. rewrite (nget_In zlist_eqb zlist_eqb_eq v mu c N Hin) in Q. split; [apply num_canon_ok; assumption|apply beta_only_pure; [apply F|assumption]].
Qed.

Lemma combination_zs : forall B v k m, combination B v k m = zs (fun xy => nev (sg (B (fst xy)) k) (fun a => nev (snd xy) (fun b => ind (meqb (mmul a b) m)))) v.
Proof. intros B v k m. unfold combination. induction v as [|[mu y] v IH]; [reflexivity|]. cbn [map fold_right fst snd]. rewrite IH, conv_nev, zs_cons. reflexivity. Qed.
Lemma combination_recon : forall n F v alpha m, combination (Fv n F) v (n, alpha) m = recon n F v alpha (fun k => ind (meqb k m)).
Proof.
  intros n F v alpha m. rewrite combination_zs. unfold recon, nlin. apply zs_ext. intros [mu y] _. cbn [fst snd]. apply (nev_swap (sg (Fv n F mu) (n, alpha)) y (fun a b => ind (meqb (mmul a b) m))).
Qed.
Lemma combination_ext : forall B B' v k m, (forall mu y, In (mu, y) v -> B mu = B' mu) -> combination B v k m = combination B' v k m.
Proof.
  intros B B' v k m H. unfold combination. f_equal. apply map_ext_in. intros [mu y] Hin. cbn [fst snd]. rewrite (H mu y Hin). reflexivity.
Qed.

(* soundness of the final check, for an arbitrary family and an arbitrary choice of leading terms *)
Section Sound.
  Variable F : nat -> list Z -> res nsym.
  Variable T : nsym -> res smono.
  Hypothesis HF : forall n mu g, F n mu = Ok g -> nvwf g.

  Lemma combine_sound : forall n v acc e, oks v -> nvwf (accv acc) ->
    rfold (fun acc xy => do g <- F n (fst xy);
      let t := nvscale smono_eqb g (snd xy) in Ok (Some (match acc with None => t | Some s => nvadd smono_eqb s t end))) v acc = Ok e ->
    nvwf (accv e) /\ (forall mu y, In (mu, y) v -> exists g, F n mu = Ok g) /\ forall k G, nev (sg (accv e) k) G = nev (sg (accv acc) k) G + zs (fun xy => nev (sg (Fv n F (fst xy)) k) (fun a => nev (snd xy) (fun b => G (mmul a b)))) v.
  Proof.
    induction v as [|[mu y] v IH]; intros acc e O W E.
    - cbn [rfold] in E. injection E as <-. split; [assumption|]. split; [intros mu y []|]. intros. rewrite zs_nil. lia.
    - inversion O as [|? ? O1 O2]; subst. cbn [rfold fst snd] in *. destruct (F n mu) as [g|x] eqn:Eg; cbn [rbind] in E; [|discriminate]. cbv zeta in E.
      destruct (nvscale_ok smono_eqb smono_eqb_eq g y (HF _ _ _ Eg) O1) as [Ws Es]. set (t := nvscale smono_eqb g y) in *.
      set (acc' := Some match acc with Some s => nvadd smono_eqb s t | None => t end) in *.
      assert (A : nvwf (accv acc') /\ forall m G, nev (sg (accv acc') m) G = nev (sg (accv acc) m) G + nev (sg t m) G).
      { unfold acc'. destruct acc as [s|]; cbn [accv] in *; [apply nvadd_ok; try assumption; apply smono_eqb_eq|]. split; [assumption|]. intros. rewrite nget_nil. cbn [nev]. lia. }
      destruct A as [A1 A2]. destruct (IH acc' e O2 A1 E) as (E1 & E2 & E3). split; [assumption|]. split.
      + intros mu' y' [X|X]; [injection X as <- <-; exists g; assumption|apply (E2 mu' y' X)].
      + intros k G. rewrite E3, A2, Es, zs_cons. cbn [fst snd]. unfold Fv at 2. rewrite Eg. lia.
  Qed.

  Lemma quotient_wf : forall c d k r, quotient c d k = Ok r -> pwf r.
  Proof.
    intros [z|p] d k r E; unfold quotient in E; cbv zeta in E.
    - destruct (d =? 0); [discriminate|]. destruct (z mod d =? 0); [|discriminate]. injection E as <-. apply pmul_wf.
    - destruct ((d =? 0) && negb (Nat.eqb (length p) 0)); [discriminate|]. destruct (nzero (nsub (NP (pmod p d)) (NI 0))); [|discriminate]. injection E as <-. apply pmul_wf.
  Qed.

  Lemma expansion_sound : forall fuel f v, nvwf f -> expansion F T fuel f = Ok v -> nvwf v /\
    (f = [] -> v = []) /\
    (f <> [] -> exists t, T f = Ok t /\ (forall mu y, In (mu, y) v -> exists g, F (fst t) mu = Ok g) /\
      forall k m, combination (Fv (fst t) F) v k m = ncoeff (sg f k) m).
  Proof.
    induction fuel as [|fuel IH]; intros f v Wf E; [discriminate|]. destruct f as [|x0 f0] eqn:Ef.
    - cbn [expansion] in E. injection E as <-. split; [split; constructor|]. split; [reflexivity|congruence].
    - cbn [expansion] in E. rewrite <- Ef in *. assert (Ne : f <> []) by congruence. clear x0 f0 Ef.
      destruct (T f) as [t|x] eqn:Et; cbn [rbind] in E; [|discriminate]. cbv zeta in E. destruct (F (fst t) (snd t)) as [g|x] eqn:Eg; cbn [rbind] in E; [|discriminate].
      destruct (leading (sg f t)) as [cc|x]; cbn [rbind] in E; [|discriminate]. destruct (divisor (sg g t)) as [d|x]; cbn [rbind] in E; [|discriminate].
      destruct (quotient (fst cc) d (snd cc)) as [c|x] eqn:Eq; cbn [rbind] in E; [|discriminate]. apply quotient_wf in Eq.
      destruct (expansion F T fuel (nvsub smono_eqb f (nvscale smono_eqb g (NP c)))) as [w|x] eqn:Ew; cbn [rbind] in E; [|discriminate].
      destruct (nvscale_ok smono_eqb smono_eqb_eq g (NP c) (HF _ _ _ Eg) Eq) as [Ws _]. destruct (nvsub_ok smono_eqb smono_eqb_eq f _ Wf Ws) as [Wd _].
      destruct (IH _ _ Wd Ew) as (Ww & _).
      assert (W1 : nvwf (vmake nzero [(snd t, NP c)])) by (apply vmake_nvwf; [repeat constructor; intros []|constructor; [exact Eq|constructor]]).
      destruct (nvadd_ok zlist_eqb zlist_eqb_eq w _ Ww W1) as [Wv _]. set (v0 := nvadd zlist_eqb w (vmake nzero [(snd t, NP c)])) in *.
      destruct (combine_terms F (fst t) v0) as [[s|]|x] eqn:Ec; try discriminate. destruct (nveq smono_eqb s f) eqn:En; [|discriminate]. injection E as <-.
      unfold combine_terms in Ec. apply (combine_sound (fst t) v0 None (Some s)) in Ec; [|apply nvwf_oks; assumption|split; constructor]. destruct Ec as (C1 & C2 & C3). cbn [accv] in *.
      pose proof (proj1 (nveq_ok smono_eqb smono_eqb_eq s f C1 Wf) En) as Q.
      split; [assumption|]. split.
      + intros X. contradiction.
      + intros _. exists t. split; [reflexivity|]. split; [assumption|]. intros k m. rewrite combination_zs. rewrite ncoeff_nev by (apply nget_ok, nvwf_oks; assumption). rewrite <- (Q k _). rewrite C3, nget_nil. cbn [nev]. lia.
  Qed.
End Sound.
