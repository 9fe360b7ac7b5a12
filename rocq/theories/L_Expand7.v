(* Expansions in a triangular family: they return exactly on the combinations of the family, with the
   coefficients of the combination *)
From Coq Require Import List ZArith Lia Bool Permutation Arith.
From Verif Require Import PyBase FinSum M_Partitions M_Vectors L_Vectors M_Polynomials L_Polynomials L_PolySubst M_Tableaux M_Semistandard M_Symmetric M_Expansion S_Polynomials S_Partitions S_Symmetric S_Expansion
  L_Count L_CountCache L_Destand2 L_SymPoly L_Kostka L_Num L_Expand1 L_Expand2 L_Expand3 L_Expand4 L_Expand5 L_Expand6.
Import ListNotations.
Local Open Scope Z_scope.

Local Notation sg := (nget smono_eqb).
Local Notation lg := (nget zlist_eqb).

Lemma quotient_inv : forall c z d k r, (c = NI z \/ c = NP [([], z)]) -> z <> 0 -> d <> 0 -> quotient c d k = Ok r -> exists q, z = q * d.
Proof.
  intros c z d k r Hc Hz Hd E. assert (M : z mod d = 0).
  { destruct Hc as [->| ->]; unfold quotient in E; replace (d =? 0) with false in E by (symmetry; apply Z.eqb_neq; assumption).
    - destruct (z mod d =? 0) eqn:X; [apply Z.eqb_eq; assumption|discriminate].
    - cbn [andb] in E. unfold pmod in E. cbn [map filter fst snd] in E. destruct (z mod d =? 0) eqn:X; [apply Z.eqb_eq; assumption|]. cbn [negb filter] in E. exfalso.
      assert (Y : nzero (nsub (NP [([] : mono, z mod d)]) (NI 0)) = false); [|assert (Y' : nzero (nsub (NP [([] : mono, z mod d)]) (NI 0)) = true); [|congruence]].
      + cbn [nsub nzero]. change (pint (- 0)) with ([] : poly). destruct (pis_zero (padd [([] : mono, z mod d)] [])) eqn:Q; [|reflexivity]. exfalso. apply Z.eqb_neq in X.
        unfold padd, pis_zero in Q. cbn in Q. apply Z.eqb_neq in X. rewrite X in Q. cbn in Q. discriminate.
      + destruct (nzero (nsub (NP [([] : mono, z mod d)]) (NI 0))) eqn:Q; [reflexivity|discriminate]. }
  exists (z / d). rewrite Z.mul_comm. apply Z_div_exact_full_2; assumption.
Qed.

Section Converse.
  Variable hi : bool.
  Variable n : nat.
  Variable F : nat -> list Z -> res nsym.
  Variables kdom dom : list Z -> Prop.
  Variable ld : list Z -> Z.
  Hypothesis HF : forall p, dom p -> F n p = Ok (Fv n F p) /\ fwf n kdom (Fv n F p).
  Hypothesis Hlead : forall p, dom p -> neqv (sg (Fv n F p) (n, p)) (NI (ld p)) /\ ld p <> 0.
  Hypothesis Htri : forall p q, dom p -> In (n, q) (map fst (Fv n F p)) -> q = p \/ after hi p q.
  Hypothesis Hdom : forall p g, kdom p -> F n p = Ok g -> dom p.

  Lemma expansion_comb : forall fuel f v, fwf n kdom f -> expansion F (term hi) fuel f = Ok v -> vok dom v /\ forall alpha G, recon n F v alpha G = nev (sg f (n, alpha)) G.
  Proof.
    induction fuel as [|fuel IH]; intros f v Wf E; [discriminate|]. destruct f as [|x0 f0] eqn:Ef.
    { cbn [expansion] in E. injection E as <-. split; [split; [split; constructor|intros mu []]|]. reflexivity. }
    cbn [expansion] in E. rewrite <- Ef in *. assert (Ne : f <> []) by congruence. clear x0 f0 Ef.
    destruct (get_term_ok hi n f (proj1 Wf) Ne (fun m Hm => proj1 (proj2 Wf m Hm))) as (p & Et & P1 & P2). rewrite Et in E. cbn [rbind fst snd] in E. cbv zeta in E.
    assert (Kp : kdom p) by (apply (proj2 Wf _ P1)).
    destruct (F n p) as [g|x] eqn:Eg; cbn [rbind] in E; [|discriminate]. assert (Hd : dom p) by (apply (Hdom p g); assumption).
    destruct (HF p Hd) as [EF Wp]. assert (g = Fv n F p) by congruence. subst g.
    assert (Z0 : nzero (sg f (n, p)) = false) by (apply (nget_nonzero smono_eqb smono_eqb_eq); [apply Wf|assumption]).
    destruct (leading_ok (sg f (n, p))) as (c & k & z & E1 & Hc & Hz & Ez); [eapply fwf_ok; eassumption|assumption|eapply fwf_pure; eassumption|].
    destruct (Hlead p Hd) as [El Hl]. assert (E2 : divisor (sg (Fv n F p) (n, p)) = Ok (ld p)) by (apply divisor_ok; [eapply fwf_ok; eassumption|assumption]).
    rewrite E1 in E. cbn [rbind fst snd] in E. rewrite E2 in E. cbn [rbind] in E. destruct (quotient c (ld p) k) as [r|x] eqn:Eq; cbn [rbind] in E; [|discriminate].
    destruct (quotient_inv c z (ld p) k r Hc Hz Hl Eq) as (q & Hq). destruct (quotient_ok c z (ld p) q k Hc Hz Hl Hq) as (r' & E3 & Wr & Er). assert (r' = r) by congruence. subst r'. clear E3.
    assert (Nq : q <> 0) by (intros ->; lia).
    assert (Or : nok (NP r)) by exact Wr. assert (Pr : spure (NP r)). { intros G H. cbn [nev]. rewrite Er, H. lia. }
    destruct (scale_ok n F kdom dom HF p (NP r) Hd Or Pr) as [Ws Es].
    destruct (sub_ok n kdom f (nvscale smono_eqb (Fv n F p) (NP r)) Wf Ws) as [W' E'].
    destruct (expansion F (term hi) fuel (nvsub smono_eqb f (nvscale smono_eqb (Fv n F p) (NP r)))) as [w|x] eqn:Ew; cbn [rbind] in E; [|discriminate].
    destruct (IH _ _ W' Ew) as [Vw Rw].
    assert (Zr : nzero (NP r) = false).
    { destruct (nzero (NP r)) eqn:Zr; [|reflexivity]. exfalso. apply (proj1 (nzero_spec (NP r) Or)) with (G := fun _ => 1) in Zr. cbn [nev] in Zr. rewrite Er in Zr. lia. }
    assert (Em : vmake nzero [(p, NP r)] = [(p, NP r)]) by (unfold vmake; cbn [filter snd]; rewrite Zr; reflexivity). rewrite Em in E.
    assert (W1 : nvwf [(p, NP r)]). { split; [repeat constructor; intros []|]. constructor; [|constructor]. split; assumption. }
    destruct (nvadd_ok zlist_eqb zlist_eqb_eq w [(p, NP r)] (proj1 Vw) W1) as [Wa Ea]. set (v0 := nvadd zlist_eqb w [(p, NP r)]) in *.
    assert (v = v0). { destruct (combine_terms F n v0) as [[s|]|]; try discriminate. destruct (nveq smono_eqb s f); [congruence|discriminate]. } subst v. clear E.
    assert (Gp : forall mu, lg [(p, NP r)] mu = if zlist_eqb p mu then NP r else NI 0) by (intro mu; rewrite nget_cons, nget_nil; reflexivity).
    split.
    - split; [assumption|]. intros mu Hmu. split.
      + destruct (in_dec (keq_dec zlist_eqb zlist_eqb_eq) mu (map fst w)) as [I|I]; [apply Vw; assumption|]. destruct (zlist_eqb p mu) eqn:Ep; [apply zlist_eqb_eq in Ep; subst mu; assumption|]. exfalso.
        assert (Y0 : nzero (lg v0 mu) = false) by (apply (nget_nonzero zlist_eqb zlist_eqb_eq); assumption).
        assert (Y1 : nzero (lg v0 mu) = true). { apply nzero_spec; [apply nget_ok, nvwf_oks; assumption|]. intro G. rewrite Ea, Gp, Ep. rewrite (nget_notin zlist_eqb zlist_eqb_eq w) by assumption. cbn [nev]. lia. } congruence.
      + intros G H. rewrite Ea, Gp. rewrite (vok_pure dom w mu Vw G H). destruct (zlist_eqb p mu); [rewrite (Pr G H); lia|cbn [nev]; lia].
    - intros alpha G. rewrite (recon_add n F w [(p, NP r)] v0); [|apply Wa|apply Vw|apply W1|exact Ea]. rewrite Rw, E', Es. unfold recon, nlin. rewrite zs_cons, zs_nil. cbn [fst snd nev]. rewrite Er.
      rewrite (nev_ext (sg (Fv n F p) (n, alpha)) (fun a => ev r (fun b => G (mmul a b))) (fun a => q * G (mmul a (mvar 0 k)))); [rewrite nev_scale; lia|eapply fwf_ok; eassumption|]. intros m _. rewrite Er. reflexivity.
  Qed.
End Converse.

Lemma idx_in_vok : forall ok n v, idx_in ok n v <-> vok (fun p => ok p /\ (length p <= n)%nat) v.
Proof.
  intros ok n v. split.
  - intros [N H]. split.
    + split; [assumption|]. apply Forall_forall. intros [m c] Hin. cbn [snd]. apply num_canon_ok. apply (H m c Hin).
    + intros mu Hm. apply in_map_iff in Hm. destruct Hm as ([m0 c] & <- & Hin). cbn [fst]. destruct (H m0 c Hin) as (A1 & A2 & A3 & A4). split; [split; assumption|].
      rewrite (nget_In zlist_eqb zlist_eqb_eq v m0 c N Hin). apply beta_only_pure; [apply num_canon_ok; assumption|assumption].
  - intros [[N Fv] H]. split; [assumption|]. intros mu c Hin. assert (I : In mu (map fst v)) by (change mu with (fst (mu, c)); apply in_map; assumption). destruct (H mu I) as [[P L] Q]. split; [assumption|]. split; [assumption|].
    rewrite Forall_forall in Fv. specialize (Fv _ Hin). cbn [snd] in Fv. rewrite (nget_In zlist_eqb zlist_eqb_eq v mu c N Hin) in Q. split; [apply num_canon_ok; assumption|apply beta_only_pure; [apply Fv|assumption]].
Qed.

Section Triangular.
  Variable hi : bool.
  Variable n : nat.
  Variable F : nat -> list Z -> res nsym.
  Variable ok : list Z -> Prop.
  Variable ld : list Z -> Z.
  Let dom := fun p : list Z => ok p /\ (length p <= n)%nat.
  Hypothesis HF : forall p, dom p -> F n p = Ok (Fv n F p) /\ fwf n (fits n) (Fv n F p).
  Hypothesis Hlead : forall p, dom p -> neqv (sg (Fv n F p) (n, p)) (NI (ld p)) /\ ld p <> 0.
  Hypothesis Htri : forall p q, dom p -> In (n, q) (map fst (Fv n F p)) -> q = p \/ after hi p q.
  Hypothesis Hok : forall p g, partition p -> F n p = Ok g -> ok p.

  Lemma combination_comb : forall c f, vok dom c -> fwf n (fits n) f -> is_combination n (F n) c f -> forall alpha G, recon n F c alpha G = nev (sg f (n, alpha)) G.
  Proof.
    intros c f Vc Wf (B & HB & H). assert (Hv : forall mu y, In (mu, y) c -> dom mu /\ nok y /\ spure y).
    { intros mu y Hin. assert (I : In mu (map fst c)) by (change mu with (fst (mu, y)); apply in_map; assumption). destruct Vc as [[N Wc] Vk]. destruct (Vk mu I) as [K1 K2]. rewrite (nget_In zlist_eqb zlist_eqb_eq c mu y N Hin) in K2. split; [assumption|]. split; [|assumption].
      rewrite Forall_forall in Wc. apply (Wc _ Hin). }
    destruct (combine_loop n F (fits n) dom HF c None Hv) as (e & C1 & C2 & C3 & C4); [apply fwf_nil|].
    intros alpha G. assert (E : recon n F c alpha G = nev (sg (accv e) (n, alpha)) G) by (rewrite C4; cbn [accv]; rewrite nget_nil; cbn [nev]; lia). rewrite E. apply ncoeff_eqv; [eapply fwf_ok; exact C3|eapply fwf_ok; exact Wf|].
    intro m. rewrite (ncoeff_nev (sg (accv e) (n, alpha))) by (eapply fwf_ok; exact C3). rewrite C4. cbn [accv]. rewrite nget_nil. cbn [nev]. rewrite Z.mul_0_l, Z.add_0_l. etransitivity; [|exact (H alpha m)].
    rewrite <- combination_recon. apply combination_ext. intros mu y Hin. destruct (Hv mu y Hin) as (P & _). specialize (HB mu y Hin). rewrite (proj1 (HF mu P)) in HB. congruence.
  Qed.
  Theorem triangular_expands : expands (expansion F (term hi)) n ok (F n).
  Proof.
    intros f Cf. pose proof (sym_canon_fwf n f Cf) as Wf. split.
    - intros c Cc Hc. pose proof (proj1 (idx_in_vok ok n c) Cc) as Vc. pose proof (combination_comb c f Vc Wf Hc) as Rc.
      destruct (comb_outcome hi n F (fits n) dom ld HF Hlead Htri f Wf) as (v & N & Vv & Rv & Ev); [exists c; split; assumption|].
      exists v, N. split; [assumption|]. split; [apply idx_in_vok; assumption|]. intros mu m. unfold at_index. rewrite !ncoeff_nev by (apply nget_ok, nvwf_oks; [apply Vv || apply Vc]).
      apply (recon_inj hi n F dom ld Hlead Htri v c Vv Vc). intros. rewrite Rv, Rc. reflexivity.
    - intros fuel v E. destruct (expansion_comb hi n F (fits n) dom ld HF Hlead) with (fuel := fuel) (f := f) (v := v) as [Vv Rv]; try assumption.
      + intros p g [Pp Lp] E'. split; [eapply Hok; eassumption|assumption].
      + split; [apply idx_in_vok; assumption|]. exists (Fv n F). split.
        * intros mu y Hin. apply HF. apply (proj2 Vv). change mu with (fst (mu, y)). apply in_map. assumption.
        * intros alpha m. rewrite combination_recon, Rv. symmetry. apply ncoeff_nev. eapply fwf_ok. exact Wf.
  Qed.
End Triangular.

(* families with coefficients K mu alpha beta^h *)
Section Powers.
  Variable hi : bool.
  Variable n : nat.
  Variable F : nat -> list Z -> res nsym.
  Variable ok : list Z -> Prop.
  Variable K : list Z -> list Z -> Z.
  Variable h : list Z -> list Z -> Z.
  Hypothesis Hpart : forall p, ok p -> partition p.
  Hypothesis HF : forall mu, ok mu -> F n mu = Ok (Fv n F mu) /\ nvwf (Fv n F mu) /\
    (forall m, In m (map fst (Fv n F mu)) -> fst m = n /\ fits n (snd m)) /\
    forall alpha G, fits n alpha -> nev (sg (Fv n F mu) (n, alpha)) G = K mu alpha * G (mvar 0 (h mu alpha)).
  Hypothesis Hh : forall mu, h mu mu = 0.
  Hypothesis HK : forall mu alpha, ok mu -> fits n alpha -> K mu alpha <> 0 -> alpha = mu \/ after hi mu alpha.
  Hypothesis HK1 : forall mu, ok mu -> (length mu <= n)%nat -> K mu mu <> 0.
  Hypothesis Hok : forall p g, partition p -> F n p = Ok g -> ok p.

  Theorem powers_expands : expands (expansion F (term hi)) n ok (F n).
  Proof.
    apply (triangular_expands hi n F ok (fun p => K p p)).
    - intros p [Op Lp]. destruct (HF p Op) as (E & W & D & H). split; [assumption|]. split; [assumption|]. intros m Hm. destruct (D m Hm) as [D1 D2]. split; [assumption|]. split; [assumption|].
      destruct m as [n' alpha]. cbn [fst snd] in *. subst n'. intros G HG. rewrite H by assumption. rewrite HG. lia.
    - intros p [Op Lp]. split; [|apply HK1; assumption]. intro G. destruct (HF p Op) as (_ & _ & _ & H). rewrite H by (split; [apply Hpart; assumption|assumption]). rewrite Hh. reflexivity.
    - intros p q [Op Lp] Hin. destruct (HF p Op) as (_ & W & D & H). destruct (D _ Hin) as [_ Fq]. cbn [snd] in Fq. apply HK; [assumption|assumption|]. intro Z0.
      pose proof (proj1 (nget_nonzero smono_eqb smono_eqb_eq _ _ W) Hin) as Z1. assert (Z2 : nzero (sg (Fv n F p) (n, q)) = true); [|congruence].
      apply nzero_spec; [apply nget_ok, nvwf_oks; assumption|]. intro G. rewrite H by assumption. rewrite Z0. lia.
    - exact Hok.
  Qed.
End Powers.
