(* Expansions in a unitriangular family: uniqueness of the coefficients, and combinations of the family
   are exactly the inputs on which the recursion succeeds *)
From Coq Require Import List ZArith Lia Bool Permutation Arith.
From Verif Require Import PyBase FinSum M_Partitions M_Vectors L_Vectors M_Polynomials L_Polynomials L_PolySubst M_Tableaux M_Semistandard M_Symmetric M_Expansion L_Count L_CountCache L_Destand2 L_SymPoly L_Kostka L_Num L_Expand1 L_Expand2.
Import ListNotations.
Local Open Scope Z_scope.

Local Notation sg := (nget smono_eqb).
Local Notation lg := (nget zlist_eqb).

Section Unique.
  Variable hi : bool.
  Variable n : nat.
  Variable F : nat -> list Z -> res nsym.
  Variables kdom dom : list Z -> Prop.
  Variable ld : list Z -> Z.
  Hypothesis HF : forall p, dom p -> F n p = Ok (Fv n F p) /\ fwf n kdom (Fv n F p).
  Hypothesis Hlead : forall p, dom p -> neqv (sg (Fv n F p) (n, p)) (NI (ld p)) /\ ld p <> 0.
  Hypothesis Htri : forall p q, dom p -> In (n, q) (map fst (Fv n F p)) -> q = p \/ after hi p q.
  Local Notation recon := (recon n F).
  Local Notation vok := (vok dom).

  Lemma recon_first : forall c p, vok c -> In p (map fst c) -> (forall q, In q (map fst c) -> q = p \/ after hi p q) ->
    forall G, recon c p G = ld p * nev (lg c p) G.
  Proof.
    intros c p [Wc Vc] Hp Hq G. unfold L_Expand2.recon, nlin. apply in_map_iff in Hp. destruct Hp as ([p0 y] & E0 & Hin). cbn [fst] in E0. subst p0.
    rewrite (zs_unique _ _ fst c (p, y) (proj1 Wc) Hin).
    - cbn [fst snd]. rewrite (nget_In zlist_eqb zlist_eqb_eq c p y (proj1 Wc) Hin). rewrite <- nev_scale.
      destruct (Vc p) as [Hd _]; [change p with (fst (p, y)); apply in_map; assumption|].
      assert (Oy : nok y) by (rewrite <- (nget_In zlist_eqb zlist_eqb_eq c p y (proj1 Wc) Hin); apply nget_ok, nvwf_oks; assumption).
      apply nev_ext; [assumption|]. intros m Wm. destruct (Hlead p Hd) as [E _]. rewrite (E _). cbn [nev]. rewrite mmul_nil_l by assumption. reflexivity.
    - intros [mu z] Hy Hne. cbn [fst snd] in *. assert (Im : In mu (map fst c)) by (change mu with (fst (mu, z)); apply in_map; assumption).
      destruct (Vc mu Im) as [Hd _]. assert (E : sg (Fv n F mu) (n, p) = NI 0).
      { apply (nget_notin smono_eqb smono_eqb_eq). intro I. destruct (Hq mu Im) as [X|X]; [congruence|]. destruct (Htri mu p Hd I) as [Y|Y]; [congruence|]. eapply after_irrefl, after_trans; eassumption. }
      etransitivity; [|apply (nev_zero z)]. destruct z as [z|z]; cbn [nev]; [rewrite E; cbn [nev]; lia|]. apply ev_ext. intro m. rewrite E. cbn [nev]. lia.
  Qed.

  Lemma recon_unique : forall u, vok u -> (forall alpha G, recon u alpha G = 0) -> u = [].
  Proof.
    intros u V H. destruct u as [|x u0] eqn:Eu; [reflexivity|]. rewrite <- Eu in *. exfalso. destruct (first_exists hi (map fst u)) as (p & P1 & P2); [rewrite Eu; discriminate|].
    pose proof (proj1 (nget_nonzero zlist_eqb zlist_eqb_eq u p (proj1 V)) P1) as Z0. assert (Z1 : nzero (lg u p) = true); [|congruence].
    apply nzero_spec; [apply nget_ok, nvwf_oks, V|]. intro G. pose proof (recon_first u p V P1 P2 G) as E. rewrite H in E. destruct (proj2 V p P1) as [Hd _]. destruct (Hlead p Hd) as [_ Hl]. nia.
  Qed.

  Lemma vok_sub : forall v w, vok v -> vok w -> vok (nvsub zlist_eqb v w) /\ forall k G, nev (lg (nvsub zlist_eqb v w) k) G = nev (lg v k) G - nev (lg w k) G.
  Proof.
    intros v w V W. destruct (nvsub_ok zlist_eqb zlist_eqb_eq v w (proj1 V) (proj1 W)) as [Wu Eu]. split; [|exact Eu]. split; [assumption|]. intros mu Hmu. split.
    - destruct (in_dec (keq_dec zlist_eqb zlist_eqb_eq) mu (map fst v)) as [I|I]; [apply V; assumption|]. destruct (in_dec (keq_dec zlist_eqb zlist_eqb_eq) mu (map fst w)) as [J|J]; [apply W; assumption|]. exfalso.
      assert (Y0 : nzero (lg (nvsub zlist_eqb v w) mu) = false) by (apply (nget_nonzero zlist_eqb zlist_eqb_eq); assumption).
      assert (Y1 : nzero (lg (nvsub zlist_eqb v w) mu) = true); [|congruence]. apply nzero_spec; [apply nget_ok, nvwf_oks; assumption|]. intro G. rewrite Eu.
      rewrite (nget_notin zlist_eqb zlist_eqb_eq v), (nget_notin zlist_eqb zlist_eqb_eq w) by assumption. cbn [nev]. lia.
    - intros G H. rewrite Eu, (vok_pure dom v mu V G H), (vok_pure dom w mu W G H). lia.
  Qed.
  Lemma recon_sub : forall v w alpha G, vok v -> vok w -> recon (nvsub zlist_eqb v w) alpha G = recon v alpha G - recon w alpha G.
  Proof.
    intros v w alpha G V W. destruct (vok_sub v w V W) as [U E].
    rewrite (recon_add n F (nvsub zlist_eqb v w) w v); [lia|apply V|apply U|apply W|]. intros k G0. rewrite E. lia.
  Qed.

  Theorem recon_inj : forall v w, vok v -> vok w -> (forall alpha G, recon v alpha G = recon w alpha G) -> forall mu, neqv (lg v mu) (lg w mu).
  Proof.
    intros v w V W H mu G. destruct (vok_sub v w V W) as [U E]. assert (Eu : nvsub zlist_eqb v w = []) by (apply recon_unique; [assumption|]; intros; rewrite recon_sub, H by assumption; lia).
    specialize (E mu G). rewrite Eu, nget_nil in E. cbn [nev] in E. lia.
  Qed.

  (* the combinations of the family *)
  Definition comb (f : nsym) : Prop := exists c, vok c /\ forall alpha G, recon c alpha G = nev (sg f (n, alpha)) G.

  (* the monomials of a family of coefficients *)
  Definition csupp (c : nvec (list Z)) : list (list Z * mono) := flat_map (fun xy => map (pair (fst xy)) (nsupp (snd xy))) c.
  Lemma csupp_spec : forall c, nvwf c -> NoDup (csupp c) /\ forall mu m, In (mu, m) (csupp c) <-> nev (lg c mu) (fun a => ind (meqb a m)) <> 0.
  Proof.
    intros c [N Fc]. unfold csupp. rewrite Forall_forall in Fc. split.
    - clear -N Fc. induction c as [|[mu y] c IH]; [constructor|]. cbn [map fst] in N. inversion N as [|? ? N1 N2]; subst. cbn [flat_map fst snd]. apply NoDup_app_intro.
      + apply NoDup_map_inj_in; [intros a b _ _ E; apply (f_equal snd) in E; exact E|]. apply nsupp_spec. apply (Fc (mu, y)). left. reflexivity.
      + apply IH; [assumption|]. intros x Hx. apply Fc. right. assumption.
      + intros [a b] H1 H2. apply in_map_iff in H1. destruct H1 as (b' & E & _). apply (f_equal fst) in E. cbn [fst] in E. subst a. apply in_flat_map in H2. destruct H2 as ([mu' y'] & H2 & H3). apply in_map_iff in H3. destruct H3 as (b2 & E & _). apply (f_equal fst) in E. cbn [fst] in E. subst mu'. apply N1. change mu with (fst (mu, y')). apply in_map. assumption.
    - intros mu m. rewrite in_flat_map. split.
      + intros ([mu' y] & H1 & H2). cbn [fst snd] in H2. apply in_map_iff in H2. destruct H2 as (m' & E & H2). injection E as -> ->. rewrite (nget_In zlist_eqb zlist_eqb_eq c mu y N H1). apply nsupp_spec; [apply (Fc _ H1)|assumption].
      + intro H. destruct (in_dec (keq_dec zlist_eqb zlist_eqb_eq) mu (map fst c)) as [I|I]; [|rewrite (nget_notin zlist_eqb zlist_eqb_eq) in H by assumption; cbn [nev] in H; lia].
        apply in_map_iff in I. destruct I as ([mu' y] & E & I). cbn [fst] in E. subst mu'. exists (mu, y). split; [assumption|]. cbn [fst snd]. apply in_map. rewrite (nget_In zlist_eqb zlist_eqb_eq c mu y N I) in H. apply nsupp_spec; [apply (Fc _ I)|assumption].
  Qed.

  Lemma comb_stepc : forall f p k c, fwf n kdom f -> vok c -> (forall alpha G, recon c alpha G = nev (sg f (n, alpha)) G) -> low hi n f p -> nev (sg f (n, p)) (fun m => ind (meqb m (mvar 0 k))) <> 0 ->
    dom p /\ exists q, nev (sg f (n, p)) (fun m => ind (meqb m (mvar 0 k))) = q * ld p /\ forall f', fwf n kdom f' -> step n F f p k q f' ->
      exists c', vok c' /\ (forall alpha G, recon c' alpha G = nev (sg f' (n, alpha)) G) /\ (length (csupp c') < length (csupp c))%nat.
  Proof.
    intros f p k c Wf Vc Rc [L1 L2] Hnz.
    assert (Nc : c <> []). { intros ->. apply Hnz. rewrite <- Rc. reflexivity. }
    destruct (first_exists hi (map fst c)) as (p' & P1 & P2); [destruct c; [congruence|discriminate]|].
    pose proof (recon_first c p' Vc P1 P2) as Ef. destruct (proj2 Vc p' P1) as [Hd _]. destruct (Hlead p' Hd) as [_ Hl].
    assert (I' : In (n, p') (map fst f)).
    { apply (nget_nonzero smono_eqb smono_eqb_eq f (n, p') (proj1 Wf)). destruct (nzero (sg f (n, p'))) eqn:Z0; [|reflexivity]. exfalso.
      assert (Y0 : nzero (lg c p') = false) by (apply (nget_nonzero zlist_eqb zlist_eqb_eq); [apply Vc|assumption]).
      assert (Y1 : nzero (lg c p') = true); [|congruence]. apply nzero_spec; [apply nget_ok, nvwf_oks, Vc|]. intro G. specialize (Ef G). rewrite Rc in Ef. rewrite (proj1 (nzero_spec _ (fwf_ok _ _ _ _ Wf)) Z0 G) in Ef. nia. }
    assert (E0 : p' = p).
    { destruct (L2 p' I') as [X|X]; [assumption|]. exfalso.
      assert (R0 : recon c p (fun m => ind (meqb m (mvar 0 k))) = 0); [|apply Hnz; rewrite <- Rc; exact R0].
      unfold L_Expand2.recon, nlin. apply zs_zero. intros [mu z] Hy. cbn [fst snd]. assert (Im : In mu (map fst c)) by (change mu with (fst (mu, z)); apply in_map; assumption).
      destruct (proj2 Vc mu Im) as [Hdm _]. assert (E : sg (Fv n F mu) (n, p) = NI 0).
      { apply (nget_notin smono_eqb smono_eqb_eq). intro I. assert (A : mu = p' \/ after hi p' mu) by (apply P2; assumption). assert (B : p = mu \/ after hi mu p) by (apply Htri; assumption).
        apply (after_irrefl hi p). apply (after_trans hi p p' p); [assumption|]. destruct A as [->|A]; [destruct B as [->|B]; [exfalso; eapply after_irrefl; eassumption|assumption]|]. destruct B as [->|B]; [assumption|]. eapply after_trans; eassumption. }
      etransitivity; [|apply (nev_zero z)]. destruct z as [z|z]; cbn [nev]; [rewrite E; cbn [nev]; lia|]. apply ev_ext. intro m. rewrite E. cbn [nev]. lia. }
    subst p'. split; [assumption|]. exists (nev (lg c p) (fun m => ind (meqb m (mvar 0 k)))). set (q := nev (lg c p) (fun m => ind (meqb m (mvar 0 k)))).
    assert (Eq : nev (sg f (n, p)) (fun m => ind (meqb m (mvar 0 k))) = q * ld p) by (rewrite <- Rc, Ef; unfold q; lia). split; [assumption|].
    assert (Hq : q <> 0) by (intro X; rewrite X in Eq; lia).
    intros f' W' St. set (w := [(p, NP [(mvar 0 k, q)])]).
    assert (Vw : vok w).
    { split.
      - split; [repeat constructor; intros []|]. constructor; [|constructor]. cbn [snd nok nzero]. split.
        + split; [repeat constructor; intros []|]. split; [constructor; [apply mvar_wf|constructor]|constructor; [exact Hq|constructor]].
        + destruct (pis_zero [(mvar 0 k, q)]) eqn:Z0; [|reflexivity]. exfalso. apply (proj1 (nzero_spec (NP [(mvar 0 k, q)]) ltac:(split; [repeat constructor; intros []|]; split; [constructor; [apply mvar_wf|constructor]|constructor; [exact Hq|constructor]]))) with (G := fun _ => 1) in Z0.
          cbn [nev] in Z0. rewrite ev_cons in Z0. change (ev [] (fun _ => 1)) with 0 in Z0. lia.
      - intros mu [<-|[]]. cbn [fst]. split; [assumption|]. unfold w. rewrite nget_cons, zlist_eqb_refl. apply spure_beta. }
    exists (nvsub zlist_eqb c w). destruct (vok_sub c w Vc Vw) as [V' E']. split; [assumption|]. split.
    - intros alpha G. rewrite recon_sub by assumption. rewrite Rc, (St alpha G). f_equal.
      unfold L_Expand2.recon, nlin, w. rewrite zs_cons, zs_nil. cbn [fst snd nev]. rewrite ev_cons. change (ev [] _) with 0. lia.
    - destruct (csupp_spec c (proj1 Vc)) as [N1 H1]. destruct (csupp_spec _ (proj1 V')) as [N2 H2]. set (c' := nvsub zlist_eqb c w) in *.
      assert (Ew : forall mu G, nev (lg w mu) G = if zlist_eqb p mu then q * G (mvar 0 k) else 0).
      { intros mu G. unfold w. rewrite nget_cons, nget_nil. destruct (zlist_eqb p mu); cbn [nev]; [|lia]. rewrite ev_cons. change (ev [] G) with 0. lia. }
      assert (Ic : incl ((p, mvar 0 k) :: csupp c') (csupp c)).
      { intros [mu m] [X|X]; [injection X as <- <-; apply H1; exact Hq|]. apply H2 in X. rewrite E', Ew in X. apply H1. destruct (zlist_eqb p mu) eqn:Ep; [|lia]. apply zlist_eqb_eq in Ep. subst mu. destruct (meqb (mvar 0 k) m) eqn:Em; [|cbn [ind] in X; lia].
        apply meqb_spec in Em. subst m. exact Hq. }
      assert (Nn : NoDup ((p, mvar 0 k) :: csupp c')).
      { constructor; [|assumption]. intro X. apply H2 in X. apply X. rewrite E', Ew, zlist_eqb_refl. unfold q. replace (meqb (mvar 0 k) (mvar 0 k)) with true by (symmetry; apply meqb_spec; reflexivity). cbn [ind]. lia. }
      pose proof (NoDup_incl_length Nn Ic) as Le. cbn [length] in Le. lia.
  Qed.
  Lemma comb_step : forall f p k, fwf n kdom f -> comb f -> low hi n f p -> nev (sg f (n, p)) (fun m => ind (meqb m (mvar 0 k))) <> 0 ->
    dom p /\ exists q, nev (sg f (n, p)) (fun m => ind (meqb m (mvar 0 k))) = q * ld p /\ forall f', fwf n kdom f' -> step n F f p k q f' -> comb f'.
  Proof.
    intros f p k Wf (c & Vc & Rc) Lp Hnz. destruct (comb_stepc f p k c Wf Vc Rc Lp Hnz) as (Hd & q & Eq & H). split; [assumption|]. exists q. split; [assumption|]. intros f' W' St. destruct (H f' W' St) as (c' & H1 & H2 & _). exists c'. split; assumption.
  Qed.

  (* the expansion of a combination succeeds *)
  Theorem comb_outcome : forall f, fwf n kdom f -> comb f -> outcome hi n F dom f.
  Proof.
    intros f Wf (c & Vc & Rc). remember (length (csupp c)) as t eqn:Et. revert f c Wf Vc Rc Et. induction t as [t IH] using (well_founded_induction lt_wf). intros f c Wf Vc Rc Et.
    destruct f as [|x f0] eqn:Ef; [apply outcome_nil|]. rewrite <- Ef in *. assert (Ne : f <> []) by congruence. clear Ef x f0.
    destruct (get_term_ok hi n f (proj1 Wf) Ne (fun m Hm => proj1 (proj2 Wf m Hm))) as (p & _ & P1 & P2).
    pose (D := fun g : nsym => g = f \/ exists c', vok c' /\ (forall alpha G, recon c' alpha G = nev (sg g (n, alpha)) G) /\ (length (csupp c') < t)%nat).
    apply (expansion_step hi n F kdom dom ld HF Hlead Htri D) with (p := p); try assumption.
    - intros g p0 k Wg [->|(c' & V' & R' & L')] Lp Hnz.
      + destruct (comb_stepc f p0 k c Wf Vc Rc Lp Hnz) as (Hd & q & Eq & H). split; [assumption|]. exists q. split; [assumption|]. intros f' W' St. right. destruct (H f' W' St) as (c' & H1 & H2 & H3). exists c'. split; [assumption|]. split; [assumption|]. lia.
      + destruct (comb_stepc g p0 k c' Wg V' R' Lp Hnz) as (Hd & q & Eq & H). split; [assumption|]. exists q. split; [assumption|]. intros f' W' St. right. destruct (H f' W' St) as (c2 & H1 & H2 & H3). exists c2. split; [assumption|]. split; [assumption|]. lia.
    - left. reflexivity.
    - split; assumption.
    - intros f' W' [->|(c' & V' & R' & L')] _ _ Hs _; [lia|]. apply (IH (length (csupp c')) L' f' c'); try assumption. reflexivity.
  Qed.
End Unique.

(* all lists of length at most n with entries in 0..m *)
Fixpoint lists_upto (n : nat) (m : Z) : list (list Z) :=
  match n with
  | O => [[]]
  | S n' => [] :: flat_map (fun l => map (fun a => a :: l) (zrange 0 (m + 1))) (lists_upto n' m)
  end.
Lemma lists_upto_In : forall n m l, In l (lists_upto n m) <-> (length l <= n)%nat /\ Forall (fun a => 0 <= a <= m) l.
Proof.
  induction n as [|n IH]; intros m l; cbn [lists_upto].
  - cbn [In]. split; [intros [<-|[]]; split; [cbn; lia|constructor]|]. intros [H _]. left. destruct l; [reflexivity|cbn in H; lia].
  - cbn [In]. rewrite in_flat_map. split.
    + intros [<-|(x & Hx & Hl)]; [split; [cbn; lia|constructor]|]. apply in_map_iff in Hl. destruct Hl as (a & <- & Ha). apply In_zrange in Ha. apply IH in Hx. destruct Hx as [H1 H2]. split; [cbn; lia|]. constructor; [lia|assumption].
    + intros [H1 H2]. destruct l as [|a l]; [left; reflexivity|]. right. inversion H2; subst. exists l. split; [apply IH; split; [cbn in H1; lia|assumption]|]. apply in_map_iff. exists a. split; [reflexivity|]. apply In_zrange. lia.
Qed.
