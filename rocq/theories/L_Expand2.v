(* _expansion terminates and reconstructs its argument, for every unitriangular family *)
From Coq Require Import List ZArith Lia Bool Permutation.
From Verif Require Import PyBase FinSum M_Partitions M_Vectors L_Vectors M_Polynomials L_Polynomials L_PolySubst M_Tableaux M_Semistandard M_Symmetric M_Expansion L_Count L_CountCache L_Destand2 L_SymPoly L_Num L_Expand1.
Import ListNotations.
Local Open Scope Z_scope.

Local Notation sg := (nget smono_eqb).
Local Notation lg := (nget zlist_eqb).

(* f is a symmetric polynomial in n variables: keys (n, mu) with mu in kdom, coefficients in powers of beta *)
Definition fwf (n : nat) (kdom : list Z -> Prop) (f : nsym) : Prop :=
  nvwf f /\ forall m, In m (map fst f) -> fst m = n /\ kdom (snd m) /\ spure (sg f m).
Lemma fwf_pure : forall n kd f m, fwf n kd f -> spure (sg f m).
Proof.
  intros n kd f m [W H]. destruct (in_dec (keq_dec smono_eqb smono_eqb_eq) m (map fst f)) as [I|I]; [apply H; assumption|].
  rewrite (nget_notin smono_eqb smono_eqb_eq) by assumption. apply spure_NI.
Qed.
Lemma fwf_ok : forall n kd f m, fwf n kd f -> nok (sg f m).
Proof. intros n kd f m [W _]. apply nget_ok, nvwf_oks, W. Qed.
Lemma fwf_other : forall n kd f m, fwf n kd f -> fst m <> n -> sg f m = NI 0.
Proof. intros n kd f m [W H] Hm. apply (nget_notin smono_eqb smono_eqb_eq). intro I. apply Hm. apply (H m I). Qed.

Lemma fwf_combine : forall n kd (f g r : nsym), nvwf r -> fwf n kd f -> fwf n kd g ->
  (forall m, spure (sg r m)) ->
  (forall m, neqv (sg f m) (NI 0) -> neqv (sg g m) (NI 0) -> neqv (sg r m) (NI 0)) -> fwf n kd r.
Proof.
  intros n kd f g r Wr Hf Hg P E. split; [assumption|]. intros m Hm.
  assert (Z0 : nzero (sg r m) = false) by (apply (nget_nonzero smono_eqb smono_eqb_eq); assumption).
  assert (I : In m (map fst f) \/ In m (map fst g)).
  { destruct (in_dec (keq_dec smono_eqb smono_eqb_eq) m (map fst f)) as [I|I]; [left; assumption|]. destruct (in_dec (keq_dec smono_eqb smono_eqb_eq) m (map fst g)) as [J|J]; [right; assumption|]. exfalso.
    assert (Z1 : nzero (sg r m) = true). { apply nzero_spec; [apply nget_ok, nvwf_oks; assumption|]. intro G. rewrite (E m); [cbn; lia| |]; rewrite (nget_notin smono_eqb smono_eqb_eq) by assumption; intro; reflexivity. } congruence. }
  split; [|split; [|apply P]]; destruct I as [I|I]; [apply Hf in I|apply Hg in I|apply Hf in I|apply Hg in I]; apply I.
Qed.

Lemma mul_right_pure : forall x c, nok x -> nok c -> spure x -> spure c -> forall G, (forall k, G (mvar 0 k) = 0) -> nev x (fun a => nev c (fun b => G (mmul a b))) = 0.
Proof. intros x c Ox Oc Px Pc G H. rewrite <- nev_mul by assumption. apply spure_mul; assumption. Qed.

Lemma count_less : forall (A : Type) (p q : A -> bool) l x, (forall y, q y = true -> p y = true) -> In x l -> p x = true -> q x = false -> (length (filter q l) < length (filter p l))%nat.
Proof.
  intros A p q. induction l as [|a l IH]; intros x H Hx Px Qx; [destruct Hx|]. cbn [filter].
  assert (Le : (length (filter q l) <= length (filter p l))%nat).
  { clear -H. induction l as [|b l IHl]; [cbn; lia|]. cbn [filter]. specialize (H b). destruct (q b); destruct (p b); cbn [length]; try lia; specialize (H eq_refl); discriminate. }
  destruct Hx as [->|Hx].
  - rewrite Px, Qx. cbn [length]. lia.
  - specialize (IH x H Hx Px Qx). specialize (H a). destruct (q a); destruct (p a); cbn [length]; try lia; specialize (H eq_refl); discriminate.
Qed.

Section Main.
  Variable hi : bool.
  Variable n : nat.
  Variable F : nat -> list Z -> res nsym.
  Variables kdom dom : list Z -> Prop.
  Variable ld : list Z -> Z.
  Definition Fv (p : list Z) : nsym := match F n p with Ok g => g | Err _ => [] end.
  Hypothesis HF : forall p, dom p -> F n p = Ok (Fv p) /\ fwf n kdom (Fv p).
  Hypothesis Hlead : forall p, dom p -> neqv (sg (Fv p) (n, p)) (NI (ld p)) /\ ld p <> 0.
  Hypothesis Htri : forall p q, dom p -> In (n, q) (map fst (Fv p)) -> q = p \/ after hi p q.
  Hypothesis Hbox : forall l, (forall q, In q l -> kdom q) -> exists B, incl l B /\ forall p q, In p B -> dom p -> In (n, q) (map fst (Fv p)) -> In q B.

  Definition low (f : nsym) (p : list Z) : Prop := In (n, p) (map fst f) /\ forall q, In (n, q) (map fst f) -> q = p \/ after hi p q.
  Definition step (f : nsym) (p : list Z) (k q : Z) (f' : nsym) : Prop :=
    forall alpha G, nev (sg f' (n, alpha)) G = nev (sg f (n, alpha)) G - q * nev (sg (Fv p) (n, alpha)) (fun a => G (mmul a (mvar 0 k))).
  Variable D : nsym -> Prop.
  Hypothesis HD : forall f p k, fwf n kdom f -> D f -> low f p -> nev (sg f (n, p)) (fun m => ind (meqb m (mvar 0 k))) <> 0 ->
    dom p /\ exists q, nev (sg f (n, p)) (fun m => ind (meqb m (mvar 0 k))) = q * ld p /\ forall f', fwf n kdom f' -> step f p k q f' -> D f'.

  Definition recon (v : nvec (list Z)) (alpha : list Z) (G : mono -> Z) : Z :=
    nlin v (fun mu b => nev (sg (Fv mu) (n, alpha)) (fun a => G (mmul a b))).
  Definition vok (v : nvec (list Z)) : Prop := nvwf v /\ forall mu, In mu (map fst v) -> dom mu /\ spure (lg v mu).

  Lemma vok_pure : forall v mu, vok v -> spure (lg v mu).
  Proof.
    intros v mu [W H]. destruct (in_dec (keq_dec zlist_eqb zlist_eqb_eq) mu (map fst v)) as [I|I]; [apply H; assumption|]. rewrite (nget_notin zlist_eqb zlist_eqb_eq) by assumption. apply spure_NI.
  Qed.

  Lemma scale_ok : forall mu y, dom mu -> nok y -> spure y -> fwf n kdom (nvscale smono_eqb (Fv mu) y) /\
    forall m G, nev (sg (nvscale smono_eqb (Fv mu) y) m) G = nev (sg (Fv mu) m) (fun a => nev y (fun b => G (mmul a b))).
  Proof.
    intros mu y Hd Oy Py. destruct (HF mu Hd) as [_ Wf]. destruct (nvscale_ok smono_eqb smono_eqb_eq (Fv mu) y (proj1 Wf) Oy) as [W E]. split; [|exact E].
    apply (fwf_combine n kdom (Fv mu) (Fv mu)); [assumption|assumption|assumption| |].
    - intros m G H. rewrite E. apply mul_right_pure; try assumption; [eapply fwf_ok; eassumption|eapply fwf_pure; eassumption].
    - intros m Z0 _ G. rewrite E, (Z0 _). cbn [nev]. lia.
  Qed.
  Lemma add_ok : forall f g, fwf n kdom f -> fwf n kdom g -> fwf n kdom (nvadd smono_eqb f g) /\ forall m G, nev (sg (nvadd smono_eqb f g) m) G = nev (sg f m) G + nev (sg g m) G.
  Proof.
    intros f g Wf Wg. destruct (nvadd_ok smono_eqb smono_eqb_eq f g (proj1 Wf) (proj1 Wg)) as [W E]. split; [|exact E].
    apply (fwf_combine n kdom f g); try assumption.
    - intros m G H. rewrite E, (fwf_pure n kdom f m Wf G H), (fwf_pure n kdom g m Wg G H). lia.
    - intros m Z0 Z1 G. rewrite E, (Z0 G), (Z1 G). cbn [nev]. lia.
  Qed.
  Lemma sub_ok : forall f g, fwf n kdom f -> fwf n kdom g -> fwf n kdom (nvsub smono_eqb f g) /\ forall m G, nev (sg (nvsub smono_eqb f g) m) G = nev (sg f m) G - nev (sg g m) G.
  Proof.
    intros f g Wf Wg. destruct (nvsub_ok smono_eqb smono_eqb_eq f g (proj1 Wf) (proj1 Wg)) as [W E]. split; [|exact E].
    apply (fwf_combine n kdom f g); try assumption.
    - intros m G H. rewrite E, (fwf_pure n kdom f m Wf G H), (fwf_pure n kdom g m Wg G H). lia.
    - intros m Z0 Z1 G. rewrite E, (Z0 G), (Z1 G). cbn [nev]. lia.
  Qed.

  (* the sum computed for the final check *)
  Definition accv (acc : option nsym) : nsym := match acc with Some s => s | None => [] end.
  Lemma fwf_nil : fwf n kdom [].
  Proof. split; [split; constructor|]. intros m []. Qed.
  Lemma combine_loop : forall v acc, (forall mu y, In (mu, y) v -> dom mu /\ nok y /\ spure y) -> fwf n kdom (accv acc) ->
    exists e, rfold (fun acc xy => do g <- F n (fst xy);
                let t := nvscale smono_eqb g (snd xy) in Ok (Some (match acc with None => t | Some s => nvadd smono_eqb s t end))) v acc = Ok e /\
      (v <> [] -> exists s, e = Some s) /\ fwf n kdom (accv e) /\
      forall alpha G, nev (sg (accv e) (n, alpha)) G = nev (sg (accv acc) (n, alpha)) G + recon v alpha G.
  Proof.
    induction v as [|[mu y] v IH]; intros acc H Wa.
    - exists acc. split; [reflexivity|]. split; [congruence|]. split; [assumption|]. intros. unfold recon, nlin. rewrite zs_nil. lia.
    - destruct (H mu y (or_introl eq_refl)) as (Hd & Oy & Py). cbn [rfold fst snd]. destruct (HF mu Hd) as [EF _]. rewrite EF. cbn [rbind]. cbv zeta.
      destruct (scale_ok mu y Hd Oy Py) as [Ws Es]. set (t := nvscale smono_eqb (Fv mu) y) in *.
      set (acc' := Some match acc with Some s => nvadd smono_eqb s t | None => t end).
      assert (A : fwf n kdom (accv acc') /\ forall m G, nev (sg (accv acc') m) G = nev (sg (accv acc) m) G + nev (sg t m) G).
      { unfold acc'. destruct acc as [s|]; cbn [accv] in *; [apply add_ok; assumption|]. split; [assumption|]. intros. rewrite nget_nil. cbn [nev]. lia. }
      destruct A as [A1 A2]. destruct (IH acc') as (e & E1 & E2 & E3 & E4); [intros; apply H; right; assumption|assumption|]. exists e. split; [exact E1|]. split.
      { intros _. destruct v as [|x v']; [|apply E2; discriminate]. cbn in E1. injection E1 as <-. unfold acc'. eexists. reflexivity. }
      split; [assumption|]. intros alpha G. rewrite E4, A2, Es. unfold recon, nlin. rewrite zs_cons. cbn [fst snd]. rewrite (nev_swap y). lia.
  Qed.

  Lemma recon_add : forall v w u alpha G, NoDup (map fst u) -> NoDup (map fst v) -> NoDup (map fst w) ->
    (forall k G, nev (lg u k) G = nev (lg v k) G + nev (lg w k) G) -> recon u alpha G = recon v alpha G + recon w alpha G.
  Proof. intros v w u alpha G Nu Nv Nw E. unfold recon. apply (nlin_plus zlist_eqb zlist_eqb_eq); assumption. Qed.

  Definition outcome (f : nsym) : Prop :=
    exists v M, vok v /\ (forall alpha G, recon v alpha G = nev (sg f (n, alpha)) G) /\ forall fuel, (M <= fuel)%nat -> expansion F (term hi) fuel f = Ok v.

  Lemma expansion_step : forall f p, fwf n kdom f -> D f -> f <> [] -> low f p ->
    (forall f', fwf n kdom f' -> D f' -> (forall q, In (n, q) (map fst f') -> q = p \/ after hi p q) ->
       (forall q, In (n, q) (map fst f') -> In (n, q) (map fst f) \/ In (n, q) (map fst (Fv p))) ->
       (length (nsupp (sg f' (n, p))) < length (nsupp (sg f (n, p))))%nat -> dom p -> outcome f') -> outcome f.
  Proof.
    intros f p Wf Df Ne Lp IH.
    destruct (get_term_ok hi n f (proj1 Wf) Ne (fun m Hm => proj1 (proj2 Wf m Hm))) as (p0 & Et & P1 & P2).
    assert (E0 : p0 = p).
    { destruct Lp as [L1 L2]. destruct (P2 p L1) as [X|X]; [congruence|]. destruct (L2 p0 P1) as [Y|Y]; [congruence|]. exfalso. eapply after_irrefl, after_trans; eassumption. }
    subst p0. assert (Z0 : nzero (sg f (n, p)) = false) by (apply (nget_nonzero smono_eqb smono_eqb_eq); [apply Wf|apply Lp]).
    destruct (leading_ok (sg f (n, p))) as (c & k & z & E1 & Hc & Hz & Ez); [eapply fwf_ok; eassumption|assumption|eapply fwf_pure; eassumption|].
    assert (Hz' := Hz). rewrite Ez in Hz'. destruct (HD f p k Wf Df Lp Hz') as (Hd & q & Eq & HD'). rewrite <- Ez in Eq.
    destruct (Hlead p Hd) as [El Hl]. destruct (HF p Hd) as [EF Wp].
    assert (E2 : divisor (sg (Fv p) (n, p)) = Ok (ld p)) by (apply divisor_ok; [eapply fwf_ok; eassumption|assumption]).
    destruct (quotient_ok c z (ld p) q k Hc Hz Hl Eq) as (r & E3 & Wr & Er).
    assert (Hq : q <> 0) by (intros ->; lia).
    assert (Or : nok (NP r)) by exact Wr. assert (Pr : spure (NP r)). { intros G H. cbn [nev]. rewrite Er, H. lia. }
    destruct (scale_ok p (NP r) Hd Or Pr) as [Ws Es].
    destruct (sub_ok f (nvscale smono_eqb (Fv p) (NP r)) Wf Ws) as [W' E'].
    set (f' := nvsub smono_eqb f (nvscale smono_eqb (Fv p) (NP r))) in *.
    assert (St : step f p k q f').
    { intros alpha G. rewrite E', Es. f_equal. rewrite <- nev_scale. apply nev_ext; [eapply fwf_ok; eassumption|]. intros m _. cbn [nev]. apply Er. }
    assert (Df' : D f') by (apply HD'; assumption).
    assert (Kk : forall m, In m (map fst f') -> In m (map fst f) \/ In m (map fst (Fv p))).
    { intros m Hm. destruct (in_dec (keq_dec smono_eqb smono_eqb_eq) m (map fst f)) as [I|I]; [left; assumption|]. destruct (in_dec (keq_dec smono_eqb smono_eqb_eq) m (map fst (Fv p))) as [J|J]; [right; assumption|]. exfalso.
      assert (Y0 : nzero (sg f' m) = false) by (apply (nget_nonzero smono_eqb smono_eqb_eq); [apply W'|assumption]).
      assert (Y1 : nzero (sg f' m) = true). { apply nzero_spec; [eapply fwf_ok; eassumption|]. intro G. rewrite E', Es. rewrite (nget_notin smono_eqb smono_eqb_eq f), (nget_notin smono_eqb smono_eqb_eq (Fv p)) by assumption. cbn [nev]. lia. } congruence. }
    destruct (IH f') as (w & N & Vv & Rv & Xv); [assumption|assumption| | | |assumption|].
    { intros a Ha. destruct (Kk _ Ha) as [I|I]; [apply Lp; assumption|apply Htri; assumption]. }
    { intros a Ha. apply Kk. assumption. }
    { apply (nsupp_less (sg f (n, p)) (sg f' (n, p)) (mvar 0 k) z); [eapply fwf_ok; eassumption|eapply fwf_ok; eassumption|assumption|assumption|].
      intro G. rewrite St. f_equal. rewrite (El _). cbn [nev]. rewrite mmul_nil_l by apply mvar_wf. rewrite Eq. lia. }
    assert (Zr : nzero (NP r) = false).
    { destruct (nzero (NP r)) eqn:Zr; [|reflexivity]. exfalso. apply (proj1 (nzero_spec (NP r) Or)) with (G := fun _ => 1) in Zr. cbn [nev] in Zr. rewrite Er in Zr. lia. }
    assert (Em : vmake nzero [(p, NP r)] = [(p, NP r)]) by (unfold vmake; cbn [filter snd]; rewrite Zr; reflexivity).
    assert (W1 : nvwf [(p, NP r)]). { split; [repeat constructor; intros []|]. constructor; [|constructor]. split; assumption. }
    destruct (nvadd_ok zlist_eqb zlist_eqb_eq w [(p, NP r)] (proj1 Vv) W1) as [Wa Ea]. set (v := nvadd zlist_eqb w [(p, NP r)]) in *.
    assert (Gp : forall mu, lg [(p, NP r)] mu = if zlist_eqb p mu then NP r else NI 0) by (intro mu; rewrite nget_cons, nget_nil; reflexivity).
    assert (Vok : vok v).
    { split; [assumption|]. intros mu Hmu. split.
      - destruct (in_dec (keq_dec zlist_eqb zlist_eqb_eq) mu (map fst w)) as [I|I]; [apply Vv; assumption|]. destruct (zlist_eqb p mu) eqn:Ep; [apply zlist_eqb_eq in Ep; subst mu; assumption|]. exfalso.
        assert (Y0 : nzero (lg v mu) = false) by (apply (nget_nonzero zlist_eqb zlist_eqb_eq); assumption).
        assert (Y1 : nzero (lg v mu) = true). { apply nzero_spec; [apply nget_ok, nvwf_oks; assumption|]. intro G. rewrite Ea, Gp, Ep. rewrite (nget_notin zlist_eqb zlist_eqb_eq w) by assumption. cbn [nev]. lia. } congruence.
      - intros G H. rewrite Ea, Gp. rewrite (vok_pure w mu Vv G H). destruct (zlist_eqb p mu); [rewrite (Pr G H); lia|cbn [nev]; lia]. }
    assert (Rec : forall alpha G, recon v alpha G = nev (sg f (n, alpha)) G).
    { intros alpha G. rewrite (recon_add w [(p, NP r)] v); [|apply Wa|apply Vv|apply W1|exact Ea]. rewrite Rv. unfold recon, nlin. rewrite zs_cons, zs_nil. cbn [fst snd nev]. rewrite Er, St. lia. }
    destruct (combine_loop v None) as (e & C1 & C2 & C3 & C4).
    { intros mu y Hin. assert (I : In mu (map fst v)) by (change mu with (fst (mu, y)); apply in_map; assumption). destruct Vok as [Wv Vk]. destruct (Vk mu I) as [K1 K2]. rewrite (nget_In zlist_eqb zlist_eqb_eq v mu y (proj1 Wv) Hin) in K2. split; [assumption|]. split; [|assumption]. rewrite <- (nget_In zlist_eqb zlist_eqb_eq v mu y (proj1 Wv) Hin). apply nget_ok, nvwf_oks; assumption. }
    { apply fwf_nil. }
    assert (Nv : v <> []).
    { intro X. assert (Y1 : nzero (sg f (n, p)) = true); [|congruence]. apply nzero_spec; [eapply fwf_ok; eassumption|]. intro G. rewrite <- Rec, X. reflexivity. }
    destruct (C2 Nv) as (s & ->). cbn [accv] in C3, C4.
    assert (Q : nveq smono_eqb s f = true).
    { apply (nveq_ok smono_eqb smono_eqb_eq); [apply C3|apply Wf|]. intros [n' alpha] G. destruct (Nat.eq_dec n' n) as [->|Nn].
      - rewrite C4, Rec. rewrite nget_nil. cbn [nev]. lia.
      - rewrite (fwf_other n kdom s), (fwf_other n kdom f) by assumption. reflexivity. }
    exists v, (S N). split; [assumption|]. split; [assumption|]. intros fuel Hfuel. destruct fuel as [|fuel]; [lia|]. cbn [expansion].
    assert (Ef' : nvsub smono_eqb f (nvscale smono_eqb (Fv p) (NP r)) = f') by reflexivity. clearbody f'.
    destruct f as [|x0 f0] eqn:Ef; [congruence|]. rewrite <- Ef in *. rewrite Et. cbn [rbind fst snd]. rewrite EF. cbn [rbind]. rewrite E1. cbn [rbind fst snd]. rewrite E2. cbn [rbind]. rewrite E3. cbn [rbind].
    rewrite Ef', (Xv fuel ltac:(lia)). cbn [rbind]. cbv zeta. rewrite Em. change (nvadd zlist_eqb w [(p, NP r)]) with v.
    assert (C1' : combine_terms F n v = Ok (Some s)) by exact C1. rewrite C1', Q. reflexivity.
  Qed.

  Lemma outcome_nil : outcome [].
  Proof.
    exists [], 1%nat. split; [split; [split; constructor|intros mu []]|]. split; [reflexivity|]. intros [|fuel] H; [lia|reflexivity].
  Qed.

  Lemma expansion_main : forall f, fwf n kdom f -> D f -> outcome f.
  Proof.
    intros f Wf Df. destruct (Hbox (map snd (map fst f))) as (B & IB & CB).
    { intros q Hq. apply in_map_iff in Hq. destruct Hq as (m & <- & Hm). apply (proj2 Wf m Hm). }
    assert (Hk : forall q, In (n, q) (map fst f) -> In q B). { intros q Hq. apply IB. change q with (snd (n, q)). apply in_map. assumption. }
    clear IB.
    set (cnt := fun p => length (filter (fun q => zlist_eqb p q || afterb hi p q) B)).
    assert (Main : forall c t f p, fwf n kdom f -> D f -> (forall q, In (n, q) (map fst f) -> In q B) -> low f p -> (cnt p <= c)%nat -> (length (nsupp (sg f (n, p))) <= t)%nat -> outcome f).
    { clear f Wf Df Hk. induction c as [c IHc] using (well_founded_induction lt_wf). induction t as [t IHt] using (well_founded_induction lt_wf). intros f p Wf Df Hk Lp Hc Ht.
      assert (Ne : f <> []) by (intros ->; destruct Lp as [[] _]).
      assert (All : forall f', fwf n kdom f' -> D f' -> (forall q, In (n, q) (map fst f') -> q = p \/ after hi p q) ->
        (forall q, In (n, q) (map fst f') -> In (n, q) (map fst f) \/ In (n, q) (map fst (Fv p))) ->
        (length (nsupp (sg f' (n, p))) < length (nsupp (sg f (n, p))))%nat -> dom p -> outcome f').
      { intros f' W' D' Ha Hu Hs Hd. destruct f' as [|x f''] eqn:Ef; [apply outcome_nil|]. rewrite <- Ef in *. assert (Ne' : f' <> []) by congruence. clear Ef x f''.
        destruct (get_term_ok hi n f' (proj1 W') Ne' (fun m Hm => proj1 (proj2 W' m Hm))) as (p' & _ & P1 & P2).
        assert (Hk' : forall q, In (n, q) (map fst f') -> In q B).
        { intros q Hq. destruct (Hu q Hq) as [I|I]; [apply Hk; assumption|]. eapply CB; [apply Hk, Lp|assumption|exact I]. }
        destruct (Ha p' P1) as [->|Hap].
        - apply (IHt (length (nsupp (sg f' (n, p)))) ltac:(lia) f' p); try assumption; [split; assumption|lia].
        - assert (Cl : (cnt p' < cnt p)%nat).
          { unfold cnt. apply (count_less _ _ _ B p).
            - intros y Hy. apply orb_true_iff in Hy. apply orb_true_iff. right. apply afterb_spec. destruct Hy as [Hy|Hy]; [apply zlist_eqb_eq in Hy; subst; assumption|]. apply afterb_spec in Hy. eapply after_trans; eassumption.
            - apply Hk, Lp.
            - apply orb_true_iff. left. apply zlist_eqb_eq. reflexivity.
            - apply orb_false_iff. split.
              + destruct (zlist_eqb p' p) eqn:E; [|reflexivity]. apply zlist_eqb_eq in E. subst. exfalso. eapply after_irrefl; eassumption.
              + destruct (afterb hi p' p) eqn:E; [|reflexivity]. apply afterb_spec in E. exfalso. eapply after_irrefl, after_trans; eassumption. }
          apply (IHc (cnt p') ltac:(lia) (length (nsupp (sg f' (n, p')))) f' p'); try assumption; [split; assumption|lia|lia]. }
      apply (expansion_step f p); assumption. }
    destruct f as [|x f0] eqn:Ef; [apply outcome_nil|]. rewrite <- Ef in *. assert (Ne : f <> []) by congruence. clear Ef x f0.
    destruct (get_term_ok hi n f (proj1 Wf) Ne (fun m Hm => proj1 (proj2 Wf m Hm))) as (p & _ & P1 & P2).
    apply (Main (cnt p) (length (nsupp (sg f (n, p)))) f p); try assumption; [split; assumption|lia|lia].
  Qed.
End Main.
