(* Facts about coefficients that are ints or Polynomials and about vectors of them *)
From Coq Require Import List ZArith Lia Bool Permutation.
From Verif Require Import PyBase FinSum M_Partitions M_Vectors L_Vectors M_Polynomials L_Polynomials L_PolySubst M_Semistandard M_Symmetric M_Expansion L_Count L_CountCache L_Destand2 L_SymPoly.
Import ListNotations.
Local Open Scope Z_scope.

Definition nev (x : num) (G : mono -> Z) : Z := match x with NI z => z * G [] | NP p => ev p G end.
Definition nok (x : num) : Prop := match x with NI _ => True | NP p => pwf p end.

Lemma ev_pint : forall z G, ev (pint z) G = z * G [].
Proof.
  intros z G. unfold pint. rewrite ev_pmul by (repeat constructor; intros []). change (pmonomial 0 0) with [(([] : mono), 1)]. unfold pconst. rewrite ev_single, ev_cons.
  change (ev [] _) with 0. change (mmul [] []) with ([] : mono). lia.
Qed.
Lemma pint_wf : forall z, pwf (pint z).
Proof. intro z. apply pmul_wf. Qed.

Lemma ev_pneg : forall p G, NoDup (map fst p) -> ev (pneg p) G = - ev p (fun a => G (mmul a [])).
Proof.
  intros p G N. unfold pneg, pconst. rewrite ev_pmul by (try assumption; repeat constructor; intros []). replace (ev p (fun a => ev [([], -1)] (fun b => G (mmul a b)))) with (ev p (fun a => (-1) * G (mmul a []))).
  - unfold ev. rewrite (lin_F_scale 0 1 Z.add Z.mul Z.sub Z.opp InitialRing.Zth). lia.
  - apply ev_ext. intro a. rewrite ev_cons. change (ev [] _) with 0. lia.
Qed.
Lemma ev_wf_ext : forall p G H, pwf p -> (forall m, mwf m -> G m = H m) -> ev p G = ev p H.
Proof.
  intros p G H (N & F & _) E. unfold ev. apply (lin_F_ext 0 Z.add Z.mul). intros k Hk. apply E. rewrite Forall_forall in F. apply in_map_iff in Hk. destruct Hk as (x & <- & Hx). apply F. assumption.
Qed.
Lemma ev_pneg' : forall p G, pwf p -> ev (pneg p) G = - ev p G.
Proof. intros p G W. rewrite ev_pneg by apply W. f_equal. apply ev_wf_ext; [assumption|]. intros m Hm. rewrite mmul_nil_r by assumption. reflexivity. Qed.

Lemma nok_add : forall x y, nok x -> nok y -> nok (nadd x y).
Proof. intros [a|p] [b|q] Hx Hy; cbn [nadd nok] in *; try exact I; apply padd_wf; try assumption; apply pint_wf. Qed.
Lemma pneg_wf : forall p, pwf (pneg p).
Proof. intro p. apply pmul_wf. Qed.
Lemma nok_sub : forall x y, nok x -> nok y -> nok (nsub x y).
Proof. intros [a|p] [b|q] Hx Hy; cbn [nsub nok] in *; try exact I; [apply pneg_wf|apply padd_wf; [assumption|apply pint_wf]|apply psub_wf; assumption]. Qed.
Lemma nok_mul : forall x y, nok (nmul x y).
Proof. intros [a|p] [b|q]; cbn [nmul nok]; try exact I; apply pmul_wf. Qed.

Lemma nev_add : forall x y G, nok x -> nok y -> nev (nadd x y) G = nev x G + nev y G.
Proof.
  intros [a|p] [b|q] G Hx Hy; cbn [nadd nok nev] in *; [lia| | |]; rewrite ev_padd by (try assumption; apply pint_wf); rewrite ?ev_pint; lia.
Qed.
Lemma nev_sub : forall x y G, nok x -> nok y -> nev (nsub x y) G = nev x G - nev y G.
Proof.
  intros [a|p] [b|q] G Hx Hy; cbn [nsub nok nev] in *; [lia| | |].
  - rewrite ev_pneg' by (apply padd_wf; [assumption|apply pint_wf]). rewrite ev_padd, ev_pint by (try assumption; apply pint_wf). lia.
  - rewrite ev_padd, ev_pint by (try assumption; apply pint_wf). lia.
  - unfold psub. rewrite ev_padd, ev_pneg' by (try assumption; apply pneg_wf). lia.
Qed.
Lemma ev_scale_l : forall p c G, ev p (fun a => c * G a) = c * ev p G.
Proof. intros. unfold ev. rewrite (lin_F_scale 0 1 Z.add Z.mul Z.sub Z.opp InitialRing.Zth). reflexivity. Qed.
Lemma ev_const : forall c G, ev (pconst c) G = c * G [].
Proof. intros. unfold pconst. rewrite ev_cons. change (ev [] _) with 0. lia. Qed.
Lemma pconst_nodup : forall c, NoDup (map fst (pconst c)).
Proof. intros. repeat constructor. intros []. Qed.
Lemma nev_mul : forall x y G, nok x -> nok y -> nev (nmul x y) G = nev x (fun a => nev y (fun b => G (mmul a b))).
Proof.
  intros [a|p] [b|q] G Hx Hy; cbn [nmul nok nev] in *.
  - change (mmul [] []) with ([] : mono). lia.
  - rewrite ev_pmul by (try apply pconst_nodup; apply Hy). rewrite <- ev_scale_l. apply ev_ext. intro m. rewrite ev_const, mmul_comm. lia.
  - rewrite ev_pmul by (try apply pconst_nodup; apply Hx). apply ev_ext. intro m. rewrite ev_const. lia.
  - apply ev_pmul; [apply Hx|apply Hy].
Qed.
Lemma nev_ext : forall x G H, nok x -> (forall m, mwf m -> G m = H m) -> nev x G = nev x H.
Proof. intros [z|p] G H Hx E; cbn [nev nok] in *; [rewrite E; [reflexivity|split; constructor]|]. apply ev_wf_ext; assumption. Qed.
Lemma nev_zero : forall x, nev x (fun _ => 0) = 0.
Proof. intros [z|p]; cbn [nev]; [lia|]. rewrite (ev_ext p _ (fun m => 0 * 0)) by reflexivity. rewrite ev_scale_l. lia. Qed.
Lemma nev_plus : forall x G H, nev x (fun m => G m + H m) = nev x G + nev x H.
Proof. intros [z|p] G H; cbn [nev]; [lia|]. unfold ev. apply (lin_F_plus 0 1 Z.add Z.mul Z.sub Z.opp InitialRing.Zth). Qed.
Lemma nev_scale : forall x c G, nev x (fun m => c * G m) = c * nev x G.
Proof. intros [z|p] c G; cbn [nev]; [lia|]. apply ev_scale_l. Qed.
Lemma nev_swap : forall x y (G : mono -> mono -> Z), nev x (fun a => nev y (G a)) = nev y (fun b => nev x (fun a => G a b)).
Proof.
  intros [z|p] y G; cbn [nev]; [symmetry; apply nev_scale|]. induction p as [|[a c] p IH].
  - change (ev [] _) with 0. symmetry. apply (nev_zero y).
  - rewrite ev_cons, IH. rewrite <- nev_scale, <- nev_plus. destruct y as [w|q]; cbn [nev]; [rewrite ev_cons; reflexivity|]. apply ev_ext. intro b. rewrite ev_cons. reflexivity.
Qed.

(* equality of coefficients *)
Definition neqv (x y : num) : Prop := forall G, nev x G = nev y G.
Lemma nzero_spec : forall x, nok x -> (nzero x = true <-> forall G, nev x G = 0).
Proof.
  intros [z|p] H; cbn [nzero nev nok] in *.
  - rewrite Z.eqb_eq. split; [intros -> G; lia|]. intro E. specialize (E (fun _ => 1)). lia.
  - rewrite pis_zero_spec by assumption. split.
    + intros E G. rewrite (ev_peq p []); [reflexivity|apply H|constructor|]. intro m. rewrite E. reflexivity.
    + intros E m. rewrite ev_get by apply H. apply E.
Qed.
Lemma nzero_nsub : forall x y, nok x -> nok y -> (nzero (nsub x y) = true <-> neqv x y).
Proof.
  intros x y Hx Hy. rewrite nzero_spec by (apply nok_sub; assumption). split; intros E G; specialize (E G); rewrite nev_sub in * by assumption; lia.
Qed.
Lemma nzero_false : forall x, nok x -> nzero x = false -> exists m, nev x (fun k => ind (meqb k m)) <> 0.
Proof.
  intros [z|p] H E; cbn [nzero nev nok] in *.
  - apply Z.eqb_neq in E. exists []. cbn. lia.
  - destruct p as [|[m c] p]; [discriminate|]. exists m. rewrite <- ev_get by apply H. destruct H as (N & _ & F). inversion F as [|? ? F1 F2]; subst.
    unfold pget, dget0. cbn [dget]. rewrite meqb_refl. exact F1.
Qed.

Section NVecFacts.
  Context {K : Type} (keqb : K -> K -> bool).
  Hypothesis keqb_spec : forall a b, keqb a b = true <-> a = b.
  Local Notation nget := (nget keqb).
  Lemma keqb_refl : forall k, keqb k k = true.
  Proof. intro k. apply keqb_spec. reflexivity. Qed.

  Definition oks (v : nvec K) : Prop := Forall (fun kx => nok (snd kx)) v.
  Definition nvwf (v : nvec K) : Prop := NoDup (map fst v) /\ Forall (fun kx => nok (snd kx) /\ nzero (snd kx) = false) v.
  Lemma nvwf_oks : forall v, nvwf v -> oks v.
  Proof. intros v [_ F]. unfold oks. eapply Forall_impl; [|exact F]. intros x [H _]. exact H. Qed.
  Lemma nget_nil : forall k, nget [] k = NI 0.
  Proof. reflexivity. Qed.
  Lemma nget_cons : forall a x v k, nget ((a, x) :: v) k = if keqb a k then x else nget v k.
  Proof. intros. unfold M_Expansion.nget, vget, dget0. cbn [dget]. destruct (keqb a k); reflexivity. Qed.
  Lemma nget_ok : forall v k, oks v -> nok (nget v k).
  Proof. induction v as [|[a x] v IH]; intros k H; [exact I|]. inversion H; subst. rewrite nget_cons. destruct (keqb a k); [assumption|]. apply IH. assumption. Qed.
  Lemma nget_notin : forall (v : nvec K) k, ~ In k (map fst v) -> nget v k = NI 0.
  Proof. induction v as [|[a x] v IH]; intros k H; [reflexivity|]. rewrite nget_cons. destruct (keqb a k) eqn:E; [apply keqb_spec in E; exfalso; apply H; left; assumption|]. apply IH. intro X. apply H. right. assumption. Qed.
  Lemma nget_In : forall v k x, NoDup (map fst v) -> In (k, x) v -> nget v k = x.
  Proof.
    induction v as [|[a y] v IH]; intros k x N H; [destruct H|]. cbn [map] in N. inversion N as [|? ? N1 N2]; subst. rewrite nget_cons. destruct H as [E|H].
    - injection E as -> ->. rewrite keqb_refl. reflexivity.
    - destruct (keqb a k) eqn:E; [|apply IH; assumption]. apply keqb_spec in E. subst. exfalso. apply N1. change k with (fst (k, x)). apply in_map. assumption.
  Qed.
  Lemma nget_nonzero : forall v k, nvwf v -> (In k (map fst v) <-> nzero (nget v k) = false).
  Proof.
    intros v k [N F]. split.
    - intro H. apply in_map_iff in H. destruct H as ([a x] & <- & H). cbn [fst]. rewrite (nget_In v a x N H). rewrite Forall_forall in F. apply (F _ H).
    - intro H. destruct (in_dec (fun a b => match Bool.bool_dec (keqb a b) true with left e => left (proj1 (keqb_spec a b) e) | right e => right (fun q => e (proj2 (keqb_spec a b) q)) end) k (map fst v)) as [C|C]; [assumption|].
      rewrite nget_notin in H by assumption. discriminate.
  Qed.

  Lemma vmake_NoDup : forall d : nvec K, NoDup (map fst d) -> NoDup (map fst (vmake nzero d)).
  Proof.
    induction d as [|[k x] d IH]; intro N; [constructor|]. cbn [map] in N. inversion N as [|? ? N1 N2]; subst. unfold vmake. cbn [filter snd]. destruct (nzero x); cbn [negb map fst]; [apply IH; assumption|].
    constructor; [|apply IH; assumption]. intro H. apply N1. apply in_map_iff in H. destruct H as (y & <- & H). apply filter_In in H. apply in_map. apply H.
  Qed.
  Lemma vmake_nvwf : forall d : nvec K, NoDup (map fst d) -> oks d -> nvwf (vmake nzero d).
  Proof.
    intros d N O. split; [apply vmake_NoDup; assumption|]. apply Forall_forall. intros x Hx. apply filter_In in Hx. destruct Hx as [Hx Z]. unfold oks in O. rewrite Forall_forall in O. split; [apply O; assumption|]. apply negb_true_iff. assumption.
  Qed.
  Lemma vmake_get : forall (d : nvec K) k, NoDup (map fst d) -> oks d -> neqv (nget (vmake nzero d) k) (nget d k).
  Proof.
    induction d as [|[a x] d IH]; intros k N O G; [reflexivity|]. cbn [map] in N. inversion N as [|? ? N1 N2]; subst. inversion O as [|? ? O1 O2]; subst. cbn [snd] in O1. unfold vmake. cbn [filter snd]. rewrite nget_cons. destruct (nzero x) eqn:E; cbn [negb].
    - destruct (keqb a k) eqn:Ek; [|apply IH; assumption]. apply keqb_spec in Ek. subst. rewrite (proj1 (nzero_spec x O1) E G). etransitivity; [exact (IH k N2 O2 G)|]. rewrite nget_notin by assumption. cbn. lia.
    - rewrite nget_cons. destruct (keqb a k); [reflexivity|]. apply IH; assumption.
  Qed.
  Lemma nget_map : forall (f : K -> num) l k, nget (map (fun k => (k, f k)) l) k = if existsb (fun a => keqb a k) l then f k else NI 0.
  Proof.
    induction l as [|a l IH]; intro k; [reflexivity|]. cbn [map existsb]. rewrite nget_cons. destruct (keqb a k) eqn:E; cbn [orb]; [apply keqb_spec in E; subst; reflexivity|]. apply IH.
  Qed.
  Lemma existsb_keq : forall l k, existsb (fun a => keqb a k) l = true <-> In k l.
  Proof.
    intros l k. rewrite existsb_exists. split; [intros (a & Ha & E); apply keqb_spec in E; subst; assumption|]. intro H. exists k. split; [assumption|apply keqb_refl].
  Qed.
  Lemma map_fst_pair : forall (f : K -> num) l, map fst (map (fun k => (k, f k)) l) = l.
  Proof. intros f l. rewrite map_map. apply map_id. Qed.

  Lemma binop_get : forall (f : K -> num) (v w : nvec K) k, NoDup (map fst v) -> NoDup (map fst w) -> (forall k, nok (f k)) ->
    (~ In k (map fst v) -> ~ In k (map fst w) -> neqv (f k) (NI 0)) ->
    let r := vmake nzero (map (fun k => (k, f k)) (vkeys_union keqb v w)) in nvwf r /\ neqv (nget r k) (f k).
  Proof.
    intros f v w k Nv Nw O Hn r.
    assert (Nu : NoDup (vkeys_union keqb v w)) by (apply vkeys_union_NoDup; assumption).
    assert (X : NoDup (map fst (map (fun k => (k, f k)) (vkeys_union keqb v w)))) by (rewrite map_fst_pair; assumption).
    assert (Y : oks (map (fun k => (k, f k)) (vkeys_union keqb v w))). { apply Forall_forall. intros x Hx. apply in_map_iff in Hx. destruct Hx as (a & <- & _). apply O. }
    split; [apply vmake_nvwf; assumption|]. intro G. unfold r. rewrite (vmake_get _ k X Y G), nget_map.
    destruct (existsb (fun a => keqb a k) (vkeys_union keqb v w)) eqn:E; [reflexivity|]. symmetry. apply Hn; intro H.
    - assert (C : existsb (fun a => keqb a k) (vkeys_union keqb v w) = true) by (apply existsb_keq; apply (vkeys_union_In keqb keqb_spec); left; assumption). congruence.
    - assert (C : existsb (fun a => keqb a k) (vkeys_union keqb v w) = true) by (apply existsb_keq; apply (vkeys_union_In keqb keqb_spec); right; assumption). congruence.
  Qed.

  Lemma nvadd_ok : forall v w, nvwf v -> nvwf w -> nvwf (nvadd keqb v w) /\ forall k G, nev (nget (nvadd keqb v w) k) G = nev (nget v k) G + nev (nget w k) G.
  Proof.
    intros v w Wv Ww. unfold nvadd, vadd. destruct w as [|b w']; [split; [assumption|]; intros k G; rewrite nget_nil; cbn [nev]; lia|]. set (w := b :: w') in *.
    assert (O : forall k, nok (nadd (nget v k) (nget w k))) by (intro k; apply nok_add; apply nget_ok, nvwf_oks; assumption).
    assert (H : forall k, let r := vmake nzero (map (fun k => (k, nadd (nget v k) (nget w k))) (vkeys_union keqb v w)) in nvwf r /\ neqv (nget r k) (nadd (nget v k) (nget w k))).
    { intro k. apply (binop_get (fun k => nadd (nget v k) (nget w k)) v w k); [apply Wv|apply Ww|assumption|]. intros H1 H2 G. rewrite nget_notin, (nget_notin w) by assumption. reflexivity. }
    split; [destruct w' as [|x w'']; destruct b as [b0 b1]; apply (H b0)|]. intros k G. destruct (H k) as [_ E]. unfold M_Expansion.nget in *. rewrite (E G). apply nev_add; apply (nget_ok _ k), nvwf_oks; assumption.
  Qed.
  Lemma nvsub_ok : forall v w, nvwf v -> nvwf w -> nvwf (nvsub keqb v w) /\ forall k G, nev (nget (nvsub keqb v w) k) G = nev (nget v k) G - nev (nget w k) G.
  Proof.
    intros v w Wv Ww. unfold nvsub, vsub. destruct w as [|b w']; [split; [assumption|]; intros k G; rewrite nget_nil; cbn [nev]; lia|]. set (w := b :: w') in *.
    assert (O : forall k, nok (nsub (nget v k) (nget w k))) by (intro k; apply nok_sub; apply nget_ok, nvwf_oks; assumption).
    assert (H : forall k, let r := vmake nzero (map (fun k => (k, nsub (nget v k) (nget w k))) (vkeys_union keqb v w)) in nvwf r /\ neqv (nget r k) (nsub (nget v k) (nget w k))).
    { intro k. apply (binop_get (fun k => nsub (nget v k) (nget w k)) v w k); [apply Wv|apply Ww|assumption|]. intros H1 H2 G. rewrite nget_notin, (nget_notin w) by assumption. reflexivity. }
    split; [destruct b as [b0 b1]; apply (H b0)|]. intros k G. destruct (H k) as [_ E]. unfold M_Expansion.nget in *. rewrite (E G). apply nev_sub; apply (nget_ok _ k), nvwf_oks; assumption.
  Qed.
  Lemma nvscale_ok : forall v c, nvwf v -> nok c -> nvwf (nvscale keqb v c) /\ forall k G, nev (nget (nvscale keqb v c) k) G = nev (nget v k) (fun a => nev c (fun b => G (mmul a b))).
  Proof.
    intros v c Wv Oc. unfold nvscale, vscale.
    assert (X : NoDup (map fst (map (fun k => (k, nmul (vget keqb (NI 0) v k) c)) (map fst v)))) by (rewrite (map_fst_pair (fun k => nmul (vget keqb (NI 0) v k) c)); apply Wv).
    assert (Y : oks (map (fun k => (k, nmul (vget keqb (NI 0) v k) c)) (map fst v))). { apply Forall_forall. intros x Hx. apply in_map_iff in Hx. destruct Hx as (a & <- & _). apply nok_mul. }
    split; [apply vmake_nvwf; assumption|]. intros k G. rewrite (vmake_get _ k X Y G), (nget_map (fun k => nmul (vget keqb (NI 0) v k) c)).
    destruct (existsb (fun a => keqb a k) (map fst v)) eqn:E.
    - rewrite nev_mul; [reflexivity|apply (nget_ok v k), nvwf_oks; assumption|assumption].
    - rewrite (nget_notin v); [reflexivity|]. intro H. apply existsb_keq in H. congruence.
  Qed.
  Lemma nveq_ok : forall v w, nvwf v -> nvwf w -> (nveq keqb v w = true <-> forall k, neqv (nget v k) (nget w k)).
  Proof.
    intros v w Wv Ww. unfold nveq, veq. change (vsub keqb (NI 0) nsub nzero v w) with (nvsub keqb v w). destruct (nvsub_ok v w Wv Ww) as [W G]. split.
    - intro E. apply Nat.eqb_eq, length_zero_iff_nil in E. rewrite E in *. intros k F. specialize (G k F). rewrite nget_nil in G. cbn [nev] in G. lia.
    - intro H. destruct (nvsub keqb v w) as [|[k x] r] eqn:E; [reflexivity|]. exfalso.
      assert (Z0 : nzero (nget ((k, x) :: r) k) = false) by (apply nget_nonzero; [assumption|left; reflexivity]).
      assert (Z1 : nzero (nget ((k, x) :: r) k) = true). { apply nzero_spec; [apply nget_ok, nvwf_oks; assumption|]. intro F. rewrite G. specialize (H k F). lia. }
      congruence.
  Qed.
  Lemma nvec_empty : forall v, nvwf v -> (forall k, neqv (nget v k) (NI 0)) -> v = [].
  Proof.
    intros [|[k x] v] W H; [reflexivity|]. exfalso. assert (Z0 : nzero (nget ((k, x) :: v) k) = false) by (apply nget_nonzero; [assumption|left; reflexivity]).
    assert (Z1 : nzero (nget ((k, x) :: v) k) = true). { apply nzero_spec; [apply nget_ok, nvwf_oks; assumption|]. intro F. rewrite (H k F). cbn. lia. } congruence.
  Qed.

  (* linear functionals of a vector *)
  Definition nlin (v : nvec K) (H : K -> mono -> Z) : Z := zs (fun kx => nev (snd kx) (H (fst kx))) v.
  Lemma keq_dec : forall a b : K, {a = b} + {a <> b}.
  Proof. intros a b. destruct (keqb a b) eqn:E; [left; apply keqb_spec; assumption|right; intro X; apply keqb_spec in X; congruence]. Qed.
  Lemma nlin_support : forall v H l, NoDup (map fst v) -> NoDup l -> incl (map fst v) l -> nlin v H = zs (fun k => nev (nget v k) (H k)) l.
  Proof.
    intros v H l Nv Nl I.
    assert (A : nlin v H = zs (fun k => nev (nget v k) (H k)) (map fst v)).
    { rewrite zs_map. apply zs_ext. intros [k x] Hx. cbn [fst snd]. rewrite (nget_In v k x Nv Hx). reflexivity. }
    rewrite A. clear A.
    assert (B : zs (fun k => nev (nget v k) (H k)) l = zs (fun k => nev (nget v k) (H k)) (filter (fun k => existsb (fun a => keqb a k) (map fst v)) l)).
    { clear Nl I. induction l as [|a l IH]; [reflexivity|]. cbn [filter]. destruct (existsb (fun b => keqb b a) (map fst v)) eqn:E; rewrite ?zs_cons, IH; [reflexivity|].
      rewrite (nget_notin v a); [cbn [nev]; lia|]. intro X. apply existsb_keq in X. congruence. }
    rewrite B. apply zs_perm. apply NoDup_Permutation; [assumption|apply NoDup_filter; assumption|].
    intro k. rewrite filter_In, existsb_keq. split; [intro X; split; [apply I; assumption|assumption]|intros [_ X]; assumption].
  Qed.
  Lemma nlin_plus : forall u v w H, NoDup (map fst u) -> NoDup (map fst v) -> NoDup (map fst w) ->
    (forall k G, nev (nget u k) G = nev (nget v k) G + nev (nget w k) G) -> nlin u H = nlin v H + nlin w H.
  Proof.
    intros u v w H Nu Nv Nw E. set (l := nodup keq_dec (map fst u ++ map fst v ++ map fst w)).
    assert (Nl : NoDup l) by apply NoDup_nodup.
    rewrite (nlin_support u H l Nu Nl), (nlin_support v H l Nv Nl), (nlin_support w H l Nw Nl).
    - rewrite <- zs_plus. apply zs_ext. intros k _. apply E.
    - intros k Hk. apply nodup_In. rewrite !in_app_iff. tauto.
    - intros k Hk. apply nodup_In. rewrite !in_app_iff. tauto.
    - intros k Hk. apply nodup_In. rewrite !in_app_iff. tauto.
  Qed.
  Lemma nlin_ext : forall u v H, NoDup (map fst u) -> NoDup (map fst v) -> (forall k, neqv (nget u k) (nget v k)) -> nlin u H = nlin v H.
  Proof.
    intros u v H Nu Nv E. rewrite (nlin_plus u v [] H); [change (nlin [] H) with 0; lia|assumption|assumption|constructor|].
    intros k G. rewrite (E k G), nget_nil. cbn [nev]. lia.
  Qed.
End NVecFacts.
