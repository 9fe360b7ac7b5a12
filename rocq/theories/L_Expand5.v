(* The stable Grothendieck polynomials form a unitriangular family *)
From Coq Require Import List ZArith Lia Bool Permutation.
From Verif Require Import PyBase FinSum M_Partitions M_Vectors L_Vectors M_Polynomials L_Polynomials L_PolySubst M_Tableaux M_Semistandard M_Symmetric M_Expansion S_Partitions L_Partitions L_Count L_Count2 L_Count3 L_CountCache L_Destand2 L_SymPoly L_SymMul L_Strips2 L_Kostka L_Num L_Expand1 L_Expand2 L_Expand3 L_Expand4.
Import ListNotations.
Local Open Scope Z_scope.

Local Notation sg := (nget smono_eqb).
Local Notation lg := (nget zlist_eqb).

Lemma lin_cons : forall (d : cdict) p c (H : list Z -> Z), lin 0 Z.add Z.mul ((p, c) :: d) H = c * H p + lin 0 Z.add Z.mul d H.
Proof. reflexivity. Qed.

Section Vectorize.
  Variable sgn : Z -> poly.
  Variables e h : Z -> Z.
  Hypothesis sgn_wf : forall k, pwf (sgn k).
  Hypothesis sgn_ev : forall k G, ev (sgn k) G = e k * G (mvar 0 (h k)).
  Variable n : nat.

  Lemma nget_dset : forall (d : nsym) m x k, sg (dset smono_eqb d m x) k = if smono_eqb m k then x else sg d k.
  Proof.
    intros d m x k. induction d as [|[a y] d IH]; cbn [dset]; [rewrite nget_cons; reflexivity|]. destruct (smono_eqb a m) eqn:E.
    - apply smono_eqb_eq in E. subst a. rewrite !nget_cons. destruct (smono_eqb m k); reflexivity.
    - rewrite !nget_cons, IH. destruct (smono_eqb a k) eqn:E1; [|reflexivity]. destruct (smono_eqb m k) eqn:E2; [|reflexivity]. apply smono_eqb_eq in E1. apply smono_eqb_eq in E2. subst. assert (X : smono_eqb k k = true) by (apply smono_eqb_eq; reflexivity). congruence.
  Qed.
  Lemma oks_dset : forall (d : nsym) m x, oks d -> nok x -> oks (dset smono_eqb d m x).
  Proof.
    induction d as [|[a y] d IH]; intros m x O Ox; cbn [dset]; [constructor; [assumption|constructor]|]. inversion O as [|? ? O1 O2]; subst. destruct (smono_eqb a m); constructor; try assumption. apply IH; assumption.
  Qed.

  Lemma nv_loop : forall (t : cdict) (d : nsym), short n t -> NoDup (map fst d) -> oks d ->
    exists r, rfold (fun d pc =>
      let count := nmul (NI (snd pc)) (NP (sgn (zsum (fst pc)))) in
      do m <- smake n (fst pc);
      Ok (dset smono_eqb d m (nadd (sg d m) count))) t d = Ok r /\ NoDup (map fst r) /\ oks r /\
      (forall m, In m (map fst r) -> In m (map fst d) \/ exists p, In p (map fst t) /\ m = (n, psort p true)) /\
      forall m G, nev (sg r m) G = nev (sg d m) G + lin 0 Z.add Z.mul t (fun p => ind (smono_eqb (n, psort p true) m) * (e (zsum p) * G (mvar 0 (h (zsum p))))).
  Proof.
    induction t as [|[p c] t IH]; intros d Hs N O.
    - exists d. split; [reflexivity|]. split; [assumption|]. split; [assumption|]. split; [intros; left; assumption|]. intros. change (lin 0 Z.add Z.mul [] _) with 0. lia.
    - cbn [rfold fst snd]. cbv zeta. unfold smake. assert (Lp : (length p <= n)%nat) by (apply Hs; left; reflexivity). replace (length p <=? n)%nat with true by (symmetry; apply Nat.leb_le; assumption). cbn [rbind].
      set (x := nmul (NI c) (NP (sgn (zsum p)))). set (m0 := (n, psort p true)). set (y := nadd (sg d m0) x).
      assert (Ox : nok x) by apply nok_mul. assert (Od : nok (sg d m0)) by (apply nget_ok; assumption). assert (Oy : nok y) by (apply nok_add; assumption).
      assert (Ex : forall G, nev x G = c * (e (zsum p) * G (mvar 0 (h (zsum p))))).
      { intro G. unfold x. rewrite nev_mul by (try exact I; apply sgn_wf). cbn [nev]. rewrite sgn_ev, mmul_nil_l by apply mvar_wf. reflexivity. }
      destruct (IH (dset smono_eqb d m0 y)) as (r & E1 & E2 & E3 & E4 & E5).
      + intros q Hq. apply Hs. right. assumption.
      + apply (dset_NoDup smono_eqb smono_eqb_eq). assumption.
      + apply oks_dset; assumption.
      + exists r. split; [exact E1|]. split; [assumption|]. split; [assumption|]. split.
        * intros m Hm. destruct (E4 m Hm) as [H|(q & Q1 & Q2)]; [|right; exists q; split; [right; assumption|assumption]].
          apply (dset_keys_In smono_eqb smono_eqb_eq) in H. destruct H as [H|H]; [right; exists p; split; [left; reflexivity|assumption]|left; assumption].
        * intros m G. rewrite E5, nget_dset, lin_cons. fold m0. destruct (smono_eqb m0 m) eqn:Em; cbn [ind].
          -- apply smono_eqb_eq in Em. subst m. unfold y. rewrite nev_add, Ex by assumption. lia.
          -- lia.
  Qed.
End Vectorize.

Lemma beta_pow_wf : forall k, pwf (beta_pow k).
Proof. intro k. rewrite beta_pow_mvar. split; [repeat constructor; intros []|]. split; [constructor; [apply mvar_wf|constructor]|constructor; [cbn; lia|constructor]]. Qed.
Lemma beta_pow_ev : forall k G, ev (beta_pow k) G = 1 * G (mvar 0 k).
Proof. intros k G. rewrite beta_pow_mvar, ev_cons. change (ev [] G) with 0. lia. Qed.

Section Grothendieck.
  Variable ord : list (list Z) -> list (list Z).
  Hypothesis ord_perm : forall l, Permutation (ord l) l.
  Definition groth (n : nat) (mu : list Z) : res nsym := stable_grothendieck ord n mu [] None.

  Lemma groth_family : forall n mu, partition mu -> groth n mu = Ok (Fv n groth mu) /\ nvwf (Fv n groth mu) /\
    (forall m, In m (map fst (Fv n groth mu)) -> fst m = n /\ fits n (snd m)) /\
    forall alpha G, fits n alpha -> nev (sg (Fv n groth mu) (n, alpha)) G = kostka ord true n mu alpha * G (mvar 0 (size alpha - size mu)).
  Proof.
    intros n mu Pm. destruct (kdict_ok ord ord_perm true n mu Pm) as [E Gd]. pose proof (good_short _ _ Gd) as Sd. destruct Gd as [Nd Hd].
    destruct (nv_loop beta_pow (fun _ => 1) (fun k => k) beta_pow_wf beta_pow_ev n (kdict ord true n mu) [] Sd) as (r & E1 & E2 & E3 & E4 & E5); [constructor|constructor|].
    assert (W1 : nvwf (vmake nzero r)) by (apply (vmake_nvwf); assumption).
    assert (Oc : nok (NP (beta_pow (zsum [] - zsum mu)))) by apply beta_pow_wf.
    destruct (nvscale_ok smono_eqb smono_eqb_eq (vmake nzero r) _ W1 Oc) as [W2 H2].
    set (g := nvscale smono_eqb (vmake nzero r) (NP (beta_pow (zsum [] - zsum mu)))) in *.
    assert (V : nvectorize n (kdict ord true n mu) beta_pow None = Ok (vmake nzero r)).
    { unfold nvectorize. match goal with |- rbind ?x _ = _ => assert (E1' : x = Ok r) by exact E1 end. rewrite E1'. reflexivity. }
    assert (X : groth n mu = Ok g) by (unfold groth, stable_grothendieck; rewrite E; cbn [rbind]; rewrite V; reflexivity).
    assert (Y : Fv n groth mu = g) by (unfold Fv; rewrite X; reflexivity). rewrite Y. split; [assumption|]. split; [assumption|].
    assert (Hg : forall m G, nev (sg g m) G = lin 0 Z.add Z.mul (kdict ord true n mu) (fun p => ind (smono_eqb (n, psort p true) m) * (1 * G (mvar 0 (zsum p - zsum mu))))).
    { intros m G. rewrite H2. cbn [nev]. rewrite (vmake_get smono_eqb smono_eqb_eq r m E2 E3). rewrite E5. rewrite nget_nil. cbn [nev]. etransitivity; [apply Z.add_0_l|]. apply (lin_F_ext 0 Z.add Z.mul). intros p _. rewrite beta_pow_ev, mvar_mul. change (zsum []) with 0. replace (zsum p + (0 - zsum mu)) with (zsum p - zsum mu) by lia. lia. }
    split.
    - intros m Hm. pose proof (proj1 (nget_nonzero smono_eqb smono_eqb_eq g m W2) Hm) as Z0.
      assert (I : In m (map fst r)).
      { destruct (in_dec (keq_dec smono_eqb smono_eqb_eq) m (map fst r)) as [I|I]; [assumption|]. exfalso. assert (Z1 : nzero (sg g m) = true); [|congruence].
        apply nzero_spec; [apply nget_ok, nvwf_oks; assumption|]. intro G. rewrite H2. rewrite (vmake_get smono_eqb smono_eqb_eq r m E2 E3). rewrite (nget_notin smono_eqb smono_eqb_eq r) by assumption. cbn [nev]. lia. }
      destruct (E4 m I) as [[]|(p & P1 & ->)]. cbn [fst snd]. split; [reflexivity|]. apply in_map_iff in P1. destruct P1 as ([q c] & <- & Q). cbn [fst]. destruct (Hd q c Q) as (Pq & Lq & _). rewrite psort_partition by assumption. split; assumption.
    - intros alpha G Fa. rewrite Hg. transitivity (lin 0 Z.add Z.mul (kdict ord true n mu) (fun p => G (mvar 0 (size alpha - size mu)) * ind (smono_eqb (n, psort p true) (n, alpha)))).
      + apply (lin_F_ext 0 Z.add Z.mul). intros p Hp. destruct (smono_eqb (n, psort p true) (n, alpha)) eqn:Em; cbn [ind]; [|lia]. apply smono_eqb_eq in Em. apply (f_equal snd) in Em. cbn [snd] in Em. rename Em into Ep. apply in_map_iff in Hp. destruct Hp as ([q c] & <- & Q). cbn [fst] in *. destruct (Hd q c Q) as (Pq & _ & _). rewrite psort_partition in Ep by assumption. subst alpha. unfold size. rewrite Z.mul_1_l, Z.mul_1_r. apply Z.mul_1_l.
      + rewrite (lin_F_scale 0 1 Z.add Z.mul Z.sub Z.opp InitialRing.Zth). rewrite lin_psort by (split; assumption). unfold kostka. lia.
  Qed.

  Theorem groth_outcome : forall n f, fwf n (fits n) f -> outcome false n groth (fits n) f.
  Proof. intros n. exact (family_expansion n groth (kostka ord true n) (groth_family n) (kostka_tri ord ord_perm true n) (kostka_one ord ord_perm true n)). Qed.
  Theorem groth_unique : forall n v w, vok (fits n) v -> vok (fits n) w -> (forall alpha G, recon n groth v alpha G = recon n groth w alpha G) -> forall mu, neqv (lg v mu) (lg w mu).
  Proof. intros n. exact (family_unique n groth (kostka ord true n) (groth_family n) (kostka_tri ord ord_perm true n) (kostka_one ord ord_perm true n)). Qed.
End Grothendieck.
