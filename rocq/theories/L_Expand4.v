(* The Schur and stable Grothendieck families are unitriangular *)
From Coq Require Import List ZArith Lia Bool Permutation.
From Verif Require Import PyBase FinSum M_Partitions M_Vectors L_Vectors M_Polynomials L_Polynomials L_PolySubst M_Tableaux M_Semistandard M_Symmetric M_Expansion S_Partitions L_Partitions L_Count L_Count2 L_Count3 L_CountCache L_Destand2 L_SymPoly L_SymMul L_Strips2 L_Kostka L_Num L_Expand1 L_Expand2 L_Expand3.
Import ListNotations.
Local Open Scope Z_scope.

Local Notation sg := (nget smono_eqb).
Local Notation lg := (nget zlist_eqb).

Definition fits (n : nat) (q : list Z) : Prop := partition q /\ (length q <= n)%nat.

(* a family whose value at mu has the coefficients K mu alpha beta^(|alpha| - |mu|) *)
Section Family.
  Variable n : nat.
  Variable F : nat -> list Z -> res nsym.
  Variable K : list Z -> list Z -> Z.
  Hypothesis HF : forall mu, partition mu -> F n mu = Ok (Fv n F mu) /\ nvwf (Fv n F mu) /\
    (forall m, In m (map fst (Fv n F mu)) -> fst m = n /\ fits n (snd m)) /\
    forall alpha G, fits n alpha -> nev (sg (Fv n F mu) (n, alpha)) G = K mu alpha * G (mvar 0 (size alpha - size mu)).
  Hypothesis HK : forall mu alpha, partition mu -> fits n alpha -> K mu alpha <> 0 ->
    (size mu < size alpha \/ (size mu = size alpha /\ (alpha = mu \/ lex_ltb alpha mu = true))) /\ row alpha 0 <= row mu 0.
  Hypothesis HK1 : forall mu, fits n mu -> K mu mu = 1.

  Lemma family_in : forall mu alpha, partition mu -> In (n, alpha) (map fst (Fv n F mu)) -> fits n alpha /\ K mu alpha <> 0.
  Proof.
    intros mu alpha Pm Hin. destruct (HF mu Pm) as (_ & W & D & E). destruct (D _ Hin) as [_ Fa]. cbn [snd] in Fa. split; [assumption|]. intro Z0.
    pose proof (proj1 (nget_nonzero smono_eqb smono_eqb_eq _ _ W) Hin) as Z1. assert (Z2 : nzero (sg (Fv n F mu) (n, alpha)) = true); [|congruence].
    apply nzero_spec; [apply nget_ok, nvwf_oks; assumption|]. intro G. rewrite E by assumption. rewrite Z0. lia.
  Qed.
  Lemma family_fwf : forall p, fits n p -> F n p = Ok (Fv n F p) /\ fwf n (fits n) (Fv n F p).
  Proof.
    intros p [Pp Lp]. destruct (HF p Pp) as (E & W & D & H). split; [assumption|]. split; [assumption|]. intros m Hm. destruct (D m Hm) as [D1 D2]. split; [assumption|]. split; [assumption|].
    destruct m as [n' alpha]. cbn [fst snd] in *. subst n'. intros G HG. rewrite H by assumption. rewrite HG. lia.
  Qed.
  Lemma family_lead : forall p, fits n p -> neqv (sg (Fv n F p) (n, p)) (NI 1) /\ 1 <> 0.
  Proof.
    intros p Fp. split; [|lia]. intro G. destruct (HF p (proj1 Fp)) as (_ & _ & _ & H). rewrite H by assumption. rewrite HK1 by assumption. cbn [nev]. rewrite Z.sub_diag. reflexivity.
  Qed.
  Lemma family_tri : forall p q, fits n p -> In (n, q) (map fst (Fv n F p)) -> q = p \/ after false p q.
  Proof.
    intros p q Fp Hin. destruct (family_in p q (proj1 Fp) Hin) as [Fq Hk]. destruct (HK p q (proj1 Fp) Fq Hk) as [[H|[H [H'|H']]] _].
    - right. left. exact H.
    - left. assumption.
    - right. right. split; [exact H|assumption].
  Qed.
  Lemma family_box : forall l, (forall q, In q l -> fits n q) -> exists B, incl l B /\ forall p q, In p B -> fits n p -> In (n, q) (map fst (Fv n F p)) -> In q B.
  Proof.
    intros l Hl.
    assert (Le : forall q m, fits n q -> 0 <= m -> row q 0 <= m -> In q (lists_upto n m)).
    { intros q m [Pq Lq] Hm Hr. apply lists_upto_In. split; [assumption|]. apply Forall_forall. intros a Ha. destruct (In_nth _ _ 0 Ha) as (i & Hi & <-). change (nth i q 0) with (row q i). split; [apply partition_nonneg; assumption|]. etransitivity; [|exact Hr].
      clear -Pq. destruct Pq as [_ D]. induction i as [|i IH]; [lia|]. etransitivity; [apply D|exact IH]. }
    assert (M : exists m, 0 <= m /\ forall q, In q l -> row q 0 <= m).
    { clear. induction l as [|a l (m & M1 & M2)]; [exists 0; split; [lia|intros q []]|]. exists (Z.max m (row a 0)). split; [lia|]. intros q [<-|Hq]; [lia|]. specialize (M2 q Hq). lia. }
    destruct M as (m & M1 & M2). exists (lists_upto n m). split; [intros q Hq; apply Le; [apply Hl; assumption|assumption|apply M2; assumption]|].
    intros p q Hp Fp Hin. destruct (family_in p q (proj1 Fp) Hin) as [Fq Hk]. destruct (HK p q (proj1 Fp) Fq Hk) as [_ Hr]. apply Le; [assumption|assumption|]. etransitivity; [exact Hr|].
    apply lists_upto_In in Hp. destruct Hp as [_ Hp]. destruct p as [|a p]; [exact M1|]. inversion Hp; subst. cbn. lia.
  Qed.

  Theorem family_expansion : forall f, fwf n (fits n) f -> outcome false n F (fits n) f.
  Proof.
    intros f Wf. apply (expansion_main false n F (fits n) (fits n) (fun _ => 1) family_fwf family_lead family_tri family_box (fun _ => True)); [|assumption|exact I].
    intros f0 p k W0 _ [L1 _] _. split; [apply (proj2 W0 _ L1)|]. eexists. split; [symmetry; apply Z.mul_1_r|]. intros; exact I.
  Qed.
  Theorem family_unique : forall v w, vok (fits n) v -> vok (fits n) w -> (forall alpha G, recon n F v alpha G = recon n F w alpha G) -> forall mu, neqv (lg v mu) (lg w mu).
  Proof. exact (recon_inj false n F (fits n) (fun _ => 1) family_lead family_tri). Qed.
End Family.

(* Schur polynomials *)
Section Schur.
  Variable ord : list (list Z) -> list (list Z).
  Hypothesis ord_perm : forall l, Permutation (ord l) l.

  Lemma good_short : forall n d, good n d -> short n d.
  Proof. intros n d [_ H] p Hp. apply in_map_iff in Hp. destruct Hp as ([q c] & <- & Hq). apply (H q c Hq). Qed.
  Lemma lin_psort : forall n d alpha, good n d -> lin 0 Z.add Z.mul d (fun p => ind (smono_eqb (n, psort p true) (n, alpha))) = cget d alpha.
  Proof.
    intros n d alpha [N H]. rewrite (lin_F_ext 0 Z.add Z.mul d _ (fun p => ind (zlist_eqb p alpha))).
    - symmetry. apply (dget0_lin 0 1 Z.add Z.mul Z.sub Z.opp InitialRing.Zth zlist_eqb zlist_eqb_eq). assumption.
    - intros p Hp. apply in_map_iff in Hp. destruct Hp as ([q c] & <- & Hq). cbn [fst]. rewrite psort_partition by apply (H q c Hq). unfold smono_eqb. cbn [fst snd]. rewrite Nat.eqb_refl. reflexivity.
  Qed.

  Lemma schur_family : forall n mu, partition mu -> schur_num ord n mu = Ok (Fv n (schur_num ord) mu) /\ nvwf (Fv n (schur_num ord) mu) /\
    (forall m, In m (map fst (Fv n (schur_num ord) mu)) -> fst m = n /\ fits n (snd m)) /\
    forall alpha G, fits n alpha -> nev (sg (Fv n (schur_num ord) mu) (n, alpha)) G = kostka ord false n mu alpha * G (mvar 0 (size alpha - size mu)).
  Proof.
    intros n mu Pm. destruct (kdict_ok ord ord_perm false n mu Pm) as [E Gd].
    destruct (vectorize_short n (kdict ord false n mu) (good_short _ _ Gd)) as (f & Ef & Nf & Zf & Hf).
    assert (X : schur_num ord n mu = Ok (map (fun mc => (fst mc, NI (snd mc))) f)) by (unfold schur_num, schur; rewrite E; cbn [rbind]; rewrite Ef; reflexivity).
    assert (Y : Fv n (schur_num ord) mu = map (fun mc => (fst mc, NI (snd mc))) f) by (unfold Fv; rewrite X; reflexivity). rewrite Y. split; [assumption|].
    assert (Fm : map fst (map (fun mc : smono * Z => (fst mc, NI (snd mc))) f) = map fst f) by (rewrite map_map; reflexivity).
    assert (Gt : forall m, sg (map (fun mc : smono * Z => (fst mc, NI (snd mc))) f) m = NI (sget f m)).
    { clear. intro m. induction f as [|[a c] f IH]; [reflexivity|]. cbn [map fst snd]. rewrite nget_cons, IH. unfold sget, dget0. cbn [dget]. destruct (smono_eqb a m); reflexivity. }
    split; [split; [rewrite Fm; assumption|]|].
    { apply Forall_forall. intros x Hx. apply in_map_iff in Hx. destruct Hx as (mc & <- & Hx). cbn [snd nok nzero]. split; [exact I|]. apply Z.eqb_neq. rewrite Forall_forall in Zf. apply Zf. assumption. }
    split.
    - intros m Hm. rewrite Fm in Hm. assert (Sn : sget f m <> 0).
      { apply in_map_iff in Hm. destruct Hm as ([m0 c] & <- & Hm). cbn [fst]. unfold sget, dget0. rewrite (In_dget smono_eqb smono_eqb_eq f m0 c Nf Hm). rewrite Forall_forall in Zf. apply (Zf _ Hm). }
      rewrite Hf in Sn. destruct Gd as [Nd Hd]. clear -Sn Hd.
      assert (Q : exists p, In p (map fst (kdict ord false n mu)) /\ smono_eqb (n, psort p true) m = true).
      { induction (kdict ord false n mu) as [|[p c] d IH]; [exfalso; apply Sn; reflexivity|]. unfold lin in Sn; cbn [lsum fst snd] in Sn; fold (lin 0 Z.add Z.mul d (fun p => ind (smono_eqb (n, psort p true) m))) in Sn. destruct (smono_eqb (n, psort p true) m) eqn:Em; [exists p; split; [left; reflexivity|assumption]|].
        destruct IH as (q & Q1 & Q2); [intros; apply (Hd p0 c0); right; assumption|cbn [ind] in Sn; lia|]. exists q. split; [right; assumption|assumption]. }
      destruct Q as (p & Q1 & Q2). apply smono_eqb_eq in Q2. subst m. cbn [fst snd]. split; [reflexivity|]. apply in_map_iff in Q1. destruct Q1 as ([q c] & <- & Q1). cbn [fst]. destruct (Hd q c Q1) as (Pq & Lq & _). rewrite psort_partition by assumption. split; assumption.
    - intros alpha G Fa. rewrite Gt, Hf, lin_psort by assumption. cbn [nev]. change (cget (kdict ord false n mu) alpha) with (kostka ord false n mu alpha).
      destruct (Z.eq_dec (kostka ord false n mu alpha) 0) as [Z0|Z0]; [rewrite Z0; lia|]. destruct (kostka_dominance ord ord_perm false n mu alpha Pm (proj1 Fa) (proj2 Fa) Z0) as (_ & _ & _ & Es & _). rewrite (Es eq_refl), Z.sub_diag. reflexivity.
  Qed.

  Lemma kostka_tri : forall sv n mu alpha, partition mu -> fits n alpha -> kostka ord sv n mu alpha <> 0 ->
    (size mu < size alpha \/ (size mu = size alpha /\ (alpha = mu \/ lex_ltb alpha mu = true))) /\ row alpha 0 <= row mu 0.
  Proof.
    intros sv n mu alpha Pm [Pa La] K. split; [apply (kostka_lex ord ord_perm sv n mu alpha); assumption|]. destruct (kostka_dominance ord ord_perm sv n mu alpha Pm Pa La K) as (_ & _ & R & _). exact R.
  Qed.

  Lemma kostka_one : forall sv n mu, fits n mu -> kostka ord sv n mu mu = 1.
  Proof. intros sv n mu [P L]. apply (kostka_diagonal ord ord_perm sv n mu P L). Qed.

  Theorem schur_outcome : forall n f, fwf n (fits n) f -> outcome false n (schur_num ord) (fits n) f.
  Proof. intros n. exact (family_expansion n (schur_num ord) (kostka ord false n) (schur_family n) (kostka_tri false n) (kostka_one false n)). Qed.
  Theorem schur_unique : forall n v w, vok (fits n) v -> vok (fits n) w -> (forall alpha G, recon n (schur_num ord) v alpha G = recon n (schur_num ord) w alpha G) -> forall mu, neqv (lg v mu) (lg w mu).
  Proof. intros n. exact (family_unique n (schur_num ord) (kostka ord false n) (schur_family n) (kostka_tri false n) (kostka_one false n)). Qed.
End Schur.
