(* Sums over words as numbers of factorizations; the polynomials. *)
From Coq Require Import List ZArith Lia Bool Permutation Arith.
From Verif Require Import PyBase FinSum M_Partitions S_Partitions L_Partitions L_PartBasic L_PartEnum L_Destand L_Destand2 M_Vectors M_Polynomials S_Polynomials L_Polynomials L_PolySubst
  M_Symmetric S_Symmetric M_Expansion S_Expansion S_Semistandard L_Count L_CountCache L_SymPoly L_SymMul L_Num L_Expand1 L_Expand2 L_Expand4 L_Expand5 L_Sym6 P_Symmetry L_Dual3 M_Words S_Words P_Words L_FominWords L_FominZeta L_FominSym L_PermGroth2 M_PermGroth L_PermGroth3 L_PermGroth4 L_PermGroth5 S_PermGroth.
Import ListNotations.
Local Open Scope Z_scope.
Local Notation sg := (nget smono_eqb).

Lemma cut_concat : forall us, cut (map (@length Z) us) (concat us) = us.
Proof.
  induction us as [|u us IH]; [reflexivity|]. cbn [map cut concat]. rewrite firstn_app, Nat.sub_diag, firstn_all, firstn_O, app_nil_r. rewrite skipn_app, Nat.sub_diag, skipn_all, skipn_O. cbn [app]. rewrite IH. reflexivity.
Qed.
Lemma nats_wlens : forall us, nats (wlens us) = map (@length Z) us.
Proof. intro us. unfold nats, wlens. rewrite map_map. apply map_ext. intro u. apply Nat2Z.id. Qed.
Lemma nsum_lengths : forall us : list (list Z), nsum (map (@length Z) us) = length (concat us).
Proof. induction us as [|u us IH]; [reflexivity|]. cbn [map nsum fold_right concat]. fold (nsum (map (@length Z) us)). rewrite app_length, IH. reflexivity. Qed.
Lemma counts_one : forall A (P : A -> Prop) x, P x -> (forall y, P y -> y = x) -> counts P 1.
Proof. intros A P x Hx Hu. exists [x]. split; [repeat constructor; intros []|]. split; [|reflexivity]. intro y. split; [intros [<-|[]]; exact Hx|intro Hy; left; symmetry; auto]. Qed.
Lemma zs_const : forall A (l : list A) c, zs (fun _ => c) l = Z.of_nat (length l) * c.
Proof. intros A l c. induction l as [|a l IH]; [reflexivity|]. change (zs (fun _ => c) (a :: l)) with (c + zs (fun _ => c) l). rewrite IH. cbn [length]. lia. Qed.
Lemma counts_pairs : forall A B (P : A -> Prop) (Q : list B -> Prop) (R : A -> B -> Prop) N M, (forall a b a', R a b -> R a' b -> a = a') -> (forall a, P a -> exists b, R a b) -> (forall a b b', R a b -> R a b' -> b = b') ->
  counts P N -> counts Q M -> counts (fun l => exists a b t, l = b :: t /\ R a b /\ P a /\ Q t) (N * M).
Proof.
  intros A B P Q R N M Ri Re Rf (l & Nl & Hl & El) HQ.
  assert (C : counts (fun y => exists a, In a l /\ (fun a y => exists b t, y = b :: t /\ R a b /\ Q t) a y) (zs (fun _ => M) l)).
  { apply counts_union; [exact Nl| |].
    - intros a Ha. apply Hl in Ha. destruct (Re a Ha) as (b & Hb). refine (counts_ext _ (fun y => exists t, Q t /\ y = b :: t) _ _ _ _ eq_refl _).
      + intro y. split; [intros (t & Ht & ->); exists b, t; auto|]. intros (b' & t & -> & Hb' & Ht). exists t. split; [exact Ht|]. f_equal. apply (Rf a); assumption.
      + apply (counts_image _ _ (fun t => b :: t)); [|exact HQ]. intros x y _ _ E. congruence.
    - intros a a' y _ _ (b & t & -> & H1 & _) (b' & t' & E & H2 & _). injection E as <- <-. apply (Ri a b a'); assumption. }
  rewrite zs_const, El in C. refine (counts_ext _ _ _ _ _ _ eq_refl C). intro y. split.
  - intros (a & Ha & b & t & E & H1 & H2). exists a, b, t. apply Hl in Ha. auto.
  - intros (a & b & t & E & H1 & H2 & H3). exists a. apply Hl in H2. split; [exact H2|]. exists b, t. auto.
Qed.

Definition joins (p : list Z * list Z) : list Z := fst p ++ snd p.
Definition vee (p : list Z * list Z) : Prop := pairwise Z.gt (fst p) /\ pairwise Z.lt (snd p).
Lemma firstn_inj : forall (u : list Z) i j, (i <= length u)%nat -> (j <= length u)%nat -> firstn i u = firstn j u -> i = j.
Proof. intros u i j Hi Hj E. apply (f_equal (@length Z)) in E. rewrite !firstn_length in E. lia. Qed.
Lemma uni_counts : forall u, counts (fun p => joins p = u /\ vee p) (unimodal_zeta u).
Proof.
  intro u. unfold unimodal_zeta, split_zeta.
  assert (C : counts (fun p => exists i, In i (zrange 0 (zlen u + 1)) /\ (fun i p => p = (firstn (Z.to_nat i) u, skipn (Z.to_nat i) u) /\ vee p) i p)
    (zs (fun i => decreasing_zeta (firstn (Z.to_nat i) u) * increasing_zeta (skipn (Z.to_nat i) u)) (zrange 0 (zlen u + 1)))).
  { apply counts_union; [apply NoDup_zrange| |].
    - intros i Hi. destruct (C24_zetas (firstn (Z.to_nat i) u)) as (_ & (D1 & D2) & _). destruct (C24_zetas (skipn (Z.to_nat i) u)) as ((I1 & I2) & _).
      destruct (pairwise_gt_dec (firstn (Z.to_nat i) u)) as [D|D]; destruct (pairwise_lt_dec (skipn (Z.to_nat i) u)) as [E|E].
      + rewrite (D1 D), (I1 E). apply (counts_one _ _ (firstn (Z.to_nat i) u, skipn (Z.to_nat i) u)); [split; [reflexivity|split; assumption]|]. intros y [Hy _]. exact Hy.
      + rewrite (I2 E), Z.mul_0_r. apply counts_empty. intros p [-> [_ X]]. contradiction.
      + rewrite (D2 D). apply counts_empty. intros p [-> [X _]]. contradiction.
      + rewrite (D2 D). apply counts_empty. intros p [-> [X _]]. contradiction.
    - intros i j p Hi Hj [E1 _] [E2 _]. apply In_zrange in Hi, Hj. rewrite E1 in E2. injection E2 as E2 _. apply firstn_inj in E2; unfold zlen in *; lia. }
  refine (counts_ext _ _ _ _ _ _ eq_refl C). intros [d e]. split.
  - intros (i & Hi & E & V). split; [|exact V]. injection E as -> ->. unfold joins. cbn. apply firstn_skipn.
  - intros [E V]. exists (zlen d). unfold joins in E. cbn in E. subst u. split; [apply In_zrange; unfold zlen; rewrite app_length; lia|]. split; [|exact V]. unfold zlen. rewrite Nat2Z.id, firstn_app, Nat.sub_diag, firstn_all, firstn_O, app_nil_r, skipn_app, Nat.sub_diag, skipn_all, skipn_O. reflexivity.
Qed.
Lemma uni_list_counts : forall us, counts (fun ps => map joins ps = us /\ Forall vee ps) (zprod (map unimodal_zeta us)).
Proof.
  induction us as [|u us IH].
  - apply (counts_one _ _ []); [split; [reflexivity|constructor]|]. intros y [Hy _]. destruct y; [reflexivity|discriminate].
  - cbn [map zprod fold_right]. fold (zprod (map unimodal_zeta us)).
    pose proof (counts_pairs (list Z * list Z) (list Z * list Z) (fun p => joins p = u /\ vee p) (fun ps => map joins ps = us /\ Forall vee ps) (fun a b => a = b) _ _ (fun a b a' (E : a = b) (E' : a' = b) => eq_trans E (eq_sym E')) (fun a _ => ex_intro _ a eq_refl) (fun a b b' (E : a = b) (E' : a = b') => eq_trans (eq_sym E) E') (uni_counts u) IH) as C.
    refine (counts_ext _ _ _ _ _ _ eq_refl C). intro ps. split.
    + intros (a & b & t & -> & -> & [H1 H2] & H3 & H4). cbn [map]. rewrite H1, H3. split; [reflexivity|constructor; assumption].
    + intros [E F]. destruct ps as [|p ps]; [discriminate|]. cbn [map] in E. injection E as E1 E2. inversion F; subst. exists p, p, ps. auto 10.
Qed.

Section Tuples.
  Variable H : list Z -> Prop.
  Lemma dec_tuples : forall e l, Forall (fun x => 0 <= x) e -> lists H (nsum (nats e)) l -> counts (decreasing_tuple H e) (wsum decreasing_zeta (nats e) l).
  Proof.
    intros e l Fe [Nl Hl]. unfold wsum.
    assert (C : counts (fun us => exists v, In v l /\ (fun v us => us = cut (nats e) v /\ Forall (pairwise Z.gt) us) v us) (zs (fun v => zprod (map decreasing_zeta (cut (nats e) v))) l)).
    { apply counts_union; [exact Nl| |].
      - intros v _. generalize (cut (nats e) v). intro us.
        assert (D : Forall (pairwise Z.gt) us \/ ~ Forall (pairwise Z.gt) us).
        { induction us as [|u us IH]; [left; constructor|]. destruct (pairwise_gt_dec u) as [A|A]; [|right; intro F; inversion F; contradiction]. destruct IH as [B|B]; [left; constructor; assumption|right; intro F; inversion F; contradiction]. }
        destruct D as [D|D].
        + replace (zprod (map decreasing_zeta us)) with 1; [apply (counts_one _ _ us); [auto|intros y [Hy _]; exact Hy]|]. clear -D. induction D as [|u us A _ IH]; [reflexivity|]. cbn [map zprod fold_right]. fold (zprod (map decreasing_zeta us)). rewrite <- IH. destruct (C24_zetas u) as (_ & (D1 & _) & _). rewrite D1 by exact A. reflexivity.
        + destruct (Z.eq_dec (zprod (map decreasing_zeta us)) 0) as [Z0|Z0].
          * rewrite Z0. apply counts_empty. intros y [-> F]. contradiction.
          * exfalso. apply D. apply zprod_nonzero in Z0. rewrite Forall_map in Z0. eapply Forall_impl; [|exact Z0]. intros u Hu. apply dec_nonzero. exact Hu.
      - intros v v' us Hv Hv' [E1 _] [E2 _]. apply Hl in Hv, Hv'. rewrite <- (concat_cut (nats e) v), <- (concat_cut (nats e) v') by lia. congruence. }
    refine (counts_ext _ _ _ _ _ _ eq_refl C). intro us. unfold decreasing_tuple. split.
    - intros (v & Hv & -> & F). apply Hl in Hv. destruct Hv as [Hv Lv]. split; [apply wlens_cut; [exact Fe|lia]|]. split; [exact F|]. rewrite concat_cut by lia. exact Hv.
    - intros (E & F & W). exists (concat us). rewrite <- E, nats_wlens, cut_concat. split; [|auto]. apply Hl. split; [exact W|]. rewrite <- E, nats_wlens, nsum_lengths. reflexivity.
  Qed.
  Lemma uni_tuples : forall e l, Forall (fun x => 0 <= x) e -> lists H (nsum (nats e)) l -> counts (unimodal_tuple H e) (wsum unimodal_zeta (nats e) l).
  Proof.
    intros e l Fe [Nl Hl]. unfold wsum.
    assert (C : counts (fun ps => exists v, In v l /\ (fun v ps => map joins ps = cut (nats e) v /\ Forall vee ps) v ps) (zs (fun v => zprod (map unimodal_zeta (cut (nats e) v))) l)).
    { apply counts_union; [exact Nl| |].
      - intros v _. apply uni_list_counts.
      - intros v v' us Hv Hv' [E1 _] [E2 _]. apply Hl in Hv, Hv'. rewrite <- (concat_cut (nats e) v), <- (concat_cut (nats e) v') by lia. congruence. }
    refine (counts_ext _ _ _ _ _ _ eq_refl C). intro ps. unfold unimodal_tuple. change (map (fun p : list Z * list Z => fst p ++ snd p) ps) with (map joins ps). split.
    - intros (v & Hv & E & F). apply Hl in Hv. destruct Hv as [Hv Lv]. rewrite E. split; [apply wlens_cut; [exact Fe|lia]|]. split; [exact F|]. rewrite concat_cut by lia. exact Hv.
    - intros (E & F & W). exists (concat (map joins ps)). rewrite <- E, nats_wlens, cut_concat. split; [|auto]. apply Hl. split; [exact W|]. rewrite <- E, nats_wlens, nsum_lengths. reflexivity.
  Qed.
End Tuples.

Lemma wlens_nonneg : forall us, Forall (fun x => 0 <= x) (wlens us).
Proof. intro us. apply Forall_forall. intros x Hx. unfold wlens in Hx. apply in_map_iff in Hx. destruct Hx as (u & <- & _). lia. Qed.

(* the result of the four functions as a polynomial *)
Section Poly.
  Variables (A : Type) (Q : list Z -> A -> Prop) (c : list Z -> Z) (n : nat) (ell : Z) (lb : option Z) (f : nsym).
  Hypothesis f_wf : nvwf f.
  Hypothesis f_keys : forall m, In m (map fst f) -> fst m = n /\ fits n (snd m).
  Hypothesis f_val : forall p G, fits n p -> nev (sg f (n, p)) G = c p * G (mvar 0 (zsum p - ell)).
  Hypothesis c_Q : forall e, length e = n -> Forall (fun x => 0 <= x) e -> if beyond (lbound lb) (zsum e) then c (psort e true) = 0 else counts (Q e) (c (psort e true)).
  Hypothesis Q_nonneg : forall e t, Q e t -> Forall (fun x => 0 <= x) e.
  Lemma result_canon : sym_canon beta_num n f.
  Proof.
    apply fwf_sym_canon. split; [exact f_wf|]. intros m Hm. destruct (f_keys m Hm) as [K1 K2]. split; [exact K1|]. split; [exact K2|].
    destruct m as [n' p]. cbn [fst snd] in *. subst n'. intros G HG. rewrite f_val by assumption. rewrite HG. lia.
  Qed.
  Lemma beyond_up_to : forall d, beyond (lbound lb) d = false <-> up_to lb d.
  Proof. intro d. unfold beyond, lbound, up_to. destruct lb as [b|]; [|cbn; tauto]. destruct (Z.leb_spec 0 b), (Z.ltb_spec b d); cbn; split; try tauto; try discriminate; lia. Qed.
  Lemma result_polynomial : forall pord isx, (forall l, Permutation (pord l) l) -> exists P, spolynomial num_terms pord isx f = Ok P /\ generates_beta isx n ell lb Q P.
  Proof.
    intros pord isx Hp. destruct (nsym_polynomial pord isx n f c (fun z => z - ell) Hp f_wf f_keys f_val) as (P & EP & CP & H). exists P. split; [exact EP|]. split; [exact CP|]. intros m C. destruct (H m C) as [H1 H2]. clear H.
    set (e0 := exponents isx n m) in *. assert (L0 : length e0 = n) by (unfold e0, exponents; rewrite map_length, seq_length; reflexivity).
    pose proof (monomial_form isx n m (fun z => z - ell) C) as V. fold e0 in V. cbv beta in V. change (size e0) with (zsum e0). split.
    - intro Vm. destruct (Forall_dec (fun x => 0 <= x) (Z_le_dec 0) e0) as [F0|F0].
      + destruct (Z.eq_dec (expo m 0) (zsum e0 - ell)) as [Eh|Eh].
        * rewrite (H1 F0 (proj1 V (conj Vm Eh))). pose proof (c_Q e0 L0 F0) as CQ. pose proof (beyond_up_to (zsum e0)) as B. destruct (beyond (lbound lb) (zsum e0)).
          -- rewrite CQ. apply counts_empty. intros t (_ & _ & X). apply B in X. discriminate.
          -- refine (counts_ext _ _ _ _ _ _ eq_refl CQ). intro t. intuition.
        * rewrite H2 by (intros [_ X]; apply Eh; apply V; assumption). apply counts_empty. intros t (_ & X & _). contradiction.
      + rewrite H2 by (intros [X _]; contradiction). apply counts_empty. intros t (X & _). apply F0. eapply Q_nonneg. exact X.
    - intro Vm. apply H2. intros [_ X]. apply Vm. apply V. assumption.
  Qed.
End Poly.
