(* Finite sums over lists with values in a commutative ring; linear functionals on
   dictionaries. No Python content. *)
From Coq Require Import List ZArith Lia Bool Ring Permutation.
From Verif Require Import PyBase.
Import ListNotations.

Section RingSums.
  Context {R : Type} (rO rI : R) (radd rmul rsub : R -> R -> R) (ropp : R -> R).
  Hypothesis Rth : ring_theory rO rI radd rmul rsub ropp (@eq R).
  Add Ring Rring : Rth.
  Local Notation "a + b" := (radd a b).
  Local Notation "a * b" := (rmul a b).
  Local Notation "0" := rO.

  Fixpoint lsum {A : Type} (f : A -> R) (l : list A) : R :=
    match l with [] => 0 | a :: l' => f a + lsum f l' end.

  Lemma lsum_app : forall A (f : A -> R) a b, lsum f (a ++ b) = lsum f a + lsum f b.
  Proof. induction a as [|x a IH]; intro b; simpl; [ring|]. rewrite IH. ring. Qed.

  Lemma lsum_ext : forall A (f g : A -> R) l,
    (forall x, In x l -> f x = g x) -> lsum f l = lsum g l.
  Proof.
    induction l as [|x l IH]; intro H; simpl; [reflexivity|].
    rewrite H by (left; reflexivity). rewrite IH; [reflexivity|].
    intros y Hy. apply H. right. assumption.
  Qed.

  Lemma lsum_zero : forall A (f : A -> R) l, (forall x, In x l -> f x = 0) -> lsum f l = 0.
  Proof.
    induction l as [|x l IH]; intro H; simpl; [reflexivity|].
    rewrite H by (left; reflexivity). rewrite IH; [ring|].
    intros y Hy. apply H. right. assumption.
  Qed.

  Lemma lsum_plus : forall A (f g : A -> R) l, lsum (fun x => f x + g x) l = lsum f l + lsum g l.
  Proof. induction l as [|x l IH]; simpl; [ring|]. rewrite IH. ring. Qed.

  Lemma lsum_scale : forall A (c : R) (f : A -> R) l, lsum (fun x => c * f x) l = c * lsum f l.
  Proof. induction l as [|x l IH]; simpl; [ring|]. rewrite IH. ring. Qed.

  Lemma lsum_scale_r : forall A (c : R) (f : A -> R) l, lsum (fun x => f x * c) l = lsum f l * c.
  Proof. induction l as [|x l IH]; simpl; [ring|]. rewrite IH. ring. Qed.

  Lemma lsum_opp : forall A (f : A -> R) l, lsum (fun x => ropp (f x)) l = ropp (lsum f l).
  Proof. induction l as [|x l IH]; simpl; [ring|]. rewrite IH. ring. Qed.

  Lemma lsum_swap : forall A B (f : A -> B -> R) l m,
    lsum (fun x => lsum (fun y => f x y) m) l = lsum (fun y => lsum (fun x => f x y) l) m.
  Proof.
    induction l as [|x l IH]; intro m; simpl.
    - symmetry. apply lsum_zero. reflexivity.
    - rewrite IH. rewrite <- lsum_plus. reflexivity.
  Qed.

  Lemma lsum_map : forall A B (g : A -> B) (f : B -> R) l, lsum f (map g l) = lsum (fun x => f (g x)) l.
  Proof. induction l as [|x l IH]; simpl; [reflexivity|]. now rewrite IH. Qed.

  Lemma lsum_flat_map : forall A B (g : A -> list B) (f : B -> R) l,
    lsum f (flat_map g l) = lsum (fun x => lsum f (g x)) l.
  Proof. induction l as [|x l IH]; simpl; [reflexivity|]. now rewrite lsum_app, IH. Qed.

  Lemma lsum_perm : forall A (f : A -> R) l m, Permutation l m -> lsum f l = lsum f m.
  Proof. intros A f l m H. induction H; simpl; try ring; congruence || (rewrite IHPermutation; ring) || ring. Qed.

  Lemma lsum_filter : forall A (p : A -> bool) (f : A -> R) l,
    lsum f (filter p l) = lsum (fun x => if p x then f x else 0) l.
  Proof.
    induction l as [|x l IH]; simpl; [reflexivity|].
    destruct (p x); simpl; rewrite IH; ring.
  Qed.

  Lemma lsum_delta : forall A (eqb : A -> A -> bool) (f : A -> R) l a,
    (forall x y, eqb x y = true <-> x = y) -> NoDup l ->
    lsum (fun x => if eqb x a then f x else 0) l = if existsb (fun x => eqb x a) l then f a else 0.
  Proof.
    intros A eqb f l a Hs. induction l as [|x l IH]; intro Hn; simpl; [reflexivity|].
    inversion Hn as [|y l' Hx Hl]; subst. rewrite IH by assumption.
    destruct (eqb x a) eqn:E; simpl; [|ring].
    apply Hs in E. subst x.
    destruct (existsb (fun x => eqb x a) l) eqn:E2; [|ring].
    apply existsb_exists in E2. destruct E2 as (z & Hz & Ez). apply Hs in Ez. subst z. contradiction.
  Qed.

  Section DictSums.
    Context {K : Type} (keqb : K -> K -> bool).
    Hypothesis keqb_spec : forall a b, keqb a b = true <-> a = b.

    (* d.get(k, 0) *)
    Definition dget0 (d : list (K * R)) (k : K) : R :=
      match dget keqb d k with Some v => v | None => 0 end.

    Definition lin (d : list (K * R)) (F : K -> R) : R :=
      lsum (fun kv => snd kv * F (fst kv)) d.

    Lemma dget0_lin : forall d k, NoDup (map fst d) ->
      dget0 d k = lin d (fun k' => if keqb k' k then rI else 0).
    Proof.
      unfold dget0, lin. induction d as [|[k' v] d IH]; intros k Hn; simpl; [reflexivity|].
      simpl in Hn. inversion Hn as [|x l Hx Hl]; subst.
      rewrite <- IH by assumption.
      destruct (keqb k' k) eqn:E.
      - apply keqb_spec in E. subst k'.
        assert (Hnone : dget keqb d k = None) by (apply dget_None_notIn; assumption).
        rewrite Hnone. ring.
      - destruct (dget keqb d k); ring.
    Qed.

    Lemma lin_support : forall S d F, NoDup (map fst d) -> NoDup S -> incl (map fst d) S ->
      lin d F = lsum (fun k => dget0 d k * F k) S.
    Proof.
      intros S d F. revert S. unfold lin. induction d as [|[k v] d IH]; intros S Hn HS Hi.
      - simpl. symmetry. apply lsum_zero. intros x _. unfold dget0. simpl. ring.
      - simpl in Hn. inversion Hn as [|x l Hx Hl]; subst. simpl.
        rewrite (IH S Hl HS) by (intros y Hy; apply Hi; right; assumption).
        assert (Hk : In k S) by (apply Hi; left; reflexivity).
        transitivity (lsum (fun x => (if keqb x k then v * F x else 0)) S
                      + lsum (fun x => dget0 d x * F x) S).
        + rewrite lsum_delta by assumption.
          replace (existsb (fun x => keqb x k) S) with true; [reflexivity|].
          symmetry. apply existsb_exists. exists k. split; [assumption|]. now apply keqb_spec.
        + rewrite <- lsum_plus. apply lsum_ext. intros x Hxs. unfold dget0. simpl.
          destruct (keqb k x) eqn:E.
          * apply keqb_spec in E. subst x.
            rewrite (keqb_refl_ keqb keqb_spec).
            assert (Hnone : dget keqb d k = None) by (apply dget_None_notIn; assumption).
            rewrite Hnone. ring.
          * rewrite keqb_neq_ by (auto; intro; subst; rewrite (keqb_refl_ keqb keqb_spec) in E; discriminate).
            ring.
    Qed.

    Fixpoint dedup (l : list K) : list K :=
      match l with
      | [] => []
      | a :: l' => if existsb (fun b => keqb b a) l' then dedup l' else a :: dedup l'
      end.

    Lemma dedup_In : forall l x, In x (dedup l) <-> In x l.
    Proof.
      induction l as [|a l IH]; intro x; simpl; [tauto|].
      destruct (existsb (fun b => keqb b a) l) eqn:E; simpl; rewrite IH.
      - apply existsb_exists in E. destruct E as (b & Hb & Eb). apply keqb_spec in Eb. subst.
        split; [tauto|]. intros [H|H]; [congruence|assumption].
      - tauto.
    Qed.

    Lemma dedup_NoDup : forall l, NoDup (dedup l).
    Proof.
      induction l as [|a l IH]; simpl; [constructor|].
      destruct (existsb (fun b => keqb b a) l) eqn:E; [assumption|].
      constructor; [|assumption]. rewrite dedup_In. intro H.
      assert (existsb (fun b => keqb b a) l = true); [|congruence].
      apply existsb_exists. exists a. split; [assumption|]. now apply keqb_spec.
    Qed.

    Lemma lin_ext_get : forall d1 d2 F, NoDup (map fst d1) -> NoDup (map fst d2) ->
      (forall k, dget0 d1 k = dget0 d2 k) -> lin d1 F = lin d2 F.
    Proof.
      intros d1 d2 F H1 H2 H.
      set (S := dedup (map fst d1 ++ map fst d2)).
      assert (HS : NoDup S) by apply dedup_NoDup.
      rewrite (lin_support S d1), (lin_support S d2); auto.
      - apply lsum_ext. intros x _. rewrite H. reflexivity.
      - intros x Hx. unfold S. apply dedup_In. apply in_app_iff. tauto.
      - intros x Hx. unfold S. apply dedup_In. apply in_app_iff. tauto.
    Qed.

    Lemma lin_plus_get : forall d d1 d2 F,
      NoDup (map fst d) -> NoDup (map fst d1) -> NoDup (map fst d2) ->
      (forall k, dget0 d k = dget0 d1 k + dget0 d2 k) -> lin d F = lin d1 F + lin d2 F.
    Proof.
      intros d d1 d2 F H0 H1 H2 H.
      set (S := dedup (map fst d ++ map fst d1 ++ map fst d2)).
      assert (HS : NoDup S) by apply dedup_NoDup.
      rewrite (lin_support S d), (lin_support S d1), (lin_support S d2); auto;
        try (intros x Hx; unfold S; apply dedup_In; rewrite !in_app_iff; tauto).
      rewrite <- lsum_plus. apply lsum_ext. intros x _. rewrite H. ring.
    Qed.

    Lemma lin_scale_get : forall d d1 c F,
      NoDup (map fst d) -> NoDup (map fst d1) ->
      (forall k, dget0 d k = c * dget0 d1 k) -> lin d F = c * lin d1 F.
    Proof.
      intros d d1 c F H0 H1 H.
      set (S := dedup (map fst d ++ map fst d1)).
      assert (HS : NoDup S) by apply dedup_NoDup.
      rewrite (lin_support S d), (lin_support S d1); auto;
        try (intros x Hx; unfold S; apply dedup_In; rewrite !in_app_iff; tauto).
      rewrite <- lsum_scale. apply lsum_ext. intros x _. rewrite H. ring.
    Qed.

    Lemma lin_F_ext : forall d F G, (forall k, In k (map fst d) -> F k = G k) -> lin d F = lin d G.
    Proof.
      intros d F G H. unfold lin. apply lsum_ext. intros [k v] Hin. simpl.
      rewrite H; [reflexivity|]. change k with (fst (k, v)). apply in_map. assumption.
    Qed.

    Lemma lin_F_plus : forall d F G, lin d (fun k => F k + G k) = lin d F + lin d G.
    Proof.
      intros. unfold lin. rewrite <- lsum_plus. apply lsum_ext. intros; ring.
    Qed.

    Lemma lin_F_scale : forall d c F, lin d (fun k => c * F k) = c * lin d F.
    Proof.
      intros. unfold lin. rewrite <- lsum_scale. apply lsum_ext. intros; ring.
    Qed.
  End DictSums.
End RingSums.
