(* Shared Python fragments used by the models.
   Nothing here transcribes a particular function of /repo; these are the
   semantics of the Python built-ins the code relies on. *)
From Coq Require Import List ZArith Lia Bool Arith.
Import ListNotations.
Local Open Scope Z_scope.

(* Exceptions as values. *)
Inductive exn : Type :=
| AssertionError | IndexError | ValueError | TypeError | KeyError
| NameError | AttributeError | ZeroDivisionError | GenericException | OutOfFuel.

Inductive res (A : Type) : Type :=
| Ok (a : A)
| Err (e : exn).
Arguments Ok {A} a.
Arguments Err {A} e.

Definition rbind {A B} (x : res A) (f : A -> res B) : res B :=
  match x with Ok a => f a | Err e => Err e end.
Notation "'do' x <- e ; f" := (rbind e (fun x => f))
  (at level 200, x name, e at level 100, f at level 200).

Fixpoint rmap {A B} (f : A -> res B) (l : list A) : res (list B) :=
  match l with
  | [] => Ok []
  | a :: l' => do b <- f a; do bs <- rmap f l'; Ok (b :: bs)
  end.

(* len(l) as a Python int *)
Definition zlen {A} (l : list A) : Z := Z.of_nat (length l).

(* sum(l) *)
Fixpoint zsum (l : list Z) : Z :=
  match l with [] => 0 | a :: l' => a + zsum l' end.

(* list(range(a, b)) *)
Definition zrange (a b : Z) : list Z :=
  map (fun k => a + Z.of_nat k) (seq 0 (Z.to_nat (b - a))).

(* itertools.combinations(l, k), in the order Python yields them *)
Fixpoint combinations {A} (l : list A) (k : nat) : list (list A) :=
  match k, l with
  | O, _ => [[]]
  | S _, [] => []
  | S k', a :: l' => map (cons a) (combinations l' k') ++ combinations l' k
  end.

(* equality tests on tuples of ints *)
Fixpoint zlist_eqb (a b : list Z) : bool :=
  match a, b with
  | [], [] => true
  | x :: a', y :: b' => Z.eqb x y && zlist_eqb a' b'
  | _, _ => false
  end.

(* dict as association list in insertion order *)
Section Dict.
  Context {K V : Type} (keqb : K -> K -> bool).

  (* d.get(k) *)
  Fixpoint dget (d : list (K * V)) (k : K) : option V :=
    match d with
    | [] => None
    | (k', v) :: d' => if keqb k' k then Some v else dget d' k
    end.

  (* d[k] = v : overwrite in place, else append *)
  Fixpoint dset (d : list (K * V)) (k : K) (v : V) : list (K * V) :=
    match d with
    | [] => [(k, v)]
    | (k', v') :: d' => if keqb k' k then (k', v) :: d' else (k', v') :: dset d' k v
    end.

  (* del d[k] (no-op when absent) *)
  Fixpoint ddel (d : list (K * V)) (k : K) : list (K * V) :=
    match d with
    | [] => []
    | (k', v') :: d' => if keqb k' k then d' else (k', v') :: ddel d' k
    end.
End Dict.

(* ------------------------------------------------------------------ *)
(* Basic facts *)

Lemma zlist_eqb_eq : forall a b, zlist_eqb a b = true <-> a = b.
Proof.
  induction a as [|x a IH]; destruct b as [|y b]; simpl; split; intro H;
    try reflexivity; try discriminate.
  - apply andb_true_iff in H. destruct H as [H1 H2].
    apply Z.eqb_eq in H1. apply IH in H2. congruence.
  - injection H as H1 H2. subst. rewrite Z.eqb_refl. apply IH. reflexivity.
Qed.

Lemma zlist_eqb_refl : forall a, zlist_eqb a a = true.
Proof. intro a. apply zlist_eqb_eq. reflexivity. Qed.

Lemma zrange_nil : forall a b, b <= a -> zrange a b = [].
Proof.
  intros a b H. unfold zrange. replace (Z.to_nat (b - a)) with O by lia. reflexivity.
Qed.

Lemma zrange_cons : forall a b, a < b -> zrange a b = a :: zrange (a + 1) b.
Proof.
  intros a b H. unfold zrange.
  replace (Z.to_nat (b - a)) with (S (Z.to_nat (b - (a + 1)))) by lia.
  simpl. f_equal; [lia|].
  rewrite <- seq_shift, map_map. apply map_ext. intro k. lia.
Qed.

Lemma In_zrange : forall x a b, In x (zrange a b) <-> a <= x < b.
Proof.
  intros x a b. unfold zrange. rewrite in_map_iff. split.
  - intros (k & Hk & Hin). apply in_seq in Hin. lia.
  - intro H. exists (Z.to_nat (x - a)). split; [lia|]. apply in_seq. lia.
Qed.

Lemma NoDup_zrange : forall a b, NoDup (zrange a b).
Proof.
  intros a b. unfold zrange. generalize (Z.to_nat (b - a)) as n. intro n.
  assert (H : forall s, NoDup (map (fun k => a + Z.of_nat k) (seq s n))).
  { induction n as [|n IH]; intro s; simpl; constructor.
    - rewrite in_map_iff. intros (k & Hk & Hin). apply in_seq in Hin. lia.
    - apply IH. }
  apply H.
Qed.

Lemma length_zrange : forall a b, length (zrange a b) = Z.to_nat (b - a).
Proof. intros. unfold zrange. now rewrite map_length, seq_length. Qed.

Lemma zrange_snoc : forall a b, a < b -> zrange a b = zrange a (b - 1) ++ [b - 1].
Proof.
  intros a b H. unfold zrange.
  replace (Z.to_nat (b - a)) with (S (Z.to_nat (b - 1 - a))) by lia.
  rewrite seq_S, map_app. simpl. f_equal. f_equal. lia.
Qed.

Lemma zlen_nonneg : forall A (l : list A), 0 <= zlen l.
Proof. intros. unfold zlen. lia. Qed.

Lemma zlen_cons : forall A (a : A) l, zlen (a :: l) = zlen l + 1.
Proof. intros. unfold zlen. simpl length. lia. Qed.

Lemma zlen_app : forall A (a b : list A), zlen (a ++ b) = zlen a + zlen b.
Proof. intros. unfold zlen. rewrite app_length. lia. Qed.

Lemma zsum_app : forall a b, zsum (a ++ b) = zsum a + zsum b.
Proof. induction a as [|x a IH]; intro b; simpl; [lia|]. rewrite IH. lia. Qed.

Lemma NoDup_app_intro : forall A (a b : list A),
  NoDup a -> NoDup b -> (forall x, In x a -> In x b -> False) -> NoDup (a ++ b).
Proof.
  induction a as [|x a IH]; intros b Ha Hb Hd; simpl; [assumption|].
  inversion Ha as [|y l Hn Ha']; subst. constructor.
  - rewrite in_app_iff. intros [H|H]; [contradiction|]. apply (Hd x); [left; reflexivity|assumption].
  - apply IH; auto. intros y H1 H2. apply (Hd y); [right; assumption|assumption].
Qed.

Lemma NoDup_map_inj_in : forall A B (f : A -> B) l,
  (forall x y, In x l -> In y l -> f x = f y -> x = y) -> NoDup l -> NoDup (map f l).
Proof.
  induction l as [|a l IH]; intros Hf Hl; simpl; [constructor|].
  inversion Hl as [|x l' Hn Hl']; subst. constructor.
  - rewrite in_map_iff. intros (y & Hy & Hin). apply Hn.
    replace a with y; [assumption|]. apply Hf; [right; assumption|left; reflexivity|assumption].
  - apply IH; auto. intros x y Hx Hy. apply Hf; right; assumption.
Qed.

Lemma NoDup_flat_map : forall A B (f : A -> list B) l,
  NoDup l -> (forall x, In x l -> NoDup (f x)) ->
  (forall x y b, In x l -> In y l -> In b (f x) -> In b (f y) -> x = y) ->
  NoDup (flat_map f l).
Proof.
  induction l as [|a l IH]; intros Hl Hf Hd; simpl; [constructor|].
  inversion Hl as [|x l' Hn Hl']; subst.
  apply NoDup_app_intro.
  - apply Hf. left. reflexivity.
  - apply IH; auto.
    + intros x Hx. apply Hf. right. assumption.
    + intros x y b Hx Hy. apply Hd; right; assumption.
  - intros b H1 H2. apply in_flat_map in H2. destruct H2 as (y & Hy & Hb).
    apply Hn. replace a with y; [assumption|].
    apply (Hd y a b); auto; [right; assumption|left; reflexivity].
Qed.

Lemma NoDup_filter : forall A (f : A -> bool) l, NoDup l -> NoDup (filter f l).
Proof.
  induction l as [|a l IH]; intro H; simpl; [constructor|].
  inversion H as [|x l' Hn Hl']; subst.
  destruct (f a); [constructor|]; auto.
  intro Hin. apply filter_In in Hin. destruct Hin. contradiction.
Qed.

Section DictFacts.
  Context {K V : Type} (keqb : K -> K -> bool).
  Hypothesis keqb_spec : forall a b, keqb a b = true <-> a = b.

  Lemma keqb_refl_ : forall a, keqb a a = true.
  Proof. intro a. apply keqb_spec. reflexivity. Qed.

  Lemma keqb_neq_ : forall a b, a <> b -> keqb a b = false.
  Proof.
    intros a b H. destruct (keqb a b) eqn:E; [|reflexivity].
    apply keqb_spec in E. contradiction.
  Qed.

  Lemma dget_dset_same : forall (d : list (K * V)) k v, dget keqb (dset keqb d k v) k = Some v.
  Proof.
    induction d as [|[k' v'] d IH]; intros k v; simpl.
    - rewrite keqb_refl_. reflexivity.
    - destruct (keqb k' k) eqn:E; simpl; rewrite E; auto.
  Qed.

  Lemma dget_dset_other : forall (d : list (K * V)) k k2 v,
    k <> k2 -> dget keqb (dset keqb d k v) k2 = dget keqb d k2.
  Proof.
    induction d as [|[k' v'] d IH]; intros k k2 v H; simpl.
    - rewrite keqb_neq_; auto.
    - destruct (keqb k' k) eqn:E; simpl.
      + apply keqb_spec in E. subst k'. rewrite keqb_neq_; auto.
      + destruct (keqb k' k2); auto.
  Qed.

  Lemma dget_In : forall (d : list (K * V)) k v, dget keqb d k = Some v -> In (k, v) d.
  Proof.
    induction d as [|[k' v'] d IH]; intros k v H; simpl in *; [discriminate|].
    destruct (keqb k' k) eqn:E.
    - apply keqb_spec in E. left. congruence.
    - right. auto.
  Qed.

  Lemma dget_None_notIn : forall (d : list (K * V)) k, dget keqb d k = None <-> ~ In k (map fst d).
  Proof.
    induction d as [|[k' v'] d IH]; intros k; simpl; [tauto|].
    destruct (keqb k' k) eqn:E.
    - apply keqb_spec in E. subst. split; [discriminate|]. intro H. exfalso. apply H. left. reflexivity.
    - rewrite IH. split; intros H; [|tauto]. intros [H1|H1]; [|tauto]. subst. rewrite keqb_refl_ in E. discriminate.
  Qed.

  Lemma In_dget : forall (d : list (K * V)) k v,
    NoDup (map fst d) -> In (k, v) d -> dget keqb d k = Some v.
  Proof.
    induction d as [|[k' v'] d IH]; intros k v Hn H; simpl in *; [contradiction|].
    inversion Hn as [|x l Hx Hl]; subst. destruct H as [H|H].
    - injection H as H1 H2. subst. rewrite keqb_refl_. reflexivity.
    - rewrite keqb_neq_; [auto|]. intro E. subst. apply Hx.
      change k with (fst (k, v)). apply in_map. assumption.
  Qed.

  Lemma dset_keys_In : forall (d : list (K * V)) k v x,
    In x (map fst (dset keqb d k v)) <-> x = k \/ In x (map fst d).
  Proof.
    induction d as [|[k' v'] d IH]; intros k v x; simpl; [intuition congruence|].
    destruct (keqb k' k) eqn:E; simpl.
    - apply keqb_spec in E. subst. intuition congruence.
    - rewrite IH. intuition congruence.
  Qed.

  Lemma dset_NoDup : forall (d : list (K * V)) k v,
    NoDup (map fst d) -> NoDup (map fst (dset keqb d k v)).
  Proof.
    induction d as [|[k' v'] d IH]; intros k v H; simpl.
    - repeat constructor. intros [].
    - inversion H as [|x l Hx Hl]; subst. destruct (keqb k' k) eqn:E; simpl.
      + constructor; assumption.
      + constructor; [|auto]. rewrite dset_keys_In. intros [H1|H1]; [|contradiction].
        subst. rewrite keqb_refl_ in E. discriminate.
  Qed.

  Lemma ddel_keys_In : forall (d : list (K * V)) k x,
    NoDup (map fst d) -> (In x (map fst (ddel keqb d k)) <-> x <> k /\ In x (map fst d)).
  Proof.
    induction d as [|[k' v'] d IH]; intros k x H; simpl; [tauto|].
    inversion H as [|y l Hx Hl]; subst. destruct (keqb k' k) eqn:E; simpl.
    - apply keqb_spec in E. subst. split.
      + intro Hin. split; [|right; assumption]. intro; subst; contradiction.
      + intros [H1 [H2|H2]]; [congruence|assumption].
    - rewrite IH by assumption. split.
      + intros [H1|[H1 H2]]; [|tauto]. subst. split; [|left; reflexivity].
        intro; subst. rewrite keqb_refl_ in E. discriminate.
      + tauto.
  Qed.

  Lemma ddel_NoDup : forall (d : list (K * V)) k,
    NoDup (map fst d) -> NoDup (map fst (ddel keqb d k)).
  Proof.
    induction d as [|[k' v'] d IH]; intros k H; simpl; [constructor|].
    inversion H as [|y l Hx Hl]; subst. destruct (keqb k' k) eqn:E; simpl; [assumption|].
    constructor; [|auto]. rewrite ddel_keys_In by assumption. tauto.
  Qed.

  Lemma dget_ddel_same : forall (d : list (K * V)) k,
    NoDup (map fst d) -> dget keqb (ddel keqb d k) k = None.
  Proof.
    intros d k H. apply dget_None_notIn. rewrite ddel_keys_In by assumption. tauto.
  Qed.

  Lemma dget_ddel_other : forall (d : list (K * V)) k k2,
    k <> k2 -> dget keqb (ddel keqb d k) k2 = dget keqb d k2.
  Proof.
    induction d as [|[k' v'] d IH]; intros k k2 H; simpl; [reflexivity|].
    destruct (keqb k' k) eqn:E; simpl.
    - apply keqb_spec in E. subst. rewrite keqb_neq_ by assumption. reflexivity.
    - destruct (keqb k' k2); auto.
  Qed.
End DictFacts.

Lemma combinations_In : forall A (l s : list A) k,
  In s (combinations l k) -> length s = k /\ incl s l.
Proof.
  induction l as [|a l IH]; intros s k H; destruct k as [|k]; simpl in H.
  - destruct H as [H|[]]. subst. split; [reflexivity|apply incl_refl].
  - contradiction.
  - destruct H as [H|[]]. subst. split; [reflexivity|intros x []].
  - apply in_app_iff in H. destruct H as [H|H].
    + apply in_map_iff in H. destruct H as (t & Ht & Hin). subst.
      apply IH in Hin. destruct Hin as [H1 H2]. simpl. split; [lia|].
      intros x [Hx|Hx]; [left; assumption|right; auto].
    + apply IH in H. destruct H as [H1 H2]. split; [assumption|]. intros x Hx. right. auto.
Qed.
