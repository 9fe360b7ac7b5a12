(* C33: the strip enumerators.
   [ord] is the unspecified iteration order of Python sets: the theorems hold for every choice. *)
From Coq Require Import List ZArith Lia Bool Permutation.
From Verif Require Import PyBase M_Partitions S_Partitions L_Partitions L_PartBasic L_Generate M_Strips S_Strips L_Strips L_Strips2 L_Strips3.
Import ListNotations.
Local Open Scope Z_scope.

Lemma strip_spec_exact : forall K D C r, strip_spec K D C r -> strips_exact K D C r.
Proof.
  intros K D C r (N & HK & H). split; [exact N|]. split; [|exact H].
  intro k. rewrite <- HK, in_map_iff. split.
  - intros ([[k' d] c] & E & I). exists d, c. rewrite <- E. exact I.
  - intros (d & c & I). exists (k, d, c). split; [reflexivity|assumption].
Qed.

Theorem C33_horizontal : forall ord mu lam, (forall l, Permutation (ord l) l) -> partition mu -> partition lam ->
  ((forall i j, cell lam i j -> cell mu i j) ->
   exists r, horizontal_strips ord mu lam = Ok r /\
     strips_exact (fun k => partition k /\ between cell lam k mu /\ column_free cell mu k)
                  (in_skew cell mu) (fun k => free_horizontal cell lam k mu) r) /\
  (~ (forall i j, cell lam i j -> cell mu i j) -> horizontal_strips ord mu lam = Ok []).
Proof.
  intros ord mu lam Ho Hm Hl.
  pose proof (dcell_incl false lam mu (fun i => partition_nonneg _ i Hl) (fun i => partition_nonneg _ i Hm)) as [I1 I2]. cbn [dcell] in I1, I2. split.
  - intro H. destruct (horizontal_spec ord Ho mu lam Hm Hl (I1 H)) as (r & E & S0). exists r. split; [assumption|apply strip_spec_exact; assumption].
  - intro H. unfold horizontal_strips. destruct (contains mu lam) eqn:E; [|reflexivity]. exfalso. apply H, I2.
    apply (contains_spec mu lam (partition_weak _ Hm) (partition_weak _ Hl) (partition_trimmed _ Hl)). assumption.
Qed.
Print Assumptions C33_horizontal.

Theorem C33_vertical : forall ord mu lam, (forall l, Permutation (ord l) l) -> partition mu -> partition lam ->
  ((forall i j, cell lam i j -> cell mu i j) ->
   exists r, vertical_strips ord mu lam = Ok r /\
     strips_exact (fun k => partition k /\ between cell lam k mu /\ row_free cell mu k)
                  (in_skew cell mu) (fun k => free_vertical cell lam k mu) r) /\
  (~ (forall i j, cell lam i j -> cell mu i j) -> vertical_strips ord mu lam = Ok []).
Proof.
  intros ord mu lam Ho Hm Hl.
  pose proof (dcell_incl false lam mu (fun i => partition_nonneg _ i Hl) (fun i => partition_nonneg _ i Hm)) as [I1 I2]. cbn [dcell] in I1, I2. split.
  - intro H. destruct (vertical_spec ord Ho mu lam Hm Hl (I1 H)) as (r & E & S0). exists r. split; [assumption|apply strip_spec_exact; assumption].
  - intro H. unfold vertical_strips.
    pose proof (partition_weak _ Hm) as Wm. pose proof (partition_weak _ Hl) as Wl.
    rewrite (proj2 (C33_horizontal ord (transpose mu) (transpose lam) Ho (transpose_partition _ Wm) (transpose_partition _ Wl))); [reflexivity|].
    intro C. apply H. intros i j Hc. specialize (C j i). rewrite !transpose_cell in C by assumption. auto.
Qed.
Print Assumptions C33_vertical.

Theorem C33_shifted_horizontal : forall ord mu lam, (forall l, Permutation (ord l) l) -> strict_partition mu -> strict_partition lam ->
  ((forall i j, shifted_cell lam i j -> shifted_cell mu i j) ->
   exists r, shifted_horizontal_strips ord mu lam = Ok r /\
     strips_exact (fun k => strict_partition k /\ between shifted_cell lam k mu /\ column_free shifted_cell mu k)
                  (in_skew shifted_cell mu) (fun k => free_horizontal shifted_cell lam k mu) r) /\
  (~ (forall i j, shifted_cell lam i j -> shifted_cell mu i j) -> shifted_horizontal_strips ord mu lam = Ok []).
Proof.
  intros ord mu lam Ho Sm Sl. pose proof (strict_is_partition _ Sm) as Hm. pose proof (strict_is_partition _ Sl) as Hl.
  pose proof (dcell_incl true lam mu (fun i => partition_nonneg _ i Hl) (fun i => partition_nonneg _ i Hm)) as [I1 I2]. cbn [dcell] in I1, I2. split.
  - intro H. destruct (shifted_horizontal_spec ord Ho mu lam Sm Sl (I1 H)) as (r & E & S0). exists r. split; [assumption|apply strip_spec_exact; assumption].
  - intro H. unfold shifted_horizontal_strips. rewrite strict_is_strict by assumption. destruct (contains mu lam) eqn:E; [|reflexivity]. exfalso. apply H, I2.
    apply (contains_spec mu lam (partition_weak _ Hm) (partition_weak _ Hl) (partition_trimmed _ Hl)). assumption.
Qed.
Print Assumptions C33_shifted_horizontal.

Theorem C33_shifted_vertical : forall ord mu lam, (forall l, Permutation (ord l) l) -> strict_partition mu -> strict_partition lam ->
  ((forall i j, shifted_cell lam i j -> shifted_cell mu i j) ->
   exists r, shifted_vertical_strips ord mu lam = Ok r /\
     strips_exact (fun k => strict_partition k /\ between shifted_cell lam k mu /\ row_free shifted_cell mu k)
                  (in_skew shifted_cell mu) (fun k => free_vertical shifted_cell lam k mu) r) /\
  (~ (forall i j, shifted_cell lam i j -> shifted_cell mu i j) -> shifted_vertical_strips ord mu lam = Ok []).
Proof.
  intros ord mu lam Ho Sm Sl. pose proof (strict_is_partition _ Sm) as Hm. pose proof (strict_is_partition _ Sl) as Hl.
  pose proof (dcell_incl true lam mu (fun i => partition_nonneg _ i Hl) (fun i => partition_nonneg _ i Hm)) as [I1 I2]. cbn [dcell] in I1, I2. split.
  - intro H. destruct (shifted_vertical_spec ord Ho mu lam Sm Sl (I1 H)) as (r & E & S0). exists r. split; [assumption|apply strip_spec_exact; assumption].
  - intro H. unfold shifted_vertical_strips. rewrite strict_is_strict by assumption. destruct (contains mu lam) eqn:E; [|reflexivity]. exfalso. apply H, I2.
    apply (contains_spec mu lam (partition_weak _ Hm) (partition_weak _ Hl) (partition_trimmed _ Hl)). assumption.
Qed.
Print Assumptions C33_shifted_vertical.

(* the shifted enumerators reject an outer shape of positive parts that is not strict *)
Theorem C33_not_strict : forall ord mu lam, Forall (fun a => 0 < a) mu -> ~ strict_partition mu ->
  shifted_horizontal_strips ord mu lam = Err AssertionError /\ shifted_vertical_strips ord mu lam = Err AssertionError.
Proof.
  intros ord mu lam Hp Hn. unfold shifted_horizontal_strips, shifted_vertical_strips.
  destruct (is_strict_partition mu) eqn:E; [|split; reflexivity]. exfalso. apply Hn. apply is_strict_partition_spec; assumption.
Qed.
Print Assumptions C33_not_strict.

Example C33_example :
  horizontal_strips (fun l => l) [3; 1] [1] =
    Ok [([1], [(1, 2); (1, 3); (2, 1)], []);
        ([2], [(1, 3); (2, 1)], [(1, 2)]);
        ([1; 1], [(1, 2); (1, 3)], [(2, 1)]);
        ([3], [(2, 1)], [(1, 3)]);
        ([2; 1], [(1, 3)], [(1, 2); (2, 1)]);
        ([3; 1], [], [(1, 3); (2, 1)])] /\
  shifted_vertical_strips (fun l => l) [3; 1] [1] =
    Ok [([2], [(1, 3); (2, 2)], []); ([3], [(2, 2)], [(1, 3)]); ([2; 1], [(1, 3)], [(2, 2)]); ([3; 1], [], [(1, 3); (2, 2)])].
Proof. split; vm_compute; reflexivity. Qed.
