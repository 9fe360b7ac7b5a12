(* What partitions, shapes and cells are.  Rows are numbered from 0 in [row], cells from 1. *)
From Coq Require Import List ZArith.
Import ListNotations.
Local Open Scope Z_scope.

(* length of row i (0-based), 0 below the last row *)
Definition row (mu : list Z) (i : nat) : Z := nth i mu 0.

(* partition with positive parts *)
Definition partition (mu : list Z) : Prop :=
  Forall (fun a => 0 < a) mu /\ forall i, row mu (S i) <= row mu i.

(* strict partition with positive parts *)
Definition strict_partition (mu : list Z) : Prop :=
  Forall (fun a => 0 < a) mu /\ forall i, (S i < length mu)%nat -> row mu (S i) < row mu i.

(* the same, trailing (or any) zero parts allowed *)
Definition weak_partition (mu : list Z) : Prop :=
  Forall (fun a => 0 <= a) mu /\ forall i, row mu (S i) <= row mu i.

(* no trailing zeros *)
Definition trimmed (mu : list Z) : Prop := mu = [] \/ last mu 0 <> 0.

(* cell (i, j), 1-based, of the unshifted / shifted diagram *)
Definition cell (mu : list Z) (i j : Z) : Prop :=
  1 <= i /\ 1 <= j <= row mu (Z.to_nat (i - 1)).
Definition shifted_cell (mu : list Z) (i j : Z) : Prop :=
  1 <= i /\ i <= j <= i - 1 + row mu (Z.to_nat (i - 1)).

(* cellwise inclusion *)
Definition included (nu mu : list Z) : Prop := forall i j, cell nu i j -> cell mu i j.

(* number of cells *)
Fixpoint size (mu : list Z) : Z := match mu with [] => 0 | a :: r => a + size r end.

(* partition or strict partition, as selected by the flag *)
Definition part_b (strict : bool) (mu : list Z) : Prop := if strict then strict_partition mu else partition mu.


(* cells with nothing to the right and nothing below *)
Definition corner_cell (mu : list Z) (i j : Z) : Prop := cell mu i j /\ ~ cell mu (i + 1) j /\ ~ cell mu i (j + 1).
Definition shifted_corner_cell (mu : list Z) (i j : Z) : Prop :=
  shifted_cell mu i j /\ ~ shifted_cell mu (i + 1) j /\ ~ shifted_cell mu i (j + 1).

(* mu/rho is a horizontal strip *)
Definition hstrip (rho mu : list Z) : Prop := forall k, row mu (S k) <= row rho k <= row mu k.

(* f 0 + ... + f (n-1) *)
Fixpoint psum (f : nat -> Z) (n : nat) : Z := match n with O => 0 | S n' => psum f n' + f n' end.
