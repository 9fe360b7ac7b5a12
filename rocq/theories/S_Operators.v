(* What adding / removing boxes of a shifted diagram means.  The diagonal of cell (i, j) is j - i. *)
From Coq Require Import List ZArith.
From Verif Require Import S_Partitions.
Import ListNotations.
Local Open Scope Z_scope.

(* mu has a removable cell on diagonal d *)
Definition corner_on (mu : list Z) (d : Z) : Prop := exists r, shifted_corner_cell mu r (r + d).

(* nu is mu with one more cell, on diagonal d *)
Definition box_added (mu nu : list Z) (d : Z) : Prop :=
  exists r, ~ shifted_cell mu r (r + d) /\
    forall i j, shifted_cell nu i j <-> shifted_cell mu i j \/ (i = r /\ j = r + d).

(* nu is mu with new cells exactly one on each of the diagonals a..b, all of them in one row / column *)
Definition row_strip_added (mu nu : list Z) (a b : Z) : Prop :=
  exists r, (forall d, a <= d <= b -> ~ shifted_cell mu r (r + d)) /\
    forall i j, shifted_cell nu i j <-> shifted_cell mu i j \/ (i = r /\ r + a <= j <= r + b).
Definition column_strip_added (mu nu : list Z) (a b : Z) : Prop :=
  exists c, (forall d, a <= d <= b -> ~ shifted_cell mu (c - d) c) /\
    forall i j, shifted_cell nu i j <-> shifted_cell mu i j \/ (j = c /\ c - b <= i <= c - a).
