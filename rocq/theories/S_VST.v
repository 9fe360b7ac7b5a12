(* Groups of valued-set tableaux.  k' is written -k.  A cell with an unprimed entry and label 1 continues into its right neighbour,
   a cell with a primed entry and label 1 into the cell of the previous row, see S_Transposed. *)
From Coq Require Import List ZArith Sorted.
From Verif Require Import S_Tableaux S_Transposed.
Import ListNotations.
Local Open Scope Z_scope.

(* one nonzero entry per cell, and a grouping *)
Definition grouped (T G : list ((Z * Z) * list Z)) : Prop :=
  well_formed T /\ (forall c l, In (c, l) T -> exists x, l = [x] /\ x <> 0) /\ grouping_of T G.

(* (i, a), ..., (i, b) is a group of entries x: they are the cells from (i, b) leftwards, of label 1 but for (i, b), as far as possible *)
Definition row_group (T G : list ((Z * Z) * list Z)) (x i a b : Z) : Prop :=
  a <= b /\ (forall j, a <= j <= b -> In ((i, j), [x]) T) /\ (forall j, a <= j < b -> In ((i, j), [1]) G) /\ In ((i, b), [0]) G /\
  ~ (In ((i, a - 1), [x]) T /\ In ((i, a - 1), [1]) G).
(* (a, j), ..., (b, j) likewise *)
Definition column_group (T G : list ((Z * Z) * list Z)) (x j a b : Z) : Prop :=
  a <= b /\ (forall i, a <= i <= b -> In ((i, j), [x]) T) /\ (forall i, a < i <= b -> In ((i, j), [1]) G) /\ In ((a, j), [0]) G /\
  ~ (In ((b + 1, j), [x]) T /\ In ((b + 1, j), [1]) G).
