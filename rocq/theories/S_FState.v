(* Shifted insertion and recording tableaux, stated on finite maps from cells to tuples *)
From Coq Require Import List ZArith.
From Verif Require Import S_Insertion.
Import ListNotations.
Local Open Scope Z_scope.

(* the cells form the shifted diagram of a strict partition: they lie weakly above the diagonal, and with a
   cell come all cells weakly above and left of it that lie weakly above the diagonal *)
Definition shifted_cells (t : list ((Z * Z) * list Z)) : Prop :=
  forall i j, cell t i j -> 1 <= i <= j /\ forall r c, 1 <= r <= i -> r <= c <= j -> cell t r c.
(* one value in every cell, increasing strictly along rows and columns *)
Definition increasing_shifted (t : list ((Z * Z) * list Z)) : Prop :=
  shifted_cells t /\ (forall i j l, holds t i j l -> exists x, l = [x]) /\
  (forall i j x y, holds t i j [x] -> holds t i (j + 1) [y] -> x < y) /\
  (forall i j x y, holds t i j [x] -> holds t (i + 1) j [y] -> x < y).
(* nonempty cells; a negative value is a primed letter.  The absolute values are 1, ..., k once each, they
   increase from a cell to its right and lower neighbours, and diagonal cells hold no primed letter *)
Definition standard_marked (k : Z) (t : list ((Z * Z) * list Z)) : Prop :=
  shifted_cells t /\ (forall i j l, holds t i j l -> l <> []) /\
  NoDup (map Z.abs (flat_map snd t)) /\ (forall n, In n (map Z.abs (flat_map snd t)) <-> 1 <= n <= k) /\
  (forall i j l m x y, holds t i j l -> holds t i (j + 1) m -> In x l -> In y m -> Z.abs x < Z.abs y) /\
  (forall i j l m x y, holds t i j l -> holds t (i + 1) j m -> In x l -> In y m -> Z.abs x < Z.abs y) /\
  (forall i l x, holds t i i l -> In x l -> 0 < x).
