(* Insertion and recording tableaux, stated on finite maps from cells to tuples *)
From Coq Require Import List ZArith Permutation.
Import ListNotations.
Local Open Scope Z_scope.

Definition holds (t : list ((Z * Z) * list Z)) (i j : Z) (l : list Z) : Prop := In ((i, j), l) t.
Definition cell (t : list ((Z * Z) * list Z)) (i j : Z) : Prop := exists l, holds t i j l.

(* the cells form the diagram of a partition: with a cell come all cells weakly above and left of it *)
Definition straight (t : list ((Z * Z) * list Z)) : Prop :=
  forall i j, cell t i j -> 1 <= i /\ 1 <= j /\ forall r c, 1 <= r <= i -> 1 <= c <= j -> cell t r c.
(* one value in every cell, increasing strictly along rows and columns *)
Definition increasing_tableau (t : list ((Z * Z) * list Z)) : Prop :=
  straight t /\ (forall i j l, holds t i j l -> exists x, l = [x]) /\
  (forall i j x y, holds t i j [x] -> holds t i (j + 1) [y] -> x < y) /\
  (forall i j x y, holds t i j [x] -> holds t (i + 1) j [y] -> x < y).
(* nonempty cells containing 1, ..., k once each, with every value of a cell less than every value of its
   right and lower neighbours *)
Definition standard_setvalued (k : Z) (t : list ((Z * Z) * list Z)) : Prop :=
  straight t /\ (forall i j l, holds t i j l -> l <> []) /\
  NoDup (flat_map snd t) /\ (forall x, In x (flat_map snd t) <-> 1 <= x <= k) /\
  (forall i j l m x y, holds t i j l -> holds t i (j + 1) m -> In x l -> In y m -> x < y) /\
  (forall i j l m x y, holds t i j l -> holds t (i + 1) j m -> In x l -> In y m -> x < y).
(* the record may accompany the word: it increases weakly, and strictly after a descent of the word (when
   the recording tableau is multiset-valued) or after a weak ascent (otherwise) *)
Definition compatible (multi : bool) (w r : list Z) : Prop :=
  length r = length w /\
  forall n, (S n < length w)%nat -> nth n r 0 <= nth (S n) r 0 /\
    ((if multi then nth (S n) w 0 < nth n w 0 else nth n w 0 <= nth (S n) w 0) -> nth n r 0 < nth (S n) r 0).
(* semistandard: nonempty cells, weakly increasing along rows and strictly along columns; without
   repetitions inside a cell unless multisets are allowed *)
Definition semistandard_cells (multi : bool) (t : list ((Z * Z) * list Z)) : Prop :=
  (forall i j l, holds t i j l -> l <> [] /\ (multi = true \/ NoDup l)) /\
  (forall i j l m x y, holds t i j l -> holds t i (j + 1) m -> In x l -> In y m -> x <= y) /\
  (forall i j l m x y, holds t i j l -> holds t (i + 1) j m -> In x l -> In y m -> x < y).
