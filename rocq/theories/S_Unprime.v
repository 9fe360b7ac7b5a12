(* Cells that form a group of their own in a valued-set tableau *)
From Coq Require Import List ZArith.
From Verif Require Import S_Tableaux S_Transposed S_VST.
Import ListNotations.
Local Open Scope Z_scope.

(* the group of (i, j), with entry x, is this cell alone *)
Definition lonely (T G : list ((Z * Z) * list Z)) (i j x : Z) : Prop :=
  (0 < x /\ row_group T G x i j j) \/ (x < 0 /\ column_group T G x j i i).
(* T' has the cells of T, with the primes removed exactly in the groups of one cell for which P holds *)
Definition unprimed_where (P : Z -> Z -> Prop) (T G T' : list ((Z * Z) * list Z)) : Prop :=
  map fst T' = map fst T /\
  forall i j x, In ((i, j), [x]) T ->
    (P i j -> lonely T G i j x -> In ((i, j), [Z.abs x]) T') /\ (~ (P i j /\ lonely T G i j x) -> In ((i, j), [x]) T').
