(* Interstandard valued-set tableaux: the letters are ordered 1' < 2' < 1 < 2, with two exceptions at the diagonal *)
From Coq Require Import List ZArith.
From Verif Require Import S_Partitions S_Tableaux S_Strips S_Semistandard S_Transposed S_VST.
Import ListNotations.
Local Open Scope Z_scope.

(* all primed letters before all unprimed ones *)
Definition earlier (x y : Z) : Prop := (x < 0 /\ 0 < y) \/ (x < 0 /\ y < 0 /\ Z.abs x < Z.abs y) \/ (0 < x /\ x < y).
Definition inter_row (x y : Z) : Prop := earlier x y \/ (x = y /\ 0 < x).
Definition inter_column (x y : Z) : Prop := earlier x y \/ (x = y /\ x < 0).
Definition interstandard (T G : list ((Z * Z) * list Z)) : Prop :=
  (forall i j x y, holds T i j x -> holds T i (j + 1) y -> inter_row x y \/
     (i = j /\ x = 1 /\ y = -2 /\ (holds T (i + 1) (i + 1) 1 \/ (holds T (i + 1) (i + 1) (-2) /\ In ((i + 1, i + 1), [1]) G)))) /\
  (forall i j x y, holds T i j x -> holds T (i + 1) j y -> inter_column x y \/
     (i + 1 = j /\ x = 1 /\ y = -2 /\ (holds T i i (-2) \/ (holds T i i 1 /\ In ((i, i), [1]) G)))).
Definition letter (x : Z) : Prop := x = 1 \/ x = -1 \/ x = 2 \/ x = -2.
(* of shifted shape mu/nu, with a letter in each cell *)
Definition interstandard_of (mu nu : list Z) (V : list ((Z * Z) * list Z) * list ((Z * Z) * list Z)) : Prop :=
  (forall i j, shifted_cell nu i j -> shifted_cell mu i j) /\ well_formed (fst V) /\
  (forall i j, (exists l, In ((i, j), l) (fst V)) <-> in_skew shifted_cell mu nu i j) /\
  (forall c l, In (c, l) (fst V) -> exists x, l = [x] /\ letter x) /\
  grouping_of (fst V) (snd V) /\ interstandard (fst V) (snd V).
(* two neighbouring cells, the first to the left of or in the row before the second, of the same group *)
Definition linked_row (T G : list ((Z * Z) * list Z)) (i j : Z) : Prop := exists x a b, 0 < x /\ row_group T G x i a b /\ a <= j /\ j + 1 <= b.
Definition linked_column (T G : list ((Z * Z) * list Z)) (i j : Z) : Prop := exists x a b, x < 0 /\ column_group T G x j a b /\ a <= i /\ i + 1 <= b.
