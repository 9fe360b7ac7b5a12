(* Columns of set-valued shifted tableaux, and diagonal cells from which no prime has to be removed *)
From Coq Require Import List ZArith.
From Verif Require Import S_Tableaux S_Semistandard S_Standardize.
Import ListNotations.
Local Open Scope Z_scope.

Definition occupied (T : list ((Z * Z) * list Z)) (i j : Z) : Prop := exists l, In ((i, j), l) T.
(* no unprimed letter twice *)
Definition unprimed_once (l : list Z) : Prop := forall x, 0 < x -> (count_occ Z.eq_dec l x <= 1)%nat.
(* column j: the rows 1, ..., n for some n; letters increase up the column, with no unprimed letter repeated *)
Definition ordered_column (T : list ((Z * Z) * list Z)) (j : Z) : Prop :=
  (forall i i', 1 <= i <= i' -> occupied T i' j -> occupied T i j) /\
  (forall i i' x y, i < i' -> holds T i j x -> holds T i' j y -> column_ok x y) /\
  (forall i l, In ((i, j), l) T -> unprimed_once l).

(* a diagonal cell is settled if it has no primed letter, or just one, larger than the others *)
Definition settled (l : list Z) : Prop := (forall x, In x l -> 0 < x) \/ exists a w, l = - a :: w /\ forall x, In x w -> 0 < x < a.
(* the diagonal cells (1,1), ..., (i,i) are all occupied *)
Definition diagonal_to (T : list ((Z * Z) * list Z)) (i : Z) : Prop := forall k, 1 <= k <= i -> occupied T k k.
