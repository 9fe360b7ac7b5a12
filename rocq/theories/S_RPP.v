(* Reverse plane partitions, marked reverse plane partitions and their weights.
   The alphabet is 1' < 1 < 2' < 2 < ..., with k' represented by the integer -k. *)
From Coq Require Import List ZArith.
From Verif Require Import S_Partitions S_Tableaux S_Strips S_Semistandard.
Import ListNotations.
Local Open Scope Z_scope.

(* the order of the alphabet *)
Definition letter_le (x y : Z) : Prop := Z.abs x < Z.abs y \/ (Z.abs x = Z.abs y /\ (x < 0 \/ 0 < y)).

(* T is a filling of the skew shape mu/lam by letters of absolute value 1..n, one per cell, weakly
   increasing along rows and columns, with only the letters that [ok] allows in each cell *)
Definition plane_filling (c : list Z -> Z -> Z -> Prop) (ok : Z -> Z -> Z -> Prop) (n : Z) (lam mu : list Z) (T : list ((Z * Z) * list Z)) : Prop :=
  well_formed T /\
  (forall i j, (exists l, In ((i, j), l) T) <-> in_skew c mu lam i j) /\
  (forall i j l, In ((i, j), l) T -> length l = 1%nat) /\
  (forall i j x, holds T i j x -> 1 <= Z.abs x <= n /\ ok i j x) /\
  (forall i j x y, holds T i j x -> holds T i (j + 1) y -> letter_le x y) /\
  (forall i j x y, holds T i j x -> holds T (i + 1) j y -> letter_le x y).

Definition reverse_plane_partition : Z -> list Z -> list Z -> list ((Z * Z) * list Z) -> Prop :=
  plane_filling cell (fun _ _ x => 0 < x).
(* shifted and marked; the diagonal is primed unless [diagonal_nonprimes] *)
Definition marked_reverse_plane_partition (diagonal_nonprimes : bool) : Z -> list Z -> list Z -> list ((Z * Z) * list Z) -> Prop :=
  plane_filling shifted_cell (fun i j x => diagonal_nonprimes = false -> i = j -> x < 0).

(* the weight counts the columns containing m and, in the marked case, the rows containing m' *)
Definition column_weight (alpha : list Z) (T : list ((Z * Z) * list Z)) : Prop :=
  forall k : nat, cardinality (fun j => exists i, holds T i j (Z.of_nat k + 1)) (nth k alpha 0).
Definition marked_weight (alpha : list Z) (T : list ((Z * Z) * list Z)) : Prop :=
  forall k : nat, exists a b, cardinality (fun j => exists i, holds T i j (Z.of_nat k + 1)) a /\
    cardinality (fun i => exists j, holds T i j (- (Z.of_nat k + 1))) b /\ nth k alpha 0 = a + b.
