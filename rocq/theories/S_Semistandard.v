(* (Set-valued, marked, shifted) semistandard tableaux.
   The alphabet is 1' < 1 < 2' < 2 < ..., with k' represented by the integer -k. *)
From Coq Require Import List ZArith.
From Verif Require Import S_Partitions S_Tableaux S_Strips.
Import ListNotations.
Local Open Scope Z_scope.

(* x is one of the entries of T in cell (i, j) *)
Definition holds (T : list ((Z * Z) * list Z)) (i j x : Z) : Prop := exists l, In ((i, j), l) T /\ In x l.

(* x may stand immediately left of y / immediately above y: weakly increasing, with no primed
   letter repeated in a row and no unprimed letter repeated in a column *)
Definition row_ok (x y : Z) : Prop := Z.abs x < Z.abs y \/ (Z.abs x = Z.abs y /\ 0 < y).
Definition column_ok (x y : Z) : Prop := Z.abs x < Z.abs y \/ (Z.abs x = Z.abs y /\ x < 0).

(* T is a filling of the skew shape mu/lam by nonempty sets (singletons unless [setvalued]) of
   letters of absolute value 1..n, primed letters only where [prime_ok] allows them *)
Definition semistandard_filling (c : list Z -> Z -> Z -> Prop) (prime_ok : Z -> Z -> Prop) (setvalued : bool)
    (n : Z) (lam mu : list Z) (T : list ((Z * Z) * list Z)) : Prop :=
  well_formed T /\
  (forall i j, (exists l, In ((i, j), l) T) <-> in_skew c mu lam i j) /\
  (forall i j l, In ((i, j), l) T -> l <> [] /\ NoDup l /\ (setvalued = false -> length l = 1%nat)) /\
  (forall i j x, holds T i j x -> 1 <= Z.abs x <= n /\ (x < 0 -> prime_ok i j)) /\
  (forall i j x y, holds T i j x -> holds T i (j + 1) y -> row_ok x y) /\
  (forall i j x y, holds T i j x -> holds T (i + 1) j y -> column_ok x y).

(* number of entries of absolute value m *)
Definition occurrences (m : Z) (T : list ((Z * Z) * list Z)) : Z :=
  Z.of_nat (length (filter (fun x => Z.abs x =? m) (flat_map snd T))).
(* the weight of T is alpha, padded by zeros *)
Definition has_weight (alpha : list Z) (T : list ((Z * Z) * list Z)) : Prop :=
  forall k : nat, occurrences (Z.of_nat k + 1) T = nth k alpha 0.

(* exactly N objects have property P *)
Definition cardinality {A} (P : A -> Prop) (N : Z) : Prop :=
  exists l, NoDup l /\ (forall x, In x l <-> P x) /\ Z.of_nat (length l) = N.
