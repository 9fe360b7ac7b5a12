(* Semistandard and standard tableaux and standardisation.
   The alphabet is 1' < 1 < 2' < 2 < ..., with k' represented by the integer -k; a cell holds a multiset of letters. *)
From Coq Require Import List ZArith Permutation.
From Verif Require Import S_Tableaux S_Semistandard.
Import ListNotations.
Local Open Scope Z_scope.

(* a tableau whose cells are nonempty and which has no entry 0 *)
Definition lettered (T : list ((Z * Z) * list Z)) : Prop :=
  well_formed T /\ (forall c l, In (c, l) T -> l <> []) /\ (forall i j x, holds T i j x -> x <> 0).

(* entries of neighbouring cells are in order, and the diagonal is unprimed unless diagonal primes are allowed *)
Definition ordered_entries (diagonal_primes : bool) (T : list ((Z * Z) * list Z)) : Prop :=
  (forall i j x y, holds T i j x -> holds T i (j + 1) y -> row_ok x y) /\
  (forall i j x y, holds T i j x -> holds T (i + 1) j y -> column_ok x y) /\
  (diagonal_primes = false -> forall i x, holds T i i x -> 0 < x).

(* the absolute values of the entries are 1, 2, ..., N, each once *)
Definition labelled_once (N : nat) (T : list ((Z * Z) * list Z)) : Prop :=
  length (flat_map snd T) = N /\ NoDup (map Z.abs (flat_map snd T)) /\
  forall x, In x (flat_map snd T) -> 1 <= Z.abs x <= Z.of_nat N.

Definition letter_lt (x y : Z) : Prop := Z.abs x < Z.abs y \/ (Z.abs x = Z.abs y /\ x < 0 /\ 0 < y).

(* S numbers the entries of T: the entries of T in each cell are the letters of the numbers in that cell, a number is primed
   if its letter is, larger numbers have larger letters or, for the same letter, are in the same or a later column (unprimed letters), in the
   same or a later row (primed letters) *)
Definition standardization_of (T S : list ((Z * Z) * list Z)) : Prop :=
  well_formed S /\ map fst S = map fst T /\ labelled_once (length (flat_map snd T)) S /\
  exists letter : Z -> Z,
    (forall c l m, In (c, l) T -> In (c, m) S -> Permutation (map (fun s => letter (Z.abs s)) m) l) /\
    (forall i j s, holds S i j s -> (0 < s <-> 0 < letter (Z.abs s))) /\
    (forall i j a p q b, holds S i j a -> holds S p q b -> Z.abs a < Z.abs b ->
       letter_lt (letter (Z.abs a)) (letter (Z.abs b)) \/
       (letter (Z.abs a) = letter (Z.abs b) /\ (0 < letter (Z.abs a) -> j <= q) /\ (letter (Z.abs a) < 0 -> i <= p))).
