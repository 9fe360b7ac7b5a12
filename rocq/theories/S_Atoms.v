(* Specification vocabulary for atoms of involutions. *)
From Coq Require Import List ZArith.
From Verif Require Import PyBase M_Perm S_Perm S_Levels S_PermGroth S_InvWords.
Import ListNotations.
Local Open Scope Z_scope.

(* f maps positive numbers to positive numbers *)
Definition keeps_sign (f : Z -> Z) : Prop := forall x, 1 <= x -> 1 <= f x.
(* a is the product s_{v_1} s_{v_2} ... of a shortest involution word of f *)
Definition is_atom (f : Z -> Z) (a : list Z) : Prop :=
  canonical a /\ exists v, shortest_word (involution_word f) v /\ forall x, pcall a x = word_map v x.
(* the same for the words that conjugate (1 2)(3 4)...(n-1 n) to f *)
Definition is_fpf_atom (n : Z) (f : Z -> Z) (a : list Z) : Prop :=
  canonical a /\ exists v, shortest_word (symplectic_word n f) v /\ forall x, pcall a x = word_map v x.
(* local conditions on the positions p x of the numbers x in the one-line notation of the inverse of a:
   in each cycle x < f x the larger number stands to the left, no number strictly between x and f x in value
   stands between them, and two cycles that are not nested stand in order *)
Definition atom_line (f p : Z -> Z) : Prop :=
  (forall x, 1 <= x -> x < f x -> p (f x) < p x) /\
  (forall x e, 1 <= x -> x < e < f x -> ~ (p (f x) < p e < p x)) /\
  (forall x y, 1 <= x -> 1 <= y -> x <= f x -> y <= f y -> x < y -> f x < f y -> p x < p (f y)).
