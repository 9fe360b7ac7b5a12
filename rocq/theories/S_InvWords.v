(* Specification vocabulary for involution words. *)
From Coq Require Import List ZArith.
From Verif Require Import PyBase S_Perm S_Levels S_PermGroth.
Import ListNotations.
Local Open Scope Z_scope.

(* n is the least length of a word with property W *)
Definition shortest (W : list Z -> Prop) (n : Z) : Prop := (exists v, W v /\ zlen v = n) /\ forall v, W v -> n <= zlen v.
Definition shortest_word (W : list Z -> Prop) (v : list Z) : Prop := W v /\ forall u, W u -> zlen v <= zlen u.
(* multiplication by s_i if it commutes with f, conjugation by s_i otherwise *)
Definition twist_rel (f : Z -> Z) (i : Z) (g : Z -> Z) : Prop :=
  ((forall x, simple i (f x) = f (simple i x)) /\ forall x, g x = f (simple i x)) \/
  ((exists x, simple i (f x) <> f (simple i x)) /\ forall x, g x = simple i (f (simple i x))).
(* the fixed-point-free involutions of 1, ..., n *)
Definition fpf_on (n : Z) (f : Z -> Z) : Prop :=
  (forall x, f (f x) = x) /\ forall x, 1 <= x <= n -> 0 < f x /\ f x <> x.
(* the least even number exceeding all letters *)
Definition least_rank (v : list Z) (n : Z) : Prop :=
  (n mod 2 = 0 /\ 0 <= n /\ Forall (fun i => i < n) v) /\
  forall m, m mod 2 = 0 -> 0 <= m -> Forall (fun i => i < m) v -> n <= m.
