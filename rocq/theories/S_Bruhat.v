(* Reflections and covers of the Bruhat order. *)
From Coq Require Import List ZArith Bool.
From Verif Require Import PyBase S_Perm.
Import ListNotations.
Local Open Scope Z_scope.

(* the reflection exchanging a with b and - a with - b *)
Definition refl (a b x : Z) : Z :=
  if x =? a then b else if x =? b then a else if x =? - a then - b else if x =? - b then - a else x.
(* f = g o t for a reflection t *)
Definition by_reflection (g f : Z -> Z) : Prop :=
  exists a b, a <> 0 /\ b <> 0 /\ a <> b /\ forall x, f x = g (refl a b x).
(* g = t f t for the reflection t of a and b *)
Definition conj_refl (a b : Z) (f : Z -> Z) (x : Z) : Z := refl a b (f (refl a b x)).
(* the involutions of the positive integers *)
Definition involution_map (f : Z -> Z) : Prop := (forall x, f (f x) = x) /\ forall x, 0 < x -> 0 < f x.
(* f with the additional arc n+1 <-> n+2 *)
Definition extend (n : Z) (f : Z -> Z) (x : Z) : Z := if (Z.abs x =? n + 1) || (Z.abs x =? n + 2) then simple (n + 1) x else f x.
