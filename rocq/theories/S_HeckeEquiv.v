(* Words up to the relations of the 0-Hecke monoid of the (infinite) symmetric group *)
From Coq Require Import List ZArith.
Import ListNotations.
Local Open Scope Z_scope.

(* a a = a;  a b = b a if a and b are not adjacent;  a (a+1) a = (a+1) a (a+1) *)
Inductive hecke_equiv : list Z -> list Z -> Prop :=
| he_refl : forall u, hecke_equiv u u
| he_sym : forall u v, hecke_equiv u v -> hecke_equiv v u
| he_trans : forall u v w, hecke_equiv u v -> hecke_equiv v w -> hecke_equiv u w
| he_idem : forall u v a, hecke_equiv (u ++ [a; a] ++ v) (u ++ [a] ++ v)
| he_comm : forall u v a b, 1 < Z.abs (a - b) -> hecke_equiv (u ++ [a; b] ++ v) (u ++ [b; a] ++ v)
| he_braid : forall u v a, hecke_equiv (u ++ [a; a + 1; a] ++ v) (u ++ [a + 1; a; a + 1] ++ v).
