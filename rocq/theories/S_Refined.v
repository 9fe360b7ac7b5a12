(* Specification vocabulary for the tableaux with a given main diagonal. *)
From Coq Require Import List ZArith.
From Verif Require Import S_Tableaux S_Strips S_Semistandard S_RPP.
Import ListNotations.
Local Open Scope Z_scope.

(* the boxes of T on the main diagonal are, from the box (1, 1) on and up to the first one missing, filled by letters of
   absolute values key *)
Definition diagonal_is (T : list ((Z * Z) * list Z)) (key : list Z) : Prop :=
  (forall m, (m < length key)%nat -> exists x, holds T (Z.of_nat m + 1) (Z.of_nat m + 1) x /\ Z.abs x = nth m key 0) /\
  (forall x, ~ holds T (Z.of_nat (length key) + 1) (Z.of_nat (length key) + 1) x).
