(* The positions of a skew shape, and shapes up to translation *)
From Coq Require Import List ZArith.
From Verif Require Import S_Partitions.
Import ListNotations.
Local Open Scope Z_scope.

Definition skew_cell (shifted : bool) (mu nu : list Z) (i j : Z) : Prop :=
  if shifted then shifted_cell mu i j /\ ~ shifted_cell nu i j else cell mu i j /\ ~ cell nu i j.
(* Q is P moved by c rows and d columns *)
Definition translated (P Q : Z -> Z -> Prop) (c d : Z) : Prop := forall i j, P i j <-> Q (i + c) (j + d).
Definition on_diagonal (P : Z -> Z -> Prop) : Prop := exists i, P i i.
(* pairs in strictly increasing lexicographic order *)
Fixpoint increasing_pairs (l : list (Z * Z)) : Prop :=
  match l with
  | (i, j) :: (((i', j') :: _) as r) => (i < i' \/ i = i' /\ j < j') /\ increasing_pairs r
  | _ => True
  end.
