(* What Partition.generate and Partition.all are asked for. *)
From Coq Require Import List ZArith.
From Verif Require Import PyBase S_Partitions.
Local Open Scope Z_scope.

(* bounded by an optional bound; None is no bound *)
Definition le_opt (a : Z) (x : option Z) : Prop := match x with None => True | Some m => a <= m end.

Definition wanted (n : Z) (mp mr : option Z) (strict even : bool) (mu : list Z) : Prop :=
  partition mu /\ size mu = n /\ Forall (fun a => le_opt a mp) mu /\ le_opt (zlen mu) mr /\
  (strict = true -> strict_partition mu) /\ (even = true -> Forall (fun a => a mod 2 = 0) mu).
