(* Rims and vertical strips of shifted shapes. *)
From Coq Require Import List ZArith.
From Verif Require Import S_Partitions.
Import ListNotations.
Local Open Scope Z_scope.

(* box (i, j) of the shifted skew shape nu/mu *)
Definition shifted_skew_cell (nu mu : list Z) (i j : Z) : Prop := shifted_cell nu i j /\ ~ shifted_cell mu i j.
(* nu/mu is a rim: mu lies in nu, and no two boxes of nu/mu follow each other on a diagonal *)
Definition is_rim (nu mu : list Z) : Prop :=
  (forall i, row mu i <= row nu i) /\ forall i j, ~ (shifted_skew_cell nu mu i j /\ shifted_skew_cell nu mu (i + 1) (j + 1)).
(* nu/mu has at most one box in each row *)
Definition vertical_strip (nu mu : list Z) : Prop := forall i, row nu i - 1 <= row mu i <= row nu i.
