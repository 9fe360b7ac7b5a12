(* Specification vocabulary for Little bumps. *)
From Coq Require Import List ZArith.
From Verif Require Import PyBase M_Partitions S_Perm S_InvWords S_Bruhat.
Import ListNotations.
Local Open Scope Z_scope.

(* words in s_0, s_1, ... with product f *)
Definition spells (f : Z -> Z) (v : list Z) : Prop := Forall (fun i => 0 <= i) v /\ forall x, word_map v x = f x.
(* the words of least length *)
Definition reduced_word (f : Z -> Z) (v : list Z) : Prop := shortest_word (spells f) v.
(* v is w without one of its letters *)
Definition one_less (w v : list Z) : Prop := exists p s q, w = p ++ s :: q /\ v = p ++ q.
(* letter by letter at least as large, of the same length, going up and down at the same places *)
Definition raised (w v : list Z) : Prop :=
  zlen v = zlen w /\ (forall k, 0 <= k < zlen w -> nthz w k <= nthz v k) /\
  forall k, 0 <= k -> k + 1 < zlen w -> (nthz w k < nthz w (k + 1) <-> nthz v k < nthz v (k + 1)).
