(* What a tableau is: a finite map from cells to sorted tuples *)
From Coq Require Import List ZArith Sorted.
Import ListNotations.
Local Open Scope Z_scope.

(* reading order of cells *)
Definition before (a b : Z * Z) : Prop := fst a < fst b \/ (fst a = fst b /\ snd a < snd b).
(* weakly increasing tuple *)
Definition increasing (l : list Z) : Prop := StronglySorted Z.le l.
(* a well-formed tableau: cells in order, positive coordinates, increasing entries *)
Definition well_formed (t : list ((Z * Z) * list Z)) : Prop :=
  StronglySorted before (map fst t) /\
  (forall c l, In (c, l) t -> 0 < fst c /\ 0 < snd c /\ increasing l).
