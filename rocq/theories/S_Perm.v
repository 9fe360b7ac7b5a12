(* Signed permutations: maps on the integers and one-line words. *)
From Coq Require Import List ZArith Permutation.
From Verif Require Import PyBase.
Import ListNotations.
Local Open Scope Z_scope.

(* the absolute values of the letters are 1, ..., n, each once *)
Definition signed_word (l : list Z) : Prop := Permutation (map Z.abs l) (zrange 1 (zlen l + 1)).
(* no trailing fixed point *)
Definition canonical (l : list Z) : Prop := signed_word l /\ (l <> [] -> last l 0 <> zlen l).

(* odd bijections of Z moving finitely many points *)
Definition signed_map (f : Z -> Z) : Prop :=
  (forall i, f (- i) = - f i) /\
  (forall i j, f i = f j -> i = j) /\ (forall j, exists i, f i = j) /\
  (exists n, 0 <= n /\ forall i, n < Z.abs i -> f i = i).

(* the simple reflections *)
Definition simple (i x : Z) : Z :=
  if i =? 0 then (if Z.abs x =? 1 then - x else x)
  else if x =? i then i + 1 else if x =? i + 1 then i
  else if x =? - i then - i - 1 else if x =? - i - 1 then - i else x.

(* the map of a product of simple reflections *)
Fixpoint word_map (word : list Z) (x : Z) : Z :=
  match word with [] => x | i :: word' => simple i (word_map word' x) end.

(* position i is a descent *)
Definition descent (f : Z -> Z) (i : Z) : Prop := if i =? 0 then f 1 < 0 else f (i + 1) < f i.

(* number of inversions: pairs 1 <= i < j <= n with f i > f j, pairs 1 <= i <= j <= n with - f i > f j *)
Definition inversions (f : Z -> Z) (n : Z) : list (Z * Z * bool) :=
  flat_map (fun i => map (fun j => (i, j, false)) (filter (fun j => f j <? f i) (zrange (i + 1) (n + 1))) ++
                     map (fun j => (i, j, true)) (filter (fun j => f j <? - f i) (zrange i (n + 1)))) (zrange 1 (n + 1)).
