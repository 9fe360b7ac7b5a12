(* Multiset-valued tableaux, described without reference to the program. *)
From Coq Require Import List ZArith Sorted.
From Verif Require Import S_Partitions S_Tableaux S_Semistandard.
Import ListNotations.
Local Open Scope Z_scope.

(* a multiset-valued tableau with columns 1..m, the y-th of which has the cells (1,y)..(h y,y); every entry of a
   cell is smaller than every entry of the cell below it *)
Definition column_strict (m : Z) (h : Z -> Z) (T : list ((Z * Z) * list Z)) : Prop :=
  well_formed T /\
  (forall x y, (exists l, In ((x, y), l) T) <-> 1 <= y <= m /\ 1 <= x <= h y) /\
  (forall c l, In (c, l) T -> l <> []) /\
  (forall x y a b, holds T x y a -> holds T (x + 1) y b -> a < b).
(* the word of one column: the smallest entries of its cells, strictly decreasing, and then the other entries,
   weakly increasing *)
Definition column_reading (w : list Z) (height : Z) : Prop :=
  exists d t, w = d ++ t /\ Z.of_nat (length d) = height /\ StronglySorted Z.gt d /\ increasing t /\
    exists u a, d = u ++ [a] /\ forall b, In b t -> a <= b.
(* semistandard multiset-valued tableau of the partition shape mu *)
Definition multiset_ssyt (mu : list Z) (T : list ((Z * Z) * list Z)) : Prop :=
  well_formed T /\
  (forall x y, (exists l, In ((x, y), l) T) <-> cell mu x y) /\
  (forall c l, In (c, l) T -> l <> []) /\
  (forall x y a b, holds T x y a -> holds T x (y + 1) b -> a <= b) /\
  (forall x y a b, holds T x y a -> holds T (x + 1) y b -> a < b).
(* the entries of T, with multiplicity *)
Definition content (T : list ((Z * Z) * list Z)) : list Z := flat_map snd T.
