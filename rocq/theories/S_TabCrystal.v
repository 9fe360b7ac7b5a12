(* Crystal operators on set-valued tableaux, described without reference to the program. *)
From Coq Require Import List ZArith Sorted.
From Verif Require Import S_Words S_Tableaux S_Semistandard.
Import ListNotations.
Local Open Scope Z_scope.

(* columns from left to right, each from bottom to top, each cell from its largest entry to its smallest *)
Definition reads_before (a b : (Z * Z) * Z) : Prop :=
  match a, b with
  | ((x, y), v), ((x', y'), v') => y < y' \/ (y = y' /\ (x' < x \/ (x = x' /\ v' < v)))
  end.
(* s lists the entries i and i+1 of T in that order *)
Definition reading (i : Z) (T : list ((Z * Z) * list Z)) (s : list ((Z * Z) * Z)) : Prop :=
  StronglySorted reads_before s /\
  forall x y v, In ((x, y), v) s <-> holds T x y v /\ (v = i \/ v = i + 1).
(* T' is the set-valued tableau T with entry v of (a, b) removed and entry u added to (x, y) *)
Definition exchanged (T T' : list ((Z * Z) * list Z)) (a b v x y u : Z) : Prop :=
  well_formed T' /\ (forall c l, In (c, l) T' -> l <> [] /\ NoDup l) /\
  forall p q w, holds T' p q w <-> (holds T p q w /\ ~ (p = a /\ q = b /\ w = v)) \/ (p = x /\ q = y /\ w = u).
(* f: the last unbracketed i of the reading becomes an i+1; but if the cell to its right also holds i,
   that i is removed instead and i+1 is added to the cell *)
Definition f_step (i : Z) (T T' : list ((Z * Z) * list Z)) : Prop :=
  exists X x y Y, reading i T (X ++ ((x, y), i) :: Y) /\ closed_right i (map snd X) /\ closed_left i (map snd Y) /\
    ((holds T x (y + 1) i /\ exchanged T T' x (y + 1) i x y (i + 1)) \/
     (~ holds T x (y + 1) i /\ exchanged T T' x y i x y (i + 1))).
(* e: the first unbracketed i+1 of the reading becomes an i; but if the cell to its left also holds i+1,
   that i+1 is removed instead and i is added to the cell *)
Definition e_step (i : Z) (T T' : list ((Z * Z) * list Z)) : Prop :=
  exists X x y Y, reading i T (X ++ ((x, y), i + 1) :: Y) /\ closed_right i (map snd X) /\ closed_left i (map snd Y) /\
    ((holds T x (y - 1) (i + 1) /\ exchanged T T' x (y - 1) (i + 1) x y i) \/
     (~ holds T x (y - 1) (i + 1) /\ exchanged T T' x y (i + 1) x y i)).
