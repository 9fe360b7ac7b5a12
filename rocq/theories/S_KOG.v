(* KOG and KLG tableaux of rims (Buch and Ravikumar). *)
From Coq Require Import List ZArith Sorted.
From Verif Require Import S_Partitions S_Tableaux S_Rims.
Import ListNotations.
Local Open Scope Z_scope.

Definition place := (Z * Z)%type.
(* x lies weakly south-west of y *)
Definition southwest (x y : place) : Prop := fst y <= fst x /\ snd x <= snd y.
(* the order 1' < 1 < 2' < 2 < ... of marked letters; a' is the integer -a *)
Definition mark_rank (v : Z) : Z := if 0 <? v then 2 * v else -2 * v - 1.

(* rows increase strictly to the right, columns strictly downwards *)
Definition strictly_increasing (C : place -> Prop) (r : Z -> Z) (F : place -> Z) : Prop :=
  (forall i j, C (i, j) -> C (i, j + 1) -> r (F (i, j)) < r (F (i, j + 1))) /\
  (forall i j, C (i, j) -> C (i + 1, j) -> r (F (i, j)) < r (F (i + 1, j))).

(* KOG: the entries are exactly 1, ..., p, and each entry is <= all the entries south-west of it or >= all of them *)
Definition kog_filling (C : place -> Prop) (p : Z) (F : place -> Z) : Prop :=
  (forall x, C x -> 1 <= F x <= p) /\ (forall v, 1 <= v <= p -> exists x, C x /\ F x = v) /\
  strictly_increasing C (fun v => v) F /\
  (forall y, C y -> (forall x, C x -> southwest x y -> F x <= F y) \/ (forall x, C x -> southwest x y -> F y <= F x)).

(* KLG: the absolute values are exactly 1, ..., p, entries of the main diagonal are unprimed, a primed entry is <= all the
   entries south-west of it, and an unprimed one >= all of them *)
Definition klg_filling (C : place -> Prop) (p : Z) (F : place -> Z) : Prop :=
  (forall x, C x -> 1 <= Z.abs (F x) <= p) /\ (forall v, 1 <= v <= p -> exists x, C x /\ Z.abs (F x) = v) /\
  strictly_increasing C mark_rank F /\
  (forall i, C (i, i) -> 0 < F (i, i)) /\
  (forall y, C y -> F y < 0 -> forall x, C x -> southwest x y -> mark_rank (F y) <= mark_rank (F x)) /\
  (forall y, C y -> 0 < F y -> forall x, C x -> southwest x y -> mark_rank (F x) <= mark_rank (F y)).

(* the tableau t has the cells C, with the one entry F c in each cell c *)
Definition holds (t : list (place * list Z)) (C : place -> Prop) (F : place -> Z) : Prop :=
  StronglySorted before (map fst t) /\ forall c l, In (c, l) t <-> C c /\ l = [F c].
Definition skew_cell (nu mu : list Z) (c : place) : Prop := shifted_skew_cell nu mu (fst c) (snd c).
Definition KOG_tableau (nu mu : list Z) (p : Z) (t : list (place * list Z)) : Prop :=
  exists F, kog_filling (skew_cell nu mu) p F /\ holds t (skew_cell nu mu) F.
Definition KLG_tableau (nu mu : list Z) (p : Z) (t : list (place * list Z)) : Prop :=
  exists F, klg_filling (skew_cell nu mu) p F /\ holds t (skew_cell nu mu) F.
