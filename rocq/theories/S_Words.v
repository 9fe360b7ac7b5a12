(* Specification vocabulary for words, independent of M_Words. *)
From Coq Require Import List ZArith.
Import ListNotations.
Local Open Scope Z_scope.

Definition occ (a : Z) (w : list Z) : Z := Z.of_nat (count_occ Z.eq_dec w a).

(* every letter i+1 of x is bracketed with a later letter i of x *)
Definition closed_right (i : Z) (x : list Z) : Prop :=
  forall p s, x = p ++ s -> occ (i + 1) s <= occ i s.
(* every letter i of y is bracketed with an earlier letter i+1 of y *)
Definition closed_left (i : Z) (y : list Z) : Prop :=
  forall p s, y = p ++ s -> occ i p <= occ (i + 1) p.

(* signature rule: v is w with the last unbracketed i changed into i+1 *)
Definition f_rule (i : Z) (w v : list Z) : Prop :=
  exists x y, w = x ++ i :: y /\ v = x ++ (i + 1) :: y /\ closed_right i x /\ closed_left i y.
(* v is w with the first unbracketed i+1 changed into i *)
Definition e_rule (i : Z) (w v : list Z) : Prop :=
  exists x y, w = x ++ (i + 1) :: y /\ v = x ++ i :: y /\ closed_right i x /\ closed_left i y.

(* one letter differs *)
Definition replaced (a b : Z) (w v : list Z) : Prop :=
  exists x y, w = x ++ a :: y /\ v = x ++ b :: y.

(* rel holds between any two letters, the earlier one first *)
Definition pairwise (rel : Z -> Z -> Prop) (w : list Z) : Prop :=
  forall p q, (p < q < length w)%nat -> rel (nth p w 0) (nth q w 0).

Definition zprod (l : list Z) : Z := fold_right Z.mul 1 l.
Definition wlens (us : list (list Z)) : list Z := map (fun u => Z.of_nat (length u)) us.
