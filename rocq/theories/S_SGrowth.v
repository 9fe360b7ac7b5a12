(* What a shifted growth diagram should look like *)
From Coq Require Import List ZArith.
From Verif Require Import S_Partitions.
Import ListNotations.
Local Open Scope Z_scope.

(* the partition, the edge label and the corner label at (i, j) of the table; i and j count from 0 *)
Definition part_at (t : list (list (list Z * bool * option Z))) (i j : nat) : list Z := fst (fst (nth j (nth i t []) ([], false, None))).
Definition edge_at (t : list (list (list Z * bool * option Z))) (i j : nat) : bool := snd (fst (nth j (nth i t []) ([], false, None))).
Definition corner_at (t : list (list (list Z * bool * option Z))) (i j : nat) : option Z := snd (nth j (nth i t []) ([], false, None)).

(* lam is inside mu, and no two boxes of mu/lam are in the same row or column *)
Definition rook_strip (lam mu : list Z) : Prop :=
  (forall i j, shifted_cell lam i j -> shifted_cell mu i j) /\
  forall i j i' j', shifted_cell mu i j -> ~ shifted_cell lam i j -> shifted_cell mu i' j' -> ~ shifted_cell lam i' j' -> i = i' \/ j = j' -> i = i' /\ j = j'.
(* mu is lam with one more box *)
Definition one_more (lam mu : list Z) : Prop :=
  exists i j, ~ shifted_cell lam i j /\ forall x y, shifted_cell mu x y <-> shifted_cell lam x y \/ (x = i /\ y = j).
(* (i, j) is the last box of its row and of its column *)
Definition corner_box (mu : list Z) (i j : Z) : Prop := shifted_cell mu i j /\ ~ shifted_cell mu i (j + 1) /\ ~ shifted_cell mu (i + 1) j.
(* the letter of this column has left its mark: a new box, or a corner box named by its row or, on a dashed edge, by its column *)
Definition marked (lam mu : list Z) (e : bool) (c : option Z) : Prop :=
  (one_more lam mu /\ c = None) \/ (mu = lam /\ exists i j, corner_box mu i j /\ c = Some (if e then j else i)).
(* k is the given size, or else the largest entry of l, which may be 0 *)
Definition size_of (l : list Z) (o : option Z) (k : nat) : Prop :=
  match o with Some z => z = Z.of_nat k | None => (k = O \/ In (Z.of_nat k) l) /\ forall x, In x l -> x <= Z.of_nat k end.
