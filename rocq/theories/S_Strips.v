(* Strips between shapes *)
From Coq Require Import List ZArith.
From Verif Require Import S_Partitions.
Local Open Scope Z_scope.

(* cells of mu/nu; [c] is the diagram relation, cell or shifted_cell *)
Definition in_skew (c : list Z -> Z -> Z -> Prop) (mu nu : list Z) (i j : Z) : Prop := c mu i j /\ ~ c nu i j.
(* no two cells in the same column / in the same row *)
Definition column_free (c : list Z -> Z -> Z -> Prop) (mu nu : list Z) : Prop :=
  forall i i' j, in_skew c mu nu i j -> in_skew c mu nu i' j -> i = i'.
Definition row_free (c : list Z -> Z -> Z -> Prop) (mu nu : list Z) : Prop :=
  forall i j j', in_skew c mu nu i j -> in_skew c mu nu i j' -> j = j'.
(* nu lies between lam and mu *)
Definition between (c : list Z -> Z -> Z -> Prop) (lam nu mu : list Z) : Prop :=
  (forall i j, c lam i j -> c nu i j) /\ (forall i j, c nu i j -> c mu i j).
(* the cells of nu outside lam that can hold one more copy of the largest entry placed on mu/nu: the
   horizontal kind has nothing of nu to its right and nothing of mu below, the vertical kind the transpose *)
Definition free_horizontal (c : list Z -> Z -> Z -> Prop) (lam nu mu : list Z) (i j : Z) : Prop :=
  c nu i j /\ ~ c lam i j /\ ~ c nu i (j + 1) /\ ~ c mu (i + 1) j.
Definition free_vertical (c : list Z -> Z -> Z -> Prop) (lam nu mu : list Z) (i j : Z) : Prop :=
  c nu i j /\ ~ c lam i j /\ ~ c nu (i + 1) j /\ ~ c mu i (j + 1).

(* [r] lists each shape satisfying [K] once, with the cells of [D] and the cells of [C], once each *)
Definition strips_exact (K : list Z -> Prop) (D C : list Z -> Z -> Z -> Prop)
    (r : list (list Z * list (Z * Z) * list (Z * Z))) : Prop :=
  NoDup (map (fun s => fst (fst s)) r) /\
  (forall k, K k <-> exists diff corners, In (k, diff, corners) r) /\
  forall k diff corners, In (k, diff, corners) r ->
    NoDup diff /\ (forall a b, In (a, b) diff <-> D k a b) /\
    NoDup corners /\ (forall a b, In (a, b) corners <-> C k a b).
