(* Specification vocabulary for C10: rational span, homogeneous systems, echelon form. *)
From Coq Require Import List ZArith QArith.
Import ListNotations.

(* sum of c_j * l_j *)
Definition qdot (c l : list Q) : Q := fold_right Qplus 0%Q (map (fun p => fst p * snd p)%Q (combine c l)).

Definition entry (mat : list (list Z)) (i j : nat) : Z := nth j (nth i mat []) 0%Z.

(* x solves the homogeneous system with the rows of mat *)
Definition solves (mat : list (list Z)) (x : list Q) : Prop :=
  forall r, In r mat -> (qdot (map inject_Z r) x == 0)%Q.

Definition is_matrix (m n : nat) (mat : list (list Z)) : Prop :=
  length mat = m /\ forall r, In r mat -> length r = n.

(* row echelon: rows 0 .. length ps - 1 have their first nonzero entry in the strictly increasing
   columns ps, all other rows are zero *)
Definition echelon (mat : list (list Z)) : Prop :=
  exists ps : list nat, (length ps <= length mat)%nat /\
    (forall s t, (s < t < length ps)%nat -> (nth s ps O < nth t ps O)%nat) /\
    (forall t, (t < length ps)%nat -> entry mat t (nth t ps O) <> 0%Z /\
       forall c, (c < nth t ps O)%nat -> entry mat t c = 0%Z) /\
    (forall t c, (length ps <= t)%nat -> entry mat t c = 0%Z).
