(* C08, C09 *)
From Coq Require Import List ZArith Lia Bool Ring.
From Verif Require Import PyBase FinSum M_Vectors L_Vectors S_Vectors L_VectorsSpec.
Import ListNotations.

Theorem C08_vector_module : forall K R keqb rO rI radd rmul rsub ropp rzero,
  @module_spec K R keqb rO rI radd rmul rsub ropp rzero.
Proof. exact module_spec_holds. Qed.
Print Assumptions C08_vector_module.

Theorem C09_vector_product_bilinear : forall K R keqb rO rI radd rmul rsub ropp rzero,
  @product_spec K R keqb rO rI radd rmul rsub ropp rzero.
Proof. exact product_spec_holds. Qed.
Print Assumptions C09_vector_product_bilinear.

Theorem C09_vector_product_assoc_pow : forall K R keqb rO rI radd rmul rsub ropp rzero,
  @assoc_spec K R keqb rO rI radd rmul rsub ropp rzero.
Proof. exact assoc_spec_holds. Qed.
Print Assumptions C09_vector_product_assoc_pow.

(* Example: integer vectors on integer keys, keys multiplied by adding; (x + 2)^3 with
   cancellation in a difference. *)
Definition exmult (a b : Z) : list (Z * Z) := [((a + b)%Z, 1%Z)].

Example C08_example_hyps :
  (forall a b, Z.eqb a b = true <-> a = b) /\
  (forall x, Z.eqb x 0 = true <-> x = 0%Z) /\
  mult_assoc Z.eqb 0%Z Z.add Z.mul exmult /\
  vwf 0%Z [(0, 2); (1, 1)]%Z.
Proof.
  split; [apply Z.eqb_eq|]. split; [intro; apply Z.eqb_eq|]. split.
  - intros a b c m. unfold mcoef, exmult. simpl. rewrite Z.add_assoc. reflexivity.
  - split.
    + simpl. constructor; [simpl; intros [H|[]]; discriminate|]. constructor; [intros []|constructor].
    + repeat constructor; discriminate.
Qed.

Example C09_example_pow :
  vpow Z.eqb 0%Z Z.add Z.mul (Z.eqb 0) exmult [(0, 2); (1, 1)]%Z 3
  = [(0, 8); (1, 12); (2, 6); (3, 1)]%Z.
Proof. vm_compute. reflexivity. Qed.

Example C08_example_sub :
  vsub Z.eqb 0%Z Z.sub (Z.eqb 0) [(0, 2); (1, 1)]%Z [(1, 1); (5, 7)]%Z = [(0, 2); (5, -7)]%Z.
Proof. vm_compute. reflexivity. Qed.
