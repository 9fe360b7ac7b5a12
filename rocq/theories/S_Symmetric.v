(* Specification vocabulary for symmetric polynomials in n variables. *)
From Coq Require Import List ZArith Permutation.
From Verif Require Import M_Polynomials S_Polynomials S_Partitions.
Import ListNotations.
Local Open Scope Z_scope.

(* the variables x_1, ..., x_n have indices 1, ..., n; y_1, ..., y_n have indices -1, ..., -n *)
Definition variable (isx : bool) (i : nat) : Z := if isx then Z.of_nat i else - Z.of_nat i.

(* the exponents of x_1, ..., x_n (or y_1, ..., y_n) in m *)
Definition exponents (isx : bool) (n : nat) (m : mono) : list Z := map (fun i => expo m (variable isx i)) (seq 1 n).

(* m is a monomial in these n variables whose nonzero exponents are mu in some order *)
Definition of_type (isx : bool) (n : nat) (mu : list Z) (m : mono) : Prop :=
  Permutation (filter (fun a => negb (a =? 0)) (exponents isx n m)) mu /\
  forall t, expo m t <> 0 -> exists i, In i (seq 1 n) /\ t = variable isx i.

(* a dictionary of monomial symmetric functions in n variables: distinct keys (n, mu) with mu a
   partition of at most n rows, values satisfying [okc] *)
Definition sym_canon {R} (okc : R -> Prop) (n : nat) (f : list ((nat * list Z) * R)) : Prop :=
  NoDup (map fst f) /\
  forall k mu c, In ((k, mu), c) f -> k = n /\ partition mu /\ (length mu <= n)%nat /\ okc c.

Definition nonzero_int (c : Z) : Prop := c <> 0.
Definition nonzero_poly (c : poly) : Prop := canon c /\ c <> [].
