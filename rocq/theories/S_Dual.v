(* Specification vocabulary for the dual stable Grothendieck families. *)
From Coq Require Import List ZArith.
From Verif Require Import PyBase M_Partitions M_Polynomials M_Symmetric M_Expansion S_Partitions S_Tableaux S_Strips S_Semistandard S_RPP S_Polynomials S_Symmetric S_Expansion P_Symmetry.
Import ListNotations.
Local Open Scope Z_scope.

(* nu is contained in mu and T is a (marked) reverse plane partition of shape mu/nu with entries up to n *)
Definition rpp_of (n : nat) (mu nu : list Z) (T : list ((Z * Z) * list Z)) : Prop :=
  (forall i j, cell nu i j -> cell mu i j) /\ reverse_plane_partition (Z.of_nat n) nu mu T.
Definition marked_rpp_of (diagonal_nonprimes : bool) (n : nat) (mu nu : list Z) (T : list ((Z * Z) * list Z)) : Prop :=
  (forall i j, shifted_cell nu i j -> shifted_cell mu i j) /\ marked_reverse_plane_partition diagonal_nonprimes (Z.of_nat n) nu mu T.

(* (-1)^e N *)
Definition signed (e N : Z) : Z := if Z.even e then N else - N.

(* P is the sum of (-beta)^(k - |alpha|) x^alpha over the T with property Q, alpha the weight of T *)
Definition generates_dual (isx : bool) (n : nat) (k : Z) (W : list Z -> list ((Z * Z) * list Z) -> Prop) (Q : list ((Z * Z) * list Z) -> Prop) (P : poly) : Prop :=
  canon P /\ forall m, canon_mono m ->
    (in_variables true isx n m -> exists N, cardinality (fun T => Q T /\ W (exponents isx n m) T) N /\
       coeff P m = if expo m 0 =? k - size (exponents isx n m) then signed (expo m 0) N else 0) /\
    (~ in_variables true isx n m -> coeff P m = 0).

(* x is the number c * beta^e *)
Definition beta_term (c e : Z) (x : num) : Prop :=
  forall m, canon_mono m -> ((forall t, expo m t = if t =? 0 then e else 0) -> ncoeff x m = c) /\ (~ (forall t, expo m t = if t =? 0 then e else 0) -> ncoeff x m = 0).

(* the coefficients of f at monomials of partitions are the signed numbers of the T with property Q by weight *)
Definition dual_coefficients (n : nat) (k : Z) (W : list Z -> list ((Z * Z) * list Z) -> Prop) (Q : list ((Z * Z) * list Z) -> Prop) (f : nsym) : Prop :=
  sym_canon beta_num n f /\
  forall alpha, partition alpha -> (length alpha <= n)%nat ->
    exists N, cardinality (fun T => Q T /\ W alpha T) N /\ (N <> 0 -> size alpha <= k) /\ beta_term (signed (k - size alpha) N) (k - size alpha) (at_monomial f n alpha).
