(* Valued-set tableaux: a semistandard tableau together with a set of cells, each marked as continuing the
   group of an equal neighbour.  The alphabet is 1' < 1 < 2' < 2 < ..., with k' represented by -k. *)
From Coq Require Import List ZArith.
From Verif Require Import PyBase M_Partitions M_Polynomials M_Symmetric M_Expansion S_Partitions S_Tableaux S_Strips S_Semistandard S_Polynomials S_Symmetric S_Expansion P_Symmetry L_Families S_Dual.
Import ListNotations.
Local Open Scope Z_scope.

(* an unprimed entry may be grouped with an equal entry to its right, a primed one with an equal entry above *)
Definition groupable (T : list ((Z * Z) * list Z)) (i j : Z) : Prop :=
  exists x, holds T i j x /\ (0 < x -> holds T i (j + 1) x) /\ (x < 0 -> holds T (i - 1) j x).
(* G has the cells of T, each with entry 0 or, if groupable, 1 *)
Definition grouping_of (T G : list ((Z * Z) * list Z)) : Prop :=
  well_formed G /\
  (forall i j, (exists l, In ((i, j), l) G) <-> (exists l, In ((i, j), l) T)) /\
  (forall i j l, In ((i, j), l) G -> l = [0] \/ (l = [1] /\ groupable T i j)).
(* a tableau of shape mu/nu with one entry per cell and a grouping of it *)
Definition valued_set_tableau (c : list Z -> Z -> Z -> Prop) (prime_ok : Z -> Z -> Prop) (n : nat) (mu nu : list Z) (V : list ((Z * Z) * list Z) * list ((Z * Z) * list Z)) : Prop :=
  tableau_of c prime_ok false n mu nu (fst V) /\ grouping_of (fst V) (snd V).
(* the weight counts the groups: one cell of each has entry 0 in the grouping *)
Definition group_weight (alpha : list Z) (V : list ((Z * Z) * list Z) * list ((Z * Z) * list Z)) : Prop :=
  forall k : nat, cardinality (fun b => In (b, [0]) (snd V) /\ exists x, holds (fst V) (fst b) (snd b) x /\ Z.abs x = Z.of_nat k + 1) (nth k alpha 0).

(* the coefficients of f at monomials of partitions are the numbers of the V with property Q by weight,
   times powers of beta *)
Definition transposed_coefficients (n : nat) (k : Z) (Q : list ((Z * Z) * list Z) * list ((Z * Z) * list Z) -> Prop) (f : nsym) : Prop :=
  sym_canon beta_num n f /\
  forall alpha, partition alpha -> (length alpha <= n)%nat ->
    exists N, cardinality (fun V => Q V /\ group_weight alpha V) N /\ (N <> 0 -> size alpha <= k) /\ beta_term N (k - size alpha) (at_monomial f n alpha).
