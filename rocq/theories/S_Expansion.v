(* Specification vocabulary for expansions of symmetric polynomials in a basis. *)
From Coq Require Import List ZArith.
From Verif Require Import PyBase M_Polynomials M_Partitions M_Symmetric M_Expansion S_Polynomials S_Partitions S_Symmetric.
Import ListNotations.
Local Open Scope Z_scope.

(* an int or Polynomial as a list of terms *)
Definition num_terms (x : num) : poly := match x with NI z => [([], z)] | NP p => p end.
(* the coefficient of the monomial m in an int or Polynomial *)
Definition ncoeff (x : num) (m : mono) : Z := coeff (num_terms x) m.

(* stored coefficients: nonzero ints and nonzero Polynomials in canonical form *)
Definition num_canon (x : num) : Prop := match x with NI z => z <> 0 | NP p => canon p /\ p <> [] end.
(* only the variable beta (index 0) occurs *)
Definition beta_only (x : num) : Prop := forall m c, In (m, c) (num_terms x) -> forall t, t <> 0 -> expo m t = 0.
Definition beta_num (x : num) : Prop := num_canon x /\ beta_only x.

(* f[(n, alpha)] and v[mu] *)
Definition at_monomial (f : nsym) (n : nat) (alpha : list Z) : num := nget smono_eqb f (n, alpha).
Definition at_index (v : nvec (list Z)) (mu : list Z) : num := nget zlist_eqb v mu.

(* coefficients indexed by distinct partitions with at most n rows *)
Definition idx_canon (n : nat) (v : nvec (list Z)) : Prop :=
  NoDup (map fst v) /\ forall mu c, In (mu, c) v -> partition mu /\ (length mu <= n)%nat /\ beta_num c.

(* the coefficient of the monomial m in the coefficient of the key k in the sum of basis(mu) * v[mu] *)
Definition combination (basis : list Z -> nsym) (v : nvec (list Z)) (k : smono) (m : mono) : Z :=
  fold_right Z.add 0 (map (fun muc =>
    convolution (num_terms (nget smono_eqb (basis (fst muc)) k)) (num_terms (snd muc)) m) v).

(* coefficients indexed by distinct partitions, each with property ok and at most n rows *)
Definition idx_in (ok : list Z -> Prop) (n : nat) (v : nvec (list Z)) : Prop :=
  NoDup (map fst v) /\ forall mu c, In (mu, c) v -> ok mu /\ (length mu <= n)%nat /\ beta_num c.
(* f is the sum of basis(mu) * v[mu] *)
Definition is_combination (n : nat) (basis : list Z -> res nsym) (v : nvec (list Z)) (f : nsym) : Prop :=
  exists B, (forall mu c, In (mu, c) v -> basis mu = Ok (B mu)) /\ forall alpha m, combination B v (n, alpha) m = ncoeff (at_monomial f n alpha) m.
(* E returns on exactly the combinations of the basis elements with index in ok, and returns their coefficients *)
Definition expands (E : nat -> nsym -> res (nvec (list Z))) (n : nat) (ok : list Z -> Prop) (basis : list Z -> res nsym) : Prop :=
  forall f, sym_canon beta_num n f ->
    (forall c, idx_in ok n c -> is_combination n basis c f ->
       exists v N, (forall fuel, (N <= fuel)%nat -> E fuel f = Ok v) /\ idx_in ok n v /\ forall mu m, ncoeff (at_index v mu) m = ncoeff (at_index c mu) m) /\
    (forall fuel v, E fuel f = Ok v -> idx_in ok n v /\ is_combination n basis v f).
