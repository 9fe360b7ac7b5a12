(* Specification vocabulary for polynomials, independent of the implementation: a Laurent
   polynomial is a finitely supported function from exponent vectors to Z.
   [coeff f m] is f[m]; [same f g] says that all coefficients agree.  [canon f] is the
   invariant of stored dictionaries: distinct canonical monomials, no zero coefficient. *)
From Coq Require Import List ZArith Sorted.
From Verif Require Import PyBase FinSum M_Polynomials.
Import ListNotations.
Local Open Scope Z_scope.

(* canonical monomial: variables strictly increasing, exponents nonzero *)
Definition canon_mono (m : mono) : Prop :=
  StronglySorted Z.lt (map fst m) /\ Forall (fun te => snd te <> 0) m.

Definition canon (p : poly) : Prop :=
  NoDup (map fst p) /\ Forall (fun iv => canon_mono (fst iv)) p /\ Forall (fun iv => snd iv <> 0) p.

(* exponent of the variable t in a monomial *)
Fixpoint expo (m : mono) (t : Z) : Z :=
  match m with [] => 0 | (s, e) :: m' => if s =? t then e else expo m' t end.

Definition coeff (p : poly) (m : mono) : Z := pget p m.
Definition same (p q : poly) : Prop := forall m, coeff p m = coeff q m.

(* sum over pairs of terms of p and q whose exponent vectors add up to m *)
Definition convolution (p q : poly) (m : mono) : Z :=
  fold_right Z.add 0 (map (fun ax => fold_right Z.add 0 (map (fun by_ =>
     if meqb (mmul (fst ax) (fst by_)) m then snd ax * snd by_ else 0) q)) p).
