(* Model of symmetric.py: coefficients that are ints or Polynomials, the stable Grothendieck
   families and the expansion of symmetric polynomials in a basis.
   The caches of _schur and _stable_grothendieck are left out (see C01, C02); nothing in
   the code modelled here writes to the cached values. *)
From Coq Require Import List ZArith Lia Bool.
From Verif Require Import PyBase FinSum M_Partitions M_Vectors M_Polynomials M_Tableaux M_Semistandard M_Symmetric.
Import ListNotations.
Local Open Scope Z_scope.

(* a coefficient of a Vector: an int or a Polynomial *)
Inductive num : Type := NI (z : Z) | NP (p : poly).

(* polynomials.py:166-167  an int operand of + becomes other * Polynomial.monomial(0, 0) *)
Definition pint (z : Z) : poly := pmul (pmonomial 0 0) (pconst z).

(* x + y: int addition, polynomials.py:165-177 (__add__, __radd__) *)
Definition nadd (x y : num) : num :=
  match x, y with
  | NI a, NI b => NI (a + b)
  | NP p, NI b => NP (padd p (pint b))
  | NI a, NP q => NP (padd q (pint a))
  | NP p, NP q => NP (padd p q)
  end.
(* x - y: int subtraction, polynomials.py:182-189 (__neg__, __sub__, __rsub__) *)
Definition nsub (x y : num) : num :=
  match x, y with
  | NI a, NI b => NI (a - b)
  | NP p, NI b => NP (padd p (pint (- b)))
  | NI a, NP q => NP (pneg (padd q (pint (- a))))
  | NP p, NP q => NP (psub p q)
  end.
(* x * y: int multiplication, polynomials.py:199-221 (__mul__, __rmul__) *)
Definition nmul (x y : num) : num :=
  match x, y with
  | NI a, NI b => NI (a * b)
  | NP p, NI b => NP (pmul p (pconst b))
  | NI a, NP q => NP (pmul q (pconst a))
  | NP p, NP q => NP (pmul p q)
  end.
(* not x: polynomials.py:55-56 (__bool__) *)
Definition nzero (x : num) : bool := match x with NI z => z =? 0 | NP p => pis_zero p end.

(* vectors with such coefficients *)
Definition nvec (K : Type) : Type := list (K * num).
Section NVec.
  Context {K : Type} (keqb : K -> K -> bool).
  Definition nget (v : nvec K) (k : K) : num := vget keqb (NI 0) v k.
  Definition nvadd (v w : nvec K) : nvec K := vadd keqb (NI 0) nadd nzero v w.
  Definition nvsub (v w : nvec K) : nvec K := vsub keqb (NI 0) nsub nzero v w.
  Definition nvscale (v : nvec K) (c : num) : nvec K := vscale keqb (NI 0) nmul nzero v c.
  Definition nveq (v w : nvec K) : bool := veq keqb (NI 0) nsub nzero v w.
End NVec.
Definition nsym : Type := nvec smono.

(* polynomials.py:338  beta *)
Definition beta : poly := pmonomial 0 1.
(* BETA**k; a power of a monomial is never Python's None *)
Definition beta_pow (k : Z) : poly := match ppow beta k with Some q => q | None => [] end.

(* symmetric.py:256-264  _vectorize(n, tableaux, signs, degree_bound), signs a Polynomial whose powers
   are given by [sgn] *)
Definition nvectorize (n : nat) (tableaux : cdict) (sgn : Z -> poly) (degree_bound : option Z) : res nsym :=
  do d <- rfold (fun d pc =>
      let count := nmul (NI (snd pc)) (NP (sgn (zsum (fst pc)))) in
      do m <- smake n (fst pc);
      Ok (dset smono_eqb d m (nadd (nget smono_eqb d m) count))) tableaux [];
  let d := match degree_bound with
           | Some b => filter (fun mc => zsum (snd (fst mc)) <=? b) d
           | None => d
           end in
  Ok (vmake nzero d).

Section Families.
  Variable ord : list (list Z) -> list (list Z).
  (* symmetric.py:266-273  schur(num_variables, mu): its coefficients are ints *)
  Definition schur_num (n : nat) (mu : list Z) : res nsym :=
    do f <- schur ord n mu []; Ok (map (fun mc => (fst mc, NI (snd mc))) f).
  (* symmetric.py:361-368  stable_grothendieck(num_variables, mu, nu, degree_bound) *)
  Definition stable_grothendieck (n : nat) (mu nu : list Z) (degree_bound : option Z) : res nsym :=
    do tableaux <- count_semistandard ord n mu nu true;
    do f <- nvectorize n tableaux beta_pow degree_bound;
    Ok (nvscale smono_eqb f (NP (beta_pow (zsum nu - zsum mu)))).
End Families.

(* symmetric.py:48-49 *)
Definition sdegree (m : smono) : Z := zsum (snd m).
(* min(l), max(l) of a nonempty list of ints, 0 for the empty one *)
Definition zmin (l : list Z) : Z := match l with [] => 0 | a :: r => fold_left Z.min r a end.
Definition zmax (l : list Z) : Z := match l with [] => 0 | a :: r => fold_left Z.max r a end.
(* symmetric.py:240-254  lowest_degree_terms, highest_degree_terms *)
Definition lowest_degree_terms (f : nsym) : nsym :=
  let m := zmin (map (fun mc => sdegree (fst mc)) f) in vmake nzero (filter (fun mc => sdegree (fst mc) =? m) f).
Definition highest_degree_terms (f : nsym) : nsym :=
  let m := zmax (map (fun mc => sdegree (fst mc)) f) in vmake nzero (filter (fun mc => sdegree (fst mc) =? m) f).

(* max(f): a later key replaces the current one if current < key, symmetric.py:51-54 *)
Definition smax (f : nsym) : res smono :=
  match map fst f with
  | [] => Err ValueError
  | a :: r => rfold (fun cur m =>
      if Nat.eqb (fst cur) (fst m) then Ok (if lex_ltb (snd cur) (snd m) then m else cur) else Err AssertionError) r a
  end.
(* symmetric.py:490-498 *)
Definition term_from_lowest_degree (f : nsym) : res smono := smax (lowest_degree_terms f).
Definition term_from_highest_degree (f : nsym) : res smono := smax (highest_degree_terms f).

(* symmetric.py:443-449  (c, cdeg); a Polynomial without terms has total_degree None, which makes BETA**cdeg
   raise a TypeError *)
Definition leading (cpol : num) : res (num * Z) :=
  match cpol with
  | NI z => Ok (NI z, 0)
  | NP p => match ptotal_degree p with
            | Some cdeg => Ok (NP (pcoefficient p 0 cdeg), cdeg)
            | None => Err TypeError
            end
  end.
(* symmetric.py:451-455  d; the handler of the failed assertion refers to the unbound local d (line 460) *)
Definition divisor (gt : num) : res Z :=
  match gt with
  | NI z => Ok z
  | NP p => if pis_integer p then Ok (pconstant_term p) else Err NameError
  end.
(* symmetric.py:464-465  assert c % d == 0; c // d * BETA**cdeg *)
Definition quotient (c : num) (d cdeg : Z) : res poly :=
  match c with
  | NI z =>
      if d =? 0 then Err ZeroDivisionError
      else if z mod d =? 0 then Ok (pmul (beta_pow cdeg) (pconst (z / d))) else Err AssertionError
  | NP p =>
      if (d =? 0) && negb (Nat.eqb (length p) 0) then Err ZeroDivisionError
      else if nzero (nsub (NP (pmod p d)) (NI 0)) then Ok (pmul (pfloordiv p d) (beta_pow cdeg)) else Err AssertionError
  end.

Section Expansion.
  Variable function : nat -> list Z -> res nsym.
  Variable get_term : nsym -> res smono.

  (* symmetric.py:472  sum(function(n, x) * y for x, y in ans.items()); None is the int 0 *)
  Definition combine_terms (n : nat) (ans : nvec (list Z)) : res (option nsym) :=
    rfold (fun acc xy =>
      do g <- function n (fst xy);
      let t := nvscale smono_eqb g (snd xy) in
      Ok (Some (match acc with None => t | Some s => nvadd smono_eqb s t end))) ans None.

  (* symmetric.py:434-488  _expansion(f, function, get_term).  The recursion depth is bounded by [fuel].
     A failed final check prints, waits for a line of input and raises Exception; when function raises
     there, the handler refers to the unbound local expected (line 480). *)
  Fixpoint expansion (fuel : nat) (f : nsym) : res (nvec (list Z)) :=
    match fuel with
    | O => Err OutOfFuel
    | S fuel' =>
        match f with
        | [] => Ok []
        | _ =>
            do t <- get_term f;
            let n := fst t in
            let mu := snd t in
            do g <- function n mu;
            do cc <- leading (nget smono_eqb f t);
            do d <- divisor (nget smono_eqb g t);
            do c <- quotient (fst cc) d (snd cc);
            let g := nvscale smono_eqb g (NP c) in
            do ans <- expansion fuel' (nvsub smono_eqb f g);
            let ans := nvadd zlist_eqb ans (vmake nzero [(mu, NP c)]) in
            match combine_terms n ans with
            | Ok (Some expected) => if nveq smono_eqb expected f then Ok ans else Err GenericException
            | Ok None => Err GenericException
            | Err _ => Err NameError
            end
        end
    end.
End Expansion.

(* symmetric.py:500-502  schur_expansion(f) *)
Definition schur_expansion (ord : list (list Z) -> list (list Z)) (fuel : nat) (f : nsym) : res (nvec (list Z)) :=
  expansion (schur_num ord) term_from_lowest_degree fuel f.
(* symmetric.py:511-513  grothendieck_expansion(f) *)
Definition grothendieck_expansion (ord : list (list Z) -> list (list Z)) (fuel : nat) (f : nsym) : res (nvec (list Z)) :=
  expansion (fun n mu => stable_grothendieck ord n mu [] None) term_from_lowest_degree fuel f.
