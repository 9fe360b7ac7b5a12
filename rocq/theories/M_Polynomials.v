(* Model of polynomials.py: class Polynomial (arithmetic, powers, substitution).
   A monomial is a HashableDict variable -> exponent.  All arithmetic code uses a
   HashableDict only through get / keys / == / hash, all of which ignore insertion
   order, so the model represents it by its list of items sorted by variable (this is
   also what HashableDict.__hash__ hashes, polynomials.py:4-5).  The insertion order
   matters only for printing and hashing of Polynomials, modelled in M_PolyHash.v.
   A Polynomial is an insertion-ordered dictionary monomial -> int. *)
From Coq Require Import List ZArith Lia Bool.
From Verif Require Import PyBase FinSum.
Import ListNotations.
Local Open Scope Z_scope.

Definition mono : Type := list (Z * Z).
Definition poly : Type := list (mono * Z).

Fixpoint meqb (a b : mono) : bool :=
  match a, b with
  | [], [] => true
  | (x, e) :: a', (y, f) :: b' => Z.eqb x y && Z.eqb e f && meqb a' b'
  | _, _ => false
  end.

(* i.get(t, 0) *)
Definition mget (m : mono) (t : Z) : Z := dget0 0 Z.eqb m t.

(* sorted set insertion, used for i.keys() | j.keys() *)
Fixpoint zinsert (x : Z) (l : list Z) : list Z :=
  match l with
  | [] => [x]
  | y :: l' => if x <? y then x :: l else if x =? y then l else y :: zinsert x l'
  end.
Definition zunion (a b : list Z) : list Z := fold_right zinsert (fold_right zinsert [] b) a.

(* polynomials.py:207-208  product of two monomials:
     k = {t: i.get(t,0) + j.get(t,0) for t in i.keys() | j.keys()}
     k = HashableDict({t: k[t] for t in k if k[t] != 0}) *)
Definition mmul (i j : mono) : mono :=
  filter (fun te => negb (Z.eqb (snd te) 0))
    (map (fun t => (t, mget i t + mget j t)) (zunion (map fst i) (map fst j))).

(* polynomials.py:7-11  HashableDict.degree *)
Definition mdegree (m : mono) : Z := fold_left (fun d te => d + snd te) m 0.

(* polynomials.py:144-148  __getitem__ *)
Definition pget (p : poly) (m : mono) : Z := dget0 0 meqb p m.

(* polynomials.py:199-201 (int case)  the constant polynomial {HashableDict({}): c} *)
Definition pconst (c : Z) : poly := [([], c)].

(* polynomials.py:88-93  monomial(index, power) *)
Definition pmonomial (index power : Z) : poly :=
  if power =? 0 then [([], 1)] else [([(index, power)], 1)].

(* polynomials.py:122-124, 118-120 *)
Definition pone : poly := pmonomial 1 0.

(* polynomials.py:165-175  __add__ (other a Polynomial) *)
Definition padd (p q : poly) : poly :=
  fold_left (fun acc iv =>
    let i := fst iv in
    let v := pget p i + pget q i in
    let acc' := dset meqb acc i v in
    if v =? 0 then ddel meqb acc' i else acc') q p.

(* polynomials.py:199-215  __mul__ *)
Definition pmul_step (acc : poly) (k : mono) (c : Z) : poly :=
  let v := match dget meqb acc k with Some old => old + c | None => c end in
  let acc' := dset meqb acc k v in
  if v =? 0 then ddel meqb acc' k else acc'.

Definition pmul (p q : poly) : poly :=
  fold_left (fun acc ix =>
    fold_left (fun acc jy =>
      pmul_step acc (mmul (fst ix) (fst jy)) (pget p (fst ix) * pget q (fst jy)))
      q acc) p [].

(* polynomials.py:118-120  zero() = one() * 0 *)
Definition pzero : poly := pmul pone (pconst 0).

(* polynomials.py:182-189 *)
Definition pneg (p : poly) : poly := pmul p (pconst (-1)).
Definition psub (p q : poly) : poly := padd p (pneg q).

(* polynomials.py:240-248 *)
Definition pnnz (p : poly) : nat := length (filter (fun iv => negb (Z.eqb (pget p (fst iv)) 0)) p).
Definition pis_zero (p : poly) : bool := Nat.eqb (pnnz p) 0.

(* polynomials.py:159-160  __eq__ *)
Definition peqb (p q : poly) : bool := Nat.eqb (pnnz (psub p q)) 0.

(* polynomials.py:191-197  __lt__, __gt__ (other a Polynomial) *)
Definition plt (p q : poly) : bool := forallb (fun iv => 0 <? snd iv) (psub q p).
Definition pgt (p q : poly) : bool := forallb (fun iv => 0 <? snd iv) (psub p q).

(* polynomials.py:61-62  f ^ g = f + g + beta*f*g *)
Definition pxor (p q : poly) : poly := padd (padd p q) (pmul (pmul (pmonomial 0 1) p) q).

(* polynomials.py:223-238  __pow__.  [None] is Python's None (lines 231, 237);
   the exponent of the recursive case counts down, hence the nat recursion. *)
Fixpoint ppow_nat (p : poly) (n : nat) : poly :=
  match n with
  | O => pmonomial 0 0
  | S n' => pmul p (ppow_nat p n')
  end.
Definition ppow (p : poly) (i : Z) : option poly :=
  if i =? 0 then Some (pmonomial 0 0)
  else if i <? 0 then
    match p with
    | [(ind, c)] => if 1 <? Z.abs c then None
                    else Some [(map (fun te => (fst te, snd te * i)) ind, c)]
    | _ => None
    end
  else Some (ppow_nat p (Z.to_nat i)).

(* polynomials.py:80-85  truncate *)
Definition ptruncate (p : poly) (d : Z) : poly := filter (fun iv => mdegree (fst iv) <=? d) p.

(* polynomials.py:95-103  coefficient(index, power) *)
Definition mdel (m : mono) (t : Z) : mono := filter (fun te => negb (Z.eqb (fst te) t)) m.
Definition mhas (m : mono) (t : Z) : bool := existsb (fun te => Z.eqb (fst te) t) m.
Definition pcoefficient (p : poly) (index power : Z) : poly :=
  fold_left (fun x iv =>
    let term := fst iv in
    if (mhas term index && (mget term index =? power)) || ((power =? 0) && negb (mhas term index))
    then padd x [((if power =? 0 then term else mdel term index), snd iv)]
    else x) p [].

(* polynomials.py:126-137  substitute(i, e), e a Polynomial.  The code starts from the int 0
   and would return that int on the empty polynomial; the model returns the empty
   polynomial, which the code considers equal (==) to it. *)
Fixpoint psub_term (i : Z) (e : poly) (ind : mono) (term : poly) : res poly :=
  match ind with
  | [] => Ok term
  | (j, x) :: rest =>
      if negb (i =? j) then psub_term i e rest (pmul term (pmonomial j x))
      else if 0 <=? x then psub_term i e rest (pmul term (ppow_nat e (Z.to_nat x)))
      else Err AssertionError
  end.
Fixpoint psubstitute_aux (i : Z) (e : poly) (terms : poly) (ans : poly) : res poly :=
  match terms with
  | [] => Ok ans
  | (ind, c) :: rest =>
      do t <- psub_term i e ind (pmul pone (pconst c));
      psubstitute_aux i e rest (padd ans t)
  end.
Definition psubstitute (p : poly) (i : Z) (e : poly) : res poly := psubstitute_aux i e p [].

(* polynomials.py:139-142  divide_linear: its first action evaluates the undefined global
   name x (polynomials.py defines X, not x). *)
Definition pdivide_linear (p : poly) (i c : Z) : res poly := Err NameError.

(* polynomials.py:67-78  %, exact /, // by an int *)
Definition pmod (p : poly) (o : Z) : poly :=
  filter (fun iv => negb (Z.eqb (snd iv) 0)) (map (fun iv => (fst iv, snd iv mod o)) p).
Definition ptruediv (p : poly) (o : Z) : res poly :=
  if forallb (fun iv => Z.eqb (snd iv mod o) 0) p
  then Ok (map (fun iv => (fst iv, snd iv / o)) p) else Err AssertionError.
Definition pfloordiv (p : poly) (o : Z) : poly :=
  filter (fun iv => negb (Z.eqb (snd iv) 0)) (map (fun iv => (fst iv, snd iv / o)) p).

(* polynomials.py:105-113  total_degree *)
Definition ptotal_degree (p : poly) : option Z :=
  fold_left (fun ans iv =>
    let d := mdegree (fst iv) in
    match ans with None => Some d | Some a => Some (Z.max a d) end) p None.

(* polynomials.py:250-254 *)
Definition pconstant_term (p : poly) : Z := pget p [].
Definition pis_integer (p : poly) : bool := peqb p (pmul (pconst (pconstant_term p)) (pmonomial 0 0)).
