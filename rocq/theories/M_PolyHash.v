(* Model of Polynomial.__repr__ (polynomials.py:256-324) and of the string that
   Polynomial.__hash__ (polynomials.py:326-327) hashes.  The items of a monomial are printed
   in list order (the Python code prints them in insertion order of the HashableDict). *)
From Coq Require Import List ZArith Bool String Decimal DecimalString.
From Verif Require Import PyBase FinSum M_Polynomials.
Import ListNotations.
Local Open Scope string_scope.
Local Open Scope Z_scope.

(* str(int) *)
Definition zstr (z : Z) : string := NilZero.string_of_int (Z.to_int z).

(* polynomials.py:52-53 *)
Definition MAX_INT : Z := 2 ^ 64 - 1.

(* polynomials.py:256-285  letters *)
Definition letters (i : Z) : string :=
  if i =? 0 then "beta"   (* the code prints the Greek letter *)
  else if i =? MAX_INT then "x"
  else if i =? - MAX_INT then "y"
  else if 0 <? i then "x_" ++ zstr i
  else "y_" ++ zstr (- i).

(* polynomials.py:287-299  index_to_str; s[1:] drops the leading blank.  The test s == "()"
   at line 297 can never succeed on such a string. *)
Definition drop1 (s : string) : string := match s with EmptyString => "" | String _ r => r end.
Definition index_to_str (ind : mono) : string :=
  drop1 (fold_left (fun s ie =>
    if snd ie =? 0 then s
    else let s := s ++ " " ++ letters (fst ie) in
         if snd ie =? 1 then s else s ++ "^" ++ zstr (snd ie)) ind "").

(* polynomials.py:305-311  sorter: (total degree, -i repeated |exponent| times for i ascending).
   Model: items are already sorted by variable. *)
Definition sorter (ind : mono) : list Z :=
  fold_left (fun c ie => c + snd ie) ind 0 ::
  flat_map (fun ie => repeat (- fst ie) (Z.to_nat (Z.abs (snd ie)))) ind.

(* tuple comparison <= *)
Fixpoint lex_leb (a b : list Z) : bool :=
  match a, b with
  | [], _ => true
  | _ :: _, [] => false
  | x :: a', y :: b' => if x <? y then true else if y <? x then false else lex_leb a' b'
  end.

(* sorted(..., key=...) is stable *)
Fixpoint sort_insert {A} (key : A -> list Z) (x : A) (l : list A) : list A :=
  match l with
  | [] => [x]
  | y :: l' => if lex_leb (key x) (key y) then x :: l else y :: sort_insert key x l'
  end.
Definition sort_by {A} (key : A -> list Z) (l : list A) : list A :=
  fold_right (sort_insert key) [] l.

(* polynomials.py:301-324  __repr__ *)
Definition prepr (p : poly) : string :=
  if pis_zero p then "0"
  else
    let filtered := filter (fun iv => negb (snd iv =? 0)) p in
    let s := fold_left (fun s iv =>
      let monomial := index_to_str (fst iv) in
      let coeff := zstr (Z.abs (snd iv)) in
      let coeff := if String.eqb coeff "1" && negb (String.eqb monomial "") then "" else coeff in
      let coeff := (if (snd iv <? 0)%Z then " - " else " + ") ++ coeff in
      s ++ coeff ++ monomial) (sort_by (fun iv => sorter (fst iv)) filtered) "" in
    let s := drop1 s in
    match s with
    | String c (String _ r) => if String.eqb (String c "") "+" then r else "-" ++ r
    | _ => s
    end.

(* polynomials.py:326-327  __hash__ = hash(str(self)): what is hashed *)
Definition phash_input (p : poly) : string := prepr p.
