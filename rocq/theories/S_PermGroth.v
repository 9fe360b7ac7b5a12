(* Specification vocabulary for the stable Grothendieck polynomials of permutations. *)
From Coq Require Import List ZArith.
From Verif Require Import PyBase M_Polynomials S_Polynomials S_Partitions S_Symmetric S_Words S_Perm S_Levels S_Semistandard P_Symmetry.
Import ListNotations.
Local Open Scope Z_scope.

(* words in s_1, s_2, ... whose Demazure product is f *)
Definition hecke_word (f : Z -> Z) (v : list Z) : Prop :=
  Forall (fun i => 1 <= i) v /\ acts hecke_rel (fun x => x) v f.
(* words in s_0, s_1, ... turning the identity into f by twisted conjugation *)
Definition involution_word (f : Z -> Z) (v : list Z) : Prop :=
  Forall (fun i => 0 <= i) v /\ acts conj_rel (fun x => x) v f.
(* the matching 1 <-> 2, 3 <-> 4, ..., n-1 <-> n, on -n, ..., n *)
Definition pairing (n x : Z) : Z :=
  if Z.abs x <=? n then (if x =? 0 then 0 else if Z.odd (Z.abs x) then x + Z.sgn x else x - Z.sgn x) else x.
(* words in s_1, ..., s_{n-1} turning the matching into f by twisted conjugation, no letter ever
   joining the two ends of an arc i <-> i+1 *)
Definition symplectic_word (n : Z) (f : Z -> Z) (v : list Z) : Prop :=
  Forall (fun i => 1 <= i < n) v /\ acts (fun g i h => g i <> i + 1 /\ conj_rel g i h) (pairing n) v f.

(* factorizations us of words with property W into strictly decreasing words of lengths e *)
Definition decreasing_tuple (W : list Z -> Prop) (e : list Z) (us : list (list Z)) : Prop :=
  wlens us = e /\ Forall (pairwise Z.gt) us /\ W (concat us).
(* factorizations into pairs (strictly decreasing, strictly increasing), the sums of the two lengths being e *)
Definition unimodal_tuple (W : list Z -> Prop) (e : list Z) (ps : list (list Z * list Z)) : Prop :=
  wlens (map (fun p => fst p ++ snd p) ps) = e /\
  Forall (fun p => pairwise Z.gt (fst p) /\ pairwise Z.lt (snd p)) ps /\
  W (concat (map (fun p => fst p ++ snd p) ps)).

(* None and negative bounds are no restriction *)
Definition up_to (degree_bound : option Z) (d : Z) : Prop :=
  match degree_bound with None => True | Some b => b < 0 \/ d <= b end.
(* P is the sum of beta^(|e| - ell) x^e over the exponents e with |e| within the bound and the t with Q e t *)
Definition generates_beta {A} (isx : bool) (n : nat) (ell : Z) (degree_bound : option Z) (Q : list Z -> A -> Prop) (P : poly) : Prop :=
  canon P /\ forall m, canon_mono m ->
    (in_variables true isx n m ->
       cardinality (fun t => Q (exponents isx n m) t /\ expo m 0 = size (exponents isx n m) - ell /\ up_to degree_bound (size (exponents isx n m))) (coeff P m)) /\
    (~ in_variables true isx n m -> coeff P m = 0).
