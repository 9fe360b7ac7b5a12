(* Model of vectors.py: class Vector (module operations). rref / is_expressable are in M_Rref.v.
   Keys: any type with decidable equality. Coefficients: any commutative ring with a
   decidable zero test (Python's truthiness of int / Polynomial); the int instance is Z.
   The printer and the mutable-default-argument aspects are not modelled. *)
From Coq Require Import List ZArith Lia Bool.
From Verif Require Import PyBase FinSum.
Import ListNotations.

Section Vector.
  Context {K R : Type} (keqb : K -> K -> bool).
  Context (rO rI : R) (radd rmul rsub : R -> R -> R) (ropp : R -> R) (rzero : R -> bool).

  Definition vec : Type := list (K * R).

  (* vectors.py:6-7  Vector.__init__: keep the truthy values *)
  Definition vmake (d : vec) : vec := filter (fun kv => negb (rzero (snd kv))) d.

  (* vectors.py:136-137  __getitem__ = dictionary.get(item, 0) *)
  Definition vget (v : vec) (k : K) : R := dget0 rO keqb v k.

  (* self.keys() | other.keys() (iteration order of the resulting set is irrelevant to
     the resulting dictionary up to dict equality; the model lists self's keys first) *)
  Definition vkeys_union (v w : vec) : list K :=
    map fst v ++ filter (fun k => negb (existsb (fun k' => keqb k' k) (map fst v))) (map fst w).

  (* vectors.py:142-153  __add__ (both arguments of the same class; [other == 0] holds
     exactly when other's dictionary is empty) *)
  Definition vadd (v w : vec) : vec :=
    match w with
    | [] => v
    | _ => vmake (map (fun k => (k, radd (vget v k) (vget w k))) (vkeys_union v w))
    end.

  (* vectors.py:155-166  __sub__ *)
  Definition vsub (v w : vec) : vec :=
    match w with
    | [] => v
    | _ => vmake (map (fun k => (k, rsub (vget v k) (vget w k))) (vkeys_union v w))
    end.

  (* vectors.py:130-131  __eq__ *)
  Definition veq (v w : vec) : bool := Nat.eqb (length (vsub v w)) 0.

  (* vectors.py:209-210 is_zero *)
  Definition vis_zero (v : vec) : bool := Nat.eqb (length v) 0.

  (* vectors.py:168-174  __mul__ by a scalar *)
  Definition vscale (v : vec) (c : R) : vec :=
    vmake (map (fun k => (k, rmul (vget v k) c)) (map fst v)).

  (* vectors.py:196-197  __neg__ *)
  Definition vneg (v : vec) : vec := vscale v (ropp rI).

  (* vectors.py:175-185  __mul__ of two vectors; [mult a b] is the list of pairs yielded by
     self.multiplier(a, b) *)
  Definition vmul (mult : K -> K -> list (K * R)) (v w : vec) : vec :=
    vmake
      (fold_left (fun ans ax =>
         fold_left (fun ans by_ =>
           fold_left (fun ans mc =>
             dset keqb ans (fst mc) (radd (vget ans (fst mc)) (rmul (rmul (snd ax) (snd by_)) (snd mc))))
             (mult (fst ax) (fst by_)) ans)
           w ans)
         v []).

  (* vectors.py:199-207  __pow__ for other > 0, by the recursion on other // 2 *)
  Fixpoint vpow (mult : K -> K -> list (K * R)) (v : vec) (n : positive) : vec :=
    match n with
    | xH => v
    | xO p => let x := vpow mult v p in vmul mult x x
    | xI p => let x := vpow mult v p in vmul mult (vmul mult x x) v
    end.

  (* Vector.base(key): vectors.py:103-105 *)
  Definition vbase (k : K) : vec := vmake [(k, rI)].
End Vector.
