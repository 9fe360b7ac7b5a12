(* Model of boxes.py: class BoxOperator (algebra part; printing, parsing of strings such as 'r3' and
   print_commutator are not modelled).
   A key of the underlying Vector is a tuple (b, i1, ..., ik); the model writes it as the pair
   (b, [i1; ...; ik]).  (The empty tuple never becomes a key.)  Coefficients: any commutative ring
   with a zero test, as in M_Vectors.v. *)
From Coq Require Import List ZArith Lia Bool.
From Verif Require Import PyBase FinSum M_Vectors M_Partitions.
Import ListNotations.
Local Open Scope Z_scope.

Definition bkey : Type := (Z * list Z)%type.
Definition bkey_eqb (a b : bkey) : bool := (fst a =? fst b) && zlist_eqb (snd a) (snd b).

(* boxes.py:26-31  box_operator_relations *)
Definition box_operator_relations (tup : list Z) : list (list Z) :=
  if existsb (fun i => nthz tup i =? nthz tup (i + 1)) (zrange 0 (zlen tup - 1)) then []
  else if existsb (fun i => (nthz tup i =? - nthz tup (i + 1)) && (0 <=? Z.abs (nthz tup i))) (zrange 0 (zlen tup - 1)) then []
  else [tup].

(* boxes.py:36-41  multiplicities of the absolute values of the letters, as a dict *)
Definition multiplicities (tup : list Z) : list (Z * Z) :=
  fold_left (fun d i => let i := Z.abs i in
    dset Z.eqb d i (match dget Z.eqb d i with Some v => v | None => 0 end + 1)) tup [].

Section Boxes.
  Context {R : Type} (rO rI : R) (radd rmul rsub : R -> R -> R) (ropp : R -> R) (rzero : R -> bool).
  Local Notation bvec := (list (bkey * R)).

  (* boxes.py:20-23  box_operator_multipler *)
  Definition box_mult (a b : bkey) : list (bkey * R) :=
    map (fun tup => ((fst a + fst b, tup), rI)) (box_operator_relations (snd a ++ snd b)).

  (* boxes.py:76-81  __init__ *)
  Definition box_init (args : list Z) : res bvec :=
    match args with
    | [] => Ok []
    | a :: w => if 0 <=? a then Ok (vmake rzero [((a, w), rI)]) else Err AssertionError
    end.

  Definition badd (v w : bvec) : bvec := vadd bkey_eqb rO radd rzero v w.    (* boxes.py:86-91 *)
  Definition bsub (v w : bvec) : bvec := vsub bkey_eqb rO rsub rzero v w.    (* boxes.py:100-105 *)
  Definition bscale (v : bvec) (c : R) : bvec := vscale bkey_eqb rO rmul rzero v c.  (* boxes.py:117-121 *)
  Definition bmul (v w : bvec) : bvec := vmul bkey_eqb rO radd rmul rzero box_mult v w. (* boxes.py:129-131 *)
  Definition beq (v w : bvec) : bool := veq bkey_eqb rO rsub rzero v w.      (* boxes.py:146-150 *)
  (* BoxOperator(0) *)
  Definition bone : bvec := vmake rzero [((0, []), rI)].
  (* boxes.py:86-98  self + c for a scalar c: c becomes BoxOperator(0) * c *)
  Definition badd_scalar (v : bvec) (c : R) : bvec := badd v (bscale bone c).

  (* boxes.py:35-49  filter(n) *)
  Definition bfilter (n : Z) (v : bvec) : bvec :=
    vmake rzero (filter (fun kc => negb (existsb (fun iv => 1 <? snd iv - (n - fst iv)) (multiplicities (snd (fst kc))))) v).

  (* boxes.py:60-74  commutator(n), for the two scalars x, y *)
  Definition bproduct (n : Z) (x : R) : bvec :=
    fold_left (fun lhs i => bmul lhs (badd (bscale (vmake rzero [((0, [i]), rI)]) x) bone)) (rev (zrange (- n) (n + 1))) bone.
  Definition bcommutator (n : Z) (x y : R) : bvec :=
    bfilter n (bsub (bmul (bproduct n x) (bproduct n y)) (bmul (bproduct n y) (bproduct n x))).
End Boxes.
