(* Model of Partition.generate and Partition.all (partitions.py:325-352), generators that share
   the module level table PARTITIONS.

   A suspended generator is a tree: what it does until it is exhausted, as a function of what the
   table contains at the moment it looks.  A yield is a node of the tree, so any number of
   generators can be advanced in any interleaving or abandoned.
   Not modelled: the identity of the lists stored in the table (they are never mutated after
   being stored), generator .send/.throw/.close, and negative-index or non-integer arguments. *)
From Coq Require Import List ZArith Bool.
From Verif Require Import PyBase M_Partitions.
Import ListNotations.
Local Open Scope Z_scope.

(* the two kinds of keys used with the dict PARTITIONS: 5-tuples in the membership test at line
   336, 4-tuples at lines 349 and 351; a 4-tuple never equals a 5-tuple *)
Inductive pkey :=
| K5 (n : Z) (max_part max_row : option Z) (strict even_parts : bool)
| K4 (n : Z) (max_part : option Z) (strict even_parts : bool).

Definition oz_eqb (a b : option Z) : bool :=
  match a, b with Some x, Some y => x =? y | None, None => true | _, _ => false end.
Definition pkey_eqb (a b : pkey) : bool :=
  match a, b with
  | K5 n p r s e, K5 n' p' r' s' e' => (n =? n') && oz_eqb p p' && oz_eqb r r' && Bool.eqb s s' && Bool.eqb e e'
  | K4 n p s e, K4 n' p' s' e' => (n =? n') && oz_eqb p p' && Bool.eqb s s' && Bool.eqb e e'
  | _, _ => false
  end.

Definition table := list (pkey * list (list Z)).

Inductive gen :=
| GDone
| GYield (v : list Z) (k : gen)
| GStore (key : pkey) (vs : list (list Z)) (k : gen)
| GLook (key : pkey) (k : option (list (list Z)) -> gen)
| GErr (e : exn).

(* for v in g: body, the body threading a state *)
Fixpoint gfor {S} (g : gen) (body : S -> list Z -> (S -> gen) -> gen) (s : S) (k : S -> gen) : gen :=
  match g with
  | GDone => k s
  | GYield v g' => body s v (fun s' => gfor g' body s' k)
  | GStore key vs g' => GStore key vs (gfor g' body s k)
  | GLook key f => GLook key (fun r => gfor (f r) body s k)
  | GErr e => GErr e
  end.

(* for i in l: body *)
Fixpoint gloop {S} (l : list Z) (body : S -> Z -> (S -> gen) -> gen) (s : S) (k : S -> gen) : gen :=
  match l with
  | [] => k s
  | i :: l' => body s i (fun s' => gloop l' body s' k)
  end.

Fixpoint gyields (l : list (list Z)) : gen :=
  match l with [] => GDone | v :: l' => GYield v (gyields l') end.

(* x = n if (x is None or x > n) else x *)
Definition clip (n : Z) (x : option Z) : Z :=
  match x with None => n | Some m => if n <? m then n else m end.

(* partitions.py:331-352; [fuel] > n *)
Fixpoint generate (fuel : nat) (n : Z) (max_part max_row : option Z) (strict even_parts : bool) : gen :=
  match fuel with
  | O => GErr OutOfFuel
  | S fuel' =>
      if n =? 0 then GYield [] GDone
      else GLook (K5 n max_part max_row strict even_parts) (fun found =>
        match found with
        | None =>
            let max_part := clip n max_part in
            let max_row := clip n max_row in
            let finish ans := GStore (K4 n (Some max_part) strict even_parts) ans GDone in
            if 0 <? max_row then
              gloop (zrange 1 (max_part + 1)) (fun ans i k =>
                if even_parts && negb (i mod 2 =? 0) then k ans
                else gfor (generate fuel' (n - i) (Some i) (Some (max_row - 1)) strict even_parts)
                       (fun ans mu k =>
                          let nu := i :: mu in
                          if negb strict || is_strict_partition nu then GYield nu (k (ans ++ [nu])) else k ans)
                       ans k)
                [] finish
            else finish []
        | Some _ =>
            GLook (K4 n max_part strict even_parts) (fun l =>
              match l with None => GErr KeyError | Some l => gyields l end)
        end)
  end.

(* a call of generate or all; all is partitions.py:325-329 *)
Inductive pcall :=
| CGenerate (n : Z) (max_part max_row : option Z) (strict even_parts : bool)
| CAll (n : Z) (max_part max_row : option Z) (strict even_parts : bool).

Definition gen_of (c : pcall) : gen :=
  match c with
  | CGenerate n p r s e => generate (S (Z.to_nat n)) n p r s e
  | CAll n p r s e =>
      gloop (zrange 0 (n + 1)) (fun (u : unit) i k =>
        gfor (generate (S (Z.to_nat i)) i p r s e) (fun u mu k => GYield mu (k u)) u k) tt (fun _ => GDone)
  end.

(* next(g): run until the next yield, the end, or an exception *)
Inductive nres := Yielded (v : list Z) (g : gen) | Finished | Raised (e : exn).
Fixpoint gnext (t : table) (g : gen) : table * nres :=
  match g with
  | GDone => (t, Finished)
  | GYield v g' => (t, Yielded v g')
  | GStore key vs g' => gnext (dset pkey_eqb t key vs) g'
  | GLook key f => gnext t (f (dget pkey_eqb t key))
  | GErr e => (t, Raised e)
  end.

(* A program using the module: it creates generators and advances them in any order. *)
Inductive status := Running | Exhausted | Failed (e : exn).
Record live := { l_call : pcall; l_gen : gen; l_out : list (list Z); l_status : status }.
Record psys := { p_table : table; p_live : list live }.
Inductive paction := Start (c : pcall) | Next (i : nat).

Fixpoint lset (l : list live) (i : nat) (x : live) : list live :=
  match l, i with
  | [], _ => []
  | _ :: l', O => x :: l'
  | a :: l', S i' => a :: lset l' i' x
  end.

Definition pstep (s : psys) (a : paction) : psys :=
  match a with
  | Start c => {| p_table := p_table s;
                  p_live := p_live s ++ [{| l_call := c; l_gen := gen_of c; l_out := []; l_status := Running |}] |}
  | Next i =>
      match nth_error (p_live s) i with
      | None => s
      | Some x =>
          match l_status x with
          | Running =>
              let '(t, r) := gnext (p_table s) (l_gen x) in
              let x' := match r with
                        | Yielded v g => {| l_call := l_call x; l_gen := g; l_out := l_out x ++ [v]; l_status := Running |}
                        | Finished => {| l_call := l_call x; l_gen := GDone; l_out := l_out x; l_status := Exhausted |}
                        | Raised e => {| l_call := l_call x; l_gen := GDone; l_out := l_out x; l_status := Failed e |}
                        end in
              {| p_table := t; p_live := lset (p_live s) i x' |}
          | _ => s
          end
      end
  end.
Definition prun (h : list paction) : psys := fold_left pstep h {| p_table := []; p_live := [] |}.
