(* Model of Permutation.get_reduced_words (permutations.py:730-744): recursive generators that
   share the module level dict SIGNED_REDUCED_WORDS (line 16).

   A suspended generator is a tree: what it does until it is exhausted, as a function of what
   the dict contains at the moment it looks.  A yield is a node of the tree, so any number of
   generators can be advanced in any interleaving or abandoned.
   Sets are duplicate-free lists; the order in which Python iterates over a set is given by the
   parameters [dorder] (descent sets) and [worder] (stored word sets).
   Not modelled: generator .send/.throw/.close. *)
From Coq Require Import List ZArith Bool.
From Verif Require Import PyBase M_Partitions M_Perm.
Import ListNotations.
Local Open Scope Z_scope.

Section RW.
Variable dorder : list Z -> list Z.
Variable worder : list (list Z) -> list (list Z).

Definition rtable := list (list Z * list (list Z)).

Inductive rgen :=
| RDone
| RYield (v : list Z) (k : rgen)
| RStore (key : list Z) (vs : list (list Z)) (k : rgen)
| RLook (key : list Z) (k : option (list (list Z)) -> rgen)
| RErr (e : exn).

(* words.add(word) *)
Definition sadd (s : list (list Z)) (x : list Z) : list (list Z) :=
  if existsb (zlist_eqb x) s then s else s ++ [x].

(* for e in g: word = e + (i,); yield word; words.add(word)     (lines 737-740) *)
Fixpoint rfor (g : rgen) (i : Z) (words : list (list Z)) (k : list (list Z) -> rgen) : rgen :=
  match g with
  | RDone => k words
  | RYield e g' => let word := e ++ [i] in RYield word (rfor g' i (sadd words word) k)
  | RStore key vs g' => RStore key vs (rfor g' i words k)
  | RLook key f => RLook key (fun r => rfor (f r) i words k)
  | RErr e => RErr e
  end.

Fixpoint ryields (l : list (list Z)) : rgen :=
  match l with [] => RDone | v :: l' => RYield v (ryields l') end.

(* lines 730-744; [fuel] bounds the recursion depth *)
Fixpoint reduced_words (fuel : nat) (w : list Z) : rgen :=
  match fuel with
  | O => RErr OutOfFuel
  | S fuel' =>
      RLook w (fun found =>
        match found with
        | None =>
            (fix loop (l : list Z) (words : list (list Z)) : rgen :=
               match l with
               | [] => RStore w words RDone
               | i :: l' =>
                   match s_i i with
                   | Err e => RErr e
                   | Ok s => match pmul w s with
                             | Err e => RErr e
                             | Ok v => rfor (reduced_words fuel' v) i words (loop l')
                             end
                   end
               end) (dorder (rdes w)) []
        | Some vs => ryields (worder vs)
        end)
  end.

(* next(g): run until the next yield, the end, or an exception *)
Inductive rres := RYielded (v : list Z) (g : rgen) | RFinished | RRaised (e : exn).
Fixpoint rnext (t : rtable) (g : rgen) : rtable * rres :=
  match g with
  | RDone => (t, RFinished)
  | RYield v g' => (t, RYielded v g')
  | RStore key vs g' => rnext (dset zlist_eqb t key vs) g'
  | RLook key f => rnext t (f (dget zlist_eqb t key))
  | RErr e => (t, RRaised e)
  end.

(* A program using the module: it creates generators and advances them in any order. *)
Inductive rstatus := RRunning | RExhausted | RFailed (e : exn).
Record rlive := { r_perm : list Z; r_gen : rgen; r_out : list (list Z); r_status : rstatus }.
Record rsys := { r_table : rtable; r_live : list rlive }.
(* [RStart w] is w.get_reduced_words() for the object w = Permutation(w) *)
Inductive raction := RStart (w : list Z) | RNext (i : nat).

Fixpoint rset (l : list rlive) (i : nat) (x : rlive) : list rlive :=
  match l, i with
  | [], _ => []
  | _ :: l', O => x :: l'
  | a :: l', S i' => a :: rset l' i' x
  end.

(* recursion depth of the generator, enough for every permutation of the given rank *)
Definition rfuel (w : list Z) : nat := match plen w with Ok n => S (Z.to_nat n) | Err _ => O end.

Definition rstep (s : rsys) (a : raction) : rsys :=
  match a with
  | RStart w =>
      match mkperm w with
      | Ok v => {| r_table := r_table s;
                   r_live := r_live s ++ [{| r_perm := v; r_gen := reduced_words (rfuel v) v; r_out := []; r_status := RRunning |}] |}
      | Err _ => s
      end
  | RNext i =>
      match nth_error (r_live s) i with
      | None => s
      | Some x =>
          match r_status x with
          | RRunning =>
              let '(t, r) := rnext (r_table s) (r_gen x) in
              let x' := match r with
                        | RYielded v g => {| r_perm := r_perm x; r_gen := g; r_out := r_out x ++ [v]; r_status := RRunning |}
                        | RFinished => {| r_perm := r_perm x; r_gen := RDone; r_out := r_out x; r_status := RExhausted |}
                        | RRaised e => {| r_perm := r_perm x; r_gen := RDone; r_out := r_out x; r_status := RFailed e |}
                        end in
              {| r_table := t; r_live := rset (r_live s) i x' |}
          | _ => s
          end
      end
  end.
(* permutations.py:16  SIGNED_REDUCED_WORDS = {(): {()}} *)
Definition rrun (h : list raction) : rsys := fold_left rstep h {| r_table := [([], [[]])]; r_live := [] |}.
End RW.
