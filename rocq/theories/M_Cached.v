(* Model of cached.py. *)
From Coq Require Import List ZArith Lia Bool.
From Verif Require Import PyBase.
Import ListNotations.

(* The body of a decorated function is a deterministic computation that may call
   the decorated function again (recursively, through the cache), inspect the
   result or the exception, and finally return a value or raise.
   Python bodies also allocate and print; this is not represented. *)
Inductive prog (K V : Type) : Type :=
| Ret (r : res V)
| Call (k : K) (cont : res V -> prog K V).
Arguments Ret {K V} r.
Arguments Call {K V} k cont.

Section Cached.
  Context {K V : Type} (keqb : K -> K -> bool).
  Variable body : K -> prog K V.

  (* Direct (undecorated) evaluation; the first argument bounds the recursion depth,
     [None] means the bound was too small. *)
  Fixpoint run (ev : K -> option (res V)) (p : prog K V) : option (res V) :=
    match p with
    | Ret r => Some r
    | Call k cont => match ev k with Some r => run ev (cont r) | None => None end
    end.

  Fixpoint eval (fuel : nat) (k : K) : option (res V) :=
    match fuel with
    | O => None
    | S n => run (eval n) (body k)
    end.

  (* Interpreter state: the cache dictionary and a log of the keys for which the body
     was evaluated to completion and stored (line 9). *)
  Definition state : Type := (list (K * V) * list K)%type.

  Fixpoint runc (ev : K -> state -> option (res V * state)) (p : prog K V) (s : state)
    : option (res V * state) :=
    match p with
    | Ret r => Some (r, s)
    | Call k cont =>
        match ev k s with Some (r, s') => runc ev (cont r) s' | None => None end
    end.

  (* cached.py:6-10  wrapped_f:
       key = tuple(args)
       if key not in cache: cache[key] = f(cls, *args)
       return cache[key]
     Simplification: the class argument is not part of the key in the code either;
     [K] is the type of argument tuples (hashable, with decidable equality). *)
  Fixpoint evalc (fuel : nat) (k : K) (s : state) : option (res V * state) :=
    match fuel with
    | O => None
    | S n =>
        match dget keqb (fst s) k with
        | Some v => Some (Ok v, s)
        | None =>
            match runc (evalc n) (body k) s with
            | Some (Ok v, (c, l)) => Some (Ok v, (dset keqb c k v, k :: l))
            | Some (Err e, s') => Some (Err e, s')
            | None => None
            end
        end
    end.

  (* A history of top-level calls, each given with a sufficient recursion bound. *)
  Fixpoint history (calls : list (nat * K)) (s : state) : option (list (res V) * state) :=
    match calls with
    | [] => Some ([], s)
    | (n, k) :: rest =>
        match evalc n k s with
        | Some (r, s') =>
            match history rest s' with
            | Some (rs, s'') => Some (r :: rs, s'')
            | None => None
            end
        | None => None
        end
    end.
End Cached.
