(* C01 *)
From Coq Require Import List ZArith Lia Bool.
From Verif Require Import PyBase M_Cached L_Cached.
Import ListNotations.

(* Every result obtained in any history of memoised calls, starting from the empty cache,
   is the result of direct evaluation (value or exception alike). *)
Theorem C01_memo_transparent :
  forall (K V : Type) (keqb : K -> K -> bool),
  (forall a b, keqb a b = true <-> a = b) ->
  forall (body : K -> prog K V) calls rs s,
  history keqb body calls ([], []) = Some (rs, s) ->
  Forall2 (fun call r => exists depth, eval body depth (snd call) = Some r) calls rs.
Proof. exact @cached_history_correct. Qed.
Print Assumptions C01_memo_transparent.

(* Conversely memoised calls terminate whenever direct evaluation does, and agree. *)
Theorem C01_memo_total :
  forall (K V : Type) (keqb : K -> K -> bool),
  (forall a b, keqb a b = true <-> a = b) ->
  forall (body : K -> prog K V) calls rs,
  Forall2 (fun call r => eval body (fst call) (snd call) = Some r) calls rs ->
  exists s, history keqb body calls ([], []) = Some (rs, s).
Proof. exact @cached_history_total. Qed.
Print Assumptions C01_memo_total.

(* No key is evaluated to completion and stored twice in any history. *)
Theorem C01_memo_once :
  forall (K V : Type) (keqb : K -> K -> bool),
  (forall a b, keqb a b = true <-> a = b) ->
  forall (body : K -> prog K V) calls rs s,
  history keqb body calls ([], []) = Some (rs, s) -> NoDup (snd s).
Proof. exact @cached_history_once. Qed.
Print Assumptions C01_memo_once.

(* Example: Fibonacci-style recursion through the cache, with a failing key. *)
Definition fib_body (k : Z) : prog Z Z :=
  (if k <? 0 then Ret (Err ValueError)
   else if k <? 2 then Ret (Ok k)
   else Call (k - 1) (fun a => match a with Err e => Ret (Err e) | Ok a =>
        Call (k - 2) (fun b => match b with Err e => Ret (Err e) | Ok b => Ret (Ok (a + b)) end) end))%Z.

Example C01_example :
  exists s, history Z.eqb fib_body [(9%nat, 6%Z); (5%nat, (-3)%Z); (9%nat, 7%Z); (9%nat, 6%Z)] ([], [])
    = Some ([Ok 8; Err ValueError; Ok 13; Ok 8]%Z, s) /\ length (snd s) = 8%nat.
Proof. eexists. split; vm_compute; reflexivity. Qed.
