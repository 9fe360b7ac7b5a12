(* Model of the enumerators of permutations and involutions, permutations.py:131-195, 412-415, 936-944.
   A generator is the list of the values it yields. *)
From Coq Require Import List ZArith Bool.
From Verif Require Import PyBase M_Partitions M_Symmetric M_Perm M_Bruhat.
Import ListNotations.
Local Open Scope Z_scope.

(* permutations.py:137-141  the signs of one v in range(2**n): oneline.append(args[i] * (-1) ** (v % 2)); v = v // 2;
   i runs over range(n) and args has length n *)
Fixpoint with_signs (args : list Z) (v : Z) : list Z :=
  match args with
  | [] => []
  | a :: args' => a * (if v mod 2 =? 0 then 1 else -1) :: with_signs args' (v / 2)
  end.
(* permutations.py:131-142  Permutation.all(n, signed), n >= 0 *)
Definition perm_all (n : Z) (signed : bool) : res (list (list Z)) :=
  rfold (fun ans args =>
    if negb signed then do w <- mkperm args; Ok (ans ++ [w])
    else rfold (fun ans v => do w <- mkperm (with_signs args v); Ok (ans ++ [w])) (zrange 0 (2 ^ n)) ans)
    (permutations (zrange 1 (n + 1))) [].

(* l[i] for a list *)
Definition py_get (l : list Z) (i : Z) : res Z := do k <- py_index l i; Ok (nth k l 0).
(* permutations.py:149-154  create(delta, fixed, numbers): i runs over range(len(delta)); the slices are for delta[i] >= 1 *)
Fixpoint create (delta : list Z) (numbers : list Z) (w : list Z) : res (list Z) :=
  match delta with
  | [] => Ok w
  | d :: delta' =>
      do a <- py_get numbers 0; do b <- py_get numbers d;
      do t <- transposition a b; do w <- pmul w t;
      create delta' (skipn 1 (firstn (Z.to_nat d) numbers) ++ skipn (Z.to_nat d + 1) numbers) w
  end.
(* range(a, -1, -2) and range(a, 0, -2) *)
Definition down_two (a : Z) (stop : Z) : list Z := map (fun j => a - 2 * j) (zrange 0 ((a - stop + 1) / 2)).
(* permutations.py:166-170  newdelta for every i with delta[i] > 1 *)
Fixpoint lowered (delta : list Z) : list (list Z) :=
  match delta with
  | [] => []
  | d :: delta' => (if 1 <? d then [d - 1 :: delta'] else []) ++ map (cons d) (lowered delta')
  end.
Definition enqueue (l : list (list Z)) (qs : list (list Z) * list (list Z)) : list (list Z) * list (list Z) :=
  fold_left (fun qs newdelta => let '(queue, seen) := qs in
    if existsb (zlist_eqb newdelta) seen then (queue, seen) else (queue ++ [newdelta], seen ++ [newdelta])) l qs.
(* permutations.py:162-170  while queue *)
Fixpoint delta_loop (fuel : nat) (queue seen : list (list Z)) (numbers : list Z) (ans : list (list Z)) : res (list (list Z)) :=
  match queue with
  | [] => Ok ans
  | delta :: queue =>
      match fuel with
      | O => Err OutOfFuel
      | S fuel' =>
          do w <- create delta numbers pid;
          let '(queue, seen) := enqueue (lowered delta) (queue, seen) in
          delta_loop fuel' queue seen numbers (ans ++ [w])
      end
  end.
(* permutations.py:144-170  involutions(n, False, fpf) *)
Definition involutions_unsigned (fuel : nat) (n : Z) (fpf : bool) : res (list (list Z)) :=
  if negb (n mod 2 =? 0) && fpf then Ok []
  else
    rfold (fun ans k =>
      rfold (fun ans fixed =>
        let numbers := filter (fun i => negb (memz i fixed)) (zrange 1 (n + 1)) in
        delta_loop fuel [down_two (n - k - 1) 0] [] numbers ans)
        (combinations (zrange 1 (n + 1)) (Z.to_nat k)) ans)
      (if fpf then [0] else down_two n (-1)) [].

(* permutations.py:936-944  reflection_s(i, i) *)
Definition reflection_s (i : Z) : res (list Z) :=
  let caller := zrange 1 (i + 1) in
  do a <- py_index caller (i - 1); let caller := upd caller a (- i) in
  do b <- py_index caller (i - 1); mkperm (upd caller b (- i)).
(* permutations.py:177-181  the loop over conjugators *)
Definition sign_change (v : list Z) (i : Z) : res (list Z) :=
  do s <- reflection_s i;
  if pcall v i =? i then pmul v s else conjugate s v.
(* permutations.py:144-181  involutions(n, signed, fpf); the recursive call is involutions(n, False) *)
Definition involutions (fuel : nat) (n : Z) (signed fpf : bool) : res (list (list Z)) :=
  if negb signed then involutions_unsigned fuel n fpf
  else if negb (n mod 2 =? 0) && fpf then Ok []
  else
    do ws <- involutions_unsigned fuel n false;
    rfold (fun ans w =>
      let a := filter (fun i => i <=? pcall w i) (zrange 1 (n + 1)) in
      rfold (fun ans conjugators => do v <- rfold sign_change conjugators w; Ok (ans ++ [v])) (all_combinations a) ans)
      ws [].

(* permutations.py:412-415  minfpf *)
Definition minfpf (n : Z) : res (list Z) :=
  if n mod 2 =? 0 then mkperm (map (fun i => i + (if i mod 2 =? 0 then -1 else 1)) (zrange 1 (n + 1))) else Err AssertionError.
Section Fpf.
  (* iteration order of the set crop *)
  Variable ord : list (list Z) -> list (list Z).
  (* permutations.py:189-195  the next crop *)
  Definition next_crop (n : Z) (crop : list (list Z)) : res (list (list Z)) :=
    rfold (fun acc z =>
      rfold (fun acc i =>
        if pcall z i <? pcall z (i + 1) then
          do s <- s_i i; do sz <- pmul s z; do s' <- s_i i; do v <- pmul sz s';
          Ok (if existsb (zlist_eqb v) acc then acc else acc ++ [v])
        else Ok acc) (zrange 1 n) acc) (ord crop) [].
  Fixpoint fpf_loop (fuel : nat) (n : Z) (crop ans : list (list Z)) : res (list (list Z)) :=
    match crop with
    | [] => Ok ans
    | _ :: _ =>
        match fuel with
        | O => Err OutOfFuel
        | S fuel' => do crop' <- next_crop n crop; fpf_loop fuel' n crop' (ans ++ ord crop)
        end
    end.
  (* permutations.py:183-195  fpf_involutions(n) *)
  Definition fpf_involutions (fuel : nat) (n : Z) : res (list (list Z)) :=
    if negb (n mod 2 =? 0) then Ok []
    else do z <- minfpf n; fpf_loop fuel n [z] [].
End Fpf.
