(* Model of the Bruhat cover generators and transitions, permutations.py:1081-1101 and 1149-1204.
   A generator is the list of the values it yields; an exception it raises is the result. *)
From Coq Require Import List ZArith Bool.
From Verif Require Import PyBase M_Partitions M_Perm M_PermGroth M_InvWords.
Import ListNotations.
Local Open Scope Z_scope.

(* word[:i] + word[i + 1:] *)
Definition delete_at (i : Z) (word : list Z) : list Z := firstn (Z.to_nat i) word ++ skipn (Z.to_nat (i + 1)) word.

(* permutations.py:1081-1086  bruhat_covers; fuel is for get_reduced_word *)
Definition bruhat_covers (fuel : nat) (self : list Z) : res (list (list Z)) :=
  do word <- get_reduced_word fuel self;
  rfold (fun ans i =>
    do w <- from_word (delete_at i word);
    do a <- plen w; do b <- plen self;
    Ok (if a =? b - 1 then ans ++ [w] else ans)) (zrange 0 (zlen word)) [].

(* w.involution_length when w may be None *)
Definition attr {A} (f : list Z -> res A) (w : option (list Z)) : res A :=
  match w with None => Err AttributeError | Some w => f w end.

(* permutations.py:1088-1094  involution_bruhat_covers; from_involution_word is called with strict=True *)
Definition involution_bruhat_covers (fuel : nat) (self : list Z) : res (list (option (list Z))) :=
  do b <- is_involution self;
  if negb b then Err AssertionError
  else
    do word <- get_involution_word fuel self;
    rfold (fun ans i =>
      do w <- from_involution_word (delete_at i word) true;
      do a <- attr involution_length w; do b <- involution_length self;
      Ok (if a =? b - 1 then ans ++ [w] else ans)) (zrange 0 (zlen word)) [].
(* permutations.py:1096-1102  fpf_involution_bruhat_covers *)
Definition fpf_involution_bruhat_covers (fuel : nat) (self : list Z) : res (list (option (list Z))) :=
  do b <- is_fpf_involution self;
  if negb b then Err AssertionError
  else
    do word <- get_fpf_involution_word fuel self;
    rfold (fun ans i =>
      do w <- from_fpf_involution_word (delete_at i word) true;
      do a <- attr fpf_involution_length w; do b <- fpf_involution_length self;
      Ok (if a =? b - 1 then ans ++ [w] else ans)) (zrange 0 (zlen word)) [].

(* permutations.py:946-948, 958-965  transposition = reflection_t; list assignment, a negative index
   counts from the end *)
Definition py_index (l : list Z) (i : Z) : res nat :=
  if (0 <=? i) && (i <? zlen l) then Ok (Z.to_nat i)
  else if (- zlen l <=? i) && (i <? 0) then Ok (Z.to_nat (i + zlen l))
  else Err IndexError.
Definition transposition (i j : Z) : res (list Z) :=
  let '(i, j) := if j <? i then (j, i) else (i, j) in
  let caller := zrange 1 (j + 1) in
  do a <- py_index caller (i - 1); let caller := upd caller a j in
  do b <- py_index caller (j - 1); let caller := upd caller b i in
  mkperm caller.

(* t * w * t *)
Definition conjugate (t w : list Z) : res (list Z) := do a <- pmul t w; pmul a t.

(* permutations.py:1149-1155, 1157-1162  upper_transitions, lower_transitions *)
Definition upper_transitions (self : list Z) (r : Z) : res (list Z) :=
  rfold (fun ans i =>
    do t <- transposition r i; do v <- conjugate t self;
    do a <- plen v; do b <- plen self;
    Ok (if a =? b + 1 then ans ++ [i] else ans)) (zrange (r + 1) (zlen self + 1)) [].
Definition lower_transitions (self : list Z) (r : Z) : res (list Z) :=
  rfold (fun ans i =>
    do t <- transposition i r; do v <- conjugate t self;
    do a <- plen v; do b <- plen self;
    Ok (if a =? b + 1 then ans ++ [i] else ans)) (zrange 1 r) [].

(* permutations.py:1180-1192, 1194-1204  upper_fpf_involution_transitions, lower_fpf_involution_transitions *)
Definition upper_fpf_involution_transitions (self : list Z) (r : Z) : res (list Z) :=
  do b <- is_fpf_involution self;
  if negb b then Err AssertionError
  else
    let n := zlen self in
    do s <- s_i (n + 1);
    do y <- pmul self s;
    rfold (fun ans j =>
      do t <- transposition r j; do v <- conjugate t y;
      do a <- fpf_involution_length v; do b <- fpf_involution_length y;
      Ok (if a =? b + 1 then ans ++ [j] else ans)) (zrange (r + 1) (n + 3)) [].
Definition lower_fpf_involution_transitions (self : list Z) (r : Z) : res (list Z) :=
  do b <- is_fpf_involution self;
  if negb b then Err AssertionError
  else
    rfold (fun ans j =>
      do t <- transposition j r; do v <- conjugate t self;
      do a <- fpf_involution_length v; do b <- fpf_involution_length self;
      Ok (if a =? b + 1 then ans ++ [j] else ans)) (zrange 1 r) [].

(* permutations.py:1104-1147  tau; the nested t(k, l) *)
Definition tau_t (k l : Z) : res (list Z) :=
  if k =? l then Ok pid else if l <? k then transposition l k else transposition k l.
Definition tau (self : list Z) (i j : Z) : res (list Z) :=
  if (1 <=? i) && (i <? j) then
    let y := pcall self in
    do a <- tau_t i (y i); do ya <- pmul self a;
    (* z = y * t(i, y(i)) if i == y(j) else y * t(i, y(i)) * t(j, y(j)) *)
    do z <- (if i =? y j then Ok ya else do b <- tau_t j (y j); pmul ya b);
    if ((y i <=? i) && (i <? j) && (j <? y j)) || ((y i <? i) && (i <? j) && (j <=? y j)) ||
       ((j <? y i) && (y i <? y j)) || ((y i <? y j) && (y j <? i)) then
      do s <- tau_t i j; conjugate s self
    else if (y i =? i) && (i <? y j) && (y j <? j) then
      do s <- tau_t i (y j); conjugate s self
    else if (i <? y i) && (y i <? j) && (j =? y j) then
      do s <- tau_t (y i) j; conjugate s self
    else if (i <? y j) && (y j <? y i) && (y i <? j) then
      do s <- tau_t i (y j); conjugate s self
    else if (i <? y i) && (y i <? y j) && (y j <? j) then
      do s <- tau_t i j; pmul s z
    else if (i <? y i) && (y i <? j) && (j <? y j) then
      do s <- tau_t i (y j); pmul s z
    else if (y i <? i) && (i <? y j) && (y j <? j) then
      do s <- tau_t (y i) j; pmul s z
    else if (i =? y i) && (i <? j) && (j =? y j) then
      do s <- tau_t i j; pmul s self
    else Ok self
  else Err AssertionError.

(* permutations.py:1164-1170, 1172-1177  upper_involution_transitions, lower_involution_transitions *)
Definition upper_involution_transitions (self : list Z) (r : Z) : res (list Z) :=
  do b <- is_involution self;
  if negb b then Err AssertionError
  else
    rfold (fun ans i =>
      do v <- tau self r i;
      do a <- involution_length v; do b <- involution_length self;
      Ok (if a =? b + 1 then ans ++ [i] else ans)) (zrange (r + 1) (zlen self + 1)) [].
Definition lower_involution_transitions (self : list Z) (r : Z) : res (list Z) :=
  do b <- is_involution self;
  if negb b then Err AssertionError
  else
    rfold (fun ans i =>
      do v <- tau self i r;
      do a <- involution_length v; do b <- involution_length self;
      Ok (if a =? b + 1 then ans ++ [i] else ans)) (zrange 1 r) [].
