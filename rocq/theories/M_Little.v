(* Model of the Little push and the Little bump of words, permutations.py:457-492.
   Words are tuples of integers; positions are non-negative (a negative position of little_push is not modelled). *)
From Coq Require Import List ZArith Bool.
From Verif Require Import PyBase M_Partitions M_Perm M_Bruhat.
Import ListNotations.
Local Open Scope Z_scope.

(* word[:i] + (word[i] + 1,) + word[i + 1:], permutations.py:459 *)
Definition raise_at (i : Z) (word : list Z) : list Z :=
  firstn (Z.to_nat i) word ++ (nthz word i + 1) :: skipn (Z.to_nat (i + 1)) word.

(* permutations.py:464-467  the first j other than i with v == from_word(new[:j] + new[j + 1:]) *)
Fixpoint other_defect (v new : list Z) (i : Z) (js : list Z) : res Z :=
  match js with
  | [] => Err GenericException
  | j :: js' =>
      if i =? j then other_defect v new i js'
      else do u <- from_word (delete_at j new);
           if peq v u then Ok j else other_defect v new i js'
  end.

(* permutations.py:457-467  little_push; the position None is None *)
Definition little_push (word : list Z) (i : Z) : res (list Z * option Z) :=
  if negb ((0 <=? i) && (i <? zlen word)) then Err IndexError
  else
    let new := raise_at i word in
    do v <- from_word (delete_at i word);
    do w <- from_word new;
    do l <- plen w;
    if l =? zlen new then Ok (new, None)
    else do j <- other_defect v new i (zrange 0 (zlen new)); Ok (new, Some j).

(* permutations.py:482-484  while i is not None; [fuel] bounds the number of rounds *)
Fixpoint push_loop (fuel : nat) (word : list Z) (i : option Z) : res (list Z) :=
  match i with
  | None => Ok word
  | Some i =>
      match fuel with
      | O => Err OutOfFuel
      | S fuel' => do r <- little_push word i; push_loop fuel' (fst r) (snd r)
      end
  end.

(* permutations.py:479-485  for i in range(len(word)) *)
Fixpoint bump_from (fuel : nat) (word y : list Z) (is : list Z) : res (list Z) :=
  match is with
  | [] => Ok word
  | i :: is' =>
      do u <- from_word (delete_at i word);
      if peq u y then push_loop fuel word (Some i) else bump_from fuel word y is'
  end.

(* permutations.py:469-485  little_bump(word, y), y a Permutation *)
Definition little_bump (fuel : nat) (word y : list Z) : res (list Z) :=
  do w <- from_word word;
  do l <- plen w;
  if negb (l =? zlen word) then Err AssertionError
  else bump_from fuel word y (zrange 0 (zlen word)).

(* permutations.py:469-475, 486-492  little_bump(word, j, k), j and k integers *)
Definition little_bump_at (fuel : nat) (word : list Z) (j k : Z) : res (list Z) :=
  do w <- from_word word;
  do l <- plen w;
  if negb (l =? zlen word) then Err AssertionError
  else
    do t <- transposition j k;
    do u <- pmul w t;
    do lu <- plen u;
    if negb (lu =? l - 1) then Ok word
    else little_bump fuel word u.
