(* Model of the Little push and the Little bump of involution words, permutations.py:417-455.
   Words are tuples of integers; positions are non-negative (a negative position of involution_little_push is not modelled). *)
From Coq Require Import List ZArith Bool.
From Verif Require Import PyBase M_Partitions M_Perm M_Levels M_PermGroth M_Bruhat M_Atoms M_Little.
Import ListNotations.
Local Open Scope Z_scope.

(* from_involution_word(word, strict=False); it never returns None, see M_Perm, so the use of None is an attribute error *)
Definition lenient (word : list Z) : res (list Z) :=
  do o <- from_involution_word word false;
  match o with Some w => Ok w | None => Err AttributeError end.

(* permutations.py:424-427  the first j other than i with v == from_involution_word(new[:j] + new[j + 1:], strict=False) *)
Fixpoint involution_other_defect (v new : list Z) (i : Z) (js : list Z) : res Z :=
  match js with
  | [] => Err GenericException
  | j :: js' =>
      if i =? j then involution_other_defect v new i js'
      else do u <- lenient (delete_at j new);
           if peq v u then Ok j else involution_other_defect v new i js'
  end.

(* permutations.py:417-427  involution_little_push; the position None is None *)
Definition involution_little_push (word : list Z) (i : Z) : res (list Z * option Z) :=
  if negb ((0 <=? i) && (i <? zlen word)) then Err IndexError
  else
    let new := raise_at i word in
    do v <- lenient (delete_at i word);
    do w <- lenient new;
    do l <- involution_length w;
    if l =? zlen new then Ok (new, None)
    else do j <- involution_other_defect v new i (zrange 0 (zlen new)); Ok (new, Some j).

(* permutations.py:442-444  while i is not None; [fuel] bounds the number of rounds *)
Fixpoint involution_push_loop (fuel : nat) (word : list Z) (i : option Z) : res (list Z) :=
  match i with
  | None => Ok word
  | Some i =>
      match fuel with
      | O => Err OutOfFuel
      | S fuel' => do r <- involution_little_push word i; involution_push_loop fuel' (fst r) (snd r)
      end
  end.

(* permutations.py:439-445  for i in range(len(word)) *)
Fixpoint involution_bump_from (fuel : nat) (word y : list Z) (is : list Z) : res (list Z) :=
  match is with
  | [] => Ok word
  | i :: is' =>
      do u <- lenient (delete_at i word);
      if peq u y then involution_push_loop fuel word (Some i) else involution_bump_from fuel word y is'
  end.

(* permutations.py:429-445  involution_little_bump(word, y), y a Permutation *)
Definition involution_little_bump (fuel : nat) (word y : list Z) : res (list Z) :=
  do w <- lenient word;
  do l <- involution_length w;
  if negb (l =? zlen word) then Err AssertionError
  else involution_bump_from fuel word y (zrange 0 (zlen word)).

Section Two.
(* iteration order of a set of tuples, and next(iter(set)), see M_Atoms and M_Levels *)
Variable aord : list (list Z) -> list (list Z).
Variable pick : nat -> list Z -> Z.
(* permutations.py:450  [x * t for x in atoms if len(x * t) == len(x) - 1] *)
Fixpoint shorter_by (t : list Z) (atoms : list (list Z)) : res (list (list Z)) :=
  match atoms with
  | [] => Ok []
  | x :: atoms' =>
      do u <- pmul x t;
      do lu <- plen u;
      do lx <- plen x;
      do r <- shorter_by t atoms';
      Ok (if lu =? lx - 1 then u :: r else r)
  end.
(* permutations.py:451  [x for x in subatoms if (x.inverse() % x).involution_length == len(x)] *)
Fixpoint atoms_only (subatoms : list (list Z)) : res (list (list Z)) :=
  match subatoms with
  | [] => Ok []
  | x :: subatoms' =>
      do xi <- pinv x;
      do z <- pmodf pick xi x;
      do l <- involution_length z;
      do lx <- plen x;
      do r <- atoms_only subatoms';
      Ok (if l =? lx then x :: r else r)
  end.
(* permutations.py:429-434, 446-455  involution_little_bump(word, j, k), j and k integers; c is the cache of get_atoms,
   which is returned with the word *)
Definition involution_little_bump_at (fuel : nat) (c : atom_cache) (word : list Z) (j k : Z) : res (atom_cache * list Z) :=
  do w <- lenient word;
  do l <- involution_length w;
  if negb (l =? zlen word) then Err AssertionError
  else
    do t <- transposition j k;
    do a <- get_atoms aord fuel c w;
    do s <- shorter_by t (snd a);
    do s' <- atoms_only s;
    match s' with
    | [] => Ok (fst a, word)
    | x :: _ => do xi <- pinv x; do y <- pmodf pick xi x; do new <- involution_little_bump fuel word y; Ok (fst a, new)
    end.
End Two.
