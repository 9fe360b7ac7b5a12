(* Model of the fixed-point-free involution words, permutations.py:114-129 and 716-727, 765-783.
   from_involution_word and get_involution_word are in M_Perm. *)
From Coq Require Import List ZArith Bool.
From Verif Require Import PyBase M_Perm.
Import ListNotations.
Local Open Scope Z_scope.

(* permutations.py:121-129  the loop over the letters; Ok None is the returned None *)
Fixpoint from_fpf_loop (strict : bool) (word : list Z) (w : list Z) : res (option (list Z)) :=
  match word with
  | [] => Ok (Some w)
  | i :: word' =>
      do s <- s_i i;
      if memz i (rdes w) && strict then Ok None
      else
        (* s * w == w * s is evaluated before "and strict" *)
        do sw <- pmul s w; do ws <- pmul w s;
        if peq sw ws && strict then Ok None
        else do sws <- pmul sw s; from_fpf_loop strict word' sws
  end.
(* permutations.py:114-129  from_fpf_involution_word; range(1, n, 2) with n even is 1, 3, ..., n - 1 *)
Definition from_fpf_involution_word (word : list Z) (strict : bool) : res (option (list Z)) :=
  let n := match word with [] => 0 | a :: r => 1 + fold_left Z.max r a end in
  let n := if n mod 2 =? 0 then n else n + 1 in
  do w <- fold_left (fun a j => do a <- a; do s <- s_i (2 * j + 1); pmul a s) (zrange 0 (n / 2)) (Ok pid);
  from_fpf_loop strict word w.

(* permutations.py:716-727  get_fpf_involution_word; fuel is the recursion depth *)
Fixpoint get_fpf_involution_word (fuel : nat) (w : list Z) : res (list Z) :=
  match fuel with
  | O => Err OutOfFuel
  | S fuel' =>
      do b <- is_fpf_involution w;
      if negb b then Err AssertionError
      else
        do d <- ldes w;
        match filter (fun i => negb (pcall w i =? i + 1)) d with
        | [] => Ok []
        | des =>
            let i := zmin des in
            do s <- s_i i;
            do sw <- pmul s w; do sws <- pmul sw s;
            do word <- get_fpf_involution_word fuel' sws;
            Ok (word ++ [i])
        end
  end.

(* permutations.py:769-771  the while loop dropping trailing blocks (n, n - 1); oneline[-2] raises
   IndexError on a tuple of length one *)
Fixpoint drop_pairs (fuel : nat) (l : list Z) : res (list Z) :=
  match fuel with
  | O => Err OutOfFuel
  | S fuel' =>
      match rev l with
      | [] => Ok l
      | [_] => Err IndexError
      | a :: b :: r =>
          if (b =? zlen l) && (a =? zlen l - 1) then drop_pairs fuel' (rev r) else Ok l
      end
  end.

(* permutations.py:765-783  get_fpf_involution_words with the global FPF_INVOLUTION_WORDS; a set of words is a
   duplicate-free list, [rord] is the iteration order of the set of descents *)
Definition fpf_cache := list (list Z * list (list Z)).
Definition wunion (s t : list (list Z)) : list (list Z) :=
  fold_left (fun s x => if existsb (zlist_eqb x) s then s else s ++ [x]) t s.
Section Words.
Variable rord : list Z -> list Z.
Fixpoint get_fpf_involution_words (fuel : nat) (c : fpf_cache) (w : list Z) : res (fpf_cache * list (list Z)) :=
  match fuel with
  | O => Err OutOfFuel
  | S fuel' =>
      do b <- is_fpf_involution w;
      if negb b then Err AssertionError
      else
        do oneline <- drop_pairs (S (length w)) w;
        do w <- mkperm oneline;
        match dget zlist_eqb c oneline with
        | Some words => Ok (c, words)
        | None =>
            do r <- fold_left (fun acc i =>
                do r <- acc;
                let '(c, ans) := r : fpf_cache * list (list Z) in
                if negb (pcall w i =? i + 1) then
                  do s <- s_i i;
                  do sw <- pmul s w; do sws <- pmul sw s;
                  do r <- get_fpf_involution_words fuel' c sws;
                  let '(c, words) := r : fpf_cache * list (list Z) in
                  Ok (c, wunion ans (wunion [] (map (fun word => word ++ [i]) words)))
                else Ok (c, ans))
              (rord (rdes w)) (Ok (c, []));
            let '(c, ans) := r : fpf_cache * list (list Z) in
            let c := dset zlist_eqb c oneline ans in
            Ok (c, ans)
        end
  end.
End Words.
