(* Model of permutations.py, class Permutation: the group of signed permutations, length,
   descents, words, Demazure product, powers, code, enumeration.
   A Permutation object is its tuple [oneline]; the cached fields _rdes, _ldes, _len hold values
   that are functions of [oneline] and are not represented. *)
From Coq Require Import List ZArith Bool.
From Verif Require Import PyBase M_Partitions.
Import ListNotations.
Local Open Scope Z_scope.

Definition memz (x : Z) (l : list Z) : bool := existsb (Z.eqb x) l.

(* permutations.py:36-37  while oneline and oneline[-1] == len(oneline): oneline = oneline[:-1].
   Walking from the end is walking the reversed list. *)
Fixpoint strip_rev (r : list Z) : list Z :=
  match r with
  | [] => []
  | a :: r' => if a =? zlen r then strip_rev r' else r
  end.
Definition strip (l : list Z) : list Z := rev (strip_rev (rev l)).

(* set(l) == set(m) *)
Definition same_set (l m : list Z) : bool :=
  forallb (fun x => memz x m) l && forallb (fun x => memz x l) m.

(* permutations.py:33-45  Permutation(oneline) for a tuple of ints *)
Definition mkperm (oneline : list Z) : res (list Z) :=
  let l := strip oneline in
  if same_set (zrange 1 (zlen l + 1)) (map Z.abs l) then Ok l else Err AssertionError.

(* permutations.py:785-791  __call__ *)
Definition pcall (w : list Z) (i : Z) : Z :=
  let rank := zlen w in
  if (0 <? i) && (i <=? rank) then nthz w (i - 1)
  else if (- rank <=? i) && (i <? 0) then - nthz w (- i - 1)
  else i.

(* permutations.py:911-913  __eq__ *)
Definition peq (u v : list Z) : bool := zlist_eqb u v.

(* permutations.py:815-817 *)
Definition pid : list Z := [].

(* permutations.py:890-895  __mul__ with a Permutation *)
Definition pmul (u v : list Z) : res (list Z) :=
  mkperm (map (fun i => pcall u (pcall v i)) (zrange 1 (Z.max (zlen u) (zlen v) + 1))).

(* permutations.py:897-905  inverse *)
Definition pinv (w : list Z) : res (list Z) :=
  let newline := fold_left (fun newline i =>
      let j := pcall w i in
      if 0 <? j then upd newline (Z.to_nat (j - 1)) i else upd newline (Z.to_nat (- j - 1)) (- i))
    (zrange 1 (zlen w + 1)) (repeat 0 (length w)) in
  mkperm newline.

(* permutations.py:830-837  s_i *)
Definition s_i (i : Z) : res (list Z) :=
  if 0 <=? i then mkperm (if i =? 0 then [-1] else zrange 1 i ++ [i + 1; i]) else Err AssertionError.

(* permutations.py:839-848  right_descent_set, in order of insertion *)
Definition rdes (w : list Z) : list Z :=
  (if (1 <=? zlen w) && (pcall w 1 <? 0) then [0] else []) ++
  filter (fun i => pcall w (i + 1) <? pcall w i) (zrange 1 (zlen w)).

(* permutations.py:850-854 *)
Definition ldes (w : list Z) : res (list Z) := do v <- pinv w; Ok (rdes v).

(* permutations.py:856-864  __len__ *)
Definition plen (w : list Z) : res Z :=
  let biline := map Z.opp (rev w) ++ w in
  let n := zlen w * 2 in
  let inv := zlen (flat_map (fun i => flat_map (fun j => if nthz biline j <? nthz biline i then [(i, j)] else [])
                                        (zrange (i + 1) n)) (zrange 0 n)) in
  let inv_zero := zlen (filter (fun i => i <? 0) w) in
  if inv mod 2 =? inv_zero mod 2 then Ok ((inv + inv_zero) / 2) else Err AssertionError.

(* permutations.py:94-99 *)
Definition from_word (word : list Z) : res (list Z) :=
  fold_left (fun ans i => do ans <- ans; do s <- s_i i; pmul ans s) word (Ok pid).

(* min of a nonempty list *)
Definition zmin (l : list Z) : Z := match l with [] => 0 | a :: l' => fold_left Z.min l' a end.

(* permutations.py:690-696  get_reduced_word; [fuel] bounds the recursion depth *)
Fixpoint get_reduced_word (fuel : nat) (w : list Z) : res (list Z) :=
  match fuel with
  | O => Err OutOfFuel
  | S fuel' =>
      do d <- ldes w;
      match d with
      | [] => Ok []
      | _ :: _ =>
          let i := zmin d in
          do s <- s_i i;
          do v <- pmul s w;
          do word <- get_reduced_word fuel' v;
          Ok (i :: word)
      end
  end.

(* permutations.py:878-888  __mod__; [pick k d] is next(iter(d)) at recursion depth left [k]:
   the iteration order of a set is not specified *)
Fixpoint pmod (pick : nat -> list Z -> Z) (fuel : nat) (u v : list Z) : res (list Z) :=
  match fuel with
  | O => Err OutOfFuel
  | S fuel' =>
      do d <- ldes v;
      match d with
      | [] => Ok u
      | _ :: _ =>
          let i := pick fuel' d in
          do s <- s_i i;
          do sv <- pmul s v;
          if memz i (rdes u) then pmod pick fuel' u sv
          else do us <- pmul u s; pmod pick fuel' us sv
      end
  end.

(* permutations.py:915-925  __pow__; identity(self.rank) raises since identity takes no argument *)
Fixpoint ppow_pos (fuel : nat) (w : list Z) (n : Z) : res (list Z) :=
  match fuel with
  | O => Err OutOfFuel
  | S fuel' =>
      if n =? 0 then Err TypeError
      else if n =? 1 then mkperm w
      else let p := n / 2 in
           let q := n - p in
           do a <- ppow_pos fuel' w p; do b <- ppow_pos fuel' w q; pmul a b
  end.
Definition ppow (w : list Z) (n : Z) : res (list Z) :=
  if n <? 0 then do v <- pinv w; ppow_pos (S (Z.to_nat (- n))) v (- n)
  else ppow_pos (S (Z.to_nat n)) w n.

(* permutations.py:359-360, 353-354, 350-351 *)
Definition is_unsigned (w : list Z) : bool := forallb (fun i => 0 <? i) w.
Definition is_involution (w : list Z) : res bool := do v <- pinv w; Ok (peq w v).
Definition is_fpf_involution (w : list Z) : res bool :=
  do v <- pinv w; Ok (peq w v && forallb (fun i => negb (pcall w i =? i)) (zrange 1 (zlen w + 1))).

(* permutations.py:235-240  code *)
Definition code (w : list Z) : res (list Z) :=
  if is_unsigned w then
    Ok (map (fun i => zlen (filter (fun j => pcall w j <? pcall w i) (zrange (i + 1) (zlen w + i)))) (zrange 1 (1 + zlen w)))
  else Err AssertionError.

(* permutations.py:101-112  from_involution_word; Ok None is the returned None *)
Fixpoint from_involution_word_loop (strict : bool) (word : list Z) (w : list Z) : res (option (list Z)) :=
  match word with
  | [] => Ok (Some w)
  | i :: word' =>
      do s <- s_i i;
      if memz i (rdes w) && strict then Ok None
      else do sw <- pmul s w; do ws <- pmul w s;
        if peq sw ws then from_involution_word_loop strict word' ws
        else do sws <- pmul sw s; from_involution_word_loop strict word' sws
  end.
Definition from_involution_word (word : list Z) (strict : bool) : res (option (list Z)) :=
  from_involution_word_loop strict word pid.

(* permutations.py:702-710  get_involution_word *)
Fixpoint get_involution_word (fuel : nat) (w : list Z) : res (list Z) :=
  match fuel with
  | O => Err OutOfFuel
  | S fuel' =>
      do b <- is_involution w;
      if negb b then Err AssertionError
      else
        do d <- ldes w;
        match d with
        | [] => Ok []
        | _ :: _ =>
            let i := zmin d in
            do s <- s_i i;
            do ws <- pmul w s; do sw <- pmul s w;
            do v <- (if peq ws sw then Ok ws else pmul sw s);
            do word <- get_involution_word fuel' v;
            Ok (word ++ [i])
        end
  end.
