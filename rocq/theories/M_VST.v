(* Model of the methods of ValuedSetTableau in vst.py that concern groups, hinges and primes.
   A valued-set tableau is a pair of tableaux (entries, grouping), see M_Transposed.  The loops over the dict of boxes are
   modelled in reading order; only the order of the list returned by singletons() would show the difference. *)
From Coq Require Import List ZArith Bool.
From Verif Require Import PyBase M_Partitions M_Tableaux M_Transposed.
Import ListNotations.
Local Open Scope Z_scope.

(* tableau.get(i, j) used in a comparison with an int or in abs(): None and tuples are a TypeError *)
Definition entry (t : tab) (c : box) : res Z := match tget t c None true with Some (VInt x) => Ok x | _ => Err TypeError end.
(* [c for c in l if p(c)] *)
Fixpoint keep (p : box -> res bool) (l : list box) : res (list box) :=
  match l with
  | [] => Ok []
  | c :: l' => do b <- p c; do r <- keep p l'; Ok (if b : bool then c :: r else r)
  end.
(* all(p(c) for c in l) *)
Fixpoint allr (p : box -> res bool) (l : list box) : res bool :=
  match l with
  | [] => Ok true
  | c :: l' => do b <- p c; if b : bool then allr p l' else Ok false
  end.

(* vst.py:29-30  is_highest_weight *)
Definition is_highest_weight (v : tab * tab) : bool :=
  forallb (fun cv => match tget (snd v) (fst cv) None true with Some (VInt x) => x =? 0 | _ => false end) (fst v).

(* vst.py:35  tab.get(...) in args; None and tuples are not in a list of ints *)
Definition in_args (t : tab) (args : list Z) (c : box) : bool :=
  match tget t c None true with Some (VInt x) => existsb (Z.eqb x) args | _ => false end.
(* vst.py:32-38  hinge(index) *)
Definition hinge (v : tab * tab) (index : Z) : res (option Z) :=
  if index <=? 0 then Err AssertionError
  else
    let args := [index; - index; index + 1; - index - 1] in
    let t := fst v in
    let xs := map fst (filter (fun c => (fst c =? snd c) && in_args t args c && in_args t args (fst c, snd c + 1) && in_args t args (fst c + 1, snd c + 1)) (map fst t)) in
    if 1 <? zlen xs then Err AssertionError else Ok (hd_error xs).

(* vst.py:40-41  is_group_end *)
Definition is_group_end (v : tab * tab) (c : box) : bool := tmem (fst v) c && negb (truthy (snd v) c).
(* vst.py:43-49  is_group_start; an entry 0 gives None, modelled by false *)
Definition is_group_start (v : tab * tab) (c : box) : res bool :=
  if negb (tmem (fst v) c) then Ok false
  else
    do x <- entry (fst v) c;
    if 0 <? x then
      let d := (fst c, snd c - 1) in
      if tmem (fst v) d then do y <- entry (fst v) d; Ok (negb ((0 <? y) && truthy (snd v) d)) else Ok true
    else if x <? 0 then
      let d := (fst c + 1, snd c) in
      if tmem (fst v) d then do y <- entry (fst v) d; Ok (negb ((y <? 0) && truthy (snd v) d)) else Ok true
    else Ok false.
(* vst.py:51-52  is_singleton *)
Definition is_singleton (v : tab * tab) (c : box) : res bool := if is_group_end v c then is_group_start v c else Ok false.
(* vst.py:54-55  diagonal_primes() *)
Definition diagonal_primes_count (v : tab * tab) : res Z :=
  do l <- keep (fun c => if fst c =? snd c then do x <- entry (fst v) c; Ok (x <? 0) else Ok false) (map fst (fst v));
  Ok (zlen l).
(* vst.py:69-72  singletons( *args) *)
Definition vst_singletons (v : tab * tab) (args : list Z) : res (list box) :=
  do ans <- keep (is_singleton v) (map fst (fst v));
  keep (fun c => if zlen args =? 0 then Ok true else do x <- entry (fst v) c; Ok (existsb (Z.eqb (Z.abs x)) (map Z.abs args))) ans.
(* vst.py:74-75  diagonal_singletons( *args) *)
Definition diagonal_singletons (v : tab * tab) (args : list Z) : res (list Z) :=
  do s <- vst_singletons v args;
  Ok (sorted (map fst (filter (fun c => fst c =? snd c) s))).
(* vst.py:77-79  primed_diagonal_cells( *args) *)
Definition primed_diagonal_cells (v : tab * tab) (args : list Z) : list Z :=
  sorted (map fst (filter (fun c => (fst c =? snd c) && in_args (fst v) (map (fun a => - Z.abs a) args) c) (map fst (fst v)))).
(* vst.py:81-86  primed_groups( *args) *)
Definition primed_groups (v : tab * tab) (args : list Z) : res Z :=
  if zlen args =? 0 then
    do l <- keep (fun c => do x <- entry (fst v) c; Ok ((x <? 0) && negb (truthy (snd v) c))) (map fst (fst v)); Ok (zlen l)
  else Ok (zlen (filter (fun c => in_args (fst v) (map (fun a => - Z.abs a) args) c && negb (truthy (snd v) c)) (map fst (fst v)))).
(* t[c] = abs(self.tableau.get(c)) for c in cs, on a copy t of the dict of boxes *)
Definition unprime_cells (t : tab) (cs : list box) : res (list (box * pyval)) :=
  rfold (fun m c => do x <- entry t c; Ok (mput c (VInt (Z.abs x)) m)) cs (items t).
(* vst.py:57-61  unprime *)
Definition unprime (v : tab * tab) : res (tab * tab) :=
  do s <- vst_singletons v [];
  do m <- unprime_cells (fst v) s;
  do t <- tinit m;
  vst_init t (snd v).
(* vst.py:63-67  unprime_diagonal *)
Definition unprime_diagonal (v : tab * tab) : res (tab * tab) :=
  do s <- diagonal_singletons v [];
  do m <- unprime_cells (fst v) (map (fun x => (x, x)) s);
  do t <- tinit m;
  vst_init t (snd v).

(* vst.py:121-135  is_semistandard; ofn(x) = -2 - 2 * x if x < 0 else 2 * x - 1.  The order of the set comprehensions only
   matters if an entry is not an int *)
Definition ofn (x : Z) : Z := if x <? 0 then -2 - 2 * x else 2 * x - 1.
Definition vst_is_semistandard (v : tab * tab) : res bool :=
  let t := fst v in
  do rows <- allr (fun c =>
      let d := (fst c - 1, snd c) in
      if tmem t d then
        do x <- entry t c; do y <- entry t d;
        let p := ofn x in let q := ofn y in Ok (negb ((p <? q) || ((p =? q) && negb (p mod 2 =? 0))))
      else Ok true) (map fst t);
  if rows then
    allr (fun c =>
      let d := (fst c, snd c + 1) in
      if tmem t d then
        do x <- entry t c; do y <- entry t d;
        let p := ofn x in let q := ofn y in Ok (negb ((q <? p) || ((p =? q) && (p mod 2 =? 0))))
      else Ok true) (map fst t)
  else Ok false.

(* vst.py:158-159, 168-169  while grouping.get(next) and tableau.get(next) == tableau.get(c), the latter of the right sign; the
   cells c reached have an entry of that sign, so the sign is not tested again.  [fuel] bounds the number of rounds *)
Fixpoint walk (fuel : nat) (next : box -> box) (v : tab * tab) (x : Z) (c : box) : res box :=
  match fuel with
  | O => Err OutOfFuel
  | S fuel' => if truthy (snd v) (next c) && same_entry (fst v) (next c) x then walk fuel' next v x (next c) else Ok c
  end.
Definition with_entry (v : tab * tab) (x : Z) : list box := filter (fun c => same_entry (fst v) c x && negb (truthy (snd v) c)) (map fst (fst v)).
(* vst.py:154-162  get_verticals(v): starts, ends; sorted by (-column, row) *)
Definition get_verticals (fuel : nat) (v : tab * tab) (x : Z) : res (list box * list box) :=
  if 0 <=? x then Err AssertionError
  else
    let starts := isort (fun a b => negb (box_ltb (- snd b, fst b) (- snd a, fst a))) (with_entry v x) in
    do ends <- rmap (walk fuel (fun c => (fst c + 1, snd c)) v x) starts;
    Ok (starts, ends).
(* vst.py:164-172  get_horizontals(v): starts, ends; sorted by (row, -column) *)
Definition get_horizontals (fuel : nat) (v : tab * tab) (x : Z) : res (list box * list box) :=
  if x <=? 0 then Err AssertionError
  else
    let ends := isort (fun a b => negb (box_ltb (fst b, - snd b) (fst a, - snd a))) (with_entry v x) in
    do starts <- rmap (walk fuel (fun c => (fst c, snd c - 1)) v x) ends;
    Ok (starts, ends).
