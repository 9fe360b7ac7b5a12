(* Model of tableaux.py, class Tableau: the container part.
   A Tableau holds a dict (i, j) -> tuple of ints.  Its methods look at that dict only through
   lookups, ==, hash(sorted(items)), sorted iteration, and max / len of comprehensions, so the
   insertion order is not observable (except through serialize(), not modelled) and the model
   is the list of items in increasing order of cells. *)
From Coq Require Import List ZArith Bool.
From Verif Require Import PyBase M_Partitions.
Import ListNotations.
Local Open Scope Z_scope.

Definition box := (Z * Z)%type.
Definition tab := list (box * list Z).

(* a dict value passed to Tableau(...): an int (or bool) or a tuple of ints *)
Inductive pyval := VInt (x : Z) | VTup (l : list Z).

Definition box_eqb (a b : box) : bool := (fst a =? fst b) && (snd a =? snd b).
(* tuple comparison *)
Definition box_ltb (a b : box) : bool := (fst a <? fst b) || ((fst a =? fst b) && (snd a <? snd b)).

(* self.boxes.get(c) *)
Fixpoint tlookup (t : tab) (c : box) : option (list Z) :=
  match t with
  | [] => None
  | (d, v) :: t' => if box_eqb d c then Some v else tlookup t' c
  end.
(* mapping[c] = v, keeping the cells in order *)
Fixpoint tput (c : box) (v : list Z) (t : tab) : tab :=
  match t with
  | [] => [(c, v)]
  | (d, w) :: t' => if box_ltb c d then (c, v) :: t else if box_eqb c d then (c, v) :: t' else (d, w) :: tput c v t'
  end.
(* del mapping[c] *)
Fixpoint tdel (c : box) (t : tab) : tab :=
  match t with
  | [] => []
  | (d, w) :: t' => if box_eqb c d then t' else (d, w) :: tdel c t'
  end.

(* tableaux.py:62-69  tuplize: a tuple is sorted, an int becomes a 1-tuple *)
Definition tuplize (v : pyval) : list Z := match v with VInt x => [x] | VTup l => sorted l end.

(* tableaux.py:57-77  __init__ on a dict given by its items (distinct keys); the string input
   form (decode_string_input) is not modelled.  _sorting_word is sorting_word below. *)
Definition tinit (mapping : list (box * pyval)) : res tab :=
  if forallb (fun cv => (0 <? fst (fst cv)) && (0 <? snd (fst cv))) mapping
  then Ok (fold_left (fun t cv => tput (fst cv) (tuplize (snd cv)) t) mapping [])
  else Err AssertionError.

(* the dict of a tableau, as items *)
Definition items (t : tab) : list (box * pyval) := map (fun cv => (fst cv, VTup (snd cv))) t.

(* dict assignment on items, in place or at the end *)
Fixpoint mput (c : box) (v : pyval) (m : list (box * pyval)) : list (box * pyval) :=
  match m with
  | [] => [(c, v)]
  | (d, w) :: m' => if box_eqb d c then (c, v) :: m' else (d, w) :: mput c v m'
  end.

(* tableaux.py:70-75, 125-126  _sorting_word and __len__ *)
Definition sorting_word (t : tab) : list Z :=
  flat_map (fun cv => map (fun v => if 0 <? v then 2 * v else -1 - 2 * v) (snd cv)) t.
Definition tlen (t : tab) : Z := zlen (sorting_word t).
(* tableaux.py:79-80 *)
Definition tsize (t : tab) : Z := zlen t.
(* tableaux.py:82-87 *)
Definition abs_sum (t : tab) : Z := zsum (map (fun cv => zsum (map Z.abs (snd cv))) t).
(* tableaux.py:108-110  __eq__ *)
Fixpoint teqb (t u : tab) : bool :=
  match t, u with
  | [], [] => true
  | (c, v) :: t', (d, w) :: u' => box_eqb c d && zlist_eqb v w && teqb t' u'
  | _, _ => false
  end.
(* tableaux.py:118-119  __contains__ and contains_box (377-378) *)
Definition tmem (t : tab) (c : box) : bool := match tlookup t c with Some _ => true | None => false end.
(* tuple comparison of ints *)
Fixpoint lex_ltb (a b : list Z) : bool :=
  match a, b with
  | _, [] => false
  | [], _ => true
  | x :: a', y :: b' => (x <? y) || ((x =? y) && lex_ltb a' b')
  end.
(* tableaux.py:128-129  __lt__ *)
Definition tltb (t u : tab) : bool :=
  (tlen t <? tlen u) || ((tlen t =? tlen u) && lex_ltb (sorting_word t) (sorting_word u)).

(* stable sort by a boolean order *)
Fixpoint ins_by {A} (leb : A -> A -> bool) (x : A) (l : list A) : list A :=
  match l with
  | [] => [x]
  | y :: l' => if leb x y then x :: l else y :: ins_by leb x l'
  end.
Definition isort {A} (leb : A -> A -> bool) (l : list A) : list A := fold_right (ins_by leb) [] l.

(* tableaux.py:139-143  row_reading_word: cells by (-row, column) *)
Definition row_order (a b : box * list Z) : bool :=
  negb (box_ltb (- fst (fst b), snd (fst b)) (- fst (fst a), snd (fst a))).
Definition row_reading_word (t : tab) : list Z := flat_map snd (isort row_order t).
(* tableaux.py:159-163  column_reading_word: cells by (column, -row) *)
Definition col_order (a b : box * list Z) : bool :=
  negb (box_ltb (snd (fst b), - fst (fst b)) (snd (fst a), - fst (fst a))).
Definition column_reading_word (t : tab) : list Z := flat_map snd (isort col_order t).
(* tableaux.py:165-168 *)
Definition shifted_reading_word (t : tab) : list Z :=
  map Z.opp (filter (fun a => a <? 0) (rev (column_reading_word t))) ++ filter (fun a => 0 <? a) (row_reading_word t).

(* tableaux.py:146-157  from_row_reading_word: maximal weakly increasing runs, last run on top;
   the runs are accumulated reversed, and so is each run.  The word is a tuple of ints. *)
Fixpoint runs (prev : Z) (cur : list Z) (acc : list (list Z)) (w : list Z) : list (list Z) :=
  match w with
  | [] => rev cur :: acc
  | a :: w' => if prev <=? a then runs a (a :: cur) acc w' else runs a [a] (rev cur :: acc) w'
  end.
Definition run_rows (w : list Z) : list (list Z) :=   (* reversed(subwords) *)
  match w with [] => [[]] | a :: w' => runs a [a] [] w' end.
Definition from_row_reading_word (w : list Z) : res tab :=
  tinit (flat_map (fun ir => map (fun je => ((fst ir + 1, fst je + 1), VInt (snd je)))
                                 (combine (zrange 0 (zlen (snd ir))) (snd ir)))
                  (combine (zrange 0 (zlen (run_rows w))) (run_rows w))).

(* tableaux.py:170-171  transpose *)
Definition ttranspose (t : tab) : res tab := tinit (map (fun cv => ((snd (fst cv), fst (fst cv)), VTup (snd cv))) t).

(* tableaux.py:304-308 apply; 310-311 double; 313-315 halve; 317-324 negate *)
Definition tapply (f : Z -> Z) (t : tab) : res tab := tinit (map (fun cv => (fst cv, VTup (map f (snd cv)))) t).
Definition tdouble (t : tab) : res tab := tapply (fun x => 2 * x) t.
Definition thalve (t : tab) : res tab :=
  if forallb (fun cv => forallb (fun v => v mod 2 =? 0) (snd cv)) t then tapply (fun x => x / 2) t else Err AssertionError.
Definition tnegate (t : tab) (skipdiagonal : bool) : res tab :=
  if skipdiagonal
  then tinit (map (fun cv => (fst cv, VTup (map (fun v => if fst (fst cv) =? snd (fst cv) then v else - v) (snd cv)))) t)
  else tapply Z.opp t.

(* max of a list, None when empty *)
Definition zmax (l : list Z) : option Z := match l with [] => None | a :: l' => Some (fold_left Z.max l' a) end.
Definition zmin (l : list Z) : option Z := match l with [] => None | a :: l' => Some (fold_left Z.min l' a) end.
(* tableaux.py:329-331, 333-335 *)
Definition last_box_in_row (t : tab) (r : Z) : option Z :=
  zmax (map (fun cv => snd (fst cv)) (filter (fun cv => fst (fst cv) =? r) t)).
Definition last_box_in_column (t : tab) (c : Z) : option Z :=
  zmax (map (fun cv => fst (fst cv)) (filter (fun cv => snd (fst cv) =? c) t)).
(* tableaux.py:337-338  find *)
Definition tfind (t : tab) (v : Z) : list box := map fst (filter (fun cv => existsb (Z.eqb v) (snd cv)) t).

(* tableaux.py:340-344  get(i, j, default, unpack); None is [None] *)
Definition tget (t : tab) (c : box) (default : option pyval) (unpack : bool) : option pyval :=
  let ans := match tlookup t c with Some l => Some (VTup l) | None => default end in
  match ans with Some (VTup [x]) => if unpack then Some (VInt x) else ans | _ => ans end.

(* tableaux.py:346-347, 349-350  get_row / get_column; [None] bounds are absent *)
Definition within (x : Z) (before after : option Z) : bool :=
  (match before with None => true | Some b => x <? b end) && (match after with None => true | Some a => a <? x end).
Definition get_row (t : tab) (x : Z) (before after : option Z) : res tab :=
  tinit (items (filter (fun cv => (fst (fst cv) =? x) && within (snd (fst cv)) before after) t)).
Definition get_column (t : tab) (x : Z) (before after : option Z) : res tab :=
  tinit (items (filter (fun cv => (snd (fst cv) =? x) && within (fst (fst cv)) before after) t)).

(* tableaux.py:352-359  add(i, j, v).  Adding a tuple to an occupied cell makes sorted() compare
   an int with a tuple: TypeError (unless the cell holds the empty tuple, whose
   sorted one-element list then fails the type assertion). *)
Definition tadd (t : tab) (i j : Z) (v : pyval) : res tab :=
  if (0 <? i) && (0 <? j) then
    match tlookup t (i, j) with
    | None => tinit (mput (i, j) v (items t))
    | Some old =>
        match v with
        | VInt x => tinit (mput (i, j) (VTup (sorted (old ++ [x]))) (items t))
        | VTup _ => match old with [] => Err AssertionError | _ => Err TypeError end
        end
    end
  else Err AssertionError.

(* first position of v in the tuple, cut out: self.get(...)[:k] + self.get(...)[k + 1:] *)
Fixpoint cut_first (v : Z) (l : list Z) : list Z :=
  match l with [] => [] | x :: l' => if x =? v then l' else x :: cut_first v l' end.
(* tableaux.py:361-375  remove(i, j, v=None) *)
Definition tremove (t : tab) (i j : Z) (v : option Z) : res tab :=
  match tlookup t (i, j) with
  | None => Err AssertionError
  | Some old =>
      match v with
      | None => tinit (items (tdel (i, j) t))
      | Some x =>
          if existsb (Z.eqb x) old then
            match cut_first x old with
            | [] => tinit (items (tdel (i, j) t))
            | l => tinit (mput (i, j) (VTup l) (items t))
            end
          else Err AssertionError
      end
  end.
(* tableaux.py:386-390  replace; 392-396 clear; 380-384 set *)
Definition treplace (t : tab) (i j : Z) (v : pyval) : res tab :=
  if tmem t (i, j) then tinit (mput (i, j) v (items t)) else Err AssertionError.
Definition tclear (t : tab) (i j : Z) : res tab :=
  if tmem t (i, j) then tinit (items (tdel (i, j) t)) else Err AssertionError.
Definition tset (t : tab) (i j : Z) (v : pyval) : res tab :=
  if tmem t (i, j) then treplace t i j v else tadd t i j v.

(* tableaux.py:398-402  values, a set in order of first occurrence *)
Definition tvalues (t : tab) : list Z :=
  fold_left (fun s v => if existsb (Z.eqb v) s then s else s ++ [v]) (flat_map snd t) [].

(* tableaux.py:404-408  last *)
Definition tlast (t : tab) : res Z :=
  let v := tvalues t in
  let n := match zmin v, zmax v with Some a, Some b => Z.max (Z.abs a) (Z.abs b) | _, _ => 0 end in
  if existsb (Z.eqb n) v && existsb (Z.eqb (- n)) v then Err AssertionError
  else Ok (if existsb (Z.eqb n) v then n else - n).

(* tableaux.py:423-427  max_row / max_column *)
Definition max_row (t : tab) (col : option Z) : Z :=
  fold_left Z.max (map (fun cv => fst (fst cv))
     (filter (fun cv => match col with None => true | Some c => snd (fst cv) =? c end) t)) 0.
Definition max_column (t : tab) (r : option Z) : Z :=
  fold_left Z.max (map (fun cv => snd (fst cv))
     (filter (fun cv => match r with None => true | Some r => fst (fst cv) =? r end) t)) 0.
(* tableaux.py:429-433  shape *)
Definition tshape (t : tab) : list Z :=
  map (fun i => zlen (filter (fun cv => i =? fst (fst cv)) t)) (zrange 1 (max_row t None + 1)).
(* tableaux.py:435-436 *)
Definition setvalued_excess (t : tab) : Z := zsum (map (fun cv => zlen (snd cv) - 1) t).

(* tableaux.py:476-481  counter, a dict *)
Definition counter (t : tab) : list (Z * Z) :=
  fold_left (fun d x => dset Z.eqb d x (match dget Z.eqb d x with Some c => c | None => 0 end + 1)) (flat_map snd t) [].

(* l[k] += 1 for an index k >= -1; -1 is the last element *)
Definition bump_at (l : list Z) (k : Z) : res (list Z) :=
  let k := if k <? 0 then k + zlen l else k in
  if (0 <=? k) && (k <? zlen l) then Ok (upd l (Z.to_nat k) (nthz l k + 1)) else Err IndexError.
(* tableaux.py:483-493  weight(n) *)
Definition tweight (t : tab) (n : option Z) : res (list Z) :=
  rfold (fun ans x =>
    let ans := match n with None => ans ++ repeat 0 (Z.to_nat (Z.abs x - zlen ans)) | Some _ => ans end in
    bump_at ans (Z.abs x - 1)) (flat_map snd t) (match n with None => [] | Some n => repeat 0 (Z.to_nat n) end).

(* tableaux.py:196-213  is_semistandard(diagonal_primes); max / min of an empty cell raise ValueError *)
Definition dbl (v : Z) : Z := if 0 <? v then 2 * v else -1 - 2 * v.
Fixpoint is_semistandard_loop (t : tab) (diagonal_primes : bool) (l : tab) : res bool :=
  match l with
  | [] => Ok true
  | ((i, j), values) :: l' =>
      do bad <- (if (i =? j) && negb diagonal_primes
                 then match zmin values with None => Err ValueError | Some m => Ok (m <? 0) end else Ok false);
      if bad then Ok false else
      match zmax (map dbl values) with
      | None => Err ValueError
      | Some maxval =>
          do right <- match tlookup t (i, j + 1) with
                      | None => Ok false
                      | Some w => match zmin (map dbl w) with
                                  | None => Err ValueError
                                  | Some minval => Ok ((minval <? maxval) || ((maxval =? minval) && negb (minval mod 2 =? 0)))
                                  end
                      end;
          if right then Ok false else
          do up <- match tlookup t (i + 1, j) with
                   | None => Ok false
                   | Some w => match zmin (map dbl w) with
                               | None => Err ValueError
                               | Some minval => Ok ((minval <? maxval) || ((maxval =? minval) && (minval mod 2 =? 0)))
                               end
                   end;
          if up then Ok false else is_semistandard_loop t diagonal_primes l'
      end
  end.
Definition is_semistandard (t : tab) (diagonal_primes : bool) : res bool := is_semistandard_loop t diagonal_primes t.
(* tableaux.py:215-219 *)
Definition is_standard (t : tab) : res bool :=
  do b <- is_semistandard t false;
  if b then let val := map Z.abs (flat_map snd t) in Ok (zlist_eqb (sorted val) (zrange 1 (zlen val + 1))) else Ok false.

(* tableaux.py:173-182  standardize *)
Definition std_order (a b : Z * box) : bool :=
  let key (x : Z * box) := if fst x <? 0 then (-2 * fst x - 1, fst (snd x)) else (2 * fst x, snd (snd x)) in
  negb (box_ltb (key b) (key a)).
Definition standardize (t : tab) : res tab :=
  let entries := isort std_order (flat_map (fun cv => map (fun v => (v, fst cv)) (snd cv)) t) in
  rfold (fun ans av => let a := fst av in let v := fst (snd av) in let c := snd (snd av) in
           tadd ans (fst c) (snd c) (VInt (if 0 <? v then a + 1 else - a - 1)))
        (combine (zrange 0 (zlen entries)) entries) [].
