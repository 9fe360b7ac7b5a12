(* Model of the crystal operators on set-valued and multiset-valued tableaux: tableaux.py:221-302, and of
   crystals.py: TableauCrystalGenerator.f_crystal_operator. *)
From Coq Require Import List ZArith Bool.
From Verif Require Import PyBase M_Partitions M_Tableaux M_Words.
Import ListNotations.
Local Open Scope Z_scope.

(* tableaux.py:259-262 (and 285-288)  the triples (x, y, v) with v in [i, i + 1], as ((x, y), v), sorted by (y, -x, -v) *)
Definition sv_leb (a b : box * Z) : bool :=
  match a, b with
  | ((x, y), v), ((x', y'), v') =>
      (y <? y') || ((y =? y') && ((x' <? x) || ((x =? x') && (v' <=? v))))
  end.
Definition sv_letters (i : Z) (t : tab) : list (box * Z) :=
  isort sv_leb (flat_map (fun cv => map (fun v => (fst cv, v)) (filter (fun v => (v =? i) || (v =? i + 1)) (snd cv))) t).
(* tableaux.py:266-269 (292-295)  one pass of the inner loop, cf. M_Words.cancel1 *)
Fixpoint tcancel1 (s : list (box * Z)) : option (list (box * Z)) :=
  match s with
  | [] => None
  | p :: t =>
      match t with
      | [] => None
      | q :: r =>
          if snd q <? snd p then Some r
          else match tcancel1 t with Some t' => Some (p :: t') | None => None end
      end
  end.
(* tableaux.py:263-269 (289-295)  the while loop; [fuel] >= len(s) *)
Fixpoint tcancel (fuel : nat) (s : list (box * Z)) : res (list (box * Z)) :=
  match tcancel1 s with
  | None => Ok s
  | Some s' => match fuel with O => Err OutOfFuel | S f => tcancel f s' end
  end.
(* (x, y) in self and v in self.get(x, y, unpack=False) *)
Definition holds_at (t : tab) (c : box) (v : Z) : bool :=
  match tlookup t c with Some l => existsb (Z.eqb v) l | None => false end.
(* t.remove(a, b, v).add(x, y, u) *)
Definition move (t : tab) (a b v x y u : Z) : res (option tab) :=
  do t1 <- tremove t a b (Some v); do t2 <- tadd t1 x y (VInt u); Ok (Some t2).
(* tableaux.py:258-276  e_crystal_operator(i, multisetvalued=False) *)
Definition e_setvalued (i : Z) (t : tab) : res (option tab) :=
  let s0 := sv_letters i t in
  do s <- tcancel (length s0) s0;
  match filter (fun p => snd p =? i + 1) s with
  | [] => Ok None
  | ((x, y), _) :: _ => if holds_at t (x, y - 1) (i + 1) then move t x (y - 1) (i + 1) x y i else move t x y (i + 1) x y i
  end.
(* tableaux.py:284-302  f_crystal_operator(i, multisetvalued=False) *)
Definition f_setvalued (i : Z) (t : tab) : res (option tab) :=
  let s0 := sv_letters i t in
  do s <- tcancel (length s0) s0;
  match rev (filter (fun p => snd p =? i) s) with
  | [] => Ok None
  | ((x, y), _) :: _ => if holds_at t (x, y + 1) i then move t x (y + 1) i x y (i + 1) else move t x y i x y (i + 1)
  end.

(* crystals.py:130-137  TableauCrystalGenerator.f_crystal_operator on the list of tableaux; the result None, or the index *)
Definition generator_f (tableaux : list tab) (element_index : nat) (operator_index : Z) : res (option nat) :=
  do r <- f_setvalued operator_index (nth element_index tableaux []);
  match r with
  | None => Ok None
  | Some t => match filter (fun x => teqb (nth x tableaux []) t) (seq 0 (length tableaux)) with
              | [x] => Ok (Some x)
              | _ => Err AssertionError
              end
  end.

(* tableaux.py:221-233  crystal_reading_word *)
Definition tab_columns (t : tab) : list (list (list Z)) :=
  map (fun j => map snd (filter (fun cv => snd (fst cv) =? j) t)) (sorted (nodup Z.eq_dec (map (fun cv => snd (fst cv)) t))).
Definition column_word (col : list (list Z)) : list Z :=
  let pp := fold_left (fun pp row => (firstn 1 row ++ fst pp, snd pp ++ skipn 1 row)) col ([], []) in fst pp ++ snd pp.
Definition crystal_reading_word (t : tab) : list (list Z) := map column_word (tab_columns t).

(* the last a in range(len(rows)) with rows[a] <= v, from index k *)
Fixpoint last_le (k : Z) (v : Z) (rows : list Z) : option Z :=
  match rows with
  | [] => None
  | b :: r => match last_le (k + 1) v r with Some a => Some a | None => if b <=? v then Some k else None end
  end.
(* tableaux.py:242-247  the loop over one column *)
Fixpoint from_column (j : Z) (prev : option Z) (rows : list Z) (ans : tab) (col : list Z) : res (list Z * tab) :=
  match col with
  | [] => Ok (rows, ans)
  | a :: r =>
      if match prev with None => true | Some b => a <? b end then from_column j (Some a) (a :: rows) ans r
      else match last_le 0 a rows with
           | None => Err IndexError
           | Some k => do ans <- tadd ans (1 + k) j (VInt a); from_column j (Some a) rows ans r
           end
  end.
(* tableaux.py:248-249  for i, a in enumerate(rows), from index k *)
Fixpoint add_rows (k j : Z) (rows : list Z) (ans : tab) : res tab :=
  match rows with
  | [] => Ok ans
  | a :: r => do ans <- tadd ans (k + 1) j (VInt a); add_rows (k + 1) j r ans
  end.
(* tableaux.py:235-250  from_crystal_reading_word of a tuple; columns from index j *)
Fixpoint from_columns (j : Z) (cols : list (list Z)) (ans : tab) : res tab :=
  match cols with
  | [] => Ok ans
  | col :: r =>
      do ra <- from_column (j + 1) None [] ans col;
      do ans <- add_rows 0 (j + 1) (fst ra) (snd ra);
      from_columns (j + 1) r ans
  end.
Definition from_crystal_reading_word (w : list (list Z)) : res tab := from_columns 0 w [].
(* tableaux.py:253-256, 279-282  multisetvalued=True; a word operator with unpack=False returns None or a tuple *)
Definition of_word_result (r : cres) : res (option tab) :=
  match r with CTuple w => do t <- from_crystal_reading_word w; Ok (Some t) | _ => Ok None end.
Definition e_multisetvalued (i : Z) (t : tab) : res (option tab) := do r <- e_crystal_operator i (crystal_reading_word t) false; of_word_result r.
Definition f_multisetvalued (i : Z) (t : tab) : res (option tab) := do r <- f_crystal_operator i (crystal_reading_word t) false; of_word_result r.
