(* Model of insertion.py: Hecke insertion and its inverse (InsertionAlgorithm.hecke, inverse_hecke and
   the classes InsertionState, HState), on the tableaux of M_Tableaux.v.
   HSTATE_CACHE is left out: push is a function of its key (p, q, arg) and its results are
   immutable, see C01.  Insertion tableaux hold one int per cell; where the code compares the
   value of a cell and the cell is missing or holds several values, the model raises TypeError. *)
From Coq Require Import List ZArith Bool.
From Verif Require Import PyBase M_Partitions M_Tableaux.
Import ListNotations.
Local Open Scope Z_scope.

(* set(l), in order of first occurrence *)
Definition zset (l : list Z) : list Z := fold_left (fun s v => if existsb (Z.eqb v) s then s else s ++ [v]) l [].

(* tableaux.py:410-421  Tableau.pop(); the record is (i, j, value) with one-element values unpacked *)
Definition tpop (t : tab) : res (tab * (Z * Z * pyval)) :=
  do n <- tlast t;
  match tfind t n with
  | [(i, j)] =>
      match tget t (i, j) None true with
      | None => Err TypeError
      | Some (VInt v) =>
          (* the cell contains n, so it is the 1-tuple (n,) *)
          do u <- tremove t i j None; Ok (u, (i, j, VInt v))
      | Some (VTup l) =>
          (* sorted(set(l) - {n, -n}) *)
          let rest := sorted (filter (fun x => negb ((x =? n) || (x =? - n))) (zset l)) in
          do u <- tremove t i j None;
          do u <- tadd u i j (VTup rest);
          Ok (u, (i, j, VTup l))
      end
  | _ => Err AssertionError
  end.

(* the value of a cell used as an int: insertion.py:223-224 get(i, j) *)
Definition geti (t : tab) (i j : Z) : res Z :=
  match tget t (i, j) None true with Some (VInt x) => Ok x | _ => Err TypeError end.
(* get(i, j, 0) *)
Definition geti0 (t : tab) (i j : Z) : res Z :=
  match tget t (i, j) (Some (VInt 0)) true with Some (VInt x) => Ok x | _ => Err TypeError end.

(* insertion.py:177-182  the fields of an InsertionState *)
Record hstate := { htab : tab; houter : option box; hrows : Z; hcols : Z }.

(* insertion.py:179-195  __init__ and _get_inner_dimensions; the assertion says that exactly one of
   m + 2 == i and n + 2 == j holds *)
Definition hmake (t : tab) (outer : option box) : res hstate :=
  match outer with
  | None => Ok {| htab := t; houter := None; hrows := max_row t None; hcols := max_column t None |}
  | Some (i, j) =>
      do u <- tremove t i j None;
      let m := max_row u None in
      let n := max_column u None in
      if xorb (m + 2 =? i) (n + 2 =? j)
      then Ok {| htab := t; houter := outer; hrows := m; hcols := n |} else Err AssertionError
  end.

(* insertion.py:217-221 *)
Definition is_initial (s : hstate) : bool := match houter s with Some (i, _) => i =? 1 | None => false end.
Definition is_terminal (s : hstate) : bool := match houter s with None => true | Some _ => false end.
(* insertion.py:236-237 *)
Definition outer_in_last_column (s : hstate) : bool := match houter s with Some (_, j) => j =? hcols s + 2 | None => false end.
(* insertion.py:226-231  add *)
Definition hadd (s : hstate) (a : Z) : res hstate :=
  if is_terminal s then
    let n := max_column (htab s) None + 2 in
    do t <- tadd (htab s) 1 n (VInt a); hmake t (Some (1, n))
  else Err AssertionError.
(* insertion.py:239-246  pop *)
Definition hpop (s : hstate) : res (tab * Z) :=
  match houter s with
  | None => Err AssertionError
  | Some (i, j) => do t <- tremove (htab s) i j None; do v <- geti (htab s) i j; Ok (t, v)
  end.

(* [get(i, x) for x in l] *)
Fixpoint gets (t : tab) (l : list box) : res (list Z) :=
  match l with
  | [] => Ok []
  | (i, x) :: l' => do v <- geti t i x; do r <- gets t l'; Ok (v :: r)
  end.
(* the number of leading entries that are <= a *)
Fixpoint count_le (row : list Z) (a : Z) : Z :=
  match row with [] => 0 | y :: row' => if y <=? a then 1 + count_le row' a else 0 end.

(* insertion.py:315-345  HState._row_transition.  After the assertion get(i, x) is row[x - 1] for
   1 <= x <= len(row), so the loop on lines 331-333 stops at x = 1 + count_le row a. *)
Definition row_transition (s : hstate) : res (hstate * box) :=
  match houter s with
  | None => Err TypeError
  | Some (i, n) =>
      let t := htab s in
      do a <- geti t i n;
      do vals <- gets t (map (fun x => (i, x)) (filter (fun x => tmem t (i, x)) (zrange 1 n)));
      let row := sorted vals in
      if forallb (fun x => tmem t (i, x)) (zrange 1 (1 + zlen row)) then
        do front <- gets t (map (fun x => (i, x)) (zrange 1 (1 + zlen row)));
        if zlist_eqb row front then
          if forallb (fun x => x <=? a) row then
            let j := 1 + zlen row in
            do col <- gets t (map fst (filter (fun cv => snd (fst cv) =? j) t));
            do u <- (if forallb (fun x => x <? a) row && forallb (fun x => x <? a) col
                     then do u <- tadd t i j (VInt a); tremove u i n None
                     else tremove t i n None);
            do s' <- hmake u None;
            Ok (s', (i, j))
          else
            let x := 1 + count_le row a in
            do b <- geti t i x;
            do left <- (if x =? 1 then Ok true else do v <- geti t i (x - 1); Ok (v <? a));
            do above <- (if left then (if i =? 1 then Ok true else do v <- geti t (i - 1) x; Ok (v <? a)) else Ok false);
            do u <- tadd t (i + 1) n (VInt b);
            do u <- (if above then treplace u i x (VInt a) else Ok u);
            do u <- tremove u i n None;
            do s' <- hmake u (Some (i + 1, n));
            Ok (s', (i, x))
        else Err AssertionError
      else Err AssertionError
  end.

(* insertion.py:251-258, 347-351  path(): the (state, box) pairs until next() bumps nothing *)
Fixpoint hpath (fuel : nat) (s : hstate) : res (list (hstate * box)) :=
  match fuel with
  | O => Err OutOfFuel
  | S fuel' =>
      if outer_in_last_column s then
        do sb <- row_transition s;
        do r <- hpath fuel' (fst sb);
        Ok (sb :: r)
      else Ok []
  end.
(* insertion.py:260-266  insert(a): the final state and the bumping path.  Every step moves the outer
   box down one row, so the number of rows plus three bounds the steps. *)
Definition hinsert (s : hstate) (a : Z) : res (hstate * list box) :=
  do s' <- hadd s a;
  do path <- hpath (Z.to_nat (max_row (htab s) None) + 3) s';
  match rev path with
  | [] => Err IndexError
  | last :: _ => Ok (fst last, map snd path)
  end.

(* insertion.py:296-313  push(p, q, arg); the branch on line 308 is never taken *)
Definition push (p q : tab) (arg : Z) : res (tab * tab) :=
  do offset <- tlast q;
  do s <- hmake p None;
  do sp <- hinsert s arg;
  match rev (snd sp) with
  | [] => Err IndexError
  | (i, j) :: _ =>
      let r := 1 + Z.abs offset in
      let t := htab (fst sp) in
      do ij <- (if tmem t (i, j) then Ok (i, j)
                else match zmax (map (fun cv => fst (fst cv)) (filter (fun cv => snd (fst cv) =? j - 1) t)) with
                     | None => Err ValueError
                     | Some a => Ok (a, j - 1)
                     end);
      do q' <- tadd q (fst ij) (snd ij) (VInt r);
      Ok (t, q')
  end.
(* insertion.py:283-294  insertion_tableaux *)
Definition insertion_tableaux (w : list Z) : res (tab * tab) :=
  rfold (fun pq a => push (fst pq) (snd pq) a) w ([], []).

(* pairs of consecutive elements *)
Fixpoint adjacent {A} (l : list A) : list (A * A) :=
  match l with
  | a :: l' => match l' with b :: _ => (a, b) :: adjacent l' | [] => [] end
  | [] => []
  end.
(* insertion.py:101-114  _check_record(word, record, multisetvalued): the record itself; mapping[i + 1]
   is record[i] and mapping[-i - 1] is -record[i] *)
Definition check_record (w : list Z) (record : option (list Z)) (multisetvalued : bool) : res (list Z) :=
  let record := match record with Some r => r | None => zrange 1 (zlen w + 1) end in
  if (length w =? length record)%nat && forallb (fun ab => fst ab <=? snd ab) (adjacent record) &&
     forallb (fun x => implb (if multisetvalued then snd (fst x) <? fst (fst x) else fst (fst x) <=? snd (fst x))
                             (fst (snd x) <? snd (snd x))) (combine (adjacent w) (adjacent record))
  then Ok record else Err AssertionError.
(* mapping[x] *)
Definition rmapping (record : list Z) (x : Z) : res Z :=
  if (1 <=? x) && (x <=? zlen record) then Ok (nthz record (x - 1))
  else if (1 <=? - x) && (- x <=? zlen record) then Ok (- nthz record (- x - 1))
  else Err KeyError.
(* tableaux.py:304-308  apply with a function that may raise *)
Definition tapply_res (f : Z -> res Z) (t : tab) : res tab :=
  do m <- rmap (fun cv => do v <- rmap f (snd cv); Ok (fst cv, VTup v)) t; tinit m.

(* insertion.py:126-133  hecke(word, record, multisetvalued) *)
Definition hecke (w : list Z) (record : option (list Z)) (multisetvalued : bool) : res (tab * tab) :=
  do r <- check_record w record multisetvalued;
  do pq <- insertion_tableaux w;
  do p <- (if multisetvalued then Ok (fst pq) else ttranspose (fst pq));
  do q <- (if multisetvalued then Ok (snd pq) else ttranspose (snd pq));
  do q <- tapply_res (rmapping r) q;
  Ok (p, q).

(* insertion.py:361-380  _inverse_terminal_transition(record): the loop on lines 372-373 *)
Fixpoint climb (fuel : nat) (t : tab) (i j : Z) : Z :=
  match fuel with
  | O => i
  | S fuel' => if tmem t (i - 1, j) && negb (tmem t (i - 1, j + 1)) then climb fuel' t (i - 1) j else i
  end.
Definition inverse_terminal (s : hstate) (record : Z * Z * pyval) : res (hstate * box) :=
  match record with (i, j, v) =>
    let values := match v with VInt x => [x] | VTup l => zset l end in
    let t := htab s in
    match values with
    | [] => Err NameError
    | [_] =>
        do c <- geti t i j;
        do u <- tremove t i j None;
        let n := max_column u None + 2 in
        do u <- tadd u i n (VInt c);
        do s' <- hmake u (Some (i, n));
        Ok (s', (i, j))
    | _ =>
        let i := climb (Z.to_nat i) t i j in
        do x <- geti t i j;
        do y <- geti0 t (i - 1) (j + 1);
        let n := max_column t None + 2 in
        do u <- tadd t i n (VInt (Z.max x y));
        do s' <- hmake u (Some (i, n));
        Ok (s', (i, j + 1))
    end
  end.
(* insertion.py:382-400  _inverse_row_transition: the loop on lines 387-388, at most one step per cell *)
Fixpoint slide (fuel : nat) (t : tab) (i x b : Z) : res Z :=
  match fuel with
  | O => Ok x
  | S fuel' =>
      if tmem t (i, x + 1) then do v <- geti t i (x + 1); if v <=? b then slide fuel' t i (x + 1) b else Ok x
      else Ok x
  end.
Definition inverse_row (s : hstate) : res (hstate * box) :=
  match houter s with
  | None => Err TypeError
  | Some (i, n) =>
      let t := htab s in
      do b <- geti t i n;
      do x <- slide (length t) t (i - 1) 1 b;
      do a <- geti t (i - 1) x;
      if a =? b then
        do y <- geti t (i - 1) (x - 1);
        do z <- geti0 t (i - 2) x;
        do u <- tremove t i n None;
        do u <- tadd u (i - 1) n (VInt (Z.max y z));
        do s' <- hmake u (Some (i - 1, n));
        Ok (s', (i - 1, x))
      else
        do u <- tremove t i n None;
        do u <- treplace u (i - 1) x (VInt b);
        do u <- tadd u (i - 1) n (VInt a);
        do s' <- hmake u (Some (i - 1, n));
        Ok (s', (i - 1, x))
  end.
(* insertion.py:353-359  previous(record); without a record the last branch fails to unpack None *)
Definition previous (s : hstate) (record : option (Z * Z * pyval)) : res (hstate * option box) :=
  if is_initial s then Ok (s, None)
  else if outer_in_last_column s then do sb <- inverse_row s; Ok (fst sb, Some (snd sb))
  else match record with
       | None => Err TypeError
       | Some r => do sb <- inverse_terminal s r; Ok (fst sb, Some (snd sb))
       end.
(* insertion.py:277-278  while not s.is_initial() *)
Fixpoint rewind (fuel : nat) (s : hstate) : res hstate :=
  match fuel with
  | O => Err OutOfFuel
  | S fuel' => if is_initial s then Ok s else do sb <- previous s None; rewind fuel' (fst sb)
  end.
(* insertion.py:271-281  inverse_insertion(p, q); the word is built back to front *)
Fixpoint inverse_insertion (fuel : nat) (p q : tab) (ans : list Z) : res (list Z) :=
  match fuel with
  | O => Err OutOfFuel
  | S fuel' =>
      match p with
      | [] => Ok ans
      | _ =>
          do qr <- tpop q;
          do s <- hmake p None;
          do sb <- previous s (Some (snd qr));
          do s <- rewind (Z.to_nat (max_row p None) + 3) (fst sb);
          do pv <- hpop s;
          inverse_insertion fuel' (fst pv) (fst qr) (snd pv :: ans)
      end
  end.

(* insertion.py:116-123  _standardize_recording_tableau *)
Definition standardize_recording (q : tab) : res (tab * list Z) :=
  do st <- standardize q;
  do record <- rfold (fun record cv =>
      rfold (fun record kv =>
        let idx := Z.abs (snd kv) - 1 in
        match tlookup q (fst cv) with
        | None => Err TypeError
        | Some l =>
            if fst kv <? zlen l then
              if (0 <=? idx) && (idx <? zlen record) then Ok (upd record (Z.to_nat idx) (Z.abs (nthz l (fst kv)))) else Err IndexError
            else Err IndexError
        end) (combine (zrange 0 (zlen (snd cv))) (snd cv)) record) st (repeat 0 (Z.to_nat (tlen q)));
  Ok (st, record).
(* insertion.py:151-158  inverse_hecke.  Every round of inverse_insertion pops a value of the recording
   tableau, so its length plus one bounds the rounds. *)
Definition inverse_hecke (p q : tab) (multisetvalued : bool) : res (list Z * list Z) :=
  do sr <- standardize_recording q;
  do p <- (if multisetvalued then Ok p else ttranspose p);
  do st <- (if multisetvalued then Ok (fst sr) else ttranspose (fst sr));
  do w <- inverse_insertion (S (Z.to_nat (tlen st))) p st [];
  Ok (w, snd sr).
