(* Model of insertion.py: shifted Hecke insertion and its inverse (InsertionAlgorithm.orthogonal_hecke,
   symplectic_hecke and their inverses, the class FState), on the tableaux of M_Tableaux.v and the states
   of M_Insertion.v.  The caches named in the commented-out decorators do not exist.  As in M_Insertion.v a
   missing cell whose value is used raises TypeError. *)
From Coq Require Import List ZArith Bool.
From Verif Require Import PyBase M_Partitions M_Tableaux M_Insertion.
Import ListNotations.
Local Open Scope Z_scope.

(* insertion.py:233-234  has_outer_box_in_last_row *)
Definition outer_in_last_row (s : hstate) : bool := match houter s with Some (i, _) => i =? hrows s + 2 | None => false end.

(* insertion.py:444-493  FState._row_transition.  After the assertion get(i, x) is row[x - i] for
   i <= x < i + len(row), so the loop on lines 459-461 stops at x = i + count_le row a. *)
Definition f_row_transition (s : hstate) : res (hstate * box) :=
  match houter s with
  | None => Err TypeError
  | Some (i, n) =>
      let t := htab s in
      do a <- geti t i n;
      do vals <- gets t (map (fun x => (i, x)) (filter (fun x => tmem t (i, x)) (zrange i n)));
      let row := sorted vals in
      if forallb (fun x => tmem t (i, x)) (zrange i (i + zlen row)) then
        do front <- gets t (map (fun x => (i, x)) (zrange i (i + zlen row)));
        if zlist_eqb row front then
          (* row transition R1 *)
          if forallb (fun x => x <=? a) row then
            let j := i + zlen row in
            do col <- gets t (map fst (filter (fun cv => snd (fst cv) =? j) t));
            do u <- (if forallb (fun x => x <? a) row && forallb (fun x => x <? a) col
                     then do u <- tadd t i j (VInt a); tremove u i n None
                     else tremove t i n None);
            do s' <- hmake u None;
            Ok (s', (i, j))
          else
            let x := i + count_le row a in
            do b <- geti t i x;
            if i <? x then
              do v <- geti t i (x - 1);
              do above <- (if v <? a then (if i =? 1 then Ok true else do v <- geti t (i - 1) x; Ok (v <? a)) else Ok false);
              if above then
                (* row transition R2 *)
                do u <- tadd t (i + 1) n (VInt b);
                do u <- treplace u i x (VInt a);
                do u <- tremove u i n None;
                do s' <- hmake u (Some (i + 1, n));
                Ok (s', (i, x))
              else if (x =? i + 1) && negb (tmem t (i + 1, i + 1)) then
                (* diagonal transition D1 *)
                let m := max_row t None in
                do u <- tadd t (m + 2) (i + 1) (VInt b);
                do u <- tremove u i n None;
                do s' <- hmake u (Some (m + 2, i + 1));
                Ok (s', (i, x))
              else
                (* row transition R3 *)
                do u <- tadd t (i + 1) n (VInt b);
                do u <- tremove u i n None;
                do s' <- hmake u (Some (i + 1, n));
                Ok (s', (i, x))
            else
              (* diagonal transition D2 *)
              let m := max_row t None in
              do u <- (if a mod 2 =? b mod 2 then
                         do above <- (if i =? 1 then Ok true else do v <- geti t (i - 1) i; Ok (v <? a));
                         do u <- (if above then treplace t i x (VInt a) else Ok t);
                         tadd u (m + 2) (i + 1) (VInt b)
                       else tadd t (m + 2) (i + 1) (VInt (b + 1)));
              do u <- tremove u i n None;
              do s' <- hmake u (Some (m + 2, i + 1));
              Ok (s', (i, x))
        else Err AssertionError
      else Err AssertionError
  end.

(* insertion.py:495-524  _column_transition *)
Definition f_column_transition (s : hstate) : res (hstate * box) :=
  match houter s with
  | None => Err TypeError
  | Some (m, j) =>
      let t := htab s in
      do a <- geti t m j;
      do vals <- gets t (map (fun x => (x, j)) (filter (fun x => tmem t (x, j)) (zrange 1 m)));
      let col := sorted vals in
      if forallb (fun x => tmem t (x, j)) (zrange 1 (1 + zlen col)) then
        do front <- gets t (map (fun x => (x, j)) (zrange 1 (1 + zlen col)));
        if zlist_eqb col front then
          (* column transition C1 *)
          if forallb (fun x => x <=? a) col then
            let i := zlen col + 1 in
            do row <- gets t (map (fun x => (i, x)) (filter (fun x => tmem t (i, x)) (zrange 1 j)));
            do u <- (if forallb (fun x => x <? a) row && forallb (fun x => x <? a) col
                     then do u <- tadd t i j (VInt a); tremove u m j None
                     else tremove t m j None);
            do s' <- hmake u None;
            Ok (s', (i, j))
          else
            let x := 1 + count_le col a in
            do b <- geti t x j;
            do left <- (if x =? j then Ok true else do v <- geti t x (j - 1); Ok (v <? a));
            do above <- (if left then (if x =? 1 then Ok true else do v <- geti t (x - 1) j; Ok (v <? a)) else Ok false);
            do u <- tadd t m (j + 1) (VInt b);
            (* column transition C2; C3 leaves the column as it is *)
            do u <- (if above then treplace u x j (VInt a) else Ok u);
            do u <- tremove u m j None;
            do s' <- hmake u (Some (m, j + 1));
            Ok (s', (x, j))
        else Err AssertionError
      else Err AssertionError
  end.

(* insertion.py:251-258, 526-532  path() with FState.next() *)
Fixpoint f_path (fuel : nat) (s : hstate) : res (list (hstate * box)) :=
  match fuel with
  | O => Err OutOfFuel
  | S fuel' =>
      if outer_in_last_column s then
        do sb <- f_row_transition s;
        do r <- f_path fuel' (fst sb);
        Ok (sb :: r)
      else if outer_in_last_row s then
        do sb <- f_column_transition s;
        do r <- f_path fuel' (fst sb);
        Ok (sb :: r)
      else Ok []
  end.
(* insertion.py:260-266  insert(a).  A row transition moves the outer box down one row, a column transition
   moves it right one column, so the numbers of rows and columns bound the steps. *)
Definition f_insert (s : hstate) (a : Z) : res (hstate * list box) :=
  do s' <- hadd s a;
  do path <- f_path (Z.to_nat (max_row (htab s) None) + Z.to_nat (max_column (htab s) None) + 5) s';
  match rev path with
  | [] => Err IndexError
  | last :: _ => Ok (fst last, map snd path)
  end.

(* insertion.py:426-440  the body of the loop of FState.insertion_tableaux; r is index + 1 + offset *)
Definition f_push (s : hstate) (q : tab) (a r : Z) : res (hstate * tab) :=
  do sp <- f_insert s a;
  match rev (snd sp) with
  | [] => Err IndexError
  | (i, j) :: front =>
      let t := htab (fst sp) in
      let r := if existsb (fun b => fst b =? snd b) front || (negb (tmem t (i, j)) && (i =? j)) then - r else r in
      do ij <- (if tmem t (i, j) then Ok (i, j)
                else if 0 <? r then
                  match zmax (map (fun cv => fst (fst cv)) (filter (fun cv => snd (fst cv) =? j - 1) t)) with
                  | None => Err ValueError
                  | Some x => Ok (x, j - 1)
                  end
                else
                  match zmax (map (fun cv => snd (fst cv)) (filter (fun cv => i - 1 =? fst (fst cv)) t)) with
                  | None => Err ValueError
                  | Some x => Ok (i - 1, x)
                  end);
      do q' <- tadd q (fst ij) (snd ij) (VInt r);
      Ok (fst sp, q')
  end.
(* insertion.py:417-442  FState.insertion_tableaux, starting from p and q *)
Definition f_insertion_tableaux (p q : tab) (w : list Z) : res (tab * tab) :=
  do n <- tlast q;
  let offset := Z.abs n in
  do s <- hmake p None;
  do sq <- rfold (fun sq ia => f_push (fst sq) (snd sq) (snd ia) (fst ia + 1 + offset)) (combine (zrange 0 (zlen w)) w) (s, q);
  Ok (htab (fst sq), snd sq).

(* insertion.py:142-149  symplectic_hecke(word, record, multisetvalued) *)
Definition symplectic_hecke (w : list Z) (record : option (list Z)) (multisetvalued : bool) : res (tab * tab) :=
  do r <- check_record w record multisetvalued;
  do pq <- f_insertion_tableaux [] [] w;
  do q <- (if multisetvalued then Ok (snd pq) else tnegate (snd pq) true);
  do q <- tapply_res (rmapping r) q;
  Ok (fst pq, q).
(* insertion.py:135-140  orthogonal_hecke(word, record, multisetvalued) *)
Definition orthogonal_hecke (w : list Z) (record : option (list Z)) (multisetvalued : bool) : res (tab * tab) :=
  do pq <- symplectic_hecke (map (fun i => 2 * i) w) record multisetvalued;
  do p <- thalve (fst pq);
  Ok (p, snd pq).

(* insertion.py:569-571  the loop moving left along row i *)
Fixpoint climb_left (fuel : nat) (t : tab) (i j : Z) : Z :=
  match fuel with
  | O => j
  | S fuel' =>
      if tmem t (i, j - 1) && negb (tmem t (i + 1, j - 1)) && (i + 1 <=? j - 1) then climb_left fuel' t i (j - 1) else j
  end.
(* insertion.py:544-579  _inverse_terminal_transition(record) *)
Definition f_inverse_terminal (s : hstate) (record : Z * Z * pyval) : res (hstate * box) :=
  match record with (i, j, v) =>
    let values := match v with VInt x => [x] | VTup l => zset l end in
    match zmax (map Z.abs values) with
    | None => Err ValueError
    | Some n =>
        let pos := existsb (Z.eqb n) values in
        if pos && existsb (Z.eqb (- n)) values then Err AssertionError
        else
          let t := htab s in
          match values with
          | [_] =>
              do c <- geti t i j;
              do u <- tremove t i j None;
              let o := if pos then (i, max_column u None + 2) else (max_row u None + 2, j) in
              do u <- tadd u (fst o) (snd o) (VInt c);
              do s' <- hmake u (Some o);
              Ok (s', (i, j))
          | _ =>
              if pos then
                let i := climb (Z.to_nat i) t i j in
                do x <- geti t i j;
                do y <- geti0 t (i - 1) (j + 1);
                let n := max_column t None + 2 in
                do u <- tadd t i n (VInt (Z.max x y));
                do s' <- hmake u (Some (i, n));
                Ok (s', (i, j + 1))
              else
                let j := climb_left (Z.to_nat j) t i j in
                do x <- geti t i j;
                do y <- geti0 t (i + 1) (j - 1);
                let m := max_row t None + 2 in
                do u <- tadd t m j (VInt (Z.max x y));
                do s' <- hmake u (Some (m, j));
                Ok (s', (i + 1, j))
          end
    end
  end.

(* insertion.py:583-585  the loop moving down column j, at most one step per cell *)
Fixpoint slide_down (fuel : nat) (t : tab) (x j b : Z) : res Z :=
  match fuel with
  | O => Ok x
  | S fuel' =>
      if tmem t (x + 1, j) then do v <- geti t (x + 1) j; if v <=? b then slide_down fuel' t (x + 1) j b else Ok x
      else Ok x
  end.
(* get(i, j) == b *)
Definition holds_value (t : tab) (i j b : Z) : bool := match tget t (i, j) None true with Some (VInt x) => x =? b | _ => false end.
(* insertion.py:581-629  _inverse_column_transition *)
Definition f_inverse_column (s : hstate) : res (hstate * box) :=
  match houter s with
  | None => Err TypeError
  | Some (m, j) =>
      let t := htab s in
      do b <- geti t m j;
      do x <- slide_down (length t) t 1 (j - 1) b;
      do a <- geti t x (j - 1);
      (* diagonal transition D1 *)
      if (x =? j - 1) && holds_value t (j - 1) j b && (b mod 2 =? 0) then
        do u <- tremove t m j None;
        let n := max_column u None + 2 in
        do y <- geti u (j - 1) (j - 1);
        do z <- geti0 u (j - 2) j;
        do u <- tadd u x n (VInt (Z.max y z));
        do s' <- hmake u (Some (x, n));
        Ok (s', (x, x))
      (* diagonal transition D4 *)
      else if (x =? j - 1) && (a <? b) && negb (b mod 2 =? 0) then
        do u <- tremove t m j None;
        let n := max_column u None + 2 in
        do u <- tadd u x n (VInt (a - 1));
        do s' <- hmake u (Some (x, n));
        Ok (s', (x, x))
      else
        do d2 <- (if (x =? j - 1) && (a =? b) then do v <- geti t (j - 2) (j - 1); Ok (v mod 2 =? 0) else Ok false);
        (* diagonal transition D2 *)
        if d2 then
          do u <- tremove t m j None;
          let n := max_column u None + 2 in
          do c <- geti u (j - 2) (j - 1);
          do u <- tadd u x n (VInt c);
          do s' <- hmake u (Some (x, n));
          Ok (s', (x, x))
        (* diagonal transition D3 *)
        else if (x =? j - 1) && (a <? b) && (b mod 2 =? 0) then
          do u <- treplace t x x (VInt b);
          do u <- tremove u m j None;
          let n := max_column u None + 2 in
          do u <- tadd u x n (VInt a);
          do s' <- hmake u (Some (x, n));
          Ok (s', (x, x))
        (* column transition C3 *)
        else if a =? b then
          do y <- geti t (x - 1) (j - 1);
          do z <- geti0 t x (j - 2);
          do u <- tremove t m j None;
          do u <- tadd u m (j - 1) (VInt (Z.max y z));
          do s' <- hmake u (Some (m, j - 1));
          Ok (s', (x, j - 1))
        (* column transition C4 *)
        else
          do u <- tremove t m j None;
          do u <- treplace u x (j - 1) (VInt b);
          do u <- tadd u m (j - 1) (VInt a);
          do s' <- hmake u (Some (m, j - 1));
          Ok (s', (x, j - 1))
  end.
(* insertion.py:631-652  _inverse_row_transition *)
Definition f_inverse_row (s : hstate) : res (hstate * box) :=
  match houter s with
  | None => Err TypeError
  | Some (i, n) =>
      let t := htab s in
      do b <- geti t i n;
      do x <- slide (length t) t (i - 1) (i - 1) b;
      if i - 1 <? x then
        do a <- geti t (i - 1) x;
        if a =? b then
          do y <- geti t (i - 1) (x - 1);
          do z <- geti0 t (i - 2) x;
          do u <- tremove t i n None;
          do u <- tadd u (i - 1) n (VInt (Z.max y z));
          do s' <- hmake u (Some (i - 1, n));
          Ok (s', (i - 1, x))
        else
          do u <- tremove t i n None;
          do u <- treplace u (i - 1) x (VInt b);
          do u <- tadd u (i - 1) n (VInt a);
          do s' <- hmake u (Some (i - 1, n));
          Ok (s', (i - 1, x))
      else Err AssertionError
  end.
(* insertion.py:534-542  previous(record) *)
Definition f_previous (s : hstate) (record : option (Z * Z * pyval)) : res (hstate * option box) :=
  if is_initial s then Ok (s, None)
  else if outer_in_last_column s then do sb <- f_inverse_row s; Ok (fst sb, Some (snd sb))
  else if outer_in_last_row s then do sb <- f_inverse_column s; Ok (fst sb, Some (snd sb))
  else match record with
       | None => Err TypeError
       | Some r => do sb <- f_inverse_terminal s r; Ok (fst sb, Some (snd sb))
       end.
(* insertion.py:411-412  while not s.is_initial() *)
Fixpoint f_rewind (fuel : nat) (s : hstate) : res hstate :=
  match fuel with
  | O => Err OutOfFuel
  | S fuel' => if is_initial s then Ok s else do sb <- f_previous s None; f_rewind fuel' (fst sb)
  end.
(* insertion.py:405-415  FState.inverse_insertion(p, q) *)
Fixpoint f_inverse_insertion (fuel : nat) (p q : tab) (ans : list Z) : res (list Z) :=
  match fuel with
  | O => Err OutOfFuel
  | S fuel' =>
      match p with
      | [] => Ok ans
      | _ =>
          do qr <- tpop q;
          do s <- hmake p None;
          do sb <- f_previous s (Some (snd qr));
          do s <- f_rewind (Z.to_nat (max_row p None) + Z.to_nat (max_column p None) + 5) (fst sb);
          do pv <- hpop s;
          f_inverse_insertion fuel' (fst pv) (fst qr) (snd pv :: ans)
      end
  end.

(* insertion.py:167-174  inverse_symplectic_hecke; every round of inverse_insertion pops a value of the
   recording tableau, so its length plus one bounds the rounds *)
Definition inverse_symplectic_hecke (p q : tab) (multisetvalued : bool) : res (list Z * list Z) :=
  if forallb (fun cv => tmem q (fst cv)) p && forallb (fun cv => tmem p (fst cv)) q then
    do sr <- standardize_recording q;
    do st <- (if multisetvalued then Ok (fst sr) else tnegate (fst sr) true);
    do w <- f_inverse_insertion (S (Z.to_nat (tlen st))) p st [];
    Ok (w, snd sr)
  else Err AssertionError.
(* insertion.py:160-165  inverse_orthogonal_hecke *)
Definition inverse_orthogonal_hecke (p q : tab) (multisetvalued : bool) : res (list Z * list Z) :=
  do d <- tdouble p;
  do wr <- inverse_symplectic_hecke d q multisetvalued;
  if forallb (fun i => i mod 2 =? 0) (fst wr) then Ok (map (fun i => i / 2) (fst wr), snd wr) else Err AssertionError.
