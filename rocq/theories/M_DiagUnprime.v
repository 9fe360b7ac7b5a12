(* Model of insertion.py, InsertionAlgorithm.unprime_diagonal and setvalued_column_insert.
   A while loop carries fuel; running out of it is the error OutOfFuel.  The fuel is computed from the size of the
   tableau, and P_DiagUnprime.v shows that it is enough. *)
From Coq Require Import List ZArith Bool.
From Verif Require Import PyBase M_Partitions M_Tableaux.
Import ListNotations.
Local Open Scope Z_scope.

(* insertion.py:36-37  encode *)
Definition code (v : Z) : Z := if v <? 0 then -1 - 2 * v else 2 * v.
Definition encode (it : list Z) : list Z := sorted (map code it).
(* insertion.py:39-40  decode; -(x + 1) // 2 is the floor of (-(x + 1)) / 2 *)
Definition uncode (x : Z) : Z := if negb (x mod 2 =? 0) then (- (x + 1)) / 2 else x / 2.
Definition decode (it : list Z) : list Z := sorted (map uncode it).

(* insertion.py:42-49  bump_location(boxes, value): the first entry that is bumped *)
Definition bumped (value b : Z) : bool := ((value <=? b) && (value mod 2 =? 0)) || ((value <? b) && negb (value mod 2 =? 0)).
Fixpoint bump_in (value : Z) (box : list Z) (j : nat) : option nat :=
  match box with
  | [] => None
  | b :: box' => if bumped value b then Some j else bump_in value box' (S j)
  end.
Fixpoint bump_from (boxes : list (list Z)) (value : Z) (i : nat) : nat * nat :=
  match boxes with
  | [] => (i, 0%nat)
  | box :: boxes' => match bump_in value box 0 with Some j => (i, j) | None => bump_from boxes' value (S i) end
  end.
Definition bump_location (boxes : list (list Z)) (value : Z) : nat * nat := bump_from boxes value 0.

(* insertion.py:68-74  the list bumps *)
Definition add_bump (boxes : list (list Z)) (bumps : list (nat * nat * list Z)) (v : Z) : list (nat * nat * list Z) :=
  let '(i, j) := bump_location boxes v in
  match rev bumps with
  | (i', j', vals) :: r => if (i' =? i)%nat then rev r ++ [(i', j', vals ++ [v])] else bumps ++ [(i, j, [v])]
  | [] => bumps ++ [(i, j, [v])]
  end.
Definition find_bumps (boxes : list (list Z)) (values : list Z) : list (nat * nat * list Z) :=
  fold_left (add_bump boxes) values [].

(* boxes[i] = x, for a valid index *)
Definition set_nth {A} (i : nat) (x : A) (l : list A) : list A := firstn i l ++ x :: skipn (S i) l.
(* the condition of lines 85-86 on u *)
Definition stays (b bnd u : Z) : bool :=
  (u <=? b) && negb ((negb (bnd =? 0) && (bnd <? u)) || ((negb (bnd =? 0) && (bnd =? u)) && (u mod 2 =? 0))).
(* insertion.py:77-94  the body of the second loop; the state is (boxes, ans) *)
Definition apply_bump (bound : list Z) (s : list (list Z) * list Z) (m : nat * nat * list Z) : res (list (list Z) * list Z) :=
  let '(boxes, ans) := s in
  let '(i, j, val) := m in
  if (i =? length boxes)%nat then Ok (boxes ++ [val], ans)
  else
    match val, nth_error boxes i, nth_error bound (S i) with
    | v :: rest, Some box, Some bnd =>
        match nth_error box j with
        | Some b =>
            let ans := skipn j box ++ ans in
            let add := v :: filter (stays b bnd) rest in
            let left := skipn (length add) val in
            let boxes := set_nth i (firstn j box ++ add) boxes in
            match left with
            | [] => Ok (boxes, ans)
            | _ =>
                let boxes := if (S i =? length boxes)%nat then boxes ++ [[]] else boxes in
                match nth_error boxes (S i) with
                | Some next => Ok (set_nth (S i) (left ++ next) boxes, ans)
                | None => Err IndexError
                end
            end
        | None => Err IndexError
        end
    | _, _, _ => Err IndexError
    end.

(* insertion.py:54-56  nrows *)
Fixpoint count_rows (fuel : nat) (t : tab) (column nrows : Z) : res Z :=
  if tmem t (nrows + 1, column) then match fuel with O => Err OutOfFuel | S f => count_rows f t column (nrows + 1) end else Ok nrows.
(* max(encode(l)) *)
Definition max_code (l : list Z) : res Z := match zmax (encode l) with Some m => Ok m | None => Err ValueError end.
(* tableau.get(i, j, unpack=False) on a present box; encode(None) raises *)
Definition box_codes (t : tab) (c : box) : res (list Z) := match tlookup t c with Some l => Ok (encode l) | None => Err TypeError end.

(* insertion.py:34-99  setvalued_column_insert; the second component of the result is None or a tuple *)
Definition setvalued_column_insert (t : tab) (setvalue : list Z) (column : Z) : res (tab * option (list Z)) :=
  if negb (tmem t (1, column)) then do u <- tset t 1 column (VTup (sorted setvalue)); Ok (u, None)
  else
    do nrows <- count_rows (S (length t)) t column 1;
    do bound <- rmap (fun i => match tlookup t (i + 1, column - 1) with Some l => max_code l | None => Ok 0 end) (zrange 0 (nrows + 1));
    do boxes <- rmap (fun i => box_codes t (i + 1, column)) (zrange 0 nrows);
    do s <- rfold (apply_bump bound) (rev (find_bumps boxes (encode setvalue))) (boxes, []);
    do u <- rfold (fun t ib => tset t (fst ib + 1) column (VTup (decode (snd ib)))) (combine (zrange 0 (zlen (fst s))) (fst s)) t;
    Ok (u, Some (decode (snd s))).

(* insertion.py:28-30  while addvalue *)
Fixpoint insert_all (fuel : nat) (t : tab) (addvalue : option (list Z)) (j : Z) : res tab :=
  match addvalue with
  | None | Some [] => Ok t
  | Some v => match fuel with
              | O => Err OutOfFuel
              | S f => do r <- setvalued_column_insert t v j; insert_all f (fst r) (snd r) (j + 1)
              end
  end.
(* insertion.py:17-31  one round of the outer loop, for the box u of (i, i) *)
Definition unprime_box (t : tab) (i : Z) (u : list Z) : res tab :=
  if (1 <? zlen u) && (match zmin u with Some m => m <? 0 | None => false end) then
    let v := sorted (map Z.opp (filter (fun x => x <? 0) u)) in
    let w := sorted (filter (fun x => 0 <? x) u) in
    match v with
    | [] => Err IndexError
    | v0 :: v' =>
        do small <- (if zlen v =? 1 then match zmax w with Some m => Ok (m <? v0) | None => Err ValueError end else Ok false);
        if small then Ok t
        else
          let newvalue := sorted (v0 :: filter (fun x => x <? v0) w) in
          let addvalue := sorted (map Z.opp v' ++ filter (fun x => v0 <=? x) w) in
          do t1 <- tset t i i (VTup newvalue);
          insert_all (S (S (length t1))) t1 (Some addvalue) (i + 1)
    end
  else Ok t.
(* insertion.py:13-32  unprime_diagonal *)
Fixpoint unprime_loop (fuel : nat) (t : tab) (i : Z) : res tab :=
  match tlookup t (i, i) with
  | None => Ok t
  | Some u => match fuel with O => Err OutOfFuel | S f => do t1 <- unprime_box t i u; unprime_loop f t1 (i + 1) end
  end.
Definition unprime_diagonal (t : tab) : res tab := unprime_loop (S (length (flat_map snd t))) t 1.
