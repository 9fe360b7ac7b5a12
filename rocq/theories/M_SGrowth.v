(* Model of partitions.py, Partition.shifted_growth_diagram and Partition.add_box_to_column.  The dictionary is the set of the
   positions (i, j) of the ones; the code turns lists and sets into dicts with value 1.  The fourth table `reasons`, which only
   names the case used for each cell, is left out. *)
From Coq Require Import List ZArith Bool.
From Verif Require Import PyBase M_Partitions.
Import ListNotations.
Local Open Scope Z_scope.

(* (a, b) in s *)
Definition inb (s : list (Z * Z)) (a b : Z) : bool := existsb (fun p => (fst p =? a) && (snd p =? b)) s.
(* max of the nonempty list x :: l *)
Definition maxl (x : Z) (l : list Z) : Z := fold_left Z.max l x.

(* partitions.py:510-525  add_box_to_column(p, col, shift=True).  The new box is not in the shape yet; the last loop is that
   of from_shape *)
Definition column_row (p : list Z) (col : Z) : Z :=
  match map fst (filter (fun c => snd c =? col) (shifted_shape p)) with [] => 1 | x :: l => maxl x l + 1 end.
Definition add_box_to_column (p : list Z) (col : Z) : res (list Z) :=
  let sh := (column_row p col, col) :: shifted_shape p in
  if forallb (fun c => inb sh (fst c) (snd c - 1) || (fst c =? snd c)) sh then Ok (trim (from_shape sh)) else Err AssertionError.

Section Growth.
  (* the iteration order of a set of positions *)
  Variable bord : list (Z * Z) -> list (Z * Z).

  (* partitions.py:549-670  the value at (i, j), given v, lam = g[i-1][j-1], nu = g[i-1][j], mu = g[i][j-1], e = edges[i-1][j]
     and c = corners[i-1][j].  next(iter(...)) of an empty set raises StopIteration (GenericException here); the raise at lines 666-669 cannot be
     reached, the conditions before it cover all cases *)
  Definition sg_cell (v : bool) (lam nu mu : list Z) (e : bool) (c : option Z) : res (list Z * bool * option Z) :=
    if v && (get lam 1 =? get mu 1) then Ok (add_box_to_row mu 1, false, None)
    else if v then (if get lam 1 + 1 =? get mu 1 then Ok (mu, false, Some 1) else Err AssertionError)
    else if zlist_eqb mu lam then Ok (nu, e, c)
    else if zlist_eqb nu lam && negb e && (match c with None => true | Some _ => false end) then Ok (mu, false, None)
    else if negb (contains mu nu) then Ok (punion nu mu, e, None)
    else if negb (zlist_eqb lam nu) then
      match bord (skew nu lam true) with
      | [] => Err GenericException
      | (a, b) :: _ =>
          let row := filter (fun p => fst p =? a + 1) (skew mu lam true) in
          let col := filter (fun p => snd p =? b + 1) (skew mu lam true) in
          if negb e && negb (a =? b) then
            match row with
            | [] => Ok (add_box_to_row mu (a + 1), false, None)
            | _ => Ok (mu, false, Some (a + 1))
            end
          else
            match col with
            | [] => do g <- add_box_to_column mu (b + 1); Ok (g, true, None)
            | _ => Ok (mu, true, Some (b + 1))
            end
      end
    else if negb e then
      match c with
      | None => Err TypeError
      | Some a =>
          let b := get nu a + a - 1 in
          let s := skew mu lam true in
          if negb (inb s a (b + 1)) && negb (inb s (a + 1) b) then Ok (mu, false, Some a)
          else if inb s (a + 1) b then Ok (mu, false, Some (a + 1))
          else if inb s a (b + 1) then
            if existsb (fun p => fst p =? a + 1) s then Ok (mu, false, Some (a + 1))
            else if a =? b then Ok (mu, true, Some (b + 1))
            else Ok (add_box_to_row mu (a + 1), false, None)
          else Err GenericException
      end
    else
      match c with
      | None => Err ValueError
      | Some b =>
          match map fst (filter (fun p => snd p =? b) (shifted_shape nu)) with
          | [] => Err ValueError
          | x :: l =>
              let a := maxl x l in
              let s := skew mu lam true in
              if negb (inb s a (b + 1)) && negb (inb s (a + 1) b) then Ok (mu, true, Some b)
              else if inb s a (b + 1) then Ok (mu, true, Some (b + 1))
              else if existsb (fun p => snd p =? b + 1) s then Ok (mu, true, Some (b + 1))
              else do g <- add_box_to_column mu (b + 1); Ok (g, true, None)
          end
      end.

  (* partitions.py:547-548  row i, from column j on: prev is row i - 1 from column j - 1 on, left the value at (i, j - 1) *)
  Fixpoint sg_row (d : list (Z * Z)) (i j : Z) (prev : list (list Z * bool * option Z)) (left : list Z) : res (list (list Z * bool * option Z)) :=
    match prev with
    | (lam, _, _) :: (((nu, e, c) :: _) as prev') =>
        do x <- sg_cell (inb d i j) lam nu left e c;
        do rest <- sg_row d i (j + 1) prev' (fst (fst x));
        Ok (x :: rest)
    | _ => Ok []
    end.
  Definition sg_zero : list Z * bool * option Z := ([], false, None).
  Fixpoint sg_rows (d : list (Z * Z)) (i : Z) (rows : nat) (prev : list (list Z * bool * option Z)) : res (list (list (list Z * bool * option Z))) :=
    match rows with
    | O => Ok []
    | S rows' =>
        do r <- sg_row d i 1 prev [];
        do rest <- sg_rows d (i + 1) rows' (sg_zero :: r);
        Ok ((sg_zero :: r) :: rest)
    end.
  (* partitions.py:532-672  shifted_growth_diagram(dictionary, m, n) for a set; the tables g, edges and corners are one table *)
  Definition shifted_growth_diagram (d : list (Z * Z)) (m n : option Z) : res (list (list (list Z * bool * option Z))) :=
    let n := match n with None => zmax_list (map fst d) | Some n => n end in
    let m := match m with None => zmax_list (map snd d) | Some m => m end in
    let row0 := repeat sg_zero (Z.to_nat (m + 1)) in
    do rest <- sg_rows d 1 (Z.to_nat n) row0;
    Ok (row0 :: rest).
  (* partitions.py:537  a list or tuple stands for the set of the (a, i + 1) *)
  Definition word_positions (w : list Z) : list (Z * Z) := combine w (zrange 1 (zlen w + 1)).
End Growth.
