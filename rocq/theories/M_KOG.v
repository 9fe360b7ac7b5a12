(* Model of tableaux.py: KOG and KLG tableaux of shifted rims and the recursions that count them.
   The @cached_value decorators are left out. *)
From Coq Require Import List ZArith Bool.
From Verif Require Import PyBase M_Partitions M_Tableaux M_Rims.
Import ListNotations.
Local Open Scope Z_scope.

(* (i, j, a) of the tuples cells_filled *)
Definition fcell := (box * Z)%type.

(* itertools.combinations(corners, k) for k in range(s, len(corners) + 1) *)
Definition subsets_from (s : nat) (corners : list box) : list (list box) :=
  flat_map (combinations corners) (seq s (S (length corners) - s)).
(* new_cells and new_left of one round *)
Definition fill (n : Z) (filled : list fcell) (left : list box) (subset : list box) : list fcell * list box :=
  (filled ++ map (fun ij => (ij, n)) subset, bsort (filter (fun x => negb (bmem x subset)) left)).

Section Order.
  (* the iteration order of the set corners *)
  Variable cord : list box -> list box.

  (* tableaux.py:1035-1042  the test of the set comprehension in _KOG_helper *)
  Definition kog_corner (filled : list fcell) (left : list box) (ij : box) : bool :=
    let (i, j) := ij in
    negb (bmem (i, j + 1) left) && negb (bmem (i + 1, j) left) &&
    negb (existsb (fun c1 => existsb (fun c2 =>
      match c1, c2 with ((k1, l1), a1), ((k2, l2), a2) => (k1 <=? i) && (j <=? l1) && (k1 <=? k2) && (l2 <=? l1) && (a1 <? a2) end) filled) filled).
  (* tableaux.py:1025-1050  _KOG_helper for n >= 0 *)
  Fixpoint kog_aux (n : nat) (filled : list fcell) (left : list box) : list (list fcell) :=
    match n, left with
    | S _, [] => []
    | O, _ :: _ => []
    | O, [] => [filled]
    | S n', _ =>
        let corners := cord (filter (kog_corner filled left) left) in
        flat_map (fun subset => let (new_cells, new_left) := fill (Z.of_nat n) filled left subset in kog_aux n' new_cells new_left) (subsets_from 1 corners)
    end.
  Definition kog_helper (n : Z) (filled : list fcell) (left : list box) : res (list (list fcell)) :=
    if n <? 0 then Err AssertionError else Ok (kog_aux (Z.to_nat n) filled left).
  (* Tableau({(i, j): a for (i, j, a) in tab}) *)
  Definition tab_of (cells : list fcell) : res tab := tinit (map (fun ca => (fst ca, VInt (snd ca))) cells).
  (* tableaux.py:1063-1067  KOG(content_max, mu), the yielded tableaux in order *)
  Definition KOG (content_max : Z) (mu : list Z) : res (list tab) :=
    do shapes <- rims mu content_max;
    do parts <- rmap (fun shape => do cs <- kog_helper content_max [] shape; rmap tab_of cs) shapes;
    Ok (concat parts).

  (* tableaux.py:1136-1147  the test of the set comprehension in _KLG_helper *)
  Definition klg_corner (n : Z) (filled : list fcell) (left : list box) (ij : box) : bool :=
    let (i, j) := ij in
    negb (bmem (i, j + 1) left) && negb (bmem (i + 1, j) left) && (negb (i =? j) || (0 <? n)) &&
    negb (existsb (fun c => match c with ((k, l), a) => (k <=? i) && (j <=? l) && (a <? 0) end) filled) &&
    ((n <? 0) || negb (existsb (fun c => match c with ((k, l), _) => (i <=? k) && (l <=? j) end) filled)).
  (* tableaux.py:1136-1156  one round of _KLG_helper with n <> 0: the arguments of the recursive calls *)
  Definition klg_round (n : Z) (filled : list fcell) (left : list box) : list (list fcell * list box) :=
    let corners := cord (filter (klg_corner n filled left) left) in
    let s := if (n <? 0) && negb (existsb (fun c => snd c =? - n) filled) then 1%nat else 0%nat in
    map (fill n filled left) (subsets_from s corners).
  (* tableaux.py:1127-1156  _KLG_helper for n >= 0; new_n runs through n, -n, n - 1, -(n - 1), ..., 1, -1, 0 *)
  Fixpoint klg_aux (n : nat) (filled : list fcell) (left : list box) : list (list fcell) :=
    match n, left with
    | S _, [] => []
    | O, _ :: _ => []
    | O, [] => [filled]
    | S n', _ =>
        flat_map (fun fl1 => flat_map (fun fl2 => klg_aux n' (fst fl2) (snd fl2)) (klg_round (- Z.of_nat n) (fst fl1) (snd fl1)))
          (klg_round (Z.of_nat n) filled left)
    end.
  (* a negative content_max starts at a primed label *)
  Definition klg_helper (n : Z) (filled : list fcell) (left : list box) : list (list fcell) :=
    if n <? 0 then flat_map (fun fl => klg_aux (Z.to_nat (- n - 1)) (fst fl) (snd fl)) (klg_round n filled left)
    else klg_aux (Z.to_nat n) filled left.
  (* tableaux.py:1158-1162  KLG(content_max, mu) *)
  Definition KLG (content_max : Z) (mu : list Z) : res (list tab) :=
    do shapes <- rims mu (content_max + 1);
    do parts <- rmap (fun shape => rmap tab_of (klg_helper content_max [] shape)) shapes;
    Ok (concat parts).

  (* tableaux.py:1069-1074  _add_rim on the boxes of the rim *)
  Definition add_rim (mu : list Z) (boxes : list box) : res (list Z) :=
    do nu <- rfold (fun nu ij => if (0 <? fst ij) && (fst ij <=? zlen nu) then Ok (upd nu (Z.to_nat (fst ij - 1)) (nthz nu (fst ij - 1) + 1)) else Err IndexError) boxes (mu ++ [0]);
    Ok (trim nu).
  (* ans[nu].append(tab) on a defaultdict(list) *)
  Definition group (d : list (list Z * list tab)) (nu : list Z) (t : tab) : list (list Z * list tab) :=
    dset zlist_eqb d nu (match dget zlist_eqb d nu with Some l => l ++ [t] | None => [t] end).
  (* tableaux.py:1076-1082  KOG_by_shape; 1164-1170  KLG_by_shape *)
  Definition by_shape (mu : list Z) (tabs : list tab) : res (list (list Z * list tab)) :=
    rfold (fun d t => do nu <- add_rim mu (map fst t); Ok (group d nu t)) tabs [].
  Definition KOG_by_shape (content_max : Z) (mu : list Z) : res (list (list Z * list tab)) := do l <- KOG content_max mu; by_shape mu l.
  Definition KLG_by_shape (content_max : Z) (mu : list Z) : res (list (list Z * list tab)) := do l <- KLG content_max mu; by_shape mu l.
End Order.

(* sorted(rim, key=lambda x: (-x[0], x[1])) *)
Definition path_ltb (a b : box) : bool := (fst b <? fst a) || ((fst a =? fst b) && (snd a <? snd b)).
Fixpoint pinsert (x : box) (l : list box) : list box :=
  match l with
  | [] => [x]
  | y :: r => if path_ltb y x then y :: pinsert x r else x :: l
  end.
Definition path_sort (l : list box) : list box := fold_right pinsert [] l.
(* x[-n:] *)
Definition lastn {A} (n : nat) (l : list A) : list A := skipn (length l - n) l.
Definition apart (x y : box) : bool := negb (fst x =? fst y) && negb (snd x =? snd y).
(* partitions.py:496-503  rim_terminal_part *)
Definition rim_terminal_part (rim : list box) : list box :=
  let t := lastn 3 (path_sort rim) in
  let t := if (2 <=? length t)%nat && apart (nth (length t - 2) t (0, 0)) (nth (length t - 1) t (0, 0)) then lastn 1 t else t in
  if (length t =? 3)%nat && apart (nth 0 t (0, 0)) (nth 1 t (0, 0)) then tl t else t.

(* tableaux.py:1089-1115  _KOG_count_helper; [fuel] > len(rim).  len(term) is 1, 2 or 3 *)
Fixpoint kog_count (fuel : nat) (p : Z) (rim : list box) : res Z :=
  match fuel with
  | O => Err OutOfFuel
  | S fuel' =>
      if zlen rim =? 0 then Ok (if p =? 0 then 1 else 0)
      else if p <=? 0 then Ok 0
      else
        let term := rim_terminal_part rim in
        if (zlen term =? 2) && (p =? 1) then Ok 0
        else if zlen term =? 2 then
          let left := filter (fun a => negb (bmem a term)) rim in
          do x <- kog_count fuel' p left;
          do y <- kog_count fuel' (p - 1) left;
          do z <- kog_count fuel' (p - 2) left;
          let c := if 2 <? p then 2 else 1 in
          Ok (x + (1 + c) * y + c * z)
        else
          let left := filter (fun a => negb (box_eqb a (last term (0, 0)))) rim in
          do x <- kog_count fuel' p left;
          do y <- kog_count fuel' (p - 1) left;
          let c := if 1 <? p then 2 else 1 in
          if zlen term =? 1 then Ok (c * (x + y))
          else if apart (nth 0 term (0, 0)) (last term (0, 0)) then Ok (x + y)
          else Ok y
  end.
(* tableaux.py:1084-1087  KOG_counts(nu, mu, p) *)
Definition KOG_counts (nu mu : list Z) (p : Z) : res Z :=
  let rim := bsort (skew nu mu true) in kog_count (S (length rim)) p rim.
(* tableaux.py:1117-1125  KOG_counts_by_shape *)
Definition KOG_counts_by_shape (content_max : Z) (mu : list Z) : res (list (list Z * Z)) :=
  do shapes <- rims mu content_max;
  rfold (fun d rim => do count <- kog_count (S (length rim)) content_max rim;
                      if count =? 0 then Ok d else do nu <- add_rim mu rim; Ok (dset zlist_eqb d nu count)) shapes [].

(* tableaux.py:1172-1209  _KLG_count_helper *)
Fixpoint klg_count (fuel : nat) (p : Z) (rim : list box) : res Z :=
  match fuel with
  | O => Err OutOfFuel
  | S fuel' =>
      if zlen rim =? 0 then Ok (if p =? 0 then 1 else 0)
      else if p <=? 0 then Ok 0
      else
        let term := rim_terminal_part rim in
        if zlen term =? 2 then
          let left := filter (fun a => negb (bmem a term)) rim in
          do x <- klg_count fuel' p left;
          do y <- klg_count fuel' (p - 1) left;
          do z <- klg_count fuel' (p - 2) left;
          let (a, b) := nth 0 term (0, 0) in
          let (c, d) := nth 1 term (0, 0) in
          if 2 <? p then Ok (x + 3 * y + 2 * z)
          else if (p =? 2) && (a =? b) then Ok 1
          else if p =? 2 then Ok (x + 3 * y + 2 * z)
          else if (a =? b) && (b =? c) then Ok 0
          else if (a =? b) && (b =? d) then Ok 1
          else Ok (x + y)
        else
          let left := filter (fun a => negb (box_eqb a (last term (0, 0)))) rim in
          do x <- klg_count fuel' p left;
          do y <- klg_count fuel' (p - 1) left;
          if zlen term =? 1 then
            if (p =? 1) && (fst (nth 0 term (0, 0)) =? snd (nth 0 term (0, 0))) then Ok 1 else Ok (2 * x + 2 * y)
          else if apart (nth 0 term (0, 0)) (last term (0, 0)) then Ok (x + y)
          else Ok y
  end.
(* tableaux.py:1222-1225  KLG_counts(nu, mu, p) *)
Definition KLG_counts (nu mu : list Z) (p : Z) : res Z :=
  let rim := bsort (skew nu mu true) in klg_count (S (length rim)) p rim.
(* tableaux.py:1211-1219  KLG_counts_by_shape *)
Definition KLG_counts_by_shape (content_max : Z) (mu : list Z) : res (list (list Z * Z)) :=
  do shapes <- rims mu (content_max + 1);
  rfold (fun d rim => do count <- klg_count (S (length rim)) content_max rim;
                      if count =? 0 then Ok d else do nu <- add_rim mu rim; Ok (dset zlist_eqb d nu count)) shapes [].
