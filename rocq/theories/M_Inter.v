(* Model of the interstandard valued-set tableaux of vst.py, and of in_same_group *)
From Coq Require Import List ZArith Bool.
From Verif Require Import PyBase M_Partitions M_Tableaux M_Semistandard M_Transposed M_VST.
Import ListNotations.
Local Open Scope Z_scope.

(* vst.py:101  ofn = lambda x: {-1: 0, -2: 2, 1: 3, 2: 5}[x], applied to tableau.get(i, j) *)
Definition iofn (t : tab) (c : box) : res Z :=
  match tget t c None true with
  | Some (VInt x) => if x =? -1 then Ok 0 else if x =? -2 then Ok 2 else if x =? 1 then Ok 3 else if x =? 2 then Ok 5 else Err KeyError
  | _ => Err KeyError
  end.
(* vst.py:100-119  is_interstandard; the order of the set comprehensions only matters if an entry is not among 1, 2, -1, -2 *)
Definition is_interstandard (v : tab * tab) : res bool :=
  let t := fst v in
  let g := snd v in
  do rows <- allr (fun c =>
      let d := (fst c - 1, snd c) in
      let e := (fst c - 1, fst c - 1) in
      if tmem t d then
        if (fst c =? snd c) && tmem t e && same_entry t c (-2) && same_entry t d 1 && (same_entry t e (-2) || (same_entry t e 1 && truthy g e)) then Ok true
        else do p <- iofn t c; do q <- iofn t d; Ok (negb ((p <? q) || ((p =? q) && negb (p mod 2 =? 0))))
      else Ok true) (map fst t);
  if rows then
    allr (fun c =>
      let d := (fst c, snd c + 1) in
      let e := (fst c + 1, fst c + 1) in
      if tmem t d then
        if (fst c =? snd c) && tmem t e && same_entry t c 1 && same_entry t d (-2) && (same_entry t e 1 || (same_entry t e (-2) && truthy g e)) then Ok true
        else do p <- iofn t c; do q <- iofn t d; Ok (negb ((q <? p) || ((p =? q) && (p mod 2 =? 0))))
      else Ok true) (map fst t)
  else Ok false.

(* vst.py:578  adj = {-1: -1, -2: -2, 2: 1, 3: 2} *)
Definition adj (x : Z) : res Z := if x =? -1 then Ok (-1) else if x =? -2 then Ok (-2) else if x =? 2 then Ok 1 else if x =? 3 then Ok 2 else Err KeyError.
(* vst.py:580-583; the comprehension over t.boxes *)
Definition adjusted (t : tab) : res tab :=
  do m <- rmap (fun cv => match tget t (fst cv) None true with Some (VInt x) => do y <- adj x; Ok (fst cv, VInt y) | _ => Err KeyError end) t;
  tinit m.
(* vst.py:581  1 not in counter and -3 not in counter *)
Definition two_letters (t : tab) : bool := negb (existsb (fun x => (x =? 1) || (x =? -3)) (flat_map snd t)).
(* grouping.get(i, j) == 0 *)
Definition label0 (g : tab) (c : box) : bool := same_entry g c 0.
(* vst.py:602-610  the tableaux added beside vst; h is a row number, hence truthy *)
Definition inter_extra (v : tab * tab) : res (list (tab * tab)) :=
  do o <- hinge v 1;
  match o with
  | None => Ok []
  | Some h =>
      let t := fst v in
      let g := snd v in
      do a <- (if same_entry t (h, h + 1) 1 && same_entry t (h + 1, h + 1) 2 && label0 g (h + 1, h + 1) && (same_entry t (h, h) (-2) || (same_entry t (h, h) 1 && truthy g (h, h)))
               then do u <- tset t (h + 1) (h + 1) (VInt (-2)); do w <- vst_init u g; Ok [w] else Ok []);
      do b <- (if same_entry t (h, h + 1) (-2) && same_entry t (h, h) (-1) && label0 g (h, h) && (same_entry t (h + 1, h + 1) 1 || (same_entry t (h + 1, h + 1) (-2) && truthy g (h + 1, h + 1)))
               then do u <- tset t h h (VInt 1); do w <- vst_init u g; Ok [w] else Ok []);
      Ok (a ++ b)
  end.
Section Inter.
  Variable ord : list (list Z) -> list (list Z).
  Variable bord : list (Z * Z) -> list (Z * Z).
  Variable tord : list tab -> list tab.
  (* vst.py:569-612  all_interstandard(mu, nu); the loop over v is that of vst_over *)
  Definition all_interstandard (mu nu : list Z) : res (list (tab * tab)) :=
    do r <- semistandard_shifted_marked ord bord tord 3 mu nu true false;
    do tabs <- rmap adjusted (filter two_letters (tord r));
    do ans <- rconcat (fun t => do vs <- vst_over t; rconcat (fun v => do e <- inter_extra v; Ok (v :: e)) vs) tabs;
    Ok (set_vst ans).
End Inter.

(* vst.py:633-642  in_same_group(i, j, x, y); the recursive calls swap the two cells, and do not recurse again *)
Definition same_group_right (v : tab * tab) (c : box) : res bool :=
  if truthy (snd v) c then do x <- entry (fst v) c; Ok (0 <? x) else Ok false.
Definition same_group_up (v : tab * tab) (c : box) : res bool :=
  if truthy (snd v) c then do x <- entry (fst v) c; Ok (x <? 0) else Ok false.
Definition in_same_group (v : tab * tab) (i j x y : Z) : res bool :=
  if (i =? x) && (y =? j + 1) then same_group_right v (i, j)
  else if (i =? x) && (y + 1 =? j) then same_group_right v (x, y)
  else if (i + 1 =? x) && (y =? j) then same_group_up v (i, j)
  else if (i =? x + 1) && (y =? j) then same_group_up v (x, y)
  else Ok false.
