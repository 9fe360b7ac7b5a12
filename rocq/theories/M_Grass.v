(* Model of permutations.py: codes of involutions, shapes and Grassmannian permutations. *)
From Coq Require Import List ZArith Bool.
From Verif Require Import PyBase M_Partitions M_Perm M_Bruhat.
Import ListNotations.
Local Open Scope Z_scope.

(* permutations.py:242-250  involution_code *)
Definition involution_code (w : list Z) : res (list Z) :=
  do b <- (if is_unsigned w then is_involution w else Ok false);
  if b then
    Ok (map (fun i => zlen (filter (fun j => (pcall w j <=? i) && (pcall w j <? pcall w i)) (zrange (i + 1) (zlen w + i)))) (zrange 1 (1 + zlen w)))
  else Err AssertionError.
(* permutations.py:252-260  fpf_involution_code *)
Definition fpf_involution_code (w : list Z) : res (list Z) :=
  do b <- (if is_unsigned w then is_fpf_involution w else Ok false);
  if b then
    Ok (map (fun i => zlen (filter (fun j => (pcall w j <? i) && (pcall w j <? pcall w i)) (zrange (i + 1) (zlen w + i)))) (zrange 1 (1 + zlen w)))
  else Err AssertionError.
(* permutations.py:262-263  shape *)
Definition perm_shape (w : list Z) : res (list Z) := do v <- pinv w; do c <- code v; Ok (psort c true).
(* permutations.py:265-268  involution_shape *)
Definition involution_shape (w : list Z) : res (list Z) :=
  do b <- is_involution w;
  if b then do c <- involution_code w; Ok (transpose (psort c true)) else Err AssertionError.
(* permutations.py:321-324  fpf_involution_shape *)
Definition fpf_involution_shape (w : list Z) : res (list Z) :=
  do b <- is_fpf_involution w;
  if b then do c <- fpf_involution_code w; Ok (transpose (psort c true)) else Err AssertionError.

(* permutations.py:289-295  get_grassmannian( *mu).  sorted() of a set difference of a range is the range
   filtered. *)
Definition get_grassmannian (mu : list Z) : res (list Z) :=
  let s := sorted mu in
  let oneline := map (fun ia => fst ia + 1 + snd ia) (enum s) in
  let oneline := match oneline with
                 | [] => []
                 | _ => oneline ++ filter (fun x => negb (memz x oneline)) (zrange 1 (last oneline 0 + 1))
                 end in
  do v <- mkperm oneline;
  pinv v.
(* permutations.py:339-340  is_grassmannian *)
Definition is_grassmannian (w : list Z) : res bool :=
  do mu <- perm_shape w; do v <- get_grassmannian mu; Ok (peq v w).
(* permutations.py:270-274  grassmannians(rank), the yielded values in order *)
Definition grassmannians (rank : Z) : res (list (list Z)) :=
  rmap get_grassmannian (subpartitions (rev (zrange 1 rank)) [] false).

(* permutations.py:826-828  longest_unsigned(n); 819-824  longest_element(n) *)
Definition longest_unsigned (n : Z) : res (list Z) := mkperm (rev (zrange 1 (n + 1))).
Definition head0 (mu : list Z) : Z := match mu with [] => 0 | a :: _ => a end.
(* permutations.py:297-305  get_inv_grassmannian( *mu) *)
Definition get_inv_grassmannian (mu : list Z) : res (list Z) :=
  if is_strict_partition mu then
    do ans <- rfold (fun ans i => do t <- transposition (1 + head0 mu - nthz mu i) (i + 1 + head0 mu); pmul ans t) (zrange 0 (zlen mu)) pid;
    do w0 <- longest_unsigned (zlen mu + head0 mu);
    do a <- pmul w0 ans;
    pmul a w0
  else Err AssertionError.
(* permutations.py:342-343  is_inv_grassmannian *)
Definition is_inv_grassmannian (w : list Z) : res bool :=
  do mu <- involution_shape w; do v <- get_inv_grassmannian mu; Ok (peq v w).
(* permutations.py:276-280  inv_grassmannians(rank); range(rank - 1, 0, -2) *)
Definition range_down2 (a : Z) : list Z := map (fun i => a - 2 * i) (zrange 0 ((a + 1) / 2)).
Definition inv_grassmannians (rank : Z) : res (list (list Z)) :=
  rmap get_inv_grassmannian (subpartitions (range_down2 (rank - 1)) [] true).

(* permutations.py:314-316  while not ans.is_fpf_involution(): ... *)
Fixpoint pair_up (fuel : nat) (ans : list Z) : res (list Z) :=
  match fuel with
  | O => Err OutOfFuel
  | S fuel' =>
      do b <- is_fpf_involution ans;
      if b then Ok ans
      else
        match filter (fun i => pcall ans i =? i) (zrange 1 (zlen ans + 2)) with
        | a :: b :: _ => do t <- transposition a b; do ans <- pmul ans t; pair_up fuel' ans
        | _ => Err IndexError
        end
  end.
(* permutations.py:307-319  get_fpf_grassmannian( *mu) *)
Definition get_fpf_grassmannian (fuel : nat) (mu : list Z) : res (list Z) :=
  if is_strict_partition mu then
    let o := match mu with [] => 0 | a :: _ => if (zlen mu + 1 + a) mod 2 =? 0 then 0 else 1 end in
    do ans <- rfold (fun ans i => do t <- transposition (o + 1 + head0 mu - nthz mu i) (o + i + 2 + head0 mu); pmul ans t) (zrange 0 (zlen mu)) pid;
    do ans <- pair_up fuel ans;
    do w0 <- longest_unsigned (o + 1 + zlen mu + head0 mu);
    do a <- pmul w0 ans;
    pmul a w0
  else Err AssertionError.
(* permutations.py:282-287  fpf_grassmannians(rank) *)
Definition fpf_grassmannians (fuel : nat) (rank : Z) : res (list (list Z)) :=
  if rank mod 2 =? 0 then rmap (get_fpf_grassmannian fuel) (subpartitions (range_down2 (rank - 2)) [] true) else Err AssertionError.
(* permutations.py:326-337  _fpf_grassmannian_shape; Ok None is the returned None.  The pairs are sorted by
   their first components, which are distinct and already increasing. *)
Definition fpf_grassmannian_shape (w : list Z) : option (list Z) :=
  let cycles := map (fun a => (a, pcall w a)) (filter (fun a => a <? pcall w a) (zrange 1 (zlen w + 1))) in
  let filtered := filter (fun ab => existsb (fun ij => (fst ij <? snd ab) && (fst ab <? snd ij) && (snd ij <? snd ab)) cycles) cycles in
  match filtered with
  | [] => Some []
  | (_, t0) :: _ =>
      let n := t0 - 1 in
      if (n + 1 <=? last (map fst filtered) 0) || negb (zlist_eqb (map snd filtered) (map (fun i => n + i + 1) (zrange 0 (zlen filtered)))) then None
      else Some (map (fun a => n - a) (map fst filtered))
  end.
(* permutations.py:345-348  is_fpf_grassmannian; `not` binds tighter than `and` *)
Definition is_fpf_grassmannian (w : list Z) : res bool :=
  do b <- (if negb (is_unsigned w) then is_fpf_involution w else Ok false);
  if b then Ok false else Ok (match fpf_grassmannian_shape w with None => false | Some _ => true end).
