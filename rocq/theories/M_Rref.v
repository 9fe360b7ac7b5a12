(* Model of vectors.py: Vector.rref (vectors.py:42-101) and Vector.is_expressable
   (vectors.py:22-40), and of tableaux.py: nchoosek (tableaux.py:46-52).
   A matrix is the list of its rows; in-place row updates become functional updates.
   An assertion that fails half way through a row leaves a partially updated matrix in Python,
   which is unreachable because the exception propagates out of rref. *)
From Coq Require Import List ZArith Bool.
From Verif Require Import PyBase FinSum M_Vectors.
Import ListNotations.
Local Open Scope Z_scope.

(* mat[i] = v *)
Fixpoint updn {A} (l : list A) (i : nat) (v : A) : list A :=
  match l, i with
  | [], _ => []
  | _ :: l', O => v :: l'
  | a :: l', S i' => a :: updn l' i' v
  end.
Definition mrow (mat : list (list Z)) (i : nat) : list Z := nth i mat [].
Definition ment (mat : list (list Z)) (i j : nat) : Z := nth j (mrow mat i) 0.

(* vectors.py:54-57  while b != 0: a, b = b, a % b  (fuel: |b| decreases) *)
Fixpoint euclid (fuel : nat) (a b : Z) : res Z :=
  if b =? 0 then Ok a
  else match fuel with O => Err OutOfFuel | S f => euclid f b (a mod b) end.
Definition gcd2 (a b : Z) : res Z := euclid (S (Z.abs_nat b)) a b.
(* vectors.py:48-57  gcd of any number of arguments *)
Fixpoint gcdn (args : list Z) : res Z :=
  match args with
  | [] => Err IndexError
  | a :: r => match r with [] => Ok a | _ => do g <- gcdn r; gcd2 a g end
  end.

(* vectors.py:59-60 *)
Definition swap_rows (mat : list (list Z)) (i j : nat) : list (list Z) :=
  updn (updn mat i (mrow mat j)) j (mrow mat i).
(* vectors.py:62-64 *)
Definition scale_row (mat : list (list Z)) (i : nat) (v : Z) : list (list Z) :=
  updn mat i (map (fun e => e * v) (mrow mat i)).
(* vectors.py:66-70  iscale with an explicit v *)
Definition iscale_by (mat : list (list Z)) (i : nat) (v : Z) : res (list (list Z)) :=
  if v =? 0 then (match mrow mat i with [] => Ok mat | _ => Err ZeroDivisionError end)
  else if forallb (fun e => e mod v =? 0) (mrow mat i)
  then Ok (updn mat i (map (fun e => e / v) (mrow mat i)))
  else Err AssertionError.
(* vectors.py:67  v = gcd of the row *)
Definition iscale (mat : list (list Z)) (i : nat) : res (list (list Z)) :=
  do v <- gcdn (mrow mat i); iscale_by mat i v.
(* vectors.py:72-74  row j += v * row i *)
Definition replace_row (mat : list (list Z)) (i j : nat) (v : Z) : list (list Z) :=
  updn mat j (map (fun t => ment mat j t + v * ment mat i t) (seq 0 (length (mrow mat j)))).
(* vectors.py:76-77; m is the number of rows *)
Definition find_nonzeros (m : nat) (mat : list (list Z)) (rowstart j : nat) : list nat :=
  filter (fun t => negb (ment mat t j =? 0)) (seq rowstart (m - rowstart)).

(* vectors.py:90-94 *)
Definition eliminate (i col : nat) (acc : res (list (list Z))) (j : nat) : res (list (list Z)) :=
  do mat <- acc;
  let a := ment mat i col in
  let b := ment mat j col in
  do d <- gcd2 a b;
  if d =? 0 then Err ZeroDivisionError
  else Ok (replace_row (scale_row mat j (a / d)) i j ((- b) / d)).

(* vectors.py:80-99  body of the loop over the columns; the state is (matrix, row) *)
Definition rref_step (m : nat) (acc : res (list (list Z) * nat)) (col : nat) : res (list (list Z) * nat) :=
  do st <- acc;
  let mat := fst st in
  let row := snd st in
  match find_nonzeros m mat row col with
  | [] => Ok (mat, row)
  | i :: rest =>
      do mat <- iscale mat i;
      do mat <- (if ment mat i col <? 0 then iscale_by mat i (-1) else Ok mat);
      do mat <- fold_left (eliminate i col) rest (Ok mat);
      Ok ((if Nat.eqb i row then mat else swap_rows mat row i), S row)
  end.

(* vectors.py:42-101 *)
Definition rref (matrix : list (list Z)) : res (list (list Z)) :=
  let m := length matrix in
  let n := match matrix with [] => O | r :: _ => length r end in
  do st <- fold_left (rref_step m) (seq 0 n) (Ok (matrix, O));
  Ok (fst st).

(* vectors.py:34-38  the first nonzero column of a row, if any *)
Definition row_pivot (mat : list (list Z)) (n i : nat) : option nat :=
  find (fun j => negb (ment mat i j =? 0)) (seq 0 n).

Section Express.
  Context {K : Type} (keqb : K -> K -> bool).
  (* sorted() on keys; only its being a rearrangement matters *)
  Context (ksort : list K -> list K).

  (* vectors.py:23-26  set(self) | set(a1) | ...  *)
  Definition all_keys (v : list (K * Z)) (args : list (list (K * Z))) : list K :=
    fold_left (fun ks a =>
      ks ++ filter (fun k => negb (existsb (fun k' => keqb k' k) ks)) (map fst a)) args (map fst v).

  (* vectors.py:22-40 *)
  Definition is_expressable (v : list (K * Z)) (args : list (list (K * Z))) : res bool :=
    let keylist := ksort (all_keys v args) in
    let m := length keylist in
    let n := S (length args) in
    let matrix := map (fun k => map (fun a : list (K * Z) => vget keqb 0 a k) args ++ [vget keqb 0 v k]) keylist in
    do r <- rref matrix;
    let pivots := flat_map (fun i => match row_pivot r n i with Some j => [j] | None => [] end) (seq 0 m) in
    Ok (negb (existsb (Nat.eqb (n - 1)) pivots)).
End Express.

(* tableaux.py:46-52  nchoosek(m, k) *)
Definition nchoosek (m k : Z) : Z :=
  let ans := fold_left (fun ans i => ans * (m - i)) (zrange 0 k) 1 in
  fold_left (fun ans i => ans / (i + 1)) (zrange 0 k) ans.
