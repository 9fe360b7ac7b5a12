(* Model of operators.py (box adding / removing operators), dualops.py (strip adding) and the
   two corner finders of partitions.py they use.
   Vectors are those of M_Vectors.v: keys are partitions, coefficients are in any commutative ring
   with a zero test, [beta] is an element of it (the code takes Polynomials and beta = X(0)). *)
From Coq Require Import List ZArith Lia Bool.
From Verif Require Import PyBase FinSum M_Vectors M_Partitions.
Import ListNotations.
Local Open Scope Z_scope.

(* (i, j) in shape *)
Definition in_shape (s : list (Z * Z)) (i j : Z) : bool :=
  existsb (fun c => (fst c =? i) && (snd c =? j)) s.

(* the loop [while (i, j) in shape: i, j = i + 1, j + 1], j = i + d; [fuel] bounds the iterations *)
Fixpoint walk_diag (fuel : nat) (mem : Z -> Z -> bool) (i j : Z) : res (Z * Z) :=
  if mem i j then
    match fuel with
    | O => Err OutOfFuel
    | S f => walk_diag f mem (i + 1) (j + 1)
    end
  else Ok (i, j).

(* partitions.py:91-98  find_shifted_outer_corner *)
Definition find_shifted_outer_corner (mu : list Z) (diagonal : Z) : res (option Z) :=
  let shape := shifted_shape mu in
  do ij <- walk_diag (length mu) (in_shape shape) 1 (1 + diagonal);
  let (i, j) := ij in
  if ((i =? 1) || in_shape shape (i - 1) j) && ((i =? j) || in_shape shape i (j - 1))
  then Ok (Some i) else Ok None.

(* partitions.py:100-110  find_shifted_inner_corner *)
Definition find_shifted_inner_corner (mu : list Z) (diagonal : Z) : res (option Z) :=
  let shape := shifted_shape mu in
  do ij <- walk_diag (length mu) (fun i j => in_shape shape (i + 1) (j + 1)) 0 diagonal;
  let (i, j) := ij in
  if negb (in_shape shape i j) then Ok None
  else if in_shape shape (i + 1) j || in_shape shape i (j + 1) then Ok None
  else Ok (Some i).

Section Operators.
  Context {R : Type} (rO rI : R) (radd rmul : R -> R -> R) (ropp : R -> R) (rzero : R -> bool) (beta : R).
  Local Notation vec := (list (list Z * R)).
  Local Notation vadd := (@vadd (list Z) R zlist_eqb rO radd rzero).
  Local Notation vscale := (@vscale (list Z) R zlist_eqb rO rmul rzero).
  Local Notation vmake := (@vmake (list Z) R rzero).

  (* operators.py:12-17  operator_decorator: a bare tuple stands for Vector({mu: 1}) *)
  Definition of_tuple (mu : list Z) : vec := vmake [(mu, rI)].

  (* operators.py:24-33  the body of the loop of operator_shifted_add; the empty list stands for
     "nothing added to ans" *)
  Definition shifted_add_term (index : Z) (mu : list Z) (coefficient : R) : res vec :=
    do r <- find_shifted_inner_corner mu (Z.abs index);
    match r with
    | Some _ => Ok [(mu, rmul beta coefficient)]
    | None =>
        do r <- find_shifted_outer_corner mu (Z.abs index);
        match r with
        | Some row => do nu <- add mu row; Ok [(nu, coefficient)]
        | None => Ok []
        end
    end.

  (* operators.py:20-34  operator_shifted_add; the int 0 of Python is the empty vector *)
  Definition operator_shifted_add (index : Z) (v : vec) : res vec :=
    rfold (fun ans mc => do t <- shifted_add_term index (fst mc) (snd mc); Ok (vadd ans (vmake t))) v [].

  (* operators.py:37-44 and 47-54  operator_AL, operator_AR *)
  Definition operator_AL (n : Z) (var : R) (v : vec) : res vec :=
    rfold (fun ans i => do w <- operator_shifted_add i ans; Ok (vadd ans (vscale w var))) (zrange 0 (n + 1)) v.
  Definition operator_AR (n : Z) (var : R) (v : vec) : res vec :=
    rfold (fun ans i => do w <- operator_shifted_add i ans; Ok (vadd ans (vscale w var))) (rev (zrange 0 (n + 1))) v.

  (* (-beta) ** e, e >= 0 *)
  Fixpoint negbeta_pow (e : nat) : R := match e with O => rI | S e' => rmul (negbeta_pow e') (ropp beta) end.

  (* operators.py:65-72  the while loop of operator_shifted_row_remove ([i] counts down from
     abs(index), so i + 1 is the fuel); the coefficient of the input is not used *)
  Fixpoint row_remove_loop (i1 : nat) (e : nat) (row : Z) (mu : list Z) (ans : vec) : res vec :=
    match i1 with
    | O => Ok ans
    | S i' =>
        do m <- remove_shifted_inner_corner mu row;
        match m with
        | None => Ok ans
        | Some mu' => row_remove_loop i' (S e) row mu' (vadd ans (vmake [(mu', negbeta_pow e)]))
        end
    end.
  (* operators.py:57-73 *)
  Definition operator_shifted_row_remove (index : Z) (v : vec) : res vec :=
    rfold (fun ans mc =>
      do r <- find_shifted_inner_corner (fst mc) (Z.abs index);
      match r with
      | None => Ok ans
      | Some row => row_remove_loop (S (Z.to_nat (Z.abs index))) 0 row (fst mc) ans
      end) v [].

  (* operators.py:84-90  the while loop of operator_shifted_column_remove *)
  Fixpoint column_remove_loop (fuel : nat) (e : nat) (i : Z) (mu : list Z) (ans : vec) : res vec :=
    do r <- find_shifted_inner_corner mu i;
    match r with
    | None => Ok ans
    | Some row =>
        match fuel with
        | O => Err OutOfFuel
        | S f =>
            do mu' <- remove_inner_corner mu row;
            column_remove_loop f (S e) (i + 1) mu' (vadd ans (vmake [(mu', negbeta_pow e)]))
        end
    end.
  (* operators.py:76-91 *)
  Definition operator_shifted_column_remove (index : Z) (v : vec) : res vec :=
    rfold (fun ans mc => column_remove_loop (length (fst mc)) 0 (Z.abs index) (fst mc) ans) v [].
End Operators.

(* mu[:k] for an int k; a negative k counts from the end *)
Definition slice_to (mu : list Z) (k : Z) : list Z :=
  firstn (Z.to_nat (if k <? 0 then k + zlen mu else k)) mu.
(* mu[k:] *)
Definition slice_from (mu : list Z) (k : Z) : list Z :=
  skipn (Z.to_nat (if k <? 0 then k + zlen mu else k)) mu.

(* dualops.py:5-18  sh_horizontal_strip(a, b)(mu) *)
Definition sh_horizontal_strip (a b : Z) (mu : option (list Z)) : res (option (list Z)) :=
  if (0 <=? a) && (a <=? b) then
    match mu with
    | None => Ok None
    | Some mu =>
        do ij <- walk_diag (length mu) (isin_shifted mu) 1 (1 + a);
        let (i, j) := ij in
        if ((i =? j) || isin_shifted mu i (j - 1)) && ((i =? 1) || isin_shifted mu (i - 1) (j + b - a))
        then Ok (Some (slice_to mu (i - 1) ++ [get mu i + b - a + 1] ++ slice_from mu i))
        else Ok None
    end
  else Err AssertionError.

(* dualops.py:20-36  sh_vertical_strip(a, b)(mu) *)
Definition sh_vertical_strip (a b : Z) (mu : option (list Z)) : res (option (list Z)) :=
  if (0 <=? a) && (a <=? b) then
    match mu with
    | None => Ok None
    | Some mu =>
        do ij <- walk_diag (length mu) (isin_shifted mu) 1 (1 + a);
        let (i, j) := ij in
        let h := i + a - b in
        if isin_shifted mu h j then Ok None
        else if ((i =? j) || isin_shifted mu i (j - 1)) && ((h =? 1) || isin_shifted mu (h - 1) j)
        then Ok (Some (slice_to mu (h - 1) ++ map (fun k => get mu k + 1) (zrange h (i + 1)) ++ slice_from mu i))
        else Ok None
    end
  else Err AssertionError.
