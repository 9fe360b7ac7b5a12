(* Model of partitions.py, class Partition: tuples of ints are [list Z].
   Generators are the list of the values they yield when fully consumed (generate, whose
   generators share a module level table, is in M_Generate.v).
   Python indexing mu[k] is [nthz mu k]; every use below is in range whenever Python's is
   reached (the bounds are tested first by the code), except where an error is returned. *)
From Coq Require Import List ZArith Bool.
From Verif Require Import PyBase.
Import ListNotations.
Local Open Scope Z_scope.

Definition nthz (l : list Z) (i : Z) : Z := nth (Z.to_nat i) l 0.

(* l[i] = v on a copy *)
Fixpoint upd (l : list Z) (i : nat) (v : Z) : list Z :=
  match l, i with
  | [], _ => []
  | _ :: l', O => v :: l'
  | a :: l', S i' => a :: upd l' i' v
  end.

(* partitions.py:199-203  trim: while mu and mu[-1] == 0: mu = mu[:-1].
   Walking from the end is walking the reversed list. *)
Fixpoint dropz (l : list Z) : list Z :=
  match l with
  | [] => []
  | a :: l' => if a =? 0 then dropz l' else l
  end.
Definition trim (mu : list Z) : list Z := rev (dropz (rev mu)).

(* partitions.py:205-210  sort(mu, trim): sorted() ascending then reversed *)
Fixpoint sinsert (x : Z) (l : list Z) : list Z :=
  match l with
  | [] => [x]
  | y :: l' => if x <=? y then x :: l else y :: sinsert x l'
  end.
Definition sorted (l : list Z) : list Z := fold_right sinsert [] l.
Definition psort (mu : list Z) (dotrim : bool) : list Z :=
  let ans := rev (sorted mu) in if dotrim then trim ans else ans.

(* partitions.py:212-214  get(mu, i), 1-based, 0 outside *)
Definition get (mu : list Z) (i : Z) : Z :=
  if (0 <=? i - 1) && (i - 1 <? zlen mu) then nthz mu (i - 1) else 0.

(* partitions.py:216-222  isin *)
Definition isin (mu : list Z) (i j : Z) (shifted : bool) : bool :=
  let c := j - (if shifted then i - 1 else 0) in (1 <=? c) && (c <=? get mu i).
Definition isin_shifted (mu : list Z) (i j : Z) : bool := isin mu i j true.

(* partitions.py:224-226 *)
Definition is_partition (mu : list Z) : bool :=
  forallb (fun i => nthz mu i <=? nthz mu (i - 1)) (zrange 1 (zlen mu)) &&
  match mu with [] => true | _ => 0 <=? last mu 0 end.
(* partitions.py:232-234 *)
Definition is_strict_partition (mu : list Z) : bool :=
  forallb (fun i => nthz mu i <? nthz mu (i - 1)) (zrange 1 (zlen mu)).

(* partitions.py:236-241  transpose *)
Definition transpose (mu : list Z) : list Z :=
  match mu with
  | [] => []
  | a :: _ => map (fun j => zlen (filter (fun i => j <? nthz mu i) (zrange 0 (zlen mu)))) (zrange 0 a)
  end.

(* partitions.py:16-25  add(mu, row): add a box to a row (row >= 1; for row <= 0 Python would
   index from the end, which the model does not cover and reports as ValueError) *)
Definition add (mu : list Z) (row : Z) : res (list Z) :=
  if row <=? 0 then Err ValueError
  else if row <=? zlen mu then Ok (upd mu (Z.to_nat (row - 1)) (nthz mu (row - 1) + 1))
  else if row =? zlen mu + 1 then Ok (mu ++ [1])
  else Err GenericException.

(* partitions.py:33-40  from_shape; [sh] is the set in iteration order; rows i >= 1 *)
Definition pad_to (ans : list Z) (i : Z) : list Z := ans ++ repeat 0 (Z.to_nat (i - zlen ans)).
Definition from_shape (sh : list (Z * Z)) : list Z :=
  fold_left (fun ans ij =>
    let i := fst ij in
    let ans := pad_to ans i in
    upd ans (Z.to_nat (i - 1)) (nthz ans (i - 1) + 1)) sh [].

(* enumerate(mu) *)
Definition enum (mu : list Z) : list (Z * Z) := combine (zrange 0 (zlen mu)) mu.

(* partitions.py:42-48  shape: the set of cells (as a list in insertion order; no cell is
   added twice) *)
Definition shape (mu : list Z) : list (Z * Z) :=
  flat_map (fun ia => map (fun j => (fst ia + 1, j + 1)) (zrange 0 (snd ia))) (enum mu).
(* partitions.py:50-57 *)
Definition shifted_shape (mu : list Z) : list (Z * Z) :=
  flat_map (fun ia => map (fun j => (fst ia + 1, fst ia + j + 1)) (zrange 0 (snd ia))) (enum mu).

(* partitions.py:276-284  skew(mu, nu, shifted) *)
Definition skew (mu nu : list Z) (shifted : bool) : list (Z * Z) :=
  flat_map (fun ia =>
    let subpart := if fst ia <? zlen nu then nthz nu (fst ia) else 0 in
    map (fun j => (fst ia + 1, j + 1 + (if shifted then fst ia else 0))) (zrange subpart (snd ia)))
  (enum mu).

(* partitions.py:76-88  remove_inner_corner(mu, row), row >= 1 *)
Definition remove_inner_corner (mu : list Z) (row : Z) : res (list Z) :=
  let l := zlen mu in
  if (row =? 1) && (1 <? l) && (nthz mu 1 <? nthz mu 0) then Ok ((nthz mu 0 - 1) :: tl mu)
  else if (1 <? row) && (row <? l) && (nthz mu row <? nthz mu (row - 1))
  then Ok (upd mu (Z.to_nat (row - 1)) (nthz mu (row - 1) - 1))
  else if row =? l then
    match mu with
    | [] => Err IndexError
    | _ => if 1 <? last mu 0 then Ok (removelast mu ++ [last mu 0 - 1])
           else if last mu 0 =? 1 then Ok (removelast mu)
           else Err GenericException
    end
  else Err GenericException.

(* all itertools.combinations(rows, k) for k in range(len(rows) + 1) *)
Definition all_combinations {A} (rows : list A) : list (list A) :=
  flat_map (fun k => combinations rows k) (seq 0 (S (length rows))).

Fixpoint rfold {A B} (f : B -> A -> res B) (l : list A) (b : B) : res B :=
  match l with
  | [] => Ok b
  | a :: l' => do b' <- f b a; rfold f l' b'
  end.

(* partitions.py:60-74  remove_inner_corners *)
Definition remove_inner_corners (mu : list Z) : res (list (list Z)) :=
  let rows := filter (fun i => match remove_inner_corner mu i with Ok _ => true | Err _ => false end)
                (zrange 1 (zlen mu + 1)) in
  rmap (fun subset => rfold remove_inner_corner subset mu) (all_combinations rows).

(* partitions.py:125-136  remove_shifted_inner_corner(mu, row): None when not removable *)
Definition remove_shifted_inner_corner (mu : list Z) (row : Z) : res (option (list Z)) :=
  let l := zlen mu in
  if (row =? 1) && (1 <? l) && (nthz mu 1 + 1 <? nthz mu 0) then Ok (Some ((nthz mu 0 - 1) :: tl mu))
  else if (1 <? row) && (row <? l) && (nthz mu row + 1 <? nthz mu (row - 1))
  then Ok (Some (upd mu (Z.to_nat (row - 1)) (nthz mu (row - 1) - 1)))
  else if row =? l then
    match mu with
    | [] => Err IndexError
    | _ => if 1 <? last mu 0 then Ok (Some (removelast mu ++ [last mu 0 - 1]))
           else if last mu 0 =? 1 then Ok (Some (removelast mu))
           else Ok None
    end
  else Ok None.

(* partitions.py:112-123; calling the method on None would raise TypeError *)
Definition remove_shifted_inner_corners (mu : list Z) : res (list (option (list Z))) :=
  let rows := filter (fun i => match remove_shifted_inner_corner mu i with Ok (Some _) => true | _ => false end)
                (zrange 1 (zlen mu + 1)) in
  rmap (fun subset => rfold (fun ans row => match ans with
                                            | None => Err TypeError
                                            | Some a => remove_shifted_inner_corner a row
                                            end) subset (Some mu)) (all_combinations rows).

(* partitions.py:138-146  complement(n, mu).  The dictionary maps j to the number of starts <= j. *)
Definition complement (n : Z) (mu : list Z) : res (list Z) :=
  if forallb (fun i => nthz mu i <=? n - i) (zrange 0 (zlen mu)) then
    let d := fold_left (fun d i =>
       let start := i + (if i <? zlen mu then nthz mu i else 0) + 1 in
       fold_left (fun d j => dset Z.eqb d j (match dget Z.eqb d j with Some x => x | None => 0 end + 1))
                 (zrange start (n + 1)) d) (zrange 0 n) [] in
    Ok (psort (map snd d) true)
  else Err AssertionError.

(* partitions.py:267-274  successors(mu, strict).  The recursion is on the suffixes mu[i+1:];
   [fuel] = len(mu) + 1 always suffices (each call is on a shorter list). *)
Fixpoint successors_aux (fuel : nat) (mu : list Z) (strict : bool) : list (list Z) :=
  let mu := trim mu in
  match fuel with
  | O => []
  | S fuel' =>
      flat_map (fun i =>
        if (i =? 0) || (nthz mu i + 1 <? nthz mu (i - 1) + (if strict then 0 else 1))
        then map (fun nu => trim (firstn (Z.to_nat i) mu ++ [nthz mu i + 1] ++ nu))
                 (successors_aux fuel' (skipn (Z.to_nat (i + 1)) mu) strict)
        else []) (zrange 0 (zlen mu)) ++ [mu]
  end.
Definition successors (mu : list Z) (strict : bool) : list (list Z) :=
  successors_aux (S (length mu)) mu strict.

(* partitions.py:304-309  contains(bigger, smaller) *)
Definition contains (bigger smaller : list Z) : bool :=
  if zlen bigger <? zlen smaller then false
  else forallb (fun i => (0 <=? nthz smaller i) && (nthz smaller i <=? nthz bigger i))
               (zrange 0 (zlen smaller)).

(* partitions.py:311-319  compositions(n), n >= 0; recursion on n - i with i >= 1 (fuel n + 1) *)
Fixpoint compositions_aux (fuel : nat) (n : Z) : list (list Z) :=
  if n =? 0 then [[]]
  else match fuel with
       | O => []
       | S fuel' => flat_map (fun i => map (cons i) (compositions_aux fuel' (n - i))) (zrange 1 (n + 1))
       end.
Definition compositions (n : Z) : list (list Z) := compositions_aux (Z.to_nat n) n.

(* partitions.py:321-323  peak_compositions *)
Definition peak_compositions (n : Z) : list (list Z) :=
  filter (fun alpha => forallb (fun a => 2 <=? a) (removelast alpha)) (compositions n).

(* partitions.py:354-370  subpartitions(mu, nu, strict) *)
Fixpoint subpartitions_aux (lowerbound : list Z) (mu : list Z) (strict : bool) (i : Z) : list (list Z) :=
  match mu with
  | [] => [[]]
  | m0 :: mu' =>
      flat_map (fun nu =>
        let lb := match nu with
                  | n0 :: _ => if 0 <? n0 then n0 + (if strict then 1 else 0) else 0
                  | [] => 0
                  end in
        let lb := Z.max lb (get lowerbound i) in
        map (fun a => a :: nu) (zrange lb (m0 + 1)))
      (subpartitions_aux lowerbound mu' strict (i + 1))
  end.
Definition subpartitions (mu nu : list Z) (strict : bool) : list (list Z) :=
  map trim (subpartitions_aux (trim nu) mu strict 1).

(* partitions.py:372-376 *)
Definition shifted_ribbon_complements (mu : list Z) : list (list Z) :=
  subpartitions mu (trim (tl mu)) true.

(* partitions.py:410-415  decrement_one; on the empty tuple nu[0] raises IndexError.
   The while loop moves i while row i cannot lose a box. *)
Fixpoint dec1_index (nu : list Z) (i : nat) : nat :=
  match nu with
  | a :: ((b :: _) as r) => if a - 1 <=? b then dec1_index r (S i) else i
  | _ => i
  end.
Definition decrement_one (nu : list Z) : res (list Z) :=
  match nu with
  | [] => Err IndexError
  | _ => let i := dec1_index nu 0 in
         Ok (trim (firstn i nu ++ [nth i nu 0 - 1] ++ skipn (S i) nu))
  end.

(* partitions.py:417-427  decrement_strict; mu[0] on a tuple of zeros would raise IndexError.
   The list is decremented in place while the decremented row equals the (positive) next. *)
Fixpoint dec_strict_loop (a : Z) (rest : list Z) : list Z :=
  match rest with
  | b :: rest' => if (0 <? a) && (a =? b) then a :: dec_strict_loop (b - 1) rest' else a :: rest
  | [] => [a]
  end.
Definition decrement_strict (nu : list Z) : res (list Z) :=
  match nu with
  | [] => Ok []
  | _ => match trim nu with
         | [] => Err IndexError
         | a :: rest => Ok (trim (dec_strict_loop (a - 1) rest))
         end
  end.

(* partitions.py:505-508  add_box_to_row *)
Definition add_box_to_row (p : list Z) (row : Z) : list Z :=
  trim (map (fun i => get p i + (if i =? row then 1 else 0)) (zrange 1 (Z.max (zlen p) row + 1))).

(* partitions.py:527-530  union *)
Definition punion (p q : list Z) : list Z :=
  trim (map (fun i => Z.max (get p i) (get q i)) (zrange 1 (Z.max (zlen p) (zlen q) + 1))).

(* partitions.py:674-692  growth_diagram(dictionary, m, n).
   The table is built row by row; g[0][j] = g[i][0] = () as in the code.
   [growth_cell] is the while loop at lines 685-690, [fuel] > number of rows of mu and nu. *)
Fixpoint growth_cell (fuel : nat) (rho mu nu : list Z) (carry k : Z) : res (list Z) :=
  let v := Z.max (get mu k) (get nu k) + carry in
  if v =? 0 then Ok []
  else match fuel with
       | O => Err OutOfFuel
       | S fuel' =>
           do rest <- growth_cell fuel' rho mu nu (Z.min (get mu k) (get nu k) - get rho k) (k + 1);
           Ok (v :: rest)
       end.

Definition zpair_eqb (a b : Z * Z) : bool := (fst a =? fst b) && (snd a =? snd b).
Definition mat_get (d : list (Z * Z * Z)) (i j : Z) : Z :=
  match dget zpair_eqb d (i, j) with Some v => v | None => 0 end.

(* entries j = 1.. of row i, given the previous row [prev] = g[i-1][j-1], g[i-1][j], ... and
   [left] = g[i][j-1] *)
Fixpoint growth_row (d : list (Z * Z * Z)) (i j : Z) (prev : list (list Z)) (left : list Z) : res (list (list Z)) :=
  match prev with
  | rho :: ((mu :: _) as prev') =>
      do lam <- growth_cell (S (length mu + length left)) rho mu left (mat_get d i j) 1;
      let lam := trim lam in
      do rest <- growth_row d i (j + 1) prev' lam;
      Ok (lam :: rest)
  | _ => Ok []
  end.
Fixpoint growth_rows (d : list (Z * Z * Z)) (i : Z) (rows : nat) (prev : list (list Z)) : res (list (list (list Z))) :=
  match rows with
  | O => Ok []
  | S rows' =>
      do r <- growth_row d i 1 prev [];
      do rest <- growth_rows d (i + 1) rows' ([] :: r);
      Ok (([] :: r) :: rest)
  end.
Definition zmax_list (l : list Z) : Z := fold_right Z.max 0 l.
Definition growth_diagram (d : list (Z * Z * Z)) (m n : option Z) : res (list (list (list Z))) :=
  let n := match n with None => zmax_list (map (fun kv => fst (fst kv)) d) | Some n => n end in
  let m := match m with None => zmax_list (map (fun kv => snd (fst kv)) d) | Some m => m end in
  let row0 := repeat [] (Z.to_nat (m + 1)) in
  do rest <- growth_rows d 1 (Z.to_nat n) row0;
  Ok (row0 :: rest).
