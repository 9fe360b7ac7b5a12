(* Model of partitions.py: decompositions of shifted shapes, rims and shifted ribbons.
   The @cached_value decorator is left out: it returns what the undecorated function returns (cf. M_Cached). *)
From Coq Require Import List ZArith Bool.
From Verif Require Import PyBase M_Partitions M_Tableaux.
Import ListNotations.
Local Open Scope Z_scope.

(* partitions.py:434-436  while i < len(mu) and mu[i] + i == mu[0]: i += 1 *)
Fixpoint vrun (m0 i : Z) (mu : list Z) : nat :=
  match mu with
  | a :: r => if a + i =? m0 then S (vrun m0 (i + 1) r) else O
  | [] => O
  end.
(* partitions.py:428-442  decompose_shifted_shape_by_vertical_strips; recursion on mu[i:] with i >= 1, [fuel] > len(mu) *)
Fixpoint vstrips_aux (fuel : nat) (mu : list Z) : res (list (list Z)) :=
  match fuel with
  | O => Err OutOfFuel
  | S fuel' =>
      match trim mu with
      | [] => Ok [[]]
      | m0 :: r =>
          let mu := m0 :: r in
          let i := vrun m0 0 mu in
          do rest <- vstrips_aux fuel' (skipn i mu);
          Ok (flat_map (fun a => map (fun nu => trim (firstn a mu ++ map (fun b => b - 1) (skipn a (firstn i mu)) ++ nu)) rest) (seq 0 (S i)))
      end
  end.
Definition decompose_by_vertical_strips (mu : list Z) : res (list (list Z)) := vstrips_aux (S (length mu)) mu.

(* partitions.py:444-456  decompose_shifted_shape_by_rims *)
Fixpoint drims_aux (fuel : nat) (mu : list Z) : res (list (list Z)) :=
  match fuel with
  | O => Err OutOfFuel
  | S fuel' =>
      match trim mu with
      | [] => Ok [[]]
      | m0 :: r =>
          do rest <- drims_aux fuel' r;
          Ok (flat_map (fun nu =>
            let a := match nu with [] => 0 | n0 :: _ => n0 + 1 end in
            let b := match r with [] => 0 | m1 :: _ => m1 end in
            map (fun a => trim (a :: nu)) (zrange (Z.max a b) (m0 + 1))) rest)
      end
  end.
Definition decompose_by_rims (mu : list Z) : res (list (list Z)) := drims_aux (S (length mu)) mu.

(* partitions.py:464-465  while next_border and next_border[0][0] == a *)
Fixpoint skip_row (a : Z) (l : list box) : list box :=
  match l with
  | (a', b') :: r => if a' =? a then skip_row a r else l
  | [] => []
  end.
(* partitions.py:470-472  while next_border and next_border[0][1] == b; the boxes passed and the rest *)
Fixpoint take_col (b : Z) (l : list box) : list box * list box :=
  match l with
  | (a', b') :: r => if b' =? b then ((a', b') :: fst (take_col b r), snd (take_col b r)) else ([], l)
  | [] => ([], [])
  end.
(* partitions.py:458-477  _rims_helper; recursion on proper suffixes of border, [fuel] > len(border) *)
Fixpoint rims_helper (fuel : nat) (border : list box) : res (list (list box)) :=
  match fuel with
  | O => Err OutOfFuel
  | S fuel' =>
      match border with
      | [] => Ok [[]]
      | (a, b) :: next =>
          do l1 <- rims_helper fuel' (skip_row a next);
          do l2 <- rims_helper fuel' (snd (take_col b next));
          Ok (l1 ++ map (fun bns => (a, b) :: fst (take_col b next) ++ bns) l2)
      end
  end.

(* sorted() of a list of boxes *)
Fixpoint binsert (x : box) (l : list box) : list box :=
  match l with
  | [] => [x]
  | y :: r => if box_ltb y x then y :: binsert x r else x :: l
  end.
Definition bsort (l : list box) : list box := fold_right binsert [] l.
Definition bmem (x : box) (l : list box) : bool := existsb (box_eqb x) l.

(* partitions.py:481-487  the tuple border; mu here is the tuple after lines 482-483 *)
Definition rim_border (mu : list Z) : list box :=
  flat_map (fun i => map (fun j => (i, i + nthz mu i + j)) (zrange 0 (nthz mu (i - 1) - nthz mu i))) (rev (zrange 1 (zlen mu)))
  ++ [(1, 1 + nthz mu 0)].
(* partitions.py:479-494  rims(mu, first_row_bound), the yielded tuples in order *)
Definition rims (mu : list Z) (bound : Z) : res (list (list box)) :=
  if is_strict_partition mu then
    let mu := trim mu ++ [0] in
    let mu := nthz mu 0 :: mu in
    let border := rim_border mu in
    do rs <- rims_helper (S (length border)) border;
    Ok (flat_map (fun r =>
          if bmem (last border (0, 0)) r
          then map (fun i => bsort (r ++ map (fun j => (1, 1 + nthz mu 0 + j)) (zrange 1 (i + 1)))) (zrange 0 bound)
          else [bsort r]) rs)
  else Err AssertionError.

(* partitions.py:378-385  shifted_ribbon *)
Fixpoint ribbon_rows (alpha : list Z) : list Z * list Z :=
  match alpha with
  | [] => ([], [])
  | a :: r => (zsum (a :: r) :: fst (ribbon_rows r), zsum r :: snd (ribbon_rows r))
  end.
Definition shifted_ribbon (alpha : list Z) : list Z * list Z := (trim (fst (ribbon_rows alpha)), trim (snd (ribbon_rows alpha))).

(* partitions.py:389-397  generate(nu, lam, ub), up to the first exception.  lam[0] raises IndexError when lam is empty.
   At the end of the recursion nu is a tuple, and [nu[0]] + x raises TypeError. *)
Fixpoint ribbon_generate (nu lam : list Z) (ub : option Z) : res (list (list Z * list Z)) :=
  match nu with
  | [] => Ok [(nu, lam)]
  | n0 :: nu' =>
      match lam with
      | [] => Err IndexError
      | lb :: lam' =>
          let ub := match ub with None => n0 | Some u => Z.min n0 u end in
          do parts <- rmap (fun a => do xs <- ribbon_generate nu' lam' (Some (a - 1));
                                     match nu', xs with
                                     | [], _ :: _ => Err TypeError
                                     | _, _ => Ok (map (fun xy => (n0 :: fst xy, a :: snd xy)) xs)
                                     end) (zrange lb (ub + 1));
          Ok (concat parts)
      end
  end.
Definition pair_eqb (a b : list Z * list Z) : bool := zlist_eqb (fst a) (fst b) && zlist_eqb (snd a) (snd b).
(* partitions.py:399-408  the loop of shifted_ribbons over the compositions; yielded pairs are the elements of seen *)
Definition shifted_ribbons (n : Z) : res (list (list Z * list Z)) :=
  rfold (fun seen alpha =>
    if existsb (pair_eqb (shifted_ribbon alpha)) seen then Ok seen
    else do xs <- ribbon_generate (fst (shifted_ribbon alpha)) (snd (shifted_ribbon alpha)) None;
         Ok (fold_left (fun seen xy => let xy := (trim (fst xy), trim (snd xy)) in if existsb (pair_eqb xy) seen then seen else seen ++ [xy]) xs seen))
    (compositions n) [].
