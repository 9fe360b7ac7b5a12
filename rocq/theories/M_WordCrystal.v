(* Model of crystals.py, class WordCrystalGenerator: the crystal of the factorizations of the Hecke words of a
   permutation.  The generator over tableaux is in M_TabCrystal.v, edges and components are in M_Crystal.v. *)
From Coq Require Import List ZArith Bool.
From Verif Require Import PyBase M_PolyHash M_Partitions M_Words M_Tableaux M_TabCrystal M_Insertion M_Perm M_Levels M_PermGroth.
Import ListNotations.
Local Open Scope Z_scope.

(* crystals.py:376-383  factorization_tuple_to_array *)
Definition factorization_tuple_to_array (tup : list (list Z)) : list Z * list Z :=
  let '(w, i, _) := fold_left (fun s part => let '(w, i, index) := s in (w ++ part, i ++ repeat index (length part), index + 1)) tup ([], [], 1) in
  (w, i).

(* crystals.py:385-394  factorizations, for the words found by the constructor; sorted(..., reverse=True) keeps
   the order of elements with equal keys *)
Definition factorizations (words : list (list Z)) (num_factors : nat) (decreasing : bool) : list (list Z * list Z) :=
  let fac := flat_map (fun w => map factorization_tuple_to_array (get_increasing_factorizations w num_factors decreasing)) words in
  rev (sort_by (fun f => [zlen (fst f); zlen (snd f)]) (rev fac)).

(* == of pairs of tuples *)
Definition pair_eqb (a b : list Z * list Z) : bool := zlist_eqb (fst a) (fst b) && zlist_eqb (snd a) (snd b).

(* crystals.py:396-407  f_crystal_operator; the result None, or the index *)
Definition word_f (elements : list (list Z * list Z)) (decreasing : bool) (element_index : nat) (operator_index : Z) : res (option nat) :=
  let multisetvalued := negb decreasing in
  let '(w, i) := nth element_index elements ([], []) in
  do pq <- hecke w (Some i) multisetvalued;
  do q <- (if multisetvalued then f_multisetvalued operator_index (snd pq) else f_setvalued operator_index (snd pq));
  match q with
  | None => Ok None
  | Some q =>
      do ans <- inverse_hecke (fst pq) q multisetvalued;
      match filter (fun x => pair_eqb (nth x elements ([], [])) ans) (seq 0 (length elements)) with
      | [x] => Ok (Some x)
      | _ => Err AssertionError
      end
  end.

Section WordCrystal.
  Variable ord : wlevel -> wlevel.
  Variable pick : nat -> list Z -> Z.

  (* crystals.py:357-359  the words of the constructor; the cache of the levels is threaded through *)
  Definition crystal_words (fuel : nat) (c : hcache hkey wlevel) (oneline : list Z) (len : Z) : res (hcache hkey wlevel * list (list Z)) :=
    do u <- mkperm oneline;
    do r <- get_hecke_words ord pick fuel c u (Some len) None;
    Ok (fst r, filter (fun w => zlen w =? len) (snd r)).
End WordCrystal.
