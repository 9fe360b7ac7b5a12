(* Model of crystals.py, class CrystalMixin: edges, components and istrings.
   Vertices are the indices 0 .. n-1 of the elements.  The operators of the concrete crystal are
   parameters: [f x i] is self.f_crystal_operator(x, i) and [src x] is the test
   self[x].e_crystal_operator(i) is None (for the fixed i of an istrings call).
   A Python set is a duplicate-free list.  The dot/png output (lines 18-39) is not modelled. *)
From Coq Require Import List ZArith Bool.
From Verif Require Import PyBase M_Perm.
Import ListNotations.
Local Open Scope Z_scope.

(* crystals.py:73-82  edges: triples (x, y, i) *)
Definition cedges (n rank : Z) (f : Z -> Z -> option Z) : list (Z * Z * Z) :=
  flat_map (fun x => flat_map (fun i => match f x i with Some y => [(x, y, i)] | None => [] end)
                       (zrange 0 rank)) (zrange 0 n).

(* set insertion *)
Definition zset_of (l : list Z) : list Z :=
  fold_left (fun acc x => if memz x acc then acc else acc ++ [x]) l [].

(* lines 55-58 for one s *)
Definition neighbours (edges : list (Z * Z * Z)) (s : Z) : list Z :=
  flat_map (fun e => if s =? fst (fst e) then [snd (fst e)] else []) edges ++
  flat_map (fun e => if s =? snd (fst e) then [fst (fst e)] else []) edges.

(* crystals.py:49-62  dfs; [fuel] bounds the number of rounds of the while loop *)
Fixpoint dfs (fuel : nat) (edges : list (Z * Z * Z)) (seen added : list Z) : res (list Z) :=
  match added with
  | [] => Ok seen
  | _ :: _ =>
      match fuel with
      | O => Err OutOfFuel
      | S fuel' =>
          let connected := zset_of (flat_map (neighbours edges) added) in
          let added' := filter (fun x => negb (memz x seen)) connected in
          dfs fuel' edges (seen ++ added') added'
      end
  end.

(* crystals.py:64-71  components; [pick rest] is rest.pop(), an arbitrary element *)
Fixpoint components_loop (fuel : nat) (pick : list Z -> Z) (n : Z) (edges : list (Z * Z * Z)) (rest : list Z)
  : res (list (list Z)) :=
  match rest with
  | [] => Ok []
  | _ :: _ =>
      match fuel with
      | O => Err OutOfFuel
      | S fuel' =>
          let seed := pick rest in
          do comp <- dfs (S (Z.to_nat n)) edges [seed] [seed];
          do comps <- components_loop fuel' pick n edges (filter (fun x => negb (memz x comp)) rest);
          Ok (comp :: comps)
      end
  end.
Definition components (pick : list Z -> Z) (n : Z) (edges : list (Z * Z * Z)) : res (list (list Z)) :=
  components_loop (Z.to_nat n) pick n edges (zrange 0 n).

(* crystals.py:9-17  istrings(i): [f x] is f_crystal_operator(x, i); the while True loop *)
Fixpoint istring_loop (fuel : nat) (f : Z -> option Z) (x : Z) : res (list Z) :=
  match fuel with
  | O => Err OutOfFuel
  | S fuel' => match f x with
               | None => Ok [x]
               | Some y => do rest <- istring_loop fuel' f y; Ok (x :: rest)
               end
  end.
Definition istrings (n : Z) (src : Z -> bool) (f : Z -> option Z) : res (list (list Z)) :=
  rmap (istring_loop (Z.to_nat n) f) (filter src (zrange 0 n)).
