(* Model of partitions.py, Partition.from_skew.  The set of positions is a list; only any(...), min(...), max(...) and the
   truth value of a comprehension look at it, so its order and repetitions play no role.  The lists mu and nu of the code
   grow together and are one list of pairs (mu[i], nu[i]) here until they are trimmed. *)
From Coq Require Import List ZArith Bool.
From Verif Require Import PyBase M_Partitions.
Import ListNotations.
Local Open Scope Z_scope.

(* min and max of the nonempty list x :: l *)
Definition lmin (x : Z) (l : list Z) : Z := fold_left Z.min l x.
Definition lmax (x : Z) (l : list Z) : Z := fold_left Z.max l x.

(* partitions.py:246-255  the first loop from row i on; fuel counts the rounds *)
Fixpoint fs_rows (fuel : nat) (shifted : bool) (positions : list (Z * Z)) (i : Z) : res (list (Z * Z)) :=
  if existsb (fun p => i <=? fst p) positions then
    match fuel with
    | O => Err OutOfFuel
    | S f =>
        let off := if shifted then i - 1 else 0 in
        let pr := match map snd (filter (fun p => fst p =? i) positions) with
                  | [] => (-1, -1)
                  | b :: l => (lmin b l - 1 - off, lmax b l - off)
                  end in
        do r <- fs_rows f shifted positions (i + 1);
        Ok (pr :: r)
    end
  else Ok [].
(* partitions.py:256-261  a 0 is appended, then the missing rows are filled from the last row up *)
Definition fs_fill (shifted : bool) (rows : list (Z * Z)) : list (Z * Z) :=
  fold_right (fun pr rest =>
    if snd pr =? -1 then let n := snd (hd (0, 0) rest) + (if shifted then 1 else 0) in (n, n) :: rest else pr :: rest) [(0, 0)] rows.
(* partitions.py:263-264  the last loop; it may not end, fuel counts the rounds *)
Fixpoint fs_loop (fuel : nat) (nu mu : list Z) : res (list Z * list Z) :=
  if zlen nu =? zlen mu then
    match fuel with
    | O => Err OutOfFuel
    | S f => fs_loop f (trim (map (fun a => a - 1) nu)) (trim (map (fun a => a - 1) mu))
    end
  else Ok (nu, mu).
(* partitions.py:244-265  from_skew(positions, shifted): the first loop takes as many rounds as the largest row number, the
   last one as many as the last part of mu *)
Definition from_skew (positions : list (Z * Z)) (shifted : bool) : res (list Z * list Z) :=
  do rows <- fs_rows (Z.to_nat (zmax_list (map fst positions))) shifted positions 1;
  let l := fs_fill shifted rows in
  let nu := trim (map snd l) in
  let mu := trim (map fst l) in
  fs_loop (Z.to_nat (last mu 0)) nu mu.
