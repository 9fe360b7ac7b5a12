(* Model of the atoms of involutions, permutations.py:746-763, 793-813, 978-1078.
   A Permutation is its (stripped) oneline tuple, as in M_Perm; a set of tuples is a duplicate-free list.
   Generators are run to their end: get_atoms and get_atoms_d do this themselves with list(...), and
   get_involution_words is modelled for callers that do so. *)
From Coq Require Import List ZArith Bool.
From Verif Require Import PyBase M_Partitions M_Semistandard M_Perm M_PermGen M_PermGroth M_InvWords.
Import ListNotations.
Local Open Scope Z_scope.

(* permutations.py:808-810  fix *)
Definition pfix (w : list Z) : list (Z * Z) :=
  map (fun a => (a, a)) (filter (fun a => pcall w a =? a) (zrange 1 (zlen w + 1))).
(* sorted(l) on pairs *)
Definition pair_ltb (p q : Z * Z) : bool := (fst p <? fst q) || ((fst p =? fst q) && (snd p <? snd q)).
Fixpoint pair_insert (p : Z * Z) (l : list (Z * Z)) : list (Z * Z) :=
  match l with [] => [p] | q :: l' => if pair_ltb q p then q :: pair_insert p l' else p :: l end.
Definition pair_sort (l : list (Z * Z)) : list (Z * Z) := fold_right pair_insert [] l.
(* permutations.py:812-813  cyc *)
Definition cyc (w : list Z) : list (Z * Z) := pair_sort (ppair w ++ pnegs w ++ pfix w).

(* permutations.py:978-985  _min_inv_atom_oneline *)
Definition min_inv_atom_oneline (w : list Z) : list Z :=
  let tup := flat_map (fun p => [snd p; fst p]) (cyc w) in
  fold_left (fun minimum i =>
    if negb (zlen minimum =? 0) && (nthz minimum (zlen minimum - 1) =? i) then minimum else minimum ++ [i]) tup [].
(* permutations.py:987-989  get_min_atom *)
Definition get_min_atom (w : list Z) : res (list Z) :=
  do v <- pinv w;
  if negb (peq w v) then Err AssertionError
  else do p <- mkperm (min_inv_atom_oneline w); pinv p.

(* permutations.py:1016-1018  involution(oneline) *)
Definition atom_involution (oneline : list Z) : res (option (list Z)) :=
  do p <- mkperm oneline;
  do word <- get_reduced_word (rfuel p) p;
  from_involution_word (rev word) true.
(* oneline[i:j] for 0 <= i <= j *)
Definition zslice (l : list Z) (i j : Z) : list Z := firstn (Z.to_nat (j - i)) (skipn (Z.to_nat i) l).
Definition zlmin (l : list Z) : Z := zmin l.
(* permutations.py:1020-1035  next(oneline); bool(z) of a Permutation is len(z) != 0 *)
Definition atom_next (oneline : list Z) : res (list (list Z)) :=
  do y <- atom_involution oneline;
  match y with
  | None => Err AssertionError
  | Some y =>
      let first := flat_map (fun i =>
          let c := nthz oneline i in let a := nthz oneline (i + 1) in let b := nthz oneline (i + 2) in
          if (a <? b) && (b <? c) then [zslice oneline 0 i ++ [b; c; a] ++ zslice oneline (i + 3) (zlen oneline)] else [])
        (zrange 0 (zlen oneline - 2)) in
      do second <- rconcat (fun i =>
          let a := - nthz oneline (i + 1) in let b := - nthz oneline i in
          if (0 <? a) && (a <? b) && (b =? zlmin (map Z.abs (zslice oneline 0 (i + 1)))) then
            let newline := zslice oneline 0 i ++ [a; - b] ++ zslice oneline (i + 2) (zlen oneline) in
            do z <- atom_involution newline;
            match z with
            | None => Ok []
            | Some z => do n <- plen z; Ok (if negb (n =? 0) && peq y z then [newline] else [])
            end
          else Ok []) (zrange 0 (zlen oneline - 1));
      Ok (first ++ second)
  end.
(* the cache of atoms: permutation -> list *)
Definition atom_cache := list (list Z * list (list Z)).
Section Ord.
(* iteration order of a set of tuples *)
Variable aord : list (list Z) -> list (list Z).
(* permutations.py:1037-1042  the while loop of _get_atoms; fuel bounds the number of rounds *)
Fixpoint atoms_loop (fuel : nat) (add : list (list Z)) : res (list (list Z)) :=
  match fuel with
  | O => Err OutOfFuel
  | S fuel' =>
      match add with
      | [] => Ok []
      | _ =>
          do out <- rmap (fun w => do p <- mkperm w; pinv p) (aord add);
          do new <- rconcat atom_next (aord add);
          do rest <- atoms_loop fuel' (wunion [] new);
          Ok (out ++ rest)
      end
  end.
(* permutations.py:1008-1013  get_atoms *)
Definition get_atoms (fuel : nat) (c : atom_cache) (w : list Z) : res (atom_cache * list (list Z)) :=
  do v <- pinv w;
  if negb (peq w v) then Err AssertionError
  else match dget zlist_eqb c w with
       | Some l => Ok (c, l)
       | None => do l <- atoms_loop fuel [min_inv_atom_oneline w]; Ok (dset zlist_eqb c w l, l)
       end.

(* for word in a.get_reduced_words(): the generator of M_PermGen is run to its end *)
Fixpoint rdrain (t : rtable) (g : rgen) : rtable * res (list (list Z)) :=
  match g with
  | RDone => (t, Ok [])
  | RYield v g' => let '(t', r) := rdrain t g' in (t', do l <- r; Ok (v :: l))
  | RStore key vs g' => rdrain (dset zlist_eqb t key vs) g'
  | RLook key f => rdrain t (f (dget zlist_eqb t key))
  | RErr e => (t, Err e)
  end.
Variable dorder : list Z -> list Z.
(* permutations.py:750-763  list(w.get_involution_words()); the three caches are INVOLUTION_WORDS,
   SIGNED_REDUCED_WORDS and atoms_b_cache *)
Definition get_involution_words (fuel : nat) (ic : fpf_cache) (rt : rtable) (ac : atom_cache) (w : list Z)
  : res (fpf_cache * rtable * atom_cache * list (list Z)) :=
  do v <- pinv w;
  if negb (peq v w) then Err AssertionError
  else match dget zlist_eqb ic w with
       | Some ws => Ok (ic, rt, ac, aord ws)
       | None =>
           do r <- get_atoms fuel ac w;
           let '(ac, atoms) := r : atom_cache * list (list Z) in
           do r <- rfold (fun acc a =>
               let '(rt, out) := acc : rtable * list (list Z) in
               let '(rt, r) := rdrain rt (reduced_words dorder aord (rfuel a) a) in
               do words <- r; Ok (rt, out ++ words)) atoms (rt, []);
           let '(rt, out) := r : rtable * list (list Z) in
           Ok (dset zlist_eqb ic w (wunion [] out), rt, ac, out)
       end.

(* permutations.py:991-1006  get_fpf_atoms; dorder is the iteration order of the descent set *)
Fixpoint get_fpf_atoms (fuel : nat) (c : atom_cache) (w : list Z) : res (atom_cache * list (list Z)) :=
  match fuel with
  | O => Err OutOfFuel
  | S fuel' =>
      do b <- is_fpf_involution w;
      if negb b then Err AssertionError
      else if negb (is_unsigned w) then Err AssertionError
      else match dget zlist_eqb c w with
           | Some l => Ok (c, l)
           | None =>
               let des := filter (fun i => negb (pcall w i =? i + 1)) (dorder (rdes w)) in
               match des with
               | [] => let l := [pid] in Ok (dset zlist_eqb c w l, l)
               | _ =>
                   do r <- rfold (fun acc i =>
                       let '(c, ans) := acc : atom_cache * list (list Z) in
                       do s <- s_i i;
                       do sw <- pmul s w; do v <- pmul sw s;
                       do r <- get_fpf_atoms fuel' c v;
                       let '(c, xs) := r : atom_cache * list (list Z) in
                       do ys <- rmap (fun x => pmul x s) xs;
                       Ok (c, wunion ans (wunion [] ys))) des (c, []);
                   let '(c, ans) := r : atom_cache * list (list Z) in
                   let l := aord ans in
                   Ok (dset zlist_eqb c w l, l)
               end
           end
  end.
End Ord.

(* permutations.py:1053-1061  length(w) of _get_atoms_d *)
Definition d_length (w : list Z) : Z :=
  zsum (flat_map (fun i => flat_map (fun j =>
      [if pcall w j <? pcall w i then 1 else 0; if pcall w j <? - pcall w i then 1 else 0])
    (zrange (i + 1) (zlen w + 1))) (zrange 1 (zlen w + 1))).
(* permutations.py:1067-1068  s_i(i) *)
Definition d_s_i (i : Z) : res (list Z) :=
  if i =? 0 then do s0 <- s_i 0; do s1 <- s_i 1; do t <- pmul s0 s1; pmul t s0 else s_i i.
(* permutations.py:1044-1078  get_atoms_d, _get_atoms_d; 927-928 is_even_signed *)
Fixpoint get_atoms_d (fuel : nat) (c : atom_cache) (self : list Z) : res (atom_cache * list (list Z)) :=
  match fuel with
  | O => Err OutOfFuel
  | S fuel' =>
      if negb (zlen (filter (fun i => i <? 0) self) mod 2 =? 0) then Err AssertionError
      else
        do v <- pinv self;
        if negb (peq self v) then Err AssertionError
        else match dget zlist_eqb c self with
             | Some l => Ok (c, l)
             | None =>
                 do r <-
                   (if d_length self =? 0 then Ok (c, [self])
                    else rfold (fun acc i =>
                        let '(c, out) := acc : atom_cache * list (list Z) in
                        do s <- d_s_i i;
                        do w <- pmul self s;
                        if d_length w <? d_length self then
                          do sself <- pmul s self;
                          do v <- (if peq w sself then Ok w else pmul s w);
                          do r <- get_atoms_d fuel' c v;
                          let '(c, xs) := r : atom_cache * list (list Z) in
                          do ys <- rmap (fun a => pmul a s) xs;
                          Ok (c, out ++ ys)
                        else Ok (c, out)) (zrange 0 (zlen self)) (c, []));
                 let '(c, l) := r : atom_cache * list (list Z) in
                 Ok (dset zlist_eqb c self l, l)
             end
  end.
