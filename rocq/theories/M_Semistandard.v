(* Model of the tableau enumerators and counters of tableaux.py.
   Sets are duplicate-free lists; iteration over a set of tuples, of cells or of tableaux goes
   through the parameters [ord], [bord], [tord] (arbitrary rearrangements).
   Memoisation (cached_value) is not modelled here: the functions are pure except for the dicts
   returned by the counters, see M_CountCache.v.
   max_entry is an int in Python; it is only compared with 0 and decreased, so any value <= 0
   behaves as 0 and the model takes a nat. *)
From Coq Require Import List ZArith Bool.
From Verif Require Import PyBase M_Partitions M_Rref M_Tableaux M_Strips.
Import ListNotations.
Local Open Scope Z_scope.

Definition mem_tab (t : tab) (s : list tab) : bool := existsb (teqb t) s.
(* the set of the elements of a list *)
Fixpoint set_tab (l : list tab) : list tab :=
  match l with [] => [] | t :: l' => let s := set_tab l' in if mem_tab t s then s else t :: s end.

(* s | {c} *)
Definition badd (s : list box) (c : box) : list box := if existsb (box_eqb c) s then s else s ++ [c].

(* for (i, j) in aug: tab = tab.add(i, j, v) *)
Definition add_all (aug : list box) (v : Z) (t : tab) : res tab :=
  rfold (fun t c => tadd t (fst c) (snd c) (VInt v)) aug t.

(* tableaux.py:1239-1241: the inner loop of _subsets *)
Fixpoint subset_loop (thisdiff : list box) (corners : list box) (v : Z) : list box :=
  match corners with
  | [] => thisdiff
  | c :: cs => subset_loop (if v mod 2 =? 0 then thisdiff else badd thisdiff c) cs (v / 2)
  end.
(* tableaux.py:1234-1244  _subsets *)
Definition subsets (diff corners : list box) (setvalued : bool) : list (list box) :=
  if setvalued then map (subset_loop diff corners) (zrange 0 (2 ^ zlen corners)) else [diff].

(* concatenation of the lists produced by a loop *)
Definition rconcat {A B} (f : A -> res (list B)) (l : list A) : res (list B) := do r <- rmap f l; Ok (concat r).

Section Enumerate.
  Variable ord : list (list Z) -> list (list Z).
  Variable bord : list box -> list box.
  Variable tord : list tab -> list tab.

  (* tableaux.py:901-917  semistandard(max_entry, mu, nu, setvalued) *)
  Fixpoint semistandard (n : nat) (mu lam : list Z) (setvalued : bool) : res (list tab) :=
    if zlist_eqb mu lam then Ok [[]]
    else match n with
         | O => Ok []
         | S n' =>
             if contains mu lam then
               do strips <- horizontal_strips ord mu lam;
               do ans <- rconcat (fun s => match s with (nu, diff, corners) =>
                 do tabs <- semistandard n' nu lam setvalued;
                 rconcat (fun aug => rmap (add_all (bord aug) (Z.of_nat n)) (tord tabs)) (subsets diff corners setvalued) end) strips;
               Ok (set_tab ans)
             else Ok []
         end.

  (* tableaux.py:967-988  semistandard_marked(max_entry, mu, nu, setvalued) *)
  Fixpoint semistandard_marked (n : nat) (mu lam : list Z) (setvalued : bool) : res (list tab) :=
    if zlist_eqb mu lam then Ok [[]]
    else match n with
         | O => Ok []
         | S n' =>
             if contains mu lam then
               do strips1 <- horizontal_strips ord mu lam;
               do ans <- rconcat (fun s1 => match s1 with (nu1, diff1, corners1) =>
                 do strips2 <- vertical_strips ord nu1 lam;
                 rconcat (fun s2 => match s2 with (nu2, diff2, corners2) =>
                   do tabs <- semistandard_marked n' nu2 lam setvalued;
                   rconcat (fun aug1 => rconcat (fun aug2 =>
                     rmap (fun t => do t1 <- add_all (bord aug1) (Z.of_nat n) t; add_all (bord aug2) (- Z.of_nat n) t1) (tord tabs))
                     (subsets diff2 corners2 setvalued)) (subsets diff1 corners1 setvalued) end) strips2 end) strips1;
               Ok (set_tab ans)
             else Ok []
         end.

  (* tableaux.py:998-1023  semistandard_shifted_marked(max_entry, mu, nu, diagonal_primes, setvalued) *)
  Fixpoint semistandard_shifted_marked (n : nat) (mu lam : list Z) (diagonal_primes setvalued : bool) : res (list tab) :=
    if negb (is_strict_partition mu) then Err AssertionError
    else if zlist_eqb mu lam then Ok [[]]
    else match n with
         | O => Ok []
         | S n' =>
             if contains mu lam then
               do strips1 <- shifted_horizontal_strips ord mu lam;
               do ans <- rconcat (fun s1 => match s1 with (nu1, diff1, corners1) =>
                 do strips2 <- shifted_vertical_strips ord nu1 lam;
                 rconcat (fun s2 => match s2 with (nu2, diff2, corners2) =>
                   if negb diagonal_primes && existsb (fun c => fst c =? snd c) diff2 then Ok [] else
                   let corners2 := if diagonal_primes then corners2 else filter (fun c => negb (fst c =? snd c)) corners2 in
                   do tabs <- semistandard_shifted_marked n' nu2 lam diagonal_primes setvalued;
                   rconcat (fun aug1 => rconcat (fun aug2 =>
                     rmap (fun t => do t1 <- add_all (bord aug1) (Z.of_nat n) t; add_all (bord aug2) (- Z.of_nat n) t1) (tord tabs))
                     (subsets diff2 corners2 setvalued)) (subsets diff1 corners1 setvalued) end) strips2 end) strips1;
               Ok (set_tab ans)
             else Ok []
         end.

  (* tableaux.py:919-938  standard(mu, nu); [fuel] bounds the recursion, which removes one box at a time *)
  Fixpoint standard_fuel (fuel : nat) (mu lam : list Z) : res (list tab) :=
    if zlist_eqb mu lam then Ok [[]]
    else if contains mu lam then
      match fuel with
      | O => Err OutOfFuel
      | S f =>
          let n := zsum mu - zsum lam in
          do ans <- rconcat (fun i =>
            let nu := trim (upd mu (Z.to_nat i) (nthz mu i - 1)) in
            if is_partition nu then
              do tabs <- standard_fuel f nu lam;
              rmap (fun t => tadd t (i + 1) (nthz mu i) (VInt n)) (tord tabs)
            else Ok []) (zrange 0 (zlen mu));
          Ok (set_tab ans)
      end
    else Ok [].
  Definition standard (mu lam : list Z) : res (list tab) := standard_fuel (S (Z.to_nat (zsum mu))) mu lam.

  (* tableaux.py:940-961  standard_shifted_marked(mu, nu, diagonal_primes) *)
  Fixpoint standard_shifted_marked_fuel (fuel : nat) (mu lam : list Z) (diagonal_primes : bool) : res (list tab) :=
    if negb (is_strict_partition mu) then Err AssertionError
    else if zlist_eqb mu lam then Ok [[]]
    else if contains mu lam then
      match fuel with
      | O => Err OutOfFuel
      | S f =>
          let n := zsum mu - zsum lam in
          do ans <- rconcat (fun i =>
            let nu := trim (upd mu (Z.to_nat i) (nthz mu i - 1)) in
            if is_strict_partition nu then
              do tabs <- standard_shifted_marked_fuel f nu lam diagonal_primes;
              rconcat (fun t =>
                do t1 <- tadd t (i + 1) (i + nthz mu i) (VInt n);
                if diagonal_primes || negb (i + 1 =? i + nthz mu i)
                then do t2 <- tadd t (i + 1) (i + nthz mu i) (VInt (- n)); Ok [t1; t2]
                else Ok [t1]) (tord tabs)
            else Ok []) (zrange 0 (zlen mu));
          Ok (set_tab ans)
      end
    else Ok [].
  Definition standard_shifted_marked (mu lam : list Z) (diagonal_primes : bool) : res (list tab) :=
    standard_shifted_marked_fuel (S (Z.to_nat (zsum mu))) mu lam diagonal_primes.
End Enumerate.

(* a defaultdict(int) with tuple keys; ans[k] += c *)
Definition cdict := list (list Z * Z).
Definition cget (d : cdict) (k : list Z) : Z := match dget zlist_eqb d k with Some c => c | None => 0 end.
Definition cincr (d : cdict) (k : list Z) (c : Z) : cdict := dset zlist_eqb d k (cget d k + c).

(* the pruning test: len(partition) < max_entry - 1 or (partition and m > partition[-1]) *)
Definition prune (n : nat) (partition : list Z) (m : Z) : bool :=
  (zlen partition <? Z.of_nat n - 1) || match partition with [] => false | _ => last partition 0 <? m end.

(* tableaux.py:739-748 and 766-775: the loops with break; [is] is range(...), [w i] the binomial factor *)
Fixpoint count_loop (n : nat) (partition : list Z) (count base : Z) (w : Z -> Z) (is : list Z) (ans : cdict) : cdict :=
  match is with
  | [] => ans
  | i :: is' =>
      let m := base + i in
      if m =? 0 then count_loop n partition count base w is' (cincr ans partition count)
      else if prune n partition m then ans
      else count_loop n partition count base w is' (cincr ans (partition ++ [m]) (count * w i))
  end.

Section Count.
  Variable ord : list (list Z) -> list (list Z).

  Definition corner_range (corners : list (Z * Z)) (setvalued : bool) : list Z :=
    zrange 0 (if setvalued then zlen corners + 1 else 1).

  (* tableaux.py:726-748  count_semistandard(max_entry, mu, nu, setvalued) *)
  Fixpoint count_semistandard (n : nat) (mu lam : list Z) (setvalued : bool) : res cdict :=
    if zlist_eqb mu lam then Ok [([], 1)]
    else match n with
         | O => Ok []
         | S n' =>
             if contains mu lam then
               do strips <- horizontal_strips ord mu lam;
               rfold (fun ans s => match s with (nu, diff, corners) =>
                 do d <- count_semistandard n' nu lam setvalued;
                 Ok (fold_left (fun ans pc =>
                   count_loop n (fst pc) (snd pc) (zlen diff) (nchoosek (zlen corners)) (corner_range corners setvalued) ans) d ans) end)
                 strips []
             else Ok []
         end.

  (* tableaux.py:766-776: the two nested corner loops of the marked counters; break leaves the inner one *)
  Definition count_loop2 (n : nat) (partition : list Z) (count base : Z) (corners1 corners2 : list (Z * Z)) (setvalued : bool) (ans : cdict) : cdict :=
    fold_left (fun ans i =>
      count_loop n partition count (base + i) (fun j => nchoosek (zlen corners1) i * nchoosek (zlen corners2) j)
                 (corner_range corners2 setvalued) ans) (corner_range corners1 setvalued) ans.

  (* tableaux.py:753-777  count_semistandard_marked(max_entry, mu, nu, setvalued) *)
  Fixpoint count_semistandard_marked (n : nat) (mu lam : list Z) (setvalued : bool) : res cdict :=
    if zlist_eqb mu lam then Ok [([], 1)]
    else match n with
         | O => Ok []
         | S n' =>
             if contains mu lam then
               do strips1 <- horizontal_strips ord mu lam;
               rfold (fun ans s1 => match s1 with (nu1, diff1, corners1) =>
                 do strips2 <- vertical_strips ord nu1 lam;
                 rfold (fun ans s2 => match s2 with (nu2, diff2, corners2) =>
                   do d <- count_semistandard_marked n' nu2 lam setvalued;
                   Ok (fold_left (fun ans pc =>
                     count_loop2 n (fst pc) (snd pc) (zlen diff1 + zlen diff2) corners1 corners2 setvalued ans) d ans) end)
                   strips2 ans end)
                 strips1 []
             else Ok []
         end.

  (* tableaux.py:783-810  count_semistandard_shifted_marked(max_entry, mu, nu, diagonal_primes, setvalued) *)
  Fixpoint count_semistandard_shifted_marked (n : nat) (mu lam : list Z) (diagonal_primes setvalued : bool) : res cdict :=
    if negb (is_strict_partition mu) then Err AssertionError
    else if zlist_eqb mu lam then Ok [([], 1)]
    else match n with
         | O => Ok []
         | S n' =>
             if contains mu lam then
               do strips1 <- shifted_horizontal_strips ord mu lam;
               rfold (fun ans s1 => match s1 with (nu1, diff1, corners1) =>
                 do strips2 <- shifted_vertical_strips ord nu1 lam;
                 rfold (fun ans s2 => match s2 with (nu2, diff2, corners2) =>
                   if negb diagonal_primes && existsb (fun c => fst c =? snd c) diff2 then Ok ans else
                   let corners2 := if diagonal_primes then corners2 else filter (fun c => negb (fst c =? snd c)) corners2 in
                   do d <- count_semistandard_shifted_marked n' nu2 lam diagonal_primes setvalued;
                   Ok (fold_left (fun ans pc =>
                     count_loop2 n (fst pc) (snd pc) (zlen diff1 + zlen diff2) corners1 corners2 setvalued ans) d ans) end)
                   strips2 ans end)
                 strips1 []
             else Ok []
         end.
End Count.
