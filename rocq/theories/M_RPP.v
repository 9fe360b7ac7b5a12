(* Model of the reverse plane partition part of tableaux.py: strips, enumerators, counters and weights.
   Sets are duplicate-free lists, iterated in the orders [ord], [bord], [tord] (arbitrary rearrangements).
   Memoisation (cached_value) is not modelled here. *)
From Coq Require Import List ZArith Bool.
From Verif Require Import PyBase M_Partitions M_Rref M_Tableaux M_Strips M_Semistandard.
Import ListNotations.
Local Open Scope Z_scope.

(* len({...}) of a list of ints *)
Definition distinct (l : list Z) : Z := zlen (nodup Z.eq_dec l).

(* remove_all_boxes, e.g. tableaux.py:639-645: remove_box yields at most one shape, so the queue
   never holds more than one.  [fuel] bounds the number of removals; running out is an error *)
Fixpoint remove_all_boxes (fuel : nat) (remove_box : list Z -> option (list Z)) (nu : list Z) : res (list (list Z)) :=
  match remove_box nu with
  | None => Ok [nu]
  | Some nu' => match fuel with O => Err OutOfFuel | S f => do r <- remove_all_boxes f remove_box nu'; Ok (nu :: r) end
  end.
(* the queue of pairs (nu, i), e.g. tableaux.py:647-656: it holds shapes with the current index followed
   by shapes with the next one, so it is processed level by level; [i] is the current index plus 1 *)
Fixpoint rpp_queue (remove_box : Z -> list Z -> option (list Z)) (i : nat) (nus : list (list Z)) : res (list (list Z)) :=
  match i with
  | O => Ok []
  | S i' =>
      do r <- rconcat (fun nu => remove_all_boxes (S (Z.to_nat (zsum nu))) (remove_box (Z.of_nat i')) nu) nus;
      do rest <- rpp_queue remove_box i' r; Ok (r ++ rest)
  end.

(* tableaux.py:628-636  remove_box(nu, i) of the horizontal strips; the shifted version (662-669) does not
   compare with lam and asks for strictly decreasing parts *)
Definition remove_box_row (strict : bool) (ok : list Z -> bool) (i : Z) (nu : list Z) : option (list Z) :=
  if (i <? zlen nu) && (0 <? nthz nu i) then
    let nu := trim (upd nu (Z.to_nat i) (nthz nu i - 1)) in
    if forallb (fun j => if strict then nthz nu (j + 1) <? nthz nu j else nthz nu (j + 1) <=? nthz nu j) (zrange 0 (zlen nu - 1)) && ok nu
    then Some nu else None
  else None.
(* tableaux.py:697-704  remove_box(nu, i) of the shifted vertical strips: the last row ending in column i *)
Definition remove_box_column (i : Z) (nu : list Z) : option (list Z) :=
  match find (fun j => j + nthz nu j =? i + 1) (rev (zrange 0 (zlen nu))) with
  | Some j => Some (trim (upd nu (Z.to_nat j) (nthz nu j - 1)))
  | None => None
  end.

Section RPP.
  Variable ord : list (list Z) -> list (list Z).
  Variable bord : list box -> list box.
  Variable tord : list tab -> list tab.

  (* tableaux.py:620-655  _rpp_horizontal_strips(mu, lam) *)
  Definition rpp_horizontal_strips (mu lam : list Z) : res (list (list Z * list box)) :=
    if zlist_eqb mu lam then Ok [(mu, [])]
    else if contains mu lam then
      do ans <- rpp_queue (remove_box_row false (fun nu => contains nu lam)) (length mu) [mu];
      Ok (map (fun nu => (nu, skew mu nu false)) (ord (sett ans)))
    else Ok [].
  (* tableaux.py:612-618  _rpp_vertical_strips(mu, lam) *)
  Definition rpp_vertical_strips (mu lam : list Z) : res (list (list Z * list box)) :=
    do strips <- rpp_horizontal_strips (transpose mu) (transpose lam);
    Ok (map (fun s => (transpose (fst s), map (fun c => (snd c, fst c)) (snd s))) strips).
  (* tableaux.py:657-689  _shifted_rpp_horizontal_strips(mu) *)
  Definition shifted_rpp_horizontal_strips (mu : list Z) : res (list (list Z * list box)) :=
    if negb (is_strict_partition mu) then Err AssertionError
    else match mu with
         | [] => Ok [([], [])]
         | _ => do ans <- rpp_queue (remove_box_row true (fun _ => true)) (length mu) [mu];
                Ok (map (fun nu => (nu, skew mu nu true)) (ord (sett ans)))
         end.
  (* tableaux.py:691-724  _shifted_rpp_vertical_strips(mu) *)
  Definition shifted_rpp_vertical_strips (mu : list Z) : res (list (list Z * list box)) :=
    if negb (is_strict_partition mu) then Err AssertionError
    else match mu with
         | [] => Ok [([], [])]
         | _ => do ans <- rpp_queue remove_box_column (Z.to_nat (nthz mu 0)) [mu];
                Ok (map (fun nu => (nu, skew mu nu true)) (ord (sett ans)))
         end.

  (* tableaux.py:858-873  semistandard_rpp(max_entry, mu, nu) *)
  Fixpoint semistandard_rpp (n : nat) (mu lam : list Z) : res (list tab) :=
    if zlist_eqb mu lam then Ok [[]]
    else match n with
         | O => Ok []
         | S n' =>
             if contains mu lam then
               do strips <- rpp_vertical_strips mu lam;
               do ans <- rconcat (fun s => match s with (nu, diff) =>
                 do tabs <- semistandard_rpp n' nu lam;
                 rmap (add_all (bord diff) (Z.of_nat n)) (tord tabs) end) strips;
               Ok (set_tab ans)
             else Ok []
         end.
  (* tableaux.py:875-900  semistandard_marked_rpp(max_entry, mu, nu, diagonal_nonprimes), also called
     semistandard_shifted_rpp *)
  Fixpoint semistandard_marked_rpp (n : nat) (mu lam : list Z) (diagonal_nonprimes : bool) : res (list tab) :=
    if negb (is_strict_partition mu) then Err AssertionError
    else if zlist_eqb mu lam then Ok [[]]
    else match n with
         | O => Ok []
         | S n' =>
             if contains mu lam then
               do strips1 <- shifted_rpp_horizontal_strips mu;
               do ans <- rconcat (fun s1 => match s1 with (nu1, diff1) =>
                 do strips2 <- shifted_rpp_vertical_strips nu1;
                 rconcat (fun s2 => match s2 with (nu2, diff2) =>
                   if diagonal_nonprimes || negb (existsb (fun c => fst c =? snd c) diff1) then
                     do tabs <- semistandard_marked_rpp n' nu2 lam diagonal_nonprimes;
                     rmap (fun t => do t1 <- add_all (bord diff1) (Z.of_nat n) t; add_all (bord diff2) (- Z.of_nat n) t1) (tord tabs)
                   else Ok [] end) strips2 end) strips1;
               Ok (set_tab ans)
             else Ok []
         end.

  (* partition and m > partition[-1] *)
  Definition rpp_skip (partition : list Z) (m : Z) : bool := match partition with [] => false | _ => last partition 0 <? m end.
  (* for partition, count in d.items(): if not (partition and m > partition[-1]): ans[partition + (m,)] += count *)
  Definition rpp_extend (m : Z) (d ans : cdict) : cdict :=
    fold_left (fun ans pc => if rpp_skip (fst pc) m then ans else cincr ans (fst pc ++ [m]) (snd pc)) d ans.

  (* tableaux.py:812-829  count_semistandard_rpp(max_entry, mu, nu) *)
  Fixpoint count_semistandard_rpp (n : nat) (mu lam : list Z) : res cdict :=
    if zlist_eqb mu lam then Ok [([], 1)]
    else match n with
         | O => Ok []
         | S n' =>
             if contains mu lam then
               do strips <- rpp_vertical_strips mu lam;
               rfold (fun ans s => match s with (nu, diff) =>
                 if zlist_eqb mu nu then Ok ans else
                 do d <- count_semistandard_rpp n' nu lam;
                 Ok (rpp_extend (distinct (map snd diff)) d ans) end) strips []
             else Ok []
         end.
  (* tableaux.py:831-852  count_semistandard_marked_rpp(max_entry, mu, nu, diagonal_nonprimes) *)
  Fixpoint count_semistandard_marked_rpp (n : nat) (mu lam : list Z) (diagonal_nonprimes : bool) : res cdict :=
    if negb (is_strict_partition mu) then Err AssertionError
    else if zlist_eqb mu lam then Ok [([], 1)]
    else match n with
         | O => Ok []
         | S n' =>
             if contains mu lam then
               do strips1 <- shifted_rpp_horizontal_strips mu;
               rfold (fun ans s1 => match s1 with (nu1, diff1) =>
                 if negb diagonal_nonprimes && existsb (fun c => fst c =? snd c) diff1 then Ok ans else
                 do strips2 <- shifted_rpp_vertical_strips nu1;
                 rfold (fun ans s2 => match s2 with (nu2, diff2) =>
                   if zlist_eqb mu nu2 then Ok ans else
                   do d <- count_semistandard_marked_rpp n' nu2 lam diagonal_nonprimes;
                   Ok (rpp_extend (distinct (map snd diff1) + distinct (map fst diff2)) d ans) end) strips2 ans end) strips1 []
             else Ok []
         end.
End RPP.

(* the entries of a tableau: (i, j, x) for x in v for i, j, v in self *)
Definition tentries (t : tab) : list (box * Z) := flat_map (fun cv => map (fun x => (fst cv, x)) (snd cv)) t.
(* tableaux.py:1276-1283  ReversePlanePartition.weight(n); an entry 0 or above n in absolute value indexes
   the wrong set: abs(x) - 1 = -1 is the last one, and an index above n - 1 is an IndexError *)
Definition rpp_weight (t : tab) (n : nat) : res (list Z) :=
  if forallb (fun e => Z.abs (snd e) <=? Z.of_nat n) (tentries t) && (negb (n =? 0)%nat || (zlen (tentries t) =? 0)) then
    Ok (map (fun m => distinct (map (fun e => snd (fst e))
      (filter (fun e => (if Z.abs (snd e) =? 0 then Z.of_nat n else Z.abs (snd e)) =? m) (tentries t)))) (zrange 1 (Z.of_nat n + 1)))
  else Err IndexError.
(* tableaux.py:1286-1300  MarkedReversePlanePartition.weight(n); the first bad entry in reading order decides
   between the assertion and the IndexError *)
Definition marked_rpp_weight (t : tab) (n : nat) : res (list Z) :=
  match find (fun e => (snd e =? 0) || (Z.of_nat n <? Z.abs (snd e))) (tentries t) with
  | Some e => Err (if snd e =? 0 then AssertionError else IndexError)
  | None =>
      Ok (map (fun m => distinct (map (fun e => snd (fst e)) (filter (fun e => snd e =? m) (tentries t)))
                        + distinct (map (fun e => fst (fst e)) (filter (fun e => snd e =? - m) (tentries t)))) (zrange 1 (Z.of_nat n + 1)))
  end.
