(* Model of words.py, class Word (crystal operators, statistics, zeta functions,
   quasisymmetrize) and of crystals.py: WordCrystalGenerator.get_increasing_factorizations.
   Words are tuples of ints: [list Z]. The ASCII-art wiring diagrams (words.py:7-132) are not
   modelled. *)
From Coq Require Import List ZArith Bool.
From Verif Require Import PyBase FinSum M_Partitions M_Vectors.
Import ListNotations.
Local Open Scope Z_scope.

(* enumerate(w), from index j *)
Fixpoint wenum (j : Z) (w : list Z) : list (Z * Z) :=
  match w with [] => [] | a :: w' => (j, a) :: wenum (j + 1) w' end.

(* words.py:144-149  one pass of the inner for loop: the first adjacent pair with a > b is
   deleted and the loop breaks; None when there is no such pair *)
Fixpoint cancel1 (s : list (Z * Z)) : option (list (Z * Z)) :=
  match s with
  | [] => None
  | p :: t =>
      match t with
      | [] => None
      | q :: r =>
          if snd q <? snd p then Some r
          else match cancel1 t with Some t' => Some (p :: t') | None => None end
      end
  end.

(* words.py:141-149  while len(s) < ell: the loop goes on as long as a pass deleted a pair *)
Fixpoint cancel (fuel : nat) (s : list (Z * Z)) : res (list (Z * Z)) :=
  match cancel1 s with
  | None => Ok s
  | Some s' => match fuel with O => Err OutOfFuel | S f => cancel f s' end
  end.

(* words.py:140  [(j, a) for j, a in enumerate(w) if a in [i, i + 1]] *)
Definition crystal_letters (i : Z) (w : list Z) : list (Z * Z) :=
  filter (fun p => (snd p =? i) || (snd p =? i + 1)) (wenum 0 w).

(* words.py:140-155  position and replacement, on the concatenated word *)
Definition f_word (i : Z) (w : list Z) : res (option (list Z)) :=
  let s0 := crystal_letters i w in
  do s <- cancel (length s0) s0;
  let s := filter (fun p => snd p =? i) s in
  match rev s with
  | [] => Ok None
  | (j, _) :: _ =>
      if nthz w j =? i
      then Ok (Some (firstn (Z.to_nat j) w ++ (i + 1) :: skipn (Z.to_nat (j + 1)) w))
      else Err AssertionError
  end.

(* words.py:172-187 *)
Definition e_word (i : Z) (w : list Z) : res (option (list Z)) :=
  let s0 := crystal_letters i w in
  do s <- cancel (length s0) s0;
  let s := filter (fun p => snd p =? i + 1) s in
  match s with
  | [] => Ok None
  | (j, _) :: _ =>
      if nthz w j =? i + 1
      then Ok (Some (firstn (Z.to_nat j) w ++ i :: skipn (Z.to_nat (j + 1)) w))
      else Err AssertionError
  end.

(* words.py:160-164  cut w into blocks of the lengths of args *)
Fixpoint split_like (args : list (list Z)) (w : list Z) : list (list Z) :=
  match args with
  | [] => []
  | a :: args' => firstn (length a) w :: split_like args' (skipn (length a) w)
  end.

(* the three kinds of results: None, a word, a tuple of words *)
Inductive cres : Type := CNone | CWord (w : list Z) | CTuple (ws : list (list Z)).

(* words.py:157-164 / 189-196 *)
Definition crystal_result (args : list (list Z)) (unpack : bool) (r : option (list Z)) : cres :=
  match r with
  | None => CNone
  | Some w => if (Nat.leb (length args) 1) && unpack then CWord w else CTuple (split_like args w)
  end.

(* words.py:135-164  f_crystal_operator(i, *args, unpack=...) *)
Definition f_crystal_operator (i : Z) (args : list (list Z)) (unpack : bool) : res cres :=
  do r <- f_word i (concat args); Ok (crystal_result args unpack r).
(* words.py:167-196  e_crystal_operator *)
Definition e_crystal_operator (i : Z) (args : list (list Z)) (unpack : bool) : res cres :=
  do r <- e_word i (concat args); Ok (crystal_result args unpack r).

(* words.py:199-200; the set is the list of its elements in increasing order *)
Definition descent_set (v : list Z) : list Z :=
  map (fun i => i + 1) (filter (fun i => nthz v (i + 1) <? nthz v i) (zrange 0 (zlen v - 1))).
(* words.py:203-204 *)
Definition ascents (v : list Z) : Z :=
  zlen (filter (fun i => nthz v i <=? nthz v (i + 1)) (zrange 0 (zlen v - 1))).
(* words.py:207-209; the recursion is on a strictly shorter word *)
Fixpoint peaks (fuel : nat) (v : list Z) : res Z :=
  match filter (fun i => (nthz v (i - 1) <=? nthz v i) && (nthz v (i + 1) <=? nthz v i))
               (zrange 1 (zlen v - 1)) with
  | [] => Ok (match v with [] => 0 | _ => 1 end)
  | i :: _ =>
      match fuel with
      | O => Err OutOfFuel
      | S f => do r <- peaks f (skipn (Z.to_nat (i + 1)) v); Ok (1 + r)
      end
  end.

(* words.py:212-225 *)
Definition all_adjacent (rel : Z -> Z -> bool) (w : list Z) : bool :=
  forallb (fun i => rel (nthz w i) (nthz w (i + 1))) (zrange 0 (zlen w - 1)).
Definition b2z (b : bool) : Z := if b then 1 else 0.
Definition increasing_zeta (w : list Z) : Z := b2z (all_adjacent Z.ltb w).
Definition decreasing_zeta (w : list Z) : Z := b2z (all_adjacent Z.gtb w).
Definition weakly_increasing_zeta (w : list Z) : Z := b2z (all_adjacent Z.leb w).
Definition weakly_decreasing_zeta (w : list Z) : Z := b2z (all_adjacent Z.geb w).

(* words.py:228-241 *)
Definition split_zeta (z1 z2 : list Z -> Z) (w : list Z) : Z :=
  zsum (map (fun i => z1 (firstn (Z.to_nat i) w) * z2 (skipn (Z.to_nat i) w)) (zrange 0 (zlen w + 1))).
Definition unimodal_zeta := split_zeta decreasing_zeta increasing_zeta.
Definition right_weakly_unimodal_zeta := split_zeta decreasing_zeta weakly_increasing_zeta.
Definition left_weakly_unimodal_zeta := split_zeta weakly_decreasing_zeta increasing_zeta.
Definition weakly_unimodal_zeta := split_zeta weakly_decreasing_zeta weakly_increasing_zeta.

(* words.py:244-256  quasisymmetrize(word, zeta); keys are tuples of ints *)
Definition wvec : Type := list (list Z * Z).
Definition qget (d : wvec) (k : list Z) : Z := dget0 0 zlist_eqb d k.
Definition qmake (d : wvec) : wvec := vmake (fun x => x =? 0) d.
Fixpoint quasisymmetrize_ (fuel : nat) (zeta : list Z -> Z) (w : list Z) : res wvec :=
  match w with
  | [] => Ok (qmake [([], 1)])
  | _ =>
      match fuel with
      | O => Err OutOfFuel
      | S f =>
          do ans <- fold_left (fun (acc : res wvec) (i : Z) =>
            do ans <- acc;
            let pre := firstn (Z.to_nat i) w in
            let sub := skipn (Z.to_nat i) w in
            let z := zeta pre in
            if z =? 0 then Ok ans
            else
              do q <- quasisymmetrize_ f zeta sub;
              Ok (fold_left (fun (ans : wvec) (kv : list Z * Z) =>
                    dset zlist_eqb ans (i :: fst kv) (qget ans (i :: fst kv) + z * snd kv)) q ans))
            (zrange 1 (zlen w + 1)) (Ok []);
          Ok (qmake (filter (fun kv => negb (snd kv =? 0)) ans))
      end
  end.
Definition quasisymmetrize (w : list Z) (zeta : list Z -> Z) : res wvec :=
  quasisymmetrize_ (length w) zeta w.

(* crystals.py:409-429  get_increasing_factorizations(w, k, decreasing), k >= 0.
   The for loop with break is a recursion over the cut positions, stopping at the first
   prefix that is not increasing. *)
Definition is_increasing (decreasing : bool) (x : list Z) : bool :=
  forallb (fun i => if decreasing then nthz x i <? nthz x (i - 1) else nthz x (i - 1) <=? nthz x i)
          (zrange 1 (zlen x)).
Fixpoint for_break {A} (ok : Z -> bool) (body : Z -> list A) (is_ : list Z) : list A :=
  match is_ with
  | [] => []
  | i :: r => if ok i then body i ++ for_break ok body r else []
  end.
Fixpoint get_increasing_factorizations (w : list Z) (k : nat) (decreasing : bool) {struct k}
  : list (list (list Z)) :=
  match k with
  | O => match w with [] => [[]] | _ => [] end
  | S k' =>
      match w with
      | [] => [repeat [] k]
      | _ =>
          for_break (fun i => is_increasing decreasing (firstn (Z.to_nat i) w))
            (fun i => map (fun tup => firstn (Z.to_nat i) w :: tup)
                          (get_increasing_factorizations (skipn (Z.to_nat i) w) k' decreasing))
            (zrange 0 (zlen w + 1))
      end
  end.
