(* Model of the stable Grothendieck polynomials of permutations, permutations.py:533-537, 585-589,
   631-688, 793-814, 865-879.  A Permutation is its (stripped) oneline tuple, as in M_Perm.
   The number of variables n is a natural number.  The lru-style attributes _len, _rdes of a
   Permutation are not modelled. *)
From Coq Require Import List ZArith Bool.
From Verif Require Import PyBase FinSum M_Partitions M_Vectors M_Polynomials M_Symmetric M_Expansion M_Words M_Perm M_Levels.
Import ListNotations.
Local Open Scope Z_scope.

(* a for loop over a level generator that is not advanced elsewhere: next() until it is exhausted;
   the cache it leaves behind and the levels it yielded *)
Section Drain.
  Variables K L : Type.
  Variable next : hcache K L -> hlive K L -> hcache K L * hlive K L.
  Fixpoint hdrain (fuel : nat) (c : hcache K L) (x : hlive K L) : res (hcache K L * list L) :=
    let '(c', x') := next c x in
    match h_status x' with
    | HExhausted => Ok (c', h_out x')
    | HFailed e => Err e
    | HRunning => match fuel with O => Err OutOfFuel | S fuel' => hdrain fuel' c' x' end
    end.
End Drain.
(* a fresh generator; length_bound = -1 if length_bound is None *)
Definition hfresh {K L} (k : K) (length_bound : option Z) : hlive K L :=
  {| h_key := k; h_bound := match length_bound with None => -1 | Some b => b end; h_state := HInit; h_out := []; h_status := HRunning |}.

(* permutations.py:793-809  pair, neg; 874-879 the lengths *)
Definition ppair (w : list Z) : list (Z * Z) :=
  let n := zlen w in
  map (fun a => (a, pcall w a)) (filter (fun a => (0 <? Z.abs a) && (Z.abs a <? pcall w a)) (zrange (- n) (n + 1))).
Definition pnegs (w : list Z) : list (Z * Z) :=
  map (fun a => (- a, - a)) (filter (fun a => pcall w a =? - a) (zrange 1 (zlen w + 1))).
Definition involution_length (w : list Z) : res Z :=
  do l <- plen w; Ok ((zlen (pnegs w) + zlen (ppair w) + l) / 2).
Definition fpf_involution_length (w : list Z) : res Z :=
  do l <- involution_length w; Ok (l - zlen w / 2).

(* x > y on coefficients: ints, polynomials.py:195-197; int > Polynomial is Polynomial < int, 191-193 *)
Definition pone (z : Z) : poly := M_Polynomials.pmul (pmonomial 1 0) (pconst z).
Definition ngt (x y : num) : bool :=
  match x, y with
  | NI a, NI b => b <? a
  | NP p, NI b => pgt p (pone b)
  | NI a, NP q => plt q (pone a)
  | NP p, NP q => pgt p q
  end.
(* max(l) *)
Definition nmax (l : list num) : res num :=
  match l with [] => Err ValueError | a :: r => Ok (fold_left (fun m x => if ngt x m then x else m) r a) end.
(* x == y: polynomials.py:159-160 *)
Definition neqb (x y : num) : bool :=
  match x, y with
  | NP p, NP q => peqb p q
  | _, _ => nzero (nsub x y)
  end.

(* permutations.py:638-652  _symmetrize(vector, n) with check=True *)
Definition symmetrize (vector : nvec (list Z)) (n : nat) : res nsym :=
  let sort t := rev (sorted t) in
  do d <- rfold (fun d alpha =>
      do m <- smake n alpha;
      do v <- nmax (map (fun a => nget zlist_eqb vector a) (filter (fun a => zlist_eqb (sort a) (sort alpha)) (map fst vector)));
      Ok (dset smono_eqb d m v))
    (filter (fun alpha => zlist_eqb (sort alpha) alpha && (length alpha <=? n)%nat) (map fst vector)) [];
  let ans := vmake nzero d in
  (* the generator inside all() stops at the first false value *)
  do ok <- rfold (fun (ok : bool) alpha =>
      if ok then
        match dget zlist_eqb vector (sort alpha), dget zlist_eqb vector alpha with
        | Some x, Some y => Ok (neqb x y)
        | _, _ => Err KeyError
        end
      else Ok false)
    (filter (fun alpha => (length alpha <=? n)%nat) (map fst vector)) true;
  if ok then Ok ans else Err AssertionError.

Section PermGroth.
  Variable ord : wlevel -> wlevel.
  Variable pick : nat -> list Z -> Z.

  (* for level in levels: for pi, w in level: if self == pi: yield w *)
  Definition level_words (self : list Z) (levels : list wlevel) : list (list Z) :=
    flat_map (fun level => map snd (filter (fun x => peq self (fst x)) (ord level))) levels.

  (* permutations.py:533-537, 585-589, 631-635 *)
  Definition get_hecke_words (fuel : nat) (c : hcache hkey wlevel) (self : list Z) (length_bound ascent_bound : option Z) :=
    do r <- hdrain hkey wlevel (hnext hkey wlevel hkey_eqb hecke_start (hecke_expand ord pick) wempty) fuel c
              (hfresh (zlen self, ascent_bound) length_bound);
    Ok (fst r, level_words self (snd r)).
  Definition get_symplectic_hecke_words (fuel : nat) (c : hcache skey wlevel) (self : list Z) (length_bound ascent_bound : option Z) :=
    do r <- hdrain skey wlevel (hnext skey wlevel skey_eqb symplectic_start (symplectic_expand ord pick) wempty) fuel c
              (hfresh (zlen self, ascent_bound, true) length_bound);
    Ok (fst r, level_words self (snd r)).
  Definition get_involution_hecke_words (fuel : nat) (c : hcache skey wlevel) (self : list Z) (length_bound peak_bound : option Z) :=
    do r <- hdrain skey wlevel (hnext skey wlevel skey_eqb involution_start (involution_expand ord pick) wempty) fuel c
              (hfresh (zlen self, peak_bound, true) length_bound);
    Ok (fst r, level_words self (snd r)).

  (* the loops of lines 656-660, 665-669, 674-678, 683-687: the words are consumed one by one while the
     generator is being advanced; nothing in the loop body touches the level caches *)
  Definition word_total (zeta : list Z -> Z) (ell : Z) (words : list (list Z)) : res (nvec (list Z)) :=
    rfold (fun ans w =>
      do q <- quasisymmetrize w zeta;
      Ok (nvadd zlist_eqb ans (nvscale zlist_eqb (map (fun kc => (fst kc, NI (snd kc))) q) (NP (beta_pow (zlen w - ell)))))) words [].

  (* permutations.py:654-661 *)
  Definition perm_stable_grothendieck (fuel : nat) (c : hcache hkey wlevel) (self : list Z) (n : nat) (degree_bound : option Z) : res (hcache hkey wlevel * nsym) :=
    if is_unsigned self then
      do ell <- plen self;
      do r <- get_hecke_words fuel c self degree_bound (Some (Z.of_nat n));
      do ans <- word_total decreasing_zeta ell (snd r);
      do f <- symmetrize ans n; Ok (fst r, f)
    else Err AssertionError.
  (* permutations.py:663-670 *)
  Definition signed_involution_stable_grothendieck (fuel : nat) (c : hcache skey wlevel) (self : list Z) (n : nat) (degree_bound : option Z) : res (hcache skey wlevel * nsym) :=
    do b <- is_involution self;
    if b then
      do ell <- involution_length self;
      do r <- get_involution_hecke_words fuel c self degree_bound (Some (Z.of_nat n));
      do ans <- word_total unimodal_zeta ell (snd r);
      do f <- symmetrize ans n; Ok (fst r, f)
    else Err AssertionError.
  (* permutations.py:672-679 *)
  Definition symplectic_stable_grothendieck (fuel : nat) (c : hcache skey wlevel) (self : list Z) (n : nat) (degree_bound : option Z) : res (hcache skey wlevel * nsym) :=
    do b <- (if is_unsigned self then is_fpf_involution self else Ok false);
    if b then
      do ell <- fpf_involution_length self;
      do r <- get_symplectic_hecke_words fuel c self degree_bound (Some (Z.of_nat n));
      do ans <- word_total decreasing_zeta ell (snd r);
      do f <- symmetrize ans n; Ok (fst r, f)
    else Err AssertionError.
  (* permutations.py:681-688 *)
  Definition involution_stable_grothendieck (fuel : nat) (c : hcache skey wlevel) (self : list Z) (n : nat) (degree_bound : option Z) : res (hcache skey wlevel * nsym) :=
    do b <- is_involution self;
    if b && is_unsigned self then
      do ell <- involution_length self;
      do r <- get_involution_hecke_words fuel c self degree_bound (Some (Z.of_nat n));
      do ans <- word_total decreasing_zeta ell (snd r);
      do f <- symmetrize ans n; Ok (fst r, f)
    else Err AssertionError.
End PermGroth.
