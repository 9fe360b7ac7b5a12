(* Model of the strip enumerators of tableaux.py.
   Python sets of tuples are duplicate-free lists.  The order in which Python iterates over a set
   is not specified: it is the parameter [ord], an arbitrary rearrangement.
   Memoisation (cached_value) is not modelled here: see M_CountCache.v. *)
From Coq Require Import List ZArith Bool.
From Verif Require Import PyBase M_Partitions.
Import ListNotations.
Local Open Scope Z_scope.

(* a set of tuples as a duplicate-free list *)
Fixpoint memt (x : list Z) (s : list (list Z)) : bool :=
  match s with [] => false | y :: s' => zlist_eqb x y || memt x s' end.
Fixpoint sett (l : list (list Z)) : list (list Z) :=
  match l with [] => [] | x :: l' => let s := sett l' in if memt x s then s else x :: s end.

(* one strip: the smaller shape, the cells removed, the cells that may be doubled *)
Definition strip := (list Z * list (Z * Z) * list (Z * Z))%type.

Section Strips.
  Variable ord : list (list Z) -> list (list Z).

  (* the while loop shared by the three enumerators, e.g. tableaux.py:528-541.
     [fuel] bounds the number of levels; running out is reported as an error *)
  Fixpoint levels (fuel : nat) (emit : list Z -> strip) (step : list (list Z) -> list (list Z)) (level : list (list Z))
    : res (list strip) :=
    match level with
    | [] => Ok []
    | _ =>
        match fuel with
        | O => Err OutOfFuel
        | S f => do r <- levels f emit step (step level); Ok (map emit (ord level) ++ r)
        end
    end.

  (* {nu[:i] + (nu[i] + 1,) + nu[i + 1:] for i in range(len(mu)) for nu in level if ok nu i} *)
  Definition raise_level (mu : list Z) (ok : list Z -> Z -> bool) (level : list (list Z)) : list (list Z) :=
    sett (flat_map (fun i => map (fun nu => upd nu (Z.to_nat i) (nthz nu i + 1)) (filter (fun nu => ok nu i) level))
                   (zrange 0 (zlen mu))).

  (* nu if nu and nu[-1] > 0 else nu[:-1] *)
  Definition chop (nu : list Z) : list Z :=
    match nu with [] => [] | _ => if 0 <? last nu 0 then nu else removelast nu end.

  (* for i in range(len(lam)): core[i] = max(core[i], lam[i]); core[i] out of range is an IndexError *)
  Definition core_max (core lam : list Z) : res (list Z) :=
    if zlen core <? zlen lam then Err IndexError
    else Ok (map (fun i => if i <? zlen lam then Z.max (nthz core i) (nthz lam i) else nthz core i) (zrange 0 (zlen core))).

  (* {(i + 1, j + 1) for i in range(len(mu)) for j in range(nu[i], mu[i])}, columns shifted by i *)
  Definition strip_diff (shifted : bool) (mu nu : list Z) : list (Z * Z) :=
    flat_map (fun i => map (fun j => (i + 1, (if shifted then i else 0) + j + 1)) (zrange (nthz nu i) (nthz mu i)))
             (zrange 0 (zlen mu)).

  (* tableaux.py:518-542  _horizontal_strips *)
  Definition horizontal_strips (mu lam : list Z) : res (list strip) :=
    if contains mu lam then
      do core <- core_max (map (fun i => if i + 1 <? zlen mu then nthz mu (i + 1) else 0) (zrange 0 (zlen mu))) lam;
      levels (S (Z.to_nat (zsum mu - zsum core)))
        (fun nu => let diff := strip_diff false mu nu in
                   let nu := chop nu in
                   (nu, diff, map (fun i => (i + 1, nthz nu i)) (filter (fun i => nthz core i <? nthz nu i) (zrange 0 (zlen nu)))))
        (raise_level mu (fun nu i => nthz nu i <? nthz mu i)) [core]
    else Ok [].

  (* tableaux.py:544-553  _vertical_strips *)
  Definition vertical_strips (mu lam : list Z) : res (list strip) :=
    do strips <- horizontal_strips (transpose mu) (transpose lam);
    Ok (map (fun s => match s with (nu, diff, corners) =>
               (transpose nu, map (fun c => (snd c, fst c)) diff, map (fun c => (snd c, fst c)) corners) end) strips).

  (* tableaux.py:555-580  _shifted_horizontal_strips *)
  Definition shifted_horizontal_strips (mu lam : list Z) : res (list strip) :=
    if is_strict_partition mu then
      if contains mu lam then
        do core <- core_max (map (fun i => if i + 1 <? zlen mu then nthz mu (i + 1) + 1 else 0) (zrange 0 (zlen mu))) lam;
        levels (S (Z.to_nat (zsum mu - zsum core)))
          (fun nu => let diff := strip_diff true mu nu in
                     let nu := chop nu in
                     (nu, diff, map (fun i => (i + 1, i + nthz nu i)) (filter (fun i => nthz core i <? nthz nu i) (zrange 0 (zlen nu)))))
          (raise_level mu (fun nu i => nthz nu i <? nthz mu i)) [core]
      else Ok []
    else Err AssertionError.

  (* tableaux.py:582-610  _shifted_vertical_strips *)
  Definition shifted_vertical_strips (mu lam : list Z) : res (list strip) :=
    if is_strict_partition mu then
      if contains mu lam then
        do core <- core_max (map (fun a => a - 1) mu) lam;
        levels (S (Z.to_nat (zsum mu - zsum core)))
          (fun nu => let diff := strip_diff true mu nu in
                     let nu := chop nu in
                     (nu, diff, map (fun i => (i + 1, i + nthz nu i))
                       (filter (fun i => (nthz core i <? nthz nu i) && ((i =? zlen nu - 1) || (1 + nthz nu (i + 1) <? nthz nu i)))
                               (zrange 0 (zlen nu)))))
          (raise_level mu (fun nu i => (nthz nu i <? nthz mu i) && ((i =? 0) || (1 + nthz nu i <? nthz nu (i - 1))))) [core]
      else Ok []
    else Err AssertionError.
End Strips.
