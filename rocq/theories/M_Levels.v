(* Model of the word generators Permutation.hecke_levels, symplectic_hecke_levels and
   involution_hecke_levels (permutations.py:500-531, 546-583, 597-629) and of the caches
   HECKE_CACHE, SYMPLECTIC_HECKE_CACHE, ORTHOGONAL_HECKE_CACHE (lines 9-11) they share.

   A suspended generator is a record; advancing it runs the Python code up to the next yield.
   Several generators may be alive and be advanced in any order.
   A level (a set of pairs) is a duplicate-free list; [ord] is the order in which Python iterates
   over it.  Not modelled: callers that modify the level objects they are given. *)
From Coq Require Import List ZArith Bool.
From Verif Require Import PyBase M_Partitions M_Words M_Perm M_PermGen.
Import ListNotations.
Local Open Scope Z_scope.

Section Levels.
Variables K L : Type.
Variable keqb : K -> K -> bool.
Variable start : K -> res L.
Variable expand : K -> L -> res L.
Variable emptyb : L -> bool.

Definition hcache := list (K * list L).
(* cache[key], a defaultdict(list) *)
Definition hget (c : hcache) (k : K) : list L := match dget keqb c k with Some l => l | None => [] end.

(* where the inner generator generate() stands *)
Inductive hstate :=
| HInit                        (* not started *)
| HCached (rest : list L)      (* inside the loop over cache[key][:-1], [rest] still to come *)
| HGen (level : L).            (* suspended at "yield level" of the while loop *)

Inductive hstatus := HRunning | HExhausted | HFailed (e : exn).
Record hlive := { h_key : K; h_bound : Z; h_state : hstate; h_out : list L; h_status : hstatus }.

(* while level: ... yield level *)
Definition hlevel (level : L) : option (L * hstate) := if emptyb level then None else Some (level, HGen level).
(* the rest of generate() when [rest] levels of the snapshot remain *)
Definition hcached (c : hcache) (k : K) (rest : list L) : res (option (L * hstate)) :=
  match rest with
  | l :: rest' => Ok (Some (l, HCached rest'))
  | [] => match rev (hget c k) with
          | l :: _ => Ok (hlevel l)
          | [] => do l <- start k; Ok (hlevel l)
          end
  end.
(* next() on the inner generator *)
Definition hinner (c : hcache) (k : K) (s : hstate) : res (option (L * hstate)) :=
  match s with
  | HInit => hcached c k (removelast (hget c k))
  | HCached rest => hcached c k rest
  | HGen level => do nl <- expand k level; Ok (hlevel nl)
  end.

(* next() on the outer generator: the loop over enumerate(generate()) *)
Definition hnext (c : hcache) (x : hlive) : hcache * hlive :=
  let stop st := {| h_key := h_key x; h_bound := h_bound x; h_state := h_state x; h_out := h_out x; h_status := st |} in
  let resumed := match h_state x with HInit => false | _ => true end in
  if resumed && (h_bound x =? 0) then (c, stop HExhausted)
  else
    let bound := if resumed then h_bound x - 1 else h_bound x in
    match hinner c (h_key x) (h_state x) with
    | Err e => (c, stop (HFailed e))
    | Ok None => (c, stop HExhausted)
    | Ok (Some (level, s')) =>
        let cur := hget c (h_key x) in
        let c' := if zlen cur <=? zlen (h_out x) then dset keqb c (h_key x) (cur ++ [level]) else c in
        (c', {| h_key := h_key x; h_bound := bound; h_state := s'; h_out := h_out x ++ [level]; h_status := HRunning |})
    end.

(* A program: create generators and advance them in any order.  The bound is -1 for None. *)
Inductive haction := HStart (k : K) (bound : Z) | HNext (i : nat).
Record hsys := { h_cache : hcache; h_lives : list hlive }.
Fixpoint hset (l : list hlive) (i : nat) (x : hlive) : list hlive :=
  match l, i with
  | [], _ => []
  | _ :: l', O => x :: l'
  | a :: l', S i' => a :: hset l' i' x
  end.
Definition hstep (s : hsys) (a : haction) : hsys :=
  match a with
  | HStart k b => {| h_cache := h_cache s;
                     h_lives := h_lives s ++ [{| h_key := k; h_bound := b; h_state := HInit; h_out := []; h_status := HRunning |}] |}
  | HNext i =>
      match nth_error (h_lives s) i with
      | None => s
      | Some x => match h_status x with
                  | HRunning => let '(c', x') := hnext (h_cache s) x in {| h_cache := c'; h_lives := hset (h_lives s) i x' |}
                  | _ => s
                  end
      end
  end.
Definition hrun (h : list haction) : hsys := fold_left hstep h {| h_cache := []; h_lives := [] |}.
End Levels.
Arguments HStart {K}. Arguments HNext {K}.
Arguments h_key {K L}. Arguments h_bound {K L}. Arguments h_state {K L}. Arguments h_out {K L}. Arguments h_status {K L}.
Arguments h_cache {K L}. Arguments h_lives {K L}. Arguments HInit {L}. Arguments HCached {L}. Arguments HGen {L}.

(* ---- the three kinds of levels ---- *)
Section Words.
Variable ord : list (list Z * list Z) -> list (list Z * list Z).
Variable pick : nat -> list Z -> Z.

Definition wlevel := list (list Z * list Z).
Definition pair_eqb (x y : list Z * list Z) : bool := zlist_eqb (fst x) (fst y) && zlist_eqb (snd x) (snd y).
(* next_level.add(x) *)
Definition ladd (s : wlevel) (x : list Z * list Z) : wlevel := if existsb (pair_eqb x) s then s else s ++ [x].

(* u % v with recursion depth enough for v *)
Definition pmodf (u v : list Z) : res (list Z) := pmod pick (rfuel v) u v.

(* the double loop over the pairs of a level and the letters; [step pi i w] is the pair added, if any *)
Definition wexpand (letters : list Z) (step : list Z -> Z -> list Z -> res (option (list Z * list Z))) (level : wlevel) : res wlevel :=
  fold_left (fun acc '(pi, w) =>
      fold_left (fun acc i => do s <- acc; do r <- step pi i w; Ok (match r with Some x => ladd s x | None => s end)) letters acc)
    (ord level) (Ok []).

(* permutations.py:514-523 *)
Definition hecke_step (ascent_bound : option Z) (pi : list Z) (i : Z) (w : list Z) : res (option (list Z * list Z)) :=
  do s <- s_i i;
  do sigma <- pmodf pi s;
  let v := w ++ [i] in
  Ok (if match ascent_bound with None => true | Some b => ascents v <? b end then Some (sigma, v) else None).
Definition hkey := (Z * option Z)%type.
Definition hecke_start (k : hkey) : res wlevel := Ok [(pid, [])].
Definition hecke_expand (k : hkey) : wlevel -> res wlevel := wexpand (zrange 1 (fst k)) (hecke_step (snd k)).

(* permutations.py:557-575; the assertion n % 2 == 0 of line 548 is made at the first next() *)
Definition skey := (Z * option Z * bool)%type.
Definition symplectic_start (k : skey) : res wlevel :=
  let '(n, _, _) := k in
  if n mod 2 =? 0 then
    do a <- fold_left (fun a j => do a <- a; do s <- s_i (2 * j + 1); pmul a s) (zrange 0 (n / 2)) (Ok pid);
    Ok [(a, [])]
  else Err AssertionError.
Definition symplectic_step (ascent_bound : option Z) (hecke : bool) (pi : list Z) (i : Z) (w : list Z) : res (option (list Z * list Z)) :=
  do s <- s_i i;
  if negb (pcall pi i =? i + 1) then
    do t <- pmodf s pi; do sigma <- pmodf t s;
    let v := w ++ [i] in
    Ok (if match ascent_bound with None => true | Some b => ascents v <? b end
        then (if hecke || negb (peq sigma pi) then Some (sigma, v) else None) else None)
  else Ok None.
Definition symplectic_expand (k : skey) : wlevel -> res wlevel :=
  let '(n, b, hecke) := k in wexpand (zrange 1 n) (symplectic_step b hecke).

(* permutations.py:607-622 *)
Definition involution_start (k : skey) : res wlevel := Ok [(pid, [])].
Definition involution_step (peak_bound : option Z) (hecke : bool) (pi : list Z) (i : Z) (w : list Z) : res (option (list Z * list Z)) :=
  do s <- s_i i;
  do t <- pmodf s pi; do sigma <- pmodf t s;
  let v := w ++ [i] in
  do ok <- match peak_bound with None => Ok true | Some b => do p <- peaks (S (length v)) v; Ok (p <=? b) end;
  Ok (if ok then (if hecke || negb (peq sigma pi) then Some (sigma, v) else None) else None).
Definition involution_expand (k : skey) : wlevel -> res wlevel :=
  let '(n, b, hecke) := k in wexpand (zrange 0 n) (involution_step b hecke).
End Words.

Definition wempty (l : wlevel) : bool := match l with [] => true | _ => false end.
Definition optz_eqb (a b : option Z) : bool :=
  match a, b with None, None => true | Some x, Some y => x =? y | _, _ => false end.
Definition hkey_eqb (a b : hkey) : bool := (fst a =? fst b) && optz_eqb (snd a) (snd b).
Definition skey_eqb (a b : skey) : bool := hkey_eqb (fst a) (fst b) && Bool.eqb (snd a) (snd b).

Definition hecke_run ord pick := hrun hkey wlevel hkey_eqb hecke_start (hecke_expand ord pick) wempty.
Definition symplectic_run ord pick := hrun skey wlevel skey_eqb symplectic_start (symplectic_expand ord pick) wempty.
Definition involution_run ord pick := hrun skey wlevel skey_eqb involution_start (involution_expand ord pick) wempty.
