(* Model of the transposed dual stable Grothendieck polynomials of symmetric.py and of the enumeration of
   valued-set tableaux in vst.py.  The caches are left out (see C01, C02).  Sets are duplicate-free lists
   iterated in the orders [ord], [bord], [tord] (arbitrary rearrangements). *)
From Coq Require Import List ZArith Bool.
From Verif Require Import PyBase M_Partitions M_Vectors M_Polynomials M_Tableaux M_Semistandard M_Symmetric M_Expansion M_Slow M_Families M_RPP M_Dual.
Import ListNotations.
Local Open Scope Z_scope.

(* the triples x, y, v[0] for x, y, v in tab; v[0] of an empty tuple is an IndexError *)
Definition theads (t : tab) : res (list (box * Z)) :=
  rmap (fun cv => match snd cv with [] => Err IndexError | v :: _ => Ok (fst cv, v) end) t.
Definition having (p : Z -> bool) (h : list (box * Z)) : list box := map fst (filter (fun e => p (snd e)) h).
(* symmetric.py:711-712  r and a - r; the cells of a tableau are distinct *)
Definition stat_plain (h : list (box * Z)) (i : Z) : Z * Z :=
  let r := distinct (map fst (having (Z.eqb i) h)) in
  let a := zlen (having (Z.eqb i) h) in (r, a - r).
(* symmetric.py:736-738, 770-772  r + c and a - r - c *)
Definition stat_marked (h : list (box * Z)) (i : Z) : Z * Z :=
  let r := distinct (map fst (having (Z.eqb i) h)) in
  let c := distinct (map snd (having (Z.eqb (- i)) h)) in
  let a := zlen (having (fun v => Z.abs v =? i) h) in (r + c, a - r - c).
(* symmetric.py:713-714  x**r * (x + 1)**e for x = Polynomial.x(i); Polynomial ** int is None for a negative
   power of a sum, and multiplying by None is a TypeError *)
Definition j_factor (i : Z) (re : Z * Z) : res poly :=
  match ppow (pmonomial i 1) (fst re), ppow (padd (pmonomial i 1) (pint 1)) (snd re) with
  | Some a, Some b => Ok (pmul a b)
  | _, _ => Err TypeError
  end.
(* symmetric.py:709-714, 734-740, 768-774  m = 1; for i in range(1, num_variables + 1): m *= ... *)
Definition j_monomial (stat : list (box * Z) -> Z -> Z * Z) (n : nat) (t : tab) : res num :=
  rfold (fun m i => do h <- theads t; do f <- j_factor i (stat h i); Ok (nmul m (NP f))) (zrange 1 (Z.of_nat n + 1)) (NI 1).
(* p += m *)
Definition plus_num (p : poly) (m : num) : poly := match m with NI a => padd p (pint a) | NP q => padd p q end.
(* symmetric.py:707-715, 732-741, 766-775 *)
Definition j_sum (stat : list (box * Z) -> Z -> Z * Z) (n : nat) (tableaux : list tab) : res poly :=
  rfold (fun p t => do m <- j_monomial stat n t; Ok (plus_num p m)) tableaux pzero.
(* tup[i - 1] = e[i]; a negative index counts from the end *)
Definition set_at (l : list Z) (k v : Z) : res (list Z) :=
  let k := if k <? 0 then k + zlen l else k in
  if (0 <=? k) && (k <? zlen l) then Ok (upd l (Z.to_nat k) v) else Err IndexError.
(* symmetric.py:716-721, 742-747, 776-781  dictionary of exponent tuples *)
Definition j_dictionary (n : nat) (p : poly) : res cdict :=
  rfold (fun d ec => do tup <- rfold (fun tup ie => set_at tup (fst ie - 1) (snd ie)) (fst ec) (repeat 0 n); Ok (dset zlist_eqb d tup (snd ec))) p [].

(* (-beta)**k and (-beta**-1)**k for beta = -BETA, where -beta**-1 is -(beta**-1) *)
Definition opp_pow (k : Z) : poly := match ppow (pneg (pneg beta)) k with Some q => q | None => [] end.
Definition opp_inv_pow (k : Z) : poly := match ppow (pneg (neg_beta_pow (-1))) k with Some q => q | None => [] end.

(* symmetric.py:706-726  the common body, given the tableaux *)
Definition transposed_dual (stat : list (box * Z) -> Z -> Z * Z) (n : nat) (tableaux : list tab) (mu nu : list Z) : res nsym :=
  do p <- j_sum stat n tableaux;
  do dictionary <- j_dictionary n p;
  do f <- rfold (fun f ac =>
    if is_partition (fst ac)
    then do m <- smake n (fst ac); Ok (dset smono_eqb f m (slow_coeff (Some opp_inv_pow) (fst ac) (snd ac)))
    else Ok f) dictionary [];
  Ok (nvscale smono_eqb (vmake nzero f) (NP (opp_pow (zsum mu - zsum nu)))).

Section Transposed.
  Variable ord : list (list Z) -> list (list Z).
  Variable bord : list (Z * Z) -> list (Z * Z).
  Variable tord : list tab -> list tab.

  (* symmetric.py:702-726  slow_transposed_dual_stable_grothendieck(num_variables, mu, nu), beta = -BETA *)
  Definition transposed_dual_stable_grothendieck (n : nat) (mu nu : list Z) : res nsym :=
    do r <- semistandard ord bord tord n mu nu false; transposed_dual stat_plain n (tord r) mu nu.
  (* symmetric.py:728-752  slow_transposed_dual_stable_grothendieck_p(num_variables, mu, nu), beta = -BETA *)
  Definition transposed_dual_stable_grothendieck_p (n : nat) (mu nu : list Z) : res nsym :=
    do r <- semistandard_shifted_marked ord bord tord n mu nu false false; transposed_dual stat_marked n (tord r) mu nu.
  (* symmetric.py:754-756, 766-786  slow_transposed_dual_stable_grothendieck_q(num_variables, mu, nu), beta = -BETA *)
  Definition transposed_dual_stable_grothendieck_q (n : nat) (mu nu : list Z) : res nsym :=
    do r <- semistandard_shifted_marked ord bord tord n mu nu true false; transposed_dual stat_marked n (tord r) mu nu.
  (* symmetric.py:758-764  slow_transposed_dual_stable_grothendieck_s(num_variables, mu, nu), beta = -BETA *)
  Definition transposed_dual_stable_grothendieck_s (n : nat) (mu nu : list Z) : res nsym :=
    let k := length mu in
    if (k =? 0)%nat || (0 <? nth (k - 1) mu 0)
    then transposed_dual_stable_grothendieck_q n (add_staircase k mu) (add_staircase k nu)
    else Err AssertionError.

  (* symmetric.py:527-529  j_expansion(f) *)
  Definition j_expansion : nat -> nsym -> res (nvec (list Z)) := expansion (fun n mu => transposed_dual_stable_grothendieck n mu []) term_from_highest_degree.
  (* symmetric.py:566-568  jp_expansion(f) *)
  Definition jp_expansion : nat -> nsym -> res (nvec (list Z)) := expansion (fun n mu => transposed_dual_stable_grothendieck_p n mu []) term_from_highest_degree.
  (* symmetric.py:570-572  jq_expansion(f) *)
  Definition jq_expansion : nat -> nsym -> res (nvec (list Z)) := expansion (fun n mu => transposed_dual_stable_grothendieck_q n mu []) term_from_highest_degree.
  (* symmetric.py:574-576  js_expansion(f) *)
  Definition js_expansion : nat -> nsym -> res (nvec (list Z)) := expansion (fun n mu => transposed_dual_stable_grothendieck_s n mu []) term_from_highest_degree.

  (* ---------- vst.py ---------- *)
  (* tab.get(i, j) == x for an int x *)
  Definition same_entry (t : tab) (c : box) (x : Z) : bool := match tget t c None true with Some (VInt y) => x =? y | _ => false end.
  (* vst.py:137-146  is_valid_position(tab, True, i, j); a tuple compared with 0 is a TypeError *)
  Definition valid_position (t : tab) (c : box) : res bool :=
    match tget t c None true with
    | None => Err AssertionError
    | Some (VTup _) => Err TypeError
    | Some (VInt x) => Ok (same_entry t (if 0 <? x then (fst c, snd c + 1) else (fst c - 1, snd c)) x)
    end.
  (* bool(grouping.get(i, j)) *)
  Definition truthy (g : tab) (c : box) : bool :=
    match tget g c None true with None => false | Some (VInt x) => negb (x =? 0) | Some (VTup l) => negb (zlen l =? 0) end.
  (* vst.py:148-152  ValuedSetTableau(entry_mapping, group_mapping) for two Tableau arguments *)
  Definition vst_init (t g : tab) : res (tab * tab) :=
    do ok <- rfold (fun (ok : bool) (cv : box * list Z) => if ok then (if truthy g (fst cv) then valid_position t (fst cv) else Ok true) else Ok false) t true;
    if ok then Ok (t, g) else Err AssertionError.
  (* vst.py:89-95  weight(n) *)
  Definition vst_weight (v : tab * tab) (n : nat) : res (list Z) :=
    rfold (fun ans cv =>
      if truthy (snd v) (fst cv) then Ok ans
      else match tget (fst v) (fst cv) None true with
           | Some (VInt x) => bump_at ans (Z.abs x - 1)
           | _ => Err TypeError
           end) (snd v) (repeat 0 n).
  (* vst.py:558-565  next_grp for the number v; [grp] lists the cells in order with their values *)
  Fixpoint next_grp (grp : list (box * bool)) (v : Z) : list (box * pyval) :=
    match grp with
    | [] => []
    | (c, true) :: rest => (c, VInt (v mod 2)) :: next_grp rest (v / 2)
    | (c, false) :: rest => (c, VInt 0) :: next_grp rest v
    end.
  (* vst.py:555-566  the valued-set tableaux with underlying tableau tab *)
  Definition vst_over (t : tab) : res (list (tab * tab)) :=
    do grp <- rmap (fun cv => do b <- valid_position t (fst cv); Ok (fst cv, b)) t;
    rmap (fun v => do g <- tinit (next_grp grp v); vst_init t g) (zrange 0 (2 ^ zlen (filter snd grp))).
  (* a set of valued-set tableaux *)
  Definition veqb (a b : tab * tab) : bool := teqb (fst a) (fst b) && teqb (snd a) (snd b).
  Fixpoint set_vst (l : list (tab * tab)) : list (tab * tab) :=
    match l with [] => [] | a :: r => if existsb (veqb a) r then set_vst r else a :: set_vst r end.
  (* vst.py:545-567  ValuedSetTableau.all(max_entry, mu, nu, diagonal_primes) *)
  Definition vst_all (n : nat) (mu nu : list Z) (diagonal_primes : bool) : res (list (tab * tab)) :=
    do tabs <- semistandard_shifted_marked ord bord tord n mu nu diagonal_primes false;
    do ans <- rconcat vst_over (tord tabs);
    Ok (set_vst ans).
End Transposed.
