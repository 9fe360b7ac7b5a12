(* Model of symmetric.py: the dual stable Grothendieck families, their slow versions, the versions with
   the sign of beta changed, and the expansions in them.  The caches are left out (see C01, C02). *)
From Coq Require Import List ZArith Bool.
From Verif Require Import PyBase M_Partitions M_Vectors M_Polynomials M_Tableaux M_Semistandard M_Symmetric M_Expansion M_Slow M_Families M_RPP.
Import ListNotations.
Local Open Scope Z_scope.

(* (-BETA)**k and (-BETA**-1)**k, where -BETA**-1 is -(BETA**-1); powers of a single term with
   coefficient -1 are never Python's None *)
Definition neg_beta_pow (k : Z) : poly := match ppow (pneg beta) k with Some q => q | None => [] end.
Definition neg_inv_beta_pow (k : Z) : poly := match ppow (pneg (beta_pow (-1))) k with Some q => q | None => [] end.

Section Dual.
  Variable ord : list (list Z) -> list (list Z).

  (* (-BETA)**(sum(mu) - sum(nu)) * cls._vectorize(num_variables, tableaux, -BETA**-1) *)
  Definition dual_vectorize (n : nat) (tableaux : cdict) (mu nu : list Z) : res nsym :=
    do f <- nvectorize n tableaux neg_inv_beta_pow None;
    Ok (nvscale smono_eqb f (NP (neg_beta_pow (zsum mu - zsum nu)))).
  (* symmetric.py:399-406  dual_stable_grothendieck(num_variables, mu, nu) *)
  Definition dual_stable_grothendieck (n : nat) (mu nu : list Z) : res nsym :=
    do tableaux <- count_semistandard_rpp ord n mu nu; dual_vectorize n tableaux mu nu.
  (* symmetric.py:408-415  dual_stable_grothendieck_p(num_variables, mu, nu) *)
  Definition dual_stable_grothendieck_p (n : nat) (mu nu : list Z) : res nsym :=
    do tableaux <- count_semistandard_marked_rpp ord n mu nu false; dual_vectorize n tableaux mu nu.
  (* symmetric.py:417-419, 429-432  dual_stable_grothendieck_q(num_variables, mu, nu) *)
  Definition dual_stable_grothendieck_q (n : nat) (mu nu : list Z) : res nsym :=
    do tableaux <- count_semistandard_marked_rpp ord n mu nu true; dual_vectorize n tableaux mu nu.
  (* symmetric.py:421-427  dual_stable_grothendieck_s(num_variables, mu, nu); [k] is the length of mu *)
  Definition add_staircase (k : nat) (mu : list Z) : list Z :=
    map (fun i => (if (i <? length mu)%nat then nth i mu 0 else 0) + Z.of_nat k - Z.of_nat i) (seq 0 k).
  Definition dual_stable_grothendieck_s (n : nat) (mu nu : list Z) : res nsym :=
    let k := length mu in
    if (k =? 0)%nat || (0 <? nth (k - 1) mu 0)
    then dual_stable_grothendieck_q n (add_staircase k mu) (add_staircase k nu)
    else Err AssertionError.
  (* symmetric.py:375-377  mp_dual_stable_grothendieck(num_variables, mu, nu) *)
  Definition mp_dual_stable_grothendieck (n : nat) (mu nu : list Z) : res nsym :=
    do g <- dual_stable_grothendieck n mu nu; negate_beta g.
  (* symmetric.py:379-381  mp_dual_stable_grothendieck_p(num_variables, mu, nu) *)
  Definition mp_dual_stable_grothendieck_p (n : nat) (mu nu : list Z) : res nsym :=
    do g <- dual_stable_grothendieck_p n mu nu; negate_beta g.
  (* symmetric.py:383-385  mp_dual_stable_grothendieck_q(num_variables, mu, nu) *)
  Definition mp_dual_stable_grothendieck_q (n : nat) (mu nu : list Z) : res nsym :=
    do g <- dual_stable_grothendieck_q n mu nu; negate_beta g.

  (* symmetric.py:519-521  dual_grothendieck_expansion(f) *)
  Definition dual_grothendieck_expansion : nat -> nsym -> res (nvec (list Z)) := expansion (fun n mu => dual_stable_grothendieck n mu []) term_from_highest_degree.
  (* symmetric.py:523-525  mp_dual_grothendieck_expansion(f) *)
  Definition mp_dual_grothendieck_expansion : nat -> nsym -> res (nvec (list Z)) := expansion (fun n mu => mp_dual_stable_grothendieck n mu []) term_from_highest_degree.
  (* symmetric.py:546-548  gp_expansion(f) *)
  Definition gp_expansion : nat -> nsym -> res (nvec (list Z)) := expansion (fun n mu => dual_stable_grothendieck_p n mu []) term_from_highest_degree.
  (* symmetric.py:550-552  gq_expansion(f) *)
  Definition gq_expansion : nat -> nsym -> res (nvec (list Z)) := expansion (fun n mu => dual_stable_grothendieck_q n mu []) term_from_highest_degree.
  (* symmetric.py:554-556  gs_expansion(f) *)
  Definition gs_expansion : nat -> nsym -> res (nvec (list Z)) := expansion (fun n mu => dual_stable_grothendieck_s n mu []) term_from_highest_degree.
  (* symmetric.py:558-560  mp_gp_expansion(f) *)
  Definition mp_gp_expansion : nat -> nsym -> res (nvec (list Z)) := expansion (fun n mu => mp_dual_stable_grothendieck_p n mu []) term_from_highest_degree.
  (* symmetric.py:562-564  mp_gq_expansion(f) *)
  Definition mp_gq_expansion : nat -> nsym -> res (nvec (list Z)) := expansion (fun n mu => mp_dual_stable_grothendieck_q n mu []) term_from_highest_degree.
End Dual.

(* symmetric.py:610-621  _slow_vectorize(n, tableaux, signs, check) on tableaux of a class with its own weight method *)
Definition slow_counts_by (weight : tab -> nat -> res (list Z)) (n : nat) (tableaux : list tab) : res cdict :=
  rfold (fun d t => do w <- weight t n; Ok (cincr d w 1)) tableaux [].
Definition slow_vectorize_by (weight : tab -> nat -> res (list Z)) (n : nat) (tableaux : list tab) (signs : option (Z -> poly)) (check : bool) : res nsym :=
  do dictionary <- slow_counts_by weight n tableaux;
  if check && negb (slow_check dictionary) then Err AssertionError else
  do f <- rfold (fun f ac =>
    if is_partition (fst ac)
    then do m <- smake n (fst ac); Ok (dset smono_eqb f m (slow_coeff signs (fst ac) (snd ac)))
    else Ok f) dictionary [];
  Ok (vmake nzero f).

Section SlowDual.
  Variable ord : list (list Z) -> list (list Z).
  Variable bord : list (Z * Z) -> list (Z * Z).
  Variable tord : list tab -> list tab.

  (* symmetric.py:678-684  _slow_dual_stable_grothendieck(num_variables, mu, nu) *)
  Definition slow_dual_stable_grothendieck (n : nat) (mu nu : list Z) : res nsym :=
    do r <- semistandard_rpp ord bord tord n mu nu;
    do f <- slow_vectorize_by rpp_weight n (tord r) (Some neg_inv_beta_pow) true;
    Ok (nvscale smono_eqb f (NP (neg_beta_pow (zsum mu - zsum nu)))).
  (* symmetric.py:686-692  _slow_dual_stable_grothendieck_p(num_variables, mu, nu) *)
  Definition slow_dual_stable_grothendieck_p (n : nat) (mu nu : list Z) : res nsym :=
    do r <- semistandard_marked_rpp ord bord tord n mu nu false;
    do f <- slow_vectorize_by marked_rpp_weight n (tord r) (Some neg_inv_beta_pow) true;
    Ok (nvscale smono_eqb f (NP (neg_beta_pow (zsum mu - zsum nu)))).
  (* symmetric.py:694-700  _slow_dual_stable_grothendieck_q(num_variables, mu, nu) *)
  Definition slow_dual_stable_grothendieck_q (n : nat) (mu nu : list Z) : res nsym :=
    do r <- semistandard_marked_rpp ord bord tord n mu nu true;
    do f <- slow_vectorize_by marked_rpp_weight n (tord r) (Some neg_inv_beta_pow) true;
    Ok (nvscale smono_eqb f (NP (neg_beta_pow (zsum mu - zsum nu)))).
End SlowDual.
