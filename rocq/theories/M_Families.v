(* Model of symmetric.py: the S, Q, P families, their K-theoretic versions, the doublebar
   combinations and the change of sign of beta.
   The caches are left out (see C01, C02). *)
From Coq Require Import List ZArith Bool.
From Verif Require Import PyBase M_Partitions M_Vectors M_Polynomials M_Tableaux M_Semistandard M_Symmetric M_Expansion M_Slow.
Import ListNotations.
Local Open Scope Z_scope.

Section Families.
  Variable ord : list (list Z) -> list (list Z).

  (* symmetric.py:275-282  schur_s(num_variables, mu, nu) *)
  Definition schur_s (n : nat) (mu nu : list Z) : res spoly :=
    do tableaux <- count_semistandard_marked ord n mu nu false; vectorize n tableaux.
  (* symmetric.py:284-291  schur_q(num_variables, mu, nu); diagonal_primes is True by default (tableaux.py:780) *)
  Definition schur_q (n : nat) (mu nu : list Z) : res spoly :=
    do tableaux <- count_semistandard_shifted_marked ord n mu nu true false; vectorize n tableaux.
  (* symmetric.py:293-300  schur_p(num_variables, mu, nu) *)
  Definition schur_p (n : nat) (mu nu : list Z) : res spoly :=
    do tableaux <- count_semistandard_shifted_marked ord n mu nu false false; vectorize n tableaux.

  (* BETA**(sum(nu) - sum(mu)) * cls._vectorize(num_variables, tableaux, BETA, degree_bound) *)
  Definition beta_vectorize (n : nat) (tableaux : cdict) (mu nu : list Z) (degree_bound : option Z) : res nsym :=
    do f <- nvectorize n tableaux beta_pow degree_bound;
    Ok (nvscale smono_eqb f (NP (beta_pow (zsum nu - zsum mu)))).
  (* symmetric.py:310-317  stable_grothendieck_s(num_variables, mu, nu, degree_bound) *)
  Definition stable_grothendieck_s (n : nat) (mu nu : list Z) (degree_bound : option Z) : res nsym :=
    do tableaux <- count_semistandard_marked ord n mu nu true; beta_vectorize n tableaux mu nu degree_bound.
  (* symmetric.py:327-334  stable_grothendieck_q(num_variables, mu, nu, degree_bound) *)
  Definition stable_grothendieck_q (n : nat) (mu nu : list Z) (degree_bound : option Z) : res nsym :=
    do tableaux <- count_semistandard_shifted_marked ord n mu nu true true; beta_vectorize n tableaux mu nu degree_bound.
  (* symmetric.py:344-351  stable_grothendieck_p(num_variables, mu, nu, degree_bound) *)
  Definition stable_grothendieck_p (n : nat) (mu nu : list Z) (degree_bound : option Z) : res nsym :=
    do tableaux <- count_semistandard_shifted_marked ord n mu nu false true; beta_vectorize n tableaux mu nu degree_bound.

  (* the loop of the doublebar functions: ans += BETA**(sum(nu) - sum(x)) * family(num_variables, mu, x, degree_bound);
     sum(None) is a TypeError *)
  Definition doublebar_loop (family : list Z -> res nsym) (nu : list Z) (xs : list (option (list Z))) : res nsym :=
    rfold (fun ans ox =>
      match ox with
      | Some x => do g <- family x; Ok (nvadd smono_eqb ans (nvscale smono_eqb g (NP (beta_pow (zsum nu - zsum x)))))
      | None => Err TypeError
      end) xs [].
  (* symmetric.py:353-359  stable_grothendieck_doublebar(num_variables, mu, nu, degree_bound) *)
  Definition stable_grothendieck_doublebar (n : nat) (mu nu : list Z) (degree_bound : option Z) : res nsym :=
    if contains mu nu then
      do xs <- remove_inner_corners nu;
      doublebar_loop (fun x => stable_grothendieck ord n mu x degree_bound) nu (map Some xs)
    else Ok [].
  (* symmetric.py:302-308  stable_grothendieck_s_doublebar(num_variables, mu, nu, degree_bound) *)
  Definition stable_grothendieck_s_doublebar (n : nat) (mu nu : list Z) (degree_bound : option Z) : res nsym :=
    if contains mu nu then
      do xs <- remove_inner_corners nu;
      doublebar_loop (fun x => stable_grothendieck_s n mu x degree_bound) nu (map Some xs)
    else Ok [].
  (* symmetric.py:319-325  stable_grothendieck_q_doublebar(num_variables, mu, nu, degree_bound) *)
  Definition stable_grothendieck_q_doublebar (n : nat) (mu nu : list Z) (degree_bound : option Z) : res nsym :=
    if contains mu nu then
      do xs <- remove_shifted_inner_corners nu;
      doublebar_loop (fun x => stable_grothendieck_q n mu x degree_bound) nu xs
    else Ok [].
  (* symmetric.py:336-342  stable_grothendieck_p_doublebar(num_variables, mu, nu, degree_bound) *)
  Definition stable_grothendieck_p_doublebar (n : nat) (mu nu : list Z) (degree_bound : option Z) : res nsym :=
    if contains mu nu then
      do xs <- remove_shifted_inner_corners nu;
      doublebar_loop (fun x => stable_grothendieck_p n mu x degree_bound) nu xs
    else Ok [].

  (* symmetric.py:370-373  negate_beta(ans): v.substitute(0, -BETA); an int has no such method *)
  Definition negate_beta (ans : nsym) : res nsym :=
    do d <- rmap (fun kv =>
      match snd kv with
      | NI _ => Err AttributeError
      | NP v => do v' <- psubstitute v 0 (pneg beta); Ok (fst kv, NP v')
      end) ans;
    Ok (vmake nzero d).
  (* symmetric.py:387-389  mn_stable_grothendieck(num_variables, mu, nu) *)
  Definition mn_stable_grothendieck (n : nat) (mu nu : list Z) : res nsym :=
    do g <- stable_grothendieck ord n mu nu None; negate_beta g.
  (* symmetric.py:391-393  mn_stable_grothendieck_p(num_variables, mu, nu) *)
  Definition mn_stable_grothendieck_p (n : nat) (mu nu : list Z) : res nsym :=
    do g <- stable_grothendieck_p n mu nu None; negate_beta g.
  (* symmetric.py:395-397  mn_stable_grothendieck_q(num_variables, mu, nu) *)
  Definition mn_stable_grothendieck_q (n : nat) (mu nu : list Z) : res nsym :=
    do g <- stable_grothendieck_q n mu nu None; negate_beta g.
End Families.

Section SlowFamilies.
  Variable ord : list (list Z) -> list (list Z).
  Variable bord : list (Z * Z) -> list (Z * Z).
  Variable tord : list tab -> list tab.

  (* symmetric.py:631-636  _slow_schur_q(num_variables, mu, nu) *)
  Definition slow_schur_q (n : nat) (mu nu : list Z) : res nsym :=
    do r <- semistandard_shifted_marked ord bord tord n mu nu true false; slow_vectorize n (tord r) None true.
  (* symmetric.py:638-643  _slow_schur_p(num_variables, mu, nu) *)
  Definition slow_schur_p (n : nat) (mu nu : list Z) : res nsym :=
    do r <- semistandard_shifted_marked ord bord tord n mu nu false false; slow_vectorize n (tord r) None true.
  (* symmetric.py:654-660  _slow_stable_grothendieck_q(num_variables, mu, nu) *)
  Definition slow_stable_grothendieck_q (n : nat) (mu nu : list Z) : res nsym :=
    do r <- semistandard_shifted_marked ord bord tord n mu nu true true;
    do f <- slow_vectorize n (tord r) (Some beta_pow) true;
    Ok (nvscale smono_eqb f (NP (beta_pow (zsum nu - zsum mu)))).
  (* symmetric.py:662-668  _slow_stable_grothendieck_p(num_variables, mu, nu) *)
  Definition slow_stable_grothendieck_p (n : nat) (mu nu : list Z) : res nsym :=
    do r <- semistandard_shifted_marked ord bord tord n mu nu false true;
    do f <- slow_vectorize n (tord r) (Some beta_pow) true;
    Ok (nvscale smono_eqb f (NP (beta_pow (zsum nu - zsum mu)))).
End SlowFamilies.
