(* Model of symmetric.py: symmetric polynomials computed from the full sets of tableaux.
   [tord] is the iteration order of the set of tableaux. *)
From Coq Require Import List ZArith Bool.
From Verif Require Import PyBase M_Partitions M_Vectors M_Polynomials M_Tableaux M_Semistandard M_Symmetric M_Expansion.
Import ListNotations.
Local Open Scope Z_scope.

(* symmetric.py:612-614  dictionary[tab.weight(n)] += 1 for tab in tableaux *)
Definition slow_counts (n : nat) (tableaux : list tab) : res cdict :=
  rfold (fun d t => do w <- tweight t (Some (Z.of_nat n)); Ok (cincr d w 1)) tableaux [].

(* symmetric.py:616  all(dictionary[Partition.sort(alpha)] == dictionary[alpha] for alpha in dictionary).
   Looking up an absent key of the defaultdict inserts it with value 0 while the dictionary is being
   iterated; the counts are positive, so the comparison then fails and the iteration stops there. *)
Definition slow_check (d : cdict) : bool :=
  forallb (fun alpha => cget d (psort alpha false) =? cget d alpha) (map fst d).

(* coeff * (signs if signs else 1)**sum(alpha); signs is None or a nonzero Polynomial given by its powers *)
Definition slow_coeff (signs : option (Z -> poly)) (alpha : list Z) (coeff : Z) : num :=
  match signs with
  | None => NI (coeff * 1 ^ zsum alpha)
  | Some sgn => nmul (NI coeff) (NP (sgn (zsum alpha)))
  end.

(* symmetric.py:610-621  _slow_vectorize(n, tableaux, signs, check) *)
Definition slow_vectorize (n : nat) (tableaux : list tab) (signs : option (Z -> poly)) (check : bool) : res nsym :=
  do dictionary <- slow_counts n tableaux;
  if check && negb (slow_check dictionary) then Err AssertionError else
  do f <- rfold (fun f ac =>
    if is_partition (fst ac)
    then do m <- smake n (fst ac); Ok (dset smono_eqb f m (slow_coeff signs (fst ac) (snd ac)))
    else Ok f) dictionary [];
  Ok (vmake nzero f).

Section Slow.
  Variable ord : list (list Z) -> list (list Z).
  Variable bord : list (Z * Z) -> list (Z * Z).
  Variable tord : list tab -> list tab.

  (* symmetric.py:623-625  _slow_schur(num_variables, mu, nu) *)
  Definition slow_schur (n : nat) (mu nu : list Z) : res nsym :=
    do r <- semistandard ord bord tord n mu nu false; slow_vectorize n (tord r) None true.
  (* symmetric.py:627-629  _slow_schur_s(num_variables, mu, nu) *)
  Definition slow_schur_s (n : nat) (mu nu : list Z) : res nsym :=
    do r <- semistandard_marked ord bord tord n mu nu false; slow_vectorize n (tord r) None true.
  (* symmetric.py:670-676  _slow_stable_grothendieck(num_variables, mu, nu) *)
  Definition slow_stable_grothendieck (n : nat) (mu nu : list Z) : res nsym :=
    do r <- semistandard ord bord tord n mu nu true;
    do f <- slow_vectorize n (tord r) (Some beta_pow) true;
    Ok (nvscale smono_eqb f (NP (beta_pow (zsum nu - zsum mu)))).
  (* symmetric.py:646-652  _slow_stable_grothendieck_s(num_variables, mu, nu) *)
  Definition slow_stable_grothendieck_s (n : nat) (mu nu : list Z) : res nsym :=
    do r <- semistandard_marked ord bord tord n mu nu true;
    do f <- slow_vectorize n (tord r) (Some beta_pow) true;
    Ok (nvscale smono_eqb f (NP (beta_pow (zsum nu - zsum mu)))).
End Slow.
