(* Model of symmetric.py: expansions in the P, Q, S families and their K-theoretic versions *)
From Coq Require Import List ZArith Bool.
From Verif Require Import PyBase M_Partitions M_Vectors M_Polynomials M_Tableaux M_Semistandard M_Symmetric M_Expansion M_Slow M_Families.
Import ListNotations.
Local Open Scope Z_scope.

(* ints as coefficients *)
Definition int_coefficients (f : spoly) : nsym := map (fun mc => (fst mc, NI (snd mc))) f.

Section Expansions.
  Variable ord : list (list Z) -> list (list Z).

  (* symmetric.py:275-300  the functions passed to _expansion, nu = () *)
  Definition schur_s_num (n : nat) (mu : list Z) : res nsym := do f <- schur_s ord n mu []; Ok (int_coefficients f).
  Definition schur_q_num (n : nat) (mu : list Z) : res nsym := do f <- schur_q ord n mu []; Ok (int_coefficients f).
  Definition schur_p_num (n : nat) (mu : list Z) : res nsym := do f <- schur_p ord n mu []; Ok (int_coefficients f).

  (* symmetric.py:586-588  P_expansion(f) *)
  Definition P_expansion : nat -> nsym -> res (nvec (list Z)) := expansion schur_p_num term_from_lowest_degree.
  (* symmetric.py:602-604  Q_expansion(f) *)
  Definition Q_expansion : nat -> nsym -> res (nvec (list Z)) := expansion schur_q_num term_from_lowest_degree.
  (* symmetric.py:606-608  S_expansion(f) *)
  Definition S_expansion : nat -> nsym -> res (nvec (list Z)) := expansion schur_s_num term_from_lowest_degree.
  (* symmetric.py:578-580  GP_expansion(f) *)
  Definition GP_expansion : nat -> nsym -> res (nvec (list Z)) := expansion (fun n mu => stable_grothendieck_p ord n mu [] None) term_from_lowest_degree.
  (* symmetric.py:590-592  GQ_expansion(f) *)
  Definition GQ_expansion : nat -> nsym -> res (nvec (list Z)) := expansion (fun n mu => stable_grothendieck_q ord n mu [] None) term_from_lowest_degree.
  (* symmetric.py:594-596  GS_expansion(f) *)
  Definition GS_expansion : nat -> nsym -> res (nvec (list Z)) := expansion (fun n mu => stable_grothendieck_s ord n mu [] None) term_from_lowest_degree.
  (* symmetric.py:515-517  mn_grothendieck_expansion(f) *)
  Definition mn_grothendieck_expansion : nat -> nsym -> res (nvec (list Z)) := expansion (fun n mu => mn_stable_grothendieck ord n mu []) term_from_lowest_degree.
  (* symmetric.py:582-584  mn_GP_expansion(f) *)
  Definition mn_GP_expansion : nat -> nsym -> res (nvec (list Z)) := expansion (fun n mu => mn_stable_grothendieck_p ord n mu []) term_from_lowest_degree.
  (* symmetric.py:598-600  mn_GQ_expansion(f) *)
  Definition mn_GQ_expansion : nat -> nsym -> res (nvec (list Z)) := expansion (fun n mu => mn_stable_grothendieck_q ord n mu []) term_from_lowest_degree.
  (* symmetric.py:504-509  omega_schur_expansion(f); a later equal key of the dict comprehension wins *)
  Definition omega_schur_expansion (fuel : nat) (f : nsym) : res (nvec (list Z)) :=
    do v <- schur_expansion ord fuel f;
    Ok (vmake nzero (fold_left (fun d xy => dset zlist_eqb d (transpose (fst xy)) (snd xy)) v [])).
End Expansions.
