(* Model of symmetric.py, the refined dual stable Grothendieck polynomials: marked reverse plane partitions grouped by their
   diagonal.  The dict is an association list in insertion order; the set of tableaux is iterated in the order [tord]. *)
From Coq Require Import List ZArith Bool.
From Verif Require Import PyBase M_Partitions M_Vectors M_Polynomials M_Tableaux M_RPP M_Semistandard M_Symmetric M_Expansion M_Slow M_Families M_Dual.
Import ListNotations.
Local Open Scope Z_scope.

(* symmetric.py:796-798  the loop of _diag_vector from the box (i, i); abs of a tuple is a TypeError.  [fuel] bounds the
   number of rounds *)
Fixpoint diag_loop (fuel : nat) (t : tab) (i : Z) : res (list Z) :=
  match tlookup t (i, i) with
  | None => Ok []
  | Some [x] => match fuel with O => Err OutOfFuel | S f => do r <- diag_loop f t (i + 1); Ok (Z.abs x :: r) end
  | Some _ => Err TypeError
  end.
(* symmetric.py:792-799  _diag_vector(rpp); each round uses another box *)
Definition diag_vector (t : tab) : res (list Z) := diag_loop (length t) t 1.

(* symmetric.py:804-805, 819-820  dictionary[cls._diag_vector(t)].append(t) for a defaultdict(list) *)
Definition group_diag (ts : list tab) : res (list (list Z * list tab)) :=
  rfold (fun d t => do v <- diag_vector t; Ok (dset zlist_eqb d v ((match dget zlist_eqb d v with Some l => l | None => [] end) ++ [t]))) ts [].

(* the truth value of a Vector is that of its length: vectors.py:127-128 *)
Definition nsym_falsy (f : nsym) : bool := match f with [] => true | _ => false end.

Section Refined.
  Variable ord : list (list Z) -> list (list Z).
  Variable bord : list box -> list box.
  Variable tord : list tab -> list tab.
  (* symmetric.py:801-814, 816-829  the common body: group by diagonal, vectorize each group without the check, keep the
     truthy values (vectors.py:6-7) *)
  Definition refined_dual (dnp : bool) (n : nat) (mu nu : list Z) : res (list (list Z * nsym)) :=
    do r <- semistandard_marked_rpp ord bord tord n mu nu dnp;
    do d <- group_diag (tord r);
    do m <- rmap (fun kv => do f <- slow_vectorize_by marked_rpp_weight n (snd kv) (Some neg_inv_beta_pow) false;
                            Ok (fst kv, nvscale smono_eqb f (NP (neg_beta_pow (zsum mu - zsum nu))))) d;
    Ok (filter (fun kv => negb (nsym_falsy (snd kv))) m).
  (* symmetric.py:801-814  _slow_refined_dual_stable_grothendieck_p(num_variables, mu, nu) *)
  Definition refined_dual_p : nat -> list Z -> list Z -> res (list (list Z * nsym)) := refined_dual false.
  (* symmetric.py:816-829  _slow_refined_dual_stable_grothendieck_q(num_variables, mu, nu) *)
  Definition refined_dual_q : nat -> list Z -> list Z -> res (list (list Z * nsym)) := refined_dual true.
End Refined.
