(* Model of tableaux.py, Tableau.shifted_setvalued_copieri.  The dict is an association list in insertion order; the set of
   tableaux is iterated in the order [tord]. *)
From Coq Require Import List ZArith Bool.
From Verif Require Import PyBase M_Partitions M_Tableaux M_Strips M_Semistandard.
Import ListNotations.
Local Open Scope Z_scope.

Section Copieri.
  Variable ord : list (list Z) -> list (list Z).
  Variable bord : list box -> list box.
  Variable tord : list tab -> list tab.
  (* tableaux.py:1058-1060  the inner loop: r = t.weight(n=1)[0]; ans[r] = ans.get(r, []) + [t] *)
  Definition copieri_add (ans : list (Z * list tab)) (t : tab) : res (list (Z * list tab)) :=
    do w <- tweight t (Some 1);
    match w with
    | r :: _ => Ok (dset Z.eqb ans r ((match dget Z.eqb ans r with Some l => l | None => [] end) ++ [t]))
    | [] => Err IndexError
    end.
  (* tableaux.py:1052-1061  shifted_setvalued_copieri(nu, lam, diagonal_primes), with semistandard_shifted_setvalued of
     tableaux.py:1226-1232; len(None) in Partition.contains is a TypeError *)
  Definition shifted_setvalued_copieri (nu lam : list Z) (diagonal_primes : bool) : res (list (Z * list tab)) :=
    do mus <- remove_shifted_inner_corners lam;
    rfold (fun ans omu =>
      match omu with
      | None => Err TypeError
      | Some mu =>
          do ts <- semistandard_shifted_marked ord bord tord 1 nu mu diagonal_primes true;
          rfold copieri_add (tord ts) ans
      end) mus [].
End Copieri.
