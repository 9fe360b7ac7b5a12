(* Model of tableaux.py, Tableau.from_shifted_growth_diagram *)
From Coq Require Import List ZArith Bool.
From Verif Require Import PyBase M_Partitions M_Tableaux.
Import ListNotations.
Local Open Scope Z_scope.

(* t[i][j] for indices that are not negative *)
Definition at2 {A} (t : list (list A)) (i j : Z) : res A :=
  match nth_error t (Z.to_nat i) with
  | None => Err IndexError
  | Some r => match nth_error r (Z.to_nat j) with None => Err IndexError | Some x => Ok x end
  end.

Section FromGrowth.
  (* the iteration order of a set of positions *)
  Variable bord : list (Z * Z) -> list (Z * Z).

  (* tableaux.py:1254-1257  one round of the first loop *)
  Definition fsg_p (growth : list (list (list Z))) (m : Z) (p : tab) (i : Z) : res tab :=
    do mu <- at2 growth i m;
    do nu <- at2 growth (i - 1) m;
    rfold (fun p (ab : Z * Z) => tadd p (fst ab) (snd ab) (VInt i)) (bord (skew mu nu true)) p.
  (* tableaux.py:1259-1271  one round of the second loop.  next(iter(...)) of an empty set raises StopIteration
     (GenericException here); comparing None with 0 in add raises TypeError *)
  Definition fsg_q (growth : list (list (list Z))) (edges : list (list bool)) (corners : list (list (option Z))) (n : Z) (q : tab) (i : Z) : res tab :=
    do mu <- at2 growth n i;
    do nu <- at2 growth n (i - 1);
    do e <- at2 edges n i;
    let v := if e : bool then - i else i in
    do c <- at2 corners n i;
    if negb (zlist_eqb mu nu) then
      match bord (skew mu nu true) with
      | [] => Err GenericException
      | (a, b) :: _ => tadd q a b (VInt v)
      end
    else
      match c with
      | None => Err TypeError
      | Some j =>
          if v <? 0 then match last_box_in_column q j with None => Err TypeError | Some x => tadd q x j (VInt v) end
          else match last_box_in_row q j with None => Err TypeError | Some x => tadd q j x (VInt v) end
      end.
  (* tableaux.py:1246-1273  from_shifted_growth_diagram(growth, edges, corners).  A first row without entries would make the
     column index -1; that case is an IndexError here *)
  Definition from_shifted_growth_diagram (growth : list (list (list Z))) (edges : list (list bool)) (corners : list (list (option Z))) : res (tab * tab) :=
    let n := zlen growth - 1 in
    let m := match growth with [] => 0 | r :: _ => zlen r - 1 end in
    do p <- rfold (fsg_p growth m) (zrange 1 (n + 1)) [];
    do q <- rfold (fsg_q growth edges corners n) (zrange 1 (m + 1)) [];
    Ok (p, q).
End FromGrowth.
