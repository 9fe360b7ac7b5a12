(* Model of partitions.py, Partition.skew_key.  The set of positions is a list without repetitions; only all(...), any(...) and
   sorted(...) look at it, so the iteration order of the set plays no role. *)
From Coq Require Import List ZArith Bool.
From Verif Require Import PyBase M_PolyHash M_Partitions.
Import ListNotations.
Local Open Scope Z_scope.

(* partitions.py:288-302  the loop; fuel counts the rounds, its end is the error OutOfFuel *)
Fixpoint skew_loop (fuel : nat) (shifted : bool) (s : list (Z * Z)) : res (list (Z * Z)) :=
  match s with
  | [] => Ok s
  | _ =>
      let again s' := match fuel with O => Err OutOfFuel | S f => skew_loop f shifted s' end in
      if forallb (fun p => (1 <? fst p) && (1 <? snd p)) s then again (map (fun p => (fst p - 1, snd p - 1)) s)
      else if forallb (fun p => 1 <? fst p) s && negb (shifted && existsb (fun p => fst p =? snd p) s) then again (map (fun p => (fst p - 1, snd p)) s)
      else if forallb (fun p => 1 <? snd p) s && negb (shifted && existsb (fun p => fst p =? snd p - 1) s) then again (map (fun p => (fst p, snd p - 1)) s)
      else Ok s
  end.
(* partitions.py:286-303  skew_key(mu, nu, shifted); every round makes the first position smaller *)
Definition skew_key (mu nu : list Z) (shifted : bool) : res (list (Z * Z)) :=
  let s := skew mu nu shifted in
  do k <- skew_loop (match s with [] => O | p :: _ => Z.to_nat (fst p + snd p) end) shifted s;
  Ok (sort_by (fun p => [fst p; snd p]) k).
