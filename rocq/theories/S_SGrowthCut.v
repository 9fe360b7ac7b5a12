(* The two tableaux of a word: those read off its shifted growth diagram, whatever the order in which sets are iterated over *)
From Coq Require Import List ZArith Permutation.
From Verif Require Import PyBase M_Tableaux M_SGrowth M_FromSGrowth.
Import ListNotations.

Definition tableaux_of (w : list Z) (p q : tab) : Prop :=
  exists bord t, (forall l, Permutation (bord l) l) /\ shifted_growth_diagram bord (word_positions w) None None = Ok t /\
    from_shifted_growth_diagram bord (map (map (fun x => fst (fst x))) t) (map (map (fun x => snd (fst x))) t) (map (map snd) t) = Ok (p, q).
