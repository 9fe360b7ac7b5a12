(* Standard tableaux: every number 1..n is used exactly once, up to a prime *)
From Coq Require Import List ZArith.
From Verif Require Import S_Partitions S_Tableaux S_Strips S_Semistandard.
Import ListNotations.
Local Open Scope Z_scope.

(* T fills the cells of the skew shape mu/lam with one number each, up to sign the numbers
   1, ..., |mu| - |lam| with each of them in exactly one cell; absolute values increase along rows
   and down columns; negative (primed) numbers stand only where [prime_ok] allows them *)
Definition standard_filling (c : list Z -> Z -> Z -> Prop) (prime_ok : Z -> Z -> Prop) (lam mu : list Z)
    (T : list ((Z * Z) * list Z)) : Prop :=
  well_formed T /\
  (forall i j, (exists l, In ((i, j), l) T) <-> in_skew c mu lam i j) /\
  (forall i j l, In ((i, j), l) T -> length l = 1%nat) /\
  (forall i j x, holds T i j x -> 1 <= Z.abs x <= size mu - size lam /\ (x < 0 -> prime_ok i j)) /\
  (forall k, 1 <= k <= size mu - size lam -> exists i j x, holds T i j x /\ Z.abs x = k) /\
  (forall i j x i' j' y, holds T i j x -> holds T i' j' y -> Z.abs x = Z.abs y -> i = i' /\ j = j') /\
  (forall i j x y, holds T i j x -> holds T i (j + 1) y -> Z.abs x < Z.abs y) /\
  (forall i j x y, holds T i j x -> holds T (i + 1) j y -> Z.abs x < Z.abs y).
