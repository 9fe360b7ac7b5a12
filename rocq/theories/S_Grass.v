(* Grassmannian permutations, in terms of maps *)
From Coq Require Import List ZArith.
From Verif Require Import PyBase S_Partitions.
Import ListNotations.
Local Open Scope Z_scope.

(* v is increasing on the positive integers except possibly from k to k + 1 *)
Definition ascents_except (k : Z) (v : Z -> Z) : Prop := forall i, 1 <= i -> i <> k -> v i < v (i + 1).
(* the parts of mu fit under the staircase (n - 1, ..., 2, 1) *)
Definition below_staircase (n : Z) (mu : list Z) : Prop := forall i, (i < length mu)%nat -> row mu i <= n - 1 - Z.of_nat i.
(* z exchanges r - t and r + e + mu_t, where r is the number of parts and t runs from 0 *)
Definition main_arcs (e : Z) (mu : list Z) (z : Z -> Z) : Prop :=
  forall t, (t < length mu)%nat -> z (zlen mu - Z.of_nat t) = zlen mu + e + row mu t /\ z (zlen mu + e + row mu t) = zlen mu - Z.of_nat t.
(* the left ends of the 2-cycles of z are 1, ..., r, their right ends lie after r and increase *)
Definition initial_arcs (r : Z) (z : Z -> Z) : Prop :=
  0 <= r /\ (forall i, 1 <= i <= r -> r < z i) /\ (forall i, 1 <= i < r -> z i < z (i + 1)) /\ forall i, r < i -> z i <= i.
(* the parts of mu fit under (n - 1, n - 3, ...) *)
Definition below_double_staircase (n : Z) (mu : list Z) : Prop := forall i, (i < length mu)%nat -> row mu i <= n - 1 - 2 * Z.of_nat i.
(* the points after r of 1, ..., n that are no r + 1 + mu_t are matched by z with a neighbour among themselves *)
Definition other_points (n : Z) (mu : list Z) (x : Z) : Prop := zlen mu < x <= n /\ ~ In (x - zlen mu - 1) mu.
Definition neighbours_matched (n : Z) (mu : list Z) (z : Z -> Z) : Prop :=
  forall x, other_points n mu x -> z x <> x /\ other_points n mu (z x) /\ forall y, other_points n mu y -> ~ x < y < z x /\ ~ z x < y < x.
