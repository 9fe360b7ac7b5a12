(* T', G' is T, G with the cells of entries k and -k-1 cut into groups in another way, keeping the numbers of groups *)
From Coq Require Import List ZArith.
From Verif Require Import S_Semistandard S_VST.
Import ListNotations.
Local Open Scope Z_scope.

Definition regrouped (k : Z) (T G T' G' : list ((Z * Z) * list Z)) : Prop :=
  grouped T' G' /\
  (forall c, (exists l, In (c, l) T') <-> (exists l, In (c, l) T)) /\
  (forall c x, x <> k -> x <> - k - 1 -> (In (c, [x]) T' <-> In (c, [x]) T)) /\
  (forall c x l, x <> k -> x <> - k - 1 -> In (c, [x]) T -> (In (c, l) G' <-> In (c, l) G)) /\
  (forall x N, cardinality (fun c => In (c, [x]) T /\ In (c, [0]) G) N -> cardinality (fun c => In (c, [x]) T' /\ In (c, [0]) G') N).
