(* Statements of C08 / C09 in terms of the Vector API: v[k] is [vget], == is [veq]. *)
From Coq Require Import List ZArith Lia Bool Ring.
From Verif Require Import PyBase FinSum M_Vectors L_Vectors.
Import ListNotations.

Section C08.
  Context {K R : Type} (keqb : K -> K -> bool).
  Context (rO rI : R) (radd rmul rsub : R -> R -> R) (ropp : R -> R) (rzero : R -> bool).
  Local Notation vget := (vget keqb rO).
  Local Notation vadd := (vadd keqb rO radd rzero).
  Local Notation vsub := (vsub keqb rO rsub rzero).
  Local Notation veq := (veq keqb rO rsub rzero).
  Local Notation vscale := (vscale keqb rO rmul rzero).
  Local Notation vneg := (vneg keqb rO rI rmul ropp rzero).
  Local Notation vmul := (vmul keqb rO radd rmul rzero).
  Local Notation vpow := (vpow keqb rO radd rmul rzero).
  Local Notation lsum := (lsum rO radd).
  (* invariant of the stored dictionary: distinct keys, no zero coefficient *)
  Local Notation vwf := (vwf rO).

  Definition module_spec : Prop :=
    (forall a b, keqb a b = true <-> a = b) ->
    ring_theory rO rI radd rmul rsub ropp (@eq R) ->
    (forall x, rzero x = true <-> x = rO) ->
    (* constructor and operations establish the invariant *)
    (forall d : list (K * R), NoDup (map fst d) -> vwf (vmake rzero d)) /\
    (forall v w, vwf v -> vwf w -> vwf (vadd v w) /\ vwf (vsub v w)) /\
    (forall v c, vwf v -> vwf (vscale v c) /\ vwf (vneg v)) /\
    (* coefficientwise meaning *)
    (forall d k, NoDup (map fst d) -> vget (vmake rzero d) k = vget d k) /\
    (forall v w k, vwf v -> vwf w -> vget (vadd v w) k = radd (vget v k) (vget w k)) /\
    (forall v w k, vwf v -> vwf w -> vget (vsub v w) k = rsub (vget v k) (vget w k)) /\
    (forall v c k, vwf v -> vget (vscale v c) k = rmul (vget v k) c) /\
    (forall v k, vwf v -> vget (vneg v) k = ropp (vget v k)) /\
    (* == and is_zero decide equality of coefficient functions *)
    (forall v w, vwf v -> vwf w -> (veq v w = true <-> forall k, vget v k = vget w k)) /\
    (forall v, vwf v -> (vis_zero v = true <-> forall k, vget v k = rO)).

  Definition product_spec : Prop :=
    (forall a b, keqb a b = true <-> a = b) ->
    ring_theory rO rI radd rmul rsub ropp (@eq R) ->
    (forall x, rzero x = true <-> x = rO) ->
    forall mult : K -> K -> list (K * R),
    (forall v w, vwf (vmul mult v w)) /\
    (* v*w has coefficient sum over a, b and pairs (m, c) yielded by mult a b *)
    (forall v w m, vget (vmul mult v w) m =
       lsum (fun ax => lsum (fun by_ => rmul (rmul (snd ax) (snd by_))
         (lsum (fun mc => if keqb (fst mc) m then snd mc else rO) (mult (fst ax) (fst by_)))) w) v) /\
    (forall u v w, vwf u -> vwf v -> vwf w ->
       veq (vmul mult (vadd u v) w) (vadd (vmul mult u w) (vmul mult v w)) = true /\
       veq (vmul mult u (vadd v w)) (vadd (vmul mult u v) (vmul mult u w)) = true) /\
    (forall u v c, vwf u -> vwf v ->
       veq (vmul mult (vscale u c) v) (vscale (vmul mult u v) c) = true /\
       veq (vmul mult u (vscale v c)) (vscale (vmul mult u v) c) = true).

  Definition assoc_spec : Prop :=
    (forall a b, keqb a b = true <-> a = b) ->
    ring_theory rO rI radd rmul rsub ropp (@eq R) ->
    (forall x, rzero x = true <-> x = rO) ->
    forall mult : K -> K -> list (K * R),
    mult_assoc keqb rO radd rmul mult ->
    (forall u v w, vwf u -> vwf v -> vwf w ->
       veq (vmul mult (vmul mult u v) w) (vmul mult u (vmul mult v w)) = true) /\
    (forall v n, vwf v ->
       veq (vpow mult v n)
           (Nat.iter (pred (Pos.to_nat n)) (fun x => vmul mult x v) v) = true).
End C08.

