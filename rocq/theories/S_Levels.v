(* Hecke words: words acting on signed maps through the 0-Hecke monoid, and statistics of words. *)
From Coq Require Import List ZArith.
From Verif Require Import PyBase S_Perm.
Import ListNotations.
Local Open Scope Z_scope.

(* g is the result of acting on f by the i-th generator on the right *)
Definition hecke_rel (f : Z -> Z) (i : Z) (g : Z -> Z) : Prop :=
  (descent f i /\ forall x, g x = f x) \/
  (~ descent f i /\ forall x, g x = f (simple i x)).
(* g is the result of the twisted conjugation of f by the i-th generator *)
Definition conj_rel (f : Z -> Z) (i : Z) (g : Z -> Z) : Prop :=
  (descent f i /\ forall x, g x = f x) \/
  (~ descent f i /\ (forall x, simple i (f x) = f (simple i x)) /\ forall x, g x = f (simple i x)) \/
  (~ descent f i /\ (exists x, simple i (f x) <> f (simple i x)) /\ forall x, g x = simple i (f (simple i x))).

(* the letters of a word act one after the other; [ok f i g] restricts the steps allowed *)
Inductive acts (rel : (Z -> Z) -> Z -> (Z -> Z) -> Prop) : (Z -> Z) -> list Z -> (Z -> Z) -> Prop :=
| acts_nil : forall f g, (forall x, g x = f x) -> acts rel f [] g
| acts_cons : forall f i g word h, rel f i g -> acts rel g word h -> acts rel f (i :: word) h.

(* number of weak ascents *)
Fixpoint weak_ascents (l : list Z) : Z :=
  match l with
  | a :: ((b :: _) as l') => (if a <=? b then 1 else 0) + weak_ascents l'
  | _ => 0
  end.

(* no interior letter is at least as large as both its neighbours *)
Definition no_peak (l : list Z) : Prop := forall a x y z b, l = a ++ x :: y :: z :: b -> ~ (x <= y /\ z <= y).
(* l can be cut into n words without peaks *)
Definition cuts (l : list Z) (n : Z) : Prop := exists fs, concat fs = l /\ Forall no_peak fs /\ zlen fs = n.
