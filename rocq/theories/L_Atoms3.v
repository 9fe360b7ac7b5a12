(* The relation c a b -> b c a on positions. *)
From Coq Require Import List ZArith Bool Lia.
From Verif Require Import PyBase L_Atoms1.
Import ListNotations.
Local Open Scope Z_scope.

Section F.
Variable f : Z -> Z.
Hypothesis Hf : pinvol f.

(* consecutive descents are cycles *)
Lemma consecutive : forall p c a, pinj p -> cond f p -> 1 <= a -> a < c -> p a = p c + 1 -> f a = c.
Proof.
  intros p c a Hp C Ha L E. destruct (cyc_bounds f p Hf C c ltac:(lia)) as (x & y & Ex & Ey & P1 & P2 & F1 & F2 & B & D).
  destruct (cyc_bounds f p Hf C a ltac:(lia)) as (x1 & y1 & Ex1 & Ey1 & P1' & P2' & F1' & F2' & B' & D'). destruct C as (C1 & C2 & C3).
  destruct (Z.eq_dec x x1) as [Q|N]; [assert (y = y1) by congruence; destruct D, D'; subst; lia|].
  assert (Ny : y <> y1) by congruence.
  destruct (Z_lt_ge_dec x1 x) as [L1|L1].
  - destruct (Z_lt_ge_dec y1 y) as [L2|L2]; [pose proof (C3 x1 x ltac:(lia) ltac:(lia) ltac:(lia) ltac:(lia) L1 ltac:(lia)) as K; rewrite F1 in K; lia|].
    assert (a = x1) by lia. pose proof (C2 x1 c ltac:(lia) ltac:(lia)) as K. pose proof (C1 x1 ltac:(lia) ltac:(lia)) as K1. rewrite F1' in *.
    assert (Q : p y1 = p c) by (subst a; lia). apply Hp in Q; lia.
  - destruct (Z_lt_ge_dec y1 y) as [L2|L2].
    + assert (c = y) by lia. pose proof (C2 x a ltac:(lia) ltac:(lia)) as K. pose proof (C1 x ltac:(lia) ltac:(lia)) as K1. rewrite F1 in *.
      assert (Q : p x = p a) by (subst c; lia). apply Hp in Q; lia.
    + assert (a = x1) by lia. assert (c = y) by lia. pose proof (C3 x x1 ltac:(lia) ltac:(lia) ltac:(lia) ltac:(lia) ltac:(lia) ltac:(lia)) as K. rewrite F1' in K. pose proof (C1 x ltac:(lia) ltac:(lia)) as K1. rewrite F1 in K1. subst a c. lia.
Qed.

(* c a b becomes b c a or conversely *)
Definition turned (p q : Z -> Z) (a b c : Z) : Prop :=
  p a = p c + 1 /\ p b = p c + 2 /\ q b = p c /\ q c = p c + 1 /\ q a = p c + 2 /\
  forall x, 1 <= x -> x <> a -> x <> b -> x <> c -> q x = p x.
Lemma turned_order : forall p q a b c x y, pinj p -> pinj q -> 1 <= a -> a < b < c -> turned p q a b c -> 1 <= x -> 1 <= y ->
  (x = b -> y <> a /\ y <> c) -> (y = b -> x <> a /\ x <> c) -> (p x < p y <-> q x < q y).
Proof.
  intros p q a b c x y Hp Hq Ha L (E1 & E2 & E3 & E4 & E5 & E) Hx Hy N1 N2.
  assert (T : forall u, u = a \/ u = b \/ u = c \/ (u <> a /\ u <> b /\ u <> c)) by (intro; lia).
  assert (NP : forall u, 1 <= u -> u <> a -> u <> b -> u <> c -> p u <> p a /\ p u <> p b /\ p u <> p c).
  { intros u Hu Q1 Q2 Q3. repeat split; intro Q; apply Hp in Q; lia. }
  destruct (T x) as [->|[->|[->|(X1 & X2 & X3)]]]; destruct (T y) as [->|[->|[->|(Y1 & Y2 & Y3)]]]; try lia;
    try (pose proof (NP y Hy Y1 Y2 Y3)); try (pose proof (NP x Hx X1 X2 X3)); rewrite ?(E y) by assumption; rewrite ?(E x) by assumption; lia.
Qed.
Lemma turn_cond : forall p q a b c, pinj p -> pinj q -> 1 <= a -> a < b < c -> turned p q a b c -> f a = c -> cond f p -> cond f q.
Proof.
  intros p q a b c Hp Hq Ha L T Fa C. assert (Fc : f c = a) by (rewrite <- Fa; apply Hf; exact Ha).
  pose proof (fun x y => turned_order p q a b c x y Hp Hq Ha L T) as TO. pose proof T as (E1 & E2 & E3 & E4 & E5 & E).
  assert (Fb : f b <> a /\ f b <> c) by (split; intro Q; destruct (Hf b ltac:(lia)) as [_ K]; rewrite Q in K; lia).
  assert (Inj : forall u v, 1 <= u -> 1 <= v -> f u = f v -> u = v) by (intros u v Hu Hv Q; rewrite <- (proj2 (Hf u Hu)), <- (proj2 (Hf v Hv)); congruence).
  assert (Pos : forall u, 1 <= u -> 1 <= f u) by (intros u Hu; apply Hf; exact Hu).
  destruct C as (C1 & C2 & C3).
  assert (NC1 : forall x, 1 <= x -> f x = b -> ~ x < a).
  { intros x Hx Q Lx. pose proof (C3 x a Hx Ha ltac:(lia) ltac:(lia) ltac:(lia) ltac:(lia)) as K. rewrite Fa in K. pose proof (C1 x Hx ltac:(lia)) as K1. rewrite Q in K1. lia. }
  assert (NC2 : ~ c < f b).
  { intro Q. pose proof (C1 b ltac:(lia) ltac:(lia)) as K1. pose proof (C3 a b Ha ltac:(lia) ltac:(lia) ltac:(lia) ltac:(lia) ltac:(lia)) as K. assert (Q2 : f b <> b) by lia.
    assert (p (f b) <> p b) by lia. lia. }
  split; [|split].
  - intros x Hx Lx. apply TO; [apply Pos; exact Hx|exact Hx| | |apply C1; assumption].
    + intro Q. split; intro Q'; subst x; lia.
    + intros ->. exact Fb.
  - intros x e Hx Le. destruct (Z.eq_dec x a) as [->|Nx].
    + rewrite Fa. rewrite E4, E5. intro K. assert (Q : q e = q c + 1 - 0 \/ False) by lia. destruct Q as [Q|[]]; lia.
    + assert (Nxc : x <> c) by (intros ->; lia).
      assert (Gx : x <> b -> f x <> b -> ~ (q (f x) < q e < q x)).
      { intros N1 N2 [K1 K2]. apply (C2 x e Hx Le). split; apply TO; try lia; try (apply Pos; exact Hx).
        - intros _. assert (f x <> a) by (intro Q; apply Nxc; apply Inj; [exact Hx|lia|congruence]). assert (f x <> c) by (intro Q; apply Nx; apply Inj; [exact Hx|lia|congruence]). tauto. }
      destruct (Z.eq_dec x b) as [->|N1].
      * assert (e <> a /\ e <> c) by lia. intros [K1 K2]. apply (C2 b e Hx Le). split; apply TO; try lia; try (apply Pos; exact Hx).
      * destruct (Z.eq_dec (f x) b) as [Q|N2]; [|apply Gx; assumption]. pose proof (NC1 x Hx Q). assert (e <> a /\ e <> c) by lia. intros [K1 K2]. apply (C2 x e Hx Le). split; apply TO; try lia; try (apply Pos; exact Hx).
  - intros x x1 Hx Hx1 Lx L1 O1 O2. apply TO; [exact Hx|apply Pos; exact Hx1| | |apply C3; assumption].
    + intros ->. split; intro Q.
      * assert (x1 = c) by (apply Inj; [exact Hx1|lia|congruence]). lia.
      * assert (x1 = a) by (apply Inj; [exact Hx1|lia|congruence]). lia.
    + intro Q. split; intro Q'; subst x; [lia|]. assert (c <= a) by lia. lia.
Qed.
Lemma unturn_cond : forall p q a b c, pinj p -> pinj q -> 1 <= a -> a < b < c -> turned p q a b c -> f a = c -> cond f q -> cond f p.
Proof.
  intros p q a b c Hp Hq Ha L T Fa C. assert (Fc : f c = a) by (rewrite <- Fa; apply Hf; exact Ha).
  pose proof (fun x y => turned_order p q a b c x y Hp Hq Ha L T) as TO. pose proof T as (E1 & E2 & E3 & E4 & E5 & E).
  assert (Fb : f b <> a /\ f b <> c) by (split; intro Q; destruct (Hf b ltac:(lia)) as [_ K]; rewrite Q in K; lia).
  assert (Inj : forall u v, 1 <= u -> 1 <= v -> f u = f v -> u = v) by (intros u v Hu Hv Q; rewrite <- (proj2 (Hf u Hu)), <- (proj2 (Hf v Hv)); congruence).
  assert (Pos : forall u, 1 <= u -> 1 <= f u) by (intros u Hu; apply Hf; exact Hu).
  destruct C as (C1 & C2 & C3).
  assert (NC1 : forall x, 1 <= x -> f x = b -> ~ x < a).
  { intros x Hx Q Lx. pose proof (C3 x a Hx Ha ltac:(lia) ltac:(lia) ltac:(lia) ltac:(lia)) as K. rewrite Fa in K. pose proof (C1 x Hx ltac:(lia)) as K1. rewrite Q in K1. lia. }
  assert (NC2 : ~ c < f b).
  { intro Q. pose proof (C3 a b Ha ltac:(lia) ltac:(lia) ltac:(lia) ltac:(lia) ltac:(lia)) as K. pose proof (C1 b ltac:(lia) ltac:(lia)) as K1. lia. }
  split; [|split].
  - intros x Hx Lx. apply TO; [apply Pos; exact Hx|exact Hx| | |apply C1; assumption].
    + intro Q. split; intro Q'; subst x; lia.
    + intros ->. exact Fb.
  - intros x e Hx Le. destruct (Z.eq_dec x a) as [->|Nx]; [rewrite Fa; lia|].
    assert (Nxc : x <> c) by (intros ->; lia).
    assert (Gx : x <> b -> f x <> b -> ~ (p (f x) < p e < p x)).
    { intros N1 N2 [K1 K2]. apply (C2 x e Hx Le). split; apply TO; try lia; try (apply Pos; exact Hx).
      - intros _. assert (f x <> a) by (intro Q; apply Nxc; apply Inj; [exact Hx|lia|congruence]). assert (f x <> c) by (intro Q; apply Nx; apply Inj; [exact Hx|lia|congruence]). tauto. }
    destruct (Z.eq_dec x b) as [->|N1].
    * assert (e <> a /\ e <> c) by lia. intros [K1 K2]. apply (C2 b e Hx Le). split; apply TO; try lia; try (apply Pos; exact Hx).
    * destruct (Z.eq_dec (f x) b) as [Q|N2]; [|apply Gx; assumption]. pose proof (NC1 x Hx Q). assert (e <> a /\ e <> c) by lia. intros [K1 K2]. apply (C2 x e Hx Le). split; apply TO; try lia; try (apply Pos; exact Hx).
  - intros x x1 Hx Hx1 Lx L1 O1 O2. apply TO; [exact Hx|apply Pos; exact Hx1| | |apply C3; assumption].
    + intros ->. split; intro Q.
      * assert (x1 = c) by (apply Inj; [exact Hx1|lia|congruence]). lia.
      * assert (x1 = a) by (apply Inj; [exact Hx1|lia|congruence]). lia.
    + intro Q. split; intro Q'; subst x; [lia|]. assert (c <= a) by lia. lia.
Qed.
(* the order of b and f x changes only for b and c *)
Lemma turn_rank : forall p q a b c x e, pinj p -> pinj q -> 1 <= a -> a < b < c -> turned p q a b c -> f a = c -> cond f p -> 1 <= x -> x < e < f x ->
  (x, e) <> (a, b) -> (p e < p (f x) <-> q e < q (f x)).
Proof.
  intros p q a b c x e Hp Hq Ha L T Fa C Hx Le N. pose proof T as (E1 & E2 & E3 & E4 & E5 & E). assert (Fc : f c = a) by (rewrite <- Fa; apply Hf; exact Ha).
  assert (Inj : forall u v, 1 <= u -> 1 <= v -> f u = f v -> u = v) by (intros u v Hu Hv Q; rewrite <- (proj2 (Hf u Hu)), <- (proj2 (Hf v Hv)); congruence).
  apply (turned_order p q a b c e (f x) Hp Hq Ha L T); [lia|apply Hf; exact Hx| |].
  - intros ->. split; intro Q; [assert (x = c) by (apply Inj; [exact Hx|lia|congruence]); lia|assert (x = a) by (apply Inj; [exact Hx|lia|congruence]); subst; contradiction].
  - intro Q. split; [|lia]. intros ->. destruct C as (C1 & _ & C3). pose proof (C3 x a Hx Ha ltac:(lia) ltac:(lia) ltac:(lia) ltac:(lia)) as K. rewrite Fa in K. pose proof (C1 x Hx ltac:(lia)) as K1. rewrite Q in K1. lia.
Qed.
End F.
