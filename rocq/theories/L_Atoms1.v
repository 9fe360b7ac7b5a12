(* Atoms of an involution as the injective maps whose one-line inverses satisfy local conditions. *)
From Coq Require Import List ZArith Bool Lia.
From Verif Require Import PyBase.
Import ListNotations.
Local Open Scope Z_scope.

Definition pinvol (f : Z -> Z) : Prop := forall x, 1 <= x -> 1 <= f x /\ f (f x) = x.
Definition pinj (a : Z -> Z) : Prop := forall x y, 1 <= x -> 1 <= y -> a x = a y -> x = y.
(* a x is the position of x: in each cycle x < f x the larger number comes first, nothing strictly between
   them in value is between them in position, and cycles that are not nested come in order *)
Definition cond (f a : Z -> Z) : Prop :=
  (forall x, 1 <= x -> x < f x -> a (f x) < a x) /\
  (forall x e, 1 <= x -> x < e < f x -> ~ (a (f x) < a e < a x)) /\
  (forall x x', 1 <= x -> 1 <= x' -> x <= f x -> x' <= f x' -> x < x' -> f x < f x' -> a x < a (f x')).
Definition sw (i x : Z) : Z := if x =? i then i + 1 else if x =? i + 1 then i else x.

Lemma sw_pos : forall i x, 1 <= i -> 1 <= x -> 1 <= sw i x.
Proof. intros i x Hi Hx. unfold sw. destruct (Z.eqb_spec x i); [lia|]. destruct (Z.eqb_spec x (i + 1)); lia. Qed.
Lemma sw_invol : forall i x, sw i (sw i x) = x.
Proof. intros i x. unfold sw. destruct (Z.eqb_spec x i); [destruct (Z.eqb_spec (i + 1) i); [lia|destruct (Z.eqb_spec (i + 1) (i + 1)); lia]|]. destruct (Z.eqb_spec x (i + 1)); [destruct (Z.eqb_spec i i); lia|]. destruct (Z.eqb_spec x i); [lia|]. destruct (Z.eqb_spec x (i + 1)); lia. Qed.
Lemma sw_i : forall i, sw i i = i + 1.
Proof. intro i. unfold sw. rewrite Z.eqb_refl. reflexivity. Qed.
Lemma sw_i1 : forall i, sw i (i + 1) = i.
Proof. intro i. unfold sw. replace (i + 1 =? i) with false by lia. rewrite Z.eqb_refl. reflexivity. Qed.
Lemma sw_out : forall i x, x <> i -> x <> i + 1 -> sw i x = x.
Proof. intros i x H1 H2. unfold sw. replace (x =? i) with false by lia. replace (x =? i + 1) with false by lia. reflexivity. Qed.
(* the order of two numbers is kept unless they are i and i + 1 *)
Lemma sw_lt : forall i x y, sw i x < sw i y -> x < y \/ (x = i + 1 /\ y = i).
Proof. intros i x y. unfold sw. repeat match goal with |- context [?a =? ?b] => destruct (Z.eqb_spec a b) end; lia. Qed.
Lemma sw_le : forall i x y, sw i x <= sw i y -> x <= y \/ (x = i + 1 /\ y = i).
Proof. intros i x y. unfold sw. repeat match goal with |- context [?a =? ?b] => destruct (Z.eqb_spec a b) end; lia. Qed.

Section F.
Variables f a : Z -> Z.
Hypothesis Hf : pinvol f.
Hypothesis Ha : pinj a.

Lemma cyc_bounds : cond f a -> forall x, 1 <= x -> exists m M, m = Z.min x (f x) /\ M = Z.max x (f x) /\ 1 <= m /\ m <= M /\ f m = M /\ f M = m /\ a M <= a x <= a m /\ (x = m \/ x = M).
Proof.
  intros (C1 & _ & _) x Hx. destruct (Hf x Hx) as [P1 P2]. destruct (Z_le_gt_dec x (f x)) as [L|G].
  - exists x, (f x). rewrite Z.min_l, Z.max_r by lia. assert (Q : a (f x) <= a x) by (destruct (Z.eq_dec x (f x)) as [E|N]; [rewrite <- E; lia|]; pose proof (C1 x Hx ltac:(lia)); lia). intuition lia.
  - exists (f x), x. rewrite Z.min_r, Z.max_l by lia. pose proof (C1 (f x) P1 ltac:(lia)) as Q. rewrite P2 in Q. intuition lia.
Qed.
(* if f ascends at i then so does a *)
Lemma cond_asc : cond f a -> forall i, 1 <= i -> f i < f (i + 1) -> a i < a (i + 1).
Proof.
  intros C i Hi L. destruct (cyc_bounds C i Hi) as (m & M & Em & EM & P1 & P2 & F1 & F2 & B & D). destruct (cyc_bounds C (i + 1) ltac:(lia)) as (m' & M' & Em' & EM' & P1' & P2' & F1' & F2' & B' & D').
  destruct C as (_ & _ & C3). assert (m < m') by lia. assert (M < M') by lia. specialize (C3 m m' P1 P1' ltac:(lia) ltac:(lia) ltac:(lia) ltac:(lia)). rewrite F1' in C3. lia.
Qed.
End F.

(* removing a descent, the conjugation case *)
Lemma cond_down : forall f a f' a' i, pinvol f -> pinj a -> 1 <= i -> f i <> i + 1 -> cond f a -> a (i + 1) < a i ->
  (forall x, 1 <= x -> f' x = sw i (f (sw i x))) -> (forall x, 1 <= x -> a' x = a (sw i x)) -> cond f' a'.
Proof.
  intros f a f' a' i Hf Ha Hi Nf C D Ef Ea. pose proof (cond_asc f a Hf C i Hi) as Asc.
  assert (NN : f (i + 1) <> i) by (intro Q; apply Nf; destruct (Hf (i + 1) ltac:(lia)) as [_ K]; rewrite Q in K; exact K).
  assert (Nfix : ~ (f i = i /\ f (i + 1) = i + 1)) by (intros [Q1 Q2]; lia).
  assert (LE : forall u, 1 <= u -> sw i u <= sw i (f u) -> u <= f u).
  { intros u Hu L. apply sw_le in L. destruct L as [L|[E1 E2]]; [exact L|]. subst u. contradiction. }
  assert (LT : forall u, 1 <= u -> sw i u < sw i (f u) -> u < f u).
  { intros u Hu L. apply sw_lt in L. destruct L as [L|[E1 E2]]; [exact L|]. subst u. contradiction. }
  destruct C as (C1 & C2 & C3). unfold cond.
  assert (Gx : forall x, 1 <= x -> exists u, x = sw i u /\ 1 <= u /\ f' x = sw i (f u) /\ a' x = a u /\ a' (f' x) = a (f u)).
  { intros x Hx. exists (sw i x). rewrite sw_invol. split; [reflexivity|]. pose proof (sw_pos i x Hi Hx). split; [assumption|]. split; [apply Ef; exact Hx|]. split; [apply Ea; exact Hx|].
    rewrite Ef by exact Hx. rewrite Ea by (apply sw_pos; [exact Hi|apply Hf; assumption]). rewrite sw_invol. reflexivity. }
  split; [|split].
  - intros x Hx L. destruct (Gx x Hx) as (u & -> & Hu & E1 & E2 & E3). rewrite E1 in L. rewrite E2, E3. apply C1; [exact Hu|]. apply LT; assumption.
  - intros x e Hx L. destruct (Gx x Hx) as (u & -> & Hu & E1 & E2 & E3). rewrite E1 in L. destruct (Gx e ltac:(lia)) as (g & -> & Hg & _ & E4 & _). rewrite E2, E3, E4. intro Q.
    destruct L as [L1 L2]. apply sw_lt in L1. apply sw_lt in L2. destruct L1 as [L1|[-> ->]]; [|lia]. destruct L2 as [L2|[-> L2]]; [|rewrite L2 in Q; lia]. apply (C2 u g Hu ltac:(lia) Q).
  - intros x x1 Hx Hx1 L L1 O1 O2. destruct (Gx x Hx) as (u & -> & Hu & E1 & E2 & E3). destruct (Gx x1 Hx1) as (u1 & -> & Hu1 & F1 & F2 & F3). rewrite E2, F3. rewrite E1 in L, O2. rewrite F1 in L1, O2.
    apply LE in L; [|exact Hu]. apply LE in L1; [|exact Hu1]. apply sw_lt in O1. apply sw_lt in O2.
    destruct O1 as [O1|[Q1 Q2]]; destruct O2 as [O2|[Q3 Q4]].
    + apply C3; assumption.
    + (* f u = i + 1, f u1 = i, u < u1 *)
      assert (Q5 : f (i + 1) = u) by (rewrite <- Q3; apply Hf; exact Hu). rewrite Q4. pose proof (C2 u i Hu ltac:(lia)) as K. rewrite Q3 in K.
      assert (a u <> a i) by (intro Q; apply Ha in Q; lia). lia.
    + (* u = i + 1, u1 = i *)
      subst u u1. pose proof (C2 i (i + 1) Hi ltac:(lia)) as K. assert (a (i + 1) <> a (f i)) by (intro Q; apply Ha in Q; [lia|lia|apply Hf; lia]). lia.
    + exfalso. apply Nfix. subst u u1. tauto.
Qed.
(* adding a descent, the conjugation case *)
Lemma cond_up : forall f a f' a' i, pinvol f -> pinj a -> 1 <= i -> f i < f (i + 1) -> ~ (f i = i /\ f (i + 1) = i + 1) -> cond f a ->
  (forall x, 1 <= x -> f' x = sw i (f (sw i x))) -> (forall x, 1 <= x -> a' x = a (sw i x)) -> cond f' a'.
Proof.
  intros f a f' a' i Hf Ha Hi Lf Nfix C Ef Ea. pose proof (cond_asc f a Hf C i Hi Lf) as Asc. pose proof (cyc_bounds f a Hf C) as CB.
  assert (Nf : f i <> i + 1) by (intro Q; destruct (Hf i Hi) as [_ K]; rewrite Q in K; lia).
  assert (NN : f (i + 1) <> i) by (intro Q; apply Nf; destruct (Hf (i + 1) ltac:(lia)) as [_ K]; rewrite Q in K; exact K).
  assert (LE : forall u, 1 <= u -> sw i u <= sw i (f u) -> u <= f u).
  { intros u Hu L. apply sw_le in L. destruct L as [L|[E1 E2]]; [exact L|]. subst u. contradiction. }
  assert (LT : forall u, 1 <= u -> sw i u < sw i (f u) -> u < f u).
  { intros u Hu L. apply sw_lt in L. destruct L as [L|[E1 E2]]; [exact L|]. subst u. contradiction. }
  destruct C as (C1 & C2 & C3). unfold cond.
  assert (Gx : forall x, 1 <= x -> exists u, x = sw i u /\ 1 <= u /\ f' x = sw i (f u) /\ a' x = a u /\ a' (f' x) = a (f u)).
  { intros x Hx. exists (sw i x). rewrite sw_invol. split; [reflexivity|]. pose proof (sw_pos i x Hi Hx). split; [assumption|]. split; [apply Ef; exact Hx|]. split; [apply Ea; exact Hx|].
    rewrite Ef by exact Hx. rewrite Ea by (apply sw_pos; [exact Hi|apply Hf; assumption]). rewrite sw_invol. reflexivity. }
  split; [|split].
  - intros x Hx L. destruct (Gx x Hx) as (u & -> & Hu & E1 & E2 & E3). rewrite E1 in L. rewrite E2, E3. apply C1; [exact Hu|]. apply LT; assumption.
  - intros x e Hx L. destruct (Gx x Hx) as (u & -> & Hu & E1 & E2 & E3). rewrite E1 in L. destruct (Gx e ltac:(lia)) as (g & -> & Hg & _ & E4 & _). rewrite E2, E3, E4. intro Q.
    assert (Lu : u < f u) by (apply LT; [exact Hu|lia]).
    destruct L as [L1 L2]. apply sw_lt in L1. apply sw_lt in L2. destruct L1 as [L1|[Q1 Q2]]; [destruct L2 as [L2|[Q1 Q2]]|].
    + apply (C2 u g Hu ltac:(lia) Q).
    + (* g = i + 1, f u = i *)
      subst g. destruct (CB (i + 1) ltac:(lia)) as (m & M & Em & EM & P1 & P2 & F1 & F2 & B & D). assert (f i = u) by (rewrite <- Q2; apply Hf; exact Hu).
      pose proof (C3 u m Hu P1 ltac:(lia) ltac:(lia) ltac:(lia) ltac:(lia)) as K. rewrite F1 in K. lia.
    + (* u = i + 1, g = i *)
      subst u g. destruct (CB i Hi) as (m & M & Em & EM & P1 & P2 & F1 & F2 & B & D).
      pose proof (C3 m (i + 1) P1 ltac:(lia) ltac:(lia) ltac:(lia) ltac:(lia) ltac:(lia)) as K. lia.
  - intros x x1 Hx Hx1 L L1 O1 O2. destruct (Gx x Hx) as (u & -> & Hu & E1 & E2 & E3). destruct (Gx x1 Hx1) as (u1 & -> & Hu1 & F1 & F2 & F3). rewrite E2, F3. rewrite E1 in L, O2. rewrite F1 in L1, O2.
    apply LE in L; [|exact Hu]. apply LE in L1; [|exact Hu1]. apply sw_lt in O1. apply sw_lt in O2.
    destruct O1 as [O1|[Q1 Q2]]; destruct O2 as [O2|[Q3 Q4]].
    + apply C3; assumption.
    + assert (f (i + 1) = u) by (rewrite <- Q3; apply Hf; exact Hu). assert (f i = u1) by (rewrite <- Q4; apply Hf; exact Hu1). lia.
    + subst u u1. lia.
    + subst u u1. exfalso. apply Nfix. tauto.
Qed.
(* removing the cycle (i, i + 1) *)
Lemma cond_cut : forall f a f' a' i, pinvol f -> pinj a -> 1 <= i -> f i = i + 1 -> cond f a ->
  (forall x, 1 <= x -> f' x = f (sw i x)) -> (forall x, 1 <= x -> a' x = a (sw i x)) -> cond f' a'.
Proof.
  intros f a f' a' i Hf Ha Hi Fi C Ef Ea. assert (Fj : f (i + 1) = i) by (rewrite <- Fi; apply Hf; exact Hi). destruct C as (C1 & C2 & C3).
  pose proof (C1 i Hi ltac:(lia)) as D. rewrite Fi in D.
  assert (G1 : f' i = i) by (rewrite Ef by lia; rewrite sw_i; exact Fj). assert (G2 : f' (i + 1) = i + 1) by (rewrite Ef by lia; rewrite sw_i1; exact Fi).
  assert (A1 : a' i = a (i + 1)) by (rewrite Ea by lia; rewrite sw_i; reflexivity). assert (A2 : a' (i + 1) = a i) by (rewrite Ea by lia; rewrite sw_i1; reflexivity).
  assert (FN : forall x, 1 <= x -> x <> i -> x <> i + 1 -> f x <> i /\ f x <> i + 1).
  { intros x Hx N1 N2. destruct (Hf x Hx) as [_ Q]. split; intro E; rewrite E in Q; lia. }
  assert (Gf : forall x, 1 <= x -> x <> i -> x <> i + 1 -> f' x = f x) by (intros; rewrite Ef by lia; rewrite sw_out by assumption; reflexivity).
  assert (Gb : forall x, 1 <= x -> x <> i -> x <> i + 1 -> a' x = a x) by (intros; rewrite Ea by lia; rewrite sw_out by assumption; reflexivity).
  assert (Dec : forall x, x = i \/ x = i + 1 \/ (x <> i /\ x <> i + 1)) by (intro; lia).
  split; [|split].
  - intros x Hx L. destruct (Dec x) as [->|[->|[N1 N2]]]; [lia|lia|]. destruct (FN x Hx N1 N2) as [M1 M2]. rewrite Gf in * by assumption. rewrite !Gb by (first [assumption|apply Hf; exact Hx]). apply C1; assumption.
  - intros x e Hx L. destruct (Dec x) as [->|[->|[N1 N2]]]; [lia|lia|]. destruct (FN x Hx N1 N2) as [M1 M2]. rewrite Gf in * by assumption. rewrite (Gb (f x)), (Gb x) by (first [assumption|apply Hf; exact Hx]).
    rewrite Ea by lia. apply C2; [exact Hx|]. unfold sw. destruct (Z.eqb_spec e i); [lia|]. destruct (Z.eqb_spec e (i + 1)); lia.
  - intros x x1 Hx Hx1 L L1 O1 O2. destruct (Dec x) as [->|[->|[N1 N2]]]; destruct (Dec x1) as [->|[->|[N3 N4]]]; try lia.
    + rewrite G2, A1, A2. exact D.
    + destruct (FN x1 Hx1 N3 N4) as [M1 M2]. rewrite Gf in * by assumption. rewrite A1. rewrite Gb by (first [assumption|apply Hf; exact Hx1]).
      pose proof (C3 i x1 Hi Hx1 ltac:(lia) L1 O1 ltac:(lia)). lia.
    + destruct (FN x1 Hx1 N3 N4) as [M1 M2]. rewrite Gf in * by assumption. rewrite A2. rewrite Gb by (first [assumption|apply Hf; exact Hx1]).
      pose proof (C3 i x1 Hi Hx1 ltac:(lia) L1 ltac:(lia) ltac:(lia)). lia.
    + destruct (FN x Hx N1 N2) as [M1 M2]. rewrite (Gf x) in * by assumption. rewrite G1, A1 in *. rewrite Gb by assumption.
      pose proof (C3 x i Hx Hi L ltac:(lia) O1 ltac:(lia)) as K. rewrite Fi in K. exact K.
    + destruct (FN x Hx N1 N2) as [M1 M2]. rewrite (Gf x) in * by assumption. rewrite G2, A2 in *. rewrite Gb by assumption.
      pose proof (C3 x i Hx Hi L ltac:(lia) ltac:(lia) ltac:(lia)) as K. rewrite Fi in K. lia.
    + destruct (FN x Hx N1 N2) as [M1 M2]. destruct (FN x1 Hx1 N3 N4) as [M3 M4]. rewrite !Gf in * by assumption. rewrite !Gb by (first [assumption|apply Hf; assumption]). apply C3; assumption.
Qed.
(* adding the cycle (i, i + 1) *)
Lemma cond_join : forall f a f' a' i, pinvol f -> pinj a -> 1 <= i -> f i = i -> f (i + 1) = i + 1 -> cond f a ->
  (forall x, 1 <= x -> f' x = f (sw i x)) -> (forall x, 1 <= x -> a' x = a (sw i x)) -> cond f' a'.
Proof.
  intros f a f' a' i Hf Ha Hi Fi Fj C Ef Ea. pose proof (cond_asc f a Hf C i Hi ltac:(lia)) as D. destruct C as (C1 & C2 & C3).
  assert (G1 : f' i = i + 1) by (rewrite Ef by lia; rewrite sw_i; exact Fj). assert (G2 : f' (i + 1) = i) by (rewrite Ef by lia; rewrite sw_i1; exact Fi).
  assert (A1 : a' i = a (i + 1)) by (rewrite Ea by lia; rewrite sw_i; reflexivity). assert (A2 : a' (i + 1) = a i) by (rewrite Ea by lia; rewrite sw_i1; reflexivity).
  assert (FN : forall x, 1 <= x -> x <> i -> x <> i + 1 -> f x <> i /\ f x <> i + 1).
  { intros x Hx N1 N2. destruct (Hf x Hx) as [_ Q]. split; intro E; rewrite E in Q; lia. }
  assert (Gf : forall x, 1 <= x -> x <> i -> x <> i + 1 -> f' x = f x) by (intros; rewrite Ef by lia; rewrite sw_out by assumption; reflexivity).
  assert (Gb : forall x, 1 <= x -> x <> i -> x <> i + 1 -> a' x = a x) by (intros; rewrite Ea by lia; rewrite sw_out by assumption; reflexivity).
  assert (Dec : forall x, x = i \/ x = i + 1 \/ (x <> i /\ x <> i + 1)) by (intro; lia).
  split; [|split].
  - intros x Hx L. destruct (Dec x) as [->|[->|[N1 N2]]]; [rewrite G1, A1, A2; exact D|lia|]. destruct (FN x Hx N1 N2) as [M1 M2]. rewrite Gf in * by assumption. rewrite !Gb by (first [assumption|apply Hf; exact Hx]). apply C1; assumption.
  - intros x e Hx L. destruct (Dec x) as [->|[->|[N1 N2]]]; [lia|lia|]. destruct (FN x Hx N1 N2) as [M1 M2]. rewrite Gf in * by assumption. rewrite (Gb (f x)), (Gb x) by (first [assumption|apply Hf; exact Hx]).
    rewrite Ea by lia. apply C2; [exact Hx|]. unfold sw. destruct (Z.eqb_spec e i); [lia|]. destruct (Z.eqb_spec e (i + 1)); lia.
  - intros x x1 Hx Hx1 L L1 O1 O2. destruct (Dec x) as [->|[->|[N1 N2]]]; destruct (Dec x1) as [->|[->|[N3 N4]]]; try lia.
    + destruct (FN x1 Hx1 N3 N4) as [M1 M2]. rewrite Gf in * by assumption. rewrite A1. rewrite Gb by (first [assumption|apply Hf; exact Hx1]).
      apply (C3 (i + 1) x1); lia.
    + destruct (FN x Hx N1 N2) as [M1 M2]. rewrite (Gf x) in * by assumption. rewrite G1, A2. rewrite Gb by assumption.
      pose proof (C3 x i Hx Hi L ltac:(lia) O1 ltac:(lia)) as K. rewrite Fi in K. exact K.
    + destruct (FN x Hx N1 N2) as [M1 M2]. destruct (FN x1 Hx1 N3 N4) as [M3 M4]. rewrite !Gf in * by assumption. rewrite !Gb by (first [assumption|apply Hf; assumption]). apply C3; assumption.
Qed.
