(* Sequences k between two decreasing sequences l and m, counted by the numbers of places where k < m
   and where l < k: the two statistics are exchangeable *)
From Coq Require Import List ZArith Lia Permutation Bool.
From Verif Require Import PyBase L_PartMore L_Count L_Sym1.
Import ListNotations.
Local Open Scope Z_scope.

Fixpoint seqs (lm : list (Z * Z)) (h : Z) : list (list Z) :=
  match lm with
  | [] => [[]]
  | (l, m) :: r => flat_map (fun k => map (cons k) (seqs r k)) (zrange l (Z.min m h + 1))
  end.
Fixpoint drops (lm : list (Z * Z)) (ks : list Z) : Z :=
  match lm, ks with (l, m) :: r, k :: s => ind (k <? m) + drops r s | _, _ => 0 end.
Fixpoint rises (lm : list (Z * Z)) (ks : list Z) : Z :=
  match lm, ks with (l, m) :: r, k :: s => ind (l <? k) + rises r s | _, _ => 0 end.
Definition S2 (lm : list (Z * Z)) (h : Z) (G : Z -> Z -> Z) : Z := zs (fun ks => G (drops lm ks) (rises lm ks)) (seqs lm h).

Definition hl (lm : list (Z * Z)) : Z := match lm with [] => 0 | (l, _) :: _ => l end.
Definition hm (lm : list (Z * Z)) : Z := match lm with [] => 0 | (_, m) :: _ => m end.
Fixpoint decr (lm : list (Z * Z)) : Prop :=
  match lm with [] => True | (l, m) :: r => 0 <= l <= m /\ hl r <= l /\ hm r <= m /\ decr r end.

Lemma S2_ext : forall lm h G H, (forall a b, G a b = H a b) -> S2 lm h G = S2 lm h H.
Proof. intros lm h G H E. unfold S2. apply zs_ext. intros. apply E. Qed.
Lemma S2_cons : forall l m r h G, S2 ((l, m) :: r) h G = zs (fun k => S2 r k (fun a b => G (ind (k <? m) + a) (ind (l <? k) + b))) (zrange l (Z.min m h + 1)).
Proof. intros l m r h G. unfold S2. cbn [seqs]. rewrite zs_flat_map. apply zs_ext. intros k _. rewrite zs_map. reflexivity. Qed.
Lemma zs_zrange_snoc : forall (f : Z -> Z) a b, a <= b -> zs f (zrange a (b + 1)) = zs f (zrange a b) + f b.
Proof. intros f a b H. rewrite zrange_snoc by lia. rewrite zs_app, zs_cons, zs_nil. replace (b + 1 - 1) with b by lia. lia. Qed.

(* one more value at the end of the first range *)
Lemma S2_first : forall l m r G, l = m -> forall h, l <= h -> S2 ((l, m) :: r) h G = S2 r l G.
Proof.
  intros l m r G E h H. subst m. rewrite S2_cons. replace (Z.min l h + 1) with (l + 1) by lia. rewrite zs_zrange_snoc by lia. rewrite zrange_nil by lia. rewrite zs_nil, Z.add_0_l, Z.ltb_irrefl. cbn [ind].
  apply S2_ext. intros. reflexivity.
Qed.
Lemma S2_bottom : forall l m r G, l < m -> S2 ((l, m) :: r) l G = S2 r l (fun a b => G (1 + a) b).
Proof.
  intros l m r G H. rewrite S2_cons. replace (Z.min m l + 1) with (l + 1) by lia. rewrite zs_zrange_snoc by lia. rewrite zrange_nil by lia. rewrite zs_nil, Z.add_0_l, Z.ltb_irrefl.
  replace (l <? m) with true by (symmetry; apply Z.ltb_lt; lia). apply S2_ext. intros. reflexivity.
Qed.
Lemma S2_middle : forall l m r G h, l < h < m -> S2 ((l, m) :: r) h G = S2 ((l, m) :: r) (h - 1) G + S2 r h (fun a b => G (1 + a) (1 + b)).
Proof.
  intros l m r G h H. rewrite !S2_cons. replace (Z.min m h + 1) with (h + 1) by lia. replace (Z.min m (h - 1) + 1) with h by lia. rewrite zs_zrange_snoc by lia. f_equal.
  replace (h <? m) with true by (symmetry; apply Z.ltb_lt; lia). replace (l <? h) with true by (symmetry; apply Z.ltb_lt; lia). apply S2_ext. intros. reflexivity.
Qed.
Lemma S2_top : forall l m r G h, l < m <= h -> S2 ((l, m) :: r) h G = S2 ((l, m) :: r) (m - 1) G + S2 r m (fun a b => G a (1 + b)).
Proof.
  intros l m r G h H. rewrite !S2_cons. replace (Z.min m h + 1) with (m + 1) by lia. replace (Z.min m (m - 1) + 1) with m by lia. rewrite zs_zrange_snoc by lia. f_equal.
  rewrite Z.ltb_irrefl. replace (l <? m) with true by (symmetry; apply Z.ltb_lt; lia). apply S2_ext. intros. reflexivity.
Qed.

Definition D2 (lm : list (Z * Z)) (h : Z) (G : Z -> Z -> Z) : Z := S2 lm h G - S2 lm h (fun a b => G b a).
Definition E2 (lm : list (Z * Z)) (h : Z) (G : Z -> Z -> Z) : Z := S2 lm h (fun a b => G (1 + a) b) - S2 lm h (fun a b => G b (1 + a)).

Lemma exchange : forall lm, decr lm ->
  (forall h G, hm lm <= h -> D2 lm h G = 0) /\
  (forall k G, hl lm < k -> E2 lm k G - E2 lm (k - 1) G = D2 lm k (fun a b => G (1 + a) (1 + b))).
Proof.
  induction lm as [|[l m] r IH]; intro H.
  - split; intros; unfold D2, E2, S2; cbn; lia.
  - cbn [decr] in H. destruct H as (Hlm & Hl & Hm & Hr). destruct (IH Hr) as [I1 I2]. cbn [hl hm]. clear IH.
    destruct (Z.eq_dec l m) as [E|E].
    + assert (I1' : forall h G, m <= h -> D2 ((l, m) :: r) h G = 0).
      { intros h G Hh. unfold D2. rewrite !S2_first by lia. apply I1. lia. }
      split; [exact I1'|]. intros k G Hk. rewrite (I1' k) by lia. unfold E2. rewrite !S2_first by lia. lia.
    + assert (L : l < m) by lia. clear E.
      (* below m *)
      assert (Mid : forall j h G, h = l + Z.of_nat j -> h < m -> D2 ((l, m) :: r) h G = E2 r h G).
      { induction j as [|j IHj]; intros h G Eh Hh.
        - replace h with l by lia. unfold D2, E2. rewrite !S2_bottom by assumption. reflexivity.
        - specialize (IHj (h - 1) G ltac:(lia) ltac:(lia)). specialize (I2 h G ltac:(lia)). unfold D2 in *. rewrite !(S2_middle _ _ _ _ h) by lia. unfold D2 in I2. cbv beta in *. lia. }
      assert (Mid' : forall h G, l <= h < m -> D2 ((l, m) :: r) h G = E2 r h G) by (intros h G Hh; apply (Mid (Z.to_nat (h - l))); lia).
      assert (I1' : forall h G, m <= h -> D2 ((l, m) :: r) h G = 0).
      { intros h G Hh. pose proof (Mid' (m - 1) G ltac:(lia)) as A. pose proof (I2 m G ltac:(lia)) as B. rewrite I1 in B by lia.
        pose proof (I1 m (fun a b => G (1 + a) b) ltac:(lia)) as C1. pose proof (I1 m (fun a b => G a (1 + b)) ltac:(lia)) as C2.
        unfold D2, E2 in *. rewrite !(S2_top _ _ _ _ h) by lia.
        assert (X1 : S2 r m (fun a b => G (1 + b) a) = S2 r m (fun a b : Z => G (1 + a) b)) by (cbv beta in C1; lia).
        assert (X2 : S2 r m (fun a b => G b (1 + a)) = S2 r m (fun a b : Z => G a (1 + b))) by (cbv beta in C2; lia).
        cbv beta. lia. }
      split; [exact I1'|]. intros k G Hk. destruct (Z_lt_le_dec k m) as [K|K]; [|destruct (Z.eq_dec k m) as [K'|K']].
      * rewrite Mid' by lia. unfold E2. rewrite !(S2_middle _ _ _ _ k) by lia. cbv beta. lia.
      * subst k. rewrite I1' by lia. pose proof (I1 m (fun a b => G (1 + a) (1 + b)) ltac:(lia)) as C. unfold E2, D2 in *. rewrite !(S2_top _ _ _ _ m) by lia. cbv beta in *. lia.
      * rewrite I1' by lia. unfold E2. rewrite !(S2_top _ _ _ _ k), !(S2_top _ _ _ _ (k - 1)) by lia. lia.
Qed.

Lemma two_step : forall lm h G, decr lm -> hm lm <= h -> S2 lm h G = S2 lm h (fun a b => G b a).
Proof. intros lm h G H Hh. pose proof (proj1 (exchange lm H) h G Hh) as X. unfold D2 in X. lia. Qed.
