(* Lemmas about zeta functions, quasisymmetrize and factorizations. *)
From Coq Require Import List ZArith Lia Bool.
From Verif Require Import PyBase FinSum M_Partitions M_Vectors L_Vectors M_Words S_Words.
Import ListNotations.
Local Open Scope Z_scope.

Lemma zrange_shift : forall c a b, zrange (a + c) (b + c) = map (fun x => x + c) (zrange a b).
Proof.
  intros c a b. unfold zrange. replace (b + c - (a + c)) with (b - a) by lia.
  rewrite map_map. apply map_ext. intro k. lia.
Qed.
Lemma zrange_succ : forall b, zrange 1 (b + 1) = map (fun x => x + 1) (zrange 0 b).
Proof. intro b. apply (zrange_shift 1 0 b). Qed.
Lemma nthz_succ : forall a l k, 0 <= k -> nthz (a :: l) (k + 1) = nthz l k.
Proof. intros a l k H. unfold nthz. replace (Z.to_nat (k + 1)) with (S (Z.to_nat k)) by lia. reflexivity. Qed.
Lemma nthz_0 : forall a l, nthz (a :: l) 0 = a.
Proof. reflexivity. Qed.

Fixpoint adjb (rel : Z -> Z -> bool) (w : list Z) : bool :=
  match w with
  | a :: ((b :: _) as t) => rel a b && adjb rel t
  | _ => true
  end.
Lemma adjb_cons : forall rel a b w, adjb rel (a :: b :: w) = rel a b && adjb rel (b :: w).
Proof. reflexivity. Qed.

Lemma forallb_map : forall A B (f : A -> B) p l, forallb p (map f l) = forallb (fun x => p (f x)) l.
Proof. induction l as [|a l IH]; simpl; [reflexivity|]. now rewrite IH. Qed.
Lemma forallb_ext_in : forall A (p q : A -> bool) l, (forall x, In x l -> p x = q x) -> forallb p l = forallb q l.
Proof.
  induction l as [|a l IH]; intro H; simpl; [reflexivity|].
  rewrite H by (left; reflexivity). f_equal. apply IH. intros x Hx. apply H. right. assumption.
Qed.

Lemma all_adjacent_adjb : forall rel w, all_adjacent rel w = adjb rel w.
Proof.
  intros rel. induction w as [|a w IH]; [reflexivity|].
  destruct w as [|b w]; [reflexivity|].
  rewrite adjb_cons, <- IH. unfold all_adjacent.
  assert (Hl : zlen (a :: b :: w) - 1 = zlen (b :: w) - 1 + 1) by (rewrite (zlen_cons _ a); lia).
  rewrite Hl. pose proof (zlen_nonneg _ w). rewrite zrange_cons by (rewrite zlen_cons; lia).
  cbn [forallb]. change (0 + 1) with 1. rewrite nthz_0. change (nthz (a :: b :: w) 1) with b. f_equal.
  rewrite zrange_succ, forallb_map. apply forallb_ext_in. intros x Hx. apply In_zrange in Hx.
  rewrite !nthz_succ by lia. reflexivity.
Qed.

Lemma is_increasing_adjb : forall dec w,
  is_increasing dec w = adjb (fun a b => if dec : bool then b <? a else a <=? b) w.
Proof.
  intros dec w. rewrite <- all_adjacent_adjb. unfold is_increasing, all_adjacent.
  replace (zlen w) with (zlen w - 1 + 1) at 1 by lia. rewrite zrange_succ, forallb_map.
  apply forallb_ext_in. intros x Hx. replace (x + 1 - 1) with x by lia. reflexivity.
Qed.

Lemma pairwise_nil : forall rel, pairwise rel [].
Proof. intros rel p q H. simpl in H. lia. Qed.
Lemma pairwise_cons : forall rel a w, pairwise rel (a :: w) <-> Forall (rel a) w /\ pairwise rel w.
Proof.
  intros rel a w. split.
  - intro H. split.
    + apply Forall_forall. intros x Hx. apply (In_nth _ _ 0) in Hx. destruct Hx as (n & Hn & <-).
      apply (H 0%nat (S n)). simpl. lia.
    + intros p q Hpq. apply (H (S p) (S q)). simpl. lia.
  - intros [H1 H2] p q Hpq. destruct q as [|q]; [lia|]. destruct p as [|p].
    + simpl. rewrite Forall_forall in H1. apply H1. apply nth_In. simpl in Hpq. lia.
    + simpl. apply H2. simpl in Hpq. lia.
Qed.

Lemma adjb_pairwise : forall (rel : Z -> Z -> bool) (R : Z -> Z -> Prop),
  (forall a b, rel a b = true <-> R a b) -> (forall a b c, R a b -> R b c -> R a c) ->
  forall w, adjb rel w = true <-> pairwise R w.
Proof.
  intros rel R Hr Ht. induction w as [|a w IH]; [split; [intros _; apply pairwise_nil|reflexivity]|].
  destruct w as [|b w].
  - split; [|reflexivity]. intros _. apply pairwise_cons. split; [constructor|apply pairwise_nil].
  - rewrite adjb_cons, andb_true_iff, Hr, IH, (pairwise_cons R a). split.
    + intros [H1 H2]. split; [|assumption]. constructor; [assumption|].
      apply pairwise_cons in H2. destruct H2 as [H2 _]. revert H2. apply Forall_impl. intros c Hc. eauto.
    + intros [H1 H2]. split; [exact (Forall_inv H1)|assumption].
Qed.

Lemma gtb_spec : forall a b, (a >? b) = true <-> a > b.
Proof. intros. rewrite Z.gtb_lt. lia. Qed.
Lemma geb_spec : forall a b, (a >=? b) = true <-> a >= b.
Proof. intros. rewrite Z.geb_le. lia. Qed.

Lemma zeta_iff : forall rel R, (forall a b, rel a b = true <-> R a b) -> (forall a b c, R a b -> R b c -> R a c) ->
  forall w, (pairwise R w -> b2z (all_adjacent rel w) = 1) /\ (~ pairwise R w -> b2z (all_adjacent rel w) = 0).
Proof.
  intros rel R Hr Ht w. rewrite all_adjacent_adjb. rewrite <- (adjb_pairwise rel R Hr Ht).
  destruct (adjb rel w); simpl; split; intro H; try reflexivity; try discriminate. exfalso. apply H. reflexivity.
Qed.

(* ascents and descents *)
Lemma filter_partition_len : forall A (p q : A -> bool) l, (forall x, In x l -> p x = negb (q x)) ->
  zlen (filter p l) + zlen (filter q l) = zlen l.
Proof.
  induction l as [|a l IH]; intro H; [reflexivity|].
  cbn [filter]. rewrite H by (left; reflexivity).
  rewrite zlen_cons, <- IH by (intros x Hx; apply H; right; assumption).
  destruct (q a); cbn [negb]; rewrite zlen_cons; lia.
Qed.

(* ---------------- unimodal zetas ---------------- *)
Section Split.
  Variables r1 r2 : Z -> Z -> bool.
  Definition Z1 (w : list Z) := b2z (adjb r1 w).
  Definition Z2 (w : list Z) := b2z (adjb r2 w).
  (* sum over the cuts of a::w with a on the left *)
  Definition GG (a : Z) (w : list Z) : Z :=
    zsum (map (fun i => Z1 (a :: firstn (Z.to_nat i) w) * Z2 (skipn (Z.to_nat i) w)) (zrange 0 (zlen w + 1))).

  Lemma split_cons : forall a w, split_zeta Z1 Z2 (a :: w) = Z2 (a :: w) + GG a w.
  Proof.
    intros a w. unfold split_zeta, GG. rewrite zlen_cons. pose proof (zlen_nonneg _ w).
    rewrite zrange_cons by lia. cbn [map zsum]. change (Z.to_nat 0) with 0%nat. cbn [firstn skipn].
    f_equal; [change (Z1 []) with 1; lia|]. change (0 + 1) with 1. rewrite zrange_succ, map_map. f_equal.
    apply map_ext_in. intros x Hx. apply In_zrange in Hx.
    replace (Z.to_nat (x + 1)) with (S (Z.to_nat x)) by lia. reflexivity.
  Qed.
  Lemma GG_nil : forall a, GG a [] = 1.
  Proof. reflexivity. Qed.
  Lemma GG_cons : forall a b w, GG a (b :: w) = Z2 (b :: w) + b2z (r1 a b) * GG b w.
  Proof.
    intros a b w. unfold GG. rewrite zlen_cons. pose proof (zlen_nonneg _ w).
    rewrite zrange_cons by lia. cbn [map zsum]. change (Z.to_nat 0) with 0%nat. cbn [firstn skipn].
    f_equal; [change (Z1 [a]) with 1; lia|]. change (0 + 1) with 1. rewrite zrange_succ, map_map.
    assert (Hs : forall l, b2z (r1 a b) * zsum l = zsum (map (Z.mul (b2z (r1 a b))) l)).
    { induction l as [|x l IHl]; simpl; lia. }
    rewrite Hs, map_map. f_equal.
    apply map_ext_in. intros x Hx. apply In_zrange in Hx.
    replace (Z.to_nat (x + 1)) with (S (Z.to_nat x)) by lia. cbn [firstn skipn].
    unfold Z1. rewrite adjb_cons. destruct (r1 a b); cbn [andb b2z]; lia.
  Qed.
  Lemma split_nil : split_zeta Z1 Z2 [] = 1. Proof. reflexivity. Qed.
  Lemma split_one : forall a, split_zeta Z1 Z2 [a] = 2.
  Proof. intro a. rewrite split_cons. reflexivity. Qed.
  Lemma split_cons2 : forall a b w,
    split_zeta Z1 Z2 (a :: b :: w) =
      b2z (r2 a b) * Z2 (b :: w) + Z2 (b :: w) + b2z (r1 a b) * (split_zeta Z1 Z2 (b :: w) - Z2 (b :: w)).
  Proof.
    intros a b w. rewrite split_cons, GG_cons, (split_cons b w). unfold Z2 at 1. rewrite adjb_cons.
    fold (Z2 (b :: w)). unfold Z2 at 2. destruct (r2 a b); cbn [andb b2z]; unfold Z2; lia.
  Qed.
End Split.

Lemma split_zeta_ext : forall f f' g g' w, (forall x, f x = f' x) -> (forall x, g x = g' x) ->
  split_zeta f g w = split_zeta f' g' w.
Proof. intros f f' g g' w Hf Hg. unfold split_zeta. f_equal. apply map_ext. intro x. rewrite Hf, Hg. reflexivity. Qed.

(* shapes as booleans on lists, matched with the recursion *)
Definition bottom (r1 r2 : Z -> Z -> bool) (w : list Z) (m : Z) : Prop :=
  exists d u, w = d ++ m :: u /\ adjb r1 (d ++ [m]) = true /\ adjb r2 (m :: u) = true.

Lemma bottom_cons : forall r1 r2 a b w m,
  bottom r1 r2 (a :: b :: w) m <->
  (r1 a b = true /\ bottom r1 r2 (b :: w) m) \/ (m = a /\ r2 a b = true /\ adjb r2 (b :: w) = true).
Proof.
  intros r1 r2 a b w m. split.
  - intros (d & u & E & H1 & H2). destruct d as [|c d]; simpl in E; injection E as Ea Er.
    + right. subst. rewrite adjb_cons, andb_true_iff in H2. tauto.
    + left. subst c. destruct d as [|c d]; simpl in Er; injection Er as Eb Er.
      * subst. simpl app in H1. rewrite adjb_cons, andb_true_iff in H1. split; [tauto|].
        exists [], u. auto.
      * subst c. simpl app in H1. rewrite adjb_cons, andb_true_iff in H1. split; [tauto|].
        exists (b :: d), u. simpl. subst w. repeat split; try tauto.
  - intros [[H (d & u & E & H1 & H2)]|(-> & H1 & H2)].
    + exists (a :: d), u. rewrite E. split; [reflexivity|]. split; [|assumption].
      destruct d as [|c d]; simpl in E; injection E as Eb Er; subst; simpl app in *; rewrite adjb_cons, andb_true_iff; auto.
    + exists [], (b :: w). split; [reflexivity|]. split; [reflexivity|]. rewrite adjb_cons, andb_true_iff. auto.
Qed.
Lemma bottom_one : forall r1 r2 a m, bottom r1 r2 [a] m <-> m = a.
Proof.
  intros r1 r2 a m. split.
  - intros (d & u & E & _). destruct d as [|c d]; simpl in E; [congruence|].
    injection E as _ E. destruct d; discriminate.
  - intros ->. exists [], []. auto.
Qed.

Lemma adjb_bottom : forall r1 r2 b w, adjb r2 (b :: w) = true -> bottom r1 r2 (b :: w) b.
Proof. intros r1 r2 b w H. exists [], w. auto. Qed.

(* r1, r2 complementary: exactly two cuts *)
Lemma split_two : forall r1 r2, (forall a b, r1 a b = negb (r2 a b)) -> forall w, w <> [] ->
  ((exists m, bottom r1 r2 w m) -> split_zeta (Z1 r1) (Z2 r2) w = 2) /\
  (~ (exists m, bottom r1 r2 w m) -> split_zeta (Z1 r1) (Z2 r2) w = 0).
Proof.
  intros r1 r2 Hc. induction w as [|a w IH]; intro Hne; [congruence|]. destruct w as [|b w].
  - rewrite split_one. split; [reflexivity|]. intro H. exfalso. apply H. exists a. apply bottom_one. reflexivity.
  - rewrite split_cons2. assert (Hb : b :: w <> []) by discriminate. specialize (IH Hb).
    rewrite (Hc a b). destruct (r2 a b) eqn:E2; cbn [negb b2z].
    + unfold Z2. destruct (adjb r2 (b :: w)) eqn:E3; cbn [b2z].
      * split; [lia|]. intro H. exfalso. apply H. exists a. apply bottom_cons. right. auto.
      * split; [|lia]. intros [m Hm]. apply bottom_cons in Hm. rewrite Hc, E2 in Hm.
        destruct Hm as [[Hm _]|(_ & _ & Hm)]; [discriminate|congruence].
    + assert (E : (exists m, bottom r1 r2 (a :: b :: w) m) <-> exists m, bottom r1 r2 (b :: w) m).
      { split; intros [m Hm].
        - apply bottom_cons in Hm. destruct Hm as [[_ Hm]|(_ & Hm & _)]; [eauto|congruence].
        - exists m. apply bottom_cons. left. rewrite Hc, E2. auto. }
      rewrite E. destruct IH as [IH1 IH2]. split; intro H; [rewrite IH1 by assumption|rewrite IH2 by assumption]; lia.
Qed.

(* strict / strict *)
Definition flat (w : list Z) : Prop :=
  exists d m u, w = d ++ m :: m :: u /\ adjb Z.gtb (d ++ [m]) = true /\ adjb Z.ltb (m :: u) = true.
Lemma flat_cons : forall a b w, flat (a :: b :: w) <->
  (a > b /\ flat (b :: w)) \/ (a = b /\ adjb Z.ltb (b :: w) = true).
Proof.
  intros a b w. split.
  - intros (d & m & u & E & H1 & H2). destruct d as [|c d]; simpl in E.
    + injection E as Ea Eb Er. subst. right. auto.
    + injection E as Ea Er. subst c. left. destruct d as [|c d]; simpl in Er; injection Er as Eb Er.
      * subst. simpl app in H1. rewrite adjb_cons, andb_true_iff, gtb_spec in H1. split; [lia|].
        exists [], m, u. auto.
      * subst c. simpl app in H1. rewrite adjb_cons, andb_true_iff, gtb_spec in H1. split; [lia|].
        exists (b :: d), m, u. simpl. subst w. repeat split; try tauto.
  - intros [[H (d & m & u & E & H1 & H2)]|[-> H]].
    + exists (a :: d), m, u. rewrite E. split; [reflexivity|]. split; [|assumption].
      destruct d as [|c d]; simpl in E; injection E as Eb Er; subst; simpl app in *;
        rewrite adjb_cons, andb_true_iff, gtb_spec; auto.
    + exists [], b, w. auto.
Qed.
Lemma flat_one : forall a, ~ flat [a].
Proof.
  intros a (d & m & u & E & _). apply (f_equal (@length Z)) in E. rewrite app_length in E. simpl in E. lia.
Qed.

Lemma split_strict : forall w, w <> [] ->
  ((exists m, bottom Z.gtb Z.ltb w m) /\ ~ flat w /\ split_zeta (Z1 Z.gtb) (Z2 Z.ltb) w = 2) \/
  (flat w /\ ~ (exists m, bottom Z.gtb Z.ltb w m) /\ split_zeta (Z1 Z.gtb) (Z2 Z.ltb) w = 1) \/
  (~ flat w /\ ~ (exists m, bottom Z.gtb Z.ltb w m) /\ split_zeta (Z1 Z.gtb) (Z2 Z.ltb) w = 0).
Proof.
  induction w as [|a w IH]; intro Hne; [congruence|]. destruct w as [|b w].
  - left. rewrite split_one. split; [exists a; apply bottom_one; reflexivity|]. split; [apply flat_one|reflexivity].
  - assert (Hb : b :: w <> []) by discriminate. specialize (IH Hb).
    rewrite split_cons2. rewrite flat_cons.
    assert (E : (exists m, bottom Z.gtb Z.ltb (a :: b :: w) m) <->
              (a > b /\ exists m, bottom Z.gtb Z.ltb (b :: w) m) \/ (a < b /\ adjb Z.ltb (b :: w) = true)).
    { split.
      - intros [m Hm]. apply bottom_cons in Hm. rewrite gtb_spec, Z.ltb_lt in Hm.
        destruct Hm as [[H1 H2]|(H1 & H2 & H3)]; [left; eauto|right; auto].
      - intros [[H1 [m H2]]|[H1 H2]]; [exists m|exists a]; apply bottom_cons; rewrite gtb_spec, Z.ltb_lt; auto. }
    rewrite E. change (Z2 Z.ltb (b :: w)) with (b2z (adjb Z.ltb (b :: w))).
    destruct (Z.lt_trichotomy a b) as [L|[L|L]].
    + replace (a <? b) with true by (symmetry; apply Z.ltb_lt; lia).
      replace (a >? b) with false by (symmetry; rewrite Z.gtb_ltb; apply Z.ltb_ge; lia).
      destruct (adjb Z.ltb (b :: w)) eqn:E3; cbn [b2z].
      * left. split; [right; auto|]. split; [|lia]. intros [[H _]|[H _]]; lia.
      * right. right. split; [intros [[H _]|[H _]]; lia|]. split; [|lia].
        intros [[H _]|[_ H]]; [lia|congruence].
    + subst b. replace (a <? a) with false by (symmetry; apply Z.ltb_ge; lia).
      replace (a >? a) with false by (symmetry; rewrite Z.gtb_ltb; apply Z.ltb_ge; lia).
      destruct (adjb Z.ltb (a :: w)) eqn:E3; cbn [b2z].
      * right. left. split; [right; auto|]. split; [|lia]. intros [[H _]|[H _]]; lia.
      * right. right. split; [intros [[H _]|[_ H]]; [lia|congruence]|]. split; [|lia].
        intros [[H _]|[_ H]]; [lia|congruence].
    + replace (a <? b) with false by (symmetry; apply Z.ltb_ge; lia).
      replace (a >? b) with true by (symmetry; rewrite Z.gtb_ltb; apply Z.ltb_lt; lia).
      destruct IH as [(I1 & I2 & I3)|[(I1 & I2 & I3)|(I1 & I2 & I3)]]; rewrite I3.
      * left. split; [left; auto with zarith|]. split; [|cbn [b2z]; lia].
        intros [[_ H]|[H _]]; [contradiction|lia].
      * right. left. split; [left; auto with zarith|]. split; [|cbn [b2z]; lia].
        intros [[_ H]|[H _]]; [contradiction|lia].
      * right. right. split; [intros [[_ H]|[H _]]; [contradiction|lia]|]. split; [|cbn [b2z]; lia].
        intros [[_ H]|[H _]]; [contradiction|lia].
Qed.

(* weak / weak *)
Lemma split_weak : forall w, w <> [] ->
  (forall m, bottom Z.geb Z.leb w m -> split_zeta (Z1 Z.geb) (Z2 Z.leb) w = 1 + occ m w /\ (forall x, In x w -> m <= x)) /\
  (~ (exists m, bottom Z.geb Z.leb w m) -> split_zeta (Z1 Z.geb) (Z2 Z.leb) w = 0).
Proof.
  assert (occ_cons : forall m a w, occ m (a :: w) = (if Z.eq_dec a m then 1 else 0) + occ m w).
  { intros m a w. unfold occ. simpl. destruct (Z.eq_dec a m); lia. }
  induction w as [|a w IH]; intro Hne; [congruence|]. destruct w as [|b w].
  - rewrite split_one. split.
    + intros m Hm. apply bottom_one in Hm. subst m. rewrite occ_cons. destruct (Z.eq_dec a a); [|congruence].
      split; [reflexivity|]. intros x [->|[]]. lia.
    + intro H. exfalso. apply H. exists a. apply bottom_one. reflexivity.
  - assert (Hb : b :: w <> []) by discriminate. specialize (IH Hb). destruct IH as [IH1 IH2].
    rewrite split_cons2. change (Z2 Z.leb (b :: w)) with (b2z (adjb Z.leb (b :: w))).
    assert (Hsorted : adjb Z.leb (b :: w) = true -> split_zeta (Z1 Z.geb) (Z2 Z.leb) (b :: w) = 1 + occ b (b :: w) /\ (forall x, In x (b :: w) -> b <= x)).
    { intro H. apply IH1. apply adjb_bottom. assumption. }
    destruct (Z.lt_trichotomy a b) as [L|[L|L]].
    + replace (a <=? b) with true by (symmetry; apply Z.leb_le; lia).
      replace (a >=? b) with false by (symmetry; rewrite Z.geb_leb; apply Z.leb_gt; lia). cbn [b2z].
      split.
      * intros m Hm. apply bottom_cons in Hm. rewrite geb_spec, Z.leb_le in Hm.
        destruct Hm as [[H1 H2]|(-> & H2 & H3)]; [lia|]. destruct (Hsorted H3) as [_ H4].
        rewrite H3. cbn [b2z]. rewrite occ_cons. destruct (Z.eq_dec a a); [|congruence].
        assert (Ho : occ a (b :: w) = 0).
        { unfold occ. replace (count_occ Z.eq_dec (b :: w) a) with 0%nat; [reflexivity|].
          symmetry. apply count_occ_not_In. intro Hin. specialize (H4 _ Hin). lia. }
        rewrite Ho. split; [lia|]. intros x [->|Hx]; [lia|]. specialize (H4 _ Hx). lia.
      * intro H. destruct (adjb Z.leb (b :: w)) eqn:E3; cbn [b2z]; [|lia].
        exfalso. apply H. exists a. apply bottom_cons. right. rewrite Z.leb_le. auto with zarith.
    + subst b. replace (a <=? a) with true by (symmetry; apply Z.leb_le; lia).
      replace (a >=? a) with true by (symmetry; rewrite Z.geb_leb; apply Z.leb_le; lia). cbn [b2z].
      split.
      * intros m Hm. apply bottom_cons in Hm.
        destruct (adjb Z.leb (a :: w)) eqn:E3; cbn [b2z].
        -- destruct (Hsorted eq_refl) as [H4 H5].
           assert (Hma : m = a).
           { destruct Hm as [[_ H1]|(H1 & _)]; [|assumption].
             destruct (IH1 m H1) as [_ H6]. destruct H1 as (d & u & Ed & _).
             assert (In m (a :: w)) by (rewrite Ed; apply in_or_app; right; left; reflexivity).
             specialize (H5 _ H). specialize (H6 a (or_introl eq_refl)). lia. }
           subst m. rewrite H4, (occ_cons a a (a :: w)). destruct (Z.eq_dec a a); [|congruence].
           split; [lia|]. intros x [->|Hx]; [lia|]. apply H5. assumption.
        -- destruct Hm as [[_ H1]|(_ & _ & H1)]; [|congruence].
           destruct (IH1 m H1) as [H6 H7]. rewrite H6, (occ_cons m a (a :: w)).
           destruct (Z.eq_dec a m) as [->|Hn].
           { exfalso. destruct H1 as (d & u & Ed & Hd & Hu).
             destruct d as [|c d]; simpl in Ed.
             { assert (Eu : w = u) by congruence. subst u. congruence. }
             assert (Ea : c = m) by congruence. assert (Er : w = d ++ m :: u) by congruence. subst c.
             assert (Hall : forall x, In x (m :: d) -> x = m).
             { assert (Hdec : pairwise Z.ge ((m :: d) ++ [m])).
               { apply (adjb_pairwise Z.geb); [apply geb_spec|intros; lia|assumption]. }
               simpl in Hdec. apply pairwise_cons in Hdec. destruct Hdec as [Hf _]. rewrite Forall_forall in Hf.
               intros x [->|Hx]; [reflexivity|].
               assert (m >= x) by (apply Hf; apply in_or_app; left; assumption).
               assert (m <= x) by (apply H7; rewrite Er; right; apply in_or_app; left; assumption). lia. }
             assert (Hs : adjb Z.leb (m :: w) = true); [|congruence].
             rewrite Er. clear - Hall Hu. change (m :: d ++ m :: u) with ((m :: d) ++ m :: u).
             induction (m :: d) as [|c l IHl]; [assumption|].
             assert (c = m) by (apply Hall; left; reflexivity). subst c.
             assert (IHl' := IHl (fun x Hx => Hall x (or_intror Hx))). simpl app.
             destruct l as [|c l]; [simpl app in *|].
             - rewrite adjb_cons, andb_true_iff, Z.leb_le. split; [lia|assumption].
             - assert (c = m) by (apply Hall; right; left; reflexivity). subst c. simpl app in *.
               rewrite adjb_cons, andb_true_iff, Z.leb_le. split; [lia|assumption]. }
           split; [lia|]. intros x [->|Hx]; [|auto]. apply H7. left. reflexivity.
      * intro H. destruct (adjb Z.leb (a :: w)) eqn:E3; cbn [b2z].
        -- exfalso. apply H. exists a. apply bottom_cons. right. rewrite Z.leb_le. auto with zarith.
        -- rewrite IH2; [lia|]. intros [m Hm]. apply H. exists m. apply bottom_cons. left.
           rewrite geb_spec. auto with zarith.
    + replace (a <=? b) with false by (symmetry; apply Z.leb_gt; lia).
      replace (a >=? b) with true by (symmetry; rewrite Z.geb_leb; apply Z.leb_le; lia). cbn [b2z].
      split.
      * intros m Hm. apply bottom_cons in Hm. rewrite geb_spec, Z.leb_le in Hm.
        destruct Hm as [[H1 H2]|(_ & H2 & _)]; [|lia]. destruct (IH1 m H2) as [H3 H4].
        rewrite H3, (occ_cons m a (b :: w)). specialize (H4 b (or_introl eq_refl)) as Hmb.
        destruct (Z.eq_dec a m); [lia|]. split; [lia|]. intros x [->|Hx]; [lia|auto].
      * intro H. rewrite IH2; [lia|]. intros [m Hm]. apply H. exists m. apply bottom_cons. left.
        rewrite geb_spec. auto with zarith.
Qed.

Lemma bottom_pairwise : forall r1 r2 R1 R2,
  (forall a b, r1 a b = true <-> R1 a b) -> (forall a b c, R1 a b -> R1 b c -> R1 a c) ->
  (forall a b, r2 a b = true <-> R2 a b) -> (forall a b c, R2 a b -> R2 b c -> R2 a c) ->
  forall w m, bottom r1 r2 w m <->
    exists d u, w = d ++ m :: u /\ pairwise R1 (d ++ [m]) /\ pairwise R2 (m :: u).
Proof.
  intros r1 r2 R1 R2 H1 T1 H2 T2 w m. unfold bottom.
  split; intros (d & u & E & A & B); exists d, u;
    rewrite (adjb_pairwise r1 R1 H1 T1), (adjb_pairwise r2 R2 H2 T2) in *; auto.
Qed.

(* ---------------- factorizations ---------------- *)
Lemma adjb_app_l : forall rel u v, adjb rel (u ++ v) = true -> adjb rel u = true.
Proof.
  intros rel. induction u as [|a u IH]; intros v H; [reflexivity|]. destruct u as [|b u]; [reflexivity|].
  simpl app in *. rewrite adjb_cons in *. apply andb_true_iff in H. destruct H as [H1 H2].
  rewrite H1. simpl. apply (IH v). assumption.
Qed.

Lemma for_break_In : forall A (ok : Z -> bool) (body : Z -> list A) a b x,
  (forall i j, a <= i <= j -> j < b -> ok j = true -> ok i = true) ->
  (In x (for_break ok body (zrange a b)) <-> exists i, a <= i < b /\ ok i = true /\ In x (body i)).
Proof.
  intros A ok body a b x.
  remember (Z.to_nat (b - a)) as n eqn:Hn. revert a Hn. induction n as [|n IH]; intros a Hn Hmono.
  - rewrite zrange_nil by lia. simpl. split; [tauto|]. intros (i & H & _). lia.
  - rewrite zrange_cons by lia. simpl. destruct (ok a) eqn:E.
    + rewrite in_app_iff, IH; [|lia|intros i j H1 H2; apply Hmono; lia]. split.
      * intros [H|(i & H1 & H2)]; [exists a; split; [lia|auto]|exists i; split; [lia|auto]].
      * intros (i & H1 & H2 & H3). destruct (Z.eq_dec i a) as [->|Hi]; [left; assumption|].
        right. exists i. split; [lia|auto].
    + split; [intros []|]. intros (i & H1 & H2 & _). assert (ok a = true) by (apply (Hmono a i); auto; lia). congruence.
Qed.

Lemma for_break_NoDup : forall A (ok : Z -> bool) (body : Z -> list A) l,
  NoDup l -> (forall i, In i l -> NoDup (body i)) ->
  (forall i j x, In i l -> In j l -> In x (body i) -> In x (body j) -> i = j) ->
  NoDup (for_break ok body l).
Proof.
  induction l as [|a l IH]; intros Hl Hb Hd; simpl; [constructor|].
  destruct (ok a); [|constructor]. inversion Hl as [|y l' Ha Hl']; subst.
  apply NoDup_app_intro.
  - apply Hb. left. reflexivity.
  - apply IH; auto.
    + intros i Hi. apply Hb. right. assumption.
    + intros i j x Hi Hj. apply Hd; right; assumption.
  - intros x H1 H2. assert (exists j, In j l /\ In x (body j)) as (j & Hj & Hx).
    { clear - H2. induction l as [|c l IH]; simpl in H2; [contradiction|].
      destruct (ok c); [|contradiction]. apply in_app_iff in H2. destruct H2 as [H2|H2].
      - exists c. split; [left; reflexivity|assumption].
      - destruct (IH H2) as (j & Hj & Hx). exists j. split; [right; assumption|assumption]. }
    apply Ha. replace a with j; [assumption|]. apply (Hd j a x); auto; [right; assumption|left; reflexivity].
Qed.

Definition mono (dec : bool) (w : list Z) : Prop := adjb (fun a b => if dec then b <? a else a <=? b) w = true.

Lemma gif_spec : forall dec k w us,
  In us (get_increasing_factorizations w k dec) <->
  length us = k /\ concat us = w /\ Forall (mono dec) us.
Proof.
  intros dec. induction k as [|k IH]; intros w us.
  - simpl. destruct w as [|a w]; simpl.
    + split.
      * intros [<-|[]]. repeat split. constructor.
      * intros (H & _). destruct us; [left; reflexivity|discriminate].
    + split; [tauto|]. intros (H1 & H2 & _). destruct us; discriminate.
  - destruct w as [|a w].
    + simpl. split.
      * intros [<-|[]]. repeat split.
        -- simpl. f_equal. apply repeat_length.
        -- simpl. clear. induction k; simpl; auto.
        -- constructor; [reflexivity|]. clear. induction k; simpl; constructor; auto. reflexivity.
      * intros (H1 & H2 & _). left.
        assert (forall x, In x us -> x = []).
        { intros x Hx. apply in_split in Hx. destruct Hx as (l1 & l2 & ->).
          rewrite concat_app in H2. simpl in H2. apply app_eq_nil in H2. destruct H2 as [_ H2].
          apply app_eq_nil in H2. tauto. }
        change ([] :: repeat [] k) with (repeat (@nil Z) (S k)). rewrite <- H1. clear - H.
        induction us as [|u us IH]; simpl; [reflexivity|].
        rewrite (H u) by (left; reflexivity). f_equal. apply IH. intros x Hx. apply H. right. assumption.
    + cbn [get_increasing_factorizations]. set (W := a :: w).
      rewrite for_break_In.
      * split.
        -- intros (i & Hi & Hok & Hin). apply in_map_iff in Hin. destruct Hin as (tup & <- & Hin).
           apply IH in Hin. destruct Hin as (H1 & H2 & H3). rewrite is_increasing_adjb in Hok.
           split; [simpl; lia|]. split; [simpl; rewrite H2; apply firstn_skipn|]. constructor; assumption.
        -- intros (H1 & H2 & H3). destruct us as [|u us]; [discriminate|].
           exists (zlen u). assert (HW : W = u ++ concat us) by (symmetry; exact H2).
           pose proof (zlen_nonneg _ u).
           assert (HlW : zlen W = zlen u + zlen (concat us)) by (rewrite HW, zlen_app; reflexivity).
           pose proof (zlen_nonneg _ (concat us)).
           assert (F : firstn (Z.to_nat (zlen u)) W = u).
           { rewrite HW. unfold zlen. rewrite Nat2Z.id, firstn_app, firstn_all, Nat.sub_diag. simpl. apply app_nil_r. }
           assert (S : skipn (Z.to_nat (zlen u)) W = concat us).
           { rewrite HW. unfold zlen. rewrite Nat2Z.id, skipn_app, skipn_all, Nat.sub_diag. reflexivity. }
           rewrite F, S. split; [lia|]. split; [rewrite is_increasing_adjb; exact (Forall_inv H3)|].
           apply in_map_iff. exists us. split; [reflexivity|]. apply IH.
           split; [simpl in H1; lia|]. split; [reflexivity|exact (Forall_inv_tail H3)].
      * intros i j Hij Hj. rewrite !is_increasing_adjb. intro H.
        replace (firstn (Z.to_nat j) W) with
          (firstn (Z.to_nat i) W ++ firstn (Z.to_nat j - Z.to_nat i) (skipn (Z.to_nat i) W)) in H.
        { apply adjb_app_l in H. assumption. }
        rewrite <- (firstn_skipn (Z.to_nat i) W) at 3. rewrite firstn_app.
        rewrite firstn_firstn. rewrite firstn_length. pose proof (zlen_nonneg _ W). unfold zlen in Hj.
        f_equal; [f_equal; lia|]. f_equal. lia.
Qed.

Lemma gif_NoDup : forall dec k w, NoDup (get_increasing_factorizations w k dec).
Proof.
  intros dec. induction k as [|k IH]; intro w; [destruct w; simpl; repeat constructor; intros []|].
  destruct w as [|a w]; [simpl; repeat constructor; intros []|].
  cbn [get_increasing_factorizations]. set (W := a :: w).
  apply for_break_NoDup.
  - apply NoDup_zrange.
  - intros i _. apply NoDup_map_inj_in; [|apply IH]. intros x y _ _ E. congruence.
  - intros i j x Hi Hj H1 H2. apply In_zrange in Hi, Hj.
    apply in_map_iff in H1, H2. destruct H1 as (t1 & <- & _). destruct H2 as (t2 & E & _).
    injection E as E _. apply (f_equal (@length Z)) in E. rewrite !firstn_length in E. unfold zlen in *. lia.
Qed.

(* ---------------- quasisymmetrize ---------------- *)
Lemma qget_dset : forall d k v m, qget (dset zlist_eqb d k v) m = if zlist_eqb k m then v else qget d m.
Proof.
  intros d k v m. unfold qget, dget0. destruct (zlist_eqb k m) eqn:E.
  - apply zlist_eqb_eq in E. subst. rewrite dget_dset_same by apply zlist_eqb_eq. reflexivity.
  - rewrite dget_dset_other; [reflexivity|apply zlist_eqb_eq|]. intro H. subst. rewrite zlist_eqb_refl in E. discriminate.
Qed.

Definition qadd (i z : Z) (ans : wvec) (kv : list Z * Z) : wvec :=
  dset zlist_eqb ans (i :: fst kv) (qget ans (i :: fst kv) + z * snd kv).

Lemma qadd_fold_NoDup : forall i z q ans, NoDup (map fst ans) -> NoDup (map fst (fold_left (qadd i z) q ans)).
Proof.
  induction q as [|kv q IH]; intros ans H; simpl; [assumption|]. apply IH. unfold qadd.
  apply dset_NoDup; [apply zlist_eqb_eq|assumption].
Qed.

Lemma qget_cons : forall k v q al, qget ((k, v) :: q) al = if zlist_eqb k al then v else qget q al.
Proof. intros. unfold qget, dget0. simpl. destruct (zlist_eqb k al); reflexivity. Qed.

Lemma qget_notin : forall q al, ~ In al (map fst q) -> qget q al = 0.
Proof.
  intros q al H. unfold qget, dget0.
  replace (dget zlist_eqb q al) with (@None Z); [reflexivity|].
  symmetry. apply dget_None_notIn; [apply zlist_eqb_eq|assumption].
Qed.

Lemma qadd_fold_get : forall i z q ans m, NoDup (map fst q) ->
  qget (fold_left (qadd i z) q ans) m =
  qget ans m + match m with [] => 0 | a :: al => if i =? a then z * qget q al else 0 end.
Proof.
  induction q as [|[k v] q IH]; intros ans m H; cbn [fold_left].
  - destruct m as [|a al]; [lia|]. replace (qget [] al) with 0 by reflexivity. destruct (i =? a); lia.
  - cbn [map fst] in H. inversion H as [|x l Hk Hq]; subst. rewrite IH by assumption.
    unfold qadd. rewrite qget_dset. cbn [fst snd].
    destruct m as [|a al].
    + cbn [zlist_eqb]. reflexivity.
    + cbn [zlist_eqb]. rewrite qget_cons. destruct (i =? a) eqn:E; cbn [andb]; [|lia].
      apply Z.eqb_eq in E. subst a. destruct (zlist_eqb k al) eqn:E2; [|lia].
      apply zlist_eqb_eq in E2. subst al. rewrite (qget_notin q k) by assumption. lia.
Qed.

Lemma filter_keys_NoDup : forall (p : list Z * Z -> bool) v, NoDup (map fst v) -> NoDup (map fst (filter p v)).
Proof.
  induction v as [|kv v IH]; intro H; simpl; [constructor|]. simpl in H. inversion H as [|x l H1 H2]; subst.
  destruct (p kv); [|auto]. simpl. constructor; [|auto]. intro Hin. apply H1.
  apply in_map_iff in Hin. destruct Hin as (y & <- & Hy). apply filter_In in Hy. apply in_map. tauto.
Qed.
Lemma qget_filter : forall d m, NoDup (map fst d) -> qget (filter (fun kv => negb (snd kv =? 0)) d) m = qget d m.
Proof.
  induction d as [|[k v] d IH]; intros m H; [reflexivity|]. simpl in H. inversion H as [|x l H1 H2]; subst.
  cbn [filter snd]. rewrite qget_cons. destruct (v =? 0) eqn:E; cbn [negb].
  - rewrite IH by assumption. apply Z.eqb_eq in E. subst v. destruct (zlist_eqb k m) eqn:E2; [|reflexivity].
    apply zlist_eqb_eq in E2. subst. apply qget_notin. assumption.
  - rewrite qget_cons, IH by assumption. reflexivity.
Qed.

Fixpoint qcoef (zeta : list Z -> Z) (w : list Z) (al : list Z) : Z :=
  match al with
  | [] => match w with [] => 1 | _ => 0 end
  | a :: al' => if (1 <=? a) && (a <=? zlen w)
                then zeta (firstn (Z.to_nat a) w) * qcoef zeta (skipn (Z.to_nat a) w) al' else 0
  end.

Definition qwf (d : wvec) : Prop := NoDup (map fst d) /\ Forall (fun kv => snd kv <> 0) d.

Lemma qsym_spec : forall zeta fuel w, (length w <= fuel)%nat ->
  exists d, quasisymmetrize_ fuel zeta w = Ok d /\ qwf d /\ forall al, qget d al = qcoef zeta w al.
Proof.
  intros zeta. induction fuel as [|f IH]; intros w Hf.
  - destruct w; [|simpl in Hf; lia]. exists [([], 1)]. split; [reflexivity|]. split.
    + split; [simpl; repeat constructor; intros []|]. repeat constructor. discriminate.
    + intros [|a al]; [reflexivity|]. simpl. unfold qget, dget0. simpl.
      destruct (1 <=? a) eqn:E; [|reflexivity]. apply Z.leb_le in E.
      replace (a <=? zlen (@nil Z)) with false by (symmetry; apply Z.leb_gt; unfold zlen; simpl; lia). reflexivity.
  - destruct w as [|c w].
    + exists [([], 1)]. split; [reflexivity|]. split.
      * split; [simpl; repeat constructor; intros []|]. repeat constructor. discriminate.
      * intros [|a al]; [reflexivity|]. simpl. unfold qget, dget0. simpl.
        destruct (1 <=? a) eqn:E; [|reflexivity]. apply Z.leb_le in E.
        replace (a <=? zlen (@nil Z)) with false by (symmetry; apply Z.leb_gt; unfold zlen; simpl; lia). reflexivity.
    + cbn [quasisymmetrize_]. set (W := c :: w) in *.
      match goal with |- context [fold_left ?F (zrange 1 (zlen W + 1)) (Ok [])] => set (F0 := F) end.
      assert (Hloop : forall l ans, (forall i, In i l -> 1 <= i <= zlen W) -> NoDup l -> NoDup (map fst ans) ->
        exists d, fold_left F0 l (Ok ans) = Ok d /\ NoDup (map fst d) /\
          forall m, qget d m = qget ans m +
            match m with [] => 0 | a :: al =>
              if existsb (Z.eqb a) l then zeta (firstn (Z.to_nat a) W) * qcoef zeta (skipn (Z.to_nat a) W) al else 0 end).
      { induction l as [|i l IHl]; intros ans Hi Hnd Hans.
        - exists ans. split; [reflexivity|]. split; [assumption|]. intros [|a al]; simpl; lia.
        - cbn [fold_left]. inversion Hnd as [|x l' Hil Hnd']; subst.
          assert (H1 : 1 <= i <= zlen W) by (apply Hi; left; reflexivity).
          assert (Hi' : forall j, In j l -> 1 <= j <= zlen W) by (intros j Hj; apply Hi; right; assumption).
          unfold F0 at 2. cbn [rbind].
          destruct (zeta (firstn (Z.to_nat i) W) =? 0) eqn:Ez.
          + apply Z.eqb_eq in Ez. destruct (IHl ans Hi' Hnd' Hans) as (d & Hd & Hdn & Hg).
            exists d. split; [exact Hd|]. split; [assumption|]. intros [|a al]; rewrite Hg; [reflexivity|].
            cbn [existsb]. destruct (a =? i) eqn:Ea; [|reflexivity]. apply Z.eqb_eq in Ea. subst a.
            rewrite Ez. destruct (existsb (Z.eqb i) l); simpl; lia.
          + destruct (IH (skipn (Z.to_nat i) W)) as (q & Hq & Hqwf & Hqg).
            { rewrite skipn_length. unfold zlen in H1. simpl in Hf. unfold W in *. simpl length in *. lia. }
            rewrite Hq. cbn [rbind].
            change (fun (ans0 : wvec) (kv : list Z * Z) =>
              dset zlist_eqb ans0 (i :: fst kv) (qget ans0 (i :: fst kv) + zeta (firstn (Z.to_nat i) W) * snd kv))
              with (qadd i (zeta (firstn (Z.to_nat i) W))).
            destruct (IHl (fold_left (qadd i (zeta (firstn (Z.to_nat i) W))) q ans) Hi' Hnd'
                       (qadd_fold_NoDup _ _ _ _ Hans)) as (d & Hd & Hdn & Hg).
            exists d. split; [exact Hd|]. split; [assumption|]. intros m. rewrite Hg.
            rewrite qadd_fold_get by exact (proj1 Hqwf). destruct m as [|a al]; [lia|].
            cbn [existsb]. rewrite (Z.eqb_sym a i). destruct (i =? a) eqn:Ea; cbn [orb]; [|lia].
            apply Z.eqb_eq in Ea. subst a. rewrite Hqg.
            replace (existsb (Z.eqb i) l) with false; [lia|].
            symmetry. apply not_true_iff_false. intro Hex. apply existsb_exists in Hex.
            destruct Hex as (y & Hy & Ey). apply Z.eqb_eq in Ey. subst y. contradiction. }
      destruct (Hloop (zrange 1 (zlen W + 1)) []) as (d & Hd & Hdn & Hg).
      * intros i Hi. apply In_zrange in Hi. lia.
      * apply NoDup_zrange.
      * constructor.
      * rewrite Hd. cbn [rbind]. eexists. split; [reflexivity|].
        assert (Hn2 := filter_keys_NoDup (fun kv => negb (snd kv =? 0)) d Hdn).
        split.
        -- unfold qmake, vmake. split; [apply filter_keys_NoDup; assumption|].
           apply Forall_forall. intros kv Hkv. apply filter_In in Hkv. destruct Hkv as [_ Hkv].
           apply negb_true_iff in Hkv. apply Z.eqb_neq in Hkv. assumption.
        -- intro al. unfold qmake, vmake. rewrite !qget_filter by assumption. rewrite Hg.
           change (qget [] al) with 0. destruct al as [|a al]; [reflexivity|]. cbn [qcoef].
           replace (existsb (Z.eqb a) (zrange 1 (zlen W + 1))) with ((1 <=? a) && (a <=? zlen W)); [destruct ((1 <=? a) && (a <=? zlen W)); lia|].
           apply eq_iff_eq_true. rewrite andb_true_iff, Z.leb_le, Z.leb_le, existsb_exists. split.
           ++ intro H. exists a. rewrite In_zrange, Z.eqb_refl. split; [lia|reflexivity].
           ++ intros (y & Hy & Ey). apply Z.eqb_eq in Ey. subst. apply In_zrange in Hy. lia.
Qed.

Lemma qcoef_factors : forall zeta us, Forall (fun u => u <> []) us ->
  qcoef zeta (concat us) (wlens us) = zprod (map zeta us).
Proof.
  intros zeta. induction us as [|u us IH]; intro H; [reflexivity|].
  cbn [concat wlens map qcoef zprod fold_right].
  pose proof (Forall_inv H) as Hu. cbv beta in Hu.
  assert (0 < length u)%nat by (destruct u; [congruence|simpl; lia]).
  replace ((1 <=? Z.of_nat (length u)) && (Z.of_nat (length u) <=? zlen (u ++ concat us))) with true.
  - rewrite Nat2Z.id, firstn_app, firstn_all, Nat.sub_diag, skipn_app, skipn_all, Nat.sub_diag. simpl.
    rewrite app_nil_r. f_equal. apply IH. exact (Forall_inv_tail H).
  - symmetry. apply andb_true_iff. rewrite !Z.leb_le. unfold zlen. rewrite app_length. lia.
Qed.
Lemma qcoef_other : forall zeta al w, ~ (exists us, Forall (fun u => u <> []) us /\ concat us = w /\ wlens us = al) ->
  qcoef zeta w al = 0.
Proof.
  intros zeta. induction al as [|a al IH]; intros w H; cbn [qcoef].
  - destruct w; [|reflexivity]. exfalso. apply H. exists []. repeat split. constructor.
  - destruct ((1 <=? a) && (a <=? zlen w)) eqn:E; [|reflexivity].
    apply andb_true_iff in E. rewrite !Z.leb_le in E. rewrite IH; [lia|].
    intros (us & H1 & H2 & H3). apply H. exists (firstn (Z.to_nat a) w :: us). unfold zlen in E.
    assert (Hl : length (firstn (Z.to_nat a) w) = Z.to_nat a) by (rewrite firstn_length; lia).
    split; [constructor; [|assumption]|].
    + intro E0. rewrite E0 in Hl. simpl in Hl. lia.
    + split; [simpl; rewrite H2; apply firstn_skipn|]. cbn [wlens map]. rewrite Hl. f_equal; [lia|assumption].
Qed.
