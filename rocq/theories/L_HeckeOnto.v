(* Every insertion step can be taken back: for any corner and either kind of last step there is a smaller
   tableau and a letter *)
From Coq Require Import List ZArith Bool Lia Sorted Permutation RelationClasses.
From Verif Require Import PyBase M_Partitions L_PartMore M_Tableaux S_Tableaux L_Tableaux P_Tableaux M_Insertion S_Insertion L_Insertion1 L_Insertion2 L_Insertion3 L_Insertion4 L_Insertion5 L_Insertion6 L_Insertion7 L_Insertion8.
Import ListNotations.
Local Open Scope Z_scope.

Definition same (g h : Z -> Z -> Z) : Prop := forall r s, g r s = h r s.
Lemma same_updg : forall g h i x a, same g h -> same (updg g i x a) (updg h i x a).
Proof. intros g h i x a E r s. unfold updg. destruct (_ && _); [reflexivity|apply E]. Qed.
Lemma Inv_same : forall L g h i a, same h g -> Inv L g i a -> Inv L h i a.
Proof.
  intros L g h i a E (S & [I1 I2] & Hi & H). split; [exact S|]. split; [split; intros; rewrite !E; [apply I1|apply I2]; assumption|]. split; [exact Hi|].
  destruct H as [H|(H2 & y & A & B & C & D & F)]; [left; exact H|right; split; [exact H2|]]. exists y. rewrite !E. auto.
Qed.
Lemma Ins_same : forall L g i a L' g' c k, Ins L g i a L' g' c k -> forall h, same h g -> exists h', same h' g' /\ Ins L h i a L' h' c k.
Proof.
  intros L g i a L' g' c k H.
  induction H as [L g i a HI F C|L g i a HI F C|L g i a x L' g' c k HI B C H IH|L g i a x L' g' c k HI B C H IH]; intros h E; pose proof (Inv_same L g h i a E HI) as HI'.
  - exists (updg h i (L i + 1) a). split; [apply same_updg; exact E|]. apply ins_add; [exact HI'| |].
    + intros x Hx. rewrite E. apply F. exact Hx.
    + destruct C as [C1 C2]. split; [intros x Hx; rewrite E; apply C1; exact Hx|rewrite E; exact C2].
  - exists h. split; [exact E|]. apply ins_stop; [exact HI'| |].
    + intros x Hx. rewrite E. apply F. exact Hx.
    + intro K. apply C. destruct K as [C1 C2]. split; [intros x Hx; rewrite <- E; apply C1; exact Hx|rewrite <- E; exact C2].
  - destruct (IH (updg h i x a) (same_updg _ _ _ _ _ E)) as (h' & E' & H'). exists h'. split; [exact E'|]. apply (ins_bump L h i a x); [exact HI'| | |].
    + destruct B as (B1 & B2 & B3). split; [exact B1|]. rewrite E. split; [exact B2|]. intros y Hy. rewrite E. apply B3. exact Hy.
    + unfold can_replace in *. rewrite !E. exact C.
    + rewrite (E i x). exact H'.
  - destruct (IH h E) as (h' & E' & H'). exists h'. split; [exact E'|]. apply (ins_pass L h i a x); [exact HI'| | |].
    + destruct B as (B1 & B2 & B3). split; [exact B1|]. rewrite E. split; [exact B2|]. intros y Hy. rewrite E. apply B3. exact Hy.
    + unfold can_replace in *. rewrite !E. exact C.
    + rewrite (E i x). exact H'.
Qed.

Lemma bump_unique : forall L g i a x y, bump_col L g i a x -> bump_col L g i a y -> x = y.
Proof.
  intros L g i a x y (A & B & C) (A' & B' & C'). destruct (Z_lt_ge_dec x y) as [H|H]; [specialize (C' x ltac:(lia)); lia|].
  destruct (Z_lt_ge_dec y x) as [H'|H']; [specialize (C y ltac:(lia)); lia|lia].
Qed.
Lemma Ins_det : forall L g i a L1 g1 c1 k1, Ins L g i a L1 g1 c1 k1 -> forall L2 g2 c2 k2, Ins L g i a L2 g2 c2 k2 -> L1 = L2 /\ g1 = g2 /\ c1 = c2 /\ k1 = k2.
Proof.
  assert (FB : forall L g i a x, full_row L g i a -> bump_col L g i a x -> False) by (intros L g i a x F (A & B & C); specialize (F x A); lia).
  intros L g i a L1 g1 c1 k1 H.
  induction H as [L g i a HI F C|L g i a HI F C|L g i a x L' g' c k HI B C H IH|L g i a x L' g' c k HI B C H IH]; intros L2 g2 c2 k2 H2;
    inversion H2 as [? ? ? ? HI' F' C'|? ? ? ? HI' F' C'|? ? ? ? y ? ? ? ? HI' B' C' H'|? ? ? ? y ? ? ? ? HI' B' C' H']; subst;
    try (exfalso; eapply FB; eassumption); try contradiction; try (repeat split; reflexivity).
  - pose proof (bump_unique _ _ _ _ _ _ B B') as <-. apply IH. exact H'.
  - pose proof (bump_unique _ _ _ _ _ _ B B') as <-. contradiction.
  - pose proof (bump_unique _ _ _ _ _ _ B B') as <-. contradiction.
  - pose proof (bump_unique _ _ _ _ _ _ B B') as <-. apply IH. exact H'.
Qed.

(* the last column from x on whose value is at most a *)
Lemma last_le : forall (f : Z -> Z) a n x, f x <= a -> x <= n -> exists y, x <= y <= n /\ f y <= a /\ (y + 1 <= n -> a < f (y + 1)).
Proof.
  intros f a n x Hx Hn. remember (Z.to_nat (n - x)) as m eqn:Em. revert x Hx Hn Em. induction m as [|m IH]; intros x Hx Hn Em.
  - exists x. split; [lia|]. split; [exact Hx|]. intro; lia.
  - destruct (Z_le_gt_dec (f (x + 1)) a) as [C|C].
    + destruct (IH (x + 1) C ltac:(lia) ltac:(lia)) as (y & A & B & D). exists y. split; [lia|]. split; assumption.
    + exists x. split; [lia|]. split; [exact Hx|]. intro; lia.
Qed.

Lemma pull : forall L g i b, 1 <= i -> Inv L g (i + 1) b -> Nonneg L g -> exists h a x,
  Inv L h i a /\ bump_col L h i a x /\ h i x = b /\ Nonneg L h /\ 0 <= a /\
  ((can_replace h i a x /\ same (updg h i x a) g) \/ (~ can_replace h i a x /\ h = g)).
Proof.
  intros L g i b Hi (S & I & _ & H) N. pose proof I as [I1 I2]. destruct H as [H|(_ & x & Hx & H1 & H2 & H3 & H4)]; [lia|]. replace (i + 1 - 1) with i in * by lia.
  assert (N0 : 0 <= g i x) by (apply N; lia).
  assert (HL : 2 <= i -> L i <= L (i - 1)). { intro Hi2. pose proof (proj2 S (i - 1) ltac:(lia)) as K. replace (i - 1 + 1) with i in K by lia. exact K. }
  assert (HC : forall s, 2 <= i -> 1 <= s <= L i -> g (i - 1) s < g i s). { intros s Hi2 Hs. pose proof (I2 (i - 1) s ltac:(lia) ltac:(lia)) as K. replace (i - 1 + 1) with i in K by lia. apply K. lia. }
  assert (HR : 2 <= x -> g i (x - 1) < g i x). { intro Hx2. pose proof (I1 i (x - 1) ltac:(lia) ltac:(lia)) as K. replace (x - 1 + 1) with x in K by lia. apply K. lia. }
  assert (RM : forall s t, 1 <= s -> s < t -> t <= L i -> g i s < g i t) by (intros; apply (row_mono L); try assumption; lia).
  destruct (Z.eq_dec (g i x) b) as [Eb|Nb].
  - (* the row passed the letter on *)
    specialize (H4 Eb). set (a := if i =? 1 then g i (x - 1) else Z.max (g i (x - 1)) (g (i - 1) x)).
    assert (A1 : g i (x - 1) <= a) by (unfold a; destruct (i =? 1); lia).
    assert (A2 : 2 <= i -> g (i - 1) x <= a) by (intro; unfold a; destruct (Z.eqb_spec i 1); lia).
    assert (A3 : a < g i x). { unfold a. destruct (Z.eqb_spec i 1) as [E|E]; [apply HR; lia|]. specialize (HC x ltac:(lia) ltac:(lia)). specialize (HR H4). lia. }
    assert (A4 : a = g i (x - 1) \/ 2 <= i /\ a = g (i - 1) x) by (unfold a; destruct (Z.eqb_spec i 1); lia).
    assert (A5 : 0 <= a). { pose proof (N i (x - 1) Hi ltac:(lia)). lia. }
    clearbody a. exists g, a, x. split; [|split; [|split; [exact Eb|split; [exact N|split; [exact A5|right; split; [|reflexivity]]]]]].
    + split; [exact S|]. split; [exact I|]. split; [exact Hi|]. destruct (Z.eq_dec i 1) as [E|E]; [left; exact E|right; split; [lia|]].
      destruct (last_le (g (i - 1)) a (L (i - 1)) x (A2 ltac:(lia)) ltac:(specialize (HL ltac:(lia)); lia)) as (y & Y1 & Y2 & Y3). exists y. split; [lia|]. split; [exact Y2|]. split; [exact Y3|].
      split; [|lia]. intro Yl. destruct (Z.eq_dec y x) as [->|]; [exact A3|]. specialize (RM x y ltac:(lia) ltac:(lia) Yl). lia.
    + split; [exact Hx|]. split; [exact A3|]. intros y Hy. destruct (Z.eq_dec y (x - 1)) as [->|]; [exact A1|]. specialize (RM y (x - 1) ltac:(lia) ltac:(lia) ltac:(lia)). lia.
    + intros [K1 K2]. lia.
  - (* the letter replaced an entry *)
    set (a := g i x) in *. assert (Hab : a < b) by lia. set (h := updg g i x b).
    assert (HH : forall r s, r <> i \/ s <> x -> h r s = g r s) by (intros; apply updg_other; assumption).
    assert (Hx0 : h i x = b) by apply updg_same.
    exists h, a, x. split; [|split; [|split; [exact Hx0|split; [apply Nonneg_updg; [exact N|lia]|split; [exact N0|left; split]]]]].
    + split; [exact S|]. split; [|split; [exact Hi|]].
      * split.
        -- intros r s Hr Hs Hl. unfold h, updg. destruct (Z.eqb_spec r i) as [->|E1]; cbn [andb]; [|apply I1; assumption]. destruct (Z.eqb_spec s x) as [E2|E2]; [subst s|]; [|destruct (Z.eqb_spec (s + 1) x) as [E3|E3]].
           ++ replace (x + 1 =? x) with false by (symmetry; apply Z.eqb_neq; lia). apply H2. exact Hl.
           ++ specialize (I1 i s Hr Hs Hl). rewrite E3 in I1. fold a in I1. lia.
           ++ apply I1; assumption.
        -- intros r s Hr Hs Hl. unfold h, updg. destruct (Z.eqb_spec s x) as [->|E2]; rewrite ?andb_false_r, ?andb_true_r; [|apply I2; assumption].
           destruct (Z.eqb_spec r i) as [E1|E1]; [subst r|]; [|destruct (Z.eqb_spec (r + 1) i) as [E3|E3]].
           ++ replace (i + 1 =? i) with false by (symmetry; apply Z.eqb_neq; lia). apply H3. exact Hl.
           ++ specialize (I2 r x Hr Hs Hl). rewrite E3 in I2. fold a in I2. lia.
           ++ apply I2; assumption.
      * destruct (Z.eq_dec i 1) as [E|E]; [left; exact E|right; split; [lia|]].
        assert (A2 : g (i - 1) x < a) by (apply HC; lia).
        destruct (last_le (g (i - 1)) a (L (i - 1)) x ltac:(lia) ltac:(specialize (HL ltac:(lia)); lia)) as (y & Y1 & Y2 & Y3). exists y. rewrite !(HH (i - 1)) by lia. split; [lia|]. split; [exact Y2|]. split; [exact Y3|].
        split; [intro Yl; destruct (Z.eq_dec y x) as [->|]; [lia|]; rewrite HH by lia; apply RM; lia|]. intro K. destruct (Z.eq_dec y x) as [->|]; lia.
    + split; [exact Hx|]. split; [lia|]. intros y Hy. rewrite HH by lia. specialize (RM y x ltac:(lia) ltac:(lia) ltac:(lia)). fold a in RM. lia.
    + split; [destruct (Z.eq_dec x 1); [left; assumption|right; rewrite HH by lia; apply HR; lia]|]. destruct (Z.eq_dec i 1); [left; assumption|right; rewrite HH by lia; apply HC; lia].
    + intros r s. unfold h, updg. destruct (Z.eqb_spec r i) as [->|E1]; cbn [andb]; [|reflexivity]. destruct (Z.eqb_spec s x) as [->|E2]; reflexivity.
Qed.

Lemma pull_all : forall n L g i a L' g' c k, i = 1 + Z.of_nat n -> Ins L g i a L' g' c k -> Nonneg L g -> 0 <= a ->
  exists h b h', Ins L h 1 b L' h' c k /\ same h' g' /\ Nonneg L h /\ 0 <= b.
Proof.
  induction n as [|n IH]; intros L g i a L' g' c k Ei H N Ha.
  - exists g, a, g'. replace i with 1 in H by lia. split; [exact H|]. split; [intros r s; reflexivity|]. split; assumption.
  - assert (HI : Inv L g i a) by (inversion H; assumption). replace i with ((i - 1) + 1) in HI by lia.
    destruct (pull L g (i - 1) a ltac:(lia) HI N) as (h & b & x & A & B & C & D & E & F).
    assert (G : exists h', Ins L h (i - 1) b L' h' c k /\ same h' g').
    { destruct F as [[F1 F2]|[F1 F2]].
      - destruct (Ins_same _ _ _ _ _ _ _ _ H _ F2) as (h' & E' & H'). exists h'. split; [|exact E']. apply (ins_bump L h (i - 1) b x); [exact A|exact B|exact F1|]. rewrite C. replace (i - 1 + 1) with i by lia. exact H'.
      - exists g'. split; [|intros r s; reflexivity]. apply (ins_pass L h (i - 1) b x); [exact A|exact B|exact F1|]. rewrite C. replace (i - 1 + 1) with i by lia. subst h. exact H. }
    destruct G as (h' & G1 & G2). destruct (IH L h (i - 1) b L' h' c k ltac:(lia) G1 D E) as (h2 & b2 & h2' & R1 & R2 & R3 & R4).
    exists h2, b2, h2'. split; [exact R1|]. split; [intros r s; rewrite R2; apply G2|]. split; assumption.
Qed.

(* the last step was the addition of the corner d *)
Lemma unadd : forall L' g' d, shape L' -> Incr L' g' -> Nonneg L' g' -> corner L' d -> exists L a L'' g'',
  Ins L g' (fst d) a L'' g'' d true /\ (forall r, L'' r = L' r) /\ same g'' g' /\ Nonneg L g' /\ 0 <= a.
Proof.
  intros L' g' [r s] S I N (C1 & C2 & C3 & C4). cbn [fst snd] in *. set (L := updr L' r (s - 1)). set (a := g' r s).
  assert (LR : L r = s - 1) by apply updr_same. assert (LO : forall t, t <> r -> L t = L' t) by (intros; apply updr_other; assumption).
  assert (LE : forall t, L t <= L' t). { intro t. destruct (Z.eq_dec t r) as [->|E]; [lia|rewrite LO by exact E; lia]. }
  pose proof I as [I1 I2].
  assert (SL : shape L).
  { split; intros t Ht; unfold L, updr.
    - destruct (Z.eqb_spec t r); [lia|apply S; assumption].
    - pose proof (proj2 S t Ht). destruct (Z.eqb_spec t r) as [E1|E1]; [subst t|]; [|destruct (Z.eqb_spec (t + 1) r) as [E2|E2]; [|lia]].
      + replace (r + 1 =? r) with false by (symmetry; apply Z.eqb_neq; lia). lia.
      + rewrite E2 in *. lia. }
  assert (IL : Incr L g') by (split; intros i j Hi Hj Hl; [apply I1|apply I2]; try assumption; [pose proof (LE i)|pose proof (LE (i + 1))]; lia).
  assert (NL : Nonneg L g') by (intros i j Hi Hj; apply N; [assumption|pose proof (LE i); lia]).
  assert (RM : forall x, 1 <= x <= L r -> g' r x < a) by (intros x Hx; apply (row_mono L'); try assumption; lia).
  assert (CM : 2 <= r -> g' (r - 1) s < a). { intro Hr. pose proof (I2 (r - 1) s ltac:(lia) ltac:(lia)) as K. replace (r - 1 + 1) with r in K by lia. apply K. lia. }
  assert (HI : Inv L g' r a).
  { split; [exact SL|]. split; [exact IL|]. split; [exact C1|]. destruct (Z.eq_dec r 1) as [E|E]; [left; exact E|right; split; [lia|]].
    assert (HL : s <= L (r - 1)). { rewrite LO by lia. pose proof (proj2 S (r - 1) ltac:(lia)) as K. replace (r - 1 + 1) with r in K by lia. lia. }
    destruct (last_le (g' (r - 1)) a (L (r - 1)) s ltac:(specialize (CM ltac:(lia)); lia) HL) as (y & Y1 & Y2 & Y3). exists y. split; [lia|]. split; [exact Y2|]. split; [exact Y3|]. split; [lia|].
    intro K. destruct (Z.eq_dec y s) as [->|]; [specialize (CM ltac:(lia)); lia|lia]. }
  exists L, a, (updr L r (L r + 1)), (updg g' r (L r + 1) a). split; [|split; [|split; [|split; [exact NL|apply N; lia]]]].
  - replace (r, s) with (r, L r + 1) by (f_equal; lia). cbn [fst]. apply ins_add; [exact HI| |].
    + intros x Hx. specialize (RM x Hx). lia.
    + split; [exact RM|]. destruct (Z.eq_dec r 1); [left; assumption|right]. replace (L r + 1) with s by lia. apply CM. lia.
  - intro t. unfold updr. destruct (Z.eqb_spec t r) as [->|E]; [lia|apply LO; exact E].
  - intros t u. unfold updg. destruct (Z.eqb_spec t r) as [->|E]; cbn [andb]; [|reflexivity]. destruct (Z.eqb_spec u (L r + 1)) as [->|E]; [unfold a; f_equal; lia|reflexivity].
Qed.

(* the first row of a given length *)
Lemma first_row : forall L s, shape L -> forall n r, r = 1 + Z.of_nat n -> L r = s -> exists i, 1 <= i <= r /\ L i = s /\ (i = 1 \/ L i < L (i - 1)).
Proof.
  intros L s S. induction n as [|n IH]; intros r Er Hr.
  - exists 1. split; [lia|]. split; [rewrite <- Hr; f_equal; lia|left; reflexivity].
  - pose proof (proj2 S (r - 1) ltac:(lia)) as K. replace (r - 1 + 1) with r in K by lia. destruct (Z.eq_dec (L (r - 1)) s) as [E|E].
    + destruct (IH (r - 1) ltac:(lia) E) as (i & A & B & C). exists i. split; [lia|]. split; assumption.
    + exists r. split; [lia|]. split; [exact Hr|right; lia].
Qed.

(* the last step left the shape alone *)
Lemma unstop : forall L' g' d, shape L' -> Incr L' g' -> Nonneg L' g' -> corner L' d -> exists a c,
  Ins L' g' (fst c) a L' g' c false /\ recorded L' c false d /\ 0 <= a /\ 1 <= fst c.
Proof.
  intros L g [r s] S I N C. pose proof C as (C1 & C2 & C3 & C4). cbn [fst snd] in *. pose proof I as [I1 I2].
  destruct (first_row L s S (Z.to_nat (r - 1)) r ltac:(lia) C3) as (i & Hi & Li & Top).
  set (a := if i =? 1 then g i s else Z.max (g i s) (g (i - 1) (s + 1))).
  assert (A1 : g i s <= a) by (unfold a; destruct (i =? 1); lia).
  assert (A2 : 2 <= i -> g (i - 1) (s + 1) <= a) by (intro; unfold a; destruct (Z.eqb_spec i 1); lia).
  assert (A4 : a = g i s \/ 2 <= i /\ a = g (i - 1) (s + 1)) by (unfold a; destruct (Z.eqb_spec i 1); lia).
  assert (A5 : 0 <= a). { pose proof (N i s ltac:(lia) ltac:(lia)). lia. }
  clearbody a. exists a, (i, L i + 1). split; [|split; [|split; [exact A5|cbn [fst]; lia]]].
  - cbn [fst]. apply ins_stop.
    + split; [exact S|]. split; [exact I|]. split; [lia|]. destruct Top as [E|E]; [left; exact E|]. destruct (Z.eq_dec i 1); [left; assumption|right; split; [lia|]].
      destruct (last_le (g (i - 1)) a (L (i - 1)) (s + 1) (A2 ltac:(lia)) ltac:(lia)) as (y & Y1 & Y2 & Y3). exists y. split; [lia|]. split; [exact Y2|]. split; [exact Y3|]. split; lia.
    + intros x Hx. destruct (Z.eq_dec x s) as [->|]; [exact A1|]. pose proof (row_mono L g i x s I ltac:(lia) ltac:(lia) ltac:(lia) ltac:(lia)). lia.
    + intros [K1 K2]. specialize (K1 s ltac:(lia)). rewrite Li in K2. lia.
  - split; [exact C|]. cbn [fst snd]. lia.
Qed.

Lemma unstep : forall L' g' d (k : bool), shape L' -> Incr L' g' -> Nonneg L' g' -> corner L' d -> exists L g a L'' g'' c,
  Ins L g 1 a L'' g'' c k /\ recorded L'' c k d /\ (forall r, L'' r = L' r) /\ same g'' g' /\ Nonneg L g /\ 0 <= a.
Proof.
  intros L' g' d k S I N C. destruct k.
  - destruct (unadd L' g' d S I N C) as (L & a & L'' & g'' & A & B & D & E & F). pose proof C as (C1 & C2 & C3 & C4).
    destruct (pull_all (Z.to_nat (fst d - 1)) L g' (fst d) a L'' g'' d true ltac:(lia) A E F) as (h & b & h' & R1 & R2 & R3 & R4).
    exists L, h, b, L'', h', d. split; [exact R1|]. split; [split; [|reflexivity]|split; [exact B|split; [|split; assumption]]].
    + unfold corner. rewrite !B. exact C.
    + intros r s. rewrite R2. apply D.
  - destruct (unstop L' g' d S I N C) as (a & c & A & B & D & E).
    destruct (pull_all (Z.to_nat (fst c - 1)) L' g' (fst c) a L' g' c false ltac:(lia) A N D) as (h & b & h' & R1 & R2 & R3 & R4).
    exists L', h, b, L', h', c. split; [exact R1|]. split; [exact B|]. split; [reflexivity|]. split; [exact R2|]. split; assumption.
Qed.
