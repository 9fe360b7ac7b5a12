(* C105: Partition.skew_key is a complete invariant of skew shapes up to translation.  Shifted shapes that meet the main
   diagonal may only be moved along it. *)
From Coq Require Import List ZArith Bool Lia Permutation.
From Verif Require Import PyBase M_PolyHash M_Partitions S_Partitions P_Partitions M_SkewKey S_SkewKey L_SkewKey.
Import ListNotations.
Local Open Scope Z_scope.

Lemma skew_facts : forall mu nu b, Forall (fun a => 0 <= a) nu -> NoDup (skew mu nu b) /\ forall i j, In (i, j) (skew mu nu b) <-> skew_cell b mu nu i j.
Proof. intros mu nu b H. destruct (C20_shapes mu nu H) as (_ & _ & N1 & N2 & _ & _ & E1 & E2). destruct b; split; assumption. Qed.
Lemma skew_pos : forall mu nu, Forall (fun a => 0 <= a) nu -> all_pos (skew mu nu false).
Proof. intros mu nu H i j I. apply (proj2 (skew_facts mu nu false H)) in I. destruct I as [[A B] _]. lia. Qed.
Lemma skew_upper : forall mu nu, Forall (fun a => 0 <= a) nu -> upper (skew mu nu true).
Proof. intros mu nu H i j I. apply (proj2 (skew_facts mu nu true H)) in I. destruct I as [[A B] _]. lia. Qed.
Lemma key_empty : forall mu nu b, skew mu nu b = [] -> skew_key mu nu b = Ok [].
Proof. intros mu nu b E. unfold skew_key. rewrite E. reflexivity. Qed.
Lemma key_plain : forall mu nu, Forall (fun a => 0 <= a) nu -> skew mu nu false <> [] ->
  exists a b, skew_key mu nu false = Ok (sort_by pkey (moved a b (skew mu nu false))) /\
    all_pos (moved a b (skew mu nu false)) /\ (exists j, In (1, j) (moved a b (skew mu nu false))) /\ (exists i, In (i, 1) (moved a b (skew mu nu false))).
Proof.
  intros mu nu H N. destruct (loop_plain (headsum (skew mu nu false)) _ N (skew_pos mu nu H) (le_n _)) as (a & b & E & R).
  exists a, b. split; [|exact R]. unfold skew_key. unfold headsum in E. rewrite E. reflexivity.
Qed.
Lemma key_shifted : forall mu nu, Forall (fun a => 0 <= a) nu -> skew mu nu true <> [] ->
  exists a m, skew_key mu nu true = Ok (sort_by pkey (moved 0 m (moved a a (skew mu nu true)))) /\ 0 <= m /\
    upper (moved a a (skew mu nu true)) /\ (exists j, In (1, j) (moved a a (skew mu nu true))) /\
    blocked (moved a a (skew mu nu true)) m /\ forall k, 0 <= k < m -> ~ blocked (moved a a (skew mu nu true)) k.
Proof.
  intros mu nu H N. destruct (loop_shifted (headsum (skew mu nu true)) _ N (skew_upper mu nu H) (le_n _)) as (a & m & Hm & E & R).
  exists a, m. split; [|split; [exact Hm|exact R]]. unfold skew_key. unfold headsum in E. rewrite E. reflexivity.
Qed.
Lemma sort_increasing : forall l, NoDup l -> increasing_pairs (sort_by pkey l).
Proof.
  assert (INS : forall x l, ~ In x l -> increasing_pairs l -> increasing_pairs (sort_insert pkey x l)).
  { intros [a b]. induction l as [|[c d] l IH]; intros N I; [exact Logic.I|]. cbn [sort_insert]. destruct (lex_leb [fst (a, b); snd (a, b)] [fst (c, d); snd (c, d)]) eqn:E.
    - apply leb_pair in E. cbn [fst snd] in E. split; [|exact I]. destruct E as [E|[E F]]; [left; exact E|right]. split; [exact E|]. destruct (Z.eq_dec b d) as [->|]; [|lia]. exfalso. apply N. left. congruence.
    - apply leb_pair_false in E. cbn [fst snd] in E. assert (I' : increasing_pairs l) by (destruct l as [|[e f] l]; [exact Logic.I|apply I]). specialize (IH (fun X => N (or_intror X)) I').
      destruct l as [|[e f] l]; [cbn; lia|]. cbn [sort_insert] in IH |- *. destruct (lex_leb [fst (a, b); snd (a, b)] [fst (e, f); snd (e, f)]); (split; [|exact IH]); [lia|apply I]. }
  induction 1 as [|x l N D IH]; [exact Logic.I|]. unfold sort_by in *. cbn [fold_right]. apply INS; [|exact IH]. rewrite (sort_In l x). exact N.
Qed.

(* skew_key returns, and its value is a translate of the shape, listed in order *)
Theorem C105_total : forall mu nu shifted, Forall (fun a => 0 <= a) nu ->
  exists k a b, skew_key mu nu shifted = Ok k /\ increasing_pairs k /\
    translated (fun i j => In (i, j) k) (skew_cell shifted mu nu) a b /\ (forall i j, In (i, j) k -> 1 <= i /\ 1 <= j).
Proof.
  intros mu nu sh H. destruct (skew_facts mu nu sh H) as [ND EQ].
  destruct (skew mu nu sh) as [|p s] eqn:ES.
  - exists [], 0, 0. split; [apply key_empty; exact ES|]. split; [exact Logic.I|]. split; [|intros i j []]. intros i j. rewrite !Z.add_0_r, <- EQ. reflexivity.
  - rewrite <- ES in *. assert (N : skew mu nu sh <> []) by (rewrite ES; discriminate). clear ES. destruct sh.
    + destruct (key_shifted mu nu H N) as (a & m & E & Hm & U & R & B & L).
      eexists. exists a, (m + a). split; [exact E|]. split; [apply sort_increasing; apply moved_NoDup; apply moved_NoDup; exact ND|]. split.
      * intros i j. rewrite sort_In, !In_moved, EQ, Z.add_0_r, Z.add_assoc. reflexivity.
      * intros i j I. rewrite sort_In, In_moved in I. destruct (U _ _ I) as [P1 P2]. rewrite Z.add_0_r in *. split; [exact P1|]. destruct (Z_le_gt_dec 1 j) as [|G]; [assumption|]. exfalso.
        apply (L (j + m - 1)); [lia|]. exists i, (j + m). split; [exact I|left; lia].
    + destruct (key_plain mu nu H N) as (a & b & E & P & R). eexists. exists a, b. split; [exact E|]. split; [apply sort_increasing; apply moved_NoDup; exact ND|]. split.
      * intros i j. rewrite sort_In, In_moved, EQ. reflexivity.
      * intros i j I. rewrite sort_In in I. apply P. exact I.
Qed.
Print Assumptions C105_total.

Lemma not_nil_In : forall (s : list (Z * Z)), s <> [] -> exists i j, In (i, j) s.
Proof. intros [|[i j] s] N; [congruence|]. exists i, j. left. reflexivity. Qed.
Lemma keys_of_empty : forall mu nu mu' nu' sh, Forall (fun a => 0 <= a) nu -> Forall (fun a => 0 <= a) nu' -> skew mu nu sh = [] -> skew mu' nu' sh <> [] ->
  skew_key mu nu sh <> skew_key mu' nu' sh /\ (forall c d, ~ translated (skew_cell sh mu nu) (skew_cell sh mu' nu') c d) /\ skew_key mu' nu' sh <> skew_key mu nu sh /\ (forall c d, ~ translated (skew_cell sh mu' nu') (skew_cell sh mu nu) c d).
Proof.
  intros mu nu mu' nu' sh H H' E N. destruct (not_nil_In _ N) as (i & j & I). apply (proj2 (skew_facts mu' nu' sh H')) in I.
  assert (NO : forall x y, ~ skew_cell sh mu nu x y) by (intros x y X; apply (proj2 (skew_facts mu nu sh H)) in X; rewrite E in X; exact X).
  assert (K : skew_key mu nu sh <> skew_key mu' nu' sh).
  { rewrite (key_empty mu nu sh E). destruct (C105_total mu' nu' sh H') as (k & a & b & -> & _ & T & _). intro X. injection X as <-. apply (T (i - a) (j - b)). rewrite !Z.sub_add. exact I. }
  split; [exact K|]. split; [|split; [congruence|]].
  - intros c d T. apply (NO (i - c) (j - d)). apply T. rewrite !Z.sub_add. exact I.
  - intros c d T. apply T in I. exact (NO _ _ I).
Qed.
Lemma translated_refl_empty : forall mu nu mu' nu' sh, Forall (fun a => 0 <= a) nu -> Forall (fun a => 0 <= a) nu' -> skew mu nu sh = [] -> skew mu' nu' sh = [] -> translated (skew_cell sh mu nu) (skew_cell sh mu' nu') 0 0.
Proof. intros mu nu mu' nu' sh H H' E E' i j. rewrite !Z.add_0_r. rewrite <- (proj2 (skew_facts mu nu sh H)), <- (proj2 (skew_facts mu' nu' sh H')), E, E'. reflexivity. Qed.
Lemma ok_inj : forall (x y : list (Z * Z)), Ok x = Ok y <-> x = y.
Proof. intros x y. split; [intro E; injection E; auto|intros ->; reflexivity]. Qed.

(* unshifted: the keys agree exactly for translates *)
Theorem C105_unshifted : forall mu nu mu' nu', Forall (fun a => 0 <= a) nu -> Forall (fun a => 0 <= a) nu' ->
  (skew_key mu nu false = skew_key mu' nu' false <-> exists c d, translated (skew_cell false mu nu) (skew_cell false mu' nu') c d).
Proof.
  intros mu nu mu' nu' H H'.
  assert (DEC : forall m n, {skew m n false = []} + {skew m n false <> []}) by (intros m n; destruct (skew m n false); [left; reflexivity|right; discriminate]).
  destruct (DEC mu nu) as [E|N], (DEC mu' nu') as [E'|N'].
  - split; intro X; [exists 0, 0; apply translated_refl_empty; assumption|]. rewrite (key_empty mu nu false E), (key_empty mu' nu' false E'). reflexivity.
  - destruct (keys_of_empty mu nu mu' nu' false H H' E N') as (A & B & _). split; [intro X; contradiction|intros (c & d & T); destruct (B c d T)].
  - destruct (keys_of_empty mu' nu' mu nu false H' H E' N) as (_ & _ & A & B). split; [intro X; contradiction|intros (c & d & T); destruct (B c d T)].
  - destruct (key_plain mu nu H N) as (a & b & E & P & (r & R) & (s & S)). destruct (key_plain mu' nu' H' N') as (a' & b' & E' & P' & (r' & R') & (s' & S')).
    destruct (skew_facts mu nu false H) as [ND EQ]. destruct (skew_facts mu' nu' false H') as [ND' EQ'].
    rewrite E, E', ok_inj, sort_eq by (apply moved_NoDup; assumption). split.
    + intro K. exists (a' - a), (b' - b). intros i j. rewrite <- EQ, <- EQ'. specialize (K (i - a) (j - b)). rewrite !In_moved, !Z.sub_add in K.
      replace (i + (a' - a)) with (i - a + a') by lia. replace (j + (b' - b)) with (j - b + b') by lia. exact K.
    + intros (c & d & T).
      assert (T' : forall i j, In (i, j) (moved a b (skew mu nu false)) <-> In (i + (a + c - a'), j + (b + d - b')) (moved a' b' (skew mu' nu' false))).
      { intros i j. rewrite !In_moved, EQ, EQ'. rewrite (T (i + a) (j + b)). replace (i + (a + c - a') + a') with (i + a + c) by lia. replace (j + (b + d - b') + b') with (j + b + d) by lia. reflexivity. }
      set (e := a + c - a') in *. set (f := b + d - b') in *.
      assert (e = 0).
      { pose proof (proj1 (P' _ _ (proj1 (T' _ _) R))). specialize (T' (1 - e) (r' - f)). rewrite !Z.sub_add in T'. pose proof (proj1 (P _ _ (proj2 T' R'))). lia. }
      assert (f = 0).
      { pose proof (proj2 (P' _ _ (proj1 (T' _ _) S))). specialize (T' (s' - e) (1 - f)). rewrite !Z.sub_add in T'. pose proof (proj2 (P _ _ (proj2 T' S'))). lia. }
      intros i j. rewrite T'. replace (i + e) with i by lia. replace (j + f) with j by lia. reflexivity.
Qed.
Print Assumptions C105_unshifted.

(* what the column moves of the shifted loop leave *)
Lemma offset_free : forall D m, 0 <= m -> upper D -> (forall i, ~ In (i, i) D) -> blocked D m -> (forall k, 0 <= k < m -> ~ blocked D k) ->
  (forall i j, In (i, j) D -> m + 1 <= j - i) /\ exists i j, In (i, j) D /\ j - i = m + 1.
Proof.
  intros D m Hm U ND B L.
  assert (LOW : forall i j, In (i, j) D -> m + 1 <= j - i).
  { intros i j I. destruct (U i j I) as [U1 U2]. assert (i <> j) by (intro; subst; exact (ND _ I)). destruct (Z_le_gt_dec (m + 1) (j - i)) as [|G]; [assumption|]. exfalso.
    apply (L (j - i - 1)); [lia|]. exists i, j. split; [exact I|right; lia]. }
  split; [exact LOW|]. destruct B as (i & j & I & [C|C]).
  - pose proof (LOW i j I). destruct (U i j I). lia.
  - exists i, j. split; [exact I|lia].
Qed.

(* shifted: the keys agree for translates along the diagonal, and for all translates off the diagonal *)
Theorem C105_shifted : forall mu nu mu' nu', Forall (fun a => 0 <= a) nu -> Forall (fun a => 0 <= a) nu' ->
  (skew_key mu nu true = skew_key mu' nu' true <->
     (exists c, translated (skew_cell true mu nu) (skew_cell true mu' nu') c c) \/
     (~ on_diagonal (skew_cell true mu nu) /\ ~ on_diagonal (skew_cell true mu' nu') /\
      exists c d, translated (skew_cell true mu nu) (skew_cell true mu' nu') c d)).
Proof.
  intros mu nu mu' nu' H H'.
  assert (DEC : forall m n, {skew m n true = []} + {skew m n true <> []}) by (intros m n; destruct (skew m n true); [left; reflexivity|right; discriminate]).
  destruct (DEC mu nu) as [E|N], (DEC mu' nu') as [E'|N'].
  - split; intro X; [left; exists 0; apply translated_refl_empty; assumption|]. rewrite (key_empty mu nu true E), (key_empty mu' nu' true E'). reflexivity.
  - destruct (keys_of_empty mu nu mu' nu' true H H' E N') as (A & B & _). split; [intro X; contradiction|intros [(c & T)|(_ & _ & c & d & T)]; [destruct (B c c T)|destruct (B c d T)]].
  - destruct (keys_of_empty mu' nu' mu nu true H' H E' N) as (_ & _ & A & B). split; [intro X; contradiction|intros [(c & T)|(_ & _ & c & d & T)]; [destruct (B c c T)|destruct (B c d T)]].
  - destruct (key_shifted mu nu H N) as (a & m & E & Hm & U & (r & R) & BL & L). destruct (key_shifted mu' nu' H' N') as (a' & m' & E' & Hm' & U' & (r' & R') & BL' & L').
    destruct (skew_facts mu nu true H) as [ND EQ]. destruct (skew_facts mu' nu' true H') as [ND' EQ'].
    rewrite E, E', ok_inj, sort_eq by (apply moved_NoDup; apply moved_NoDup; assumption). clear E E'.
    assert (DE : forall i j, In (i, j) (moved a a (skew mu nu true)) <-> skew_cell true mu nu (i + a) (j + a)) by (intros i j; rewrite In_moved; apply EQ).
    assert (DE' : forall i j, In (i, j) (moved a' a' (skew mu' nu' true)) <-> skew_cell true mu' nu' (i + a') (j + a')) by (intros i j; rewrite In_moved; apply EQ').
    set (D := moved a a (skew mu nu true)) in *. set (D' := moved a' a' (skew mu' nu' true)) in *. clearbody D D'. clear N N' EQ EQ' ND ND'.
    assert (DG : on_diagonal (skew_cell true mu nu) <-> exists i, In (i, i) D).
    { split; intros (i & I); [exists (i - a); apply DE; rewrite !Z.sub_add; exact I|exists (i + a); apply DE; exact I]. }
    assert (DG' : on_diagonal (skew_cell true mu' nu') <-> exists i, In (i, i) D').
    { split; intros (i & I); [exists (i - a'); apply DE'; rewrite !Z.sub_add; exact I|exists (i + a'); apply DE'; exact I]. }
    split.
    + intro K.
      assert (K' : forall i j, In (i, j) D <-> In (i, j - m + m') D').
      { intros i j. specialize (K i (j - m)). rewrite !In_moved, !Z.add_0_r, !Z.sub_add in K. exact K. }
      assert (T : translated (skew_cell true mu nu) (skew_cell true mu' nu') (a' - a) (a' - a + m' - m)).
      { intros i j. specialize (K' (i - a) (j - a)). rewrite DE, DE', !Z.sub_add in K'. rewrite K'. replace (i - a + a') with (i + (a' - a)) by lia. replace (j - a - m + m' + a') with (j + (a' - a + m' - m)) by lia. reflexivity. }
      assert (DD : forall i j, In (i, j) D' <-> In (i, j - m' + m) D) by (intros i j; rewrite K'; replace (j - m' + m - m + m') with j by lia; reflexivity).
      assert (DECD : forall l : list (Z * Z), {exists i, In (i, i) l} + {forall i, ~ In (i, i) l}).
      { intro l. destruct (existsb (fun p => fst p =? snd p) l) eqn:X.
        - left. apply existsb_exists in X. destruct X as ([i j] & I & X). cbn [fst snd] in X. apply Z.eqb_eq in X. subst. exists j. exact I.
        - right. intros i I. assert (Y : existsb (fun p => fst p =? snd p) l = true) by (apply existsb_exists; exists (i, i); split; [exact I|apply Z.eqb_refl]). congruence. }
      destruct (DECD D) as [(x & X)|NX], (DECD D') as [(y & Y)|NY].
      * assert (m = m'). { apply K' in X. apply DD in Y. destruct (U' _ _ X). destruct (U _ _ Y). lia. }
        left. exists (a' - a). replace (a' - a + m' - m) with (a' - a) in T by lia. exact T.
      * exfalso. destruct (offset_free D' m' Hm' U' NY BL' L') as [LOW _]. apply K' in X. specialize (LOW _ _ X). lia.
      * exfalso. destruct (offset_free D m Hm U NX BL L) as [LOW _]. apply DD in Y. specialize (LOW _ _ Y). lia.
      * right. split; [rewrite DG; intros (i & I); exact (NX i I)|]. split; [rewrite DG'; intros (i & I); exact (NY i I)|]. eexists. eexists. exact T.
    + assert (ROW : forall c d, translated (skew_cell true mu nu) (skew_cell true mu' nu') c d -> a' = a + c /\ forall i j, In (i, j) D <-> In (i, j + (a + d - a')) D').
      { intros c d T.
        assert (T' : forall i j, In (i, j) D <-> In (i + (a + c - a'), j + (a + d - a')) D').
        { intros i j. rewrite DE, DE'. rewrite (T (i + a) (j + a)). replace (i + (a + c - a') + a') with (i + a + c) by lia. replace (j + (a + d - a') + a') with (j + a + d) by lia. reflexivity. }
        assert (a' = a + c).
        { pose proof (proj1 (U' _ _ (proj1 (T' _ _) R))). specialize (T' (1 - (a + c - a')) (r' - (a + d - a'))). rewrite !Z.sub_add in T'. pose proof (proj1 (U _ _ (proj2 T' R'))). lia. }
        split; [assumption|]. intros i j. rewrite T'. replace (i + (a + c - a')) with i by lia. reflexivity. }
      intros [(c & T)|(ND & ND' & c & d & T)].
      * destruct (ROW c c T) as [Ea SET]. replace (a + c - a') with 0 in SET by lia.
        assert (SET' : forall i j, In (i, j) D <-> In (i, j) D') by (intros i j; rewrite SET, Z.add_0_r; reflexivity).
        assert (BB : forall k, blocked D k <-> blocked D' k) by (intro k; unfold blocked; split; intros (i & j & I & X); exists i, j; (split; [apply SET'; exact I|exact X])).
        assert (m = m').
        { destruct (Z.lt_trichotomy m m') as [X|[X|X]]; [exfalso; apply (L' m); [lia|apply BB; exact BL]|exact X|exfalso; apply (L m'); [lia|apply BB; exact BL']]. }
        subst m'. intros i j. rewrite !In_moved. apply SET'.
      * destruct (ROW c d T) as [Ea SET].
        destruct (offset_free D m Hm U) as [LOW (x & y & I & X)]; [intros i I; apply ND, DG; exists i; exact I|exact BL|exact L|].
        destruct (offset_free D' m' Hm' U') as [LOW' (x' & y' & I' & X')]; [intros i I'; apply ND', DG'; exists i; exact I'|exact BL'|exact L'|].
        set (f := a + d - a') in *.
        assert (f = m' - m).
        { pose proof (LOW' _ _ (proj1 (SET _ _) I)). specialize (SET x' (y' - f)). rewrite Z.sub_add in SET. pose proof (LOW _ _ (proj2 SET I')). lia. }
        intros i j. rewrite !In_moved, !Z.add_0_r. rewrite SET. replace (j + m + f) with (j + m') by lia. reflexivity.
Qed.
Print Assumptions C105_shifted.

(* two translates, two shapes off the diagonal, and a shape whose diagonal box is pushed below the diagonal *)
Example C105_example : skew_key [4; 3; 3] [3; 2] false = Ok [(1, 4); (2, 3); (3, 1); (3, 2); (3, 3)] /\
  skew_key [5; 4] [3; 2] true = skew_key [7; 6] [5; 4] true /\ skew_key [5; 4] [3; 2] true = Ok [(1, 3); (1, 4); (2, 3); (2, 4)] /\
  skew_key [3; 1] [2] true = Ok [(1, 2); (2, 1)] /\ skew_key [4; 3] [3; 2] false = skew_key [3; 2; 1] [3; 1] false.
Proof. vm_compute. repeat split. Qed.
