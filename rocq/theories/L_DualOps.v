From Coq Require Import List ZArith Lia Bool.
From Verif Require Import PyBase M_Perm M_Partitions S_Partitions L_Partitions L_PartBasic L_PartMore L_PartCorners
  M_Operators S_Operators L_Operators L_Operators2.
Import ListNotations.
Local Open Scope Z_scope.

Lemma row_firstn : forall n mu i, row (firstn n mu) i = if (i <? n)%nat then row mu i else 0.
Proof.
  unfold row. induction n as [|n IH]; intros mu i; [destruct i; reflexivity|].
  destruct mu as [|a mu].
  { destruct (i <? S n)%nat; destruct i; reflexivity. }
  destruct i as [|i]; [reflexivity|]. cbn [firstn nth]. rewrite IH. reflexivity.
Qed.
Lemma row_skipn : forall n mu i, row (skipn n mu) i = row mu (n + i).
Proof.
  unfold row. induction n as [|n IH]; intros mu i; [reflexivity|].
  destruct mu as [|a mu]; [destruct i; reflexivity|]. cbn [skipn Nat.add nth]. apply IH.
Qed.

Lemma slice_to_nat : forall mu k, slice_to mu (Z.of_nat k) = firstn k mu.
Proof. intros. unfold slice_to. replace (Z.of_nat k <? 0) with false by (symmetry; apply Z.ltb_ge; lia). rewrite Nat2Z.id. reflexivity. Qed.
Lemma slice_from_nat : forall mu k, slice_from mu (Z.of_nat k) = skipn k mu.
Proof. intros. unfold slice_from. replace (Z.of_nat k <? 0) with false by (symmetry; apply Z.ltb_ge; lia). rewrite Nat2Z.id. reflexivity. Qed.

(* rows of mu[:q] + mid + mu[q + len(mid):] *)
Lemma splice_row : forall mu q mid i, (q <= length mu)%nat -> (mid <> [])%nat ->
  row (firstn q mu ++ mid ++ skipn (q + length mid) mu) i =
  if (i <? q)%nat then row mu i else if (i <? q + length mid)%nat then row mid (i - q) else row mu i.
Proof.
  intros mu q mid i Hq Hm. rewrite !app_row, firstn_length, (Nat.min_l q) by assumption.
  destruct (Nat.ltb_spec i q) as [L|L].
  - rewrite row_firstn. destruct (Nat.ltb_spec i q); [reflexivity|lia].
  - destruct (Nat.ltb_spec i (q + length mid)) as [L2|L2]; destruct (Nat.ltb_spec (i - q) (length mid)) as [L3|L3]; try lia; try reflexivity.
    rewrite row_skipn. f_equal. lia.
Qed.

Lemma splice_length : forall mu q (mid : list Z), (q <= length mu)%nat ->
  length (firstn q mu ++ mid ++ skipn (q + length mid) mu) = Nat.max (length mu) (q + length mid).
Proof. intros. rewrite !app_length, firstn_length, skipn_length. lia. Qed.

(* gap between rows of a strict partition, one past the end allowed *)
Lemma strict_gap_end : forall mu q k, strict_partition mu -> (q <= k)%nat -> (k <= length mu)%nat ->
  row mu k + Z.of_nat (k - q) <= row mu q.
Proof.
  intros mu q k Hs Hq Hk. destruct (Nat.eq_dec k q) as [->|N]; [rewrite Nat.sub_diag; simpl; lia|].
  pose proof (strict_gap mu q (k - 1 - q) Hs ltac:(lia)) as G. replace (q + (k - 1 - q))%nat with (k - 1)%nat in G by lia.
  pose proof (row_decr_strict mu Hs (k - 1) k ltac:(lia) ltac:(lia)). lia.
Qed.

Lemma strip_ksplit : forall mu nu p, strict_partition mu -> strict_partition nu ->
  row mu p < row nu p -> (forall i, (i < p)%nat -> row nu i = row mu i \/ row nu i = row mu i + 1) ->
  (forall i, (p < i)%nat -> row nu i = row mu i) -> row nu p = row mu p + 1 \/ (forall i, (i < p)%nat -> row nu i = row mu i) ->
  ksplit mu (row mu p) p.
Proof.
  intros mu nu p Hm Hn Hp Hb Ha Hor. pose proof (strict_nonneg mu p Hm) as P0.
  assert (Hl : (p < length nu)%nat) by (apply row_in_range; lia).
  split; [|split; [lia|]].
  - intros i Hi. pose proof (row_decr_strict nu Hn i p Hi ltac:(lia)) as D.
    destruct Hor as [E|E]; [destruct (Hb i Hi); lia|rewrite (E i Hi) in D; lia].
  - destruct (Nat.le_gt_cases p (length mu)) as [|C]; [assumption|]. exfalso.
    pose proof (row_decr_strict nu Hn (p - 1) p ltac:(lia) ltac:(lia)) as D.
    rewrite (row_overflow mu p) in Hp, Hor by lia.
    destruct Hor as [E|E].
    + destruct (Hb (p - 1)%nat ltac:(lia)) as [F|F]; rewrite (row_overflow mu (p - 1)) in F by lia; lia.
    + rewrite (E (p - 1)%nat) in D by lia. rewrite (row_overflow mu (p - 1)) in D by lia. lia.
Qed.

(* ---- horizontal ---- *)
Lemma horizontal_spec : forall a b mu, strict_partition mu -> 0 <= a <= b ->
  exists r, sh_horizontal_strip a b (Some mu) = Ok r /\
    forall nu, r = Some nu <-> strict_partition nu /\ row_strip_added mu nu a b.
Proof.
  intros a b mu Hs Hab. destruct (ksplit_ex mu a ltac:(lia)) as [k HK]. pose proof HK as (K1 & K2 & K3).
  unfold sh_horizontal_strip. replace ((0 <=? a) && (a <=? b)) with true by (symmetry; apply andb_true_iff; rewrite !Z.leb_le; lia).
  rewrite (walk_outer mu a k (isin_shifted mu) ltac:(lia) HK (fun _ _ => eq_refl)). cbn [rbind].
  pose proof (strict_nonneg mu k Hs) as P0.
  assert (A : ((Z.of_nat k + 1 =? Z.of_nat k + 1 + a) || isin_shifted mu (Z.of_nat k + 1) (Z.of_nat k + 1 + a - 1) = true) <-> row mu k = a).
  { rewrite orb_true_iff, Z.eqb_eq, isin_row, andb_true_iff, !Z.leb_le. lia. }
  assert (B : ((Z.of_nat k + 1 =? 1) || isin_shifted mu (Z.of_nat k + 1 - 1) (Z.of_nat k + 1 + a + b - a) = true)
              <-> (k = 0%nat \/ b + 1 < row mu (k - 1))).
  { rewrite orb_true_iff, Z.eqb_eq. destruct k as [|p]; [cbn; lia|].
    replace (Z.of_nat (S p) + 1 - 1) with (Z.of_nat p + 1) by lia. rewrite isin_row, andb_true_iff, !Z.leb_le, Nat.sub_succ, Nat.sub_0_r. lia. }
  (* any strip is at row k *)
  assert (Only : forall nu, strict_partition nu -> row_strip_added mu nu a b ->
            row mu k = a /\ (k = 0%nat \/ b + 1 < row mu (k - 1)) /\ row nu k = b + 1 /\ (forall i, i <> k -> row nu i = row mu i)).
  { intros nu Hn H. apply row_strip_rows in H; [|assumption|assumption|assumption]. destruct H as (p & E1 & E2 & E3).
    assert (HK' : ksplit mu a p).
    { rewrite <- E1. apply (strip_ksplit mu nu p Hs Hn); [lia| | |].
      - intros i Hi. left. apply E3. lia.
      - intros i Hi. apply E3. lia.
      - right. intros i Hi. apply E3. lia. }
    pose proof (ksplit_unique mu a k p HK HK') as <-. split; [assumption|]. split; [|split; assumption].
    destruct k as [|q]; [left; reflexivity|right]. rewrite Nat.sub_succ, Nat.sub_0_r.
    pose proof (strict_row_lt nu q (S q) Hn ltac:(lia)) as D. rewrite (E3 q) in D by lia. specialize (K1 q ltac:(lia)). lia. }
  destruct (_ && _) eqn:E.
  - apply andb_true_iff in E. destruct E as [EA EB]. apply A in EA. apply B in EB.
    eexists. split; [reflexivity|].
    replace (Z.of_nat k + 1 - 1) with (Z.of_nat k) by lia. replace (slice_from mu (Z.of_nat k + 1)) with (skipn (S k) mu)
      by (rewrite <- slice_from_nat; f_equal; lia).
    rewrite slice_to_nat, get_S, EA.
    set (nu0 := firstn k mu ++ [a + b - a + 1] ++ skipn (S k) mu).
    assert (Hr : forall i, row nu0 i = if (i =? k)%nat then b + 1 else row mu i).
    { intro i. pose proof (splice_row mu k [a + b - a + 1] i K3 ltac:(discriminate)) as Q. cbn [length] in Q.
      rewrite Nat.add_1_r in Q. fold nu0 in Q. rewrite Q.
      destruct (Nat.ltb_spec i k), (Nat.ltb_spec i (S k)), (Nat.eqb_spec i k); try lia; try reflexivity.
      replace (i - k)%nat with 0%nat by lia. unfold row. cbn. lia. }
    assert (Hl : length nu0 = Nat.max (length mu) (S k)).
    { pose proof (splice_length mu k [a + b - a + 1] K3) as Q. cbn [length] in Q. rewrite Nat.add_1_r in Q. exact Q. }
    assert (Hst : strict_partition nu0).
    { apply strict_of_rows.
      - intros i Hi. rewrite Hr. destruct (Nat.eqb_spec i k); [lia|]. apply row_pos; [apply Hs|lia].
      - intros i Hi. rewrite !Hr. destruct (Nat.eqb_spec (S i) k) as [F|F].
        + replace (i =? k)%nat with false by (symmetry; apply Nat.eqb_neq; lia). destruct EB as [EB|EB]; [lia|].
          subst k. rewrite Nat.sub_succ, Nat.sub_0_r in EB. lia.
        + destruct (Nat.eqb_spec i k) as [F'|F'].
          * subst i. pose proof (proj2 Hs k ltac:(lia)). lia.
          * apply (proj2 Hs). lia. }
    intro nu. split.
    + intro Q. injection Q as <-. split; [assumption|]. apply row_strip_rows; [assumption|assumption|assumption|].
      exists k. split; [assumption|]. split; [rewrite Hr, Nat.eqb_refl; reflexivity|].
      intros i Hi. rewrite Hr. destruct (Nat.eqb_spec i k); [contradiction|reflexivity].
    + intros [Hn H]. destruct (Only nu Hn H) as (_ & _ & F1 & F2). f_equal.
      apply pos_ext; [apply Hst|apply Hn|]. intro i. rewrite Hr. destruct (Nat.eqb_spec i k) as [->|]; [lia|]. symmetry. apply F2. assumption.
  - exists None. split; [reflexivity|]. intro nu. split; [discriminate|]. intros [Hn H]. exfalso.
    destruct (Only nu Hn H) as (F1 & F2 & _). apply A in F1. apply B in F2. rewrite F1, F2 in E. discriminate.
Qed.

(* ---- vertical ---- *)
Lemma column_strip_rows : forall mu nu a b, strict_partition mu -> strict_partition nu -> 0 <= a <= b ->
  (column_strip_added mu nu a b <-> exists q p, (q <= p)%nat /\ Z.of_nat p - Z.of_nat q = b - a /\
     (forall i, (q <= i <= p)%nat -> row mu i = a + (Z.of_nat p - Z.of_nat i) /\ row nu i = row mu i + 1) /\
     (forall i, ~ (q <= i <= p)%nat -> row nu i = row mu i)).
Proof.
  intros mu nu a b Hm Hn Hab. split.
  - intros (c & H1 & H2).
    assert (Hc : 1 <= c - b).
    { assert (C : shifted_cell nu (c - b) c) by (apply H2; right; lia). unfold shifted_cell in C. lia. }
    set (q := Z.to_nat (c - b - 1)). set (p := Z.to_nat (c - a - 1)).
    assert (Eq : Z.of_nat q = c - b - 1) by lia. assert (Ep : Z.of_nat p = c - a - 1) by lia. clearbody p q.
    exists q, p. split; [lia|]. split; [lia|]. split.
    + intros i Hi. pose proof (strict_nonneg mu i Hm) as P0.
      assert (N : ~ shifted_cell mu (Z.of_nat i + 1) c).
      { specialize (H1 (c - (Z.of_nat i + 1)) ltac:(lia)). replace (c - (c - (Z.of_nat i + 1))) with (Z.of_nat i + 1) in H1 by lia. assumption. }
      assert (M : shifted_cell nu (Z.of_nat i + 1) c) by (apply H2; right; lia).
      assert (Ei : row mu i = a + (Z.of_nat p - Z.of_nat i)).
      { rewrite scell_row in N. destruct (Z_lt_le_dec (row mu i) (c - 1 - Z.of_nat i)) as [C|C]; [|lia]. exfalso.
        assert (M2 : shifted_cell nu (Z.of_nat i + 1) (c - 1)) by (rewrite scell_row in *; lia).
        apply H2 in M2. rewrite scell_row in M2. lia. }
      split; [assumption|]. apply (cells_rows mu nu Hn Hm); [|lia]. intro j. rewrite H2, scell_row. lia.
    + intros i Hi. apply (cells_rows mu nu Hn Hm); [|apply strict_nonneg; assumption]. intro j. rewrite H2, scell_row. lia.
  - intros (q & p & Hqp & E1 & E2 & E3). exists (Z.of_nat p + 1 + a). split.
    + intros d Hd. set (i := Z.to_nat (Z.of_nat p + a - d)). assert (Ei : Z.of_nat i = Z.of_nat p + a - d) by lia.
      replace (Z.of_nat p + 1 + a - d) with (Z.of_nat i + 1) by lia. rewrite scell_row.
      destruct (E2 i ltac:(lia)). lia.
    + intros i j. unfold shifted_cell. destruct (Z_lt_le_dec i 1) as [|L]; [lia|].
      set (t := Z.to_nat (i - 1)). assert (Ei : i = Z.of_nat t + 1) by lia.
      destruct (le_lt_dec q t) as [L1|L1]; [destruct (le_lt_dec t p) as [L2|L2]|].
      * destruct (E2 t ltac:(lia)). lia.
      * rewrite (E3 t) by lia. lia.
      * rewrite (E3 t) by lia. lia.
Qed.

Lemma row_map_zrange : forall (f : Z -> Z) n q i, (i < n)%nat ->
  row (map f (zrange (Z.of_nat q + 1) (Z.of_nat q + 1 + Z.of_nat n))) i = f (Z.of_nat (q + i) + 1).
Proof.
  unfold row. induction n as [|n IH]; intros q i Hi; [lia|].
  rewrite zrange_cons by lia. destruct i as [|i].
  - cbn [map nth]. f_equal. lia.
  - cbn [map nth]. replace (Z.of_nat q + 1 + 1) with (Z.of_nat (S q) + 1) by lia.
    replace (Z.of_nat q + 1 + Z.of_nat (S n)) with (Z.of_nat (S q) + 1 + Z.of_nat n) by lia.
    rewrite IH by lia. f_equal. lia.
Qed.

Lemma vertical_spec : forall a b mu, strict_partition mu -> 0 <= a <= b ->
  exists r, sh_vertical_strip a b (Some mu) = Ok r /\
    forall nu, r = Some nu <-> strict_partition nu /\ column_strip_added mu nu a b.
Proof.
  intros a b mu Hs Hab. destruct (ksplit_ex mu a ltac:(lia)) as [k HK]. pose proof HK as (K1 & K2 & K3).
  unfold sh_vertical_strip. replace ((0 <=? a) && (a <=? b)) with true by (symmetry; apply andb_true_iff; rewrite !Z.leb_le; lia).
  rewrite (walk_outer mu a k (isin_shifted mu) ltac:(lia) HK (fun _ _ => eq_refl)). cbn [rbind].
  pose proof (strict_nonneg mu k Hs) as P0.
  assert (A : ((Z.of_nat k + 1 =? Z.of_nat k + 1 + a) || isin_shifted mu (Z.of_nat k + 1) (Z.of_nat k + 1 + a - 1) = true) <-> row mu k = a).
  { rewrite orb_true_iff, Z.eqb_eq, isin_row, andb_true_iff, !Z.leb_le. lia. }
  (* any strip ends at row k *)
  assert (Only : forall nu, strict_partition nu -> column_strip_added mu nu a b -> exists q, (q <= k)%nat /\ Z.of_nat k - Z.of_nat q = b - a /\
     (forall i, (q <= i <= k)%nat -> row mu i = a + (Z.of_nat k - Z.of_nat i) /\ row nu i = row mu i + 1) /\
     (forall i, ~ (q <= i <= k)%nat -> row nu i = row mu i)).
  { intros nu Hn H. apply column_strip_rows in H; [|assumption|assumption|assumption].
    destruct H as (q & p & Hqp & E1 & E2 & E3). assert (Ep : row mu p = a) by (destruct (E2 p ltac:(lia)); lia).
    assert (HK' : ksplit mu a p).
    { rewrite <- Ep. apply (strip_ksplit mu nu p Hs Hn).
      - destruct (E2 p ltac:(lia)). lia.
      - intros i Hi. destruct (le_lt_dec q i); [right; apply E2; lia|left; apply E3; lia].
      - intros i Hi. apply E3. lia.
      - left. apply E2. lia. }
    pose proof (ksplit_unique mu a k p HK HK') as <-. exists q. repeat (split; [assumption|]). assumption. }
  destruct (Z_lt_le_dec (Z.of_nat k + 1 + a - b) 1) as [Hh|Hh].
  { rewrite (isin_low mu (Z.of_nat k + 1 + a - b)) by assumption.
    rewrite (isin_low mu (Z.of_nat k + 1 + a - b - 1)) by lia.
    replace (Z.of_nat k + 1 + a - b =? 1) with false by (symmetry; apply Z.eqb_neq; lia). rewrite andb_false_r.
    exists None. split; [reflexivity|]. intro nu. split; [discriminate|]. intros [Hn H]. exfalso.
    destruct (Only nu Hn H) as (q & Q1 & Q2 & _). lia. }
  set (q := Z.to_nat (Z.of_nat k + a - b)). assert (Eq : Z.of_nat q = Z.of_nat k + a - b) by lia.
  assert (Hqk : (q <= k)%nat) by lia. clearbody q.
  replace (Z.of_nat k + 1 + a - b) with (Z.of_nat q + 1) by lia.
  pose proof (strict_gap_end mu q k Hs Hqk K3) as G.
  destruct (isin_shifted mu (Z.of_nat q + 1) (Z.of_nat k + 1 + a)) eqn:EI.
  { exists None. split; [reflexivity|]. intro nu. split; [discriminate|]. intros [Hn H]. exfalso.
    destruct (Only nu Hn H) as (q' & Q1 & Q2 & Q3 & _). assert (q' = q) by lia. subst q'.
    destruct (Q3 q ltac:(lia)) as [Q4 _]. rewrite isin_row in EI. apply andb_true_iff in EI. rewrite !Z.leb_le in EI. lia. }
  assert (EI' : row mu q <= a + (Z.of_nat k - Z.of_nat q)).
  { rewrite isin_row in EI. apply andb_false_iff in EI. rewrite !Z.leb_gt in EI. lia. }
  assert (B : ((Z.of_nat q + 1 =? 1) || isin_shifted mu (Z.of_nat q + 1 - 1) (Z.of_nat k + 1 + a) = true)
              <-> (q = 0%nat \/ a + (Z.of_nat k - Z.of_nat q) + 1 < row mu (q - 1))).
  { rewrite orb_true_iff, Z.eqb_eq. destruct q as [|p]; [cbn; lia|].
    replace (Z.of_nat (S p) + 1 - 1) with (Z.of_nat p + 1) by lia. rewrite isin_row, andb_true_iff, !Z.leb_le, Nat.sub_succ, Nat.sub_0_r. lia. }
  destruct (_ && _) eqn:E.
  - apply andb_true_iff in E. destruct E as [EA EB]. apply A in EA. apply B in EB.
    assert (Erow : forall i, (q <= i <= k)%nat -> row mu i = a + (Z.of_nat k - Z.of_nat i)).
    { intros i Hi. pose proof (strict_gap_end mu i k Hs ltac:(lia) K3). pose proof (strict_gap_end mu q i Hs ltac:(lia) ltac:(lia)). lia. }
    eexists. split; [reflexivity|].
    replace (Z.of_nat q + 1 - 1) with (Z.of_nat q) by lia. replace (slice_from mu (Z.of_nat k + 1)) with (skipn (S k) mu)
      by (rewrite <- slice_from_nat; f_equal; lia).
    rewrite slice_to_nat.
    replace (Z.of_nat k + 1 + 1) with (Z.of_nat q + 1 + Z.of_nat (S k - q)) by lia.
    set (mid := map (fun t => get mu t + 1) (zrange (Z.of_nat q + 1) (Z.of_nat q + 1 + Z.of_nat (S k - q)))).
    assert (Lm : length mid = (S k - q)%nat) by (unfold mid; rewrite map_length, length_zrange; lia).
    assert (Nm : mid <> []) by (intro C; rewrite C in Lm; change (length (@nil Z)) with 0%nat in Lm; lia).
    replace (skipn (S k) mu) with (skipn (q + length mid) mu) by (f_equal; lia).
    set (nu0 := firstn q mu ++ mid ++ skipn (q + length mid) mu).
    assert (Hr : forall i, row nu0 i = if (q <=? i)%nat && (i <=? k)%nat then row mu i + 1 else row mu i).
    { intro i. unfold nu0. rewrite (splice_row mu q mid i ltac:(lia) Nm). rewrite Lm.
      destruct (Nat.ltb_spec i q), (Nat.ltb_spec i (q + (S k - q))), (Nat.leb_spec q i), (Nat.leb_spec i k); try lia; cbn [andb]; try reflexivity.
      unfold mid. rewrite row_map_zrange by lia. rewrite get_S. f_equal. f_equal. lia. }
    assert (Hl : length nu0 = Nat.max (length mu) (S k)).
    { unfold nu0. rewrite (splice_length mu q mid ltac:(lia)). lia. }
    assert (Hst : strict_partition nu0).
    { apply strict_of_rows.
      - intros i Hi. rewrite Hr. destruct (Nat.leb_spec q i), (Nat.leb_spec i k); cbn [andb].
        + rewrite Erow by lia. lia.
        + apply row_pos; [apply Hs|lia].
        + apply row_pos; [apply Hs|lia].
        + lia.
      - intros i Hi. rewrite !Hr.
        destruct (Nat.leb_spec q i), (Nat.leb_spec i k), (Nat.leb_spec q (S i)), (Nat.leb_spec (S i) k); try lia; cbn [andb].
        + rewrite !Erow by lia. lia.
        + pose proof (proj2 Hs i ltac:(lia)). lia.
        + apply (proj2 Hs). lia.
        + assert (Ei : (S i = q)%nat) by lia. rewrite Ei. assert (Ei2 : i = (q - 1)%nat) by lia. rewrite Ei2.
          destruct EB as [EB|EB]; [lia|]. rewrite (Erow q) by lia. lia.
        + apply (proj2 Hs). lia. }
    intro nu. split.
    + intro Q. injection Q as <-. split; [assumption|]. apply column_strip_rows; [assumption|assumption|assumption|].
      exists q, k. split; [assumption|]. split; [lia|]. split.
      * intros i Hi. split; [apply Erow; assumption|]. rewrite Hr.
        destruct (Nat.leb_spec q i), (Nat.leb_spec i k); try lia. reflexivity.
      * intros i Hi. rewrite Hr. destruct (Nat.leb_spec q i), (Nat.leb_spec i k); try lia; reflexivity.
    + intros [Hn H]. destruct (Only nu Hn H) as (q' & Q1 & Q2 & Q3 & Q4). assert (q' = q) by lia. subst q'. f_equal.
      apply pos_ext; [apply Hst|apply Hn|]. intro i. rewrite Hr.
      destruct (Nat.leb_spec q i), (Nat.leb_spec i k); cbn [andb]; symmetry; try (apply Q4; lia); apply Q3; lia.
  - exists None. split; [reflexivity|]. intro nu. split; [discriminate|]. intros [Hn H]. exfalso.
    destruct (Only nu Hn H) as (q' & Q1 & Q2 & Q3 & Q4). assert (q' = q) by lia. subst q'.
    destruct (Q3 k ltac:(lia)) as [Q5 _]. replace (a + (Z.of_nat k - Z.of_nat k)) with a in Q5 by lia. apply A in Q5.
    assert (F : q = 0%nat \/ a + (Z.of_nat k - Z.of_nat q) + 1 < row mu (q - 1)).
    { destruct q as [|t]; [left; reflexivity|right]. rewrite Nat.sub_succ, Nat.sub_0_r.
      destruct (Q3 (S t) ltac:(lia)) as [Q6 Q7]. rewrite <- (Q4 t) by lia.
      pose proof (strict_row_lt nu t (S t) Hn ltac:(lia)) as D. rewrite (Q4 t) in D by lia.
      specialize (K1 t ltac:(lia)). rewrite (Q4 t) by lia. lia. }
    apply B in F. rewrite Q5, F in E. discriminate.
Qed.
