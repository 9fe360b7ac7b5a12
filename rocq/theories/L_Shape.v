(* Order ideals of cells are diagrams; adjacency form of the strip conditions *)
From Coq Require Import List ZArith Lia Bool.
From Verif Require Import PyBase M_Partitions S_Partitions L_Partitions L_PartBasic L_PartMore M_Strips S_Strips L_Strips L_Strips2.
Import ListNotations.
Local Open Scope Z_scope.

Lemma row_length : forall m (P : Z -> Prop), 0 <= m -> (forall j, P j \/ ~ P j) -> (forall j, P j -> 1 <= j <= m) -> (forall j, 1 <= j -> P (j + 1) -> P j) ->
  exists r, 0 <= r <= m /\ forall j, P j <-> 1 <= j <= r.
Proof.
  intros m P Hm. revert P. pattern m. apply natlike_ind; [| |assumption].
  - intros P _ Hb _. exists 0. split; [lia|]. intro j. split; intro H; [apply Hb in H|]; lia.
  - intros k Hk IH P Hd Hb Hc. destruct (Hd (Z.succ k)) as [Y|N].
    + exists (Z.succ k). split; [lia|]. intro j. split; [intro H; apply Hb in H; lia|].
      intro H. assert (G : forall e, 0 <= e -> e <= k -> P (Z.succ k - e)).
      { intros e He. pattern e. apply natlike_ind; [intros _; rewrite Z.sub_0_r; assumption| |assumption].
        intros x Hx IHx Hle. apply Hc; [lia|]. replace (Z.succ k - Z.succ x + 1) with (Z.succ k - x) by lia. apply IHx. lia. }
      replace j with (Z.succ k - (Z.succ k - j)) by lia. apply G; lia.
    + destruct (IH P Hd) as (r & Hr & E); [|assumption|exists r; split; [lia|assumption]].
      intros j H. pose proof (Hb j H). destruct (Z.eq_dec j (Z.succ k)) as [->|]; [contradiction|lia].
Qed.

Lemma list_of_rows : forall n (Q : nat -> Z -> Prop), (forall i, (i < n)%nat -> exists r, Q i r) ->
  exists l, length l = n /\ forall i, (i < n)%nat -> Q i (row l i).
Proof.
  induction n as [|n IH]; intros Q H.
  - exists []. split; [reflexivity|]. intros i Hi. lia.
  - destruct (H 0%nat ltac:(lia)) as [r Hr]. destruct (IH (fun i => Q (S i))) as (l & Hl & E); [intros i Hi; apply H; lia|].
    exists (r :: l). split; [cbn; lia|]. intros [|i] Hi; [exact Hr|]. apply (E i). lia.
Qed.

(* cells of the quadrant / staircase region *)
Definition region (sh : bool) (b : Z * Z) : Prop := 1 <= fst b /\ (if sh then fst b else 1) <= snd b.
Definition nexts (b : Z * Z) : Z * Z := (fst b, snd b + 1).
Definition nextd (b : Z * Z) : Z * Z := (fst b + 1, snd b).
Definition dc (sh : bool) (mu : list Z) (b : Z * Z) : Prop := dcell sh mu (fst b) (snd b).

Lemma part_b_part : forall sh mu, part_b sh mu -> partition mu.
Proof. intros [|] mu H; [apply strict_is_partition|]; assumption. Qed.

Lemma dc_region : forall sh mu b, dc sh mu b -> region sh b.
Proof. intros [|] mu [i j]; unfold dc, region; cbn [dcell fst snd]; [unfold shifted_cell|unfold cell]; lia. Qed.
Lemma dc_dec : forall sh mu b, dc sh mu b \/ ~ dc sh mu b.
Proof. intros [|] mu [i j]; unfold dc; cbn [dcell fst snd]; [unfold shifted_cell|unfold cell]; lia. Qed.

Lemma region_nat : forall sh b, region sh b -> exists i, fst b = Z.of_nat i + 1 /\ 1 <= snd b - off sh (Z.of_nat i).
Proof. intros sh [i j] [H1 H2]. exists (Z.to_nat (i - 1)). cbn [fst snd] in *. destruct sh; cbn [off]; lia. Qed.

Lemma dc_left : forall sh mu b, region sh b -> dc sh mu (nexts b) -> dc sh mu b.
Proof.
  intros sh mu [a b] R H. destruct (region_nat sh _ R) as (i & E & L). unfold dc, nexts in *. cbn [fst snd] in *. subst a. rewrite dcell_nat in *. lia.
Qed.
Lemma dc_up : forall sh mu b, part_b sh mu -> region sh b -> dc sh mu (nextd b) -> dc sh mu b.
Proof.
  intros sh mu [a b] Hm R H. destruct (region_nat sh _ R) as (i & E & L). unfold dc, nextd in *. cbn [fst snd] in *. subst a.
  replace (Z.of_nat i + 1 + 1) with (Z.of_nat (S i) + 1) in H by lia. rewrite dcell_nat in *.
  destruct sh; cbn [off] in *.
  - assert (row mu (S i) < row mu i); [|lia]. apply Hm. apply partition_row_pos; [apply strict_is_partition; assumption|]. lia.
  - assert (row mu (S i) <= row mu i) by apply Hm. lia.
Qed.

Lemma shape_of : forall sh mu (P : Z * Z -> Prop), part_b sh mu -> (forall b, P b \/ ~ P b) -> (forall b, P b -> dc sh mu b) ->
  (forall b, region sh b -> P (nexts b) -> P b) -> (forall b, region sh b -> P (nextd b) -> P b) ->
  exists nu, part_b sh nu /\ forall b, dc sh nu b <-> P b.
Proof.
  intros sh mu P Hm Hd Hi Hs Hn. pose proof (part_b_part _ _ Hm) as Pm.
  destruct (list_of_rows (length mu) (fun i r => 0 <= r <= row mu i /\ forall j, P (Z.of_nat i + 1, j + off sh (Z.of_nat i)) <-> 1 <= j <= r)) as (l & Hl & E).
  { intros i Hlt. apply (row_length (row mu i) (fun j => P (Z.of_nat i + 1, j + off sh (Z.of_nat i)))).
    - apply partition_nonneg. assumption.
    - intro. apply Hd.
    - intros j H. apply Hi in H. unfold dc in H. cbn [fst snd] in H. apply dcell_nat in H. lia.
    - intros j Hj H. apply Hs; [unfold region; cbn [fst snd]; destruct sh; cbn [off]; lia|]. unfold nexts. cbn [fst snd].
      replace (j + off sh (Z.of_nat i) + 1) with (j + 1 + off sh (Z.of_nat i)) by lia. assumption. }
  assert (R0 : forall i, 0 <= row l i).
  { intro i. destruct (lt_dec i (length mu)) as [C|C]; [apply E in C; lia|]. rewrite row_overflow by lia. lia. }
  assert (Step : forall i, 0 < row l (S i) -> row l (S i) + (if sh then 1 else 0) <= row l i).
  { intros i Hp. assert (L : (S i < length mu)%nat) by (destruct (lt_dec (S i) (length mu)) as [C|C]; [assumption|]; rewrite row_overflow in Hp by lia; lia).
    destruct (E (S i) L) as [_ E1]. destruct (E i ltac:(lia)) as [_ E0].
    assert (X : P (Z.of_nat i + 1, row l (S i) + off sh (Z.of_nat (S i)))).
    { apply Hn; [unfold region; cbn [fst snd]; destruct sh; cbn [off]; lia|]. unfold nextd. cbn [fst snd]. replace (Z.of_nat i + 1 + 1) with (Z.of_nat (S i) + 1) by lia. apply E1. lia. }
    destruct sh; cbn [off] in *.
    - replace (row l (S i) + Z.of_nat (S i)) with (row l (S i) + 1 + Z.of_nat i) in X by lia. apply E0 in X. lia.
    - apply E0 in X. lia. }
  assert (W : weak_partition l).
  { split.
    - apply Forall_forall. intros x Hx. apply In_nth with (d := 0) in Hx. destruct Hx as (k & Hk & <-). apply R0.
    - intro i. specialize (R0 (S i)) as A. specialize (R0 i) as B. destruct (Z.eq_dec (row l (S i)) 0) as [Z0|Z0]; [lia|]. specialize (Step i ltac:(lia)). destruct sh; lia. }
  pose proof (weak_trim_partition l W) as T.
  exists (trim l). split.
  - destruct sh; cbn [part_b]; [|assumption]. split; [apply T|]. intros i Hlt. rewrite !trim_row.
    specialize (Step i). assert (0 < row l (S i)) by (rewrite <- trim_row; apply row_pos; [apply T|assumption]). specialize (Step H). cbn in Step. lia.
  - intros [a b]. unfold dc. cbn [fst snd]. split.
    + intro H. destruct (dcell_row _ _ _ _ H) as [i ->]. apply dcell_nat in H. rewrite trim_row in H.
      assert (L : (i < length mu)%nat) by (destruct (lt_dec i (length mu)) as [C|C]; [assumption|]; rewrite row_overflow in H by lia; lia).
      destruct (E i L) as [_ E0]. replace b with (b - off sh (Z.of_nat i) + off sh (Z.of_nat i)) by lia. apply E0. assumption.
    + intro H. pose proof (Hi _ H) as D. unfold dc in D. cbn [fst snd] in D. destruct (dcell_row _ _ _ _ D) as [i ->]. apply dcell_nat in D. apply dcell_nat. rewrite trim_row.
      assert (L : (i < length mu)%nat) by (destruct (lt_dec i (length mu)) as [C|C]; [assumption|]; rewrite row_overflow in D by lia; lia).
      destruct (E i L) as [_ E0]. apply E0. replace (b - off sh (Z.of_nat i) + off sh (Z.of_nat i)) with b by lia. assumption.
Qed.

(* equal cells, equal shapes *)
Lemma part_ext : forall sh a b, part_b sh a -> part_b sh b -> (forall c, dc sh a c <-> dc sh b c) -> a = b.
Proof.
  intros sh a b Ha Hb H. apply part_b_part in Ha, Hb.
  assert (E : forall i, row a i = row b i).
  { intro i. pose proof (partition_nonneg a i Ha). pose proof (partition_nonneg b i Hb).
    assert (I1 : forall i, row a i <= row b i).
    { apply (dcell_incl sh); [intro; apply partition_nonneg; assumption|intro; apply partition_nonneg; assumption|]. intros x y. apply (H (x, y)). }
    assert (I2 : forall i, row b i <= row a i).
    { apply (dcell_incl sh); [intro; apply partition_nonneg; assumption|intro; apply partition_nonneg; assumption|]. intros x y. apply (H (x, y)). }
    specialize (I1 i). specialize (I2 i). lia. }
  apply trimmed_ext; [apply partition_trimmed; assumption|apply partition_trimmed; assumption|assumption].
Qed.

(* no two cells in one column = no two vertically adjacent cells *)
Lemma column_free_adj : forall sh mu nu, part_b sh mu -> part_b sh nu ->
  (column_free (dcell sh) mu nu <-> forall b, dc sh mu b -> ~ dc sh nu b -> dc sh mu (nextd b) -> ~ dc sh nu (nextd b) -> False).
Proof.
  intros sh mu nu Hm Hn. split.
  - intros H [i j] A B C D. unfold dc, nextd in *. cbn [fst snd] in *. specialize (H i (i + 1) j (conj A B) (conj C D)). lia.
  - intro H.
    assert (G : forall e i j, 0 <= e -> in_skew (dcell sh) mu nu i j -> in_skew (dcell sh) mu nu (i + 1 + e) j -> False).
    { intros e. intros i j He [A B] [C D].
      assert (R : region sh (i, j)) by (apply (dc_region sh mu); exact A).
      assert (RC : region sh (i + 1 + e, j)) by (apply (dc_region sh mu); exact C).
      assert (Up : forall f, 0 <= f -> f <= e -> dc sh mu (i + 1 + (e - f), j)).
      { intros f Hf. pattern f. apply natlike_ind; [intros _; rewrite Z.sub_0_r; exact C| |assumption].
        intros x Hx IHx Hle. apply dc_up; [assumption| |].
        - unfold region in *. cbn [fst snd] in *. destruct sh; lia.
        - unfold nextd. cbn [fst snd]. replace (i + 1 + (e - Z.succ x) + 1) with (i + 1 + (e - x)) by lia. apply IHx. lia. }
      apply (H (i, j)); [exact A|exact B|unfold nextd; cbn [fst snd]; replace (i + 1) with (i + 1 + (e - e)) by lia; apply Up; lia|].
      intro X. apply B. apply (dc_up sh nu (i, j) Hn R X). }
    intros i i' j H1 H2. destruct (Z.lt_trichotomy i i') as [L|[L|L]]; [|assumption|]; exfalso.
    + apply (G (i' - i - 1) i j); [lia|assumption|]. replace (i + 1 + (i' - i - 1)) with i' by lia. assumption.
    + apply (G (i - i' - 1) i' j); [lia|assumption|]. replace (i' + 1 + (i - i' - 1)) with i by lia. assumption.
Qed.
Lemma row_free_adj : forall sh mu nu, part_b sh mu -> part_b sh nu ->
  (row_free (dcell sh) mu nu <-> forall b, dc sh mu b -> ~ dc sh nu b -> dc sh mu (nexts b) -> ~ dc sh nu (nexts b) -> False).
Proof.
  intros sh mu nu Hm Hn. split.
  - intros H [i j] A B C D. unfold dc, nexts in *. cbn [fst snd] in *. specialize (H i j (j + 1) (conj A B) (conj C D)). lia.
  - intro H.
    assert (G : forall e i j, 0 <= e -> in_skew (dcell sh) mu nu i j -> in_skew (dcell sh) mu nu i (j + 1 + e) -> False).
    { intros e. intros i j He [A B] [C D].
      assert (R : region sh (i, j)) by (apply (dc_region sh mu); exact A).
      destruct (dcell_row _ _ _ _ A) as [n ->]. rewrite !dcell_nat in *.
      apply (H (Z.of_nat n + 1, j)); unfold dc, nexts; cbn [fst snd]; rewrite dcell_nat; lia. }
    intros i j j' H1 H2. destruct (Z.lt_trichotomy j j') as [L|[L|L]]; [|assumption|]; exfalso.
    + apply (G (j' - j - 1) i j); [lia|assumption|]. replace (j + 1 + (j' - j - 1)) with j' by lia. assumption.
    + apply (G (j - j' - 1) i j'); [lia|assumption|]. replace (j' + 1 + (j - j' - 1)) with j by lia. assumption.
Qed.
