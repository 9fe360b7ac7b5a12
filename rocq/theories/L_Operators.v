From Coq Require Import List ZArith Lia Bool Permutation Sorted Ring.
From Verif Require Import PyBase FinSum M_Vectors L_Vectors M_Perm M_Partitions S_Partitions L_Partitions L_PartBasic L_PartMore L_PartCorners
  M_Operators S_Operators.
Import ListNotations.
Local Open Scope Z_scope.

(* ---- walking down a diagonal ---- *)
Lemma walk_spec : forall k fuel mem i j, (k <= fuel)%nat ->
  (forall t, (t < k)%nat -> mem (i + Z.of_nat t) (j + Z.of_nat t) = true) ->
  mem (i + Z.of_nat k) (j + Z.of_nat k) = false ->
  walk_diag fuel mem i j = Ok (i + Z.of_nat k, j + Z.of_nat k).
Proof.
  induction k as [|k IH]; intros fuel mem i j Hf Ht Hk.
  - rewrite !Z.add_0_r in *. destruct fuel; simpl; rewrite Hk; reflexivity.
  - destruct fuel as [|f]; [lia|]. pose proof (Ht 0%nat ltac:(lia)) as H0. rewrite !Z.add_0_r in H0.
    cbn [walk_diag]. rewrite H0. rewrite (IH f mem (i + 1) (j + 1)).
    + f_equal. f_equal; lia.
    + lia.
    + intros t Hlt. specialize (Ht (S t) ltac:(lia)).
      replace (i + 1 + Z.of_nat t) with (i + Z.of_nat (S t)) by lia.
      replace (j + 1 + Z.of_nat t) with (j + Z.of_nat (S t)) by lia. assumption.
    + replace (i + 1 + Z.of_nat k) with (i + Z.of_nat (S k)) by lia.
      replace (j + 1 + Z.of_nat k) with (j + Z.of_nat (S k)) by lia. assumption.
Qed.

Lemma in_shape_In : forall s i j, in_shape s i j = true <-> In (i, j) s.
Proof.
  intros s i j. unfold in_shape. rewrite existsb_exists. split.
  - intros ([a b] & H & E). cbn [fst snd] in E. apply andb_true_iff in E. destruct E as [E1 E2].
    apply Z.eqb_eq in E1, E2. subst. assumption.
  - intro H. exists (i, j). split; [assumption|]. cbn [fst snd]. rewrite !Z.eqb_refl. reflexivity.
Qed.

Lemma in_shape_isin : forall mu i j, in_shape (shifted_shape mu) i j = isin_shifted mu i j.
Proof.
  intros. apply eq_true_iff_eq. rewrite in_shape_In, shifted_shape_In, isin_shifted_cell. reflexivity.
Qed.

Lemma isin_row : forall mu k j, isin_shifted mu (Z.of_nat k + 1) j =
  (Z.of_nat k + 1 <=? j) && (j <=? Z.of_nat k + row mu k).
Proof.
  intros. apply eq_true_iff_eq. rewrite isin_shifted_cell, scell_row, andb_true_iff, !Z.leb_le. reflexivity.
Qed.

Lemma isin_low : forall mu i j, i < 1 -> isin_shifted mu i j = false.
Proof.
  intros mu i j H. apply not_true_iff_false. rewrite isin_shifted_cell. unfold shifted_cell. lia.
Qed.

(* k rows are longer than d *)
Definition ksplit (mu : list Z) (d : Z) (k : nat) : Prop :=
  (forall i, (i < k)%nat -> d < row mu i) /\ row mu k <= d /\ (k <= length mu)%nat.

Lemma ksplit_ex : forall mu d, 0 <= d -> exists k, ksplit mu d k.
Proof.
  induction mu as [|a mu IH]; intros d Hd.
  - exists 0%nat. split; [intros; lia|]. split; [rewrite row_nil; assumption|simpl; lia].
  - destruct (Z_lt_le_dec d a) as [H|H].
    + destruct (IH d Hd) as (k & H1 & H2 & H3). exists (S k). split; [|split].
      * intros [|i] Hi; [assumption|]. apply H1. lia.
      * assumption.
      * simpl. lia.
    + exists 0%nat. split; [intros; lia|]. split; [assumption|simpl; lia].
Qed.

Lemma ksplit_unique : forall mu d k l, ksplit mu d k -> ksplit mu d l -> k = l.
Proof.
  intros mu d k l (A1 & A2 & _) (B1 & B2 & _). destruct (lt_eq_lt_dec k l) as [[H|H]|H]; [|assumption|].
  - specialize (B1 k H). lia.
  - specialize (A1 l H). lia.
Qed.

Lemma strict_row_inj : forall mu i j, strict_partition mu -> (i < length mu)%nat -> (j < length mu)%nat ->
  row mu i = row mu j -> i = j.
Proof.
  intros mu i j H Hi Hj E. destruct (lt_eq_lt_dec i j) as [[C|C]|C]; [|assumption|].
  - pose proof (row_decr_strict mu H i j C Hi). lia.
  - pose proof (row_decr_strict mu H j i C Hj). lia.
Qed.

Lemma row_in_range : forall mu i, 0 < row mu i -> (i < length mu)%nat.
Proof. intros mu i H. destruct (Nat.lt_ge_cases i (length mu)) as [|C]; [assumption|]. rewrite row_overflow in H by assumption. lia. Qed.

Lemma strict_row_lt : forall mu i j, strict_partition mu -> (i < j)%nat -> 0 < row mu i -> row mu j < row mu i.
Proof. intros mu i j H Hij Hp. apply row_decr_strict; [assumption|assumption|]. apply row_in_range. assumption. Qed.

Lemma strict_nonneg : forall mu i, strict_partition mu -> 0 <= row mu i.
Proof. intros mu i H. apply row_nonneg, pos_nonneg, (proj1 H). Qed.

Lemma ksplit_In : forall mu d k, strict_partition mu -> 0 < d -> ksplit mu d k -> (In d mu <-> row mu k = d).
Proof.
  intros mu d k Hs Hd (K1 & K2 & K3). rewrite strict_In_row. split.
  - intros (i & Hi & E). destruct (lt_eq_lt_dec i k) as [[C|C]|C].
    + specialize (K1 i C). lia.
    + subst. reflexivity.
    + destruct (Z_lt_le_dec 0 (row mu k)) as [P|P].
      * pose proof (strict_row_lt mu k i Hs C P). lia.
      * rewrite (row_overflow mu i) in E; [lia|]. destruct (Nat.lt_ge_cases k (length mu)) as [Q|Q]; [|lia].
        pose proof (row_pos mu k (proj1 Hs) Q). lia.
  - intro E. exists k. split; [|assumption]. apply row_in_range. lia.
Qed.

Lemma ksplit_In1 : forall mu d k, strict_partition mu -> 0 <= d -> ksplit mu d k ->
  (In (d + 1) mu <-> (0 < k)%nat /\ row mu (k - 1) = d + 1).
Proof.
  intros mu d k Hs Hd (K1 & K2 & K3). rewrite strict_In_row. split.
  - intros (i & Hi & E). assert (C : (i < k)%nat).
    { destruct (Nat.lt_ge_cases i k) as [|C]; [assumption|]. exfalso.
      pose proof (row_decr mu (proj2 (strict_is_partition mu Hs)) k i C). lia. }
    split; [lia|]. destruct (Nat.eq_dec i (k - 1)) as [<-|Hne]; [assumption|]. exfalso.
    pose proof (row_decr_strict mu Hs i (k - 1) ltac:(lia) Hi). specialize (K1 (k - 1)%nat ltac:(lia)). lia.
  - intros [Hk E]. exists (k - 1)%nat. split; [lia|assumption].
Qed.

Lemma walk_outer : forall mu d k mem, 0 <= d -> ksplit mu d k -> (forall i j, mem i j = isin_shifted mu i j) ->
  walk_diag (length mu) mem 1 (1 + d) = Ok (Z.of_nat k + 1, Z.of_nat k + 1 + d).
Proof.
  intros mu d k mem Hd (K1 & K2 & K3) Hm. rewrite (walk_spec k).
  - f_equal. f_equal; lia.
  - assumption.
  - intros t Ht. rewrite Hm. replace (1 + Z.of_nat t) with (Z.of_nat t + 1) by lia. rewrite isin_row.
    specialize (K1 t Ht). apply andb_true_iff. rewrite !Z.leb_le. lia.
  - rewrite Hm. replace (1 + Z.of_nat k) with (Z.of_nat k + 1) by lia. rewrite isin_row.
    apply andb_false_iff. right. apply Z.leb_gt. lia.
Qed.

Lemma walk_inner : forall mu d k, 0 <= d -> ksplit mu d k ->
  walk_diag (length mu) (fun i j => in_shape (shifted_shape mu) (i + 1) (j + 1)) 0 d = Ok (Z.of_nat k, Z.of_nat k + d).
Proof.
  intros mu d k Hd (K1 & K2 & K3). rewrite (walk_spec k).
  - f_equal. f_equal; lia.
  - assumption.
  - intros t Ht. cbn beta. rewrite in_shape_isin. replace (0 + Z.of_nat t + 1) with (Z.of_nat t + 1) by lia. rewrite isin_row.
    specialize (K1 t Ht). apply andb_true_iff. rewrite !Z.leb_le. lia.
  - cbn beta. rewrite in_shape_isin. replace (0 + Z.of_nat k + 1) with (Z.of_nat k + 1) by lia. rewrite isin_row.
    apply andb_false_iff. right. apply Z.leb_gt. lia.
Qed.

(* ---- the two corner finders, in terms of the set of parts ---- *)
Lemma find_inner_spec : forall mu d k, strict_partition mu -> 0 <= d -> ksplit mu d k ->
  find_shifted_inner_corner mu d =
  Ok (if in_dec Z.eq_dec (d + 1) mu then
        if Z.eq_dec d 0 then Some (Z.of_nat k)
        else if in_dec Z.eq_dec d mu then None else Some (Z.of_nat k)
      else None).
Proof.
  intros mu d k Hs Hd HK. unfold find_shifted_inner_corner. rewrite (walk_inner mu d k Hd HK). cbn [rbind].
  rewrite !in_shape_isin. pose proof (ksplit_In1 mu d k Hs Hd HK) as I1. pose proof HK as (K1 & K2 & K3).
  destruct k as [|p].
  - rewrite (isin_low mu (Z.of_nat 0)) by lia. cbn [negb].
    destruct (in_dec Z.eq_dec (d + 1) mu) as [C|C]; [|reflexivity]. apply I1 in C. lia.
  - assert (Ep : Z.of_nat (S p) = Z.of_nat p + 1) by lia. rewrite Ep.
    rewrite isin_row. replace (Z.of_nat p + 1 <=? Z.of_nat p + 1 + d) with true by (symmetry; apply Z.leb_le; lia).
    specialize (K1 p ltac:(lia)).
    replace (Z.of_nat p + 1 + d <=? Z.of_nat p + row mu p) with true by (symmetry; apply Z.leb_le; lia).
    cbn [andb negb]. rewrite <- Ep at 1. rewrite !isin_row. rewrite Nat.sub_succ, Nat.sub_0_r in I1.
    destruct (Z.eq_dec d 0) as [D0|D0].
    + replace (Z.of_nat (S p) + 1 <=? Z.of_nat p + 1 + d) with false by (symmetry; apply Z.leb_gt; lia).
      cbn [andb orb]. replace (Z.of_nat p + 1 <=? Z.of_nat p + 1 + d + 1) with true by (symmetry; apply Z.leb_le; lia).
      cbn [andb]. destruct (Z.leb_spec (Z.of_nat p + 1 + d + 1) (Z.of_nat p + row mu p)) as [L|L].
      * destruct (in_dec Z.eq_dec (d + 1) mu) as [C|C]; [|reflexivity]. apply I1 in C. lia.
      * destruct (in_dec Z.eq_dec (d + 1) mu) as [C|C]; [reflexivity|]. exfalso. apply C, I1. lia.
    + pose proof (ksplit_In mu d (S p) Hs ltac:(lia) HK) as I0.
      replace (Z.of_nat (S p) + 1 <=? Z.of_nat p + 1 + d) with true by (symmetry; apply Z.leb_le; lia).
      replace (Z.of_nat p + 1 <=? Z.of_nat p + 1 + d + 1) with true by (symmetry; apply Z.leb_le; lia).
      cbn [andb].
      destruct (in_dec Z.eq_dec (d + 1) mu) as [C|C].
      * apply I1 in C. destruct C as [_ C].
        replace (Z.of_nat p + 1 + d + 1 <=? Z.of_nat p + row mu p) with false by (symmetry; apply Z.leb_gt; lia).
        rewrite orb_false_r.
        destruct (in_dec Z.eq_dec d mu) as [C'|C'].
        -- apply I0 in C'. replace (Z.of_nat p + 1 + d <=? Z.of_nat (S p) + row mu (S p)) with true by (symmetry; apply Z.leb_le; lia). reflexivity.
        -- replace (Z.of_nat p + 1 + d <=? Z.of_nat (S p) + row mu (S p)) with false; [reflexivity|].
           symmetry. apply Z.leb_gt. assert (row mu (S p) <> d) by tauto. lia.
      * replace (Z.of_nat p + 1 + d + 1 <=? Z.of_nat p + row mu p) with true; [rewrite orb_true_r; reflexivity|].
        symmetry. apply Z.leb_le. assert (row mu p <> d + 1); [|lia]. intro E. apply C, I1. lia.
Qed.

Lemma find_outer_spec : forall mu d k, strict_partition mu -> 0 <= d -> ksplit mu d k ->
  find_shifted_outer_corner mu d =
  Ok (if in_dec Z.eq_dec (d + 1) mu then None
      else if Z.eq_dec d 0 then Some (Z.of_nat k + 1)
      else if in_dec Z.eq_dec d mu then Some (Z.of_nat k + 1) else None).
Proof.
  intros mu d k Hs Hd HK. unfold find_shifted_outer_corner.
  rewrite (walk_outer mu d k (in_shape (shifted_shape mu)) Hd HK (in_shape_isin mu)). cbn [rbind].
  rewrite !in_shape_isin. pose proof (ksplit_In1 mu d k Hs Hd HK) as I1. pose proof HK as (K1 & K2 & K3).
  assert (A : ((Z.of_nat k + 1 =? 1) || isin_shifted mu (Z.of_nat k + 1 - 1) (Z.of_nat k + 1 + d) = true) <-> ~ In (d + 1) mu).
  { rewrite I1. destruct k as [|p].
    - cbn. split; [lia|reflexivity].
    - replace (Z.of_nat (S p) + 1 =? 1) with false by (symmetry; apply Z.eqb_neq; lia). cbn [orb].
      replace (Z.of_nat (S p) + 1 - 1) with (Z.of_nat p + 1) by lia. rewrite isin_row, andb_true_iff, !Z.leb_le.
      rewrite Nat.sub_succ, Nat.sub_0_r. specialize (K1 p ltac:(lia)). lia. }
  assert (B : ((Z.of_nat k + 1 =? Z.of_nat k + 1 + d) || isin_shifted mu (Z.of_nat k + 1) (Z.of_nat k + 1 + d - 1) = true)
              <-> (d = 0 \/ row mu k = d)).
  { rewrite orb_true_iff, Z.eqb_eq, isin_row, andb_true_iff, !Z.leb_le. lia. }
  destruct (in_dec Z.eq_dec (d + 1) mu) as [C|C].
  - rewrite (proj1 (not_true_iff_false _) (fun E => proj1 A E C)). reflexivity.
  - rewrite (proj2 A C). cbn [andb]. destruct (Z.eq_dec d 0) as [D|D].
    + rewrite (proj2 B (or_introl D)). reflexivity.
    + pose proof (ksplit_In mu d k Hs ltac:(lia) HK) as I0. destruct (in_dec Z.eq_dec d mu) as [C'|C'].
      * rewrite (proj2 B (or_intror (proj1 I0 C'))). reflexivity.
      * rewrite (proj1 (not_true_iff_false _) (fun E => match proj1 B E with or_introl e => D e | or_intror e => C' (proj2 I0 e) end)).
        reflexivity.
Qed.

(* add on the found row *)
Lemma add_row : forall mu k, (k <= length mu)%nat -> exists nu, add mu (Z.of_nat k + 1) = Ok nu /\
  (forall i, row nu i = if (i =? k)%nat then row mu k + 1 else row mu i) /\
  length nu = Nat.max (length mu) (S k).
Proof.
  intros mu k Hk. unfold add. replace (Z.of_nat k + 1 <=? 0) with false by (symmetry; apply Z.leb_gt; lia).
  destruct (Nat.eq_dec k (length mu)) as [->|Hne].
  - replace (Z.of_nat (length mu) + 1 <=? zlen mu) with false by (symmetry; apply Z.leb_gt; unfold zlen; lia).
    replace (Z.of_nat (length mu) + 1 =? zlen mu + 1) with true by (symmetry; apply Z.eqb_eq; unfold zlen; lia).
    exists (mu ++ [1]). split; [reflexivity|]. split; [|rewrite app_length; simpl; lia].
    intro i. rewrite app_row. destruct (Nat.ltb_spec i (length mu)).
    + replace (i =? length mu)%nat with false by (symmetry; apply Nat.eqb_neq; lia). reflexivity.
    + destruct (Nat.eqb_spec i (length mu)) as [->|C].
      * rewrite Nat.sub_diag, (row_overflow mu) by lia. reflexivity.
      * rewrite (row_overflow mu i) by lia. apply row_overflow. simpl. lia.
  - replace (Z.of_nat k + 1 <=? zlen mu) with true by (symmetry; apply Z.leb_le; unfold zlen; lia).
    replace (Z.of_nat k + 1 - 1) with (Z.of_nat k) by lia. rewrite Nat2Z.id, nthz_row.
    eexists. split; [reflexivity|]. split; [|rewrite upd_length; lia].
    intro i. apply upd_row. lia.
Qed.

Lemma strict_of_rows : forall nu, (forall i, (i < length nu)%nat -> 0 < row nu i) ->
  (forall i, (S i < length nu)%nat -> row nu (S i) < row nu i) -> strict_partition nu.
Proof.
  intros nu H1 H2. split; [|assumption]. apply Forall_forall. intros x Hx.
  apply In_nth with (d := 0) in Hx. destruct Hx as (i & Hi & <-). apply H1. assumption.
Qed.

Lemma outer_added : forall mu d k nu, strict_partition mu -> 0 <= d -> ksplit mu d k ->
  ~ In (d + 1) mu -> (d = 0 \/ In d mu) -> length nu = Nat.max (length mu) (S k) ->
  (forall i, row nu i = if (i =? k)%nat then row mu k + 1 else row mu i) ->
  strict_partition nu /\ row mu k = d /\ (forall v, In v nu <-> v = d + 1 \/ (In v mu /\ v <> d)).
Proof.
  intros mu d k nu Hs Hd HK Hn Hin Hl Hr. pose proof HK as (K1 & K2 & K3).
  assert (Ek : row mu k = d).
  { destruct Hin as [->|Hin]; [pose proof (strict_nonneg mu k Hs); lia|].
    apply (ksplit_In mu d k Hs); [|assumption|assumption].
    pose proof (proj1 Hs) as F. rewrite Forall_forall in F. apply F. assumption. }
  assert (Hk0 : d = 0 -> k = length mu).
  { intro E. destruct (Nat.eq_dec k (length mu)) as [|C]; [assumption|].
    pose proof (row_pos mu k (proj1 Hs) ltac:(lia)). lia. }
  assert (Hkp : d > 0 -> (k < length mu)%nat) by (intro E; apply row_in_range; lia).
  assert (Hprev : (0 < k)%nat -> d + 1 < row mu (k - 1)).
  { intro P. specialize (K1 (k - 1)%nat ltac:(lia)). rewrite (ksplit_In1 mu d k Hs Hd HK) in Hn. lia. }
  assert (Hst : strict_partition nu).
  { apply strict_of_rows.
    - intros i Hi. rewrite Hr. destruct (Nat.eqb_spec i k); [lia|]. apply row_pos; [apply Hs|]. lia.
    - intros i Hi. rewrite !Hr. destruct (Nat.eqb_spec (S i) k) as [E|E].
      + replace (i =? k)%nat with false by (symmetry; apply Nat.eqb_neq; lia).
        subst k. rewrite Nat.sub_succ, Nat.sub_0_r in Hprev. specialize (Hprev ltac:(lia)). lia.
      + destruct (Nat.eqb_spec i k) as [E'|E'].
        * subst i. pose proof (proj2 Hs k ltac:(lia)). lia.
        * apply (proj2 Hs). lia. }
  split; [assumption|]. split; [assumption|]. intro v. rewrite !strict_In_row. split.
  - intros (i & Hi & E). rewrite Hr in E. destruct (Nat.eqb_spec i k); [left; lia|]. right. split.
    + exists i. split; [lia|assumption].
    + intro C. apply n. subst v.
      assert (Hi' : (i < length mu)%nat) by lia. assert (0 < row mu i) by (apply row_pos; [apply Hs|assumption]).
      apply (strict_row_inj mu i k Hs); [assumption|apply Hkp; lia|lia].
  - intros [->|[(i & Hi & E) Hv]].
    + exists k. split; [lia|]. rewrite Hr, Nat.eqb_refl. lia.
    + exists i. split; [lia|]. rewrite Hr. destruct (Nat.eqb_spec i k) as [->|]; [|assumption]. exfalso. apply Hv. lia.
Qed.

(* ---- the action on basis elements ---- *)
Definition bump_part (d : Z) (mu : list Z) : list Z := psort ((d + 1) :: filter (fun v => negb (v =? d)) mu) false.

Lemma bump_part_spec : forall d mu, strict_partition mu -> 0 <= d -> ~ In (d + 1) mu ->
  strict_partition (bump_part d mu) /\ (forall v, In v (bump_part d mu) <-> v = d + 1 \/ (In v mu /\ v <> d)).
Proof.
  intros d mu Hs Hd Hn.
  assert (Hin : forall v, In v (bump_part d mu) <-> v = d + 1 \/ (In v mu /\ v <> d)).
  { intro v. unfold bump_part. split.
    - intro H. apply (Permutation_in _ (psort_perm _)) in H. destruct H as [H|H]; [left; lia|]. right.
      apply filter_In in H. destruct H as [H E]. apply negb_true_iff, Z.eqb_neq in E. tauto.
    - intro H. apply (Permutation_in _ (Permutation_sym (psort_perm _))). destruct H as [->|[H E]]; [left; reflexivity|].
      right. apply filter_In. split; [assumption|]. apply negb_true_iff, Z.eqb_neq. assumption. }
  split; [|assumption]. apply sorted_strict; [apply psort_sorted| |].
  - apply (Permutation_NoDup (Permutation_sym (psort_perm _))). constructor.
    + rewrite filter_In. tauto.
    + apply NoDup_filter, strict_NoDup, Hs.
  - apply Forall_forall. intros v Hv. apply Hin in Hv. destruct Hv as [->|[Hv _]]; [lia|].
    pose proof (proj1 Hs) as F. rewrite Forall_forall in F. apply F. assumption.
Qed.

(* None: the operator kills mu; Some (true, _): multiplies by beta; Some (false, nu): gives nu *)
Definition T (d : Z) (mu : list Z) : option (bool * list Z) :=
  if in_dec Z.eq_dec (d + 1) mu then
    if Z.eq_dec d 0 then Some (true, mu) else if in_dec Z.eq_dec d mu then None else Some (true, mu)
  else if Z.eq_dec d 0 then Some (false, bump_part d mu)
  else if in_dec Z.eq_dec d mu then Some (false, bump_part d mu) else None.

Lemma add_bump : forall mu d k, strict_partition mu -> 0 <= d -> ksplit mu d k ->
  ~ In (d + 1) mu -> (d = 0 \/ In d mu) -> add mu (Z.of_nat k + 1) = Ok (bump_part d mu).
Proof.
  intros mu d k Hs Hd HK Hn Hin. destruct (add_row mu k (proj2 (proj2 HK))) as (nu & E & Hr & Hl).
  destruct (outer_added mu d k nu Hs Hd HK Hn Hin Hl Hr) as (S1 & _ & S2).
  destruct (bump_part_spec d mu Hs Hd Hn) as [S3 S4]. rewrite E. f_equal. apply strict_ext_set; [assumption|assumption|].
  intro v. rewrite S2, S4. reflexivity.
Qed.

Lemma T_strict : forall d mu b nu, 0 <= d -> strict_partition mu -> T d mu = Some (b, nu) -> strict_partition nu.
Proof.
  intros d mu b nu Hd Hs. unfold T.
  destruct (in_dec Z.eq_dec (d + 1) mu), (Z.eq_dec d 0), (in_dec Z.eq_dec d mu); intro H; inversion H; subst; try assumption;
    apply bump_part_spec; assumption.
Qed.
