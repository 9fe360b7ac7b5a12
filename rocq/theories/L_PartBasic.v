(* transpose, sort, contains, union, add_box_to_row, shapes *)
From Coq Require Import List ZArith Lia Bool Permutation Sorted Arith.
From Verif Require Import PyBase M_Partitions S_Partitions L_Partitions.
Import ListNotations.
Local Open Scope Z_scope.

Lemma zrange0_seq : forall n, zrange 0 (Z.of_nat n) = map Z.of_nat (seq 0 n).
Proof.
  intro n. unfold zrange. replace (Z.to_nat (Z.of_nat n - 0)) with n by lia.
  apply map_ext. intro. lia.
Qed.

Lemma nthz_row : forall l i, nthz l (Z.of_nat i) = row l i.
Proof. intros. unfold nthz, row. rewrite Nat2Z.id. reflexivity. Qed.

Lemma nthz_row' : forall l i, nthz l i = row l (Z.to_nat i).
Proof. reflexivity. Qed.

Lemma get_row : forall mu i, 1 <= i -> get mu i = row mu (Z.to_nat (i - 1)).
Proof.
  intros mu i Hi. unfold get. replace (0 <=? i - 1) with true by (symmetry; apply Z.leb_le; lia). simpl.
  destruct (i - 1 <? zlen mu) eqn:E; [reflexivity|]. apply Z.ltb_ge in E. symmetry. apply row_overflow.
  unfold zlen in E. lia.
Qed.

Lemma get_out : forall mu i, i < 1 -> get mu i = 0.
Proof. intros mu i Hi. unfold get. replace (0 <=? i - 1) with false by (symmetry; apply Z.leb_gt; lia). reflexivity. Qed.

Lemma isin_cell : forall mu i j, isin mu i j false = true <-> cell mu i j.
Proof.
  intros mu i j. unfold isin, cell. rewrite Z.sub_0_r, andb_true_iff, !Z.leb_le.
  destruct (Z_lt_le_dec i 1) as [C|C].
  - rewrite get_out by lia. lia.
  - rewrite get_row by lia. lia.
Qed.

Lemma isin_shifted_cell : forall mu i j, isin_shifted mu i j = true <-> shifted_cell mu i j.
Proof.
  intros mu i j. unfold isin_shifted, isin, shifted_cell. rewrite andb_true_iff, !Z.leb_le.
  destruct (Z_lt_le_dec i 1) as [C|C].
  - rewrite get_out by lia. lia.
  - rewrite get_row by lia. lia.
Qed.

(* ---------- transpose ---------- *)
Definition cnt (mu : list Z) (j : Z) : Z := zlen (filter (fun a => j <? a) mu).

Lemma filter_map_swap : forall A B (f : B -> bool) (g : A -> B) l,
  filter f (map g l) = map g (filter (fun a => f (g a)) l).
Proof. induction l as [|a l IH]; simpl; [reflexivity|]. destruct (f (g a)); simpl; congruence. Qed.

Lemma filter_index : forall mu j,
  length (filter (fun i => j <? nthz mu i) (zrange 0 (zlen mu))) = length (filter (fun a => j <? a) mu).
Proof.
  intros mu j. unfold zlen. rewrite zrange0_seq, filter_map_swap, map_length.
  assert (H : filter (fun a => j <? nthz mu (Z.of_nat a)) (seq 0 (length mu)) =
              filter (fun a => j <? row mu a) (seq 0 (length mu))).
  { apply filter_ext. intro. rewrite nthz_row. reflexivity. }
  rewrite H. clear H. induction mu as [|a mu IH]; simpl; [reflexivity|].
  rewrite <- seq_shift, filter_map_swap. unfold row at 1. simpl.
  assert (H : filter (fun a0 => j <? row (a :: mu) (S a0)) (seq 0 (length mu)) =
              filter (fun a0 => j <? row mu a0) (seq 0 (length mu))) by (apply filter_ext; reflexivity).
  destruct (j <? a); simpl; rewrite map_length, H, IH; reflexivity.
Qed.

Lemma transpose_eq : forall mu, transpose mu = map (cnt mu) (zrange 0 (row mu 0)).
Proof.
  intro mu. unfold transpose. destruct mu as [|a r] eqn:E; [reflexivity|].
  rewrite <- E. replace (row mu 0) with a by (subst; reflexivity).
  apply map_ext. intro j. unfold cnt. unfold zlen at 1 3. rewrite filter_index. reflexivity.
Qed.

Lemma cnt_spec : forall mu, weak_partition mu -> forall i j, 0 <= j -> (Z.of_nat i < cnt mu j <-> j < row mu i).
Proof.
  induction mu as [|a mu IH]; intros Hw i j Hj.
  - rewrite row_nil. unfold cnt, zlen. simpl. lia.
  - pose proof (weak_tail _ _ Hw) as Hw'. specialize (IH Hw').
    unfold cnt in *. simpl. destruct (j <? a) eqn:E.
    + apply Z.ltb_lt in E. rewrite zlen_cons. destruct i as [|i].
      * unfold row. simpl. pose proof (zlen_nonneg _ (filter (fun a0 => j <? a0) mu)). lia.
      * change (row (a :: mu) (S i)) with (row mu i). rewrite <- IH by assumption. lia.
    + apply Z.ltb_ge in E. destruct Hw as [Hw1 Hw2].
      assert (Hi : forall k, row mu k <= a).
      { intro k. pose proof (row_decr (a :: mu) Hw2 0 (S k) ltac:(lia)) as H. exact H. }
      assert (Hz : zlen (filter (fun a0 => j <? a0) mu) <= 0).
      { specialize (IH O j Hj). specialize (Hi O). simpl in IH. lia. }
      split; intro H; [lia|]. exfalso. destruct i as [|i].
      * unfold row in H. simpl in H. lia.
      * change (row (a :: mu) (S i)) with (row mu i) in H. specialize (Hi i). lia.
Qed.

Lemma cnt_nonneg : forall mu j, 0 <= cnt mu j. Proof. intros. apply zlen_nonneg. Qed.

Lemma map_zrange_row : forall f n j, row (map f (zrange 0 n)) j = if (Z.of_nat j <? n) then f (Z.of_nat j) else 0.
Proof.
  intros f n j. unfold row. destruct (Z.of_nat j <? n) eqn:E.
  - apply Z.ltb_lt in E. rewrite nth_indep with (d' := f 0).
    + rewrite map_nth with (d := 0). f_equal. unfold zrange.
      rewrite nth_indep with (d' := (fun k => 0 + Z.of_nat k) O).
      * rewrite map_nth with (f := fun k => 0 + Z.of_nat k). rewrite seq_nth; lia.
      * rewrite map_length, seq_length. lia.
    + rewrite map_length, length_zrange. lia.
  - apply Z.ltb_ge in E. apply nth_overflow. rewrite map_length, length_zrange. lia.
Qed.

Lemma transpose_row : forall mu, weak_partition mu -> forall j, row (transpose mu) j = cnt mu (Z.of_nat j).
Proof.
  intros mu Hw j. rewrite transpose_eq, map_zrange_row.
  destruct (Z.of_nat j <? row mu 0) eqn:E; [reflexivity|]. apply Z.ltb_ge in E.
  pose proof (cnt_nonneg mu (Z.of_nat j)). pose proof (cnt_spec mu Hw 0 (Z.of_nat j) ltac:(lia)). lia.
Qed.

Lemma transpose_partition : forall mu, weak_partition mu -> partition (transpose mu).
Proof.
  intros mu Hw. split.
  - rewrite transpose_eq. apply Forall_forall. intros x Hx. apply in_map_iff in Hx.
    destruct Hx as (j & E & Hj). apply In_zrange in Hj. subst.
    pose proof (cnt_spec mu Hw 0 j ltac:(lia)). lia.
  - intro i. rewrite !transpose_row by assumption.
    destruct (Z_lt_le_dec (cnt mu (Z.of_nat i)) (cnt mu (Z.of_nat (S i)))) as [C|C]; [|assumption].
    exfalso. pose proof (cnt_nonneg mu (Z.of_nat i)).
    pose proof (cnt_spec mu Hw (Z.to_nat (cnt mu (Z.of_nat i))) (Z.of_nat (S i)) ltac:(lia)) as H1.
    pose proof (cnt_spec mu Hw (Z.to_nat (cnt mu (Z.of_nat i))) (Z.of_nat i) ltac:(lia)) as H2. lia.
Qed.

Lemma transpose_cell : forall mu, weak_partition mu -> forall i j, cell (transpose mu) i j <-> cell mu j i.
Proof.
  intros mu Hw i j. unfold cell.
  destruct (Z_lt_le_dec i 1) as [Ci|Ci]; [lia|]. destruct (Z_lt_le_dec j 1) as [Cj|Cj]; [lia|].
  rewrite transpose_row by assumption.
  pose proof (cnt_spec mu Hw (Z.to_nat (j - 1)) (Z.of_nat (Z.to_nat (i - 1))) ltac:(lia)). lia.
Qed.

Lemma cell_row : forall mu i, weak_partition mu -> forall n, 0 <= n ->
  (n <= row mu i <-> forall j, 1 <= j <= n -> cell mu (Z.of_nat i + 1) j).
Proof.
  intros mu i [Hw _] n Hn. unfold cell. replace (Z.to_nat (Z.of_nat i + 1 - 1)) with i by lia. split.
  - intros H j Hj. lia.
  - intro H. destruct (Z.eq_dec n 0) as [E|E]; [pose proof (row_nonneg mu i Hw); lia|].
    specialize (H n ltac:(lia)). lia.
Qed.

Lemma cells_row_le : forall mu nu, weak_partition mu -> weak_partition nu ->
  ((forall i j, cell mu i j -> cell nu i j) <-> forall i, row mu i <= row nu i).
Proof.
  intros mu nu [Hm _] [Hn _]. split.
  - intros H i. pose proof (row_nonneg mu i Hm). pose proof (row_nonneg nu i Hn).
    destruct (Z.eq_dec (row mu i) 0) as [E|E]; [lia|].
    specialize (H (Z.of_nat i + 1) (row mu i)). unfold cell in H.
    replace (Z.to_nat (Z.of_nat i + 1 - 1)) with i in H by lia. lia.
  - intros H i j [H1 H2]. split; [assumption|]. specialize (H (Z.to_nat (i - 1))). lia.
Qed.

Lemma partition_cells_ext : forall mu nu, partition mu -> partition nu ->
  (forall i j, cell mu i j <-> cell nu i j) -> mu = nu.
Proof.
  intros mu nu Hm Hn H. apply pos_ext; [apply Hm|apply Hn|]. intro i.
  pose proof (proj1 (cells_row_le mu nu (partition_weak _ Hm) (partition_weak _ Hn)) (fun i j => proj1 (H i j)) i).
  pose proof (proj1 (cells_row_le nu mu (partition_weak _ Hn) (partition_weak _ Hm)) (fun i j => proj2 (H i j)) i).
  lia.
Qed.

Lemma transpose_involutive : forall mu, partition mu -> transpose (transpose mu) = mu.
Proof.
  intros mu Hp. pose proof (partition_weak _ Hp) as Hw.
  pose proof (transpose_partition _ Hw) as Ht.
  apply partition_cells_ext; [apply transpose_partition, partition_weak; assumption|assumption|].
  intros i j. rewrite transpose_cell by (apply partition_weak; assumption). apply transpose_cell. assumption.
Qed.

Lemma zsum_map_plus : forall A (f g : A -> Z) l, zsum (map (fun x => f x + g x) l) = zsum (map f l) + zsum (map g l).
Proof. induction l as [|a l IH]; simpl; [reflexivity|]. rewrite IH. lia. Qed.

Lemma zsum_indicator : forall n a, 0 <= a <= n -> zsum (map (fun j => if j <? a then 1 else 0) (zrange 0 n)) = a.
Proof.
  intros n a H. assert (Hn : 0 <= n) by lia. revert a H. pattern n. apply natlike_ind; [| |assumption].
  - intros a H. rewrite zrange_nil by lia. simpl. lia.
  - intros x Hx IH a H. rewrite zrange_snoc by lia. rewrite map_app, zsum_app. simpl.
    replace (Z.succ x - 1) with x by lia. destruct (Z.eq_dec a (Z.succ x)) as [E|E].
    + subst. replace (x <? Z.succ x) with true by (symmetry; apply Z.ltb_lt; lia).
      rewrite (map_ext_in _ (fun j => if j <? x then 1 else 0)).
      * rewrite IH by lia. lia.
      * intros j Hj. apply In_zrange in Hj. replace (j <? Z.succ x) with true by (symmetry; apply Z.ltb_lt; lia).
        replace (j <? x) with true by (symmetry; apply Z.ltb_lt; lia). reflexivity.
    + replace (x <? a) with false by (symmetry; apply Z.ltb_ge; lia). rewrite IH by lia. lia.
Qed.

Lemma size_zsum : forall mu, size mu = zsum mu.
Proof. induction mu as [|a mu IH]; simpl; [reflexivity|]. rewrite IH. reflexivity. Qed.

Lemma cnt_sum : forall n mu, Forall (fun a => 0 <= a <= n) mu -> zsum (map (cnt mu) (zrange 0 n)) = zsum mu.
Proof.
  intros n. induction mu as [|a mu IH]; intro H; simpl.
  - induction (zrange 0 n) as [|x l IHl]; simpl; [reflexivity|]. rewrite IHl. reflexivity.
  - inversion H as [|? ? Ha Hm]; subst. rewrite <- (IH Hm) at 1. rewrite <- (zsum_indicator n a) at 2 by assumption.
    rewrite <- zsum_map_plus. f_equal. apply map_ext. intro j. unfold cnt. simpl.
    destruct (j <? a); [rewrite zlen_cons|]; lia.
Qed.

Lemma transpose_size : forall mu, weak_partition mu -> size (transpose mu) = size mu.
Proof.
  intros mu [Hw Hd]. rewrite !size_zsum, transpose_eq. apply cnt_sum.
  apply Forall_forall. intros a Ha. rewrite Forall_forall in Hw. split; [auto|].
  apply In_nth with (d := 0) in Ha. destruct Ha as (i & _ & E). subst.
  apply (row_decr mu Hd 0 i). lia.
Qed.

(* ---------- sort ---------- *)
Lemma sinsert_perm : forall x l, Permutation (sinsert x l) (x :: l).
Proof.
  induction l as [|y l IH]; simpl; [apply Permutation_refl|].
  destruct (x <=? y); [apply Permutation_refl|].
  eapply perm_trans; [apply perm_skip, IH|]. apply perm_swap.
Qed.

Lemma sorted_perm : forall l, Permutation (sorted l) l.
Proof.
  induction l as [|x l IH]; simpl; [constructor|].
  eapply perm_trans; [apply sinsert_perm|]. apply perm_skip. assumption.
Qed.

Lemma sinsert_sorted : forall x l, StronglySorted Z.le l -> StronglySorted Z.le (sinsert x l).
Proof.
  induction l as [|y l IH]; intro H; simpl; [repeat constructor|].
  inversion H as [|? ? Hs Hf]; subst. destruct (x <=? y) eqn:E.
  - apply Z.leb_le in E. constructor; [assumption|]. constructor; [assumption|].
    eapply Forall_impl; [|exact Hf]. simpl. intros. lia.
  - apply Z.leb_gt in E. constructor; [auto|].
    apply (Permutation_Forall (Permutation_sym (sinsert_perm x l))). constructor; [lia|assumption].
Qed.

Lemma sorted_sorted : forall l, StronglySorted Z.le (sorted l).
Proof. induction l as [|x l IH]; simpl; [constructor|]. apply sinsert_sorted. assumption. Qed.

Lemma StronglySorted_snoc : forall (R : Z -> Z -> Prop) l x,
  StronglySorted R l -> Forall (fun y => R y x) l -> StronglySorted R (l ++ [x]).
Proof.
  induction l as [|y l IH]; intros x H1 H2; simpl; [repeat constructor|].
  inversion H1; inversion H2; subst. constructor; [auto|]. apply Forall_app. split; [assumption|]. repeat constructor. assumption.
Qed.

Lemma StronglySorted_rev : forall (R S : Z -> Z -> Prop) l, (forall a b, R a b -> S b a) ->
  StronglySorted R l -> StronglySorted S (rev l).
Proof.
  intros R S l HRS. induction l as [|x l IH]; intro H; simpl; [constructor|].
  inversion H as [|? ? Hs Hf]; subst. apply StronglySorted_snoc; [auto|].
  apply Forall_rev. eapply Forall_impl; [|exact Hf]. simpl. auto.
Qed.

Lemma psort_perm : forall l, Permutation (psort l false) l.
Proof.
  intro l. unfold psort. eapply perm_trans; [apply Permutation_sym, Permutation_rev|]. apply sorted_perm.
Qed.

Lemma psort_sorted : forall l, StronglySorted Z.ge (psort l false).
Proof. intro l. unfold psort. apply StronglySorted_rev with (R := Z.le); [intros; lia|]. apply sorted_sorted. Qed.

(* ---------- contains ---------- *)
Lemma contains_spec : forall b s, weak_partition b -> weak_partition s -> trimmed s ->
  (contains b s = true <-> forall i, row s i <= row b i).
Proof.
  intros b s Hb Hs Ht. unfold contains. destruct (zlen b <? zlen s) eqn:E.
  - apply Z.ltb_lt in E. split; [discriminate|]. intro H. exfalso.
    destruct Ht as [Ht|Ht]; [subst; unfold zlen in E; simpl in E; lia|].
    assert (Hl : row s (length s - 1) = last s 0).
    { unfold row. destruct (exists_last (l := s)) as (l' & y & E2).
      - intro E3. subst. unfold zlen in E. simpl in E. lia.
      - rewrite E2, last_last, app_length. simpl length. replace (length l' + 1 - 1)%nat with (length l') by lia. apply nth_middle. }
    specialize (H (length s - 1)%nat). rewrite Hl in H. rewrite (row_overflow b) in H by (unfold zlen in E; lia).
    pose proof (row_nonneg s (length s - 1) (proj1 Hs)). lia.
  - apply Z.ltb_ge in E. rewrite forallb_forall. split.
    + intros H i. destruct (le_lt_dec (length s) i) as [C|C].
      * rewrite row_overflow by assumption. apply row_nonneg. apply Hb.
      * specialize (H (Z.of_nat i)). rewrite In_zrange in H. unfold zlen in H.
        specialize (H ltac:(lia)). rewrite !nthz_row in H. apply andb_true_iff in H. rewrite !Z.leb_le in H. lia.
    + intros H x Hx. apply In_zrange in Hx. rewrite !nthz_row'. apply andb_true_iff. rewrite !Z.leb_le.
      split; [apply row_nonneg; apply Hs|apply H].
Qed.

(* ---------- union, add_box_to_row ---------- *)
Lemma map_range1_row : forall f n j, row (map f (zrange 1 (n + 1))) j = if (Z.of_nat j <? n) then f (Z.of_nat j + 1) else 0.
Proof.
  intros f n j.
  assert (H : zrange 1 (n + 1) = map (fun k => k + 1) (zrange 0 n)).
  { unfold zrange. replace (n + 1 - 1) with (n - 0) by lia. rewrite map_map. apply map_ext. intro. lia. }
  rewrite H, map_map. apply (map_zrange_row (fun k => f (k + 1))).
Qed.

Lemma punion_row : forall p q i, weak_partition p -> weak_partition q -> row (punion p q) i = Z.max (row p i) (row q i).
Proof.
  intros p q i Hp Hq. unfold punion. rewrite trim_row, map_range1_row.
  destruct (Z.of_nat i <? Z.max (zlen p) (zlen q)) eqn:E.
  - rewrite !get_row by lia. replace (Z.to_nat (Z.of_nat i + 1 - 1)) with i by lia. reflexivity.
  - apply Z.ltb_ge in E. unfold zlen in E. rewrite !row_overflow by lia. reflexivity.
Qed.

Lemma punion_partition : forall p q, weak_partition p -> weak_partition q -> partition (punion p q).
Proof.
  intros p q Hp Hq. pose proof (fun i => punion_row p q i Hp Hq) as Hr. unfold punion in *.
  set (l := map _ _) in *. rewrite <- (trim_id (trim l)) by apply trimmed_trim.
  apply weak_trim_partition. split.
  - apply Forall_forall. intros x Hx. apply In_nth with (d := 0) in Hx. destruct Hx as (i & _ & E). subst.
    change (0 <= row (trim l) i). rewrite Hr. pose proof (row_nonneg p i (proj1 Hp)). lia.
  - intro i. rewrite !Hr. destruct Hp as [_ Hp], Hq as [_ Hq]. specialize (Hp i). specialize (Hq i). lia.
Qed.

Lemma add_box_row : forall p r i, 1 <= r ->
  row (add_box_to_row p r) i = row p i + (if Z.of_nat i + 1 =? r then 1 else 0).
Proof.
  intros p r i Hr. unfold add_box_to_row. rewrite trim_row, map_range1_row.
  destruct (Z.of_nat i <? Z.max (zlen p) r) eqn:E.
  - rewrite !get_row by lia. replace (Z.to_nat (Z.of_nat i + 1 - 1)) with i by lia. reflexivity.
  - apply Z.ltb_ge in E. unfold zlen in E. rewrite !row_overflow by lia.
    replace (Z.of_nat i + 1 =? r) with false by (symmetry; apply Z.eqb_neq; lia). reflexivity.
Qed.

(* ---------- shapes ---------- *)
Lemma combine_app_single : forall n (l : list Z) s,
  combine (map Z.of_nat (seq s n)) l = combine (map Z.of_nat (seq s n)) (firstn n l).
Proof.
  induction n as [|n IH]; intros l s; simpl; [reflexivity|]. destruct l as [|a l]; simpl; [reflexivity|].
  f_equal. apply IH.
Qed.

Definition enum_from (s : nat) (mu : list Z) : list (Z * Z) :=
  combine (map Z.of_nat (seq s (length mu))) mu.

Lemma enum_enum_from : forall mu, enum mu = enum_from 0 mu.
Proof. intro. unfold enum, enum_from, zlen. rewrite zrange0_seq. reflexivity. Qed.

Lemma enum_from_cons : forall s a mu, enum_from s (a :: mu) = (Z.of_nat s, a) :: enum_from (S s) mu.
Proof. reflexivity. Qed.

Lemma In_enum_from : forall mu s i a, In (i, a) (enum_from s mu) <->
  exists k, i = Z.of_nat (s + k) /\ (k < length mu)%nat /\ a = row mu k.
Proof.
  induction mu as [|b mu IH]; intros s i a.
  - simpl. split; [intros []|]. intros (k & _ & Hk & _). simpl in Hk. lia.
  - rewrite enum_from_cons. simpl. rewrite IH. split.
    + intros [H|(k & H1 & H2 & H3)].
      * injection H as <- <-. exists O. rewrite Nat.add_0_r. simpl. split; [reflexivity|]. split; [lia|reflexivity].
      * exists (S k). split; [rewrite H1; f_equal; lia|]. split; [lia|]. exact H3.
    + intros (k & H1 & H2 & H3). destruct k as [|k].
      * left. rewrite Nat.add_0_r in H1. subst. reflexivity.
      * right. exists k. split; [rewrite H1; f_equal; lia|]. split; [simpl in H2; lia|]. exact H3.
Qed.

Lemma enum_from_NoDup : forall mu s, NoDup (map fst (enum_from s mu)).
Proof.
  induction mu as [|b mu IH]; intro s; [constructor|]. rewrite enum_from_cons. simpl. constructor; [|apply IH].
  intro H. apply in_map_iff in H. destruct H as ([i a] & E & H). simpl in E. subst. apply In_enum_from in H.
  destruct H as (k & H & _). lia.
Qed.

Lemma NoDup_map_NoDup : forall A B (f : A -> B) l, NoDup (map f l) -> NoDup l.
Proof.
  induction l as [|a l IH]; intro H; [constructor|]. simpl in H. inversion H; subst. constructor; [|auto].
  intro. apply H2. apply in_map. assumption.
Qed.

(* a common description of shape, shifted_shape and skew *)
Definition gshape (lo : Z -> Z) (sh : Z -> Z) (mu : list Z) : list (Z * Z) :=
  flat_map (fun ia => map (fun j => (fst ia + 1, j + 1 + sh (fst ia))) (zrange (lo (fst ia)) (snd ia))) (enum mu).

Lemma gshape_In : forall lo sh mu i j,
  (forall i, 0 <= lo i) ->
  (In (i, j) (gshape lo sh mu) <->
   1 <= i /\ lo (i - 1) < j - sh (i - 1) <= row mu (Z.to_nat (i - 1))).
Proof.
  intros lo sh mu i j Hlo. unfold gshape. rewrite in_flat_map. split.
  - intros ([i' a] & H1 & H2). rewrite enum_enum_from in H1. apply In_enum_from in H1.
    destruct H1 as (k & -> & Hk & ->). simpl fst in H2. simpl snd in H2. apply in_map_iff in H2. destruct H2 as (x & E & Hx).
    apply In_zrange in Hx. injection E as <- <-. simpl.
    replace (Z.of_nat k + 1 - 1) with (Z.of_nat k) by lia. rewrite Nat2Z.id. lia.
  - intros (H1 & H2). exists (i - 1, row mu (Z.to_nat (i - 1))). split.
    + rewrite enum_enum_from. apply In_enum_from. exists (Z.to_nat (i - 1)). split; [lia|]. split; [|reflexivity].
      destruct (le_lt_dec (length mu) (Z.to_nat (i - 1))) as [C|C]; [|assumption].
      exfalso. rewrite row_overflow in H2 by assumption. specialize (Hlo (i - 1)). lia.
    + apply in_map_iff. simpl. exists (j - sh (i - 1) - 1). split; [f_equal; lia|]. apply In_zrange. lia.
Qed.

Lemma gshape_NoDup : forall lo sh mu, NoDup (gshape lo sh mu).
Proof.
  intros lo sh mu. unfold gshape. rewrite enum_enum_from. apply NoDup_flat_map.
  - apply NoDup_map_NoDup with (f := fst). apply enum_from_NoDup.
  - intros [i a] _. simpl. apply NoDup_map_inj_in; [|apply NoDup_zrange]. intros x y _ _ E. injection E. lia.
  - intros [i a] [i' a'] b H1 H2 H3 H4. simpl in *. apply in_map_iff in H3, H4.
    destruct H3 as (x & <- & _), H4 as (y & E & _). injection E as E1 E2.
    apply In_enum_from in H1, H2. destruct H1 as (k & -> & _ & ->), H2 as (k' & -> & _ & ->).
    assert (k = k') by lia. subst. reflexivity.
Qed.

Lemma shape_gshape : forall mu, shape mu = gshape (fun _ => 0) (fun _ => 0) mu.
Proof.
  intro. unfold shape, gshape. apply flat_map_ext. intros [i a]. simpl. apply map_ext. intro. f_equal. lia.
Qed.
Lemma shifted_shape_gshape : forall mu, shifted_shape mu = gshape (fun _ => 0) (fun i => i) mu.
Proof.
  intro. unfold shifted_shape, gshape. apply flat_map_ext. intros [i a]. simpl. apply map_ext. intro. f_equal. lia.
Qed.
Lemma skew_gshape : forall mu nu b, skew mu nu b = gshape (fun i => if i <? zlen nu then nthz nu i else 0) (fun i => if b then i else 0) mu.
Proof. intros. reflexivity. Qed.

Lemma shape_In : forall mu i j, In (i, j) (shape mu) <-> cell mu i j.
Proof. intros. rewrite shape_gshape, gshape_In by (intros; lia). unfold cell. lia. Qed.
Lemma shifted_shape_In : forall mu i j, In (i, j) (shifted_shape mu) <-> shifted_cell mu i j.
Proof. intros. rewrite shifted_shape_gshape, gshape_In by (intros; lia). unfold shifted_cell. lia. Qed.
Lemma skew_lo : forall nu i, 0 <= i -> (if i <? zlen nu then nthz nu i else 0) = row nu (Z.to_nat i).
Proof.
  intros nu i Hi. destruct (i <? zlen nu) eqn:E; [reflexivity|]. apply Z.ltb_ge in E. symmetry. apply row_overflow.
  unfold zlen in E. lia.
Qed.
Lemma skew_In : forall mu nu i j, Forall (fun a => 0 <= a) nu ->
  (In (i, j) (skew mu nu false) <-> cell mu i j /\ ~ cell nu i j).
Proof.
  intros mu nu i j Hn. rewrite skew_gshape, gshape_In.
  - unfold cell. destruct (Z_lt_le_dec i 1) as [C|C]; [lia|]. rewrite skew_lo by lia.
    pose proof (row_nonneg nu (Z.to_nat (i - 1)) Hn). lia.
  - intro k. destruct (k <? zlen nu); [apply row_nonneg; assumption|lia].
Qed.
Lemma skew_shifted_In : forall mu nu i j, Forall (fun a => 0 <= a) nu ->
  (In (i, j) (skew mu nu true) <-> shifted_cell mu i j /\ ~ shifted_cell nu i j).
Proof.
  intros mu nu i j Hn. rewrite skew_gshape, gshape_In.
  - unfold shifted_cell. destruct (Z_lt_le_dec i 1) as [C|C]; [lia|]. rewrite skew_lo by lia.
    pose proof (row_nonneg nu (Z.to_nat (i - 1)) Hn). lia.
  - intro k. destruct (k <? zlen nu); [apply row_nonneg; assumption|lia].
Qed.

(* from_shape counts the cells of each row *)
Lemma upd_row : forall l i v k, (i < length l)%nat -> row (upd l i v) k = if (k =? i)%nat then v else row l k.
Proof.
  induction l as [|a l IH]; intros i v k H; simpl in H; [lia|].
  destruct i as [|i]; destruct k as [|k]; simpl; try reflexivity.
  apply (IH i v k). lia.
Qed.
Lemma upd_length : forall l i v, length (upd l i v) = length l.
Proof. induction l as [|a l IH]; intros i v; destruct i; simpl; auto. Qed.

Lemma repeat_row : forall n k, row (repeat 0 n) k = 0.
Proof. induction n as [|n IH]; intro k; [apply row_nil|]. destruct k; [reflexivity|]. apply IH. Qed.

Lemma app_row : forall a b k, row (a ++ b) k = if (k <? length a)%nat then row a k else row b (k - length a).
Proof.
  intros. unfold row. destruct (k <? length a)%nat eqn:E.
  - apply Nat.ltb_lt in E. apply app_nth1. assumption.
  - apply Nat.ltb_ge in E. apply app_nth2. lia.
Qed.

Lemma pad_row : forall ans i k, row (pad_to ans i) k = row ans k.
Proof.
  intros. unfold pad_to. rewrite app_row. destruct (k <? length ans)%nat eqn:E; [reflexivity|].
  apply Nat.ltb_ge in E. rewrite repeat_row. symmetry. apply row_overflow. assumption.
Qed.
Lemma pad_length : forall ans i, zlen (pad_to ans i) = Z.max (zlen ans) i.
Proof. intros. unfold pad_to. rewrite zlen_app. unfold zlen at 2. rewrite repeat_length. unfold zlen. lia. Qed.

Definition rowcount (sh : list (Z * Z)) (k : nat) : Z := zlen (filter (fun ij => fst ij =? Z.of_nat k + 1) sh).

Lemma from_shape_row_aux : forall sh ans k, Forall (fun ij : Z * Z => 1 <= fst ij) sh ->
  row (fold_left (fun ans ij =>
    let i := fst ij in let ans := pad_to ans i in
    upd ans (Z.to_nat (i - 1)) (nthz ans (i - 1) + 1)) sh ans) k = row ans k + rowcount sh k.
Proof.
  induction sh as [|[i j] sh IH]; intros ans k H; simpl.
  - unfold rowcount, zlen. simpl. lia.
  - inversion H as [|? ? H1 H2]; subst. simpl in H1. rewrite IH by assumption.
    rewrite upd_row.
    + rewrite nthz_row', !pad_row. unfold rowcount. simpl.
      destruct (k =? Z.to_nat (i - 1))%nat eqn:E.
      * apply Nat.eqb_eq in E. subst. replace (i =? Z.of_nat (Z.to_nat (i - 1)) + 1) with true by (symmetry; apply Z.eqb_eq; lia).
        rewrite zlen_cons. lia.
      * apply Nat.eqb_neq in E. replace (i =? Z.of_nat k + 1) with false by (symmetry; apply Z.eqb_neq; lia). reflexivity.
    + pose proof (pad_length ans i) as Hp. unfold zlen in Hp. lia.
Qed.

Lemma from_shape_len_aux : forall sh ans, Forall (fun ij : Z * Z => 1 <= fst ij) sh ->
  zlen (fold_left (fun ans ij =>
    let i := fst ij in let ans := pad_to ans i in
    upd ans (Z.to_nat (i - 1)) (nthz ans (i - 1) + 1)) sh ans) = fold_left (fun m (ij : Z * Z) => Z.max m (fst ij)) sh (zlen ans).
Proof.
  induction sh as [|[i j] sh IH]; intros ans H; simpl; [reflexivity|].
  inversion H as [|? ? H1 H2]; subst. rewrite IH by assumption. f_equal.
  unfold zlen. rewrite upd_length. exact (pad_length ans i).
Qed.

Lemma fold_max_attained : forall (sh : list (Z * Z)) m, let r := fold_left (fun m (ij : Z * Z) => Z.max m (fst ij)) sh m in
  m <= r /\ (r = m \/ exists ij, In ij sh /\ fst ij = r).
Proof.
  induction sh as [|[i j] sh IH]; intro m; simpl; [lia|].
  destruct (IH (Z.max m i)) as [H1 H2]. split; [lia|]. destruct H2 as [H2|(ij & H2 & H3)].
  - destruct (Z_lt_le_dec m i) as [C|C].
    + right. exists (i, j). simpl. split; [left; reflexivity|]. lia.
    + left. lia.
  - right. exists ij. auto.
Qed.

(* from_shape of any listing of cells whose row counts are those of mu *)
Lemma from_shape_spec : forall sh mu, Forall (fun a => 0 < a) mu -> Forall (fun ij : Z * Z => 1 <= fst ij) sh ->
  (forall k, rowcount sh k = row mu k) -> from_shape sh = mu.
Proof.
  intros sh mu Hp Hs Hc. apply trimmed_ext; [|apply pos_trimmed; assumption|].
  - unfold from_shape. set (r := fold_left _ sh []).
    assert (Hrow : forall k, row r k = rowcount sh k).
    { intro k. unfold r. rewrite from_shape_row_aux by assumption. rewrite row_nil. lia. }
    assert (Hl : zlen r = fold_left (fun m (ij : Z * Z) => Z.max m (fst ij)) sh 0)
      by (apply (from_shape_len_aux sh [] Hs)).
    destruct (list_eq_dec Z.eq_dec r []) as [E|E]; [left; assumption|]. right.
    rewrite last_row by assumption. rewrite Hrow.
    assert (Hlen : 0 < zlen r) by (destruct r; [congruence|rewrite zlen_cons; pose proof (zlen_nonneg _ r); lia]).
    destruct (fold_max_attained sh 0) as [_ [H|(ij & H1 & H2)]]; [lia|].
    unfold rowcount. rewrite <- Hl in H2.
    assert (Hin : In ij (filter (fun ij : Z * Z => fst ij =? Z.of_nat (length r - 1) + 1) sh)).
    { apply filter_In. split; [assumption|]. apply Z.eqb_eq. unfold zlen in *. lia. }
    destruct (filter _ sh); [destruct Hin|]. rewrite zlen_cons. pose proof (zlen_nonneg _ l). lia.
  - intro i. unfold from_shape. rewrite from_shape_row_aux by assumption. rewrite row_nil, Hc. lia.
Qed.

Lemma filter_perm_length : forall A (f : A -> bool) l m, Permutation l m -> length (filter f l) = length (filter f m).
Proof.
  intros A f l m H. induction H; simpl; auto.
  - destruct (f x); simpl; congruence.
  - destruct (f y), (f x); reflexivity.
  - congruence.
Qed.

Lemma rowcount_perm : forall l m k, Permutation l m -> rowcount l k = rowcount m k.
Proof. intros. unfold rowcount, zlen. f_equal. apply filter_perm_length. assumption. Qed.

Lemma filter_flat_map : forall A B (f : B -> bool) (g : A -> list B) l,
  filter f (flat_map g l) = flat_map (fun a => filter f (g a)) l.
Proof. induction l as [|a l IH]; simpl; [reflexivity|]. rewrite filter_app, IH. reflexivity. Qed.

Lemma filter_all : forall A (f : A -> bool) l, (forall x, In x l -> f x = true) -> filter f l = l.
Proof.
  induction l as [|a l IH]; intro H; simpl; [reflexivity|]. rewrite (H a) by (left; reflexivity).
  f_equal. apply IH. intros. apply H. right. assumption.
Qed.
Lemma filter_none : forall A (f : A -> bool) l, (forall x, In x l -> f x = false) -> filter f l = [].
Proof.
  induction l as [|a l IH]; intro H; simpl; [reflexivity|]. rewrite (H a) by (left; reflexivity).
  apply IH. intros. apply H. right. assumption.
Qed.

Lemma gshape_rowcount : forall sh mu, Forall (fun a => 0 <= a) mu -> forall k,
  rowcount (gshape (fun _ => 0) sh mu) k = row mu k.
Proof.
  intros sh mu Hn k. unfold rowcount, gshape. rewrite enum_enum_from, filter_flat_map.
  assert (H : forall mu s, Forall (fun a => 0 <= a) mu ->
    zlen (flat_map (fun ia : Z * Z => filter (fun ij : Z * Z => fst ij =? Z.of_nat k + 1)
      (map (fun j => (fst ia + 1, j + 1 + sh (fst ia))) (zrange 0 (snd ia)))) (enum_from s mu)) =
    if (s <=? k)%nat then row mu (k - s) else 0).
  { clear. induction mu as [|a mu IH]; intros s H.
    - simpl. rewrite row_nil. destruct (s <=? k)%nat; reflexivity.
    - inversion H as [|? ? Ha Hm]; subst. rewrite enum_from_cons. simpl flat_map. rewrite zlen_app, IH by assumption.
      destruct (Nat.eq_dec s k) as [E|E].
      + subst. rewrite filter_all.
        * unfold zlen. rewrite map_length, length_zrange. rewrite Nat.leb_refl, Nat.sub_diag.
          replace (S k <=? k)%nat with false by (symmetry; apply Nat.leb_gt; lia). unfold row. simpl. lia.
        * intros x Hx. apply in_map_iff in Hx. destruct Hx as (j & <- & _). simpl. apply Z.eqb_eq. lia.
      + rewrite filter_none.
        * destruct (s <=? k)%nat eqn:E2.
          -- apply Nat.leb_le in E2. replace (S s <=? k)%nat with true by (symmetry; apply Nat.leb_le; lia).
             replace (k - s)%nat with (S (k - S s)) by lia. reflexivity.
          -- apply Nat.leb_gt in E2. replace (S s <=? k)%nat with false by (symmetry; apply Nat.leb_gt; lia). reflexivity.
        * intros x Hx. apply in_map_iff in Hx. destruct Hx as (j & <- & _). simpl. apply Z.eqb_neq. lia. }
  rewrite H by assumption. rewrite Nat.sub_0_r. reflexivity.
Qed.

Lemma gshape_fst_pos : forall sh mu, Forall (fun ij => 1 <= fst ij) (gshape (fun _ => 0) sh mu).
Proof.
  intros sh mu. apply Forall_forall. intros [i j] H. apply gshape_In in H; [|intros; lia]. simpl. lia.
Qed.

Lemma from_shape_gshape : forall sh mu l, Forall (fun a => 0 < a) mu ->
  Permutation l (gshape (fun _ => 0) sh mu) -> from_shape l = mu.
Proof.
  intros sh mu l Hm Hp. apply from_shape_spec; [assumption| |].
  - apply (Permutation_Forall (Permutation_sym Hp)). apply gshape_fst_pos.
  - intro k. rewrite (rowcount_perm _ _ _ Hp). apply gshape_rowcount. apply pos_nonneg. assumption.
Qed.
