(* complement, decrement operations *)
From Coq Require Import List ZArith Lia Bool Permutation Sorted Arith.
From Verif Require Import PyBase M_Partitions S_Partitions L_Partitions L_PartBasic L_PartEnum.
Import ListNotations.
Local Open Scope Z_scope.

(* ---------- decrement ---------- *)
Lemma dec1_index_spec : forall nu i, nu <> [] -> Forall (fun a => 0 < a) nu ->
  exists k, dec1_index nu i = (i + k)%nat /\ (k < length nu)%nat /\
    (S k = length nu \/ row nu (S k) + 1 < row nu k).
Proof.
  induction nu as [|a nu IH]; intros i Hne Hp; [congruence|]. inversion Hp as [|? ? Ha Hp']; subst.
  destruct nu as [|b nu].
  - exists O. simpl. split; [lia|]. split; [lia|]. left. reflexivity.
  - cbn [dec1_index]. destruct (a - 1 <=? b) eqn:E.
    + destruct (IH (S i) ltac:(discriminate) Hp') as (k & H1 & H2 & H3). exists (S k). split; [cbn [dec1_index] in H1; lia|].
      split; [simpl in *; lia|]. destruct H3 as [H3|H3]; [left; simpl in *; lia|right; exact H3].
    + apply Z.leb_gt in E. exists O. split; [lia|]. split; [simpl; lia|]. right. unfold row. simpl. lia.
Qed.

Lemma size_rows_dec : forall mu k nu, (k < length mu)%nat -> length nu = length mu ->
  (forall j, row nu j = row mu j - (if (j =? k)%nat then 1 else 0)) -> size nu = size mu - 1.
Proof.
  induction mu as [|a mu IH]; intros k nu Hk Hl H; [simpl in Hk; lia|].
  destruct nu as [|b nu]; [discriminate|]. simpl.
  pose proof (H O) as H0. unfold row in H0. simpl in H0.
  destruct k as [|k].
  - simpl in H0. assert (nu = mu); [|subst; lia]. apply row_ext_len; [simpl in Hl; congruence|].
    intro j. specialize (H (S j)). unfold row in *. simpl in H. lia.
  - simpl in H0. rewrite (IH k nu); [lia|simpl in Hk; lia|simpl in Hl; congruence|].
    intro j. specialize (H (S j)). unfold row in *. simpl in H. exact H.
Qed.

Lemma size_app : forall a b, size (a ++ b) = size a + size b.
Proof. induction a; intros; simpl; [reflexivity|]. rewrite IHa. lia. Qed.

Lemma size_trim : forall mu, size (trim mu) = size mu.
Proof.
  intro mu. unfold trim.
  assert (H : forall l, size (rev (dropz l)) = size (rev l)).
  { induction l as [|a l IH]; [reflexivity|]. simpl. destruct (a =? 0) eqn:E; [|reflexivity].
    apply Z.eqb_eq in E. rewrite IH, size_app. simpl. lia. }
  rewrite H, rev_involutive. reflexivity.
Qed.

Lemma decrement_one_spec : forall nu, nu <> [] -> strict_partition nu ->
  exists k r, decrement_one nu = Ok r /\ (k < length nu)%nat /\ strict_partition r /\ size r = size nu - 1 /\
    (forall j, row r j = row nu j - (if (j =? k)%nat then 1 else 0)).
Proof.
  intros nu Hne [Hp Hs]. unfold decrement_one. destruct nu as [|a nu']; [congruence|]. set (nu := a :: nu') in *.
  destruct (dec1_index_spec nu 0 Hne Hp) as (k & Ek & Hk & Hk2). rewrite Ek. simpl Nat.add.
  set (L := firstn k nu ++ [nth k nu 0 - 1] ++ skipn (S k) nu).
  assert (HL : forall j, row L j = row nu j - (if (j =? k)%nat then 1 else 0)).
  { intro j. unfold L. rewrite glue_row by assumption. destruct (j <? k)%nat eqn:E.
    - apply Nat.ltb_lt in E. replace (j =? k)%nat with false by (symmetry; apply Nat.eqb_neq; lia). lia.
    - apply Nat.ltb_ge in E. destruct (j =? k)%nat eqn:E2; [apply Nat.eqb_eq in E2; subst; reflexivity|].
      apply Nat.eqb_neq in E2. rewrite skipn_row. replace (S k + (j - S k))%nat with j by lia. lia. }
  assert (Hlen : length L = length nu).
  { unfold L. rewrite !app_length, firstn_length, skipn_length. simpl length at 2. lia. }
  exists k, (trim L). split; [reflexivity|]. split; [assumption|].
  assert (Hnn : forall j, 0 <= row L j).
  { intro j. rewrite HL. destruct (j =? k)%nat eqn:E.
    - apply Nat.eqb_eq in E. subst j. pose proof (row_pos nu k Hp Hk). lia.
    - pose proof (row_nonneg nu j (pos_nonneg _ Hp)). lia. }
  assert (Hdec : forall j, nxt true (row L (S j)) <= row L j).
  { pose proof (proj1 (part_b_nxt true nu) (conj Hp Hs)) as [_ Hnx]. intro j. specialize (Hnx j). rewrite !HL.
    destruct (j =? k)%nat eqn:E.
    - apply Nat.eqb_eq in E. subst j. replace (S k =? k)%nat with false by (symmetry; apply Nat.eqb_neq; lia).
      rewrite !Z.sub_0_r. destruct Hk2 as [C|C].
      + rewrite (row_overflow nu (S k)) by lia. unfold nxt. simpl. pose proof (row_pos nu k Hp Hk). lia.
      + unfold nxt. destruct (0 <? row nu (S k)); [lia|]. pose proof (row_pos nu k Hp Hk). lia.
    - pose proof (row_nonneg nu (S j) (pos_nonneg _ Hp)). unfold nxt in *.
      destruct (S j =? k)%nat; [|rewrite !Z.sub_0_r; exact Hnx].
      destruct (0 <? row nu (S j) - 1) eqn:E3; destruct (0 <? row nu (S j)) eqn:E4; try lia. }
  split; [|split].
  - apply (part_b_nxt true). split.
    + apply weak_trim_partition. split.
      * apply Forall_forall. intros x Hx. apply In_nth with (d := 0) in Hx. destruct Hx as (q & _ & <-). apply Hnn.
      * intro q. specialize (Hdec q). unfold nxt in Hdec. specialize (Hnn q). destruct (0 <? row L (S q)) eqn:E; [lia|]. apply Z.ltb_ge in E. lia.
    + intro j. rewrite !trim_row. apply Hdec.
  - rewrite size_trim. apply (size_rows_dec nu k); assumption.
  - intro j. rewrite trim_row. apply HL.
Qed.

(* the loop: a prefix of rows each loses one cell *)
Lemma dec_strict_loop_spec : forall rest a, 0 <= a -> Forall (fun x => 0 < x) rest ->
  (forall i, (S i < S (length rest))%nat -> row ((a + 1) :: rest) (S i) < row ((a + 1) :: rest) i) ->
  let L := dec_strict_loop a rest in
  length L = S (length rest) /\ (forall j, 0 <= row L j) /\
  (forall j, nxt true (row L (S j)) <= row L j) /\
  exists m, forall j, row L j = row ((a + 1) :: rest) j - (if (j <=? m)%nat then if (j <=? length rest)%nat then 1 else 0 else 0).
Proof.
  induction rest as [|b rest IH]; intros a Ha Hp Hs.
  - simpl. split; [reflexivity|]. split; [|split].
    + intros [|[|j]]; unfold row; simpl; lia.
    + intros [|[|j]]; unfold row, nxt; simpl; lia.
    + exists O. intros [|[|j]]; unfold row; simpl; lia.
  - inversion Hp as [|? ? Hb Hp']; subst. cbn [dec_strict_loop].
    assert (Hab : b < a + 1) by exact (Hs O ltac:(simpl; lia)).
    destruct ((0 <? a) && (a =? b)) eqn:E.
    + apply andb_true_iff in E. destruct E as [E1 E2]. apply Z.ltb_lt in E1. apply Z.eqb_eq in E2. subst b.
      destruct (IH (a - 1)) as (H1 & H2 & H3 & m & H4); [lia|assumption| |].
      * intros i Hi. replace (a - 1 + 1) with a in * by lia. exact (Hs (S i) ltac:(simpl in *; lia)).
      * set (L := dec_strict_loop (a - 1) rest) in *. cbv zeta. split; [simpl; congruence|]. split; [|split].
        -- intros [|j]; [unfold row; simpl; lia|]. apply H2.
        -- intros [|j]; [|apply H3]. change (row (a :: L) 1) with (row L 0). change (row (a :: L) 0) with a.
           rewrite H4. simpl. change (row (a - 1 + 1 :: rest) 0) with (a - 1 + 1). unfold nxt. destruct (0 <? _); lia.
        -- exists (S m). intros [|j]; [unfold row; simpl; lia|]. change (row (a :: L) (S j)) with (row L j). rewrite H4.
           replace (a - 1 + 1) with a by lia. reflexivity.
    + cbv zeta. split; [reflexivity|]. split; [|split].
      * intro j. apply row_nonneg. constructor; [assumption|]. constructor; [lia|]. apply pos_nonneg. assumption.
      * intros [|j].
        -- unfold row, nxt. simpl. replace (0 <? b) with true by (symmetry; apply Z.ltb_lt; lia).
           apply andb_false_iff in E. destruct E as [E|E]; [apply Z.ltb_ge in E|apply Z.eqb_neq in E]; lia.
        -- change (row (a :: b :: rest) (S (S j))) with (row (a + 1 :: b :: rest) (S (S j))).
           change (row (a :: b :: rest) (S j)) with (row (a + 1 :: b :: rest) (S j)).
           unfold nxt. destruct (0 <? row (a + 1 :: b :: rest) (S (S j))) eqn:E2.
           ++ apply Z.ltb_lt in E2. assert ((S (S j) < S (S (length rest)))%nat).
              { destruct (le_lt_dec (S (S (length rest))) (S (S j))) as [Q|Q]; [|assumption]. rewrite row_overflow in E2 by assumption. lia. }
              specialize (Hs (S j) H). lia.
           ++ apply row_nonneg. constructor; [lia|]. constructor; [lia|]. apply pos_nonneg. assumption.
      * exists O. intros [|j]; [unfold row; simpl; lia|]. simpl. unfold row. simpl. lia.
Qed.

Lemma decrement_strict_spec : forall nu, nu <> [] -> strict_partition nu ->
  exists r, decrement_strict nu = Ok r /\ strict_partition r /\ row r 0 = row nu 0 - 1 /\
   exists m, forall j, row r j = row nu j - (if (j <=? m)%nat then if (j <? length nu)%nat then 1 else 0 else 0).
Proof.
  intros nu Hne Hst. unfold decrement_strict.
  assert (Ht : trim nu = nu) by (apply trim_id, partition_trimmed, strict_is_partition; assumption).
  destruct Hst as [Hp Hs]. destruct nu as [|a rest]; [congruence|]. rewrite Ht.
  inversion Hp as [|? ? Ha Hp']; subst.
  destruct (dec_strict_loop_spec rest (a - 1)) as (H1 & H2 & H3 & m & H4); [lia|assumption| |].
  - replace (a - 1 + 1) with a by lia. assumption.
  - replace (a - 1 + 1) with a in * by lia. set (L := dec_strict_loop (a - 1) rest) in *.
    exists (trim L). split; [reflexivity|]. split; [|split].
    + apply (part_b_nxt true). split.
      * apply weak_trim_partition. split.
        -- apply Forall_forall. intros x Hx. apply In_nth with (d := 0) in Hx. destruct Hx as (q & _ & <-). apply H2.
        -- intro q. specialize (H3 q). specialize (H2 q). unfold nxt in H3. destruct (0 <? row L (S q)) eqn:E; [lia|]. apply Z.ltb_ge in E. lia.
      * intro j. rewrite !trim_row. apply H3.
    + rewrite trim_row, H4. reflexivity.
    + exists m. intro j. rewrite trim_row, H4. destruct (j <=? m)%nat; [|reflexivity]. simpl length.
      replace (j <? S (length rest))%nat with (j <=? length rest)%nat; [reflexivity|].
      destruct (j <=? length rest)%nat eqn:E; symmetry.
      * apply Nat.leb_le in E. apply Nat.ltb_lt. lia.
      * apply Nat.leb_gt in E. apply Nat.ltb_ge. lia.
Qed.

(* ---------- complement ---------- *)
Definition dval (d : list (Z * Z)) (j : Z) : Z := match dget Z.eqb d j with Some x => x | None => 0 end.
Definition bump (d : list (Z * Z)) (j : Z) : list (Z * Z) := dset Z.eqb d j (dval d j + 1).

Definition zeqb_spec : forall a b : Z, (a =? b) = true <-> a = b := Z.eqb_eq.

Lemma bump_dval : forall d j k, dval (bump d j) k = dval d k + (if k =? j then 1 else 0).
Proof.
  intros d j k. unfold dval at 1, bump. destruct (k =? j) eqn:E.
  - apply Z.eqb_eq in E. subst. rewrite dget_dset_same by apply zeqb_spec. reflexivity.
  - apply Z.eqb_neq in E. rewrite (dget_dset_other Z.eqb zeqb_spec) by congruence. unfold dval. lia.
Qed.

Lemma bump_list_dval : forall L d k, NoDup L ->
  dval (fold_left bump L d) k = dval d k + (if existsb (Z.eqb k) L then 1 else 0).
Proof.
  induction L as [|a L IH]; intros d k H; simpl; [lia|]. inversion H as [|? ? Ha HL]; subst.
  rewrite IH by assumption. rewrite bump_dval. destruct (k =? a) eqn:E; simpl; [|lia].
  apply Z.eqb_eq in E. subst. replace (existsb (Z.eqb a) L) with false; [lia|]. symmetry. apply not_true_is_false.
  intro C. apply existsb_exists in C. destruct C as (x & Hx & Ex). apply Z.eqb_eq in Ex. subst. contradiction.
Qed.

Lemma bump_list_keys : forall L d k, In k (map fst (fold_left bump L d)) <-> In k L \/ In k (map fst d).
Proof.
  induction L as [|a L IH]; intros d k; simpl; [tauto|]. rewrite IH. unfold bump. rewrite (dset_keys_In Z.eqb zeqb_spec). intuition congruence.
Qed.
Lemma bump_list_NoDup : forall L d, NoDup (map fst d) -> NoDup (map fst (fold_left bump L d)).
Proof. induction L as [|a L IH]; intros d H; simpl; [assumption|]. apply IH. apply (dset_NoDup Z.eqb zeqb_spec). assumption. Qed.

Definition zcount (p : Z -> bool) (l : list Z) : Z := zlen (filter p l).
Lemma zcount_cons : forall p a l, zcount p (a :: l) = (if p a then 1 else 0) + zcount p l.
Proof. intros. unfold zcount. simpl. destruct (p a); [rewrite zlen_cons|]; lia. Qed.
Lemma zcount_app : forall p a b, zcount p (a ++ b) = zcount p a + zcount p b.
Proof. intros. unfold zcount. rewrite filter_app, zlen_app. reflexivity. Qed.
Lemma zcount_nonneg : forall p l, 0 <= zcount p l.
Proof. intros. apply zlen_nonneg. Qed.
Lemma zcount_pos : forall p l, 0 < zcount p l <-> exists x, In x l /\ p x = true.
Proof.
  intros p l. unfold zcount. split.
  - intro H. destruct (filter p l) as [|x r] eqn:E; [unfold zlen in H; simpl in H; lia|]. exists x.
    apply filter_In. rewrite E. left. reflexivity.
  - intros (x & Hx & Hp). assert (In x (filter p l)) by (apply filter_In; auto). destruct (filter p l); [destruct H|].
    rewrite zlen_cons. pose proof (zlen_nonneg _ l0). lia.
Qed.
Lemma zcount_le : forall p q l, (forall x, In x l -> p x = true -> q x = true) -> zcount p l <= zcount q l.
Proof.
  induction l as [|a l IH]; intro H; [unfold zcount, zlen; simpl; lia|]. rewrite !zcount_cons.
  assert (zcount p l <= zcount q l) by (apply IH; intros; apply H; [right|]; assumption).
  specialize (H a (or_introl eq_refl)). destruct (p a), (q a); try lia.
Qed.

Definition cdict (st : Z -> Z) (n : Z) (I : list Z) (d : list (Z * Z)) : list (Z * Z) :=
  fold_left (fun d i => fold_left bump (zrange (st i) (n + 1)) d) I d.

Lemma cdict_dval : forall st n I d k,
  dval (cdict st n I d) k = dval d k + zcount (fun i => (st i <=? k) && (k <=? n)) I.
Proof.
  intros st n. induction I as [|i I IH]; intros d k; simpl; [unfold zcount, zlen; simpl; lia|].
  change (dval (cdict st n I (fold_left bump (zrange (st i) (n + 1)) d)) k = dval d k + zcount (fun i => (st i <=? k) && (k <=? n)) (i :: I)).
  rewrite IH, bump_list_dval by apply NoDup_zrange. rewrite zcount_cons.
  replace (existsb (Z.eqb k) (zrange (st i) (n + 1))) with ((st i <=? k) && (k <=? n)); [lia|].
  apply eq_true_iff_eq. rewrite andb_true_iff, existsb_exists, !Z.leb_le. split.
  - intro. exists k. split; [apply In_zrange; lia|apply Z.eqb_refl].
  - intros (x & Hx & E). apply Z.eqb_eq in E. subst x. apply In_zrange in Hx. lia.
Qed.
Lemma cdict_keys : forall st n I d k,
  In k (map fst (cdict st n I d)) <-> In k (map fst d) \/ 0 < zcount (fun i => (st i <=? k) && (k <=? n)) I.
Proof.
  intros st n. induction I as [|i I IH]; intros d k; simpl.
  - unfold zcount. simpl. unfold zlen. simpl. split; [tauto|]. intros [H|H]; [assumption|lia].
  - change (In k (map fst (cdict st n I (fold_left bump (zrange (st i) (n + 1)) d))) <-> In k (map fst d) \/ 0 < zcount (fun i => (st i <=? k) && (k <=? n)) (i :: I)).
    rewrite IH, bump_list_keys, zcount_cons, In_zrange.
    pose proof (zcount_nonneg (fun i => (st i <=? k) && (k <=? n)) I).
    destruct ((st i <=? k) && (k <=? n)) eqn:E.
    + apply andb_true_iff in E. rewrite !Z.leb_le in E. split; [|intro; left; left; lia]. intro. right. lia.
    + apply andb_false_iff in E. rewrite !Z.leb_gt in E. split.
      * intros [[H1|H1]|H1]; [exfalso; lia|left; assumption|right; lia].
      * intros [H1|H1]; [left; right; assumption|right; lia].
Qed.
Lemma cdict_NoDup : forall st n I d, NoDup (map fst d) -> NoDup (map fst (cdict st n I d)).
Proof. intros st n. induction I as [|i I IH]; intros d H; simpl; [assumption|]. apply IH. apply bump_list_NoDup. assumption. Qed.

Lemma map_snd_dval : forall d, NoDup (map fst d) -> map snd d = map (dval d) (map fst d).
Proof.
  intros d H. rewrite map_map. apply map_ext_in. intros [k v] Hin. simpl. unfold dval.
  rewrite (In_dget Z.eqb zeqb_spec d k v) by assumption. reflexivity.
Qed.

Definition cstart (mu : list Z) (i : Z) : Z := i + (if i <? zlen mu then nthz mu i else 0) + 1.

Lemma complement_unfold : forall n mu, complement n mu =
  if forallb (fun i => nthz mu i <=? n - i) (zrange 0 (zlen mu))
  then Ok (psort (map snd (cdict (cstart mu) n (zrange 0 n) [])) true) else Err AssertionError.
Proof. reflexivity. Qed.

(* strict partitions: row differences *)
Lemma strict_gap : forall mu i k, strict_partition mu -> (i + k < length mu)%nat -> row mu (i + k) + Z.of_nat k <= row mu i.
Proof.
  intros mu i k H. induction k as [|k IH]; intro Hl; [rewrite Nat.add_0_r; lia|].
  specialize (IH ltac:(lia)). destruct H as [_ H]. specialize (H (i + k)%nat ltac:(lia)).
  replace (i + S k)%nat with (S (i + k)) by lia. lia.
Qed.

Lemma strict_In_row : forall mu v, In v mu <-> exists i, (i < length mu)%nat /\ row mu i = v.
Proof.
  intros mu v. split.
  - intro H. apply In_nth with (d := 0) in H. exact H.
  - intros (i & Hi & <-). apply nth_In. assumption.
Qed.

Lemma strict_NoDup : forall mu, strict_partition mu -> NoDup mu.
Proof.
  intros mu H. apply (NoDup_nth mu 0). intros i j Hi Hj E. change (row mu i = row mu j) in E.
  destruct (lt_eq_lt_dec i j) as [[C|C]|C]; [|assumption|]; exfalso.
  - pose proof (strict_gap mu i (j - i) H ltac:(lia)). replace (i + (j - i))%nat with j in * by lia. lia.
  - pose proof (strict_gap mu j (i - j) H ltac:(lia)). replace (j + (i - j))%nat with i in * by lia. lia.
Qed.

Lemma strict_bound : forall mu n i, strict_partition mu -> (forall v, In v mu -> v <= n) -> (i < length mu)%nat ->
  row mu i <= n - Z.of_nat i.
Proof.
  intros mu n i H Hn Hi. pose proof (strict_gap mu 0 i H ltac:(lia)). simpl in H0.
  assert (row mu 0 <= n) by (apply Hn, nth_In; lia). lia.
Qed.

Lemma strict_len_bound : forall mu n, strict_partition mu -> (forall v, In v mu -> v <= n) -> 0 <= n -> zlen mu <= n.
Proof.
  intros mu n H Hn H0. destruct mu as [|a mu]; [unfold zlen; simpl; lia|]. set (m := a :: mu) in *.
  pose proof (strict_bound m n (length m - 1) H Hn ltac:(simpl; lia)).
  pose proof (row_pos m (length m - 1) (proj1 H) ltac:(simpl; lia)). unfold zlen. lia.
Qed.

(* c(j) = number of rows of mu that start after j *)
Definition late (mu : list Z) (j : Z) : Z := zcount (fun i => j <? cstart mu i) (zrange 0 (zlen mu)).

Lemma zrange_split : forall a b c, a <= b <= c -> zrange a c = zrange a b ++ zrange b c.
Proof.
  intros a b c H. replace c with (b + Z.of_nat (Z.to_nat (c - b))) by lia. generalize (Z.to_nat (c - b)) as k. 
  induction k as [|k IH].
  - rewrite Z.add_0_r, (zrange_nil b b) by lia. rewrite app_nil_r. reflexivity.
  - rewrite (zrange_snoc a) by lia. rewrite (zrange_snoc b) by lia.
    replace (b + Z.of_nat (S k) - 1) with (b + Z.of_nat k) by lia. rewrite IH, app_assoc. reflexivity.
Qed.

Lemma zcount_ext : forall p q l, (forall x, In x l -> p x = q x) -> zcount p l = zcount q l.
Proof. intros p q l H. unfold zcount. rewrite (filter_ext_in p q); [reflexivity|assumption]. Qed.

Lemma zcount_neg : forall p l, zcount p l + zcount (fun x => negb (p x)) l = zlen l.
Proof. induction l as [|a l IH]; [reflexivity|]. rewrite !zcount_cons, zlen_cons. cbv beta; destruct (p a); cbn [negb]; lia. Qed.

Lemma zlen_zrange : forall a b, a <= b -> zlen (zrange a b) = b - a.
Proof. intros. unfold zlen. rewrite length_zrange. lia. Qed.

Lemma zcount_prefix : forall a b j, a <= b -> zcount (fun i => i <=? j) (zrange a b) = Z.max 0 (Z.min (b - a) (j + 1 - a)).
Proof.
  intros a b j H. replace b with (a + Z.of_nat (Z.to_nat (b - a))) by lia. generalize (Z.to_nat (b - a)) as k.
  induction k as [|k IH].
  - rewrite zrange_nil by lia. unfold zcount, zlen. simpl. lia.
  - rewrite (zrange_snoc a) by lia. replace (a + Z.of_nat (S k) - 1) with (a + Z.of_nat k) by lia.
    rewrite zcount_app, IH, zcount_cons. unfold zcount at 1, zlen. simpl. destruct (a + Z.of_nat k <=? j) eqn:E; lia.
Qed.

Lemma cstart_row : forall mu i, (i < length mu)%nat -> cstart mu (Z.of_nat i) = Z.of_nat i + row mu i + 1.
Proof.
  intros. unfold cstart. replace (Z.of_nat i <? zlen mu) with true by (symmetry; apply Z.ltb_lt; unfold zlen; lia).
  rewrite nthz_row. reflexivity.
Qed.
Lemma cstart_out : forall mu i, zlen mu <= i -> cstart mu i = i + 1.
Proof. intros. unfold cstart. replace (i <? zlen mu) with false by (symmetry; apply Z.ltb_ge; lia). lia. Qed.

Lemma cval : forall mu n j, strict_partition mu -> (forall v, In v mu -> v <= n) -> 0 <= n -> j <= n ->
  zcount (fun i => (cstart mu i <=? j) && (j <=? n)) (zrange 0 n) = if j <=? zlen mu then 0 else j - late mu j.
Proof.
  intros mu n j Hs Hn H0 Hj. pose proof (strict_len_bound mu n Hs Hn H0) as Hl. pose proof (zlen_nonneg _ mu).
  rewrite (zrange_split 0 (zlen mu) n) by lia. rewrite zcount_app.
  rewrite (zcount_ext _ (fun i => negb (j <? cstart mu i)) (zrange 0 (zlen mu))).
  2:{ intros x _. replace (j <=? n) with true by (symmetry; apply Z.leb_le; lia). rewrite andb_true_r. rewrite Z.leb_antisym. reflexivity. }
  rewrite (zcount_ext _ (fun i => i <=? j - 1) (zrange (zlen mu) n)).
  2:{ intros x Hx. apply In_zrange in Hx. rewrite cstart_out by lia. replace (j <=? n) with true by (symmetry; apply Z.leb_le; lia). rewrite andb_true_r.
      destruct (x + 1 <=? j) eqn:E1; destruct (x <=? j - 1) eqn:E2; try reflexivity; lia. }
  rewrite zcount_prefix by lia.
  pose proof (zcount_neg (fun i => j <? cstart mu i) (zrange 0 (zlen mu))) as E. rewrite zlen_zrange in E by lia.
  unfold late. destruct (j <=? zlen mu) eqn:Ej; [|lia]. apply Z.leb_le in Ej.
  assert (zcount (fun i => negb (j <? cstart mu i)) (zrange 0 (zlen mu)) = 0); [|lia].
  pose proof (zcount_nonneg (fun i => negb (j <? cstart mu i)) (zrange 0 (zlen mu))).
  destruct (Z.eq_dec (zcount (fun i => negb (j <? cstart mu i)) (zrange 0 (zlen mu))) 0) as [|C]; [assumption|exfalso].
  assert (C' : 0 < zcount (fun i => negb (j <? cstart mu i)) (zrange 0 (zlen mu))) by lia.
  apply zcount_pos in C'. destruct C' as (x & Hx & Ex). apply In_zrange in Hx. apply negb_true_iff, Z.ltb_ge in Ex.
  rewrite <- (Z2Nat.id x) in Ex by lia. set (i := Z.to_nat x) in *.
  assert (Hi : (i < length mu)%nat) by (unfold i; unfold zlen in Hx; lia).
  rewrite cstart_row in Ex by assumption.
  pose proof (strict_gap mu i (length mu - 1 - i) Hs ltac:(lia)) as G.
  pose proof (row_pos mu (length mu - 1) (proj1 Hs) ltac:(lia)).
  replace (i + (length mu - 1 - i))%nat with (length mu - 1)%nat in G by lia. unfold zlen in Ej. lia.
Qed.

(* late counts a prefix of the rows *)
Lemma late_le_len : forall mu j, late mu j <= zlen mu.
Proof.
  intros. unfold late. pose proof (zcount_neg (fun i => j <? cstart mu i) (zrange 0 (zlen mu))) as E.
  rewrite zlen_zrange in E by apply zlen_nonneg.
  pose proof (zcount_nonneg (fun i => negb (j <? cstart mu i)) (zrange 0 (zlen mu))). lia.
Qed.

Lemma late_spec : forall mu j i, strict_partition mu -> (i < length mu)%nat ->
  (j < cstart mu (Z.of_nat i) <-> Z.of_nat i < late mu j).
Proof.
  intros mu j i Hs Hi.
  assert (Hmono : forall a b, (a <= b)%nat -> (b < length mu)%nat -> cstart mu (Z.of_nat b) <= cstart mu (Z.of_nat a)).
  { intros a b Hab Hb. rewrite !cstart_row by lia. pose proof (strict_gap mu a (b - a) Hs ltac:(lia)) as G.
    replace (a + (b - a))%nat with b in G by lia. lia. }
  unfold late. rewrite (zrange_split 0 (Z.of_nat i + 1) (zlen mu)) by (unfold zlen; lia). rewrite zcount_app. split.
  - intro H. rewrite (zcount_ext _ (fun _ => true) (zrange 0 (Z.of_nat i + 1))).
    + unfold zcount at 1. replace (filter (fun _ : Z => true) (zrange 0 (Z.of_nat i + 1))) with (zrange 0 (Z.of_nat i + 1)).
      * rewrite zlen_zrange by lia. pose proof (zcount_nonneg (fun i0 => j <? cstart mu i0) (zrange (Z.of_nat i + 1) (zlen mu))). lia.
      * generalize (zrange 0 (Z.of_nat i + 1)). induction l as [|x l IHl]; [reflexivity|]. simpl. congruence.
    + intros x Hx. apply In_zrange in Hx. apply Z.ltb_lt. specialize (Hmono (Z.to_nat x) i ltac:(lia) Hi).
      rewrite Z2Nat.id in Hmono by lia. lia.
  - intro H. destruct (Z_lt_le_dec j (cstart mu (Z.of_nat i))) as [|C]; [assumption|exfalso].
    assert (E1 : zcount (fun i0 => j <? cstart mu i0) (zrange (Z.of_nat i + 1) (zlen mu)) = 0).
    { rewrite (zcount_ext _ (fun _ => false)).
      - unfold zcount. generalize (zrange (Z.of_nat i + 1) (zlen mu)). induction l as [|x l IHl]; [reflexivity|exact IHl].
      - intros x Hx. apply In_zrange in Hx. apply Z.ltb_ge. specialize (Hmono i (Z.to_nat x) ltac:(lia) ltac:(unfold zlen in Hx; lia)).
        rewrite Z2Nat.id in Hmono by lia. lia. }
    rewrite E1 in H. rewrite (zrange_snoc 0) in H by lia. replace (Z.of_nat i + 1 - 1) with (Z.of_nat i) in H by lia.
    rewrite zcount_app, zcount_cons in H. replace (j <? cstart mu (Z.of_nat i)) with false in H by (symmetry; apply Z.ltb_ge; assumption).
    unfold zcount at 2 in H. simpl in H. unfold zlen at 1 in H. simpl in H.
    pose proof (zcount_neg (fun i => j <? cstart mu i) (zrange 0 (Z.of_nat i))) as E. rewrite zlen_zrange in E by lia.
    pose proof (zcount_nonneg (fun i0 => negb (j <? cstart mu i0)) (zrange 0 (Z.of_nat i))). lia.
Qed.

Lemma late_mono : forall mu j k, j <= k -> late mu k <= late mu j.
Proof. intros. apply zcount_le. intros x _ Hx. apply Z.ltb_lt in Hx. apply Z.ltb_lt. lia. Qed.

Lemma late_notin : forall mu j, strict_partition mu -> ~ In (j - late mu j) mu.
Proof.
  intros mu j Hs H. apply strict_In_row in H. destruct H as (i & Hi & E).
  pose proof (late_spec mu j i Hs Hi) as L. rewrite cstart_row in L by assumption. lia.
Qed.

Lemma sorted_unique : forall a b : list Z, StronglySorted Z.ge a -> StronglySorted Z.ge b -> Permutation a b -> a = b.
Proof.
  induction a as [|x a IH]; intros b Ha Hb P.
  - apply Permutation_nil in P. congruence.
  - destruct b as [|y b]; [apply Permutation_sym, Permutation_nil in P; discriminate|].
    inversion Ha as [|? ? Ha1 Ha2]; subst. inversion Hb as [|? ? Hb1 Hb2]; subst.
    assert (x = y).
    { rewrite Forall_forall in Ha2, Hb2.
      assert (I1 : In x (y :: b)) by (eapply Permutation_in; [exact P|left; reflexivity]).
      assert (I2 : In y (x :: a)) by (eapply Permutation_in; [apply Permutation_sym; exact P|left; reflexivity]).
      destruct I1 as [|I1]; [congruence|]. destruct I2 as [|I2]; [congruence|].
      specialize (Ha2 _ I2). specialize (Hb2 _ I1). lia. }
    subst. f_equal. apply IH; [assumption|assumption|]. eapply Permutation_cons_inv; eassumption.
Qed.

Lemma sorted_row : forall l, StronglySorted Z.ge l -> forall i j, (i < j)%nat -> (j < length l)%nat -> row l j <= row l i.
Proof.
  induction l as [|a l IH]; intros H i j Hij Hj; [simpl in Hj; lia|]. inversion H as [|? ? H1 H2]; subst.
  destruct j as [|j]; [lia|]. destruct i as [|i].
  - unfold row. simpl. rewrite Forall_forall in H2. specialize (H2 (nth j l 0)). simpl in Hj.
    specialize (H2 ltac:(apply nth_In; lia)). lia.
  - simpl in Hj. apply (IH H1 i j); lia.
Qed.

Lemma sorted_strict : forall l, StronglySorted Z.ge l -> NoDup l -> Forall (fun a => 0 < a) l -> strict_partition l.
Proof.
  intros l Hs Hn Hp. split; [assumption|]. intros i Hi. pose proof (sorted_row l Hs i (S i) ltac:(lia) Hi).
  assert (row l (S i) <> row l i); [|lia]. intro E. assert (S i = i); [|lia].
  apply (proj1 (NoDup_nth l 0)) ; [assumption|lia|lia|exact E].
Qed.

Lemma strict_sorted : forall l, strict_partition l -> StronglySorted Z.ge l.
Proof.
  induction l as [|a l IH]; intro H; [constructor|]. constructor; [apply IH, (strict_tail a); assumption|].
  apply Forall_forall. intros x Hx. apply strict_In_row in Hx. destruct Hx as (i & Hi & <-).
  pose proof (strict_gap (a :: l) 0 (S i) H ltac:(simpl; lia)) as G. change (row (a :: l) 0) with a in G.
  change (row (a :: l) (0 + S i)) with (row l i) in G. lia.
Qed.

Lemma strict_ext_set : forall a b, strict_partition a -> strict_partition b -> (forall v, In v a <-> In v b) -> a = b.
Proof.
  intros a b Ha Hb H. apply sorted_unique; [apply strict_sorted; assumption|apply strict_sorted; assumption|].
  apply NoDup_Permutation; [apply strict_NoDup; assumption|apply strict_NoDup; assumption|assumption].
Qed.

Lemma complement_spec : forall n mu, strict_partition mu -> (forall v, In v mu -> v <= n) ->
  exists r, complement n mu = Ok r /\ strict_partition r /\ forall v, In v r <-> 1 <= v <= n /\ ~ In v mu.
Proof.
  intros n mu Hs Hn. rewrite complement_unfold.
  replace (forallb (fun i => nthz mu i <=? n - i) (zrange 0 (zlen mu))) with true.
  2:{ symmetry. apply forallb_forall. intros i Hi. apply In_zrange in Hi. apply Z.leb_le.
      rewrite nthz_row'. pose proof (strict_bound mu n (Z.to_nat i) Hs Hn ltac:(unfold zlen in Hi; lia)). lia. }
  set (d := cdict (cstart mu) n (zrange 0 n) []). eexists. split; [reflexivity|].
  assert (Hnd : NoDup (map fst d)) by (apply cdict_NoDup; constructor).
  destruct (Z_lt_le_dec n 0) as [Hneg|H0].
  { assert (d = []) by (unfold d; rewrite zrange_nil by lia; reflexivity). rewrite H. simpl.
    assert (mu = []). { destruct mu as [|a mu]; [reflexivity|]. specialize (Hn a (or_introl eq_refl)). destruct Hs as [Hp _]. inversion Hp; subst. lia. }
    subst. split; [split; [constructor|intros i Hi; simpl in Hi; lia]|]. intro v. change (In v [] <-> 1 <= v <= n /\ ~ In v []). simpl. lia. }
  pose proof (strict_len_bound mu n Hs Hn H0) as Hl. pose proof (zlen_nonneg _ mu) as Hl0.
  assert (Hkeys : forall k, In k (map fst d) <-> zlen mu < k <= n).
  { intro k. unfold d. rewrite cdict_keys. simpl. destruct (Z_lt_le_dec n k) as [C|C].
    - split; [|lia]. intros [[]|H]. apply zcount_pos in H. destruct H as (x & _ & H). apply andb_true_iff in H. rewrite !Z.leb_le in H. lia.
    - rewrite (cval mu n k Hs Hn H0 C). destruct (k <=? zlen mu) eqn:E; [apply Z.leb_le in E|apply Z.leb_gt in E].
      + lia.
      + pose proof (late_le_len mu k). split; [lia|]. intro. right. lia. }
  set (f := fun j => j - late mu j).
  assert (Hvals : map snd d = map f (map fst d)).
  { rewrite (map_snd_dval d Hnd). apply map_ext_in. intros k Hk. apply Hkeys in Hk. unfold d. rewrite cdict_dval.
    change (dval [] k) with 0. rewrite (cval mu n k Hs Hn H0) by lia.
    replace (k <=? zlen mu) with false by (symmetry; apply Z.leb_gt; lia). reflexivity. }
  assert (Hf : forall j k, j < k -> f j < f k) by (intros j k Hjk; unfold f; pose proof (late_mono mu j k ltac:(lia)); lia).
  set (C := filter (fun v => negb (existsb (Z.eqb v) mu)) (zrange 1 (n + 1))).
  assert (HC : forall v, In v C <-> 1 <= v <= n /\ ~ In v mu).
  { intro v. unfold C. rewrite filter_In, In_zrange, negb_true_iff. split; intros [A B]; (split; [lia|]).
    - intro Hv. assert (existsb (Z.eqb v) mu = true) by (apply existsb_exists; exists v; split; [assumption|apply Z.eqb_refl]). congruence.
    - apply not_true_is_false. intro E. apply existsb_exists in E. destruct E as (x & Hx & E). apply Z.eqb_eq in E. subst. contradiction. }
  assert (HNC : NoDup C) by (apply NoDup_filter, NoDup_zrange).
  assert (HNv : NoDup (map snd d)).
  { rewrite Hvals. apply NoDup_map_inj_in; [|assumption]. intros x y _ _ E. destruct (Z.lt_trichotomy x y) as [Q|[Q|Q]]; [|assumption|].
    - specialize (Hf _ _ Q). lia.
    - specialize (Hf _ _ Q). lia. }
  assert (Hlen : length C = length (map snd d)).
  { assert (A : zlen C = n - zlen mu).
    { pose proof (zcount_neg (fun v => existsb (Z.eqb v) mu) (zrange 1 (n + 1))) as E. rewrite zlen_zrange in E by lia.
      assert (zcount (fun v => existsb (Z.eqb v) mu) (zrange 1 (n + 1)) = zlen mu).
      { unfold zcount, zlen. f_equal. apply Permutation_length. apply NoDup_Permutation; [apply NoDup_filter, NoDup_zrange|apply strict_NoDup; assumption|].
        intro v. rewrite filter_In, In_zrange. split.
        - intros [_ E2]. apply existsb_exists in E2. destruct E2 as (x & Hx & E2). apply Z.eqb_eq in E2. subst. assumption.
        - intro Hv. split; [|apply existsb_exists; exists v; split; [assumption|apply Z.eqb_refl]].
          pose proof (Hn v Hv). destruct Hs as [Hp _]. rewrite Forall_forall in Hp. specialize (Hp v Hv). lia. }
      unfold C. unfold zcount at 2 in E. lia. }
    rewrite map_length. assert (B : length d = length (zrange (zlen mu + 1) (n + 1))).
    { rewrite <- (map_length fst d). apply Permutation_length. apply NoDup_Permutation; [assumption|apply NoDup_zrange|].
      intro k. rewrite Hkeys, In_zrange. lia. }
    rewrite B, length_zrange. unfold zlen in *. lia. }
  assert (Hincl : incl (map snd d) C).
  { rewrite Hvals. intros v Hv. apply in_map_iff in Hv. destruct Hv as (k & <- & Hk). apply Hkeys in Hk. apply HC.
    split; [|apply late_notin; assumption]. pose proof (late_le_len mu k). pose proof (zcount_nonneg (fun i => k <? cstart mu i) (zrange 0 (zlen mu))).
    fold (late mu k) in *. unfold f. lia. }
  assert (HP : Permutation (map snd d) C).
  { apply NoDup_Permutation_bis; [assumption|lia|assumption]. }
  assert (HPs : Permutation (psort (map snd d) false) C) by (eapply perm_trans; [apply psort_perm|exact HP]).
  assert (Hst : strict_partition (psort (map snd d) false)).
  { apply sorted_strict; [apply psort_sorted| |].
    - eapply Permutation_NoDup; [apply Permutation_sym; exact HPs|assumption].
    - apply Forall_forall. intros v Hv. apply (Permutation_in _ HPs) in Hv. apply HC in Hv. lia. }
  assert (Etrim : psort (map snd d) true = psort (map snd d) false).
  { change (psort (map snd d) true) with (trim (psort (map snd d) false)).
    apply trim_id, partition_trimmed, strict_is_partition. assumption. }
  rewrite Etrim. split; [assumption|]. intro v. rewrite <- HC. split; intro H.
  - apply (Permutation_in _ HPs). assumption.
  - apply (Permutation_in _ (Permutation_sym HPs)). assumption.
Qed.

(* ---------- growth diagrams ---------- *)
Definition gval (rho mu nu : list Z) (c : Z) (k : nat) : Z :=
  Z.max (row mu k) (row nu k) + match k with O => c | S k' => Z.min (row mu k') (row nu k') - row rho k' end.

Lemma get_S : forall mu k, get mu (Z.of_nat k + 1) = row mu k.
Proof. intros. rewrite get_row by lia. f_equal. lia. Qed.

Lemma growth_cell_spec : forall rho mu nu c, partition rho -> partition mu -> partition nu ->
  hstrip rho mu -> hstrip rho nu -> 0 <= c ->
  forall fuel k carry, (Nat.max (length mu) (length nu) < fuel + k)%nat ->
   Z.max (row mu k) (row nu k) + carry = gval rho mu nu c k ->
   exists l, growth_cell fuel rho mu nu carry (Z.of_nat k + 1) = Ok l /\ Forall (fun a => 0 < a) l /\
     forall j, row l j = gval rho mu nu c (k + j).
Proof.
  intros rho mu nu c Hr Hmu Hnu H1 H2 Hc.
  assert (Hge : forall k, 0 <= gval rho mu nu c k).
  { intro k. unfold gval. pose proof (row_nonneg mu k (pos_nonneg _ (proj1 Hmu))). pose proof (row_nonneg nu k (pos_nonneg _ (proj1 Hnu))).
    destruct k as [|k]; [lia|]. specialize (H1 k). specialize (H2 k). lia. }
  assert (Hz : forall k, gval rho mu nu c k = 0 -> forall j, gval rho mu nu c (k + j) = 0).
  { intros k Hk j. induction j as [|j IH]; [rewrite Nat.add_0_r; assumption|].
    replace (k + S j)%nat with (S (k + j)) by lia. revert IH. generalize (k + j)%nat as q. intros q IH.
    assert (row mu q <= 0 /\ row nu q <= 0).
    { unfold gval in IH. pose proof (row_nonneg mu q (pos_nonneg _ (proj1 Hmu))). pose proof (row_nonneg nu q (pos_nonneg _ (proj1 Hnu))).
      destruct q as [|q]; [lia|]. pose proof (H1 q). pose proof (H2 q). lia. }
    unfold gval. pose proof (row_nonneg rho q (pos_nonneg _ (proj1 Hr))).
    pose proof (row_nonneg mu q (pos_nonneg _ (proj1 Hmu))). pose proof (row_nonneg nu q (pos_nonneg _ (proj1 Hnu))).
    pose proof (row_nonneg mu (S q) (pos_nonneg _ (proj1 Hmu))). pose proof (row_nonneg nu (S q) (pos_nonneg _ (proj1 Hnu))).
    pose proof (H1 q). pose proof (H2 q). lia. }
  induction fuel as [|fuel IH]; intros k carry Hf Hv.
  - cbn [growth_cell]. rewrite !get_S, Hv.
    assert (Hk : gval rho mu nu c k = 0).
    { unfold gval. rewrite !row_overflow by lia. destruct k as [|k]; [lia|]. rewrite (row_overflow mu), (row_overflow nu) by lia.
      specialize (H1 k). rewrite (row_overflow mu k) in H1 by lia. pose proof (row_nonneg rho k (pos_nonneg _ (proj1 Hr))). lia. }
    rewrite Hk. simpl. exists []. split; [reflexivity|]. split; [constructor|]. intro j. rewrite row_nil. symmetry. apply Hz. assumption.
  - cbn [growth_cell]. rewrite !get_S, Hv. destruct (gval rho mu nu c k =? 0) eqn:E.
    + apply Z.eqb_eq in E. exists []. split; [reflexivity|]. split; [constructor|]. intro j. rewrite row_nil. symmetry. apply Hz. assumption.
    + apply Z.eqb_neq in E. destruct (IH (S k) (Z.min (row mu k) (row nu k) - row rho k)) as (l & El & Hpl & Hrl); [lia|reflexivity|].
      replace (Z.of_nat k + 1 + 1) with (Z.of_nat (S k) + 1) by lia. rewrite El. simpl.
      eexists. split; [reflexivity|]. split; [constructor; [specialize (Hge k); lia|assumption]|].
      intros [|j]; [rewrite Nat.add_0_r; reflexivity|]. replace (k + S j)%nat with (S k + j)%nat by lia. apply Hrl.
Qed.
