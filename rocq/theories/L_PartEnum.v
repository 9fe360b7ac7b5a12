(* compositions, subpartitions, successors, corner removal *)
From Coq Require Import List ZArith Lia Bool Permutation Sorted Arith.
From Verif Require Import PyBase M_Partitions S_Partitions L_Partitions L_PartBasic.
Import ListNotations.
Local Open Scope Z_scope.

(* ---------- compositions ---------- *)
Lemma zsum_pos_nonneg : forall l, Forall (fun a => 0 < a) l -> 0 <= zsum l.
Proof. induction l as [|a l IH]; intro H; simpl; [lia|]. inversion H; subst. specialize (IH H3). lia. Qed.

Lemma compositions_aux_In : forall fuel n l, 0 <= n -> (Z.to_nat n <= fuel)%nat ->
  (In l (compositions_aux fuel n) <-> Forall (fun a => 0 < a) l /\ zsum l = n).
Proof.
  induction fuel as [|fuel IH]; intros n l Hn Hf.
  - assert (n = 0) by lia. subst. simpl. split.
    + intros [<-|[]]. split; [constructor|reflexivity].
    + intros [H1 H2]. left. destruct l as [|a l]; [reflexivity|]. exfalso. inversion H1; subst.
      pose proof (zsum_pos_nonneg _ H4). simpl in H2. lia.
  - simpl. destruct (n =? 0) eqn:E.
    + apply Z.eqb_eq in E. subst. split.
      * intros [<-|[]]. split; [constructor|reflexivity].
      * intros [H1 H2]. left. destruct l as [|a l]; [reflexivity|]. exfalso. inversion H1; subst.
        pose proof (zsum_pos_nonneg _ H4). simpl in H2. lia.
    + apply Z.eqb_neq in E. rewrite in_flat_map. split.
      * intros (i & Hi & H). apply In_zrange in Hi. apply in_map_iff in H. destruct H as (l' & <- & H).
        apply IH in H; [|lia|lia]. destruct H as [H1 H2]. split; [constructor; [lia|assumption]|]. simpl. lia.
      * intros [H1 H2]. destruct l as [|a l]; [simpl in H2; lia|]. inversion H1; subst. simpl in *.
        pose proof (zsum_pos_nonneg _ H4). exists a. split; [apply In_zrange; lia|].
        apply in_map_iff. exists l. split; [reflexivity|]. apply IH; [lia|lia|]. split; [assumption|lia].
Qed.

Lemma compositions_aux_NoDup : forall fuel n, NoDup (compositions_aux fuel n).
Proof.
  induction fuel as [|fuel IH]; intro n; simpl; destruct (n =? 0).
  - repeat constructor. intros [].
  - constructor.
  - repeat constructor. intros [].
  - apply NoDup_flat_map; [apply NoDup_zrange| |].
    + intros x _. apply NoDup_map_inj_in; [|apply IH]. intros a b _ _ H. congruence.
    + intros x y b _ _ H1 H2. apply in_map_iff in H1, H2. destruct H1 as (u & <- & _), H2 as (v & E & _). congruence.
Qed.

(* ---------- subpartitions ---------- *)
Definition nxt (strict : bool) (x : Z) : Z := if 0 <? x then x + (if strict then 1 else 0) else 0.

Definition raw_ok (lb : list Z) (strict : bool) (i : Z) (mu kappa : list Z) : Prop :=
  length kappa = length mu /\
  forall k, (k < length mu)%nat ->
    nxt strict (row kappa (S k)) <= row kappa k /\ get lb (i + Z.of_nat k) <= row kappa k /\ row kappa k <= row mu k.

Lemma subpartitions_aux_In : forall lb strict mu i kappa,
  In kappa (subpartitions_aux lb mu strict i) <-> raw_ok lb strict i mu kappa.
Proof.
  intros lb strict. induction mu as [|m0 mu IH]; intros i kappa; simpl.
  - split.
    + intros [<-|[]]. split; [reflexivity|]. intros k Hk. simpl in Hk. lia.
    + intros [H _]. left. destruct kappa; [reflexivity|discriminate].
  - rewrite in_flat_map. split.
    + intros (nu & Hnu & H). apply IH in Hnu. destruct Hnu as [Hl Hnu]. apply in_map_iff in H.
      destruct H as (a & <- & Ha). apply In_zrange in Ha. split; [simpl; congruence|].
      intros k Hk. destruct k as [|k].
      * unfold row at 1 2 3 4 5. simpl. rewrite Z.add_0_r. replace (nth 0 nu 0) with (match nu with n0 :: _ => n0 | [] => 0 end) by (destruct nu; reflexivity).
        unfold nxt. destruct nu as [|n0 nu]; simpl in *; destruct strict; lia.
      * specialize (Hnu k ltac:(simpl in Hk; lia)). replace (i + Z.of_nat (S k)) with (i + 1 + Z.of_nat k) by lia.
        exact Hnu.
    + intros [Hl H]. destruct kappa as [|a nu]; [discriminate|]. exists nu. split.
      * apply IH. split; [simpl in Hl; congruence|]. intros k Hk. specialize (H (S k) ltac:(simpl; lia)).
        replace (i + 1 + Z.of_nat k) with (i + Z.of_nat (S k)) by lia. exact H.
      * apply in_map_iff. exists a. split; [reflexivity|]. apply In_zrange.
        specialize (H O ltac:(simpl; lia)). rewrite Z.add_0_r in H. unfold row in H. simpl in H.
        unfold nxt in H. destruct nu as [|n0 nu]; simpl in H; destruct strict; simpl; lia.
Qed.

Lemma subpartitions_aux_NoDup : forall lb strict mu i, NoDup (subpartitions_aux lb mu strict i).
Proof.
  intros lb strict. induction mu as [|m0 mu IH]; intro i; simpl; [repeat constructor; intros []|].
  apply NoDup_flat_map; [apply IH| |].
  - intros nu _. apply NoDup_map_inj_in; [|apply NoDup_zrange]. intros. congruence.
  - intros x y b _ _ H1 H2. apply in_map_iff in H1, H2. destruct H1 as (u & <- & _), H2 as (v & E & _). congruence.
Qed.

Definition padz (kappa : list Z) (n : nat) : list Z := kappa ++ repeat 0 (n - length kappa).
Lemma padz_row : forall kappa n i, row (padz kappa n) i = row kappa i.
Proof.
  intros. unfold padz. rewrite app_row. destruct (i <? length kappa)%nat eqn:E; [reflexivity|].
  apply Nat.ltb_ge in E. rewrite repeat_row. symmetry. apply row_overflow. assumption.
Qed.
Lemma padz_length : forall kappa n, (length kappa <= n)%nat -> length (padz kappa n) = n.
Proof. intros. unfold padz. rewrite app_length, repeat_length. lia. Qed.

Lemma row_ext_len : forall a b, length a = length b -> (forall i, row a i = row b i) -> a = b.
Proof.
  induction a as [|x a IH]; destruct b as [|y b]; intros Hl H; try discriminate; [reflexivity|].
  f_equal; [exact (H O)|]. apply IH; [simpl in Hl; congruence|]. intro i. exact (H (S i)).
Qed.

Lemma trim_padz : forall kappa n, trimmed kappa -> trim (padz kappa n) = kappa.
Proof.
  intros. apply trimmed_ext; [apply trimmed_trim|assumption|]. intro. rewrite trim_row. apply padz_row.
Qed.

Lemma pos_length_row : forall a n, Forall (fun x => 0 < x) a -> (forall i, (n <= i)%nat -> row a i <= 0) -> (length a <= n)%nat.
Proof.
  intros a n Hp H. destruct (le_lt_dec (length a) n) as [C|C]; [assumption|].
  pose proof (row_pos a n Hp C). specialize (H n ltac:(lia)). lia.
Qed.

Lemma part_b_partition : forall s mu, part_b s mu -> partition mu.
Proof. intros [] mu H; [apply strict_is_partition|]; assumption. Qed.

Lemma part_b_nxt : forall s mu, part_b s mu <->
  (Forall (fun a => 0 < a) mu /\ forall i, nxt s (row mu (S i)) <= row mu i).
Proof.
  intros s mu. split.
  - intro H. pose proof (part_b_partition _ _ H) as [Hp Hd]. split; [assumption|]. intro i. unfold nxt.
    destruct (0 <? row mu (S i)) eqn:E.
    + apply Z.ltb_lt in E. destruct s; [|specialize (Hd i); lia]. destruct H as [_ H].
      assert ((S i < length mu)%nat).
      { destruct (le_lt_dec (length mu) (S i)) as [C|C]; [|assumption]. rewrite row_overflow in E by assumption. lia. }
      specialize (H i H0). lia.
    + apply row_nonneg. apply pos_nonneg. assumption.
  - intros [Hp H]. destruct s; split; try assumption.
    + intros i Hi. specialize (H i). unfold nxt in H. pose proof (row_pos mu (S i) Hp Hi).
      replace (0 <? row mu (S i)) with true in H by (symmetry; apply Z.ltb_lt; lia). lia.
    + intro i. specialize (H i). unfold nxt in H. destruct (0 <? row mu (S i)) eqn:E; [lia|].
      apply Z.ltb_ge in E. lia.
Qed.

Lemma raw_ok_trim : forall nu strict mu kappa, weak_partition nu ->
  raw_ok (trim nu) strict 1 mu kappa ->
  part_b strict (trim kappa) /\ (forall i, (i < length mu)%nat -> row nu i <= row (trim kappa) i) /\
  (Forall (fun a => 0 <= a) mu -> forall i, row (trim kappa) i <= row mu i).
Proof.
  intros nu strict mu kappa Hnu [Hl H].
  assert (Hg : forall k, (k < length mu)%nat -> row nu k <= row kappa k).
  { intros k Hk. destruct (H k Hk) as (_ & Hg & _). rewrite get_row in Hg by lia.
    replace (Z.to_nat (1 + Z.of_nat k - 1)) with k in Hg by lia. rewrite trim_row in Hg. assumption. }
  assert (Hnn : forall k, 0 <= row kappa k).
  { intro k. destruct (le_lt_dec (length mu) k) as [C|C].
    - rewrite row_overflow by lia. lia.
    - specialize (Hg k C). pose proof (row_nonneg nu k (proj1 Hnu)). lia. }
  assert (Hn : forall k, nxt strict (row kappa (S k)) <= row kappa k).
  { intro k. destruct (le_lt_dec (length mu) k) as [C|C].
    - rewrite !row_overflow by lia. unfold nxt. simpl. lia.
    - apply H. assumption. }
  split; [|split].
  - apply part_b_nxt. split.
    + apply weak_trim_partition. split.
      * apply Forall_forall. intros x Hx. apply In_nth with (d := 0) in Hx. destruct Hx as (k & _ & <-). apply Hnn.
      * intro k. specialize (Hn k). unfold nxt in Hn. destruct (0 <? row kappa (S k)) eqn:E; [destruct strict; lia|].
        apply Z.ltb_ge in E. specialize (Hnn k). lia.
    + intro k. rewrite !trim_row. apply Hn.
  - intros i Hi. rewrite trim_row. apply Hg. assumption.
  - intros Hmu i. rewrite trim_row. destruct (le_lt_dec (length mu) i) as [C|C].
    + rewrite !row_overflow by lia. lia.
    + apply H. assumption.
Qed.

Lemma subpartitions_spec : forall mu nu strict kappa, weak_partition mu -> weak_partition nu ->
  (length (trim nu) <= length mu)%nat ->
  (In kappa (subpartitions mu nu strict) <->
   part_b strict kappa /\ forall i, row nu i <= row kappa i <= row mu i).
Proof.
  intros mu nu strict kappa Hmu Hnu Hlen. unfold subpartitions. rewrite in_map_iff. split.
  - intros (k & <- & Hk). apply subpartitions_aux_In in Hk.
    destruct (raw_ok_trim nu strict mu k Hnu Hk) as (H1 & H2 & H3). split; [assumption|].
    intro i. split; [|apply H3; apply Hmu].
    destruct (le_lt_dec (length mu) i) as [C|C]; [|apply H2; assumption].
    rewrite <- (trim_row nu), (row_overflow (trim nu)) by lia. apply row_nonneg.
    apply pos_nonneg. apply (part_b_partition _ _ H1).
  - intros [H1 H2]. pose proof (part_b_partition _ _ H1) as Hp.
    assert (Hlk : (length kappa <= length mu)%nat).
    { apply pos_length_row; [apply Hp|]. intros i Hi. specialize (H2 i). rewrite (row_overflow mu) in H2 by assumption. lia. }
    exists (padz kappa (length mu)). split; [apply trim_padz, partition_trimmed; assumption|].
    apply subpartitions_aux_In. split; [apply padz_length; assumption|].
    intros k Hk. rewrite !padz_row. apply part_b_nxt in H1. destruct H1 as [_ H1]. split; [apply H1|].
    rewrite get_row by lia. replace (Z.to_nat (1 + Z.of_nat k - 1)) with k by lia. rewrite trim_row.
    specialize (H2 k). lia.
Qed.

Lemma subpartitions_NoDup : forall mu nu strict, NoDup (subpartitions mu nu strict).
Proof.
  intros. unfold subpartitions. apply NoDup_map_inj_in; [|apply subpartitions_aux_NoDup].
  intros x y Hx Hy E. apply subpartitions_aux_In in Hx, Hy. apply row_ext_len.
  - destruct Hx, Hy. congruence.
  - intro i. rewrite <- (trim_row x), <- (trim_row y), E. reflexivity.
Qed.

(* ---------- successors ---------- *)
Definition succ_ok (strict : bool) (mu kappa : list Z) : Prop :=
  length kappa = length mu /\ (forall i, row mu i <= row kappa i <= row mu i + 1) /\
  part_b strict kappa.

Lemma firstn_row : forall n l k, row (firstn n l) k = if (k <? n)%nat then row l k else 0.
Proof.
  induction n as [|n IH]; intros l k; simpl; [apply row_nil|].
  destruct l as [|a l]; [rewrite row_nil; destruct (k <? S n)%nat; reflexivity|].
  destruct k as [|k]; [reflexivity|]. unfold row in *. simpl. rewrite IH. reflexivity.
Qed.
Lemma skipn_row : forall n l k, row (skipn n l) k = row l (n + k).
Proof.
  induction n as [|n IH]; intros l k; [reflexivity|]. destruct l as [|a l]; [simpl; rewrite !row_nil; reflexivity|].
  simpl. rewrite IH. reflexivity.
Qed.

Lemma glue_row : forall mu i v nu k, (i < length mu)%nat ->
  row (firstn i mu ++ [v] ++ nu) k = if (k <? i)%nat then row mu k else if (k =? i)%nat then v else row nu (k - S i).
Proof.
  intros mu i v nu k Hi. rewrite app_row, firstn_length, Nat.min_l by lia.
  destruct (k <? i)%nat eqn:E; [rewrite firstn_row, E; reflexivity|].
  apply Nat.ltb_ge in E. destruct (k =? i)%nat eqn:E2.
  - apply Nat.eqb_eq in E2. subst. rewrite Nat.sub_diag. reflexivity.
  - apply Nat.eqb_neq in E2. replace (k - i)%nat with (S (k - S i)) by lia. reflexivity.
Qed.

Lemma part_b_skipn : forall s n mu, part_b s mu -> part_b s (skipn n mu).
Proof.
  intros s n mu H. apply part_b_nxt in H. apply part_b_nxt. destruct H as [H1 H2]. split.
  - rewrite <- (firstn_skipn n mu) in H1. apply Forall_app in H1. apply H1.
  - intro i. rewrite !skipn_row. replace (n + S i)%nat with (S (n + i)) by lia. apply H2.
Qed.

Lemma part_b_trim : forall s mu, part_b s mu -> trim mu = mu.
Proof. intros s mu H. apply trim_id, partition_trimmed. eapply part_b_partition; eassumption. Qed.

Lemma first_diff : forall a b, length a = length b -> a = b \/
  exists i, (i < length a)%nat /\ row a i <> row b i /\ forall k, (k < i)%nat -> row a k = row b k.
Proof.
  induction a as [|x a IH]; destruct b as [|y b]; intro Hl; try discriminate; [left; reflexivity|].
  destruct (Z.eq_dec x y) as [E|E].
  - subst. destruct (IH b ltac:(simpl in Hl; congruence)) as [->|(i & H1 & H2 & H3)]; [left; reflexivity|].
    right. exists (S i). split; [simpl; lia|]. split; [exact H2|]. intros k Hk. destruct k; [reflexivity|].
    apply H3. lia.
  - right. exists O. split; [simpl; lia|]. split; [exact E|]. intros k Hk. lia.
Qed.

Lemma successors_aux_spec : forall fuel mu strict kappa, (length mu < fuel)%nat -> part_b strict mu ->
  (In kappa (successors_aux fuel mu strict) <-> succ_ok strict mu kappa).
Proof.
  induction fuel as [|fuel IH]; intros mu strict kappa Hf Hp; [lia|].
  cbn [successors_aux]. rewrite (part_b_trim strict mu Hp). rewrite in_app_iff, in_flat_map.
  pose proof (proj1 (part_b_nxt strict mu) Hp) as [Hpos Hnx]. split.
  - intros [(i & Hi & H)|H].
    + apply In_zrange in Hi. rewrite <- (Z2Nat.id i) in H by lia. set (n := Z.to_nat i) in *.
      assert (Hn : (n < length mu)%nat) by (unfold zlen in Hi; lia).
      rewrite nthz_row in H.
      destruct ((Z.of_nat n =? 0) || (row mu n + 1 <? nthz mu (Z.of_nat n - 1) + (if strict then 0 else 1))) eqn:E; [|destruct H].
      apply in_map_iff in H. destruct H as (nu & <- & H).
      replace (Z.to_nat (Z.of_nat n + 1)) with (S n) in H by lia. rewrite Nat2Z.id.
      apply IH in H; [|rewrite skipn_length; lia|apply part_b_skipn; assumption].
      destruct H as (H1 & H2 & H3). apply part_b_nxt in H3. destruct H3 as [H3 H4].
      set (K := firstn n mu ++ [row mu n + 1] ++ nu).
      assert (HK : forall k, row K k = if (k <? n)%nat then row mu k else if (k =? n)%nat then row mu n + 1 else row nu (k - S n))
        by (intro; apply glue_row; assumption).
      assert (Hlen : length K = length mu).
      { unfold K. rewrite !app_length, firstn_length, Nat.min_l, H1, skipn_length by lia. simpl. lia. }
      assert (Hb : forall k, row mu k <= row K k <= row mu k + 1).
      { intro k. rewrite HK. destruct (k <? n)%nat eqn:E1; [lia|]. apply Nat.ltb_ge in E1.
        destruct (k =? n)%nat eqn:E2; [apply Nat.eqb_eq in E2; subst; lia|]. apply Nat.eqb_neq in E2.
        specialize (H2 (k - S n)%nat). rewrite skipn_row in H2. replace (S n + (k - S n))%nat with k in H2 by lia. exact H2. }
      assert (HpK : part_b strict K).
      { apply part_b_nxt. split.
        - apply Forall_app. rewrite <- (firstn_skipn n mu) in Hpos. apply Forall_app in Hpos. split; [apply Hpos|].
          apply Forall_app. split; [|assumption]. constructor; [|constructor].
          pose proof (row_pos mu n (proj1 (part_b_partition _ _ Hp)) Hn). lia.
        - intro k. rewrite !HK.
          destruct (lt_eq_lt_dec (S k) n) as [[C|C]|C].
          + replace (S k <? n)%nat with true by (symmetry; apply Nat.ltb_lt; lia).
            replace (k <? n)%nat with true by (symmetry; apply Nat.ltb_lt; lia). apply Hnx.
          + replace (S k <? n)%nat with false by (symmetry; apply Nat.ltb_ge; lia).
            replace (k <? n)%nat with true by (symmetry; apply Nat.ltb_lt; lia).
            replace (S k =? n)%nat with true by (symmetry; apply Nat.eqb_eq; lia).
            replace (Z.of_nat n =? 0) with false in E by (symmetry; apply Z.eqb_neq; lia). simpl in E.
            apply Z.ltb_lt in E. replace (Z.of_nat n - 1) with (Z.of_nat k) in E by lia. rewrite nthz_row in E.
            unfold nxt. pose proof (row_pos mu n (proj1 (part_b_partition _ _ Hp)) Hn).
            replace (0 <? row mu n + 1) with true by (symmetry; apply Z.ltb_lt; lia). destruct strict; lia.
          + replace (S k <? n)%nat with false by (symmetry; apply Nat.ltb_ge; lia).
            replace (S k =? n)%nat with false by (symmetry; apply Nat.eqb_neq; lia).
            replace (k <? n)%nat with false by (symmetry; apply Nat.ltb_ge; lia).
            destruct (k =? n)%nat eqn:E2.
            * apply Nat.eqb_eq in E2. subst k. rewrite Nat.sub_diag.
              specialize (H2 O). rewrite skipn_row, Nat.add_0_r in H2. specialize (Hnx n).
              pose proof (row_pos mu n (proj1 (part_b_partition _ _ Hp)) Hn).
              unfold nxt in *. destruct (0 <? row nu 0) eqn:E3; [|lia].
              destruct (0 <? row mu (S n)) eqn:E4; [destruct strict; lia|].
              apply Z.ltb_ge in E4. apply Z.ltb_lt in E3.
              (* row nu 0 = 1 would be a new row *)
              exfalso. assert ((0 < length nu)%nat).
              { destruct nu; [rewrite row_nil in E3; lia|simpl; lia]. }
              rewrite H1, skipn_length in H0.
              pose proof (row_pos mu (S n) (proj1 (part_b_partition _ _ Hp)) ltac:(lia)). lia.
            * apply Nat.eqb_neq in E2. replace (S k - S n)%nat with (S (k - S n)) by lia. apply H4. }
      rewrite (part_b_trim strict K HpK). split; [assumption|]. split; assumption.
    + destruct H as [<-|[]]. split; [reflexivity|]. split; [intro; lia|assumption].
  - intros (H1 & H2 & H3). destruct (first_diff kappa mu H1) as [->|(n & Hn & Hd & Hbefore)]; [right; left; reflexivity|].
    left. exists (Z.of_nat n). split; [apply In_zrange; unfold zlen; lia|].
    pose proof (proj1 (part_b_nxt strict kappa) H3) as [Hkp Hkn].
    assert (Hrn : row kappa n = row mu n + 1) by (specialize (H2 n); lia).
    assert (E : (Z.of_nat n =? 0) || (nthz mu (Z.of_nat n) + 1 <? nthz mu (Z.of_nat n - 1) + (if strict then 0 else 1)) = true).
    { destruct n as [|n]; [reflexivity|]. replace (Z.of_nat (S n) =? 0) with false by (symmetry; apply Z.eqb_neq; lia). rewrite orb_false_l.
      apply Z.ltb_lt. replace (Z.of_nat (S n) - 1) with (Z.of_nat n) by lia. rewrite !nthz_row.
      specialize (Hkn n). rewrite (Hbefore n) in Hkn by lia. rewrite Hrn in Hkn. unfold nxt in Hkn.
      pose proof (row_nonneg mu (S n) (pos_nonneg _ Hpos)).
      replace (0 <? row mu (S n) + 1) with true in Hkn by (symmetry; apply Z.ltb_lt; lia). destruct strict; lia. }
    rewrite E. apply in_map_iff. exists (skipn (S n) kappa).
    replace (Z.to_nat (Z.of_nat n + 1)) with (S n) by lia. rewrite Nat2Z.id, nthz_row. split.
    + transitivity (trim kappa); [|eapply part_b_trim; eassumption]. f_equal. rewrite <- Hrn.
      apply row_ext_len.
      * rewrite !app_length, firstn_length, skipn_length. simpl. lia.
      * intro k. rewrite glue_row by lia. destruct (k <? n)%nat eqn:E1.
        -- apply Nat.ltb_lt in E1. symmetry. apply Hbefore. assumption.
        -- apply Nat.ltb_ge in E1. destruct (k =? n)%nat eqn:E2; [apply Nat.eqb_eq in E2; congruence|].
           apply Nat.eqb_neq in E2. rewrite skipn_row. f_equal. lia.
    + apply IH; [rewrite skipn_length; lia|apply part_b_skipn; assumption|].
      split; [rewrite !skipn_length; lia|]. split.
      * intro k. rewrite !skipn_row. apply H2.
      * apply part_b_skipn. assumption.
Qed.

Lemma successors_aux_NoDup : forall fuel mu strict, (length mu < fuel)%nat -> part_b strict mu ->
  NoDup (successors_aux fuel mu strict).
Proof.
  induction fuel as [|fuel IH]; intros mu strict Hf Hp; [lia|].
  cbn [successors_aux]. rewrite (part_b_trim strict mu Hp).
  set (G := fun i => if (i =? 0) || (nthz mu i + 1 <? nthz mu (i - 1) + (if strict then 0 else 1))
        then map (fun nu => trim (firstn (Z.to_nat i) mu ++ [nthz mu i + 1] ++ nu))
                 (successors_aux fuel (skipn (Z.to_nat (i + 1)) mu) strict) else []).
  assert (Hrow : forall n K, (n < length mu)%nat -> In K (G (Z.of_nat n)) ->
     row K n = row mu n + 1 /\ (forall k, (k < n)%nat -> row K k = row mu k)).
  { intros n K Hn H. unfold G in H. destruct (_ || _); [|destruct H]. apply in_map_iff in H.
    destruct H as (nu & <- & H). rewrite Nat2Z.id, nthz_row. split.
    - rewrite trim_row, glue_row by assumption. rewrite Nat.ltb_irrefl, Nat.eqb_refl. reflexivity.
    - intros k Hk. rewrite trim_row, glue_row by assumption. apply Nat.ltb_lt in Hk. rewrite Hk. reflexivity. }
  apply NoDup_app_intro.
  - apply NoDup_flat_map; [apply NoDup_zrange| |].
    + intros i Hi. apply In_zrange in Hi. rewrite <- (Z2Nat.id i) by lia. set (n := Z.to_nat i).
      assert (Hn : (n < length mu)%nat) by (unfold n; unfold zlen in Hi; lia).
      unfold G; destruct (_ || _); [|constructor].
      apply NoDup_map_inj_in.
      * intros x y Hx Hy E. replace (Z.to_nat (Z.of_nat n + 1)) with (S n) in Hx, Hy by lia.
        rewrite Nat2Z.id in E.
        apply successors_aux_spec in Hx; [|rewrite skipn_length; lia|apply part_b_skipn; assumption].
        apply successors_aux_spec in Hy; [|rewrite skipn_length; lia|apply part_b_skipn; assumption].
        apply row_ext_len; [destruct Hx, Hy; congruence|]. intro k.
        assert (H : row (trim (firstn n mu ++ [nthz mu (Z.of_nat n) + 1] ++ x)) (S n + k) =
                    row (trim (firstn n mu ++ [nthz mu (Z.of_nat n) + 1] ++ y)) (S n + k)) by (rewrite E; reflexivity).
        rewrite !trim_row, !glue_row in H by assumption.
        replace (S n + k <? n)%nat with false in H by (symmetry; apply Nat.ltb_ge; lia).
        replace (S n + k =? n)%nat with false in H by (symmetry; apply Nat.eqb_neq; lia).
        replace (S n + k - S n)%nat with k in H by lia. exact H.
      * apply IH; [rewrite skipn_length; lia|]. apply part_b_skipn. assumption.
    + intros i i' K Hi Hi' H H'. apply In_zrange in Hi, Hi'.
      change (In K (G i)) in H. change (In K (G i')) in H'.
      rewrite <- (Z2Nat.id i) in H by lia. rewrite <- (Z2Nat.id i') in H' by lia.
      unfold zlen in *.
      destruct (Hrow (Z.to_nat i) K ltac:(lia) H) as [A1 A2]. destruct (Hrow (Z.to_nat i') K ltac:(lia) H') as [B1 B2].
      apply Z2Nat.inj; [lia|lia|]. destruct (lt_eq_lt_dec (Z.to_nat i) (Z.to_nat i')) as [[C|C]|C]; [|assumption|].
      * specialize (B2 _ C). lia.
      * specialize (A2 _ C). lia.
  - repeat constructor. intros [].
  - intros K H1 [<-|[]]. apply in_flat_map in H1. destruct H1 as (i & Hi & H). apply In_zrange in Hi.
    change (In mu (G i)) in H. rewrite <- (Z2Nat.id i) in H by lia.
    unfold zlen in Hi. destruct (Hrow (Z.to_nat i) mu ltac:(lia) H) as [A1 _]. lia.
Qed.

(* ---------- sublists ---------- *)
Fixpoint sublist {A} (s l : list A) : Prop :=
  match l with
  | [] => s = []
  | a :: l' => sublist s l' \/ exists s', s = a :: s' /\ sublist s' l'
  end.

Lemma sublist_nil : forall A (l : list A), sublist [] l.
Proof. induction l; simpl; auto. Qed.

Lemma combinations_sublist : forall A (l s : list A) k, In s (combinations l k) <-> length s = k /\ sublist s l.
Proof.
  induction l as [|a l IH]; intros s k; destruct k as [|k]; simpl.
  - split; [intros [<-|[]]; auto|]. intros [_ ->]. auto.
  - split; [intros []|]. intros [H ->]. discriminate.
  - split; [intros [<-|[]]; split; [reflexivity|left; apply sublist_nil]|].
    intros [H _]. destruct s; [auto|discriminate].
  - rewrite in_app_iff, in_map_iff. split.
    + intros [(s' & <- & H)|H].
      * apply IH in H. destruct H as [H1 H2]. simpl. split; [congruence|]. right. eauto.
      * apply IH in H. tauto.
    + intros [H1 [H2|(s' & -> & H2)]].
      * right. apply IH. auto.
      * left. exists s'. split; [reflexivity|]. apply IH. simpl in H1. split; [congruence|assumption].
Qed.

Lemma sublist_length : forall A (l s : list A), sublist s l -> (length s <= length l)%nat.
Proof.
  induction l as [|a l IH]; simpl; intros s H; [subst; simpl; lia|].
  destruct H as [H|(s' & -> & H)]; apply IH in H; simpl; lia.
Qed.

Lemma all_combinations_In : forall A (l s : list A), In s (all_combinations l) <-> sublist s l.
Proof.
  intros A l s. unfold all_combinations. rewrite in_flat_map. split.
  - intros (k & _ & H). apply combinations_sublist in H. tauto.
  - intro H. exists (length s). split.
    + apply in_seq. pose proof (sublist_length _ _ _ H). lia.
    + apply combinations_sublist. auto.
Qed.

Lemma combinations_NoDup : forall A (l : list A) k, NoDup l -> NoDup (combinations l k).
Proof.
  induction l as [|a l IH]; intros k H; destruct k as [|k]; simpl; try (repeat constructor; intros []); try constructor.
  inversion H as [|? ? Ha Hl]; subst. apply NoDup_app_intro.
  - apply NoDup_map_inj_in; [|auto]. intros. congruence.
  - auto.
  - intros s H1 H2. apply in_map_iff in H1. destruct H1 as (s' & <- & _).
    apply combinations_In in H2. destruct H2 as [_ H2]. apply Ha. apply H2. left. reflexivity.
Qed.

Lemma all_combinations_NoDup : forall A (l : list A), NoDup l -> NoDup (all_combinations l).
Proof.
  intros A l H. unfold all_combinations. apply NoDup_flat_map; [apply seq_NoDup| |].
  - intros. apply combinations_NoDup. assumption.
  - intros x y s _ _ H1 H2. apply combinations_In in H1, H2. destruct H1, H2. congruence.
Qed.

Lemma sublist_filter : forall A (f : A -> bool) l, sublist (filter f l) l.
Proof.
  induction l as [|a l IH]; simpl; [reflexivity|]. destruct (f a); [right; eauto|left; assumption].
Qed.

Lemma sublist_incl : forall A (l s : list A), sublist s l -> incl s l.
Proof.
  induction l as [|a l IH]; simpl; intros s H; [subst; apply incl_refl|].
  destruct H as [H|(s' & -> & H)].
  - apply incl_tl. auto.
  - apply incl_cons; [left; reflexivity|]. apply incl_tl. auto.
Qed.

Lemma sublist_ext : forall A (l s t : list A), NoDup l -> sublist s l -> sublist t l ->
  (forall x, In x s <-> In x t) -> s = t.
Proof.
  induction l as [|a l IH]; simpl; intros s t Hn Hs Ht H; [congruence|].
  inversion Hn as [|? ? Ha Hl]; subst.
  destruct Hs as [Hs|(s' & -> & Hs)]; destruct Ht as [Ht|(t' & -> & Ht)].
  - auto.
  - exfalso. apply Ha. apply (sublist_incl _ _ _ Hs). apply H. left. reflexivity.
  - exfalso. apply Ha. apply (sublist_incl _ _ _ Ht). apply H. left. reflexivity.
  - f_equal. apply IH; auto. intro x. specialize (H x). simpl in H.
    pose proof (sublist_incl _ _ _ Hs x). pose proof (sublist_incl _ _ _ Ht x).
    split; intro Hx; [destruct (proj1 H (or_intror Hx)) as [->|]; [exfalso; auto|assumption]
                     |destruct (proj2 H (or_intror Hx)) as [->|]; [exfalso; auto|assumption]].
Qed.

Lemma sublist_sorted : forall (l s : list Z), StronglySorted Z.lt l -> sublist s l -> StronglySorted Z.lt s.
Proof.
  induction l as [|a l IH]; simpl; intros s Hl H; [subst; constructor|].
  inversion Hl as [|? ? Hs Hf]; subst. destruct H as [H|(s' & -> & H)]; [auto|].
  constructor; [auto|]. apply Forall_forall. intros x Hx. rewrite Forall_forall in Hf. apply Hf.
  apply (sublist_incl _ _ _ H). assumption.
Qed.

Lemma zrange_sorted : forall a b, StronglySorted Z.lt (zrange a b).
Proof.
  intros a b. destruct (Z_lt_le_dec a b) as [C|C]; [|rewrite zrange_nil by assumption; constructor].
  replace a with (b - Z.of_nat (Z.to_nat (b - a))) by lia. generalize (Z.to_nat (b - a)) as n.
  induction n as [|n IH].
  - rewrite zrange_nil by lia. constructor.
  - rewrite zrange_cons by lia. replace (b - Z.of_nat (S n) + 1) with (b - Z.of_nat n) by lia. constructor; [assumption|].
    apply Forall_forall. intros x Hx. apply In_zrange in Hx. lia.
Qed.

(* ---------- corner removal ---------- *)
Definition ind (S : list Z) (k : nat) : Z := if existsb (fun i => i =? Z.of_nat k + 1) S then 1 else 0.

Lemma ind_In : forall S k, ind S k = 1 <-> In (Z.of_nat k + 1) S.
Proof.
  intros S k. unfold ind. destruct (existsb _ S) eqn:E.
  - apply existsb_exists in E. destruct E as (x & Hx & E). apply Z.eqb_eq in E. subst. tauto.
  - split; [discriminate|]. intro H. exfalso.
    assert (existsb (fun i => i =? Z.of_nat k + 1) S = true) by (apply existsb_exists; eexists; split; [exact H|apply Z.eqb_refl]).
    congruence.
Qed.
Lemma ind_01 : forall S k, ind S k = 0 \/ ind S k = 1.
Proof. intros. unfold ind. destruct (existsb _ S); auto. Qed.

Lemma removelast_cases : forall (l : list Z), l = [] \/ exists x, l = removelast l ++ [x].
Proof.
  intro l. destruct l as [|a l]; [left; reflexivity|right]. exists (last (a :: l) 0).
  apply app_removelast_last. discriminate.
Qed.

Lemma removelast_row : forall l k, row (removelast l) k = if (S k <? length l)%nat then row l k else 0.
Proof.
  intros l k. destruct (removelast_cases l) as [->|[x E]]; [simpl; rewrite row_nil; reflexivity|].
  revert E. generalize (removelast l) as R. intros R ->.
  rewrite app_length, app_row. simpl length. destruct (k <? length R)%nat eqn:E.
  - apply Nat.ltb_lt in E. replace (S k <? length R + 1)%nat with true by (symmetry; apply Nat.ltb_lt; lia). reflexivity.
  - apply Nat.ltb_ge in E. replace (S k <? length R + 1)%nat with false by (symmetry; apply Nat.ltb_ge; lia).
    apply row_overflow. assumption.
Qed.

Lemma removelast_pos : forall P l, Forall P l -> Forall P (removelast l : list Z).
Proof.
  intros P l H. destruct l as [|a l]; [constructor|].
  rewrite (app_removelast_last 0 (l := a :: l)) in H by discriminate. apply Forall_app in H. apply H.
Qed.

Lemma removelast_length : forall (l : list Z), length (removelast l) = (length l - 1)%nat.
Proof.
  intro l. destruct (removelast_cases l) as [->|[x E]]; [reflexivity|].
  revert E. generalize (removelast l) as R. intros R ->. rewrite app_length. simpl. lia.
Qed.

Lemma upd_pos : forall l i v, Forall (fun a => 0 < a) l -> 0 < v -> Forall (fun a => 0 < a) (upd l i v).
Proof.
  induction l as [|a l IH]; intros i v H Hv; destruct i; simpl; auto; inversion H; subst; constructor; auto.
Qed.

(* one removal; s = 0 unshifted, s = 1 shifted *)
Definition removable (s : Z) (mu : list Z) (k : nat) : Prop :=
  (S k < length mu)%nat /\ row mu (S k) + s < row mu k \/ S k = length mu.

Lemma row_last_removelast : forall cur v k, cur <> [] ->
  row (removelast cur ++ [v]) k = if (S k =? length cur)%nat then v else row cur k.
Proof.
  intros cur v k H. rewrite app_row, removelast_length, removelast_row.
  assert (length cur <> 0)%nat by (destruct cur; simpl; congruence).
  destruct (S k =? length cur)%nat eqn:E.
  - apply Nat.eqb_eq in E. replace (k <? length cur - 1)%nat with false by (symmetry; apply Nat.ltb_ge; lia).
    replace (k - (length cur - 1))%nat with O by lia. reflexivity.
  - apply Nat.eqb_neq in E. destruct (k <? length cur - 1)%nat eqn:E2.
    + apply Nat.ltb_lt in E2. replace (S k <? length cur)%nat with true by (symmetry; apply Nat.ltb_lt; lia). reflexivity.
    + apply Nat.ltb_ge in E2. rewrite (row_overflow cur) by lia. apply row_overflow. simpl. lia.
Qed.

Lemma remove_inner_corner_ok : forall cur k, Forall (fun a => 0 < a) cur -> removable 0 cur k ->
  exists r, remove_inner_corner cur (Z.of_nat k + 1) = Ok r /\ Forall (fun a => 0 < a) r /\
    forall j, row r j = row cur j - (if (j =? k)%nat then 1 else 0).
Proof.
  intros cur k Hp Hr. unfold remove_inner_corner.
  destruct Hr as [[Hl Hr]|Hl].
  - pose proof (row_pos cur (S k) Hp Hl) as Hnext.
    destruct ((Z.of_nat k + 1 =? 1) && (1 <? zlen cur) && (nthz cur 1 <? nthz cur 0)) eqn:E1.
    + apply andb_true_iff in E1. destruct E1 as [E1 _]. apply andb_true_iff in E1. destruct E1 as [E1 _].
      apply Z.eqb_eq in E1. assert (k = 0)%nat by lia. subst k.
      destruct cur as [|a cur]; [simpl in Hl; lia|]. eexists. split; [reflexivity|]. inversion Hp; subst. split.
      * constructor; [|assumption]. change (nthz (a :: cur) 0) with a. unfold row in *. simpl in *. lia.
      * intros [|j]; unfold nthz, row; simpl; lia.
    + assert (Hk : (0 < k)%nat).
      { destruct k; [|lia]. exfalso. change (nthz cur 1) with (row cur 1) in E1. change (nthz cur 0) with (row cur 0) in E1.
        replace (1 <? zlen cur) with true in E1 by (symmetry; apply Z.ltb_lt; unfold zlen; lia).
        replace (row cur 1 <? row cur 0) with true in E1 by (symmetry; apply Z.ltb_lt; lia). discriminate. }
      replace (1 <? Z.of_nat k + 1) with true by (symmetry; apply Z.ltb_lt; lia).
      replace (Z.of_nat k + 1 <? zlen cur) with true by (symmetry; apply Z.ltb_lt; unfold zlen; lia).
      replace (Z.of_nat k + 1 - 1) with (Z.of_nat k) by lia. replace (Z.of_nat k + 1) with (Z.of_nat (S k)) by lia.
      rewrite !nthz_row. replace (row cur (S k) <? row cur k) with true by (symmetry; apply Z.ltb_lt; lia). simpl.
      rewrite Nat2Z.id. eexists. split; [reflexivity|]. split; [apply upd_pos; [assumption|lia]|].
      intro j. rewrite upd_row by lia. destruct (j =? k)%nat eqn:E; [apply Nat.eqb_eq in E; subst|]; lia.
  - assert (Hne : cur <> []) by (destruct cur; simpl in Hl; congruence).
    replace ((Z.of_nat k + 1 =? 1) && (1 <? zlen cur) && (nthz cur 1 <? nthz cur 0)) with false.
    2:{ symmetry. destruct (Z.of_nat k + 1 =? 1) eqn:E; [|reflexivity]. apply Z.eqb_eq in E.
        replace (1 <? zlen cur) with false by (symmetry; apply Z.ltb_ge; unfold zlen; lia). reflexivity. }
    replace (Z.of_nat k + 1 <? zlen cur) with false by (symmetry; apply Z.ltb_ge; unfold zlen; lia).
    rewrite andb_false_r. simpl. replace (Z.of_nat k + 1 =? zlen cur) with true by (symmetry; apply Z.eqb_eq; unfold zlen; lia).
    pose proof (last_row cur Hne) as Hlast. replace (length cur - 1)%nat with k in Hlast by lia.
    pose proof (row_pos cur k Hp ltac:(lia)) as Hpk.
    destruct cur as [|a cur']; [congruence|]. set (cur := a :: cur') in *. rewrite Hlast.
    destruct (1 <? row cur k) eqn:E1.
    + apply Z.ltb_lt in E1. eexists. split; [reflexivity|]. split.
      * apply Forall_app. split; [apply removelast_pos; assumption|]. constructor; [lia|constructor].
      * intro j. rewrite row_last_removelast by assumption. rewrite <- Hl. simpl.
        destruct (j =? k)%nat eqn:E; [apply Nat.eqb_eq in E; subst|]; lia.
    + apply Z.ltb_ge in E1. replace (row cur k =? 1) with true by (symmetry; apply Z.eqb_eq; lia).
      eexists. split; [reflexivity|]. split; [apply removelast_pos; assumption|].
      intro j. rewrite removelast_row, <- Hl. destruct (j =? k)%nat eqn:E.
      * apply Nat.eqb_eq in E. subst. rewrite Nat.ltb_irrefl. lia.
      * apply Nat.eqb_neq in E. destruct (S j <? S k)%nat eqn:E2; [lia|]. apply Nat.ltb_ge in E2.
        rewrite row_overflow by lia. lia.
Qed.

Lemma remove_shifted_inner_corner_ok : forall cur k, Forall (fun a => 0 < a) cur -> removable 1 cur k ->
  exists r, remove_shifted_inner_corner cur (Z.of_nat k + 1) = Ok (Some r) /\ Forall (fun a => 0 < a) r /\
    forall j, row r j = row cur j - (if (j =? k)%nat then 1 else 0).
Proof.
  intros cur k Hp Hr. unfold remove_shifted_inner_corner.
  destruct Hr as [[Hl Hr]|Hl].
  - pose proof (row_pos cur (S k) Hp Hl) as Hnext.
    destruct ((Z.of_nat k + 1 =? 1) && (1 <? zlen cur) && (nthz cur 1 + 1 <? nthz cur 0)) eqn:E1.
    + apply andb_true_iff in E1. destruct E1 as [E1 _]. apply andb_true_iff in E1. destruct E1 as [E1 _].
      apply Z.eqb_eq in E1. assert (k = 0)%nat by lia. subst k.
      destruct cur as [|a cur]; [simpl in Hl; lia|]. eexists. split; [reflexivity|]. inversion Hp; subst. split.
      * constructor; [|assumption]. change (nthz (a :: cur) 0) with a. unfold row in *. simpl in *. lia.
      * intros [|j]; unfold nthz, row; simpl; lia.
    + assert (Hk : (0 < k)%nat).
      { destruct k; [|lia]. exfalso. change (nthz cur 1) with (row cur 1) in E1. change (nthz cur 0) with (row cur 0) in E1.
        replace (1 <? zlen cur) with true in E1 by (symmetry; apply Z.ltb_lt; unfold zlen; lia).
        replace (row cur 1 + 1 <? row cur 0) with true in E1 by (symmetry; apply Z.ltb_lt; lia). discriminate. }
      replace (1 <? Z.of_nat k + 1) with true by (symmetry; apply Z.ltb_lt; lia).
      replace (Z.of_nat k + 1 <? zlen cur) with true by (symmetry; apply Z.ltb_lt; unfold zlen; lia).
      replace (Z.of_nat k + 1 - 1) with (Z.of_nat k) by lia. replace (Z.of_nat k + 1) with (Z.of_nat (S k)) by lia.
      rewrite !nthz_row. replace (row cur (S k) + 1 <? row cur k) with true by (symmetry; apply Z.ltb_lt; lia). simpl.
      rewrite Nat2Z.id. eexists. split; [reflexivity|]. split; [apply upd_pos; [assumption|lia]|].
      intro j. rewrite upd_row by lia. destruct (j =? k)%nat eqn:E; [apply Nat.eqb_eq in E; subst|]; lia.
  - assert (Hne : cur <> []) by (destruct cur; simpl in Hl; congruence).
    replace ((Z.of_nat k + 1 =? 1) && (1 <? zlen cur) && (nthz cur 1 + 1 <? nthz cur 0)) with false.
    2:{ symmetry. destruct (Z.of_nat k + 1 =? 1) eqn:E; [|reflexivity]. apply Z.eqb_eq in E.
        replace (1 <? zlen cur) with false by (symmetry; apply Z.ltb_ge; unfold zlen; lia). reflexivity. }
    replace (Z.of_nat k + 1 <? zlen cur) with false by (symmetry; apply Z.ltb_ge; unfold zlen; lia).
    rewrite andb_false_r. simpl. replace (Z.of_nat k + 1 =? zlen cur) with true by (symmetry; apply Z.eqb_eq; unfold zlen; lia).
    pose proof (last_row cur Hne) as Hlast. replace (length cur - 1)%nat with k in Hlast by lia.
    pose proof (row_pos cur k Hp ltac:(lia)) as Hpk.
    destruct cur as [|a cur']; [congruence|]. set (cur := a :: cur') in *. rewrite Hlast.
    destruct (1 <? row cur k) eqn:E1.
    + apply Z.ltb_lt in E1. eexists. split; [reflexivity|]. split.
      * apply Forall_app. split; [apply removelast_pos; assumption|]. constructor; [lia|constructor].
      * intro j. rewrite row_last_removelast by assumption. rewrite <- Hl. simpl.
        destruct (j =? k)%nat eqn:E; [apply Nat.eqb_eq in E; subst|]; lia.
    + apply Z.ltb_ge in E1. replace (row cur k =? 1) with true by (symmetry; apply Z.eqb_eq; lia).
      eexists. split; [reflexivity|]. split; [apply removelast_pos; assumption|].
      intro j. rewrite removelast_row, <- Hl. destruct (j =? k)%nat eqn:E.
      * apply Nat.eqb_eq in E. subst. rewrite Nat.ltb_irrefl. lia.
      * apply Nat.eqb_neq in E. destruct (S j <? S k)%nat eqn:E2; [lia|]. apply Nat.ltb_ge in E2.
        rewrite row_overflow by lia. lia.
Qed.

Lemma remove_inner_corner_removable : forall mu k r, Forall (fun a => 0 < a) mu -> (k < length mu)%nat ->
  remove_inner_corner mu (Z.of_nat k + 1) = Ok r -> removable 0 mu k.
Proof.
  intros mu k r Hp Hk H. unfold remove_inner_corner in H.
  destruct (Nat.eq_dec (S k) (length mu)) as [E|E]; [right; assumption|]. left. split; [lia|].
  destruct ((Z.of_nat k + 1 =? 1) && (1 <? zlen mu) && (nthz mu 1 <? nthz mu 0)) eqn:E1.
  - apply andb_true_iff in E1. destruct E1 as [E1 E2]. apply andb_true_iff in E1. destruct E1 as [E1 _].
    apply Z.eqb_eq in E1. assert (k = 0)%nat by lia. subst. apply Z.ltb_lt in E2.
    change (nthz mu 1) with (row mu 1) in E2. change (nthz mu 0) with (row mu 0) in E2. lia.
  - destruct ((1 <? Z.of_nat k + 1) && (Z.of_nat k + 1 <? zlen mu) && (nthz mu (Z.of_nat k + 1) <? nthz mu (Z.of_nat k + 1 - 1))) eqn:E2.
    + apply andb_true_iff in E2. destruct E2 as [_ E2]. apply Z.ltb_lt in E2.
      replace (Z.of_nat k + 1 - 1) with (Z.of_nat k) in E2 by lia. replace (Z.of_nat k + 1) with (Z.of_nat (S k)) in E2 by lia.
      rewrite !nthz_row in E2. lia.
    + replace (Z.of_nat k + 1 =? zlen mu) with false in H by (symmetry; apply Z.eqb_neq; unfold zlen; lia). discriminate.
Qed.

Lemma remove_shifted_inner_corner_removable : forall mu k r, Forall (fun a => 0 < a) mu -> (k < length mu)%nat ->
  remove_shifted_inner_corner mu (Z.of_nat k + 1) = Ok (Some r) -> removable 1 mu k.
Proof.
  intros mu k r Hp Hk H. unfold remove_shifted_inner_corner in H.
  destruct (Nat.eq_dec (S k) (length mu)) as [E|E]; [right; assumption|]. left. split; [lia|].
  destruct ((Z.of_nat k + 1 =? 1) && (1 <? zlen mu) && (nthz mu 1 + 1 <? nthz mu 0)) eqn:E1.
  - apply andb_true_iff in E1. destruct E1 as [E1 E2]. apply andb_true_iff in E1. destruct E1 as [E1 _].
    apply Z.eqb_eq in E1. assert (k = 0)%nat by lia. subst. apply Z.ltb_lt in E2.
    change (nthz mu 1) with (row mu 1) in E2. change (nthz mu 0) with (row mu 0) in E2. lia.
  - destruct ((1 <? Z.of_nat k + 1) && (Z.of_nat k + 1 <? zlen mu) && (nthz mu (Z.of_nat k + 1) + 1 <? nthz mu (Z.of_nat k + 1 - 1))) eqn:E2.
    + apply andb_true_iff in E2. destruct E2 as [_ E2]. apply Z.ltb_lt in E2.
      replace (Z.of_nat k + 1 - 1) with (Z.of_nat k) in E2 by lia. replace (Z.of_nat k + 1) with (Z.of_nat (S k)) in E2 by lia.
      rewrite !nthz_row in E2. lia.
    + replace (Z.of_nat k + 1 =? zlen mu) with false in H by (symmetry; apply Z.eqb_neq; unfold zlen; lia). discriminate.
Qed.
