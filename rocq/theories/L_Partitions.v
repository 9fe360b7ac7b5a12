From Coq Require Import List ZArith Lia Bool Permutation Sorted Arith.
From Verif Require Import PyBase M_Partitions S_Partitions.
Import ListNotations.
Local Open Scope Z_scope.

(* ---------- rows, trim ---------- *)
Lemma row_nil : forall i, row [] i = 0.
Proof. intro i. unfold row. destruct i; reflexivity. Qed.

Lemma row_overflow : forall mu i, (length mu <= i)%nat -> row mu i = 0.
Proof. intros. unfold row. apply nth_overflow. assumption. Qed.

Lemma row_pos : forall mu i, Forall (fun a => 0 < a) mu -> (i < length mu)%nat -> 0 < row mu i.
Proof. intros mu i H Hi. rewrite Forall_forall in H. apply H. apply nth_In. assumption. Qed.

Lemma row_nonneg : forall mu i, Forall (fun a => 0 <= a) mu -> 0 <= row mu i.
Proof.
  intros mu i H. destruct (le_lt_dec (length mu) i) as [C|C].
  - rewrite row_overflow by assumption. lia.
  - rewrite Forall_forall in H. apply H. apply nth_In. assumption.
Qed.

Lemma pos_nonneg : forall mu, Forall (fun a => 0 < a) mu -> Forall (fun a => 0 <= a) mu.
Proof. intros mu H. eapply Forall_impl; [|exact H]. simpl. intros. lia. Qed.

Lemma partition_weak : forall mu, partition mu -> weak_partition mu.
Proof. intros mu [H1 H2]. split; [apply pos_nonneg|]; assumption. Qed.

Lemma strict_is_partition : forall mu, strict_partition mu -> partition mu.
Proof.
  intros mu [H1 H2]. split; [assumption|]. intro i.
  destruct (le_lt_dec (length mu) (S i)) as [C|C].
  - rewrite row_overflow by assumption. apply row_nonneg. apply pos_nonneg. assumption.
  - specialize (H2 i C). lia.
Qed.

Lemma row_decr : forall mu, (forall i, row mu (S i) <= row mu i) -> forall i j, (i <= j)%nat -> row mu j <= row mu i.
Proof.
  intros mu H i j Hij. induction Hij as [|j Hij IH]; [lia|]. specialize (H j). lia.
Qed.

Lemma row_decr_strict : forall mu, strict_partition mu -> forall i j, (i < j)%nat -> (i < length mu)%nat -> row mu j < row mu i.
Proof.
  intros mu Hs i j Hij Hi. pose proof (strict_is_partition _ Hs) as [Hp Hd].
  destruct Hs as [_ Hs].
  destruct (le_lt_dec (length mu) j) as [C|C].
  - rewrite row_overflow by assumption. apply row_pos; assumption.
  - pose proof (row_decr mu Hd (S i) j). specialize (Hs i). lia.
Qed.

Lemma partition_tail : forall a mu, partition (a :: mu) -> partition mu.
Proof.
  intros a mu [H1 H2]. split; [inversion H1; assumption|]. intro i. exact (H2 (S i)).
Qed.

Lemma weak_tail : forall a mu, weak_partition (a :: mu) -> weak_partition mu.
Proof.
  intros a mu [H1 H2]. split; [inversion H1; assumption|]. intro i. exact (H2 (S i)).
Qed.

Lemma strict_tail : forall a mu, strict_partition (a :: mu) -> strict_partition mu.
Proof.
  intros a mu [H1 H2]. split; [inversion H1; assumption|]. intros i Hi. apply (H2 (S i)). simpl. lia.
Qed.

Lemma dropz_app : forall a b, dropz (a ++ b) = match dropz a with [] => dropz b | r => r ++ b end.
Proof.
  induction a as [|x a IH]; intro b; simpl; [reflexivity|].
  destruct (x =? 0); [apply IH|reflexivity].
Qed.

Lemma trim_cons : forall a l, trim (a :: l) = match trim l with [] => if a =? 0 then [] else [a] | r => a :: r end.
Proof.
  intros a l. unfold trim. simpl rev. rewrite dropz_app.
  destruct (dropz (rev l)) as [|x r] eqn:E.
  - simpl. destruct (a =? 0); reflexivity.
  - rewrite rev_app_distr. simpl. destruct (rev r ++ [x]) eqn:E2; [destruct (rev r); discriminate|]. reflexivity.
Qed.

Lemma trim_nil : trim [] = []. Proof. reflexivity. Qed.

Lemma trim_row : forall mu i, row (trim mu) i = row mu i.
Proof.
  induction mu as [|a mu IH]; intro i; [reflexivity|].
  rewrite trim_cons. destruct (trim mu) as [|b r] eqn:E.
  - destruct (a =? 0) eqn:E0.
    + apply Z.eqb_eq in E0. subst. destruct i; [reflexivity|]. rewrite row_nil.
      specialize (IH i). rewrite row_nil in IH. exact IH.
    + destruct i; [reflexivity|]. specialize (IH i). unfold row in *. simpl in *. exact IH.
  - destruct i; [reflexivity|]. exact (IH i).
Qed.

Lemma trimmed_trim : forall mu, trimmed (trim mu).
Proof.
  induction mu as [|a mu IH]; [left; reflexivity|]. rewrite trim_cons.
  destruct (trim mu) as [|b r] eqn:E.
  - destruct (a =? 0) eqn:E0; [left; reflexivity|]. right. simpl. apply Z.eqb_neq. assumption.
  - right. destruct IH as [IH|IH]; [discriminate|]. exact IH.
Qed.

Lemma trimmed_tail : forall a mu, trimmed (a :: mu) -> trimmed mu.
Proof.
  intros a mu [H|H]; [discriminate|]. destruct mu as [|b r]; [left; reflexivity|]. right. exact H.
Qed.

Lemma trimmed_zero : forall a, trimmed a -> (forall i, row a i = 0) -> a = [].
Proof.
  intros a [H|H] Hz; [assumption|]. destruct a as [|x a]; [reflexivity|]. exfalso. apply H.
  specialize (Hz (length a)). unfold row in Hz.
  clear H. revert x Hz. induction a as [|y a IH]; intros x Hz; [exact Hz|]. apply IH. exact Hz.
Qed.

Lemma trimmed_ext : forall a b, trimmed a -> trimmed b -> (forall i, row a i = row b i) -> a = b.
Proof.
  induction a as [|x a IH]; intros b Ha Hb H.
  - symmetry. apply trimmed_zero; [assumption|]. intro i. rewrite <- H. apply row_nil.
  - destruct b as [|y b].
    + apply trimmed_zero; [assumption|]. intro i. rewrite H. apply row_nil.
    + f_equal; [exact (H O)|]. apply IH; [eapply trimmed_tail; eassumption|eapply trimmed_tail; eassumption|].
      intro i. exact (H (S i)).
Qed.

Lemma trim_id : forall a, trimmed a -> trim a = a.
Proof. intros a H. apply trimmed_ext; [apply trimmed_trim|assumption|]. intro. apply trim_row. Qed.

Lemma pos_trimmed : forall a, Forall (fun x => 0 < x) a -> trimmed a.
Proof.
  intros a H. destruct a as [|x a]; [left; reflexivity|]. right.
  assert (Hin : In (last (x :: a) 0) (x :: a)).
  { destruct (exists_last (l := x :: a)) as (l' & y & E); [discriminate|]. rewrite E, last_last.
    apply in_or_app. right. left. reflexivity. }
  rewrite Forall_forall in H. specialize (H _ Hin). lia.
Qed.

Lemma last_row : forall l, l <> [] -> last l 0 = row l (length l - 1).
Proof.
  intros l H. unfold row. destruct (exists_last H) as (l' & y & E2).
  rewrite E2, last_last, app_length. simpl length.
  replace (length l' + 1 - 1)%nat with (length l') by lia. symmetry. apply nth_middle.
Qed.

Lemma partition_trimmed : forall mu, partition mu -> trimmed mu.
Proof. intros mu [H _]. apply pos_trimmed. assumption. Qed.

Lemma pos_ext : forall a b, Forall (fun x => 0 < x) a -> Forall (fun x => 0 < x) b ->
  (forall i, row a i = row b i) -> a = b.
Proof. intros. apply trimmed_ext; auto using pos_trimmed. Qed.

Lemma weak_trim_partition : forall mu, weak_partition mu -> partition (trim mu).
Proof.
  intros mu [H1 H2]. split.
  - assert (Hn : forall i, 0 <= row mu i) by (intro; apply row_nonneg; assumption).
    assert (Hd : forall i, row (trim mu) (S i) <= row (trim mu) i) by (intro; rewrite !trim_row; auto).
    pose proof (trimmed_trim mu) as Ht. destruct Ht as [Ht|Ht]; [rewrite Ht; constructor|].
    apply Forall_forall. intros x Hx. apply In_nth with (d := 0) in Hx. destruct Hx as (i & Hi & E).
    change (row (trim mu) i = x) in E.
    pose proof (row_decr _ Hd i (length (trim mu) - 1)) as Hl.
    assert (Hlast : row (trim mu) (length (trim mu) - 1) = last (trim mu) 0).
    { unfold row. destruct (exists_last (l := trim mu)) as (l' & y & E2).
      - intro E3. rewrite E3 in Hi. simpl in Hi. lia.
      - rewrite E2, last_last, app_length. simpl length. replace (length l' + 1 - 1)%nat with (length l') by lia. apply nth_middle. }
    rewrite Hlast in Hl. pose proof (Hn (length (trim mu) - 1)%nat) as Hn2. rewrite <- trim_row, Hlast in Hn2.
    assert ((i <= length (trim mu) - 1)%nat) by lia. specialize (Hl H). lia.
  - intro i. rewrite !trim_row. apply H2.
Qed.
