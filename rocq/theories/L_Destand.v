(* Lemmas for C38: rearrangements of a partition padded by zeros *)
From Coq Require Import List ZArith Lia Bool Permutation Sorted Arith.
From Verif Require Import PyBase FinSum M_Partitions S_Partitions L_Partitions L_PartBasic M_Semistandard M_Symmetric L_Count.
Import ListNotations.
Local Open Scope Z_scope.

Definition nz (x : Z) : bool := negb (x =? 0).
Definition arr (n : nat) (mu e : list Z) : Prop := length e = n /\ Permutation (filter nz e) mu.
Definition desc (l : list Z) : Prop := StronglySorted Z.ge l.

Lemma desc_row : forall l, desc l <-> forall i, (S i < length l)%nat -> row l (S i) <= row l i.
Proof.
  induction l as [|a l IH]; [split; [intros _ i H; cbn [length] in H; lia|intros; constructor]|]. split.
  - intros H i Hi. inversion H as [|? ? H1 H2]; subst. cbn [length] in Hi. destruct i as [|i].
    + destruct l as [|b l]; [cbn [length] in Hi; lia|]. inversion H2. cbn [row nth]. unfold row. cbn [nth]. lia.
    + unfold row. cbn [nth]. apply (proj1 IH); [assumption|lia].
  - intro H. assert (D : desc l). { apply IH. intros i Hi. apply (H (S i)). cbn [length]. lia. }
    constructor; [assumption|]. apply Forall_forall. intros x Hx. destruct (In_nth l x 0 Hx) as (k & Hk & <-).
    assert (G : forall k, (k < length l)%nat -> nth k l 0 <= a).
    { clear k Hk Hx. induction k as [|k IHk]; intro Hk.
      - specialize (H 0%nat). unfold row in H. cbn [nth length] in H. apply H. lia.
      - specialize (IHk ltac:(lia)). assert (X : row l (S k) <= row l k) by (apply (proj1 IH); [assumption|lia]). unfold row in X. lia. }
    specialize (G k Hk). lia.
Qed.

Lemma partition_desc : forall mu, partition mu <-> Forall (fun a => 0 < a) mu /\ desc mu.
Proof.
  intro mu. split.
  - intros [F D]. split; [assumption|]. apply desc_row. intros i _. apply D.
  - intros [F D]. split; [assumption|]. intro i. destruct (Nat.lt_ge_cases (S i) (length mu)) as [H|H]; [apply desc_row; assumption|].
    rewrite (row_overflow mu (S i)) by assumption. apply row_nonneg, pos_nonneg. assumption.
Qed.
Lemma weak_desc : forall mu, weak_partition mu <-> Forall (fun a => 0 <= a) mu /\ desc mu.
Proof.
  intro mu. split.
  - intros [F D]. split; [assumption|]. apply desc_row. intros i _. apply D.
  - intros [F D]. split; [assumption|]. intro i. destruct (Nat.lt_ge_cases (S i) (length mu)) as [H|H]; [apply desc_row; assumption|].
    rewrite (row_overflow mu (S i)) by assumption. apply row_nonneg. assumption.
Qed.

Lemma desc_unique : forall a b, desc a -> desc b -> Permutation a b -> a = b.
Proof.
  induction a as [|x a IH]; intros b Ha Hb P; [apply Permutation_nil in P; auto|].
  destruct b as [|y b]; [apply Permutation_sym, Permutation_nil in P; discriminate|].
  inversion Ha as [|? ? A1 A2]; subst. inversion Hb as [|? ? B1 B2]; subst. rewrite Forall_forall in A2, B2.
  assert (x = y).
  { assert (X : In x (y :: b)) by (eapply Permutation_in; [exact P|left; reflexivity]). assert (Y : In y (x :: a)) by (eapply Permutation_in; [apply Permutation_sym; exact P|left; reflexivity]).
    destruct X as [X|X]; [auto|]. destruct Y as [Y|Y]; [auto|]. specialize (A2 _ Y). specialize (B2 _ X). lia. }
  subst y. f_equal. apply IH; [assumption|assumption|]. eapply Permutation_cons_inv. exact P.
Qed.

Lemma is_partition_weak : forall mu, is_partition mu = true <-> weak_partition mu.
Proof.
  intro mu. rewrite weak_desc. unfold is_partition. rewrite andb_true_iff. assert (E : forallb (fun i => nthz mu i <=? nthz mu (i - 1)) (zrange 1 (zlen mu)) = true <-> desc mu).
  { rewrite forallb_forall, desc_row. split.
    - intros H i Hi. specialize (H (Z.of_nat i + 1)). rewrite In_zrange in H. unfold zlen in H. specialize (H ltac:(lia)). apply Z.leb_le in H. unfold nthz in H. unfold row.
      destruct (Z.of_nat i + 1 <? 0) eqn:E1; [apply Z.ltb_lt in E1; lia|]. destruct (Z.of_nat i + 1 - 1 <? 0) eqn:E2; [apply Z.ltb_lt in E2; lia|].
      replace (Z.to_nat (Z.of_nat i + 1)) with (S i) in H by lia. replace (Z.to_nat (Z.of_nat i + 1 - 1)) with i in H by lia. assumption.
    - intros H x Hx. apply In_zrange in Hx. unfold zlen in Hx. apply Z.leb_le. specialize (H (Z.to_nat (x - 1)) ltac:(lia)). unfold nthz. unfold row in H.
      destruct (x <? 0) eqn:E1; [apply Z.ltb_lt in E1; lia|]. destruct (x - 1 <? 0) eqn:E2; [apply Z.ltb_lt in E2; lia|].
      replace (S (Z.to_nat (x - 1))) with (Z.to_nat x) in H by lia. assumption. }
  rewrite E. split.
  - intros [D L]. split; [|assumption]. destruct mu as [|a mu]; [constructor|]. apply Z.leb_le in L.
    apply Forall_forall. intros x Hx. destruct (In_nth _ _ 0 Hx) as (k & Hk & <-). rewrite last_row in L by discriminate.
    rewrite desc_row in D. assert (G : forall j, (k <= j < length (a :: mu))%nat -> row (a :: mu) j <= row (a :: mu) k).
    { intros j Hj. induction j as [|j IHj]; [replace k with 0%nat by lia; lia|]. destruct (Nat.eq_dec k (S j)) as [<-|]; [lia|]. specialize (IHj ltac:(lia)). specialize (D j ltac:(lia)). lia. }
    specialize (G (length (a :: mu) - 1)%nat ltac:(lia)). unfold row in *. lia.
  - intros [F D]. split; [assumption|]. destruct mu as [|a mu]; [reflexivity|]. apply Z.leb_le. rewrite Forall_forall in F. apply F. 
    rewrite last_row by discriminate. apply nth_In. cbn [length]. lia.
Qed.

Lemma filter_nz_nil : forall e, filter nz e = [] <-> e = repeat 0 (length e).
Proof.
  induction e as [|a e IH]; [split; reflexivity|]. cbn [filter length repeat]. unfold nz at 1. destruct (a =? 0) eqn:E; cbn [negb].
  - apply Z.eqb_eq in E. subst. rewrite IH. split; [intro H; rewrite <- H; reflexivity|intro H; injection H as H; assumption].
  - apply Z.eqb_neq in E. split; [discriminate|]. intro H. injection H as H _. contradiction.
Qed.

Lemma first_split : forall (x : Z) l, In x l -> exists l1 l2, l = l1 ++ x :: l2 /\ ~ In x l1.
Proof.
  intros x. induction l as [|a l IH]; intro H; [destruct H|]. destruct (Z.eq_dec a x) as [->|N].
  - exists [], l. split; [reflexivity|intros []].
  - destruct H as [H|H]; [contradiction|]. destruct (IH H) as (l1 & l2 & -> & N2). exists (a :: l1), l2. split; [reflexivity|]. intros [X|X]; contradiction.
Qed.
Lemma remove_nth_split : forall (l1 l2 : list Z) x, firstn (length l1) (l1 ++ x :: l2) ++ skipn (S (length l1)) (l1 ++ x :: l2) = l1 ++ l2.
Proof. induction l1 as [|a l1 IH]; intros l2 x; [reflexivity|]. cbn [length app firstn skipn]. f_equal. apply IH. Qed.
Lemma nth_split_eq : forall (l1 l2 : list Z) x, nth (length l1) (l1 ++ x :: l2) 0 = x.
Proof. induction l1 as [|a l1 IH]; intros; [reflexivity|]. apply IH. Qed.
Lemma split_at : forall (l : list Z) i, (i < length l)%nat -> l = firstn i l ++ nth i l 0 :: skipn (S i) l.
Proof. induction l as [|a l IH]; intros i H; [cbn [length] in H; lia|]. destruct i as [|i]; [reflexivity|]. cbn [firstn nth skipn app length] in *. f_equal. apply IH. lia. Qed.

Lemma desc_remove : forall l1 l2 x, desc (l1 ++ x :: l2) -> desc (l1 ++ l2).
Proof.
  induction l1 as [|a l1 IH]; intros l2 x H; cbn [app] in *; inversion H as [|? ? H1 H2]; subst; [assumption|]. constructor; [eapply IH; exact H1|].
  rewrite Forall_forall in *. intros y Hy. apply H2. apply in_app_iff in Hy. apply in_app_iff. destruct Hy; [left|right; right]; assumption.
Qed.

Definition head_index (mu : list Z) (i : nat) : bool := (i =? 0)%nat || negb (nth i mu 0 =? nth (i - 1) mu 0).

Lemma head_first : forall l1 l2 x, ~ In x l1 -> head_index (l1 ++ x :: l2) (length l1) = true.
Proof.
  intros l1 l2 x H. unfold head_index. destruct l1 as [|a l1]; [reflexivity|]. cbn [length Nat.eqb orb]. rewrite Nat.sub_succ, Nat.sub_0_r. apply negb_true_iff, Z.eqb_neq.
  change (S (length l1)) with (length (a :: l1)). rewrite nth_split_eq. rewrite app_nth1 by (cbn [length]; lia). intro E. apply H. rewrite E. apply nth_In. cbn [length]. lia.
Qed.
Lemma head_inj : forall mu i j, desc mu -> (i < length mu)%nat -> (j < length mu)%nat -> head_index mu i = true -> head_index mu j = true -> nth i mu 0 = nth j mu 0 -> i = j.
Proof.
  assert (G : forall mu i j, desc mu -> (i < j < length mu)%nat -> head_index mu j = true -> nth i mu 0 = nth j mu 0 -> False).
  { intros mu i j D Hij Hj E. rewrite desc_row in D. assert (M : forall k, (i <= k < length mu)%nat -> row mu k <= row mu i).
    { intros k Hk. induction k as [|k IHk]; [replace i with 0%nat by lia; lia|]. destruct (Nat.eq_dec i (S k)) as [<-|]; [lia|]. specialize (IHk ltac:(lia)). specialize (D k ltac:(lia)). lia. }
    unfold head_index in Hj. destruct j as [|j]; [lia|]. cbn [Nat.eqb orb] in Hj. rewrite Nat.sub_succ, Nat.sub_0_r in Hj. apply negb_true_iff, Z.eqb_neq in Hj. apply Hj.
    specialize (M j ltac:(lia)). specialize (D j ltac:(lia)). unfold row in *. lia. }
  intros mu i j D Hi Hj H1 H2 E. destruct (Nat.lt_trichotomy i j) as [L|[L|L]]; [|assumption|]; exfalso; [apply (G mu i j)|apply (G mu j i)]; auto; lia.
Qed.

Lemma destandardize_spec : forall n mu, Forall (fun a => 0 < a) mu -> desc mu ->
  NoDup (destandardize n mu) /\ forall e, In e (destandardize n mu) <-> arr n mu e.
Proof.
  induction n as [|n IH]; intros mu F D.
  - destruct mu as [|a mu]; cbn [destandardize].
    + split; [repeat constructor; intros []|]. intro e. unfold arr. split.
      * intros [<-|[]]. split; [reflexivity|constructor].
      * intros [L _]. destruct e; [left; reflexivity|discriminate].
    + split; [constructor|]. intro e. split; [intros []|]. intros [L P]. destruct e; [|discriminate]. apply Permutation_nil in P. discriminate.
  - destruct mu as [|m0 mu0]; [cbn [destandardize]|].
    + split; [repeat constructor; intros []|]. intro e. unfold arr. split.
      * intros [<-|[]]. split; [apply repeat_length|]. replace (filter nz (repeat 0 (S n))) with (@nil Z); [constructor|]. symmetry. apply filter_nz_nil. rewrite repeat_length. reflexivity.
      * intros [L P]. left. apply Permutation_sym, Permutation_nil in P. apply filter_nz_nil in P. rewrite P, L. reflexivity.
    + remember (m0 :: mu0) as mu eqn:Emu. assert (Eq : destandardize (S n) mu = map (cons 0) (destandardize n mu) ++
          flat_map (fun i => if head_index mu i then map (cons (nth i mu 0)) (destandardize n (firstn i mu ++ skipn (S i) mu)) else []) (seq 0 (length mu))) by (subst mu; reflexivity).
      rewrite Eq. clear Eq. destruct (IH mu F D) as [N0 H0].
      assert (Rem : forall i, (i < length mu)%nat -> Forall (fun a => 0 < a) (firstn i mu ++ skipn (S i) mu) /\ desc (firstn i mu ++ skipn (S i) mu)).
      { intros i Hi. pose proof (split_at mu i Hi) as E. split; [|eapply desc_remove; rewrite <- E; exact D]. rewrite E in F. apply Forall_app in F. destruct F as [F1 F2]. inversion F2; subst. apply Forall_app. auto. }
      split.
      * apply NoDup_app_intro.
        -- apply NoDup_map_inj_in; [|assumption]. intros x y _ _ E. injection E. auto.
        -- apply NoDup_flat_map; [apply seq_NoDup| |].
           ++ intros i Hi. apply in_seq in Hi. destruct (head_index mu i); [|constructor]. destruct (Rem i ltac:(lia)) as [R1 R2]. destruct (IH _ R1 R2) as [N1 _].
              apply NoDup_map_inj_in; [|assumption]. intros x y _ _ E. injection E. auto.
           ++ intros i j b Hi Hj Hbi Hbj. apply in_seq in Hi. apply in_seq in Hj. destruct (head_index mu i) eqn:Ei; [|destruct Hbi]. destruct (head_index mu j) eqn:Ej; [|destruct Hbj].
              apply in_map_iff in Hbi. apply in_map_iff in Hbj. destruct Hbi as (x & <- & _). destruct Hbj as (y & E & _). injection E as E _.
              apply (head_inj mu); [assumption|lia|lia|assumption|assumption|auto].
        -- intros x Hx Hy. apply in_map_iff in Hx. destruct Hx as (x' & <- & _). apply in_flat_map in Hy. destruct Hy as (i & Hi & Hy). apply in_seq in Hi.
           destruct (head_index mu i); [|destruct Hy]. apply in_map_iff in Hy. destruct Hy as (y & E & _). injection E as E _.
           rewrite Forall_forall in F. assert (Hin : In (nth i mu 0) mu) by (apply nth_In; lia); specialize (F _ Hin). lia.
      * intro e. rewrite in_app_iff, in_map_iff, in_flat_map. unfold arr. split.
        -- intros [(x & <- & Hx)|(i & Hi & He)].
           ++ apply H0 in Hx. destruct Hx as [L P]. split; [cbn [length]; lia|]. cbn [filter]. assumption.
           ++ apply in_seq in Hi. destruct (head_index mu i); [|destruct He]. apply in_map_iff in He. destruct He as (x & <- & Hx). destruct (Rem i ltac:(lia)) as [R1 R2]. destruct (IH _ R1 R2) as [_ H1].
              apply H1 in Hx. destruct Hx as [L P]. split; [cbn [length]; lia|]. cbn [filter]. rewrite Forall_forall in F. assert (Hin : In (nth i mu 0) mu) by (apply nth_In; lia); specialize (F _ Hin).
              unfold nz at 1. replace (nth i mu 0 =? 0) with false by (symmetry; apply Z.eqb_neq; lia). cbn [negb]. rewrite (split_at mu i ltac:(lia)) at 2. apply Permutation_cons_app. assumption.
        -- intros [L P]. destruct e as [|x e]; [discriminate|]. cbn [length] in L. cbn [filter] in P. unfold nz at 1 in P. destruct (x =? 0) eqn:E; cbn [negb] in P.
           ++ apply Z.eqb_eq in E. subst x. left. exists e. split; [reflexivity|]. apply H0. split; [lia|assumption].
           ++ right. assert (Hx : In x mu) by (eapply Permutation_in; [exact P|left; reflexivity]). destruct (first_split x mu Hx) as (l1 & l2 & E1 & N1).
              exists (length l1). assert (Hl : (length l1 < length mu)%nat) by (rewrite E1, app_length; cbn [length]; lia). split; [apply in_seq; lia|].
              rewrite E1 at 1. rewrite (head_first l1 l2 x N1). apply in_map_iff. exists e. rewrite E1 at 1. rewrite nth_split_eq. split; [reflexivity|].
              destruct (Rem _ Hl) as [R1 R2]. destruct (IH _ R1 R2) as [_ H1]. apply H1. split; [lia|]. rewrite E1, remove_nth_split. rewrite E1 in P. apply Permutation_cons_app_inv in P. assumption.
Qed.
