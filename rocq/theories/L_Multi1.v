(* Multiset-valued tableaux as lists of columns, and one crystal step on them. *)
From Coq Require Import List ZArith Lia Bool Sorted Permutation.
From Verif Require Import PyBase FinSum M_Partitions M_Words S_Words L_Words S_Tableaux L_Tableaux.
Import ListNotations.
Local Open Scope Z_scope.

(* a column: smallest entries from top to bottom, and the other entries from top to bottom *)
Definition hk := (list Z * list Z)%type.
Definition wd (c : hk) : list Z := rev (fst c) ++ snd c.
Definition okh (c : hk) : Prop :=
  StronglySorted Z.lt (fst c) /\ increasing (snd c) /\ exists m, nth_error (fst c) 0 = Some m /\ forall a, In a (snd c) -> m <= a.
Definition inrow (c : hk) (k : nat) (v : Z) : Prop :=
  exists m, nth_error (fst c) k = Some m /\ (v = m \/ (In v (snd c) /\ m <= v /\ forall m', nth_error (fst c) (S k) = Some m' -> v < m')).
Definition adj (c n : hk) : Prop :=
  (length (fst n) <= length (fst c))%nat /\ forall k m v, nth_error (fst n) k = Some m -> inrow c k v -> v <= m.
Definition okT (l : list hk) : Prop := Forall okh l /\ forall A c n B, l = A ++ c :: n :: B -> adj c n.

Lemma occ_pos : forall a w, In a w <-> 0 < occ a w.
Proof. intros a w. unfold occ. rewrite (count_occ_In Z.eq_dec w a). lia. Qed.
Lemma occ_cons_same : forall a w, occ a (a :: w) = 1 + occ a w.
Proof. intros. unfold occ. cbn [count_occ]. destruct (Z.eq_dec a a); [lia|tauto]. Qed.
Lemma occ_cons_other : forall a b w, b <> a -> occ a (b :: w) = occ a w.
Proof. intros. unfold occ. cbn [count_occ]. destruct (Z.eq_dec b a); [tauto|lia]. Qed.
Lemma CL : forall i u z, closed_left i (u ++ i :: z) -> In (i + 1) u.
Proof.
  intros i u z K. specialize (K (u ++ [i]) z). rewrite <- app_assoc in K. specialize (K eq_refl). rewrite !occ_app, occ_cons_same, occ_cons_other in K by lia. unfold occ in K at 2 4. cbn [count_occ] in K. apply occ_pos. unfold occ in *. lia.
Qed.
Lemma CR : forall i u z, closed_right i (u ++ (i + 1) :: z) -> In i z.
Proof.
  intros i u z K. specialize (K u ((i + 1) :: z) eq_refl). rewrite occ_cons_same, occ_cons_other in K by lia. apply occ_pos. unfold occ in *. lia.
Qed.

(* sorted lists *)
Lemma slt_nth : forall l a b x y, StronglySorted Z.lt l -> (a < b)%nat -> nth_error l a = Some x -> nth_error l b = Some y -> x < y.
Proof.
  induction l as [|c l IH]; intros a b x y S L A B; [destruct a; discriminate|]. inversion S as [|? ? S1 S2]; subst. rewrite Forall_forall in S2. destruct a as [|a]; destruct b as [|b]; try lia; cbn in A, B.
  - injection A as <-. apply S2. apply (nth_error_In _ _ B).
  - apply (IH a b x y S1); [lia|exact A|exact B].
Qed.
Lemma slt_split : forall l1 x l2, StronglySorted Z.lt (l1 ++ x :: l2) -> (forall a, In a l1 -> a < x) /\ (forall a, In a l2 -> x < a) /\ StronglySorted Z.lt l1 /\ StronglySorted Z.lt l2.
Proof.
  induction l1 as [|c l1 IH]; intros x l2 S; cbn [app] in S; inversion S as [|? ? S1 S2]; subst; rewrite Forall_forall in S2.
  - split; [intros a []|]. split; [exact S2|]. split; [constructor|exact S1].
  - destruct (IH x l2 S1) as (A & B & C & D). split; [|split; [exact B|split; [|exact D]]].
    + intros a [<-|Ha]; [apply S2; apply in_or_app; right; left; reflexivity|apply A; exact Ha].
    + constructor; [exact C|]. apply Forall_forall. intros a Ha. apply S2. apply in_or_app. left. exact Ha.
Qed.
Lemma slt_join : forall l1 x l2, (forall a, In a l1 -> a < x) -> (forall a, In a l2 -> x < a) -> StronglySorted Z.lt l1 -> StronglySorted Z.lt l2 -> StronglySorted Z.lt (l1 ++ x :: l2).
Proof.
  induction l1 as [|c l1 IH]; intros x l2 A B C D; cbn [app].
  - constructor; [exact D|]. apply Forall_forall. exact B.
  - inversion C as [|? ? C1 C2]; subst. rewrite Forall_forall in C2. constructor; [apply IH; try assumption; intros a Ha; apply A; right; exact Ha|]. apply Forall_forall. intros a Ha. apply in_app_iff in Ha. pose proof (A c (or_introl eq_refl)). destruct Ha as [Ha|[<-|Ha]]; [apply C2; exact Ha|lia|]. specialize (B a Ha). lia.
Qed.
Lemma inc_split : forall l1 x l2, increasing (l1 ++ x :: l2) -> (forall a, In a l1 -> a <= x) /\ (forall a, In a l2 -> x <= a) /\ increasing l1 /\ increasing l2.
Proof.
  unfold increasing. induction l1 as [|c l1 IH]; intros x l2 S; cbn [app] in S; inversion S as [|? ? S1 S2]; subst; rewrite Forall_forall in S2.
  - split; [intros a []|]. split; [exact S2|]. split; [constructor|exact S1].
  - destruct (IH x l2 S1) as (A & B & C & D). split; [|split; [exact B|split; [|exact D]]].
    + intros a [<-|Ha]; [apply S2; apply in_or_app; right; left; reflexivity|apply A; exact Ha].
    + constructor; [exact C|]. apply Forall_forall. intros a Ha. apply S2. apply in_or_app. left. exact Ha.
Qed.
Lemma inc_join : forall l1 x l2, (forall a, In a l1 -> a <= x) -> (forall a, In a l2 -> x <= a) -> increasing l1 -> increasing l2 -> increasing (l1 ++ x :: l2).
Proof.
  unfold increasing. induction l1 as [|c l1 IH]; intros x l2 A B C D; cbn [app].
  - constructor; [exact D|]. apply Forall_forall. exact B.
  - inversion C as [|? ? C1 C2]; subst. rewrite Forall_forall in C2. constructor; [apply IH; try assumption; intros a Ha; apply A; right; exact Ha|]. apply Forall_forall. intros a Ha. apply in_app_iff in Ha. pose proof (A c (or_introl eq_refl)). destruct Ha as [Ha|[<-|Ha]]; [apply C2; exact Ha|lia|]. specialize (B a Ha). lia.
Qed.
Lemma nth_error_mid : forall (l1 : list Z) x l2, nth_error (l1 ++ x :: l2) (length l1) = Some x.
Proof. intros. rewrite nth_error_app2 by lia. rewrite Nat.sub_diag. reflexivity. Qed.
Lemma nth_error_next : forall (l1 : list Z) x l2, nth_error (l1 ++ x :: l2) (S (length l1)) = nth_error l2 0.
Proof. intros. rewrite nth_error_app2 by lia. replace (S (length l1) - length l1)%nat with 1%nat by lia. reflexivity. Qed.
Lemma nth_error_change : forall (l1 : list Z) x x' l2 k, k <> length l1 -> nth_error (l1 ++ x' :: l2) k = nth_error (l1 ++ x :: l2) k.
Proof.
  intros l1 x x' l2 k N. destruct (Nat.lt_ge_cases k (length l1)) as [L|L]; [rewrite !nth_error_app1 by exact L; reflexivity|]. rewrite !nth_error_app2 by exact L. destruct (k - length l1)%nat eqn:E; [lia|reflexivity].
Qed.
Lemma nth_split_at : forall (l : list Z) k x, nth_error l k = Some x -> exists l1 l2, l = l1 ++ x :: l2 /\ length l1 = k.
Proof. intros l k x E. apply nth_error_split in E. exact E. Qed.

Section Step.
  Variable i : Z.

  (* ----- f ----- *)
  Lemma f_right : forall c n k R Z0, okh c -> okh n -> adj c n -> inrow c k i -> (forall m'', nth_error (fst c) (S k) = Some m'' -> i < m'' /\ m'' <> i + 1) ->
    (In (i + 1) R -> inrow c k (i + 1)) -> closed_left i (R ++ wd n ++ Z0) -> forall m', nth_error (fst n) k = Some m' -> i + 1 <= m'.
  Proof.
    intros c n k R Z0 Hc Hn [AL AR] K NX HR Q m' E. pose proof (AR k m' i E K) as B. destruct (Z.eq_dec m' i) as [->|]; [exfalso|lia].
    destruct (nth_split_at _ _ _ E) as (a1 & a2 & En & Lk). unfold wd in Q. rewrite En, rev_app_distr in Q. cbn [rev] in Q. rewrite <- !app_assoc in Q. cbn [app] in Q. rewrite app_assoc in Q. apply CL in Q. apply in_app_iff in Q. destruct Q as [Q|Q].
    - pose proof (AR k i (i + 1) E (HR Q)). lia.
    - rewrite <- in_rev in Q. destruct Hn as (Sn & _). rewrite En in Sn. destruct (slt_split _ _ _ Sn) as (_ & G2 & _ & S2). assert (E2 : nth_error (fst n) (S k) = Some (i + 1)).
      { rewrite En, <- Lk, nth_error_next. destruct a2 as [|b a2]; [destruct Q|]. cbn. f_equal. pose proof (G2 b (or_introl eq_refl)). destruct Q as [->|Q]; [reflexivity|]. inversion S2 as [|? ? _ F]; subst. rewrite Forall_forall in F. specialize (F _ Q). lia. }
      assert (L2 : (S k < length (fst c))%nat) by (apply Nat.lt_le_trans with (length (fst n)); [apply nth_error_Some; congruence|exact AL]). destruct (nth_error (fst c) (S k)) as [m''|] eqn:E3; [|apply nth_error_None in E3; lia].
      destruct (NX m'' eq_refl) as [N1 N2]. assert (m'' <= i + 1); [|lia]. apply (AR (S k) (i + 1) m'' E2). exists m''. tauto.
  Qed.
  Definition stepped (c c' : hk) : Prop := okh c' /\ length (fst c') = length (fst c).
  Lemma f_min : forall l1 l2 t W Z0, okh (l1 ++ i :: l2, t) -> closed_right i (W ++ rev l2) -> closed_left i (rev l1 ++ t ++ Z0) ->
    ~ In (i + 1) l2 /\ ~ In i t /\ okh (l1 ++ (i + 1) :: l2, t) /\
    (forall k v, inrow (l1 ++ (i + 1) :: l2, t) k v -> inrow (l1 ++ i :: l2, t) k v \/ (k = length l1 /\ v = i + 1)).
  Proof.
    intros l1 l2 t W Z0 (S & I & m & Em & Lm) A B. cbn [fst snd] in *. destruct (slt_split _ _ _ S) as (G1 & G2 & S1 & S2).
    assert (N1 : ~ In (i + 1) l2).
    { intro K. rewrite in_rev in K. apply in_split in K. destruct K as (u & z & E). rewrite E, app_assoc in A. apply CR in A. assert (In i l2) by (rewrite in_rev, E; apply in_or_app; right; right; exact A). specialize (G2 _ H). lia. }
    assert (N2 : ~ In i t).
    { intro K. apply in_split in K. destruct K as (u & z & E). subst t. rewrite <- !app_assoc in B. cbn [app] in B. rewrite app_assoc in B. apply CL in B. apply in_app_iff in B. destruct B as [B|B]; [rewrite <- in_rev in B; specialize (G1 _ B); lia|]. destruct (inc_split _ _ _ I) as (Q & _). specialize (Q _ B). lia. }
    split; [exact N1|]. split; [exact N2|]. split.
    - split; [|split; [exact I|]]; cbn [fst snd].
      + apply slt_join; [intros a Ha; specialize (G1 a Ha); lia| |exact S1|exact S2]. intros a Ha. pose proof (G2 a Ha). destruct (Z.eq_dec a (i + 1)) as [->|]; [contradiction|lia].
      + destruct l1 as [|b l1]; cbn in Em |- *; [|exists b; injection Em as <-; split; [reflexivity|exact Lm]]. injection Em as <-. exists (i + 1). split; [reflexivity|]. intros a Ha. pose proof (Lm a Ha). destruct (Z.eq_dec a i) as [->|]; [contradiction|lia].
    - intros k v (m0 & E & H). cbn [fst snd] in *. destruct (Nat.eq_dec k (length l1)) as [->|Nk].
      + rewrite nth_error_mid in E. injection E as <-. destruct H as [->|(H1 & H2 & H3)]; [right; tauto|left]. exists i. cbn [fst snd]. split; [apply nth_error_mid|right]. split; [exact H1|]. split; [lia|]. intros m' E'. apply H3. rewrite nth_error_next in *. exact E'.
      + left. rewrite (nth_error_change l1 i) in E by exact Nk. exists m0. cbn [fst snd]. split; [exact E|]. destruct H as [->|(H1 & H2 & H3)]; [left; reflexivity|right]. split; [exact H1|]. split; [exact H2|]. intros m' E'. destruct (Nat.eq_dec (Datatypes.S k) (length l1)) as [EQ|NQ].
        * rewrite EQ in E', H3. rewrite nth_error_mid in *. injection E' as <-. specialize (H3 _ eq_refl). destruct (Z.eq_dec v i) as [->|]; [contradiction|lia].
        * apply H3. rewrite (nth_error_change l1 i) by exact NQ. exact E'.
  Qed.
  Lemma f_tail : forall ms t1 t2 W Z0, okh (ms, t1 ++ i :: t2) -> closed_left i (t2 ++ Z0) -> closed_right i (W ++ rev ms ++ t1) ->
    ~ In i t2 /\ okh (ms, t1 ++ (i + 1) :: t2) /\
    (forall k v, inrow (ms, t1 ++ (i + 1) :: t2) k v -> inrow (ms, t1 ++ i :: t2) k v \/ (v = i + 1 /\ inrow (ms, t1 ++ i :: t2) k i /\ forall m'', nth_error ms (S k) = Some m'' -> i < m'' /\ m'' <> i + 1)).
  Proof.
    intros ms t1 t2 W Z0 (S & I & m & Em & Lm) A _. cbn [fst snd] in *. destruct (inc_split _ _ _ I) as (G1 & G2 & S1 & S2).
    assert (N : ~ In i t2).
    { intro K. apply in_split in K. destruct K as (u & z & E). subst t2. rewrite <- !app_assoc in A. cbn [app] in A. apply CL in A. destruct (inc_split _ _ _ S2) as (Q & _). specialize (Q _ A). lia. }
    assert (G3 : forall a, In a t2 -> i + 1 <= a) by (intros a Ha; pose proof (G2 a Ha); destruct (Z.eq_dec a i) as [->|]; [contradiction|lia]).
    split; [exact N|]. split.
    - split; [exact S|]. cbn [fst snd]. split; [apply inc_join; [intros a Ha; specialize (G1 a Ha); lia|exact G3|exact S1|exact S2]|]. exists m. split; [exact Em|]. intros a Ha. apply in_app_iff in Ha. destruct Ha as [Ha|[<-|Ha]]; [apply Lm; apply in_or_app; left; exact Ha| |apply Lm; apply in_or_app; right; right; exact Ha]. pose proof (Lm i ltac:(apply in_or_app; right; left; reflexivity)). lia.
    - intros k v (m0 & E & H). cbn [fst snd] in *. destruct H as [->|(H1 & H2 & H3)]; [left; exists m0; tauto|]. apply in_app_iff in H1. destruct H1 as [H1|[<-|H1]].
      + left. exists m0. split; [exact E|right]. split; [apply in_or_app; left; exact H1|tauto].
      + destruct (Z.eq_dec m0 (i + 1)) as [->|Nm]; [left; exists (i + 1); tauto|]. right. split; [reflexivity|]. split.
        * exists m0. split; [exact E|right]. split; [apply in_or_app; right; left; reflexivity|]. split; [lia|]. cbn [fst]. intros m' E'. specialize (H3 m' E'). lia.
        * intros m'' E''. specialize (H3 m'' E''). lia.
      + left. exists m0. split; [exact E|right]. split; [apply in_or_app; right; right; exact H1|tauto].
  Qed.

  (* the column that changes, with its two neighbours *)
  Lemma f_column : forall c u z W Z0, okh c -> wd c = u ++ i :: z -> closed_right i (W ++ u) -> closed_left i (z ++ Z0) ->
    exists c', stepped c c' /\ wd c' = u ++ (i + 1) :: z /\ (forall p, adj p c -> adj p c') /\
      (forall n, okh n -> adj c n -> (exists Z1, Z0 = wd n ++ Z1) -> adj c' n).
  Proof.
    intros [ms t] u z W Z0 Hc E A B. unfold wd in E. cbn [fst snd] in E. apply app_eq_app in E. destruct E as (l & [[E1 E2]|[E1 E2]]).
    - destruct l as [|a l].
      + (* first letter of t *)
        rewrite app_nil_r in E1. cbn [app] in E2. subst u t. destruct (f_tail ms [] z W Z0 Hc B) as (N & Ho & HR); [rewrite app_nil_r; exact A|]. cbn [app] in *. exists (ms, (i + 1) :: z). split; [split; [exact Ho|reflexivity]|]. split; [reflexivity|]. split.
        * intros p [P1 P2]. split; [exact P1|exact P2].
        * intros n Hn An (Z1 & ->). split; [apply An|]. intros k m v Em Hv. destruct (HR k v Hv) as [Hv'|(-> & K & NX)]; [apply (proj2 An k m v Em Hv')|]. apply (f_right (ms, i :: z) n k z Z1 Hc Hn An K NX); [|exact B|exact Em]. intro Q. destruct K as (m0 & Em0 & Km). exists m0. split; [exact Em0|right]. split; [right; exact Q|]. destruct Hc as (Sm & _). split.
          -- destruct Km as [<-|(_ & Km & _)]; lia.
          -- cbn [fst]. intros m' Em'. specialize (NX m' Em'). lia.
      + (* a letter of ms *)
        cbn [app] in E2. injection E2 as <- E2. subst z. assert (Em : ms = rev l ++ i :: rev u) by (rewrite <- (rev_involutive ms), E1, rev_app_distr; cbn [rev]; rewrite <- app_assoc; reflexivity). subst ms. destruct (f_min (rev l) (rev u) t W Z0 Hc) as (N1 & N2 & Ho & HR); [rewrite rev_involutive; exact A|rewrite rev_involutive, app_assoc; exact B|].
        exists (rev l ++ (i + 1) :: rev u, t). split; [split; [exact Ho|cbn [fst]; rewrite !app_length; reflexivity]|]. split; [unfold wd; cbn [fst snd]; rewrite rev_app_distr; cbn [rev]; rewrite !rev_involutive, <- !app_assoc; reflexivity|]. split.
        * intros p [P1 P2]. split; [cbn [fst] in *; rewrite app_length in *; exact P1|]. cbn [fst] in *. intros k m v Em Hv. destruct (Nat.eq_dec k (length (rev l))) as [->|Nk].
          -- rewrite nth_error_mid in Em. injection Em as <-. pose proof (P2 _ i v (nth_error_mid _ _ _) Hv). lia.
          -- rewrite (nth_error_change _ i) in Em by exact Nk. apply (P2 k m v Em Hv).
        * intros n Hn An (Z1 & ->). split; [cbn [fst]; destruct An as [An _]; cbn [fst] in An; rewrite app_length in *; exact An|]. intros k m v Em Hv. destruct (HR k v Hv) as [Hv'|(-> & ->)]; [apply (proj2 An k m v Em Hv')|].
          assert (NX : forall m'', nth_error (rev l ++ i :: rev u) (S (length (rev l))) = Some m'' -> i < m'' /\ m'' <> i + 1). { intros m'' E'. rewrite nth_error_next in E'. apply nth_error_In in E'. destruct Hc as (Sm & _). cbn [fst] in Sm. destruct (slt_split _ _ _ Sm) as (_ & G2 & _). split; [apply G2; exact E'|intros ->; contradiction]. }
          apply (f_right (rev l ++ i :: rev u, t) n (length (rev l)) (l ++ t) Z1 Hc Hn An); [exists i; split; [apply nth_error_mid|left; reflexivity]|exact NX| |exact B|exact Em].
          intro Q. apply in_app_iff in Q. destruct Q as [Q|Q]; [exfalso; rewrite in_rev in Q; destruct Hc as (Sm & _); cbn [fst] in Sm; destruct (slt_split _ _ _ Sm) as (G1 & _); specialize (G1 _ Q); lia|]. exists i. split; [apply nth_error_mid|right]. split; [exact Q|]. split; [lia|]. cbn [fst]. intros m' E'. specialize (NX m' E'). lia.
    - (* a letter of t *)
      subst u t. destruct (f_tail ms l z W Z0 Hc B) as (N & Ho & HR); [exact A|]. exists (ms, l ++ (i + 1) :: z). split; [split; [exact Ho|reflexivity]|]. split; [unfold wd; cbn [fst snd]; rewrite <- app_assoc; reflexivity|]. split.
      + intros p [P1 P2]. split; [exact P1|exact P2].
      + intros n Hn An (Z1 & ->). split; [apply An|]. intros k m v Em Hv. destruct (HR k v Hv) as [Hv'|(-> & K & NX)]; [apply (proj2 An k m v Em Hv')|]. apply (f_right (ms, l ++ i :: z) n k z Z1 Hc Hn An K NX); [|exact B|exact Em]. intro Q. destruct K as (m0 & Em0 & Km). exists m0. split; [exact Em0|right]. split; [apply in_or_app; right; right; exact Q|]. split.
        * destruct Km as [<-|(_ & Km & _)]; lia.
        * cbn [fst]. intros m' Em'. specialize (NX m' Em'). lia.
  Qed.

  (* ----- e ----- *)
  Lemma e_min : forall l1 l2 t W Z0, okh (l1 ++ (i + 1) :: l2, t) -> closed_right i (W ++ rev l2) -> closed_left i (rev l1 ++ t ++ Z0) ->
    ~ In i l1 /\ ~ In i t /\ okh (l1 ++ i :: l2, t) /\
    (forall k v, inrow (l1 ++ i :: l2, t) k v -> inrow (l1 ++ (i + 1) :: l2, t) k v \/ (k = length l1 /\ v = i)).
  Proof.
    intros l1 l2 t W Z0 (S & I & m & Em & Lm) A B. cbn [fst snd] in *. destruct (slt_split _ _ _ S) as (G1 & G2 & S1 & S2).
    assert (N1 : ~ In i l1).
    { intro K. rewrite in_rev in K. apply in_split in K. destruct K as (u & z & E). rewrite E, <- app_assoc in B. cbn [app] in B. apply CL in B. assert (In (i + 1) l1) by (rewrite in_rev, E; apply in_or_app; left; exact B). specialize (G1 _ H). lia. }
    assert (N2 : ~ In i t).
    { intro K. apply in_split in K. destruct K as (u & z & E). subst t. rewrite <- !app_assoc in B. cbn [app] in B. rewrite app_assoc in B. apply CL in B. apply in_app_iff in B. destruct B as [B|B]; [rewrite <- in_rev in B; specialize (G1 _ B); lia|]. destruct (inc_split _ _ _ I) as (Q & _). specialize (Q _ B). lia. }
    split; [exact N1|]. split; [exact N2|]. split.
    - split; [|split; [exact I|]]; cbn [fst snd].
      + apply slt_join; [|intros a Ha; specialize (G2 a Ha); lia|exact S1|exact S2]. intros a Ha. pose proof (G1 a Ha). destruct (Z.eq_dec a i) as [->|]; [contradiction|lia].
      + destruct l1 as [|b l1]; cbn in Em |- *; [|exists b; injection Em as <-; split; [reflexivity|exact Lm]]. injection Em as <-. exists i. split; [reflexivity|]. intros a Ha. pose proof (Lm a Ha). lia.
    - intros k v (m0 & E & H). cbn [fst snd] in *. destruct (Nat.eq_dec k (length l1)) as [->|Nk].
      + rewrite nth_error_mid in E. injection E as <-. destruct H as [->|(H1 & H2 & H3)]; [right; tauto|left]. exists (i + 1). cbn [fst snd]. split; [apply nth_error_mid|right]. split; [exact H1|]. split; [destruct (Z.eq_dec v i) as [->|]; [contradiction|lia]|]. intros m' E'. apply H3. rewrite nth_error_next in *. exact E'.
      + left. rewrite (nth_error_change l1 (i + 1)) in E by exact Nk. exists m0. cbn [fst snd]. split; [exact E|]. destruct H as [->|(H1 & H2 & H3)]; [left; reflexivity|right]. split; [exact H1|]. split; [exact H2|]. intros m' E'. destruct (Nat.eq_dec (Datatypes.S k) (length l1)) as [EQ|NQ].
        * rewrite EQ in E', H3. rewrite nth_error_mid in *. injection E' as <-. specialize (H3 _ eq_refl). lia.
        * apply H3. rewrite (nth_error_change l1 (i + 1)) by exact NQ. exact E'.
  Qed.
  Lemma e_tail : forall ms t1 t2 W, okh (ms, t1 ++ (i + 1) :: t2) -> closed_right i (W ++ rev ms ++ t1) ->
    okh (ms, t1 ++ i :: t2) /\
    (forall k v, inrow (ms, t1 ++ i :: t2) k v -> inrow (ms, t1 ++ (i + 1) :: t2) k v \/ (v = i /\ (inrow (ms, t1 ++ (i + 1) :: t2) k (i + 1) \/ inrow (ms, t1 ++ (i + 1) :: t2) k i))).
  Proof.
    intros ms t1 t2 W (S & I & m & Em & Lm) A. cbn [fst snd] in *. destruct (inc_split _ _ _ I) as (G1 & G2 & S1 & S2).
    assert (N : ~ In (i + 1) t1).
    { intro K. apply in_split in K. destruct K as (u & z & E). subst t1. rewrite !app_assoc in A. apply CR in A. destruct (inc_split _ _ _ S1) as (_ & Q & _). specialize (Q _ A). lia. }
    assert (G3 : forall a, In a t1 -> a <= i) by (intros a Ha; pose proof (G1 a Ha); destruct (Z.eq_dec a (i + 1)) as [->|]; [contradiction|lia]).
    assert (Mi : m <= i).
    { pose proof (Lm (i + 1) ltac:(apply in_or_app; right; left; reflexivity)). destruct (Z.eq_dec m (i + 1)) as [->|]; [exfalso|lia]. destruct ms as [|b ms]; [discriminate|]. cbn in Em. injection Em as ->. cbn [rev] in A. rewrite <- !app_assoc in A. cbn [app] in A. rewrite app_assoc in A. apply CR in A. pose proof (Lm i ltac:(apply in_or_app; left; exact A)). lia. }
    split.
    - split; [exact S|]. cbn [fst snd]. split; [apply inc_join; [exact G3|intros a Ha; specialize (G2 a Ha); lia|exact S1|exact S2]|]. exists m. split; [exact Em|]. intros a Ha. apply in_app_iff in Ha. destruct Ha as [Ha|[<-|Ha]]; [apply Lm; apply in_or_app; left; exact Ha|exact Mi|apply Lm; apply in_or_app; right; right; exact Ha].
    - intros k v (m0 & E & H). cbn [fst snd] in *. destruct H as [->|(H1 & H2 & H3)]; [left; exists m0; tauto|]. apply in_app_iff in H1. destruct H1 as [H1|[<-|H1]].
      + left. exists m0. split; [exact E|right]. split; [apply in_or_app; left; exact H1|tauto].
      + right. split; [reflexivity|]. destruct (nth_error ms (Datatypes.S k)) as [m'|] eqn:EN.
        * specialize (H3 m' eq_refl). destruct (Z.eq_dec m' (i + 1)) as [->|Nm].
          -- right. exists m0. split; [exact E|]. destruct (nth_split_at _ _ _ EN) as (a1 & a2 & Ems & La). rewrite Ems, rev_app_distr in A. cbn [rev] in A. rewrite <- !app_assoc in A. cbn [app] in A. rewrite app_assoc in A. apply CR in A. apply in_app_iff in A. destruct A as [A|A].
             ++ left. rewrite <- in_rev in A. rewrite Ems in S. destruct (slt_split _ _ _ S) as (Q1 & _ & Q3 & _). apply In_nth_error in A. destruct A as (r & Er). assert (Hr : (r < length a1)%nat) by (apply nth_error_Some; congruence). assert (E0 : nth_error a1 k = Some m0) by (rewrite Ems in E; rewrite nth_error_app1 in E by lia; exact E). destruct (Nat.eq_dec r k) as [->|Nr]; [congruence|]. pose proof (slt_nth a1 r k i m0 Q3 ltac:(lia) Er E0). lia.
             ++ right. split; [apply in_or_app; left; exact A|]. split; [exact H2|]. cbn [fst]. rewrite EN. intros m' Q. injection Q as <-. lia.
          -- left. exists m0. split; [exact E|right]. split; [apply in_or_app; right; left; reflexivity|]. split; [lia|]. cbn [fst]. rewrite EN. intros m'' Q. injection Q as <-. lia.
        * left. exists m0. split; [exact E|right]. split; [apply in_or_app; right; left; reflexivity|]. split; [lia|]. cbn [fst]. rewrite EN. discriminate.
      + left. exists m0. split; [exact E|right]. split; [apply in_or_app; right; right; exact H1|tauto].
  Qed.
  Lemma e_left : forall p l1 l2 t W, okh p -> okh (l1 ++ (i + 1) :: l2, t) -> adj p (l1 ++ (i + 1) :: l2, t) -> ~ In i l1 -> closed_right i ((W ++ wd p) ++ rev l2) -> forall v, inrow p (length l1) v -> v <= i.
  Proof.
    intros [msp tp] l1 l2 t W Hp Hc [AL AR] N A v Hv. cbn [fst snd] in *. pose proof (AR _ (i + 1) v (nth_error_mid _ _ _) Hv) as B. destruct (Z.eq_dec v (i + 1)) as [->|]; [exfalso|lia]. destruct Hc as (Sc & _). cbn [fst] in Sc. destruct (slt_split _ _ _ Sc) as (G1 & G2 & _). destruct Hp as (Sp & Ip & m & Em & Lm). cbn [fst snd] in *. unfold wd in A. cbn [fst snd] in A.
    assert (Nl : ~ In i (rev l2)) by (rewrite <- in_rev; intro K; specialize (G2 _ K); lia).
    assert (NT : ~ In (i + 1) tp).
    { intro K. apply in_split in K. destruct K as (u & z & E). subst tp. rewrite <- !app_assoc in A. cbn [app] in A. rewrite !app_assoc in A. rewrite <- app_assoc in A. cbn [app] in A. rewrite <- app_assoc in A.
      assert (A' : closed_right i (((W ++ rev msp) ++ u) ++ (i + 1) :: (z ++ rev l2))) by (revert A; rewrite <- !app_assoc; cbn [app]; rewrite <- ?app_assoc; intro A; exact A). apply CR in A'. apply in_app_iff in A'. destruct A' as [A'|A']; [|contradiction]. destruct (inc_split _ _ _ Ip) as (_ & Q & _). specialize (Q _ A'). lia. }
    destruct Hv as (m0 & E0 & [Hv|(Hv & _)]); [subst m0|contradiction]. cbn [fst] in E0. destruct (nth_split_at _ _ _ E0) as (a1 & a2 & Ems & La).
    assert (A' : closed_right i ((W ++ rev a2) ++ (i + 1) :: (rev a1 ++ tp ++ rev l2))) by (revert A; rewrite Ems, rev_app_distr; cbn [rev]; rewrite <- !app_assoc; cbn [app]; rewrite <- ?app_assoc; intro A; exact A). apply CR in A'.
    assert (IR : exists k', length l1 = S k' /\ inrow (msp, tp) k' i).
    { rewrite Ems in Sp. destruct (slt_split _ _ _ Sp) as (Q1 & _ & Q3 & _). assert (NE : forall k', length a1 = S k' -> exists m1, nth_error a1 k' = Some m1 /\ nth_error msp k' = Some m1 /\ m1 < i + 1).
      { intros k' Lk. destruct (nth_error a1 k') as [m1|] eqn:E1; [|apply nth_error_None in E1; lia]. exists m1. split; [reflexivity|]. split; [rewrite Ems, nth_error_app1 by lia; exact E1|]. apply Q1. apply (nth_error_In _ _ E1). }
      rewrite !in_app_iff in A'. destruct A' as [A'|[A'|A']]; [| |contradiction].
      - rewrite <- in_rev in A'. destruct (length a1) as [|k'] eqn:Lk; [destruct a1; [destruct A'|discriminate]|]. exists k'. split; [congruence|]. destruct (NE k' eq_refl) as (m1 & E1 & E2 & L1). exists m1. split; [exact E2|left]. apply In_nth_error in A'. destruct A' as (r & Er). assert (Hr : (r < length a1)%nat) by (apply nth_error_Some; congruence). destruct (Nat.eq_dec r k') as [->|Nr]; [congruence|]. pose proof (slt_nth a1 r k' i m1 Q3 ltac:(lia) Er E1). lia.
      - destruct (length a1) as [|k'] eqn:Lk; [destruct a1; [|discriminate]; rewrite Ems in Em; cbn in Em; injection Em as <-; specialize (Lm _ A'); lia|]. exists k'. split; [congruence|]. destruct (NE k' eq_refl) as (m1 & E1 & E2 & L1). exists m1. split; [exact E2|right]. split; [exact A'|]. split; [lia|]. cbn [fst]. rewrite <- La in E0. rewrite E0. intros m' Q. injection Q as <-. lia. }
    destruct IR as (k' & Lk & IR). assert (exists m1, nth_error l1 k' = Some m1) as (m1 & E1) by (destruct (nth_error l1 k') as [m1|] eqn:E1; [exists m1; reflexivity|apply nth_error_None in E1; lia]). pose proof (AR k' m1 i ltac:(rewrite nth_error_app1 by lia; exact E1) IR). pose proof (G1 m1 (nth_error_In _ _ E1)). assert (m1 = i) by lia. subst m1. apply N. apply (nth_error_In _ _ E1).
  Qed.
  Lemma e_column : forall c u z W Z0, okh c -> wd c = u ++ (i + 1) :: z -> closed_right i (W ++ u) -> closed_left i (z ++ Z0) ->
    exists c', stepped c c' /\ wd c' = u ++ i :: z /\ (forall p, okh p -> adj p c -> (exists W1, W = W1 ++ wd p) -> adj p c') /\ (forall n, adj c n -> adj c' n).
  Proof.
    intros [ms t] u z W Z0 Hc E A B. unfold wd in E. cbn [fst snd] in E. apply app_eq_app in E.
    assert (TAIL : forall l, t = l ++ (i + 1) :: z -> u = rev ms ++ l -> exists c', stepped (ms, t) c' /\ wd c' = u ++ i :: z /\ (forall p, okh p -> adj p (ms, t) -> (exists W1, W = W1 ++ wd p) -> adj p c') /\ (forall n, adj (ms, t) n -> adj c' n)).
    { intros l -> ->. destruct (e_tail ms l z W Hc A) as (Ho & HR). exists (ms, l ++ i :: z). split; [split; [exact Ho|reflexivity]|]. split; [unfold wd; cbn [fst snd]; rewrite <- app_assoc; reflexivity|]. split.
      - intros p _ [P1 P2] _. split; [exact P1|exact P2].
      - intros n [N1 N2]. split; [exact N1|]. intros k m v Em Hv. destruct (HR k v Hv) as [Hv'|(-> & [Hv'|Hv'])]; [apply (N2 k m v Em Hv')|pose proof (N2 k m _ Em Hv'); lia|apply (N2 k m _ Em Hv')]. }
    destruct E as (l & [[E1 E2]|[E1 E2]]).
    - destruct l as [|a l]; [rewrite app_nil_r in E1; cbn [app] in E2; apply (TAIL []); [symmetry; exact E2|rewrite app_nil_r; symmetry; exact E1]|].
      cbn [app] in E2. injection E2 as <- E2. subst z. assert (Em : ms = rev l ++ (i + 1) :: rev u) by (rewrite <- (rev_involutive ms), E1, rev_app_distr; cbn [rev]; rewrite <- app_assoc; reflexivity). subst ms. destruct (e_min (rev l) (rev u) t W Z0 Hc) as (N1 & N2 & Ho & HR); [rewrite rev_involutive; exact A|rewrite rev_involutive, app_assoc; exact B|].
      exists (rev l ++ i :: rev u, t). split; [split; [exact Ho|cbn [fst]; rewrite !app_length; reflexivity]|]. split; [unfold wd; cbn [fst snd]; rewrite rev_app_distr; cbn [rev]; rewrite !rev_involutive, <- !app_assoc; reflexivity|]. split.
      + intros p Hp Ap (W1 & ->). split; [destruct Ap as [P1 _]; cbn [fst] in *; rewrite app_length in *; exact P1|]. intros k m v Em Hv. cbn [fst] in Em. destruct (Nat.eq_dec k (length (rev l))) as [->|Nk].
        * rewrite nth_error_mid in Em. injection Em as <-. apply (e_left p (rev l) (rev u) t W1 Hp Hc Ap N1); [rewrite rev_involutive; exact A|exact Hv].
        * rewrite (nth_error_change _ (i + 1)) in Em by exact Nk. apply (proj2 Ap k m v Em Hv).
      + intros n [P1 P2]. split; [cbn [fst] in *; rewrite app_length in *; exact P1|]. intros k m v Em Hv. destruct (HR k v Hv) as [Hv'|(-> & ->)]; [apply (P2 k m v Em Hv')|]. pose proof (P2 _ m (i + 1) Em ltac:(exists (i + 1); split; [apply nth_error_mid|left; reflexivity])). lia.
    - apply (TAIL l); [exact E2|exact E1].
  Qed.
End Step.

(* ---------- the whole list of columns ---------- *)
Lemma locate : forall (l : list (list Z)) x a y, concat l = x ++ a :: y -> exists A c B u z, l = A ++ c :: B /\ c = u ++ a :: z /\ x = concat A ++ u /\ y = z ++ concat B.
Proof.
  induction l as [|c l IH]; intros x a y E; [destruct x; discriminate|]. cbn [concat] in E. apply app_eq_app in E. destruct E as (m & [[E1 E2]|[E1 E2]]).
  - destruct m as [|b m].
    + rewrite app_nil_r in E1. cbn [app] in E2. destruct (IH [] a y (eq_sym E2)) as (A & d & B & u & z & -> & -> & E3 & ->). exists (c :: A), (u ++ a :: z), B, u, z. split; [reflexivity|]. split; [reflexivity|]. split; [cbn [concat]; rewrite <- app_assoc, <- E3, app_nil_r; symmetry; exact E1|reflexivity].
    + cbn [app] in E2. injection E2 as <- ->. exists [], c, l, x, m. repeat split. exact E1.
  - destruct (IH m a y E2) as (A & d & B & u & z & -> & -> & -> & ->). exists (c :: A), (u ++ a :: z), B, u, z. repeat split. cbn [concat]. rewrite E1, app_assoc. reflexivity.
Qed.
Lemma concat_same : forall (a b : list (list Z)), map (@length Z) a = map (@length Z) b -> concat a = concat b -> a = b.
Proof.
  induction a as [|x a IH]; intros [|y b] L E; try discriminate; [reflexivity|]. cbn in L, E. injection L as L1 L2. apply app_eq_app in E. destruct E as (l & [[E1 E2]|[E1 E2]]).
  - assert (l = []) by (apply length_zero_iff_nil; subst x; rewrite app_length in L1; lia). subst l. rewrite app_nil_r in E1. cbn in E2. subst x. f_equal. apply IH; [exact L2|symmetry; exact E2].
  - assert (l = []) by (apply length_zero_iff_nil; subst y; rewrite app_length in L1; lia). subst l. rewrite app_nil_r in E1. cbn in E2. subst y. f_equal. apply IH; [exact L2|exact E2].
Qed.
Lemma okT_change : forall A c c' B, okT (A ++ c :: B) -> okh c' -> (forall A' p, A = A' ++ [p] -> adj p c -> adj p c') -> (forall n B', B = n :: B' -> adj c n -> adj c' n) -> okT (A ++ c' :: B).
Proof.
  intros A c c' B [F K] H L R. split.
  - rewrite Forall_forall in *. intros d Hd. apply in_app_iff in Hd. destruct Hd as [Hd|[<-|Hd]]; [apply F; apply in_or_app; left; exact Hd|exact H|apply F; apply in_or_app; right; right; exact Hd].
  - intros P p n Q E. apply app_eq_app in E. destruct E as (l & [[E1 E2]|[E1 E2]]).
    + destruct l as [|a l]; cbn [app] in E2.
      * rewrite app_nil_r in E1. injection E2 as <- E2. apply (R n Q (eq_sym E2)). apply (K A c n Q). rewrite <- E2. reflexivity.
      * injection E2 as <- E2. destruct l as [|b l]; cbn [app] in E2.
        -- injection E2 as -> ->. apply (L P p E1). apply (K P p c B). rewrite E1, <- app_assoc. reflexivity.
        -- injection E2 as <- E2. apply (K P p n (l ++ c :: B)). rewrite E1, <- app_assoc. reflexivity.
    + destruct l as [|a l]; cbn [app] in E2.
      * injection E2 as E2 E3. subst. apply (R n Q eq_refl). apply (K A c n Q). reflexivity.
      * injection E2 as <- E2. subst P. apply (K (A ++ c :: l) p n Q). rewrite <- app_assoc. cbn [app]. rewrite E2. reflexivity.
Qed.
Lemma step_f : forall i l vs, okT l -> map (@length Z) vs = map (@length Z) (map wd l) -> f_rule i (concat (map wd l)) (concat vs) ->
  exists l', vs = map wd l' /\ okT l' /\ map (fun c => length (fst c)) l' = map (fun c => length (fst c)) l.
Proof.
  intros i l vs O LV (x & y & E & E' & CX & CY). destruct (locate _ _ _ _ E) as (Aw & cw & Bw & u & z & EW & Ec & -> & ->). apply map_eq_app in EW. destruct EW as (A & B0 & -> & <- & EB). apply map_eq_cons in EB. destruct EB as (c & B & -> & Ewc & <-). subst cw.
  assert (Hc : okh c) by (apply (proj1 (Forall_forall _ _) (proj1 O)); apply in_or_app; right; left; reflexivity).
  destruct (f_column i c u z (concat (map wd A)) (concat (map wd B)) Hc Ec CX CY) as (c' & [Hc' Lc'] & Wc' & PL & PR). exists (A ++ c' :: B). split; [|split].
  - apply concat_same.
    + rewrite LV, !map_app. cbn [map]. rewrite Wc', Ec, !app_length. reflexivity.
    + rewrite E', map_app, concat_app. cbn [map concat]. rewrite Wc', <- !app_assoc. reflexivity.
  - apply (okT_change A c c' B O Hc'); [intros A' p _; apply PL|]. intros n B' -> An. apply PR; [|exact An|exists (concat (map wd B')); reflexivity]. apply (proj1 (Forall_forall _ _) (proj1 O)). apply in_or_app. right. right. left. reflexivity.
  - rewrite !map_app. cbn [map]. rewrite Lc'. reflexivity.
Qed.
Lemma step_e : forall i l vs, okT l -> map (@length Z) vs = map (@length Z) (map wd l) -> e_rule i (concat (map wd l)) (concat vs) ->
  exists l', vs = map wd l' /\ okT l' /\ map (fun c => length (fst c)) l' = map (fun c => length (fst c)) l.
Proof.
  intros i l vs O LV (x & y & E & E' & CX & CY). destruct (locate _ _ _ _ E) as (Aw & cw & Bw & u & z & EW & Ec & -> & ->). apply map_eq_app in EW. destruct EW as (A & B0 & -> & <- & EB). apply map_eq_cons in EB. destruct EB as (c & B & -> & Ewc & <-). subst cw.
  assert (Hc : okh c) by (apply (proj1 (Forall_forall _ _) (proj1 O)); apply in_or_app; right; left; reflexivity).
  destruct (e_column i c u z (concat (map wd A)) (concat (map wd B)) Hc Ec CX CY) as (c' & [Hc' Lc'] & Wc' & PL & PR). exists (A ++ c' :: B). split; [|split].
  - apply concat_same.
    + rewrite LV, !map_app. cbn [map]. rewrite Wc', Ec, !app_length. reflexivity.
    + rewrite E', map_app, concat_app. cbn [map concat]. rewrite Wc', <- !app_assoc. reflexivity.
  - apply (okT_change A c c' B O Hc'); [|intros n B' _; apply PR]. intros A' p -> Ap. apply PL; [|exact Ap|exists (concat (map wd A')); rewrite map_app, concat_app; cbn [map concat]; rewrite app_nil_r; reflexivity]. apply (proj1 (Forall_forall _ _) (proj1 O)). apply in_or_app. left. apply in_or_app. right. left. reflexivity.
  - rewrite !map_app. cbn [map]. rewrite Lc'. reflexivity.
Qed.
