(* Reading words of column-strict multiset-valued tableaux: encoding and decoding. *)
From Coq Require Import List ZArith Lia Bool Sorted Permutation.
From Verif Require Import PyBase FinSum M_Partitions M_Tableaux M_Words M_TabCrystal S_Words L_Words S_Tableaux L_PartBasic L_Tableaux L_Multi1.
Import ListNotations.
Local Open Scope Z_scope.

(* ---------- the row of a letter ---------- *)
Lemma last_le_ge : forall ms z a, (forall m, In m ms -> a < m) -> last_le z a ms = None.
Proof.
  induction ms as [|b ms IH]; intros z a H; [reflexivity|]. cbn [last_le]. rewrite IH by (intros m Hm; apply H; right; exact Hm). pose proof (H b (or_introl eq_refl)). destruct (Z.leb_spec b a); [lia|reflexivity].
Qed.
Lemma last_le_at : forall ms k z a m, StronglySorted Z.lt ms -> nth_error ms k = Some m -> m <= a -> (forall m', nth_error ms (S k) = Some m' -> a < m') -> last_le z a ms = Some (z + Z.of_nat k).
Proof.
  induction ms as [|b ms IH]; intros k z a m S E L N; [destruct k; discriminate|]. inversion S as [|? ? S1 S2]; subst. rewrite Forall_forall in S2. cbn [last_le]. destruct k as [|k].
  - cbn in E. injection E as ->. rewrite last_le_ge; [destruct (Z.leb_spec m a); [f_equal; lia|lia]|]. intros m' Hm'. destruct ms as [|c ms]; [destruct Hm'|]. specialize (N c eq_refl). destruct Hm' as [<-|Hm']; [exact N|]. inversion S1 as [|? ? _ F]; subst. rewrite Forall_forall in F. specialize (F _ Hm'). lia.
  - cbn in E. rewrite (IH k (z + 1) a m S1 E L); [f_equal; lia|]. intros m' E'. apply N. exact E'.
Qed.
Lemma last_le_some : forall ms z a, StronglySorted Z.lt ms -> (exists m, nth_error ms 0 = Some m /\ m <= a) -> exists k m, nth_error ms k = Some m /\ m <= a /\ (forall m', nth_error ms (S k) = Some m' -> a < m') /\ last_le z a ms = Some (z + Z.of_nat k).
Proof.
  intros ms z a S (m & E & L). assert (K : exists k m, nth_error ms k = Some m /\ m <= a /\ (forall m', nth_error ms (Datatypes.S k) = Some m' -> a < m')).
  { revert m E L S. induction ms as [|b ms IH]; intros m E L S; [discriminate|]. cbn in E. injection E as ->. destruct ms as [|c ms].
    - exists 0%nat, m. repeat split; [exact L|]. intros m' Q. discriminate.
    - destruct (Z_lt_le_dec a c) as [H|H].
      + exists 0%nat, m. repeat split; [exact L|]. intros m' Q. cbn in Q. injection Q as <-. exact H.
      + inversion S as [|? ? S1 _]; subst. destruct (IH c eq_refl H S1) as (k & m0 & E0 & L0 & N0). exists (Datatypes.S k), m0. repeat split; assumption. }
  destruct K as (k & m0 & E0 & L0 & N0). exists k, m0. repeat split; try assumption. apply (last_le_at ms k z a m0); assumption.
Qed.
Definition inslot (ms : list Z) (k : nat) (a : Z) : bool := match last_le 0 a ms with Some s => s =? Z.of_nat k | None => false end.
Lemma inslot_spec : forall ms k a m, StronglySorted Z.lt ms -> (exists m0, nth_error ms 0 = Some m0 /\ m0 <= a) -> nth_error ms k = Some m -> (inslot ms k a = true <-> m <= a /\ forall m', nth_error ms (S k) = Some m' -> a < m').
Proof.
  intros ms k a m S H E. unfold inslot. split.
  - destruct (last_le_some ms 0 a S H) as (k' & m1 & E1 & L1 & N1 & ->). intro Q. apply Z.eqb_eq in Q. assert (k' = k) by lia. subst k'. assert (m1 = m) by congruence. subst. tauto.
  - intros [L N]. rewrite (last_le_at ms k 0 a m S E L N). apply Z.eqb_eq. lia.
Qed.
Definition getrow (c : hk) (k : nat) : option (list Z) := match nth_error (fst c) k with Some m => Some (m :: filter (inslot (fst c) k) (snd c)) | None => None end.
Lemma inrow_getrow : forall c k v, okh c -> (inrow c k v <-> exists l, getrow c k = Some l /\ In v l).
Proof.
  intros [ms t] k v (S & I & m0 & E0 & L0). unfold inrow, getrow. cbn [fst snd] in *. split.
  - intros (m & E & H). rewrite E. eexists. split; [reflexivity|]. destruct H as [->|(H1 & H2 & H3)]; [left; reflexivity|right]. apply filter_In. split; [exact H1|]. apply (inslot_spec ms k v m S); [exists m0; split; [exact E0|apply L0; exact H1]|exact E|tauto].
  - intros (l & El & H). destruct (nth_error ms k) as [m|] eqn:E; [|discriminate]. injection El as <-. exists m. split; [reflexivity|]. destruct H as [->|H]; [left; reflexivity|right]. apply filter_In in H. destruct H as [H1 H2]. split; [exact H1|]. apply (inslot_spec ms k v m S) in H2; [exact H2|exists m0; split; [exact E0|apply L0; exact H1]|exact E].
Qed.
Lemma filter_inc : forall (p : Z -> bool) t, increasing t -> increasing (filter p t).
Proof.
  unfold increasing. intros p. induction t as [|a t IH]; intro S; [constructor|]. inversion S as [|? ? S1 S2]; subst. cbn [filter]. destruct (p a); [|apply IH; exact S1]. constructor; [apply IH; exact S1|]. rewrite Forall_forall in *. intros x Hx. apply filter_In in Hx. apply S2. apply Hx.
Qed.
Lemma getrow_inc : forall c k l, okh c -> getrow c k = Some l -> increasing l /\ l <> [].
Proof.
  intros c k l H E. pose proof (inrow_getrow c k) as IR. unfold getrow in E. destruct (nth_error (fst c) k) as [m|] eqn:Em; [|discriminate]. injection E as <-. split; [|discriminate]. unfold increasing. constructor; [apply filter_inc; apply H|]. apply Forall_forall. intros x Hx. apply filter_In in Hx. destruct Hx as [H1 H2]. destruct H as (S & I & m0 & E0 & L0). apply (inslot_spec _ k x m S) in H2; [tauto|exists m0; split; [exact E0|apply L0; exact H1]|exact Em].
Qed.

(* ---------- the tails, one after the other ---------- *)
Lemma split_key : forall (p q : Z -> bool) t, (forall a, In a t -> q a = negb (p a)) -> (forall u a v b w, t = u ++ a :: v ++ b :: w -> p b = true -> p a = true) -> t = filter p t ++ filter q t.
Proof.
  intros p q. induction t as [|a t IH]; intros C M; [reflexivity|]. cbn [filter]. rewrite (C a (or_introl eq_refl)). destruct (p a) eqn:Ea; cbn [negb app].
  - f_equal. apply IH; [intros b Hb; apply C; right; exact Hb|]. intros u x v y w E. apply (M (a :: u) x v y w). rewrite E. reflexivity.
  - assert (N : forall b, In b t -> p b = false). { intros b Hb. destruct (p b) eqn:Eb; [|reflexivity]. apply in_split in Hb. destruct Hb as (v & w & ->). rewrite (M [] a v b w eq_refl Eb) in Ea. discriminate. }
    rewrite filter_none by exact N. cbn [app]. f_equal. symmetry. rewrite filter_all; [reflexivity|]. intros b Hb. rewrite (C b (or_intror Hb)), (N b Hb). reflexivity.
Qed.
Lemma filter_filter : forall (p q : Z -> bool) t, filter p (filter q t) = filter (fun a => p a && q a) t.
Proof. intros p q. induction t as [|a t IH]; [reflexivity|]. cbn [filter]. destruct (q a) eqn:E; cbn [filter]; rewrite ?E, ?andb_true_r, ?andb_false_r, IH; reflexivity. Qed.
Lemma key_concat : forall (key : Z -> nat) n s t, (forall a, In a t -> (s <= key a < s + n)%nat) -> (forall u a v b w, t = u ++ a :: v ++ b :: w -> (key a <= key b)%nat) ->
  concat (map (fun k => filter (fun a => Nat.eqb (key a) k) t) (seq s n)) = t.
Proof.
  intros key. induction n as [|n IH]; intros s t R M.
  - destruct t as [|a t]; [reflexivity|]. specialize (R a (or_introl eq_refl)). lia.
  - cbn [seq map concat]. transitivity (filter (fun a => Nat.eqb (key a) s) t ++ filter (fun a => negb (Nat.eqb (key a) s)) t); [|symmetry; apply split_key].
    + f_equal. set (t' := filter (fun a => negb (Nat.eqb (key a) s)) t). rewrite <- (IH (S s) t').
      * f_equal. apply map_ext_in. intros k Hk. apply in_seq in Hk. unfold t'. rewrite filter_filter. apply filter_ext. intro a. destruct (Nat.eqb_spec (key a) k), (Nat.eqb_spec (key a) s); cbn; try reflexivity. lia.
      * intros a Ha. apply filter_In in Ha. destruct Ha as [Ha Na]. specialize (R a Ha). destruct (Nat.eqb_spec (key a) s); [discriminate|lia].
      * assert (G : forall l, (forall u a v b w, l = u ++ a :: v ++ b :: w -> (key a <= key b)%nat) -> forall u a v b w, filter (fun a => negb (Nat.eqb (key a) s)) l = u ++ a :: v ++ b :: w -> (key a <= key b)%nat).
        { induction l as [|x l IHl]; intros Ml u a v b w E; [destruct u; discriminate|]. assert (Ml' : forall u a v b w, l = u ++ a :: v ++ b :: w -> (key a <= key b)%nat) by (intros u0 a0 v0 b0 w0 E0; apply (Ml (x :: u0) a0 v0 b0 w0); rewrite E0; reflexivity). cbn [filter] in E. destruct (negb (Nat.eqb (key x) s)); [|apply (IHl Ml' u a v b w E)]. destruct u as [|y u]; cbn [app] in E.
          - injection E as -> E. assert (Hb : In b l) by (assert (In b (filter (fun a => negb (Nat.eqb (key a) s)) l)) by (rewrite E; apply in_or_app; right; left; reflexivity); apply filter_In in H; apply H). apply in_split in Hb. destruct Hb as (v' & w' & ->). apply (Ml [] a v' b w'). reflexivity.
          - injection E as _ E. apply (IHl Ml' u a v b w E). }
        intros u a v b w E. apply (G t M u a v b w E).
    + intros a _. reflexivity.
    + intros u a v b w E Kb. apply Nat.eqb_eq in Kb. specialize (M u a v b w E). assert (In a t) by (rewrite E; apply in_or_app; right; left; reflexivity). specialize (R a H). apply Nat.eqb_eq. lia.
Qed.
Definition rowsl (c : hk) : list (list Z) := map (fun k => nth k (fst c) 0 :: filter (inslot (fst c) k) (snd c)) (seq 0 (length (fst c))).
Lemma inc_pairs : forall t, increasing t -> forall u a v b w, t = u ++ a :: v ++ b :: w -> a <= b.
Proof. intros t I u a v b w ->. destruct (inc_split _ _ _ I) as (_ & Q & _). apply Q. apply in_or_app. right. left. reflexivity. Qed.
Lemma tails_concat : forall c, okh c -> concat (map (@skipn Z 1) (rowsl c)) = snd c.
Proof.
  intros [ms t] (S & I & m0 & E0 & L0). unfold rowsl. cbn [fst snd] in *. rewrite map_map. cbn [skipn].
  pose (key := fun a => match last_le 0 a ms with Some s => Z.to_nat s | None => 0%nat end).
  assert (KS : forall a, In a t -> exists k m, nth_error ms k = Some m /\ m <= a /\ (forall m', nth_error ms (Datatypes.S k) = Some m' -> a < m') /\ last_le 0 a ms = Some (Z.of_nat k) /\ key a = k).
  { intros a Ha. destruct (last_le_some ms 0 a S) as (k & m & E & L & N & EL); [exists m0; split; [exact E0|apply L0; exact Ha]|]. exists k, m. repeat split; try assumption. unfold key. rewrite EL. lia. }
  transitivity (concat (map (fun k => filter (fun a => Nat.eqb (key a) k) t) (seq 0 (length ms)))); [|apply key_concat].
  - f_equal. apply map_ext. intro k. cbn [skipn]. apply filter_ext_in. intros a Ha. destruct (KS a Ha) as (k' & m & _ & _ & _ & EL & EK). unfold inslot. rewrite EL, EK. destruct (Nat.eqb_spec k' k), (Z.eqb_spec (Z.of_nat k') (Z.of_nat k)); try reflexivity; lia.
  - intros a Ha. destruct (KS a Ha) as (k' & m & E & _ & _ & _ & EK). rewrite EK. assert (k' < length ms)%nat by (apply nth_error_Some; congruence). lia.
  - intros u a v b w E. pose proof (inc_pairs t I u a v b w E) as LE. assert (Ha : In a t) by (rewrite E; apply in_or_app; right; left; reflexivity). assert (Hb : In b t) by (rewrite E; apply in_or_app; right; right; apply in_or_app; right; left; reflexivity).
    destruct (KS a Ha) as (ka & ma & Ea & La & Na & _ & ->). destruct (KS b Hb) as (kb & mb & Eb & Lb & Nb & _ & ->). destruct (Nat.le_gt_cases ka kb) as [|G]; [assumption|exfalso].
    assert (kb < length ms /\ ka < length ms)%nat as [L1 L2] by (split; apply nth_error_Some; congruence). destruct (nth_error ms (Datatypes.S kb)) as [m'|] eqn:E'; [|apply nth_error_None in E'; lia]. specialize (Nb m' eq_refl). destruct (Nat.eq_dec (Datatypes.S kb) ka) as [<-|]; [assert (m' = ma) by congruence; lia|]. pose proof (slt_nth ms (Datatypes.S kb) ka m' ma S ltac:(lia) E' Ea). lia.
Qed.
Lemma column_word_eq : forall col, column_word col = rev (concat (map (@firstn Z 1) col)) ++ concat (map (@skipn Z 1) col).
Proof.
  assert (G : forall (col : list (list Z)) P Q, let pp := fold_left (fun pp row => (firstn 1 row ++ fst pp, snd pp ++ skipn 1 row)) col (P, Q) in pp = (rev (concat (map (@firstn Z 1) col)) ++ P, Q ++ concat (map (@skipn Z 1) col))).
  { induction col as [|r col IH]; intros P Q; cbn [fold_left map concat rev]; [rewrite app_nil_r; reflexivity|]. cbn zeta in IH |- *. rewrite IH. cbn [fst snd]. f_equal; [|rewrite app_assoc; reflexivity]. rewrite rev_app_distr, <- app_assoc. f_equal. f_equal. destruct r; reflexivity. }
  intro col. unfold column_word. specialize (G col [] []). cbn zeta in G |- *. rewrite G. cbn [fst snd app]. rewrite app_nil_r. reflexivity.
Qed.
Lemma heads_nth : forall ms : list Z, map (fun k => nth k ms 0) (seq 0 (length ms)) = ms.
Proof.
  induction ms as [|m ms IH]; [reflexivity|]. cbn [length seq map nth]. f_equal. rewrite <- seq_shift, map_map. exact IH.
Qed.
Lemma heads_concat : forall c, concat (map (@firstn Z 1) (rowsl c)) = fst c.
Proof.
  intros [ms t]. unfold rowsl. cbn [fst snd]. rewrite map_map. cbn [firstn]. transitivity (map (fun k => nth k ms 0) (seq 0 (length ms))); [|apply heads_nth]. set (l := seq 0 (length ms)). induction l as [|k l IH]; [reflexivity|]. cbn [map concat app]. f_equal. exact IH.
Qed.
Lemma column_word_rowsl : forall c, okh c -> column_word (rowsl c) = wd c.
Proof. intros c H. rewrite column_word_eq, heads_concat, tails_concat by exact H. reflexivity. Qed.

(* ---------- tables and lists of columns ---------- *)
Definition Rep (cols : list hk) (T : tab) : Prop :=
  well_formed T /\ forall y k, tlookup T (1 + Z.of_nat k, 1 + Z.of_nat y) = match nth_error cols y with Some c => getrow c k | None => None end.
Lemma Rep_unique : forall cols T T', Rep cols T -> Rep cols T' -> T = T'.
Proof.
  intros cols T T' [W R] [W' R']. apply wf_ext; [exact W|exact W'|]. intros [x y]. destruct (Z_lt_le_dec 0 x) as [Hx|Hx]; [destruct (Z_lt_le_dec 0 y) as [Hy|Hy]|].
  - specialize (R (Z.to_nat (y - 1)) (Z.to_nat (x - 1))). specialize (R' (Z.to_nat (y - 1)) (Z.to_nat (x - 1))). rewrite !Z2Nat.id in R, R' by lia. replace (1 + (x - 1)) with x in * by lia. replace (1 + (y - 1)) with y in * by lia. congruence.
  - transitivity (@None (list Z)); [|symmetry]; apply tlookup_None; intro K; apply wf_keys in K; try assumption; unfold positive in K; cbn in K; lia.
  - transitivity (@None (list Z)); [|symmetry]; apply tlookup_None; intro K; apply wf_keys in K; try assumption; unfold positive in K; cbn in K; lia.
Qed.
Lemma sub_sorted : forall (p : box * list Z -> bool) (T : tab), StronglySorted before (map fst T) -> StronglySorted before (map fst (filter p T)).
Proof.
  intros p. induction T as [|[c l] T IH]; intro S; [constructor|]. cbn [map fst] in S. inversion S as [|? ? S1 S2]; subst. cbn [filter]. destruct (p (c, l)); [|apply IH; exact S1]. cbn [map fst]. constructor; [apply IH; exact S1|]. rewrite Forall_forall in *. intros d Hd. apply S2. apply in_map_iff in Hd. destruct Hd as (e & <- & He). apply filter_In in He. apply in_map. apply He.
Qed.
Lemma sub_wf : forall p (T : tab), well_formed T -> well_formed (filter p T).
Proof. intros p T [S P]. split; [apply sub_sorted; exact S|]. intros c l H. apply filter_In in H. apply (P c l). apply H. Qed.
Definition colcells (y : Z) (s : nat) (rows : list (list Z)) : tab := map (fun kr => ((1 + Z.of_nat (fst kr), y), snd kr)) (combine (seq s (length rows)) rows).
Lemma colcells_cons : forall y s r rows, colcells y s (r :: rows) = ((1 + Z.of_nat s, y), r) :: colcells y (S s) rows.
Proof. reflexivity. Qed.
Lemma colcells_In : forall y rows s c l, In (c, l) (colcells y s rows) <-> exists k, nth_error rows k = Some l /\ c = (1 + Z.of_nat (s + k), y).
Proof.
  intros y. induction rows as [|r rows IH]; intros s c l.
  - cbn. split; [tauto|]. intros ([|k] & E & _); discriminate.
  - rewrite colcells_cons. cbn [In]. rewrite IH. split.
    + intros [E|(k & E & ->)]; [injection E as <- <-; exists 0%nat; split; [reflexivity|rewrite Nat.add_0_r; reflexivity]|exists (S k); split; [exact E|rewrite Nat.add_succ_r; reflexivity]].
    + intros ([|k] & E & ->); [left; cbn in E; injection E as ->; rewrite Nat.add_0_r; reflexivity|right; exists k; split; [exact E|rewrite Nat.add_succ_r; reflexivity]].
Qed.
Lemma colcells_sorted : forall y rows s, StronglySorted before (map fst (colcells y s rows)).
Proof.
  intros y. induction rows as [|r rows IH]; intro s; [constructor|]. rewrite colcells_cons. cbn [map fst]. constructor; [apply IH|]. apply Forall_forall. intros d Hd. apply in_map_iff in Hd. destruct Hd as ([d' l] & <- & Hd). apply colcells_In in Hd. destruct Hd as (k & _ & ->). left. cbn [fst]. lia.
Qed.
Lemma column_of : forall cols T y c, Rep cols T -> Forall okh cols -> nth_error cols y = Some c -> map snd (filter (fun cv => snd (fst cv) =? 1 + Z.of_nat y) T) = rowsl c.
Proof.
  intros cols T y c [W R] O Ec. assert (Hc : okh c) by (apply (proj1 (Forall_forall _ _) O); apply (nth_error_In _ _ Ec)).
  assert (NR : forall k, nth_error (rowsl c) k = getrow c k).
  { intro k. unfold rowsl, getrow. destruct (nth_error (fst c) k) as [m|] eqn:E.
    - assert (k < length (fst c))%nat by (apply nth_error_Some; congruence). rewrite nth_error_map. rewrite (nth_error_nth' _ 0%nat) by (rewrite seq_length; exact H). rewrite seq_nth by exact H. cbn [option_map]. rewrite Nat.add_0_l. f_equal. f_equal. apply nth_error_nth. exact E.
    - apply nth_error_None in E. apply nth_error_None. rewrite map_length, seq_length. exact E. }
  assert (E : filter (fun cv => snd (fst cv) =? 1 + Z.of_nat y) T = colcells (1 + Z.of_nat y) 0 (rowsl c)).
  { apply wf_ext; [apply sub_wf; exact W| |].
    - split; [apply colcells_sorted|]. intros d l H. apply colcells_In in H. destruct H as (k & E & ->). cbn [fst snd]. split; [lia|]. split; [lia|]. rewrite NR in E. apply (getrow_inc c k l Hc E).
    - intros [x y']. destruct (Z_lt_le_dec 0 x) as [Hx|Hx]; [destruct (Z.eq_dec y' (1 + Z.of_nat y)) as [->|Ny]|].
      + pose proof (R y (Z.to_nat (x - 1))) as RR. rewrite Ec in RR. rewrite Z2Nat.id in RR by lia. replace (1 + (x - 1)) with x in RR by lia.
        assert (A : forall l, tlookup (filter (fun cv => snd (fst cv) =? 1 + Z.of_nat y) T) (x, 1 + Z.of_nat y) = Some l <-> getrow c (Z.to_nat (x - 1)) = Some l).
        { intro l. rewrite <- RR. split; intro H.
          - apply tlookup_In in H. apply filter_In in H. apply In_tlookup; [apply W|apply H].
          - apply In_tlookup; [apply sub_sorted; apply W|]. apply filter_In. split; [apply tlookup_In; exact H|cbn; apply Z.eqb_refl]. }
        assert (B : forall l, tlookup (colcells (1 + Z.of_nat y) 0 (rowsl c)) (x, 1 + Z.of_nat y) = Some l <-> getrow c (Z.to_nat (x - 1)) = Some l).
        { intro l. split; intro H.
          - apply tlookup_In in H. apply colcells_In in H. destruct H as (k & E & Q). pose proof (f_equal fst Q) as Q1. cbn [fst] in Q1. rewrite NR in E. replace (Z.to_nat (x - 1)) with k by lia. exact E.
          - apply In_tlookup; [apply colcells_sorted|]. apply colcells_In. exists (Z.to_nat (x - 1)). rewrite NR. split; [exact H|f_equal; lia]. }
        destruct (tlookup (filter (fun cv => snd (fst cv) =? 1 + Z.of_nat y) T) (x, 1 + Z.of_nat y)) as [l|] eqn:E1.
        * symmetry. apply B. apply A. reflexivity.
        * destruct (tlookup (colcells (1 + Z.of_nat y) 0 (rowsl c)) (x, 1 + Z.of_nat y)) as [l|] eqn:E2; [|reflexivity]. apply A. apply B. reflexivity.
      + transitivity (@None (list Z)); [|symmetry]; apply tlookup_None; intro K; apply in_map_iff in K; destruct K as ([d l] & Ed & K); cbn [fst] in Ed; subst d.
        * apply filter_In in K. destruct K as [_ K]. cbn [fst snd] in K. apply Z.eqb_eq in K. lia.
        * apply colcells_In in K. destruct K as (k & _ & Q). apply (f_equal snd) in Q. cbn [snd] in Q. lia.
      + transitivity (@None (list Z)); [|symmetry]; apply tlookup_None; intro K; apply in_map_iff in K; destruct K as ([d l] & Ed & K); cbn [fst] in Ed; subst d.
        * apply filter_In in K. destruct K as [K _]. apply (proj2 W) in K. cbn [fst snd] in K. lia.
        * apply colcells_In in K. destruct K as (k & _ & Q). apply (f_equal fst) in Q. cbn [fst] in Q. lia. }
  rewrite E. generalize 0%nat. generalize (rowsl c). induction l as [|r l IH]; intro s; [reflexivity|]. rewrite colcells_cons. cbn [map snd]. f_equal. apply IH.
Qed.
Lemma zrange_inc : forall n a, increasing (zrange a (a + Z.of_nat n)).
Proof.
  unfold increasing. induction n as [|n IH]; intro a; [rewrite zrange_nil by lia; constructor|]. rewrite zrange_cons by lia. replace (a + Z.of_nat (S n)) with (a + 1 + Z.of_nat n) by lia. constructor; [apply IH|]. apply Forall_forall. intros x Hx. apply In_zrange in Hx. lia.
Qed.
Lemma zrange_seq : forall n a, zrange (1 + Z.of_nat a) (1 + Z.of_nat a + Z.of_nat n) = map (fun y => 1 + Z.of_nat y) (seq a n).
Proof.
  induction n as [|n IH]; intro a; [rewrite zrange_nil by lia; reflexivity|]. rewrite zrange_cons by lia. cbn [seq map]. f_equal. rewrite <- (IH (S a)). f_equal; lia.
Qed.
Lemma read_ok : forall cols T, Rep cols T -> Forall okh cols -> crystal_reading_word T = map wd cols.
Proof.
  intros cols T HR O. unfold crystal_reading_word, tab_columns. pose proof HR as [W R].
  assert (E : sorted (nodup Z.eq_dec (map (fun cv => snd (fst cv)) T)) = zrange 1 (1 + Z.of_nat (length cols))).
  { apply increasing_perm_eq; [apply sorted_sorted|apply zrange_inc|]. eapply Permutation_trans; [apply L_PartBasic.sorted_perm|]. apply NoDup_Permutation; [apply NoDup_nodup|apply NoDup_zrange|]. intro y. rewrite nodup_In, In_zrange. split.
    - intro H. apply in_map_iff in H. destruct H as ([[x y'] l] & E & H). cbn in E. subst y'. pose proof (proj2 W _ _ H) as (P1 & P2 & _). cbn [fst snd] in *. split; [lia|]. apply In_tlookup in H; [|apply W]. specialize (R (Z.to_nat (y - 1)) (Z.to_nat (x - 1))). rewrite !Z2Nat.id in R by lia. replace (1 + (x - 1)) with x in R by lia. replace (1 + (y - 1)) with y in R by lia. unfold tab, box in *. rewrite H in R. destruct (nth_error cols (Z.to_nat (y - 1))) eqn:En; [|discriminate]. assert (Z.to_nat (y - 1) < length cols)%nat by (apply nth_error_Some; congruence). lia.
    - intro H. destruct (nth_error cols (Z.to_nat (y - 1))) as [c|] eqn:En; [|apply nth_error_None in En; lia]. assert (Hc : okh c) by (apply (proj1 (Forall_forall _ _) O); apply (nth_error_In _ _ En)). destruct Hc as (_ & _ & m & Em & _). specialize (R (Z.to_nat (y - 1)) 0%nat). rewrite En in R. unfold getrow in R. rewrite Em in R. rewrite Z2Nat.id in R by lia. replace (1 + (y - 1)) with y in R by lia. apply tlookup_In in R. apply in_map_iff. eexists. split; [|exact R]. reflexivity. }
  unfold tab, box in *. rewrite E. pose proof (zrange_seq (length cols) 0) as ZS. cbn [Z.of_nat] in ZS. rewrite Z.add_0_r in ZS. rewrite ZS, !map_map.
  assert (G : forall l s, (forall k c, nth_error l k = Some c -> nth_error cols (s + k) = Some c) -> map (fun x => column_word (map snd (filter (fun cv => snd (fst cv) =? 1 + Z.of_nat x) T))) (seq s (length l)) = map wd l).
  { induction l as [|c l IH]; intros s H; [reflexivity|]. cbn [length seq map]. f_equal.
    - specialize (H 0%nat c eq_refl). rewrite Nat.add_0_r in H. rewrite (column_of cols T s c HR O H). apply column_word_rowsl. apply (proj1 (Forall_forall _ _) O). apply (nth_error_In _ _ H).
    - apply IH. intros k d E'. replace (S s + k)%nat with (s + S k)%nat by lia. apply H. exact E'. }
  apply (G cols 0%nat). intros k c H. exact H.
Qed.
