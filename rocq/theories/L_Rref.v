(* Lemmas about M_Rref. *)
From Coq Require Import List ZArith Lia Bool Znumtheory Permutation.
From Verif Require Import PyBase FinSum M_Vectors M_Rref.
Import ListNotations.
Local Open Scope Z_scope.

(* ---------------- gcd ---------------- *)
Lemma euclid_spec : forall fuel a b, (Z.abs_nat b < fuel)%nat ->
  exists g, euclid fuel a b = Ok g /\ (g | a) /\ (g | b) /\ (a <> 0 \/ b <> 0 -> g <> 0).
Proof.
  induction fuel as [|f IH]; intros a b H; [lia|]. cbn [euclid].
  destruct (b =? 0) eqn:E.
  - apply Z.eqb_eq in E. subst b. exists a. split; [reflexivity|]. split; [apply Z.divide_refl|].
    split; [apply Z.divide_0_r|]. lia.
  - apply Z.eqb_neq in E.
    assert (Hm : (Z.abs_nat (a mod b) < Z.abs_nat b)%nat).
    { destruct (Z.lt_ge_cases 0 b).
      - pose proof (Z.mod_pos_bound a b). lia.
      - pose proof (Z.mod_neg_bound a b). lia. }
    destruct (IH b (a mod b)) as (g & H1 & H2 & H3 & H4); [lia|].
    exists g. split; [assumption|]. split; [|split; [assumption|intros _; apply H4; left; assumption]].
    rewrite (Z.div_mod a b E). apply Z.divide_add_r; [apply Z.divide_mul_l|]; assumption.
Qed.
Lemma gcd2_spec : forall a b, exists g, gcd2 a b = Ok g /\ (g | a) /\ (g | b) /\ (a <> 0 \/ b <> 0 -> g <> 0).
Proof. intros a b. apply euclid_spec. lia. Qed.
Lemma gcdn_spec : forall args, args <> [] ->
  exists g, gcdn args = Ok g /\ (forall a, In a args -> (g | a)) /\ ((exists a, In a args /\ a <> 0) -> g <> 0).
Proof.
  induction args as [|a r IH]; intro H; [congruence|]. destruct r as [|b r].
  - exists a. split; [reflexivity|]. split; [intros x [->|[]]; apply Z.divide_refl|].
    intros (x & [->|[]] & Hx). assumption.
  - destruct IH as (g & H1 & H2 & H3); [discriminate|].
    destruct (gcd2_spec a g) as (d & D1 & D2 & D3 & D4).
    exists d. split.
    + change (gcdn (a :: b :: r)) with (do g <- gcdn (b :: r); gcd2 a g). rewrite H1. exact D1.
    + split.
      * intros x [->|Hx]; [assumption|]. apply Z.divide_trans with g; auto.
      * intros (x & [->|Hx] & Hx0); apply D4; [left; assumption|right; apply H3; eauto].
Qed.

(* ---------------- rows ---------------- *)
Lemma updn_length : forall A (l : list A) i v, length (updn l i v) = length l.
Proof. induction l as [|a l IH]; intros [|i] v; simpl; auto. Qed.
Lemma updn_nth : forall A (l : list A) i v t d, (i < length l)%nat ->
  nth t (updn l i v) d = if Nat.eqb t i then v else nth t l d.
Proof.
  induction l as [|a l IH]; intros [|i] v [|t] d H; simpl in *; try lia; try reflexivity.
  rewrite IH by lia. reflexivity.
Qed.
Lemma updn_Forall : forall A (P : A -> Prop) l i v, Forall P l -> P v -> Forall P (updn l i v).
Proof.
  induction l as [|a l IH]; intros [|i] v H Hv; simpl; [constructor|constructor| |].
  - constructor; [assumption|exact (Forall_inv_tail H)].
  - constructor; [exact (Forall_inv H)|]. apply IH; [exact (Forall_inv_tail H)|assumption].
Qed.

Definition rect (m n : nat) (mat : list (list Z)) : Prop := length mat = m /\ Forall (fun r => length r = n) mat.

Lemma rect_row : forall m n mat t, rect m n mat -> (t < m)%nat -> length (mrow mat t) = n.
Proof.
  intros m n mat t [H1 H2] Ht. rewrite Forall_forall in H2. apply H2. apply nth_In. lia.
Qed.
Lemma rect_upd : forall m n mat i r, rect m n mat -> length r = n -> rect m n (updn mat i r).
Proof. intros m n mat i r [H1 H2] Hr. split; [now rewrite updn_length|]. apply updn_Forall; assumption. Qed.
Lemma mrow_upd : forall m n mat i r t, rect m n mat -> (i < m)%nat ->
  mrow (updn mat i r) t = if Nat.eqb t i then r else mrow mat t.
Proof. intros m n mat i r t [H1 _] Hi. apply updn_nth. lia. Qed.

(* homogeneous solutions *)
Definition dotn (n : nat) (r : list Z) (x : nat -> Z) : Z :=
  zsum (map (fun j => nth j r 0 * x j) (seq 0 n)).
Definition sol (m n : nat) (mat : list (list Z)) (x : nat -> Z) : Prop :=
  forall t, (t < m)%nat -> dotn n (mrow mat t) x = 0.

Lemma zsum_lin : forall A (f g h : A -> Z) p q s l,
  (forall x, In x l -> p * f x = q * g x + s * h x) ->
  p * zsum (map f l) = q * zsum (map g l) + s * zsum (map h l).
Proof.
  induction l as [|a l IH]; intro H; simpl; [lia|].
  assert (H1 := H a (or_introl eq_refl)). assert (H2 := IH (fun x Hx => H x (or_intror Hx))). lia.
Qed.
Lemma dotn_lin : forall n r r1 r2 p q s x,
  (forall j, (j < n)%nat -> p * nth j r 0 = q * nth j r1 0 + s * nth j r2 0) ->
  p * dotn n r x = q * dotn n r1 x + s * dotn n r2 x.
Proof.
  intros n r r1 r2 p q s x H. unfold dotn. apply zsum_lin. intros j Hj. apply in_seq in Hj.
  specialize (H j ltac:(lia)). rewrite !Z.mul_assoc, H. ring.
Qed.

Lemma sol_row_change : forall m n mat mat' i k p q s x,
  (i < m)%nat -> (k < m)%nat -> k <> i -> p <> 0 -> q <> 0 ->
  (forall t, t <> i -> mrow mat' t = mrow mat t) ->
  (forall j, (j < n)%nat -> p * ment mat' i j = q * ment mat i j + s * ment mat k j) ->
  (sol m n mat' x <-> sol m n mat x).
Proof.
  intros m n mat mat' i k p q s x Hi Hk Hki Hp Hq Hoth Hrow.
  assert (E := dotn_lin n (mrow mat' i) (mrow mat i) (mrow mat k) p q s x Hrow).
  split; intros H t Ht; destruct (Nat.eq_dec t i) as [->|Hti].
  - assert (Hk0 := H k Hk). rewrite Hoth in Hk0 by assumption. rewrite (H i Hi), Hk0 in E.
    assert (q * dotn n (mrow mat i) x = 0) by lia. apply Z.mul_eq_0 in H0. tauto.
  - rewrite <- Hoth by assumption. auto.
  - rewrite (H i Hi), (H k Hk) in E.
    assert (p * dotn n (mrow mat' i) x = 0) by lia. apply Z.mul_eq_0 in H0. tauto.
  - rewrite Hoth by assumption. auto.
Qed.
Lemma sol_row_scale : forall m n mat mat' i p q x,
  (i < m)%nat -> p <> 0 -> q <> 0 ->
  (forall t, t <> i -> mrow mat' t = mrow mat t) ->
  (forall j, (j < n)%nat -> p * ment mat' i j = q * ment mat i j) ->
  (sol m n mat' x <-> sol m n mat x).
Proof.
  intros m n mat mat' i p q x Hi Hp Hq Hoth Hrow.
  assert (E := dotn_lin n (mrow mat' i) (mrow mat i) [] p q 0 x).
  specialize (E ltac:(intros j Hj; specialize (Hrow j Hj); unfold ment in Hrow; lia)).
  split; intros H t Ht; destruct (Nat.eq_dec t i) as [->|Hti].
  - rewrite (H i Hi) in E. assert (q * dotn n (mrow mat i) x = 0) by lia. apply Z.mul_eq_0 in H0. tauto.
  - rewrite <- Hoth by assumption. auto.
  - rewrite (H i Hi) in E. assert (p * dotn n (mrow mat' i) x = 0) by lia. apply Z.mul_eq_0 in H0. tauto.
  - rewrite Hoth by assumption. auto.
Qed.

Lemma nth_map0 : forall (f : Z -> Z) l j, f 0 = 0 -> nth j (map f l) 0 = f (nth j l 0).
Proof. intros f l j H. rewrite <- H at 1. apply map_nth. Qed.

(* iscale_by *)
Lemma iscale_by_spec : forall m n mat i v, rect m n mat -> (i < m)%nat -> v <> 0 ->
  (forall e, In e (mrow mat i) -> (v | e)) ->
  exists mat', iscale_by mat i v = Ok mat' /\ rect m n mat' /\
    (forall t, t <> i -> mrow mat' t = mrow mat t) /\
    (forall j, v * ment mat' i j = ment mat i j) /\
    (forall x, sol m n mat' x <-> sol m n mat x).
Proof.
  intros m n mat i v Hr Hi Hv Hd. unfold iscale_by.
  replace (v =? 0) with false by (symmetry; apply Z.eqb_neq; assumption).
  replace (forallb (fun e => e mod v =? 0) (mrow mat i)) with true.
  2:{ symmetry. apply forallb_forall. intros e He. apply Z.eqb_eq. apply Z.mod_divide; auto. }
  eexists. split; [reflexivity|].
  assert (Hrow : length (map (fun e => e / v) (mrow mat i)) = n) by (rewrite map_length; apply (rect_row m n); assumption).
  assert (HR : rect m n (updn mat i (map (fun e => e / v) (mrow mat i)))) by (apply rect_upd; assumption).
  assert (HO : forall t, t <> i -> mrow (updn mat i (map (fun e => e / v) (mrow mat i))) t = mrow mat t).
  { intros t Ht. rewrite (mrow_upd m n) by assumption. apply Nat.eqb_neq in Ht. now rewrite Ht. }
  assert (HE : forall j, v * ment (updn mat i (map (fun e => e / v) (mrow mat i))) i j = ment mat i j).
  { intro j. unfold ment. rewrite (mrow_upd m n) by assumption. rewrite Nat.eqb_refl.
    rewrite nth_map0 by apply Z.div_0_l, Hv.
    destruct (Nat.lt_ge_cases j (length (mrow mat i))) as [L|L].
    - rewrite <- Z_div_exact_full_2; [reflexivity|assumption|]. apply Z.mod_divide; [assumption|]. apply Hd. apply nth_In. assumption.
    - rewrite nth_overflow by assumption. rewrite Z.div_0_l by assumption. lia. }
  split; [assumption|]. split; [assumption|]. split; [assumption|].
  intro x. apply (sol_row_scale m n mat _ i v 1); auto; [lia|]. intros j _. rewrite HE. lia.
Qed.

Lemma ment_other : forall mat mat' t j, mrow mat' t = mrow mat t -> ment mat' t j = ment mat t j.
Proof. intros. unfold ment. congruence. Qed.

(* eliminate *)
Lemma eliminate_spec : forall m n mat i col j, rect m n mat -> (i < m)%nat -> (j < m)%nat -> j <> i ->
  ment mat i col <> 0 -> (col < n)%nat ->
  (forall c, (c < col)%nat -> ment mat i c = 0 /\ ment mat j c = 0) ->
  exists mat', eliminate i col (Ok mat) j = Ok mat' /\ rect m n mat' /\
    (forall t, t <> j -> mrow mat' t = mrow mat t) /\
    (forall c, (c <= col)%nat -> ment mat' j c = 0) /\
    (forall x, sol m n mat' x <-> sol m n mat x).
Proof.
  intros m n mat i col j Hr Hi Hj Hji Ha Hcol Hz. unfold eliminate. cbn [rbind].
  set (a := ment mat i col) in *. set (b := ment mat j col).
  destruct (gcd2_spec a b) as (d & -> & [a' Ea] & [b' Eb] & D4). cbn [rbind].
  assert (Hd : d <> 0) by (apply D4; left; assumption).
  replace (d =? 0) with false by (symmetry; apply Z.eqb_neq; assumption).
  replace (a / d) with a' by (rewrite Ea; symmetry; apply Z.div_mul; assumption).
  replace ((- b) / d) with (- b').
  2:{ rewrite Eb. replace (- (b' * d)) with ((- b') * d) by ring. symmetry. apply Z.div_mul. assumption. }
  assert (Ha' : a' <> 0) by (intro; subst a'; lia).
  eexists. split; [reflexivity|].
  set (mat1 := scale_row mat j a').
  assert (L1 : length (mrow mat j) = n) by (apply (rect_row m n); assumption).
  assert (R1 : rect m n mat1) by (apply rect_upd; [assumption|rewrite map_length; assumption]).
  assert (M1j : mrow mat1 j = map (fun e => e * a') (mrow mat j)).
  { unfold mat1, scale_row. rewrite (mrow_upd m n) by assumption. now rewrite Nat.eqb_refl. }
  assert (M1o : forall t, t <> j -> mrow mat1 t = mrow mat t).
  { intros t Ht. unfold mat1, scale_row. rewrite (mrow_upd m n) by assumption. apply Nat.eqb_neq in Ht. now rewrite Ht. }
  assert (L1' : length (mrow mat1 j) = n) by (rewrite M1j, map_length; assumption).
  set (mat2 := replace_row mat1 i j (- b')).
  assert (R2 : rect m n mat2) by (apply rect_upd; [assumption|rewrite map_length, seq_length; assumption]).
  assert (M2o : forall t, t <> j -> mrow mat2 t = mrow mat t).
  { intros t Ht. rewrite <- M1o by assumption. unfold mat2, replace_row. rewrite (mrow_upd m n) by assumption.
    apply Nat.eqb_neq in Ht. now rewrite Ht. }
  assert (M2j : forall c, (c < n)%nat -> ment mat2 j c = a' * ment mat j c + (- b') * ment mat i c).
  { intros c Hc. unfold ment at 1. unfold mat2, replace_row. rewrite (mrow_upd m n) by assumption.
    rewrite Nat.eqb_refl. rewrite L1'.
    rewrite (nth_indep _ 0 (ment mat1 j (length (seq 0 n)) + - b' * ment mat1 i (length (seq 0 n)))) by (rewrite map_length, seq_length; assumption).
    rewrite (map_nth (fun t => ment mat1 j t + - b' * ment mat1 i t)).
    rewrite seq_nth by (rewrite ?seq_length; lia). simpl.
    unfold ment. rewrite M1j, (M1o i) by auto. rewrite nth_map0 by reflexivity. ring. }
  split; [assumption|]. split; [assumption|]. split.
  - intros c Hc. rewrite M2j by lia. destruct (Nat.eq_dec c col) as [->|Hne].
    + fold a b. rewrite Ea, Eb. ring.
    + destruct (Hz c ltac:(lia)) as [-> ->]. ring.
  - intro x. apply (sol_row_change m n mat mat2 j i 1 a' (- b')); auto; [lia|].
    intros c Hc. rewrite M2j by assumption. ring.
Qed.

Lemma eliminate_loop : forall m n i col rest mat, rect m n mat -> (i < m)%nat -> (col < n)%nat ->
  ment mat i col <> 0 -> (forall c, (c < col)%nat -> ment mat i c = 0) ->
  NoDup rest -> (forall j, In j rest -> (j < m)%nat /\ j <> i /\ forall c, (c < col)%nat -> ment mat j c = 0) ->
  exists mat', fold_left (eliminate i col) rest (Ok mat) = Ok mat' /\ rect m n mat' /\
    (forall t, ~ In t rest -> mrow mat' t = mrow mat t) /\
    (forall t c, In t rest -> (c <= col)%nat -> ment mat' t c = 0) /\
    (forall x, sol m n mat' x <-> sol m n mat x).
Proof.
  intros m n i col. induction rest as [|j rest IH]; intros mat Hr Hi Hcol Ha Hz Hnd Hrest.
  - exists mat. simpl. split; [reflexivity|]. split; [assumption|]. split; [reflexivity|]. split; [intros t c []|]. reflexivity.
  - inversion Hnd as [|y l Hj Hnd']; subst.
    destruct (Hrest j (or_introl eq_refl)) as (J1 & J2 & J3).
    destruct (eliminate_spec m n mat i col j) as (mat1 & E1 & R1 & O1 & Z1 & S1); auto.
    cbn [fold_left]. rewrite E1.
    assert (Oi : mrow mat1 i = mrow mat i) by auto.
    destruct (IH mat1) as (mat2 & E2 & R2 & O2 & Z2 & S2); auto.
    + rewrite (ment_other mat) by assumption. assumption.
    + intros c Hc. rewrite (ment_other mat) by assumption. auto.
    + intros t Ht. destruct (Hrest t (or_intror Ht)) as (T1 & T2 & T3). split; [assumption|]. split; [assumption|].
      intros c Hc. rewrite (ment_other mat); [auto|]. apply O1. intro; subst; contradiction.
    + exists mat2. split; [assumption|]. split; [assumption|]. split; [|split].
      * intros t Ht. rewrite O2 by (intro; apply Ht; right; assumption). apply O1. intro; subst. apply Ht. left. reflexivity.
      * intros t c [->|Ht] Hc; [|auto]. rewrite (ment_other mat1) by (apply O2; assumption). auto.
      * intro x. rewrite S2. apply S1.
Qed.

(* ---------------- echelon ---------------- *)
Definition pivots_ok (mat : list (list Z)) (ps : list nat) (col : nat) : Prop :=
  (forall s t, (s < t < length ps)%nat -> (nth s ps O < nth t ps O)%nat) /\
  (forall t, (t < length ps)%nat -> (nth t ps O < col)%nat /\ ment mat t (nth t ps O) <> 0 /\
     forall c, (c < nth t ps O)%nat -> ment mat t c = 0).
Definition ech_inv (m : nat) (mat : list (list Z)) (ps : list nat) (col : nat) : Prop :=
  (length ps <= m)%nat /\ pivots_ok mat ps col /\
  forall t c, (length ps <= t < m)%nat -> (c < col)%nat -> ment mat t c = 0.

Lemma find_nonzeros_spec : forall m mat row col t,
  In t (find_nonzeros m mat row col) <-> (row <= t < m)%nat /\ ment mat t col <> 0.
Proof.
  intros. unfold find_nonzeros. rewrite filter_In, in_seq, negb_true_iff, Z.eqb_neq.
  split; intros [H1 H2]; split; auto; lia.
Qed.
Lemma seq_split_first : forall (p : nat -> bool) a n i l, filter p (seq a n) = i :: l ->
  forall t, (a <= t < i)%nat -> p t = false.
Proof.
  intros p a n. revert a. induction n as [|n IH]; intros a i l H t Ht; simpl in H; [discriminate|].
  destruct (p a) eqn:E; [injection H as <- _; lia|].
  destruct (Nat.eq_dec t a) as [->|Hne]; [assumption|]. apply (IH (S a) i l); [assumption|lia].
Qed.

Lemma rref_step_spec : forall m n mat ps col, rect m n mat -> (col < n)%nat -> ech_inv m mat ps col ->
  exists mat' ps', rref_step m (Ok (mat, length ps)) col = Ok (mat', length ps') /\ rect m n mat' /\
    ech_inv m mat' ps' (S col) /\ (forall x, sol m n mat' x <-> sol m n mat x).
Proof.
  intros m n mat ps col Hr Hcol (I1 & [I2 I3] & I4). unfold rref_step. cbn [rbind fst snd].
  set (row := length ps) in *.
  destruct (find_nonzeros m mat row col) as [|i rest] eqn:Ef.
  - exists mat, ps. split; [reflexivity|]. split; [assumption|]. split; [|reflexivity].
    split; [assumption|]. split.
    + split; [assumption|]. intros t Ht. destruct (I3 t Ht) as (A & B & C). split; [lia|auto].
    + intros t c Ht Hc. destruct (Nat.eq_dec c col) as [->|Hne]; [|apply I4; [assumption|lia]].
      destruct (Z.eq_dec (ment mat t col) 0) as [|Hn]; [assumption|]. exfalso.
      assert (In t []) by (rewrite <- Ef; apply find_nonzeros_spec; auto). contradiction.
  - assert (Hnd : NoDup (i :: rest)) by (rewrite <- Ef; apply NoDup_filter, seq_NoDup).
    inversion Hnd as [|y l Hni Hnr]; subst y l.
    assert (Hi : (row <= i < m)%nat /\ ment mat i col <> 0) by (apply find_nonzeros_spec; rewrite Ef; left; reflexivity).
    destruct Hi as [Hi Ha].
    assert (Hfirst := fun t => seq_split_first _ _ _ _ _ Ef t). cbv beta in Hfirst.
    assert (Hlen : length (mrow mat i) = n) by (apply (rect_row m n); [assumption|lia]).
    (* iscale *)
    destruct (gcdn_spec (mrow mat i)) as (g & G1 & G2 & G3); [intro E; rewrite E in Hlen; simpl in Hlen; lia|].
    assert (Hg : g <> 0). { apply G3. exists (ment mat i col). split; [apply nth_In; lia|assumption]. }
    destruct (iscale_by_spec m n mat i g) as (mat1 & E1 & R1 & O1 & V1 & S1); auto; [lia|].
    unfold iscale. rewrite G1. cbn [rbind]. rewrite E1. cbn [rbind].
    assert (A1 : ment mat1 i col <> 0) by (intro E; specialize (V1 col); rewrite E in V1; lia).
    assert (Z1 : forall c, (c < col)%nat -> ment mat1 i c = 0).
    { intros c Hc. specialize (V1 c). rewrite (I4 i c) in V1 by lia. apply Z.mul_eq_0 in V1. tauto. }
    (* sign *)
    assert (Hs : exists mat2, (if ment mat1 i col <? 0 then iscale_by mat1 i (-1) else Ok mat1) = Ok mat2 /\
      rect m n mat2 /\ (forall t, t <> i -> mrow mat2 t = mrow mat t) /\ ment mat2 i col <> 0 /\
      (forall c, (c < col)%nat -> ment mat2 i c = 0) /\ (forall x, sol m n mat2 x <-> sol m n mat x)).
    { destruct (ment mat1 i col <? 0).
      - destruct (iscale_by_spec m n mat1 i (-1)) as (mat2 & E2 & R2 & O2 & V2 & S2); auto; [lia|lia| |].
        { intros e _. apply Z.divide_opp_l, Z.divide_1_l. }
        exists mat2. split; [assumption|]. split; [assumption|]. split; [|split; [|split]].
        + intros t Ht. rewrite O2, O1 by assumption. reflexivity.
        + intro E. specialize (V2 col). rewrite E in V2. lia.
        + intros c Hc. specialize (V2 c). rewrite Z1 in V2 by assumption. lia.
        + intro x. rewrite S2. apply S1.
      - exists mat1. split; [reflexivity|]. auto 6. }
    destruct Hs as (mat2 & E2 & R2 & O2 & A2 & Z2 & S2). rewrite E2. cbn [rbind].
    (* elimination *)
    destruct (eliminate_loop m n i col rest mat2) as (mat3 & E3 & R3 & O3 & Z3 & S3); auto; [lia| |].
    { intros j Hj. assert (Hj' : In j (i :: rest)) by (right; assumption). rewrite <- Ef in Hj'.
      apply find_nonzeros_spec in Hj'. split; [lia|]. split; [intro; subst; contradiction|].
      intros c Hc. rewrite (ment_other mat); [apply I4; lia|]. apply O2. intro; subst; contradiction. }
    rewrite E3. cbn [rbind].
    assert (Hrow3 : forall t, (t < row)%nat -> mrow mat3 t = mrow mat t).
    { intros t Ht. rewrite O3; [apply O2; lia|]. intro Hin.
      assert (Hj' : In t (i :: rest)) by (right; assumption). rewrite <- Ef in Hj'. apply find_nonzeros_spec in Hj'. lia. }
    assert (Hi3 : mrow mat3 i = mrow mat2 i) by (apply O3; assumption).
    assert (Hlow3 : forall t c, (row <= t < m)%nat -> t <> i -> (c <= col)%nat -> ment mat3 t c = 0).
    { intros t c Ht Hti Hc. destruct (in_dec Nat.eq_dec t rest) as [Hin|Hin]; [auto|].
      rewrite (ment_other mat) by (rewrite O3 by assumption; apply O2; assumption).
      destruct (Nat.eq_dec c col) as [->|Hne]; [|apply I4; lia].
      destruct (Z.eq_dec (ment mat t col) 0) as [|Hn]; [assumption|]. exfalso.
      assert (Hj : In t (i :: rest)) by (rewrite <- Ef; apply find_nonzeros_spec; auto).
      destruct Hj as [<-|Hj]; [apply Hti; reflexivity|contradiction]. }
    (* swap *)
    set (mat4 := if Nat.eqb i row then mat3 else swap_rows mat3 row i).
    assert (H4 : rect m n mat4 /\ (forall t, (t < row)%nat -> mrow mat4 t = mrow mat t) /\
       mrow mat4 row = mrow mat2 i /\ (forall t c, (row < t < m)%nat -> (c <= col)%nat -> ment mat4 t c = 0) /\
       (forall x, sol m n mat4 x <-> sol m n mat3 x)).
    { unfold mat4. destruct (Nat.eqb i row) eqn:Eir.
      - apply Nat.eqb_eq in Eir. split; [assumption|]. split; [assumption|]. split; [rewrite <- Eir; assumption|].
        split; [|reflexivity]. intros t c Ht Hc. apply Hlow3; [lia|lia|assumption].
      - apply Nat.eqb_neq in Eir.
        assert (Rr : length (mrow mat3 row) = n) by (apply (rect_row m n); [assumption|lia]).
        assert (Ri : length (mrow mat3 i) = n) by (apply (rect_row m n); [assumption|lia]).
        assert (R' : rect m n (updn mat3 row (mrow mat3 i))) by (apply rect_upd; assumption).
        assert (Q : forall t, mrow (swap_rows mat3 row i) t =
          if Nat.eqb t i then mrow mat3 row else if Nat.eqb t row then mrow mat3 i else mrow mat3 t).
        { intro t. unfold swap_rows. rewrite (mrow_upd m n) by (assumption || lia).
          rewrite (mrow_upd m n) by (assumption || lia). reflexivity. }
        split; [apply rect_upd; assumption|]. split; [|split; [|split]].
        + intros t Ht. rewrite Q. replace (Nat.eqb t i) with false by (symmetry; apply Nat.eqb_neq; lia).
          replace (Nat.eqb t row) with false by (symmetry; apply Nat.eqb_neq; lia). auto.
        + rewrite Q. replace (Nat.eqb row i) with false by (symmetry; apply Nat.eqb_neq; lia).
          rewrite Nat.eqb_refl. assumption.
        + intros t c Ht Hc. unfold ment. rewrite Q. destruct (Nat.eqb t i) eqn:Eti.
          * apply Hlow3; [lia|lia|assumption].
          * apply Nat.eqb_neq in Eti. replace (Nat.eqb t row) with false by (symmetry; apply Nat.eqb_neq; lia).
            apply Hlow3; [lia|assumption|assumption].
        + intro x. split; intros H t Ht.
          * destruct (Nat.eq_dec t i) as [->|Hti].
            { specialize (H row ltac:(lia)). rewrite Q in H.
              replace (Nat.eqb row i) with false in H by (symmetry; apply Nat.eqb_neq; lia).
              rewrite Nat.eqb_refl in H. assumption. }
            destruct (Nat.eq_dec t row) as [->|Htr].
            { specialize (H i ltac:(lia)). rewrite Q, Nat.eqb_refl in H. assumption. }
            specialize (H t Ht). rewrite Q in H.
            replace (Nat.eqb t i) with false in H by (symmetry; apply Nat.eqb_neq; assumption).
            replace (Nat.eqb t row) with false in H by (symmetry; apply Nat.eqb_neq; assumption). assumption.
          * rewrite Q. destruct (Nat.eqb t i); [apply H; lia|]. destruct (Nat.eqb t row); apply H; lia. }
    destruct H4 as (R4 & U4 & W4 & L4 & S4).
    exists mat4, (ps ++ [col]). assert (Hl : length (ps ++ [col]) = S row) by (rewrite app_length; simpl; fold row; lia).
    split; [rewrite Hl; reflexivity|]. split; [assumption|]. split.
    + split; [lia|]. split.
      * split.
        -- intros s t Hst. rewrite Hl in Hst. destruct (Nat.eq_dec t row) as [->|Htr].
           ++ rewrite app_nth1 by (fold row; lia). rewrite app_nth2 by (fold row; lia). fold row. rewrite Nat.sub_diag. simpl.
              apply I3. fold row. lia.
           ++ rewrite !app_nth1 by (fold row; lia). apply I2. fold row. lia.
        -- intros t Ht. rewrite Hl in Ht. destruct (Nat.eq_dec t row) as [->|Htr].
           ++ rewrite app_nth2 by (fold row; lia). fold row. rewrite Nat.sub_diag. cbn [nth].
              split; [lia|]. unfold ment. rewrite W4. split; [exact A2|exact Z2].
           ++ rewrite app_nth1 by (fold row; lia).
              destruct (I3 t ltac:(lia)) as (B1 & B2 & B3). split; [lia|].
              unfold ment in *. rewrite U4 by lia. auto.
      * intros t c Ht Hc. rewrite Hl in Ht. apply L4; lia.
    + intro x. rewrite S4, S3. apply S2.
Qed.

Lemma rref_loop : forall m n k mat ps col, rect m n mat -> (col + k <= n)%nat -> ech_inv m mat ps col ->
  exists mat' ps', fold_left (rref_step m) (seq col k) (Ok (mat, length ps)) = Ok (mat', length ps') /\
    rect m n mat' /\ ech_inv m mat' ps' (col + k) /\ (forall x, sol m n mat' x <-> sol m n mat x).
Proof.
  intros m n. induction k as [|k IH]; intros mat ps col Hr Hk Hinv.
  - exists mat, ps. rewrite Nat.add_0_r. split; [reflexivity|]. split; [assumption|]. split; [assumption|reflexivity].
  - cbn [seq fold_left].
    destruct (rref_step_spec m n mat ps col) as (mat1 & ps1 & E1 & R1 & V1 & S1); auto; [lia|].
    rewrite E1. destruct (IH mat1 ps1 (S col)) as (mat2 & ps2 & E2 & R2 & V2 & S2); auto; [lia|].
    exists mat2, ps2. split; [assumption|]. split; [assumption|]. split; [replace (col + S k)%nat with (S col + k)%nat by lia; assumption|].
    intro x. rewrite S2. apply S1.
Qed.

Lemma rref_spec : forall m n mat, rect m n mat -> (0 < m)%nat ->
  exists mat' ps, rref mat = Ok mat' /\ rect m n mat' /\ ech_inv m mat' ps n /\
    (forall x, sol m n mat' x <-> sol m n mat x).
Proof.
  intros m n mat [H1 H2] Hm. unfold rref. destruct mat as [|r mat]; [simpl in H1; lia|].
  rewrite H1. rewrite (Forall_inv H2).
  destruct (rref_loop m n n (r :: mat) [] 0) as (mat' & ps & E & R & V & S).
  - split; assumption.
  - lia.
  - split; [simpl; lia|]. split; [split; simpl; intros; lia|]. intros. lia.
  - cbn [length] in E. rewrite E. cbn [rbind fst]. exists mat', ps. auto.
Qed.

(* ---------------- back substitution ---------------- *)
Lemma dotn_ext : forall n r x y, (forall j, (j < n)%nat -> nth j r 0 * x j = nth j r 0 * y j) -> dotn n r x = dotn n r y.
Proof.
  intros n r x y H. unfold dotn. f_equal. apply map_ext_in. intros j Hj. apply in_seq in Hj. apply H. lia.
Qed.
Lemma dotn_scale : forall n r x p, dotn n r (fun j => p * x j) = p * dotn n r x.
Proof.
  intros n r x p. unfold dotn. induction (seq 0 n) as [|j l IH]; simpl; [lia|]. rewrite IH. ring.
Qed.
Lemma dotn_point : forall n r x c v, (c < n)%nat ->
  dotn n r (fun j => if Nat.eqb j c then v else x j) = dotn n r (fun j => if Nat.eqb j c then 0 else x j) + nth c r 0 * v.
Proof.
  intros n r x c v Hc. unfold dotn.
  assert (H : forall l, NoDup l -> zsum (map (fun j => nth j r 0 * (if Nat.eqb j c then v else x j)) l)
     = zsum (map (fun j => nth j r 0 * (if Nat.eqb j c then 0 else x j)) l) + (if in_dec Nat.eq_dec c l then nth c r 0 * v else 0)).
  { induction l as [|j l IH]; intro Hn; simpl; [lia|]. inversion Hn as [|y l' Hj Hl]; subst. rewrite (IH Hl).
    destruct (Nat.eq_dec j c) as [->|Hne].
    - rewrite Nat.eqb_refl. destruct (in_dec Nat.eq_dec c l); [contradiction|]. lia.
    - replace (Nat.eqb j c) with false by (symmetry; apply Nat.eqb_neq; assumption).
      destruct (in_dec Nat.eq_dec c l); lia. }
  rewrite H by apply seq_NoDup. destruct (in_dec Nat.eq_dec c (seq 0 n)) as [|Hn]; [reflexivity|].
  exfalso. apply Hn. apply in_seq. lia.
Qed.

(* rows k .. length ps - 1 can be solved with a nonzero last coordinate *)
Lemma back_subst : forall n mat ps last, (last < n)%nat -> pivots_ok mat ps n -> ~ In last ps ->
  forall d k, (k + d = length ps)%nat ->
  exists x, x last <> 0 /\ forall t, (k <= t < length ps)%nat -> dotn n (mrow mat t) x = 0.
Proof.
  intros n mat ps last Hlast [P1 P2] Hnot. induction d as [|d IH]; intros k Hk.
  - exists (fun _ => 1). split; [lia|]. intros t Ht. lia.
  - destruct (IH (S k)) as (x & X1 & X2); [lia|].
    destruct (P2 k ltac:(lia)) as (C1 & C2 & C3). set (c := nth k ps O) in *. set (p := ment mat k c) in *.
    assert (Hc : c <> last). { intro E. apply Hnot. rewrite <- E. apply nth_In. lia. }
    set (y := fun j => if Nat.eqb j c then 0 else x j).
    exists (fun j => if Nat.eqb j c then - dotn n (mrow mat k) y else p * y j). split.
    + replace (Nat.eqb last c) with false by (symmetry; apply Nat.eqb_neq; lia).
      unfold y. replace (Nat.eqb last c) with false by (symmetry; apply Nat.eqb_neq; lia).
      intro E. apply Z.mul_eq_0 in E. tauto.
    + intros t Ht. rewrite dotn_point by assumption.
      assert (E : dotn n (mrow mat t) (fun j => if Nat.eqb j c then 0 else p * y j) = p * dotn n (mrow mat t) y).
      { rewrite <- dotn_scale. apply dotn_ext. intros j _. unfold y. destruct (Nat.eqb j c); ring. }
      rewrite E. destruct (Nat.eq_dec t k) as [->|Hne].
      * fold (ment mat k c). fold p. ring.
      * assert (Z0 : nth c (mrow mat t) 0 = 0).
        { destruct (P2 t ltac:(lia)) as (_ & _ & D3). apply D3. apply P1. lia. }
        rewrite Z0. replace (dotn n (mrow mat t) y) with (dotn n (mrow mat t) x); [rewrite X2 by lia; ring|].
        apply dotn_ext. intros j _. unfold y. destruct (Nat.eqb j c) eqn:Ej; [|reflexivity].
        apply Nat.eqb_eq in Ej. subst j. rewrite Z0. ring.
Qed.

Lemma row_pivot_spec : forall mat n i j, row_pivot mat n i = Some j <->
  (j < n)%nat /\ ment mat i j <> 0 /\ forall c, (c < j)%nat -> ment mat i c = 0.
Proof.
  intros mat n i j. unfold row_pivot.
  assert (H : forall k a, find (fun j => negb (ment mat i j =? 0)) (seq a k) = Some j <->
    (a <= j < a + k)%nat /\ ment mat i j <> 0 /\ forall c, (a <= c < j)%nat -> ment mat i c = 0).
  { induction k as [|k IH]; intro a; cbn [seq find]; [split; [discriminate|intros (H & _); lia]|].
    destruct (ment mat i a =? 0) eqn:E; cbn [negb].
    - apply Z.eqb_eq in E. rewrite IH. split; intros (A & B & C).
      + split; [lia|]. split; [assumption|].
        intros c Hc. destruct (Nat.eq_dec c a) as [->|]; [assumption|]. apply C. lia.
      + assert (j <> a) by (intro; subst; contradiction).
        split; [lia|]. split; [assumption|]. intros c Hc; apply C; lia.
    - apply Z.eqb_neq in E. split.
      + intro H. injection H as <-. split; [lia|]. split; [assumption|]. intros c Hc. lia.
      + intros (A & B & C). destruct (Nat.eq_dec a j) as [->|Hne]; [reflexivity|].
        exfalso. apply E. apply C. lia. }
  rewrite H. split; intros (A & B & C); (split; [lia|]; split; [assumption|]); intros c Hc; apply C; lia.
Qed.
