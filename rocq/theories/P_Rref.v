(* C10, C11 *)
From Coq Require Import List ZArith Lia Bool QArith Permutation Znumtheory.
From Verif Require Import PyBase FinSum M_Vectors L_Vectors M_Rref S_Rref L_Rref.
Import ListNotations.
Local Open Scope Z_scope.

(* clearing denominators *)
Fixpoint zdot (z l : list Z) : Z :=
  match z, l with a :: z', b :: l' => a * b + zdot z' l' | _, _ => 0 end.

Lemma qdot_cons : forall a c b l, qdot (a :: c) (b :: l) = (a * b + qdot c l)%Q.
Proof. reflexivity. Qed.

Lemma clear_den : forall c : list Q, exists D z, D <> 0 /\ length z = length c /\
  forall l, (inject_Z D * qdot c (map inject_Z l) == inject_Z (zdot z l))%Q.
Proof.
  induction c as [|q c (D & z & H1 & H2 & H3)].
  - exists 1, []. split; [discriminate|]. split; [reflexivity|]. intros l. destruct l; reflexivity.
  - exists (D * Z.pos (Qden q)), (D * Qnum q :: map (Z.mul (Z.pos (Qden q))) z).
    split; [intro E; apply Z.mul_eq_0 in E; destruct E; [contradiction|discriminate]|].
    split; [simpl; rewrite map_length; congruence|].
    intros [|b l].
    + simpl. unfold qdot. rewrite combine_nil. simpl. ring.
    + cbn [map zdot]. rewrite qdot_cons. rewrite inject_Z_plus, inject_Z_mult, !inject_Z_mult.
      assert (E : forall z l, zdot (map (Z.mul (Z.pos (Qden q))) z) l = Z.pos (Qden q) * zdot z l).
      { induction z0 as [|x z0 IH]; intros [|y m]; cbn [map zdot]; try lia. rewrite IH. ring. }
      rewrite E, inject_Z_mult, <- H3.
      assert (Eq : (inject_Z (Z.pos (Qden q)) * q == inject_Z (Qnum q))%Q).
      { unfold Qeq. destruct q as [a d]. cbn [Qnum Qden inject_Z Qmult]. nia. }
      rewrite <- Eq. ring.
Qed.

Lemma qdot_scale : forall (d : Q) z l, (qdot (map (fun a => inject_Z a * d) z) (map inject_Z l) == d * inject_Z (zdot z l))%Q.
Proof.
  intros d. induction z as [|a z IH]; intros [|b l]; cbn [map zdot].
  - unfold qdot. simpl. ring.
  - unfold qdot. simpl. ring.
  - unfold qdot. rewrite combine_nil. simpl. ring.
  - rewrite qdot_cons, IH, inject_Z_plus, inject_Z_mult. ring.
Qed.

Lemma qdot_comm : forall c l, (qdot c l == qdot l c)%Q.
Proof.
  induction c as [|a c IH]; intros [|b l]; try reflexivity. rewrite !qdot_cons, IH. ring.
Qed.

Lemma zdot_dotn : forall n r x, length r = n -> zdot r (map x (seq 0 n)) = dotn n r x.
Proof.
  assert (H : forall r x a, zdot r (map x (seq a (length r))) =
    zsum (map (fun j => nth (j - a) r 0 * x j) (seq a (length r)))).
  { induction r as [|b r IH]; intros x a; [reflexivity|]. cbn [length seq map zdot zsum].
    rewrite IH. f_equal.
    - replace (a - a)%nat with O by lia. reflexivity.
    - f_equal. apply map_ext_in. intros j Hj. apply in_seq in Hj.
      replace (j - a)%nat with (S (j - S a)) by lia. reflexivity. }
  intros n r x <-. rewrite H. unfold dotn. f_equal. apply map_ext. intro j. now rewrite Nat.sub_0_r.
Qed.

(* ---------------- C10: rref ---------------- *)
Lemma mrow_In : forall m n mat r, rect m n mat -> In r mat -> exists t, (t < m)%nat /\ mrow mat t = r.
Proof.
  intros m n mat r [H1 H2] H. apply (In_nth _ _ []) in H. destruct H as (t & Ht & E). exists t. split; [lia|assumption].
Qed.

Lemma solves_transfer : forall m n mat mat', rect m n mat -> rect m n mat' ->
  (forall x, sol m n mat' x <-> sol m n mat x) ->
  forall x, length x = n -> solves mat x -> solves mat' x.
Proof.
  intros m n mat mat' R R' HS x Hx H. destruct (clear_den x) as (D & z & D1 & D2 & D3).
  set (zf := fun j => nth j z 0).
  assert (Hz : map zf (seq 0 n) = z).
  { apply nth_ext with (d := 0) (d' := 0); [rewrite map_length, seq_length; congruence|].
    intros j Hj. rewrite map_length, seq_length in Hj.
    rewrite (nth_indep _ 0 (zf O)) by (rewrite map_length, seq_length; assumption).
    rewrite map_nth, seq_nth by assumption. reflexivity. }
  assert (E : forall mat r, rect m n mat -> In r mat ->
     (inject_Z D * qdot (map inject_Z r) x == inject_Z (dotn n r zf))%Q).
  { intros M r [RM1 RM2] Hr. rewrite qdot_comm, D3, <- (zdot_dotn n) by (rewrite Forall_forall in RM2; auto).
    rewrite Hz. f_equal.
    assert (C : forall a b, zdot a b = zdot b a).
    { induction a as [|u a IH]; intros [|v b]; cbn [zdot]; try reflexivity. rewrite IH. ring. }
    rewrite C. reflexivity. }
  assert (HD : ~ (inject_Z D == 0)%Q).
  { intro Q. apply D1. unfold Qeq in Q. simpl in Q. lia. }
  assert (Hsol : sol m n mat zf).
  { intros t Ht. assert (Hin : In (mrow mat t) mat) by (apply nth_In; destruct R; lia).
    specialize (E mat _ R Hin). rewrite (H _ Hin) in E. unfold Qeq in E. simpl in E. lia. }
  apply HS in Hsol. intros r Hr. destruct (mrow_In m n mat' r R' Hr) as (t & Ht & Er).
  specialize (Hsol t Ht). rewrite Er in Hsol. specialize (E mat' r R' Hr). rewrite Hsol in E.
  apply Qmult_integral in E. tauto.
Qed.

Theorem C10_rref : forall m n mat, is_matrix m n mat ->
  exists mat', rref mat = Ok mat' /\ is_matrix m n mat' /\ echelon mat' /\
    forall x, length x = n -> (solves mat' x <-> solves mat x).
Proof.
  intros m n mat [H1 H2].
  assert (R : rect m n mat) by (split; [assumption|apply Forall_forall; assumption]).
  destruct m as [|m].
  - destruct mat; [|discriminate]. exists []. split; [reflexivity|]. split; [split; [reflexivity|intros r []]|].
    split; [|reflexivity]. exists []. split; [simpl; lia|]. split; [intros; simpl in *; lia|].
    split; [intros; simpl in *; lia|]. intros t c _. unfold entry. destruct t, c; reflexivity.
  - destruct (rref_spec (S m) n mat R) as (mat' & ps & E & R' & (I1 & [I2 I3] & I4) & S); [lia|].
    exists mat'. split; [assumption|]. split; [destruct R' as [A B]; split; [assumption|apply Forall_forall; assumption]|].
    split.
    + exists ps. split; [destruct R'; lia|]. split; [assumption|]. split.
      * intros t Ht. destruct (I3 t Ht) as (_ & B & C). split; assumption.
      * intros t c Ht. destruct (Nat.lt_ge_cases t (Datatypes.S m)) as [L|L].
        -- destruct (Nat.lt_ge_cases c n) as [Lc|Lc]; [apply I4; [lia|assumption]|].
           unfold entry. apply nth_overflow. fold (mrow mat' t). rewrite (rect_row _ _ _ _ R' L). assumption.
        -- unfold entry. rewrite (nth_overflow mat' []) by (destruct R'; lia). destruct c; reflexivity.
    + intros x Hx. split; apply (solves_transfer (Datatypes.S m) n); auto. intro y. symmetry. apply S.
Qed.
Print Assumptions C10_rref.

Example C10_rref_example :
  rref [[0; 2; 4]; [3; 6; 9]; [2; 5; 7]] = Ok [[1; 2; 3]; [0; 1; 2]; [0; 0; 1]] /\
  rref [[0; -2; 4]; [0; 3; -6]] = Ok [[0; 1; -2]; [0; 0; 0]].
Proof. vm_compute. auto. Qed.

(* ---------------- C10: is_expressable ---------------- *)
Section Expr.
  Context {K : Type} (keqb : K -> K -> bool) (ksort : list K -> list K).
  Hypothesis keqb_spec : forall a b, keqb a b = true <-> a = b.
  Hypothesis ksort_perm : forall l, Permutation (ksort l) l.

  Local Notation get := (vget keqb 0).

  Lemma all_keys_In : forall args ks k,
    In k (fold_left (fun ks a =>
      ks ++ filter (fun k => negb (existsb (fun k' => keqb k' k) ks)) (map fst a)) args ks)
    <-> In k ks \/ exists a : list (K * Z), In a args /\ In k (map fst a).
  Proof.
    induction args as [|a args IH]; intros ks k; cbn [fold_left].
    - split; [auto|]. intros [H|(x & [] & _)]. assumption.
    - rewrite IH. rewrite in_app_iff, filter_In. split.
      + intros [[H|[H _]]|(x & Hx & Hk)]; [left; assumption|right; exists a; split; [left; reflexivity|assumption]|
          right; exists x; split; [right; assumption|assumption]].
      + intros [H|(x & [<-|Hx] & Hk)]; [left; left; assumption| |right; eauto].
        left. destruct (existsb (fun k' => keqb k' k) ks) eqn:E; [|right; auto].
        left. apply existsb_exists in E. destruct E as (y & Hy & E). apply keqb_spec in E. congruence.
  Qed.
  Lemma get_notin : forall (v : list (K * Z)) k, ~ In k (map fst v) -> get v k = 0.
  Proof.
    intros v k H. unfold vget, dget0. replace (dget keqb v k) with (@None Z); [reflexivity|].
    symmetry. apply dget_None_notIn; assumption.
  Qed.

  Lemma zdot_app1 : forall a b x y, length a = length b -> zdot (a ++ [x]) (b ++ [y]) = zdot a b + x * y.
  Proof.
    induction a as [|u a IH]; intros [|v b] x y H; try discriminate; cbn [app zdot]; [lia|].
    injection H as H. rewrite IH by assumption. lia.
  Qed.

  Lemma expressable_iff : forall v args, exists b, is_expressable keqb ksort v args = Ok b /\
    (b = true <-> exists D z, D <> 0 /\ length z = length args /\
       forall k, D * get v k = zdot z (map (fun a : list (K * Z) => get a k) args)).
  Proof.
    intros v args. unfold is_expressable. set (keys := ksort (all_keys keqb v args)).
    set (n := S (length args)).
    set (mat := map (fun k => map (fun a : list (K * Z) => get a k) args ++ [get v k]) keys).
    assert (R : rect (length keys) n mat).
    { split; [apply map_length|]. apply Forall_forall. intros r Hr. apply in_map_iff in Hr.
      destruct Hr as (k & <- & _). rewrite app_length, map_length. simpl. unfold n. lia. }
    assert (Hkeys : forall k, ~ In k keys -> get v k = 0 /\ forall a, In a args -> get a k = 0).
    { intros k Hk. assert (H : ~ In k (all_keys keqb v args)).
      { intro H. apply Hk. apply (Permutation_in _ (Permutation_sym (ksort_perm _))). assumption. }
      unfold all_keys in H. rewrite all_keys_In in H. split; [apply get_notin; tauto|].
      intros a Ha. apply get_notin. intro Hin. apply H. right. eauto. }
    (* solvability *)
    assert (Hrows : forall k, In k keys -> exists t, (t < length keys)%nat /\ mrow mat t = map (fun a : list (K * Z) => get a k) args ++ [get v k]).
    { intros k Hk. apply (mrow_In _ n mat); [assumption|]. apply in_map_iff. eauto. }
    assert (Hsol : (exists D z, D <> 0 /\ length z = length args /\
       forall k, D * get v k = zdot z (map (fun a : list (K * Z) => get a k) args)) <->
       exists x, x (length args) <> 0 /\ sol (length keys) n mat x).
    { assert (C : forall a b, zdot a b = zdot b a).
      { induction a as [|u a IH]; intros [|w b]; cbn [zdot]; try reflexivity. rewrite IH. ring. }
      split.
      - intros (D & z & HD & Hz & H). exists (fun j => nth j (z ++ [- D]) 0). split.
        + rewrite <- Hz, nth_middle. lia.
        + intros t Ht. assert (Hin : In (mrow mat t) mat) by (apply nth_In; destruct R; lia).
          apply in_map_iff in Hin. destruct Hin as (k & Ek & Hk). rewrite <- Ek.
          rewrite <- zdot_dotn by (rewrite app_length, map_length; simpl; unfold n; lia).
          replace (map (fun j => nth j (z ++ [- D]) 0) (seq 0 n)) with (z ++ [- D]).
          * rewrite zdot_app1 by (rewrite map_length; congruence). rewrite C, <- H. ring.
          * apply nth_ext with (d := 0) (d' := 0); [rewrite map_length, seq_length, app_length; simpl; unfold n; lia|].
            intros j Hj. rewrite app_length in Hj. simpl in Hj.
            rewrite (nth_indep (map _ _) 0 (nth O (z ++ [- D]) 0)) by (rewrite map_length, seq_length; unfold n; lia).
            rewrite (map_nth (fun j => nth j (z ++ [- D]) 0)), seq_nth by (unfold n; lia). reflexivity.
      - intros (x & X1 & X2). exists (- x (length args)), (map x (seq 0 (length args))).
        split; [lia|]. split; [now rewrite map_length, seq_length|]. intro k.
        destruct (in_dec (fun a b => match Bool.bool_dec (keqb a b) true with left e => left (proj1 (keqb_spec a b) e)
            | right ne => right (fun E => ne (proj2 (keqb_spec a b) E)) end) k keys) as [Hk|Hk].
        + destruct (Hrows k Hk) as (t & Ht & Er). specialize (X2 t Ht). rewrite Er in X2.
          rewrite <- zdot_dotn in X2 by (rewrite app_length, map_length; simpl; unfold n; lia).
          unfold n in X2. rewrite seq_S, map_app in X2. simpl in X2.
          rewrite zdot_app1 in X2 by (rewrite !map_length, seq_length; reflexivity).
          rewrite C. lia.
        + destruct (Hkeys k Hk) as [-> Ha]. replace (map (fun a : list (K * Z) => get a k) args) with (map (fun _ : list (K * Z) => 0) args).
          * assert (Z0 : forall l (y : list Z), zdot y (map (fun _ : list (K * Z) => 0) l) = 0).
            { induction l as [|b l IH]; intros [|u y]; cbn [map zdot]; try reflexivity. rewrite IH. ring. }
            rewrite Z0. ring.
          * apply map_ext_in. intros a Hin. symmetry. auto. }
    destruct (Nat.eq_dec (length keys) 0) as [H0|H0].
    - assert (Hm : mat = []). { destruct R as [RR _]. rewrite H0 in RR. destruct mat; [reflexivity|discriminate]. }
      rewrite Hm. cbn [rref rbind fst seq fold_left length]. rewrite H0. cbn [seq flat_map existsb negb].
      eexists. split; [reflexivity|]. rewrite Hsol. split; [|reflexivity]. intros _. exists (fun _ => 1).
      split; [lia|]. intros t Ht. rewrite H0 in Ht. lia.
    - destruct (rref_spec (length keys) n mat R) as (mat' & ps & E & R' & (I1 & P & I4) & S); [lia|].
      rewrite E. cbn [rbind]. eexists. split; [reflexivity|].
      rewrite negb_true_iff, <- not_true_iff_false, existsb_exists. rewrite Hsol.
      assert (Hpiv : (exists x, In x (flat_map (fun i => match row_pivot mat' n i with Some j => [j] | None => [] end)
          (seq 0 (length keys))) /\ Nat.eqb (n - 1) x = true) <-> In (length args) ps).
      { destruct P as [P1 P2]. split.
        - intros (x & Hx & Ex). apply Nat.eqb_eq in Ex. replace (n - 1)%nat with (length args) in Ex by (unfold n; lia). subst x.
          apply in_flat_map in Hx. destruct Hx as (i & Hi & Hx). apply in_seq in Hi.
          destruct (row_pivot mat' n i) as [j|] eqn:Ej; [|contradiction]. destruct Hx as [->|[]].
          apply row_pivot_spec in Ej. destruct Ej as (J1 & J2 & J3).
          destruct (Nat.lt_ge_cases i (length ps)) as [L|L].
          + destruct (P2 i L) as (Q1 & Q2 & Q3).
            assert (nth i ps O = length args); [|rewrite <- H; apply nth_In; assumption].
            destruct (Nat.lt_trichotomy (nth i ps O) (length args)) as [T|[T|T]]; [|assumption|].
            * exfalso. apply Q2. apply J3. assumption.
            * exfalso. apply J2. apply Q3. assumption.
          + exfalso. apply J2. apply I4; lia.
        - intro H. exists (length args). split; [|apply Nat.eqb_eq; unfold n; lia].
          apply (In_nth _ _ O) in H. destruct H as (t & Ht & Et). apply in_flat_map. exists t.
          split; [apply in_seq; lia|]. destruct (P2 t Ht) as (Q1 & Q2 & Q3). rewrite Et in *.
          assert (Er : row_pivot mat' n t = Some (length args)) by (apply row_pivot_spec; auto).
          rewrite Er. left. reflexivity. }
      rewrite Hpiv. split.
      + intro Hn. destruct (back_subst n mat' ps (length args)) with (d := length ps) (k := O) as (x & X1 & X2); auto; try (unfold n; lia).
        exists x. split; [assumption|]. apply S. intros t Ht.
        destruct (Nat.lt_ge_cases t (length ps)) as [L|L]; [apply X2; lia|].
        unfold dotn. assert (Z0 : forall j, In j (seq 0 n) -> nth j (mrow mat' t) 0 * x j = 0).
        { intros j Hj. apply in_seq in Hj. fold (ment mat' t j). rewrite I4 by lia. ring. }
        clear - Z0. induction (seq 0 n) as [|j l IH]; [reflexivity|]. cbn [map zsum].
        rewrite Z0 by (left; reflexivity). rewrite IH; [reflexivity|]. intros i Hi. apply Z0. right. assumption.
      + intros (x & X1 & X2) Hin. apply S in X2. apply (In_nth _ _ O) in Hin. destruct Hin as (t & Ht & Et).
        destruct P as [P1 P2]. destruct (P2 t Ht) as (Q1 & Q2 & Q3). rewrite Et in *.
        specialize (X2 t ltac:(lia)). unfold dotn in X2.
        assert (Es : zsum (map (fun j => nth j (mrow mat' t) 0 * x j) (seq 0 n)) = ment mat' t (length args) * x (length args)).
        { unfold n. rewrite seq_S, map_app, zsum_app. cbn [map zsum]. rewrite Nat.add_0_l.
          assert (Z0 : zsum (map (fun j => nth j (mrow mat' t) 0 * x j) (seq 0 (length args))) = 0).
          { assert (Z1 : forall j, In j (seq 0 (length args)) -> nth j (mrow mat' t) 0 * x j = 0).
            { intros j Hj. apply in_seq in Hj. fold (ment mat' t j). rewrite Q3 by lia. ring. }
            clear - Z1. induction (seq 0 (length args)) as [|j l IH]; [reflexivity|]. cbn [map zsum].
            rewrite Z1 by (left; reflexivity). rewrite IH; [reflexivity|]. intros i Hi. apply Z1. right. assumption. }
          rewrite Z0. unfold ment. lia. }
        rewrite Es in X2. apply Z.mul_eq_0 in X2. tauto.
  Qed.
End Expr.

Theorem C10_is_expressable : forall K (keqb : K -> K -> bool) (ksort : list K -> list K),
  (forall a b, keqb a b = true <-> a = b) ->
  (forall l, Permutation (ksort l) l) ->
  forall v args, exists b,
    is_expressable keqb ksort v args = Ok b /\
    (b = true <-> exists c : list Q, length c = length args /\
       forall k, (inject_Z (vget keqb 0%Z v k) == qdot c (map (fun a : list (K * Z) => inject_Z (vget keqb 0%Z a k)) args))%Q).
Proof.
  intros K keqb ksort H1 H2 v args. destruct (expressable_iff keqb ksort H1 H2 v args) as (b & E & Hb).
  exists b. split; [assumption|]. rewrite Hb. split.
  - intros (D & z & HD & Hz & H). 
    exists (map (fun a => inject_Z a * / inject_Z D)%Q z). split; [now rewrite map_length|].
    intro k. rewrite <- (map_map (fun a : list (K * Z) => vget keqb 0 a k) inject_Z). rewrite qdot_scale, <- H, inject_Z_mult.
    rewrite Qmult_assoc, (Qmult_comm (/ inject_Z D)), Qmult_inv_r, Qmult_1_l; [reflexivity|].
    intro Q. apply HD. unfold Qeq in Q. simpl in Q. lia.
  - intros (c & Hc & H). destruct (clear_den c) as (D & z & D1 & D2 & D3).
    exists D, z. split; [assumption|]. split; [congruence|]. intro k.
    specialize (D3 (map (fun a : list (K * Z) => vget keqb 0 a k) args)). rewrite map_map in D3. rewrite <- H in D3.
    rewrite <- inject_Z_mult in D3. unfold Qeq in D3. simpl in D3. lia.
Qed.
Print Assumptions C10_is_expressable.

Example C10_example :
  (* (1,1) = 1/2 (2,0) + 1/3 (0,3) is expressable, (1,1) is not a multiple of (2,0) *)
  is_expressable Z.eqb (fun l => l) [(0, 1); (1, 1)] [[(0, 2)]; [(1, 3)]] = Ok true /\
  is_expressable Z.eqb (fun l => l) [(0, 1); (1, 1)] [[(0, 2)]] = Ok false.
Proof. vm_compute. auto. Qed.

(* ---------------- C11 ---------------- *)
(* m (m-1) ... (m-k+1) *)
Fixpoint falling (m : Z) (k : nat) : Z :=
  match k with O => 1 | S k' => falling m k' * (m - Z.of_nat k') end.

Lemma falling_pascal : forall k m, falling (m + 1) (S k) = falling m (S k) + Z.of_nat (S k) * falling m k.
Proof.
  intros k m. assert (H : forall j m, falling (m + 1) (S j) = (m + 1) * falling m j).
  { induction j as [|j IH]; intro p; [cbn [falling]; lia|].
    change (falling (p + 1) (S (S j))) with (falling (p + 1) (S j) * (p + 1 - Z.of_nat (S j))).
    rewrite IH. cbn [falling]. lia. }
  rewrite H. cbn [falling]. lia.
Qed.
Lemma falling_0 : forall k, falling 0 (S k) = 0.
Proof. induction k as [|k IH]; [reflexivity|]. change (falling 0 (S (S k))) with (falling 0 (S k) * (0 - Z.of_nat (S k))). now rewrite IH. Qed.

Lemma fact_divides_falling : forall k m, (Z.of_nat (fact k) | falling m k).
Proof.
  induction k as [|k IH]; intro m; [apply Z.divide_1_l|].
  assert (Hk : forall m, (Z.of_nat (fact (S k)) | Z.of_nat (S k) * falling m k)).
  { intro p. change (fact (S k)) with (S k * fact k)%nat. rewrite Nat2Z.inj_mul. apply Z.mul_divide_mono_l. apply IH. }
  assert (Hp : forall n : nat, (Z.of_nat (fact (S k)) | falling (Z.of_nat n) (S k))).
  { induction n as [|n IHn]; [change (Z.of_nat 0) with 0; rewrite falling_0; apply Z.divide_0_r|].
    rewrite Nat2Z.inj_succ. unfold Z.succ. rewrite falling_pascal. apply Z.divide_add_r; [assumption|apply Hk]. }
  assert (Hn : forall n : nat, (Z.of_nat (fact (S k)) | falling (- Z.of_nat n) (S k))).
  { induction n as [|n IHn]; [change (- Z.of_nat 0) with 0; rewrite falling_0; apply Z.divide_0_r|].
    assert (E := falling_pascal k (- Z.of_nat (S n))). replace (- Z.of_nat (S n) + 1) with (- Z.of_nat n) in E by lia.
    replace (falling (- Z.of_nat (S n)) (S k)) with
      (falling (- Z.of_nat n) (S k) - Z.of_nat (S k) * falling (- Z.of_nat (S n)) k) by lia.
    apply Z.divide_sub_r; [assumption|apply Hk]. }
  destruct (Z.le_gt_cases 0 m).
  - rewrite <- (Z2Nat.id m) by assumption. apply Hp.
  - replace m with (- Z.of_nat (Z.to_nat (- m))) by lia. apply Hn.
Qed.

Lemma zrange_seq : forall k, zrange 0 (Z.of_nat k) = map Z.of_nat (seq 0 k).
Proof. intro k. unfold zrange. replace (Z.to_nat (Z.of_nat k - 0)) with k by lia. reflexivity. Qed.

Lemma nchoosek_spec : forall m k, nchoosek m (Z.of_nat k) * Z.of_nat (fact k) = falling m k.
Proof.
  intros m k. unfold nchoosek. rewrite zrange_seq.
  assert (P : forall j, fold_left (fun ans i => ans * (m - i)) (map Z.of_nat (seq 0 j)) 1 = falling m j).
  { induction j as [|j IH]; [reflexivity|]. rewrite seq_S, map_app, fold_left_app, IH. reflexivity. }
  rewrite P.
  assert (D : forall j x, fold_left (fun ans i => ans / (i + 1)) (map Z.of_nat (seq 0 j)) x = x / Z.of_nat (fact j)).
  { induction j as [|j IH]; intro x; [symmetry; apply Z.div_1_r|].
    rewrite seq_S, map_app, fold_left_app, IH. cbn [map fold_left]. rewrite Nat.add_0_l.
    rewrite Z.div_div by (pose proof (lt_O_fact j); lia). f_equal.
    change (fact (S j)) with (S j * fact j)%nat. lia. }
  rewrite D. pose proof (lt_O_fact k). rewrite Z.mul_comm.
  symmetry. apply Z_div_exact_full_2; [lia|]. apply Z.mod_divide; [lia|]. apply fact_divides_falling.
Qed.

(* every floor division is exact, so for all integers m (also negative) and k >= 0 the result
   times k! is m (m-1) ... (m-k+1); for naturals this is the binomial coefficient *)
Theorem C11_nchoosek : 
  (forall m (k : nat), nchoosek m (Z.of_nat k) * Z.of_nat (fact k) = falling m k) /\
  (forall m k : nat, (k <= m)%nat ->
     nchoosek (Z.of_nat m) (Z.of_nat k) * Z.of_nat (fact k) * Z.of_nat (fact (m - k)) = Z.of_nat (fact m)) /\
  (forall m k : nat, (m < k)%nat -> nchoosek (Z.of_nat m) (Z.of_nat k) = 0).
Proof.
  split; [apply nchoosek_spec|]. split.
  - intros m k H. rewrite nchoosek_spec. induction k as [|k IH]; [rewrite Nat.sub_0_r; cbn [falling]; lia|].
    rewrite <- IH by lia. cbn [falling]. replace (m - k)%nat with (S (m - S k)) by lia.
    change (fact (S (m - S k))) with (S (m - S k) * fact (m - S k))%nat. 
    rewrite Nat2Z.inj_mul. replace (Z.of_nat (S (m - S k))) with (Z.of_nat m - Z.of_nat k) by lia. ring.
  - intros m k H. assert (E := nchoosek_spec (Z.of_nat m) k).
    assert (F : falling (Z.of_nat m) k = 0).
    { induction k as [|k IH]; [lia|]. cbn [falling]. destruct (Nat.eq_dec m k) as [->|Hne]; [lia|]. rewrite IH; [lia|lia|].
      apply nchoosek_spec. }
    rewrite F in E. apply Z.mul_eq_0 in E. pose proof (lt_O_fact k). lia.
Qed.
Print Assumptions C11_nchoosek.
Example C11_example : nchoosek 7 3 = 35 /\ nchoosek 3 7 = 0 /\ nchoosek (-2) 3 = -4.
Proof. vm_compute. auto. Qed.
