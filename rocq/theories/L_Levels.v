From Coq Require Import List ZArith Lia Bool Permutation Arith.
From Verif Require Import PyBase M_Levels.
Import ListNotations.
Local Open Scope Z_scope.

Section LevelsF.
Variables K L : Type.
Variable keqb : K -> K -> bool.
Hypothesis keqb_eq : forall a b, keqb a b = true <-> a = b.
Variable start : K -> res L.
Variable expand : K -> L -> res L.
Variable emptyb : L -> bool.
Variable Kok : K -> Prop.
Variable T : K -> nat -> L.
Hypothesis T_start : forall k, Kok k -> start k = Ok (T k 0%nat).
Hypothesis T_expand : forall k n, Kok k -> expand k (T k n) = Ok (T k (S n)).

Notation hget := (hget K L keqb).
Notation hnext := (hnext K L keqb start expand emptyb).
Notation hrun := (hrun K L keqb start expand emptyb).
Notation hstep := (hstep K L keqb start expand emptyb).

(* Histories in which a generator that has been advanced is only advanced again while no other
   generator for the same key has been advanced for the first time after it.
   [ks]: keys of the generators created so far; [adv]: generators advanced, latest first. *)
Fixpoint seqok (ks : list (K * Z)) (adv : list nat) (h : list (haction K)) : Prop :=
  match h with
  | [] => True
  | HStart k b :: h' => seqok (ks ++ [(k, b)]) adv h'
  | HNext i :: h' =>
      match nth_error ks i with
      | None => seqok ks adv h'
      | Some (k, _) =>
          if existsb (Nat.eqb i) adv then
            find (fun j => match nth_error ks j with Some (k', _) => keqb k' k | None => false end) adv = Some i /\ seqok ks adv h'
          else seqok ks (i :: adv) h'
      end
  end.
Fixpoint starts (h : list (haction K)) : list (K * Z) :=
  match h with [] => [] | HStart k b :: h' => (k, b) :: starts h' | HNext _ :: h' => starts h' end.

Definition lv (k : K) (a n : nat) : list L := map (T k) (seq a n).
Definition cok (c : hcache K L) (k : K) (n : nat) : Prop := hget c k = lv k 0 n /\ forall j, (j < n)%nat -> emptyb (T k j) = false.
Definition xout (k : K) (b0 : Z) (x : hlive K L) (m : nat) : Prop :=
  h_key x = k /\ h_out x = lv k 0 m /\ (forall j, (j < m)%nat -> emptyb (T k j) = false) /\
  (forall e, h_status x <> HFailed e) /\
  (h_status x = HExhausted -> (0 <= b0 /\ Z.of_nat m = b0 + 1) \/ emptyb (T k m) = true) /\
  (0 <= b0 -> Z.of_nat m <= b0 + 1) /\ h_bound x = (if (m =? 0)%nat then b0 else b0 - (Z.of_nat m - 1)).
Definition xcur (k : K) (x : hlive K L) (m c : nat) : Prop :=
  match h_state x with
  | HInit => m = 0%nat
  | HCached rest => (1 <= m < c)%nat /\ rest = lv k m (c - 1 - m)
  | HGen l => (1 <= m)%nat /\ m = c /\ l = T k (m - 1)
  end.

Lemma lv_S : forall k a n, lv k a (S n) = T k a :: lv k (S a) n.
Proof. reflexivity. Qed.
Lemma lv_snoc : forall k a n, lv k a (S n) = lv k a n ++ [T k (a + n)%nat].
Proof. intros. unfold lv. rewrite seq_S, map_app. reflexivity. Qed.
Lemma length_lv : forall k a n, length (lv k a n) = n.
Proof. intros. unfold lv. rewrite map_length, seq_length. reflexivity. Qed.
Lemma cok_unique : forall c k n n', cok c k n -> cok c k n' -> n = n'.
Proof. intros c k n n' [H1 _] [H2 _]. rewrite H1 in H2. apply (f_equal (@length L)) in H2. rewrite !length_lv in H2. assumption. Qed.
Lemma hget_dset_same : forall c k v, hget (dset keqb c k v) k = v.
Proof. intros. unfold M_Levels.hget. rewrite (dget_dset_same keqb keqb_eq). reflexivity. Qed.
Lemma hget_dset_other : forall c k k' v, k <> k' -> hget (dset keqb c k v) k' = hget c k'.
Proof. intros. unfold M_Levels.hget. rewrite (dget_dset_other keqb keqb_eq) by assumption. reflexivity. Qed.

(* what the inner generator produces next *)
Lemma hinner_ok : forall c k n b0 x m, Kok k -> cok c k n -> xout k b0 x m -> xcur k x m n ->
  exists r, hinner K L keqb start expand emptyb c (h_key x) (h_state x) = Ok r /\
    match r with
    | None => emptyb (T k m) = true
    | Some (l, s') => l = T k m /\ emptyb (T k m) = false /\ (m <= n)%nat /\
        (match s' with HInit => False
         | HCached rest => (m + 1 < n)%nat /\ rest = lv k (S m) (n - 1 - S m)
         | HGen l' => (n <= S m)%nat /\ l' = T k m end)
    end.
Proof.
  intros c k n b0 x m Hk [Hc Hne] (Ek & Eo & _) Hx. rewrite Ek. unfold xcur in Hx.
  assert (Hcached : forall rest, rest = lv k m (n - 1 - m) -> (m = 0 \/ m < n)%nat ->
    exists r, hcached K L keqb start emptyb c k rest = Ok r /\
    match r with
    | None => emptyb (T k m) = true
    | Some (l, s') => l = T k m /\ emptyb (T k m) = false /\ (m <= n)%nat /\
        (match s' with HInit => False
         | HCached rest => (m + 1 < n)%nat /\ rest = lv k (S m) (n - 1 - S m)
         | HGen l' => (n <= S m)%nat /\ l' = T k m end)
    end).
  { intros rest -> Hm. unfold hcached. destruct (n - 1 - m)%nat as [|d] eqn:Ed.
    - cbn [lv seq map]. rewrite Hc. destruct n as [|n'].
      + cbn. rewrite T_start by assumption. cbn. unfold hlevel. assert (m = 0%nat) by lia. subst m.
        destruct (emptyb (T k 0)) eqn:Ee; eexists; (split; [reflexivity|]); [reflexivity|]. cbn. repeat split; auto.
      + rewrite lv_snoc, rev_unit. assert (E : n' = m) by lia. replace (0 + n')%nat with m by lia.
        unfold hlevel. assert (Ee : emptyb (T k m) = false) by (apply Hne; lia). rewrite Ee. eexists. split; [reflexivity|]. cbn. repeat split; auto; lia.
    - rewrite lv_S. eexists. split; [reflexivity|]. cbn. split; [reflexivity|]. split; [apply Hne; lia|]. split; [lia|]. split; [lia|]. f_equal. lia. }
  destruct (h_state x) as [|rest|l]; cbn [hinner].
  - subst m. apply Hcached; [|left; reflexivity]. rewrite Hc. destruct n as [|n']; [reflexivity|]. rewrite lv_snoc, removelast_last. f_equal. lia.
  - destruct Hx as [Hm ->]. apply Hcached; [reflexivity|lia].
  - destruct Hx as (Hm & -> & ->). rewrite T_expand by assumption. cbn. replace (S (n - 1)) with n by lia. unfold hlevel.
    destruct (emptyb (T k n)) eqn:Ee; eexists; (split; [reflexivity|]); [reflexivity|]. cbn. repeat split; auto.
Qed.

Lemma hnext_ok : forall c k n b0 x m, Kok k -> cok c k n -> xout k b0 x m -> xcur k x m n -> h_status x = HRunning ->
  exists n' m', cok (fst (hnext c x)) k n' /\ (forall k', k' <> k -> hget (fst (hnext c x)) k' = hget c k') /\
    xout k b0 (snd (hnext c x)) m' /\ xcur k (snd (hnext c x)) m' n'.
Proof.
  intros c k n b0 x m Hk Hc Hx Hcur Hr. pose proof Hx as (Ek & Eo & Hne & Hf & He & Hb & Hbd). unfold M_Levels.hnext.
  set (resumed := match h_state x with HInit => false | _ => true end).
  assert (Hres : resumed = negb (m =? 0)%nat).
  { unfold resumed, xcur in *. destruct (h_state x); [subst m; reflexivity| |]; destruct m; try reflexivity; lia. }
  destruct (resumed && (h_bound x =? 0)) eqn:E0.
  - apply andb_true_iff in E0. destruct E0 as [E1 E2]. apply Z.eqb_eq in E2. exists n, m. cbn [fst snd]. split; [assumption|]. split; [reflexivity|].
    split; [|exact Hcur]. unfold xout. cbn. repeat split; auto; [discriminate|]. intros _. left.
    rewrite Hres in E1. destruct (m =? 0)%nat eqn:Em; [discriminate|]. apply Nat.eqb_neq in Em. lia.
  - destruct (hinner_ok c k n b0 x m Hk Hc Hx Hcur) as (r & Er & Hr'). rewrite Er. destruct r as [[l s']|].
    + destruct Hr' as (-> & Hn1 & Hmn & Hs). rewrite Ek. destruct Hc as [Hc Hcn]. rewrite Hc, Eo.
      assert (Hlen : (zlen (lv k 0 n) <=? zlen (lv k 0 m)) = (n <=? m)%nat).
      { unfold zlen. rewrite !length_lv. destruct (n <=? m)%nat eqn:E; [apply Nat.leb_le in E|apply Nat.leb_gt in E]; lia. }
      rewrite Hlen. exists (Nat.max n (S m)), (S m). cbn [fst snd]. split; [|split; [|split]].
      * destruct (n <=? m)%nat eqn:E; [apply Nat.leb_le in E|apply Nat.leb_gt in E].
        -- assert (n = m) by lia. subst n. replace (Nat.max m (S m)) with (S m) by lia. split.
           ++ rewrite hget_dset_same, lv_snoc. reflexivity.
           ++ intros j Hj. destruct (Nat.eq_dec j m) as [->|N]; [assumption|apply Hcn; lia].
        -- replace (Nat.max n (S m)) with n by lia. split; assumption.
      * intros k' Nk. destruct (n <=? m)%nat; [apply hget_dset_other; congruence|reflexivity].
      * unfold xout. cbn [h_key h_out h_status h_bound]. change (S m =? 0)%nat with false. cbv iota. rewrite Hres. split; [reflexivity|]. split; [symmetry; apply (lv_snoc k 0 m)|]. split.
        -- intros j Hj. destruct (Nat.eq_dec j m) as [->|N]; [assumption|apply Hne; lia].
        -- split; [discriminate|]. split; [discriminate|]. rewrite Hres in E0.
           destruct (m =? 0)%nat eqn:Em; cbn [negb andb] in *; [apply Nat.eqb_eq in Em|apply Nat.eqb_neq in Em].
           ++ subst m. split; [lia|]. rewrite Hbd. lia.
           ++ apply Z.eqb_neq in E0. split; [intro H0; specialize (Hb H0); lia|]. rewrite Hbd. lia.
      * unfold xcur. cbn. destruct s' as [|rest|l']; [destruct Hs| |].
        -- destruct Hs as [H1 ->]. replace (Nat.max n (S m)) with n by lia. split; [lia|reflexivity].
        -- destruct Hs as [H1 ->]. split; [lia|]. split; [lia|]. f_equal. lia.
    + exists n, m. cbn [fst snd]. split; [assumption|]. split; [reflexivity|]. split; [|exact Hcur].
      unfold xout. cbn. repeat split; auto; discriminate.
Qed.

(* the invariant *)
Definition cur (ks : list (K * Z)) (adv : list nat) (k : K) : option nat :=
  find (fun j => match nth_error ks j with Some (k', _) => keqb k' k | None => false end) adv.
Definition sysok (s : hsys K L) (ks : list (K * Z)) (adv : list nat) : Prop :=
  length (h_lives s) = length ks /\
  (forall i, In i adv -> (i < length ks)%nat) /\
  (forall i k b0 x, nth_error ks i = Some (k, b0) -> nth_error (h_lives s) i = Some x -> h_key x = k) /\
  (forall k, Kok k -> exists n, cok (h_cache s) k n) /\
  forall i k b0 x, nth_error ks i = Some (k, b0) -> nth_error (h_lives s) i = Some x -> Kok k ->
    exists m, xout k b0 x m /\ (~ In i adv -> h_state x = HInit /\ m = 0%nat) /\
      (cur ks adv k = Some i -> forall n, cok (h_cache s) k n -> xcur k x m n).

Lemma hset_length : forall l i (x : hlive K L), length (hset K L l i x) = length l.
Proof. induction l as [|a l IH]; intros [|i] x; cbn; [reflexivity|reflexivity|reflexivity|]. f_equal. apply IH. Qed.
Lemma hset_same : forall l i (x : hlive K L), (i < length l)%nat -> nth_error (hset K L l i x) i = Some x.
Proof. induction l as [|a l IH]; intros [|i] x H; cbn in *; try lia; [reflexivity|]. apply IH. lia. Qed.
Lemma hset_other : forall l i j (x : hlive K L), i <> j -> nth_error (hset K L l i x) j = nth_error l j.
Proof. induction l as [|a l IH]; intros [|i] [|j] x H; cbn; try reflexivity; try congruence. apply IH. congruence. Qed.

Lemma find_ext_in : forall (A : Type) (f g : A -> bool) l, (forall x, In x l -> f x = g x) -> find f l = find g l.
Proof. induction l as [|a l IH]; intro H; [reflexivity|]. cbn. rewrite <- (H a) by (left; reflexivity). destruct (f a); [reflexivity|]. apply IH. intros y Hy. apply H. right. assumption. Qed.

Lemma keqb_neq : forall a b, a <> b -> keqb a b = false.
Proof. intros a b H. destruct (keqb a b) eqn:E; [|reflexivity]. apply keqb_eq in E. contradiction. Qed.
Lemma K_dec : forall a b : K, {a = b} + {a <> b}.
Proof. intros a b. destruct (keqb a b) eqn:E; [left; apply keqb_eq; assumption|right; intros ->; assert (keqb b b = true) by (apply keqb_eq; reflexivity); congruence]. Qed.

(* the effect of advancing a generator that is fresh or current for its key *)
Lemma advance_ok : forall s ks adv adv' i k0 b0 x, sysok s ks adv ->
  nth_error ks i = Some (k0, b0) -> nth_error (h_lives s) i = Some x ->
  (adv' = adv /\ cur ks adv k0 = Some i \/ ~ In i adv /\ adv' = i :: adv) ->
  sysok (hstep s (HNext i)) ks adv'.
Proof.
  intros s ks adv adv' i k0 b0 x (Hlen & Hadv & Hkey & Hc & Hg) Hk Hx Hcase.
  assert (Hil : (i < length ks)%nat) by (apply nth_error_Some; congruence).
  assert (Hadv' : forall j, In j adv' -> (j < length ks)%nat).
  { destruct Hcase as [[-> _]|[_ ->]]; [assumption|]. intros j [<-|Hj]; auto. }
  assert (Hcur' : cur ks adv' k0 = Some i).
  { destruct Hcase as [[-> E]|[_ ->]]; [assumption|]. unfold cur. cbn [find]. rewrite Hk. replace (keqb k0 k0) with true by (symmetry; apply keqb_eq; reflexivity). reflexivity. }
  assert (Hother : forall k, k <> k0 -> cur ks adv' k = cur ks adv k).
  { intros k Nk. destruct Hcase as [[-> E]|[_ ->]]; [reflexivity|]. unfold cur. cbn [find]. rewrite Hk, keqb_neq by congruence. reflexivity. }
  assert (Hin : In i adv') by (destruct Hcase as [[-> E]|[_ ->]]; [apply find_some in E; tauto|left; reflexivity]).
  assert (Hinc : forall j, In j adv -> In j adv') by (destruct Hcase as [[-> E]|[_ ->]]; [auto|intros; right; assumption]).
  assert (Hsub : forall j, j <> i -> ~ In j adv' -> ~ In j adv) by (intros j _ H1 H2; auto).
  cbn [M_Levels.hstep]. rewrite Hx. destruct (h_status x) eqn:Es.
  2,3: split; [assumption|]; split; [assumption|]; split; [assumption|]; split; [assumption|]; intros j k b1 y Hkj Hyj Hkok; destruct (Hg j k b1 y Hkj Hyj Hkok) as (m & A1 & A2 & A3); exists m;
    (split; [assumption|]); (split; [intro H; apply A2; intro H'; apply H; apply Hinc; assumption|]);
    intros Hcj n Hn; destruct (Nat.eq_dec j i) as [->|Nj];
    [rewrite Hk in Hkj; injection Hkj as -> ->; destruct Hcase as [[-> E]|[Hni ->]]; [apply A3; assumption|];
      destruct (A2 Hni) as [E1 E2]; unfold xcur; rewrite E1; assumption
    |destruct (K_dec k k0) as [->|Nk]; [rewrite Hcur' in Hcj; congruence|rewrite Hother in Hcj by assumption; apply A3; assumption]].
  (* running *)
  destruct (hnext (h_cache s) x) as [c' x'] eqn:En.
  assert (Ekx : h_key x = k0) by (eapply Hkey; eassumption).
  assert (Hfst : fst (hnext (h_cache s) x) = c') by (rewrite En; reflexivity).
  assert (Hsnd : snd (hnext (h_cache s) x) = x') by (rewrite En; reflexivity).
  assert (Hkx0 : forall k, k <> k0 -> hget c' k = hget (h_cache s) k).
  { intros k Nk. rewrite <- Hfst. unfold M_Levels.hnext. destruct (_ && _); [reflexivity|]. destruct (hinner _ _ _ _ _ _ _ _ _) as [[[l s']|]|e]; cbn; try reflexivity.
    destruct (_ <=? _); [apply hget_dset_other; congruence|reflexivity]. }
  assert (Ekx' : h_key x' = k0).
  { rewrite <- Hsnd. unfold M_Levels.hnext. destruct (_ && _); [assumption|]. destruct (hinner _ _ _ _ _ _ _ _ _) as [[[l s']|]|e]; cbn; assumption. }
  assert (Dec : Kok k0 -> exists n' m', cok c' k0 n' /\ xout k0 b0 x' m' /\ xcur k0 x' m' n').
  { intro Hok. destruct (Hg i k0 b0 x Hk Hx Hok) as (m & A1 & A2 & A3). destruct (Hc k0 Hok) as (n & Hn).
    rewrite <- Hfst, <- Hsnd. destruct (hnext_ok (h_cache s) k0 n b0 x m) as (n' & m' & B1 & _ & B2 & B3); try assumption; [|exists n', m'; auto].
    destruct Hcase as [[-> E]|[Hni ->]]; [apply A3; assumption|]. destruct (A2 Hni) as [E1 E2]. unfold xcur. rewrite E1. assumption. }
  assert (Hil' : (i < length (h_lives s))%nat) by (rewrite Hlen; assumption).
  split; [cbn; rewrite hset_length; assumption|]. split; [assumption|]. cbn [h_cache h_lives]. split; [|split].
  - intros j k b1 y Hkj Hyj. destruct (Nat.eq_dec i j) as [->|Nj].
    + rewrite hset_same in Hyj by assumption. congruence.
    + rewrite hset_other in Hyj by assumption. eapply Hkey; eassumption.
  - intros k Hok. destruct (K_dec k k0) as [->|Nk].
    + destruct (Dec Hok) as (n' & _ & H & _). exists n'. assumption.
    + destruct (Hc k Hok) as (n & H1 & H2). exists n. split; [|assumption]. rewrite Hkx0 by assumption. assumption.
  - intros j k b1 y Hkj Hyj Hok. destruct (Nat.eq_dec i j) as [->|Nj].
    + rewrite hset_same in Hyj by assumption. injection Hyj as <-. rewrite Hk in Hkj. injection Hkj as -> ->.
      destruct (Dec Hok) as (n' & m' & B1 & B2 & B3). exists m'. split; [assumption|]. split; [intro H; contradiction|].
      intros _ n Hn. rewrite (cok_unique _ _ _ _ Hn B1). assumption.
    + rewrite hset_other in Hyj by assumption. destruct (Hg j k b1 y Hkj Hyj Hok) as (m & A1 & A2 & A3). exists m.
      split; [assumption|]. split; [intro H; apply A2; intro H'; apply H; apply Hinc; assumption|].
      intros Hcj n [Hn1 Hn2]. destruct (K_dec k k0) as [->|Nk]; [rewrite Hcur' in Hcj; congruence|].
      rewrite Hother in Hcj by assumption. apply A3; [assumption|]. split; [|assumption]. rewrite <- Hkx0 by assumption. assumption.
Qed.

Lemma start_ok : forall s ks adv k b, sysok s ks adv -> sysok (hstep s (HStart k b)) (ks ++ [(k, b)]) adv.
Proof.
  intros s ks adv k b (Hlen & Hadv & Hkey & Hc & Hg). unfold sysok. cbn [M_Levels.hstep h_lives h_cache].
  assert (Hlast : forall i (x : hlive K L) y, nth_error (h_lives s ++ [y]) i = Some x -> nth_error (h_lives s) i = Some x \/ (i = length (h_lives s) /\ x = y)).
  { intros i x y H. destruct (lt_dec i (length (h_lives s))) as [Hi|Hi]; [left; rewrite nth_error_app1 in H by assumption; assumption|].
    right. assert (i < length (h_lives s ++ [y]))%nat by (apply nth_error_Some; congruence). rewrite app_length in H0. cbn in H0.
    assert (i = length (h_lives s)) by lia. split; [assumption|]. subst i. rewrite nth_error_app2, Nat.sub_diag in H by lia. cbn in H. congruence. }
  assert (Hadv' : forall i, In i adv -> (i < length (ks ++ [(k, b)]))%nat) by (intros i Hi; rewrite app_length; specialize (Hadv i Hi); lia).
  split; [rewrite !app_length, Hlen; reflexivity|]. split; [assumption|]. split; [|split; [assumption|]].
  - intros i k1 b1 x H1 H2. apply Hlast in H2. destruct H2 as [H2|[-> ->]].
    + rewrite nth_error_app1 in H1; [eapply Hkey; eassumption|]. rewrite <- Hlen. apply nth_error_Some. congruence.
    + rewrite nth_error_app2, Hlen, Nat.sub_diag in H1 by lia. cbn in H1. cbn. congruence.
  - intros i k1 b1 x H1 H2 Hok. apply Hlast in H2. destruct H2 as [H2|[-> ->]].
    + rewrite nth_error_app1 in H1 by (rewrite <- Hlen; apply nth_error_Some; congruence).
      destruct (Hg i k1 b1 x H1 H2 Hok) as (m & A1 & A2 & A3). exists m. split; [assumption|]. split; [assumption|].
      intros Hcur. apply A3. rewrite <- Hcur. unfold cur. apply find_ext_in. intros j Hj. rewrite nth_error_app1 by auto. reflexivity.
    + rewrite nth_error_app2, Hlen, Nat.sub_diag in H1 by lia. cbn in H1. injection H1 as <- <-. exists 0%nat. split; [|split].
      * unfold xout. cbn. repeat split; auto; try discriminate; lia.
      * intros _. split; reflexivity.
      * intros _ n _. reflexivity.
Qed.

Lemma run_ok : forall h s ks adv, sysok s ks adv -> seqok ks adv h ->
  exists adv', sysok (fold_left hstep h s) (ks ++ starts h) adv'.
Proof.
  induction h as [|a h IH]; intros s ks adv Hs Hq; [exists adv; rewrite app_nil_r; assumption|].
  cbn [fold_left]. destruct a as [k b|i].
  - cbn [starts seqok] in *. change ((k, b) :: starts h) with ([(k, b)] ++ starts h). rewrite app_assoc.
    apply (IH _ _ adv); [|assumption]. apply start_ok. assumption.
  - cbn [starts seqok] in *. destruct (nth_error ks i) as [[k b]|] eqn:Hk.
    + destruct (nth_error (h_lives s) i) as [x|] eqn:Hx.
      2:{ exfalso. apply nth_error_None in Hx. assert (i < length ks)%nat by (apply nth_error_Some; congruence). destruct Hs as (E & _). lia. }
      destruct (existsb (Nat.eqb i) adv) eqn:Ea.
      * destruct Hq as [Hcur Hq]. apply (IH _ ks adv); [|assumption]. apply (advance_ok s ks adv adv i k b x); auto.
      * apply (IH _ ks (i :: adv)); [|assumption]. apply (advance_ok s ks adv (i :: adv) i k b x); auto.
        right. split; [|reflexivity]. intro Hin. assert (existsb (Nat.eqb i) adv = true) by (apply existsb_exists; exists i; split; [assumption|apply Nat.eqb_refl]). congruence.
    + apply (IH _ ks adv); [|assumption]. cbn [M_Levels.hstep]. destruct (nth_error (h_lives s) i) eqn:Hx; [|assumption].
      exfalso. apply nth_error_None in Hk. assert (i < length (h_lives s))%nat by (apply nth_error_Some; congruence). destruct Hs as (E & _). lia.
Qed.

Lemma empty_ok : sysok {| h_cache := []; h_lives := [] |} [] [].
Proof.
  split; [reflexivity|]. split; [intros i []|]. split; [intros [|i] k b x H; discriminate|]. split.
  - intros k _. exists 0%nat. split; [reflexivity|]. intros j Hj. lia.
  - intros [|i] k b x H; discriminate.
Qed.

Lemma sequential_ok : forall h i k b0, seqok [] [] h -> nth_error (starts h) i = Some (k, b0) -> Kok k ->
  exists x m, nth_error (h_lives (hrun h)) i = Some x /\ h_key x = k /\ h_out x = map (T k) (seq 0 m) /\
    (forall j, (j < m)%nat -> emptyb (T k j) = false) /\ (forall e, h_status x <> HFailed e) /\
    (0 <= b0 -> Z.of_nat m <= b0 + 1) /\
    (h_status x = HExhausted -> (0 <= b0 /\ Z.of_nat m = b0 + 1) \/ emptyb (T k m) = true).
Proof.
  intros h i k b0 Hq Hk Hok. destruct (run_ok h _ _ _ empty_ok Hq) as (adv & Hlen & _ & _ & _ & Hg). cbn [app] in *.
  destruct (nth_error (h_lives (hrun h)) i) as [x|] eqn:Hx.
  - destruct (Hg i k b0 x Hk Hx Hok) as (m & (A1 & A2 & A3 & A4 & A5 & A6 & _) & _). exists x, m. split; [reflexivity|].
    split; [assumption|]. split; [assumption|]. split; [assumption|]. split; [assumption|]. split; assumption.
  - exfalso. apply nth_error_None in Hx. assert (i < length (starts h))%nat by (apply nth_error_Some; congruence).
    change (hrun h) with (fold_left hstep h {| h_cache := []; h_lives := [] |}) in Hx. lia.
Qed.
End LevelsF.
