(* Coefficients of polynomials are determined by the values at positive integers; the number of
   tableaux of each weight is symmetric. *)
From Coq Require Import List ZArith Lia Bool Permutation Arith.
From Verif Require Import PyBase M_Partitions S_Partitions L_Partitions L_PartBasic L_PartEnum M_Tableaux S_Tableaux M_Semistandard S_Semistandard L_Shape L_Semi L_Semi3 L_Semi4
  L_Count L_Count2 L_Count3 L_Kostka L_Sym1 L_Sym2 L_Sym3.
Import ListNotations.
Local Open Scope Z_scope.

Lemma univariate : forall A (p : nat) (R : list A) (c deg : A -> Z), (forall t, In t R -> 0 <= deg t) ->
  (forall x, 1 <= x -> zs (fun t => c t * x ^ deg t) R = 0) -> zs (fun t => if deg t =? Z.of_nat p then c t else 0) R = 0.
Proof.
  intros A p. assert (Zero : forall (R : list A) (c deg : A -> Z), (forall t, In t R -> 0 <= deg t) -> (forall x, 1 <= x -> zs (fun t => c t * x ^ deg t) R = 0) ->
    zs (fun t => if deg t =? 0 then c t else 0) R = 0).
  { intros R c deg Hd H. set (a := zs (fun t => if deg t =? 0 then c t else 0) R).
    assert (Dv : forall x, exists q, zs (fun t => c t * x ^ deg t) R = a + x * q).
    { intro x. exists (zs (fun t => if deg t =? 0 then 0 else c t * x ^ (deg t - 1)) R). unfold a. rewrite <- zs_scale, <- zs_plus. apply zs_ext. intros t Ht. specialize (Hd t Ht).
      destruct (Z.eqb_spec (deg t) 0) as [E|E]; [rewrite E; cbn; lia|]. replace (deg t) with (Z.succ (deg t - 1)) at 1 by lia. rewrite Z.pow_succ_r by lia. ring. }
    destruct (Dv (Z.abs a + 1)) as [q Q]. rewrite H in Q by lia. destruct (Z.eq_dec q 0) as [->|N]; [lia|]. exfalso.
    assert (X : Z.abs ((Z.abs a + 1) * q) = Z.abs a) by lia. rewrite Z.abs_mul in X. nia. }
  induction p as [|p IH]; intros R c deg Hd H; [apply Zero; assumption|].
  specialize (IH R (fun t => if deg t =? 0 then 0 else c t) (fun t => Z.max 0 (deg t - 1))).
  rewrite (zs_ext _ _ (fun t => if Z.max 0 (deg t - 1) =? Z.of_nat p then (if deg t =? 0 then 0 else c t) else 0)).
  - apply IH; [intros; lia|]. intros x Hx. pose proof (Zero R c deg Hd H) as Z0. specialize (H x Hx).
    assert (X : x * zs (fun t => (if deg t =? 0 then 0 else c t) * x ^ Z.max 0 (deg t - 1)) R = 0).
    { rewrite <- zs_scale. transitivity (zs (fun t => c t * x ^ deg t) R - zs (fun t => if deg t =? 0 then c t else 0) R); [|rewrite H, Z0; reflexivity].
      rewrite <- (Z.add_opp_r (zs _ R)). replace (- zs (fun t => if deg t =? 0 then c t else 0) R) with (-1 * zs (fun t => if deg t =? 0 then c t else 0) R) by lia. rewrite <- zs_scale, <- zs_plus.
      apply zs_ext. intros t Ht. specialize (Hd t Ht). destruct (Z.eqb_spec (deg t) 0) as [E|E]; [rewrite E, Z.pow_0_r; ring|].
      replace (Z.max 0 (deg t - 1)) with (deg t - 1) by lia. replace (deg t) with (Z.succ (deg t - 1)) at 2 by lia. rewrite Z.pow_succ_r by lia. ring. }
    nia.
  - intros t Ht. specialize (Hd t Ht). destruct (Z.eqb_spec (deg t) 0) as [E|E].
    + rewrite E. replace (0 =? Z.of_nat (S p)) with false by (symmetry; apply Z.eqb_neq; lia). destruct (_ =? _); reflexivity.
    + replace (Z.max 0 (deg t - 1) =? Z.of_nat p) with (deg t =? Z.of_nat (S p)); [reflexivity|]. apply eq_true_iff_eq. rewrite !Z.eqb_eq. lia.
Qed.

Fixpoint mon (xs es : list Z) : Z := match xs, es with x :: xs', e :: es' => x ^ e * mon xs' es' | _, _ => 1 end.

Lemma multivariate : forall A n (R : list A) (c : A -> Z) (w : A -> list Z), (forall t, In t R -> length (w t) = n /\ Forall (fun e => 0 <= e) (w t)) ->
  (forall xs, length xs = n -> Forall (fun x => 1 <= x) xs -> zs (fun t => c t * mon xs (w t)) R = 0) ->
  forall alpha, length alpha = n -> zs (fun t => if zlist_eqb (w t) alpha then c t else 0) R = 0.
Proof.
  intros A. induction n as [|n IH]; intros R c w Hw H alpha La.
  - destruct alpha; [|discriminate]. specialize (H [] eq_refl (Forall_nil _)). rewrite <- H. apply zs_ext. intros t Ht. destruct (Hw t Ht) as [L _]. destruct (w t); [|discriminate]. cbn. lia.
  - destruct alpha as [|a alpha]; [discriminate|]. destruct (Z_lt_le_dec a 0) as [C|C].
    { apply zs_zero. intros t Ht. destruct (Hw t Ht) as [L F]. destruct (zlist_eqb (w t) (a :: alpha)) eqn:E; [|reflexivity]. exfalso. apply zlist_eqb_eq in E. rewrite E in F. inversion F. lia. }
    pose proof (IH R (fun t => if hd 0 (w t) =? a then c t else 0) (fun t => tl (w t))) as IH'.
    rewrite (zs_ext _ _ (fun t => if zlist_eqb (tl (w t)) alpha then (if hd 0 (w t) =? a then c t else 0) else 0)).
    + apply IH'; [|intros xs Lx Fx|cbn in La; lia].
      * intros t Ht. destruct (Hw t Ht) as [L F]. destruct (w t) as [|b l]; [discriminate|]. inversion F; subst. cbn [tl]. split; [cbn in L; lia|assumption].
      * pose proof (univariate A (Z.to_nat a) R (fun t => c t * mon xs (tl (w t))) (fun t => hd 0 (w t))) as U. rewrite Z2Nat.id in U by assumption.
        transitivity (zs (fun t => if hd 0 (w t) =? a then c t * mon xs (tl (w t)) else 0) R); [|apply U].
        -- apply zs_ext. intros t _. destruct (hd 0 (w t) =? a); lia.
        -- intros t Ht. destruct (Hw t Ht) as [L F]. destruct (w t) as [|b l]; [discriminate|]. inversion F; subst. assumption.
        -- intros x Hx. transitivity (zs (fun t => c t * mon (x :: xs) (w t)) R); [|apply H; [cbn; lia|constructor; assumption]]. apply zs_ext. intros t Ht. destruct (Hw t Ht) as [L F]. destruct (w t) as [|b l]; [discriminate|]. cbn [hd tl mon]. ring.
    + intros t Ht. destruct (Hw t Ht) as [L F]. destruct (w t) as [|b l]; [discriminate|]. cbn [hd tl]. change (zlist_eqb (b :: l) (a :: alpha)) with ((b =? a) && zlist_eqb l alpha).
      destruct (b =? a), (zlist_eqb l alpha); reflexivity.
Qed.

(* exchange of two adjacent entries *)
Fixpoint sw (i : nat) (l : list Z) : list Z :=
  match i, l with O, a :: b :: l' => b :: a :: l' | S i', a :: l' => a :: sw i' l' | _, _ => l end.
Lemma sw_sw : forall i l, sw i (sw i l) = l.
Proof. induction i as [|i IH]; intros [|a l]; cbn [sw]; try reflexivity; [destruct l; reflexivity|]. rewrite IH. reflexivity. Qed.
Lemma sw_perm : forall i l, Permutation (sw i l) l.
Proof. induction i as [|i IH]; intros [|a l]; cbn [sw]; try reflexivity; [destruct l; [reflexivity|apply perm_swap]|]. constructor. apply IH. Qed.
Lemma sw_length : forall i l, length (sw i l) = length l.
Proof. intros. apply Permutation_length, sw_perm. Qed.
Lemma sw_app : forall pre a b l, sw (length pre) (pre ++ a :: b :: l) = pre ++ b :: a :: l.
Proof. induction pre as [|p pre IH]; intros a b l; [reflexivity|]. cbn [length app sw]. rewrite IH. reflexivity. Qed.
Lemma mon_sw : forall i xs es, length xs = length es -> mon (sw i xs) (sw i es) = mon xs es.
Proof.
  induction i as [|i IH]; intros [|x xs] [|e es] L; try discriminate; try reflexivity.
  - destruct xs as [|y xs], es as [|f es]; try discriminate; [reflexivity|]. cbn [sw mon]. ring.
  - cbn [sw mon]. rewrite IH by (cbn in L; lia). reflexivity.
Qed.

(* the weight, largest letter first *)
Fixpoint wts (n : nat) (T : tab) : list Z := match n with O => [] | S n' => occurrences (Z.of_nat n) T :: wts n' T end.
Lemma wts_length : forall n T, length (wts n T) = n.
Proof. induction n as [|n IH]; intro T; [reflexivity|]. cbn [wts length]. rewrite IH. reflexivity. Qed.
Lemma wts_nonneg : forall n T, Forall (fun e => 0 <= e) (wts n T).
Proof. induction n as [|n IH]; intro T; constructor; [unfold occurrences; lia|apply IH]. Qed.
Lemma monr_mon : forall ys T, monr ys T = mon ys (wts (length ys) T).
Proof. induction ys as [|y ys IH]; intro T; [reflexivity|]. cbn [monr length wts mon]. rewrite IH. reflexivity. Qed.
Lemma wts_nth : forall n T k, (k < n)%nat -> nth k (wts n T) 0 = occurrences (Z.of_nat (n - k)) T.
Proof. induction n as [|n IH]; intros T k H; [lia|]. destruct k as [|k]; [reflexivity|]. cbn [wts nth]. rewrite IH by lia. f_equal. Qed.

(* a family of polynomials symmetric in its arguments has symmetric coefficients *)
Lemma symmetric_coefficients : forall A n (R : list A) (w : A -> list Z), (forall t, In t R -> length (w t) = n /\ Forall (fun e => 0 <= e) (w t)) ->
  (forall xs ys, Permutation xs ys -> length xs = n -> Forall (fun x => 1 <= x) xs -> zs (fun t => mon xs (w t)) R = zs (fun t => mon ys (w t)) R) ->
  forall alpha beta, Permutation alpha beta -> length alpha = n ->
    zs (fun t => if zlist_eqb (w t) alpha then 1 else 0) R = zs (fun t => if zlist_eqb (w t) beta then 1 else 0) R.
Proof.
  intros A n R w Hw H.
  assert (Sw : forall i alpha, length alpha = n -> zs (fun t => if zlist_eqb (w t) alpha then 1 else 0) R = zs (fun t => if zlist_eqb (w t) (sw i alpha) then 1 else 0) R).
  { intros i alpha La.
    set (R2 := map (fun t => (t, true)) R ++ map (fun t => (t, false)) R).
    set (w2 := fun tb : A * bool => if snd tb then w (fst tb) else sw i (w (fst tb))).
    set (c2 := fun tb : A * bool => if snd tb then 1 else -1).
    assert (Split : forall g : A * bool -> Z, zs g R2 = zs (fun t => g (t, true)) R + zs (fun t => g (t, false)) R) by (intro g; unfold R2; rewrite zs_app, !zs_map; reflexivity).
    assert (M : zs (fun tb => if zlist_eqb (w2 tb) alpha then c2 tb else 0) R2 = 0).
    { apply (multivariate _ n R2 c2 w2); [| |assumption].
      - intros [t b] Ht. assert (Hin : In t R) by (unfold R2 in Ht; apply in_app_or in Ht; destruct Ht as [Ht|Ht]; apply in_map_iff in Ht; destruct Ht as (? & E & Ht); injection E as <- _; assumption).
        destruct (Hw t Hin) as [L F]. unfold w2. cbn [fst snd]. destruct b; [split; assumption|]. split; [rewrite sw_length; assumption|].
        apply Forall_forall. intros e He. rewrite Forall_forall in F. apply F. apply (Permutation_in _ (sw_perm i (w t))). assumption.
      - intros xs Lx Fx. rewrite Split. unfold c2, w2. cbn [fst snd].
        rewrite (zs_ext _ (fun t => 1 * mon xs (w t)) (fun t => mon xs (w t))) by (intros; lia).
        rewrite (zs_ext _ (fun t => -1 * mon xs (sw i (w t))) (fun t => -1 * mon (sw i xs) (w t))).
        + rewrite zs_scale. rewrite <- (H xs (sw i xs)) by (assumption || symmetry; apply sw_perm). lia.
        + intros t Ht. destruct (Hw t Ht) as [L _]. rewrite <- (mon_sw i (sw i xs) (w t)) by (rewrite sw_length; lia). rewrite sw_sw. reflexivity. }
    rewrite Split in M. unfold c2, w2 in M. cbn [fst snd] in M.
    rewrite (zs_ext _ (fun t => if zlist_eqb (sw i (w t)) alpha then -1 else 0) (fun t => -1 * (if zlist_eqb (w t) (sw i alpha) then 1 else 0))) in M.
    - rewrite zs_scale in M. lia.
    - intros t _. replace (zlist_eqb (sw i (w t)) alpha) with (zlist_eqb (w t) (sw i alpha)); [destruct (zlist_eqb (w t) (sw i alpha)); reflexivity|].
      apply eq_true_iff_eq. rewrite !zlist_eqb_eq. split; [intros ->; apply sw_sw|intros <-; symmetry; apply sw_sw]. }
  assert (Pre : forall alpha beta, Permutation alpha beta -> forall pre, length (pre ++ alpha) = n ->
    zs (fun t => if zlist_eqb (w t) (pre ++ alpha) then 1 else 0) R = zs (fun t => if zlist_eqb (w t) (pre ++ beta) then 1 else 0) R).
  { induction 1 as [|x a b P IH|x y l|a b c P1 IH1 P2 IH2]; intros pre Lp.
    - reflexivity.
    - specialize (IH (pre ++ [x])). rewrite <- !app_assoc in IH. apply IH. rewrite <- Lp. reflexivity.
    - rewrite (Sw (length pre) _ Lp), sw_app. reflexivity.
    - rewrite (IH1 pre Lp). apply IH2. rewrite <- Lp, !app_length, (Permutation_length P1). reflexivity. }
  intros alpha beta P La. apply (Pre alpha beta P []). assumption.
Qed.

(* counting by an indicator *)
Lemma zs_indicator : forall A (f : A -> bool) R, zs (fun t => if f t then 1 else 0) R = Z.of_nat (length (filter f R)).
Proof. intros A f R. induction R as [|a R IH]; [reflexivity|]. rewrite zs_cons, IH. cbn [filter]. destruct (f a); cbn [length]; lia. Qed.
Lemma cardinality_indicator : forall A (f : A -> bool) R (P : A -> Prop), NoDup R -> (forall t, In t R -> (f t = true <-> P t)) ->
  cardinality (fun t => In t R /\ P t) (zs (fun t => if f t then 1 else 0) R).
Proof.
  intros A f R P N H. exists (filter f R). split; [apply NoDup_filter; assumption|]. split; [|symmetry; apply zs_indicator].
  intro t. rewrite filter_In. split; intros [H1 H2]; (split; [assumption|apply H; assumption]).
Qed.

(* the weight as a list, letter 1 first *)
Lemma has_weight_wts : forall n T alpha, length alpha = n -> (forall m, Z.of_nat n < m -> occurrences m T = 0) ->
  (zlist_eqb (wts n T) (rev alpha) = true <-> has_weight alpha T).
Proof.
  intros n T alpha La Hz. rewrite zlist_eqb_eq. unfold has_weight. split.
  - intros E k. destruct (le_lt_dec n k) as [C|C]; [rewrite Hz by lia; rewrite nth_overflow by lia; reflexivity|].
    pose proof (wts_nth n T (n - S k) ltac:(lia)) as X. rewrite E in X. rewrite rev_nth in X by lia. rewrite La in X. replace (n - S (n - S k))%nat with k in X by lia.
    replace (Z.of_nat (n - (n - S k))) with (Z.of_nat k + 1) in X by lia. symmetry. exact X.
  - intro H. apply nth_ext with (d := 0) (d' := 0); [rewrite wts_length, rev_length; congruence|]. intros k Hk. rewrite wts_length in Hk. rewrite wts_nth by assumption.
    rewrite rev_nth by lia. rewrite La, <- H. f_equal. lia.
Qed.
