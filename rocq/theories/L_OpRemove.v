From Coq Require Import List ZArith Lia Bool Ring.
From Verif Require Import PyBase FinSum M_Vectors L_Vectors M_Perm M_Partitions S_Partitions L_Partitions L_PartBasic L_PartEnum L_PartMore L_PartCorners
  M_Operators S_Operators L_Operators L_Operators2 L_DualOps.
Import ListNotations.
Local Open Scope Z_scope.

Lemma strict_of_pos_rows : forall nu, Forall (fun a => 0 < a) nu ->
  (forall i, 0 < row nu (S i) -> row nu (S i) < row nu i) -> strict_partition nu.
Proof.
  intros nu Hp H. split; [assumption|]. intros i Hi. apply H. apply row_pos; assumption.
Qed.

(* nu is cur with t boxes removed from row p *)
Definition row_cut (cur nu : list Z) (p : nat) (t : Z) : Prop :=
  row nu p = row cur p - t /\ forall i, i <> p -> row nu i = row cur i.

Lemma remove_shifted_none : forall mu k, Forall (fun a => 0 < a) mu -> (k < length mu)%nat -> ~ removable 1 mu k ->
  remove_shifted_inner_corner mu (Z.of_nat k + 1) = Ok None.
Proof.
  intros mu k Hp Hk H. destruct (remove_shifted_inner_corner mu (Z.of_nat k + 1)) as [[r|]|e] eqn:E.
  - exfalso. apply H. apply (remove_shifted_inner_corner_removable mu k r); assumption.
  - reflexivity.
  - exfalso. unfold remove_shifted_inner_corner in E. destruct mu as [|a mu]; [simpl in Hk; lia|].
    repeat match type of E with (if ?b then _ else _) = _ => destruct b end; discriminate.
Qed.

Section Remove.
  Context {R : Type} (rO rI : R) (radd rmul rsub : R -> R -> R) (ropp : R -> R) (rzero : R -> bool) (beta : R).
  Hypothesis Rth : ring_theory rO rI radd rmul rsub ropp (@eq R).
  Hypothesis Hz : forall x, rzero x = true <-> x = rO.
  Add Ring Rring : Rth.
  Local Notation vget := (@vget (list Z) R zlist_eqb rO).
  Local Notation vadd := (@vadd (list Z) R zlist_eqb rO radd rzero).
  Local Notation vmake := (@vmake (list Z) R rzero).
  Local Notation vwf := (@vwf (list Z) R rO).
  Local Notation bpow := (negbeta_pow rI rmul ropp beta).

  Lemma single_wf : forall (k : list Z) c, vwf (vmake [(k, c)]).
  Proof. intros. apply vmake_wf; [assumption|]. repeat constructor. intros []. Qed.

  Lemma vadd_single_get : forall ans k c m, vwf ans ->
    vget (vadd ans (vmake [(k, c)])) m = radd (vget ans m) (if zlist_eqb k m then c else rO).
  Proof.
    intros ans k c m Ha. rewrite (vadd_get zlist_eqb zlist_eqb_eq rO rI radd rmul rsub ropp rzero Rth Hz) by (assumption || apply single_wf).
    rewrite (vget_vmake zlist_eqb zlist_eqb_eq rO rzero Hz) by (repeat constructor; intros []). f_equal. unfold M_Vectors.vget, dget0, dget.
    destruct (zlist_eqb k m); reflexivity.
  Qed.

  Lemma vadd_single_wf : forall ans k c, vwf ans -> vwf (vadd ans (vmake [(k, c)])).
  Proof. intros. apply (vadd_wf zlist_eqb zlist_eqb_eq rO radd rzero Hz); [assumption|apply single_wf]. Qed.

  Lemma row_loop_spec : forall p i1 cur e ans, strict_partition cur -> row cur p = Z.of_nat i1 -> vwf ans ->
    exists w, row_remove_loop rO rI radd rmul ropp rzero beta i1 e (Z.of_nat p + 1) cur ans = Ok w /\ vwf w /\
      (forall nu t, strict_partition nu -> row_cut cur nu p (Z.of_nat t + 1) -> vget w nu = radd (vget ans nu) (bpow (e + t))) /\
      (forall nu, ~ (strict_partition nu /\ exists t, row_cut cur nu p (Z.of_nat t + 1)) -> vget w nu = vget ans nu).
  Proof.
    intros p. induction i1 as [|i1 IH]; intros cur e ans Hs Hr Ha.
    - exists ans. split; [reflexivity|]. split; [assumption|]. split; [|reflexivity].
      intros nu t Hn [C _]. pose proof (strict_nonneg nu p Hn). lia.
    - assert (Hp : (p < length cur)%nat) by (apply row_in_range; lia). cbn [row_remove_loop].
      assert (Hdec : removable 1 cur p \/ ~ removable 1 cur p).
      { unfold removable. destruct (Nat.eq_dec (S p) (length cur)) as [E|E]; [left; right; assumption|].
        destruct (Z_lt_le_dec (row cur (S p) + 1) (row cur p)) as [L|L]; [left; left; split; [lia|assumption]|right].
        intros [[_ C]|C]; [lia|contradiction]. }
      destruct Hdec as [Hrem|Hrem].
      + destruct (remove_shifted_inner_corner_ok cur p (proj1 Hs) Hrem) as (r & Er & Hpos & Hrow). rewrite Er. cbn [rbind].
        assert (Hsr : strict_partition r).
        { apply strict_of_pos_rows; [assumption|]. intros i Hi. rewrite !Hrow in *.
          destruct (Nat.eqb_spec (S i) p) as [E|E].
          - replace (i =? p)%nat with false by (symmetry; apply Nat.eqb_neq; lia).
            pose proof (strict_row_lt cur i (S i) Hs ltac:(lia)). subst p.
            pose proof (row_decr cur (proj2 (strict_is_partition cur Hs)) i (S i) ltac:(lia)). lia.
          - destruct (Nat.eqb_spec i p) as [E'|E'].
            + subst i. destruct Hrem as [[_ C]|C]; [lia|]. rewrite (row_overflow cur (S p)) in Hi by lia. lia.
            + pose proof (row_decr cur (proj2 (strict_is_partition cur Hs)) i (S i) ltac:(lia)).
              pose proof (strict_row_lt cur i (S i) Hs ltac:(lia) ltac:(lia)). lia. }
        assert (Hrp : row r p = Z.of_nat i1) by (rewrite Hrow, Nat.eqb_refl; lia).
        assert (Hro : forall i, i <> p -> row r i = row cur i).
        { intros i Hi. rewrite Hrow. destruct (Nat.eqb_spec i p); [contradiction|lia]. }
        destruct (IH r (S e) (vadd ans (vmake [(r, bpow e)])) Hsr Hrp (vadd_single_wf _ _ _ Ha)) as (w & Ew & Hw & W1 & W2).
        exists w. split; [exact Ew|]. split; [assumption|].
        assert (Self : vget w r = radd (vget ans r) (bpow e)).
        { rewrite W2.
          - rewrite vadd_single_get by assumption. rewrite zlist_eqb_refl. reflexivity.
          - intros [_ (t & C & _)]. lia. }
        split.
        * intros nu t Hn [C1 C2]. destruct t as [|t].
          -- assert (nu = r) as ->.
             { apply pos_ext; [apply Hn|assumption|]. intro i. destruct (Nat.eq_dec i p) as [->|N]; [lia|]. rewrite C2, Hro by assumption. reflexivity. }
             rewrite Self, Nat.add_0_r. reflexivity.
          -- rewrite (W1 nu t Hn).
             ++ rewrite vadd_single_get by assumption. destruct (zlist_eqb r nu) eqn:Q.
                ** apply zlist_eqb_eq in Q. subst nu. lia.
                ** replace (e + S t)%nat with (S e + t)%nat by lia. ring.
             ++ split; [lia|]. intros i Hi. rewrite C2, Hro by assumption. reflexivity.
        * intros nu Hno. rewrite W2.
          -- rewrite vadd_single_get by assumption. destruct (zlist_eqb r nu) eqn:Q; [|ring].
             exfalso. apply zlist_eqb_eq in Q. subst nu. apply Hno. split; [assumption|]. exists 0%nat.
             split; [lia|assumption].
          -- intros [Hn (t & C1 & C2)]. apply Hno. split; [assumption|]. exists (S t). split; [lia|].
             intros i Hi. rewrite C2, Hro by assumption. reflexivity.
      + rewrite (remove_shifted_none cur p (proj1 Hs) Hp Hrem). cbn [rbind]. exists ans. split; [reflexivity|]. split; [assumption|].
        assert (Hno : forall nu t, strict_partition nu -> row_cut cur nu p (Z.of_nat t + 1) -> False).
        { intros nu t Hn [C1 C2]. apply Hrem. unfold removable.
          destruct (Nat.eq_dec (S p) (length cur)) as [E|E]; [right; assumption|left]. split; [lia|].
          pose proof (row_pos cur (S p) (proj1 Hs) ltac:(lia)). pose proof (strict_nonneg nu p Hn).
          assert (0 < row nu (S p)) by (rewrite C2 by lia; assumption).
          assert (P : 0 < row nu p).
          { pose proof (row_decr nu (proj2 (strict_is_partition nu Hn)) p (S p) ltac:(lia)). lia. }
          pose proof (strict_row_lt nu p (S p) Hn ltac:(lia) P) as D. rewrite (C2 (S p)) in D by lia. lia. }
        split; [intros nu t Hn C; destruct (Hno nu t Hn C)|reflexivity].
  Qed.

  (* t boxes removed from row p of length d + 1, as cells *)
  Lemma row_cut_strip : forall cur nu p d t, strict_partition cur -> strict_partition nu -> 0 <= t <= d -> row cur p = d + 1 ->
    (row_cut cur nu p (t + 1) <-> row_strip_added nu cur (d - t) d).
  Proof.
    intros cur nu p d t Hc Hn Ht Hp. rewrite (row_strip_rows nu cur (d - t) d Hn Hc ltac:(lia)). split.
    - intros [E1 E2]. exists p. split; [lia|]. split; [assumption|]. intros i Hi. symmetry. apply E2. assumption.
    - intros (q & E1 & E2 & E3). assert (q = p).
      { apply (strict_row_inj cur q p Hc); [apply row_in_range; lia|apply row_in_range; lia|lia]. }
      subst q. split; [lia|]. intros i Hi. symmetry. apply E3. assumption.
  Qed.

  Lemma column_loop_spec : forall fuel k cur i e ans, strict_partition cur -> 0 <= i -> ksplit cur i k -> (k <= fuel)%nat -> vwf ans ->
    exists w, column_remove_loop rO rI radd rmul ropp rzero beta fuel e i cur ans = Ok w /\ vwf w /\
      (forall nu t, strict_partition nu -> column_strip_added nu cur i (i + Z.of_nat t) -> vget w nu = radd (vget ans nu) (bpow (e + t))) /\
      (forall nu, ~ (strict_partition nu /\ exists t, column_strip_added nu cur i (i + Z.of_nat t)) -> vget w nu = vget ans nu).
  Proof.
    induction fuel as [|fuel IH]; intros k cur i e ans Hs Hi HK Hk Ha.
    - assert (k = 0%nat) by lia. subst k. cbn [column_remove_loop]. rewrite (find_inner_spec cur i 0 Hs Hi HK). cbn [rbind].
      assert (N1 : ~ In (i + 1) cur) by (rewrite (ksplit_In1 cur i 0 Hs Hi HK); lia).
      destruct (in_dec Z.eq_dec (i + 1) cur); [contradiction|]. exists ans. split; [reflexivity|]. split; [assumption|].
      split; [|reflexivity]. intros nu t Hn C. exfalso. apply column_strip_rows in C; [|assumption|assumption|lia].
      destruct C as (q & p & C1 & C2 & C3 & _). destruct (C3 p ltac:(lia)) as [D1 D2]. apply N1.
      apply strict_In_row. exists p. split; [apply row_in_range; lia|lia].
    - assert (Hcase : (In (i + 1) cur /\ (i = 0 \/ ~ In i cur)) \/ ~ (In (i + 1) cur /\ (i = 0 \/ ~ In i cur))).
      { destruct (in_dec Z.eq_dec (i + 1) cur), (Z.eq_dec i 0), (in_dec Z.eq_dec i cur); tauto. }
      (* any strip forces a corner *)
      assert (Only : forall nu t, strict_partition nu -> column_strip_added nu cur i (i + Z.of_nat t) ->
                 (In (i + 1) cur /\ (i = 0 \/ ~ In i cur)) /\ exists q, (q <= k - 1)%nat /\ (0 < k)%nat /\ Z.of_nat (k - 1) - Z.of_nat q = Z.of_nat t /\
                   (forall j, (q <= j <= k - 1)%nat -> row nu j = i + (Z.of_nat (k - 1) - Z.of_nat j) /\ row cur j = row nu j + 1) /\
                   (forall j, ~ (q <= j <= k - 1)%nat -> row cur j = row nu j)).
      { intros nu t Hn C. apply column_strip_rows in C; [|assumption|assumption|lia].
        destruct C as (q & p & C1 & C2 & C3 & C4). destruct (C3 p ltac:(lia)) as [D1 D2].
        assert (I1 : In (i + 1) cur) by (apply strict_In_row; exists p; split; [apply row_in_range; lia|lia]).
        split.
        - split; [assumption|]. destruct (Z.eq_dec i 0) as [|Ni]; [left; assumption|right]. intro I0.
          apply strict_In_row in I0. destruct I0 as (x & Lx & Ex).
          destruct (le_lt_dec q x) as [L1|L1]; [destruct (le_lt_dec x p) as [L2|L2]|].
          + destruct (C3 x ltac:(lia)). lia.
          + rewrite (C4 x) in Ex by lia. pose proof (strict_row_inj nu x p Hn) as J.
            assert (x = p) by (apply J; [apply row_in_range; lia|apply row_in_range; lia|lia]). lia.
          + rewrite (C4 x) in Ex by lia. pose proof (strict_row_inj nu x p Hn) as J.
            assert (x = p) by (apply J; [apply row_in_range; lia|apply row_in_range; lia|lia]). lia.
        - apply (ksplit_In1 cur i k Hs Hi HK) in I1. destruct I1 as [P0 P1].
          assert (p = (k - 1)%nat) by (apply (strict_row_inj cur p (k - 1) Hs); [apply row_in_range; lia|apply row_in_range; lia|lia]).
          subst p. exists q. split; [assumption|]. split; [assumption|]. split; [lia|]. split; [exact C3|exact C4]. }
      cbn [column_remove_loop]. rewrite (find_inner_spec cur i k Hs Hi HK). cbn [rbind].
      destruct Hcase as [[I1 I0]|Hno].
      + assert (E : (if in_dec Z.eq_dec (i + 1) cur then if Z.eq_dec i 0 then Some (Z.of_nat k) else if in_dec Z.eq_dec i cur then None else Some (Z.of_nat k) else None) = Some (Z.of_nat k)).
        { destruct (in_dec Z.eq_dec (i + 1) cur), (Z.eq_dec i 0), (in_dec Z.eq_dec i cur); tauto. }
        rewrite E. clear E. pose proof (proj1 (ksplit_In1 cur i k Hs Hi HK) I1) as [Kp Kr]. pose proof HK as (K1 & K2 & K3).
        set (p := (k - 1)%nat) in *. assert (Ek : k = S p) by lia.
        assert (Hnext : row cur (S p) < i \/ (i = 0 /\ row cur (S p) = 0)).
        { rewrite <- Ek. pose proof (strict_nonneg cur k Hs). destruct (Z.eq_dec i 0) as [|Ni]; [right; lia|left].
          destruct I0 as [I0|I0]; [lia|]. rewrite (ksplit_In cur i k Hs ltac:(lia) HK) in I0. lia. }
        assert (Hrem : removable 0 cur p).
        { unfold removable. destruct (Nat.eq_dec (S p) (length cur)) as [Q|Q]; [right; assumption|left]. split; [lia|]. lia. }
        destruct (remove_inner_corner_ok cur p (proj1 Hs) Hrem) as (r & Er & Hpos & Hrow).
        replace (Z.of_nat k) with (Z.of_nat p + 1) by lia. rewrite Er. cbn [rbind].
        assert (Hro : forall x, x <> p -> row r x = row cur x).
        { intros x Hx. rewrite Hrow. destruct (Nat.eqb_spec x p); [contradiction|lia]. }
        assert (Hrp : row r p = i) by (rewrite Hrow, Nat.eqb_refl; lia).
        assert (Hsr : strict_partition r).
        { apply strict_of_pos_rows; [assumption|]. intros x Hx. destruct (Nat.eq_dec (S x) p) as [Q|Q].
          - rewrite Q in *. rewrite Hrp, (Hro x) by lia. pose proof (strict_row_lt cur x p Hs ltac:(lia)).
            pose proof (row_decr cur (proj2 (strict_is_partition cur Hs)) x p ltac:(lia)). lia.
          - destruct (Nat.eq_dec x p) as [->|Q'].
            + rewrite (Hro (S p)) in * by lia. lia.
            + rewrite !Hro in * by lia. pose proof (row_decr cur (proj2 (strict_is_partition cur Hs)) x (S x) ltac:(lia)).
              apply strict_row_lt; [assumption|lia|lia]. }
        assert (HK' : ksplit r (i + 1) p).
        { split; [|split; [lia|]].
          - intros x Hx. rewrite Hro by lia. pose proof (strict_row_lt cur x p Hs Hx ltac:(pose proof (K1 x ltac:(lia)); lia)). lia.
          - destruct (Nat.le_gt_cases p (length r)) as [|C]; [assumption|]. exfalso.
            pose proof (Hro (length r) ltac:(lia)) as Q. rewrite row_overflow in Q by lia.
            pose proof (K1 (length r) ltac:(lia)). lia. }
        destruct (IH p r (i + 1) (S e) (vadd ans (vmake [(r, bpow e)])) Hsr ltac:(lia) HK' ltac:(lia) (vadd_single_wf _ _ _ Ha)) as (w & Ew & Hw & W1 & W2).
        exists w. split; [exact Ew|]. split; [assumption|].
        (* strips of cur and of r *)
        assert (S0 : forall nu, strict_partition nu -> (column_strip_added nu cur i (i + Z.of_nat 0) <-> nu = r)).
        { intros nu Hn. split.
          - intro C. destruct (Only nu 0%nat Hn C) as (_ & q & Q1 & Q2 & Q3 & Q4 & Q5). fold p in Q1, Q2, Q3, Q4, Q5. assert (q = p) by lia. subst q.
            destruct (Q4 p ltac:(lia)) as [Q6 Q7].
            apply pos_ext; [apply Hn|assumption|]. intro x. destruct (Nat.eq_dec x p) as [->|Nx]; [lia|].
            rewrite Hro by assumption. symmetry. apply Q5. lia.
          - intros ->. apply column_strip_rows; [assumption|assumption|lia|]. exists p, p. split; [lia|]. split; [lia|]. split.
            + intros x Hx. replace x with p by lia. lia.
            + intros x Hx. symmetry. apply Hro. lia. }
        assert (S1 : forall nu t, strict_partition nu ->
                   (column_strip_added nu cur i (i + Z.of_nat (S t)) <-> column_strip_added nu r (i + 1) (i + 1 + Z.of_nat t))).
        { intros nu t Hn. split.
          - intro C. destruct (Only nu (S t) Hn C) as (_ & q & Q1 & Q2 & Q3 & Q4 & Q5). fold p in Q1, Q2, Q3, Q4, Q5.
            apply column_strip_rows; [assumption|assumption|lia|]. exists q, (p - 1)%nat. split; [lia|]. split; [lia|]. split.
            + intros x Hx. destruct (Q4 x ltac:(lia)) as [Q6 Q7]. rewrite Hro by lia. lia.
            + intros x Hx. destruct (Nat.eq_dec x p) as [->|Nx].
              * destruct (Q4 p ltac:(lia)). lia.
              * rewrite Hro by assumption. apply Q5. lia.
          - intro C. apply column_strip_rows in C; [|assumption|assumption|lia]. destruct C as (q & p' & C1 & C2 & C3 & C4).
            destruct (C3 p' ltac:(lia)) as [D1 D2].
            assert (Lp' : (p' < p)%nat).
            { destruct (Nat.lt_ge_cases p' p) as [|L]; [assumption|]. pose proof (row_decr r (proj2 (strict_is_partition r Hsr)) p p' L). lia. }
            assert (Ep' : p' = (p - 1)%nat).
            { destruct (Nat.eq_dec p' (p - 1)) as [|L]; [assumption|]. exfalso.
              pose proof (strict_row_lt r p' (p - 1) Hsr ltac:(lia) ltac:(lia)) as L1. rewrite (Hro (p - 1)%nat) in L1 by lia.
              pose proof (strict_row_lt cur (p - 1) p Hs ltac:(lia) ltac:(pose proof (K1 (p-1)%nat ltac:(lia)); lia)). lia. }
            subst p'. apply column_strip_rows; [assumption|assumption|lia|]. exists q, p. split; [lia|]. split; [lia|]. split.
            + intros x Hx. destruct (Nat.eq_dec x p) as [->|Nx].
              * pose proof (C4 p ltac:(lia)). lia.
              * destruct (C3 x ltac:(lia)) as [F1 F2]. rewrite Hro in F2 by assumption. lia.
            + intros x Hx. rewrite <- (Hro x) by lia. apply C4. lia. }
        assert (Self : vget w r = radd (vget ans r) (bpow e)).
        { rewrite W2.
          - rewrite vadd_single_get by assumption. rewrite zlist_eqb_refl. reflexivity.
          - intros [_ (t & C)]. apply column_strip_rows in C; [|assumption|assumption|lia].
            destruct C as (q & p' & C1 & C2 & C3 & _). destruct (C3 p' ltac:(lia)). lia. }
        split.
        * intros nu [|t] Hn C.
          -- apply S0 in C; [|assumption]. subst nu. rewrite Self, Nat.add_0_r. reflexivity.
          -- assert (Nr : zlist_eqb r nu = false).
             { apply not_true_iff_false. intro Q. apply zlist_eqb_eq in Q. subst nu.
               destruct (Only r (S t) Hn C) as (_ & q & Q1 & Q2 & Q3 & Q4 & Q5). fold p in Q1, Q2, Q3, Q4, Q5.
               destruct (Q4 q ltac:(lia)) as [Q6 Q7]. rewrite (Hro q) in * by lia. lia. }
             apply S1 in C; [|assumption]. rewrite (W1 nu t Hn C), vadd_single_get by assumption. rewrite Nr.
             replace (e + S t)%nat with (S e + t)%nat by lia. ring.
        * intros nu Hno. rewrite W2.
          -- rewrite vadd_single_get by assumption. destruct (zlist_eqb r nu) eqn:Q; [|ring].
             exfalso. apply zlist_eqb_eq in Q. subst nu. apply Hno. split; [assumption|]. exists 0%nat. apply S0; [assumption|reflexivity].
          -- intros [Hn (t & C)]. apply Hno. split; [assumption|]. exists (S t). apply S1; assumption.
      + assert (E : (if in_dec Z.eq_dec (i + 1) cur then if Z.eq_dec i 0 then Some (Z.of_nat k) else if in_dec Z.eq_dec i cur then None else Some (Z.of_nat k) else None) = None).
        { destruct (in_dec Z.eq_dec (i + 1) cur), (Z.eq_dec i 0), (in_dec Z.eq_dec i cur); tauto. }
        rewrite E. exists ans. split; [reflexivity|]. split; [assumption|]. split; [|reflexivity].
        intros nu t Hn C. exfalso. apply Hno. apply (Only nu t Hn C).
  Qed.
End Remove.
