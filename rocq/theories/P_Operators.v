(* C40, C41, C42 *)
From Coq Require Import List ZArith Lia Bool Ring.
From Verif Require Import PyBase FinSum M_Vectors L_Vectors M_Partitions S_Partitions L_Partitions M_Operators S_Operators
  L_Operators L_Operators2 L_Operators3 L_DualOps L_OpRemove.
Import ListNotations.
Local Open Scope Z_scope.

Section C40.
  Context {R : Type} (rO rI : R) (radd rmul rsub : R -> R -> R) (ropp : R -> R) (rzero : R -> bool) (beta : R).
  Local Notation vget := (@vget (list Z) R zlist_eqb rO).
  Local Notation vadd := (@vadd (list Z) R zlist_eqb rO radd rzero).
  Local Notation vscale := (@vscale (list Z) R zlist_eqb rO rmul rzero).
  Local Notation veq := (@veq (list Z) R zlist_eqb rO rsub rzero).
  Local Notation vwf := (@vwf (list Z) R rO).
  Local Notation op := (operator_shifted_add rO radd rmul rzero beta).
  Local Notation AL := (operator_AL rO radd rmul rzero beta).
  Local Notation AR := (operator_AR rO radd rmul rzero beta).
  (* vectors (distinct keys, nonzero coefficients) whose keys are strict partitions *)
  Local Notation strict_vec := (fun v => vwf v /\ forall mu, In mu (map fst v) -> strict_partition mu).

  (* what the operator does to one shape *)
  Definition shifted_add_action_spec : Prop :=
    ring_theory rO rI radd rmul rsub ropp (@eq R) -> (forall x, rzero x = true <-> x = rO) -> rI <> rO ->
    forall i mu, strict_partition mu -> exists w, op i (of_tuple rI rzero mu) = Ok w /\
      (corner_on mu (Z.abs i) -> forall k, vget w k = if zlist_eqb mu k then beta else rO) /\
      (forall nu, strict_partition nu -> box_added mu nu (Z.abs i) -> forall k, vget w k = if zlist_eqb nu k then rI else rO) /\
      (~ corner_on mu (Z.abs i) -> (forall nu, strict_partition nu -> ~ box_added mu nu (Z.abs i)) -> forall k, vget w k = rO).

  Definition shifted_add_linear_spec (f : list (list Z * R) -> res (list (list Z * R))) : Prop :=
    (forall v, strict_vec v -> exists w, f v = Ok w /\ strict_vec w) /\
    (forall u v u' v' w, strict_vec u -> strict_vec v -> f u = Ok u' -> f v = Ok v' -> f (vadd u v) = Ok w ->
       veq w (vadd u' v') = true) /\
    (forall u c u' w, strict_vec u -> f u = Ok u' -> f (vscale u c) = Ok w -> veq w (vscale u' c) = true) /\
    (forall u v u' v', strict_vec u -> strict_vec v -> veq u v = true -> f u = Ok u' -> f v = Ok v' -> veq u' v' = true).

  Definition shifted_add_relations_spec : Prop :=
    ring_theory rO rI radd rmul rsub ropp (@eq R) -> (forall x, rzero x = true <-> x = rO) ->
    (forall i, shifted_add_linear_spec (op i)) /\
    (* op_i op_i = beta op_i *)
    (forall i v w w', strict_vec v -> op i v = Ok w -> op i w = Ok w' -> veq w' (vscale w beta) = true) /\
    (* op_i op_j = op_j op_i *)
    (forall i j v a ab b ba, 0 <= i -> 0 <= j -> 1 < Z.abs (i - j) -> strict_vec v ->
       op i v = Ok a -> op j a = Ok ab -> op j v = Ok b -> op i b = Ok ba -> veq ab ba = true) /\
    (* op_i op_(i+1) op_i = 0 for i > 0, and op_(i+1) op_i op_(i+1) = 0 for i >= 0 *)
    (forall i v a b c, 1 <= i -> strict_vec v -> op i v = Ok a -> op (i + 1) a = Ok b -> op i b = Ok c -> vis_zero c = true) /\
    (forall i v a b c, 0 <= i -> strict_vec v -> op (i + 1) v = Ok a -> op i a = Ok b -> op (i + 1) b = Ok c -> vis_zero c = true) /\
    (* the sign of the index does not matter *)
    (forall i v, op (- i) v = op i v) /\
    (* the products of 1 + var * op_i *)
    (forall n var, shifted_add_linear_spec (AL n var) /\ shifted_add_linear_spec (AR n var)).
End C40.

Section C40Proof.
  Context {R : Type} (rO rI : R) (radd rmul rsub : R -> R -> R) (ropp : R -> R) (rzero : R -> bool) (beta : R).
  Hypothesis Rth : ring_theory rO rI radd rmul rsub ropp (@eq R).
  Hypothesis Hz : forall x, rzero x = true <-> x = rO.
  Add Ring Rring : Rth.
  Local Notation vget := (@vget (list Z) R zlist_eqb rO).
  Local Notation vadd := (@vadd (list Z) R zlist_eqb rO radd rzero).
  Local Notation vscale := (@vscale (list Z) R zlist_eqb rO rmul rzero).
  Local Notation veq := (@veq (list Z) R zlist_eqb rO rsub rzero).
  Local Notation vwf := (@vwf (list Z) R rO).
  Local Notation op := (operator_shifted_add rO radd rmul rzero beta).
  Local Notation lin := (@lin R rO radd rmul (list Z)).
  Local Notation Tdual := (Tdual rO rI rmul beta).
  Local Notation on_strict := (@on_strict R rO).
  Let Hveq := veq_spec zlist_eqb zlist_eqb_eq rO rI radd rmul rsub ropp rzero Rth Hz.
  Let Hvadd := vadd_wf zlist_eqb zlist_eqb_eq rO radd rzero Hz.
  Let Hlin := vget_lin rO rI radd rmul rsub ropp Rth.
  Let Hladd := lin_vadd zlist_eqb zlist_eqb_eq rO rI radd rmul rsub ropp rzero Rth Hz.
  Let Hlscale := lin_vscale zlist_eqb zlist_eqb_eq rO rI radd rmul rsub ropp rzero Rth Hz.
  Let Hopspec := op_spec rO rI radd rmul rsub ropp rzero beta Rth Hz.

  (* a map described by a dual map is linear *)
  Lemma linear_of_dual : forall f (D : (list Z -> R) -> list Z -> R),
    (forall v, on_strict v -> exists w, f v = Ok w /\ on_strict w /\ forall F, lin w F = lin v (D F)) ->
    shifted_add_linear_spec rO radd rmul rsub rzero f.
  Proof.
    intros f D H.
    assert (Hd : forall v w, on_strict v -> f v = Ok w -> on_strict w /\ forall F, lin w F = lin v (D F)).
    { intros v w Hv E. destruct (H v Hv) as (w' & E' & S & L). rewrite E in E'. injection E' as <-. split; assumption. }
    assert (Hsc : forall u c, on_strict u -> on_strict (vscale u c)).
    { intros u c Hu. split.
      - apply vscale_wf; [assumption|apply Hu].
      - intros k Hk. apply Hu. unfold M_Vectors.vscale in Hk. apply vmake_keys in Hk. rewrite map_map in Hk. cbn [fst] in Hk. rewrite map_id in Hk. assumption. }
    assert (Had : forall u v, on_strict u -> on_strict v -> on_strict (vadd u v)).
    { intros u v Hu Hv. split; [apply Hvadd; [apply Hu|apply Hv]|]. intros k Hk. apply vadd_keys in Hk. destruct Hk; [apply Hu|apply Hv]; assumption. }
    split; [|split; [|split]].
    - intros v Hv. destruct (H v Hv) as (w & E & S & _). exists w. split; assumption.
    - intros u v u' v' w Hu Hv E1 E2 E3. destruct (Hd _ _ Hu E1) as [S1 L1]. destruct (Hd _ _ Hv E2) as [S2 L2].
      destruct (Hd _ _ (Had u v Hu Hv) E3) as [S3 L3].
      apply (proj2 (Hveq w (vadd u' v') (proj1 S3) (Hvadd _ _ (proj1 S1) (proj1 S2)))). intro k.
      rewrite (Hlin w k (proj1 S3)), (Hlin _ k (Hvadd _ _ (proj1 S1) (proj1 S2))).
      rewrite L3, !Hladd, L1, L2 by (apply S1 || apply S2 || apply Hu || apply Hv). reflexivity.
    - intros u c u' w Hu E1 E2. destruct (Hd _ _ Hu E1) as [S1 L1]. destruct (Hd _ _ (Hsc u c Hu) E2) as [S2 L2].
      apply (proj2 (Hveq w (vscale u' c) (proj1 S2) (proj1 (Hsc u' c S1)))). intro k.
      rewrite (Hlin w k (proj1 S2)), (Hlin _ k (proj1 (Hsc u' c S1))).
      rewrite L2, !Hlscale, L1 by (apply S1 || apply Hu). reflexivity.
    - intros u v u' v' Hu Hv E E1 E2. destruct (Hd _ _ Hu E1) as [S1 L1]. destruct (Hd _ _ Hv E2) as [S2 L2].
      apply (proj2 (Hveq u' v' (proj1 S1) (proj1 S2))). intro k. rewrite !Hlin, L1, L2 by (apply S1 || apply S2).
      apply (lin_ext_get rO rI radd rmul rsub ropp Rth zlist_eqb zlist_eqb_eq); [apply Hu|apply Hv|].
      apply (proj1 (Hveq u v (proj1 Hu) (proj1 Hv)) E).
  Qed.

  Lemma op_dual : forall i v w, on_strict v -> op i v = Ok w -> on_strict w /\ forall F, lin w F = lin v (Tdual (Z.abs i) F).
  Proof.
    intros i v w Hv E. destruct (Hopspec i v Hv) as (w' & E' & S & L). rewrite E in E'. injection E' as <-. split; assumption.
  Qed.

  Lemma ladder_dual : forall var l v, on_strict v -> exists w,
    rfold (fun ans i => do w <- op i ans; Ok (vadd ans (vscale w var))) l v = Ok w /\ on_strict w /\
    forall F, lin w F = lin v (fold_right (fun i G mu => radd (G mu) (rmul var (Tdual (Z.abs i) G mu))) F l).
  Proof.
    intros var. induction l as [|i l IH]; intros v Hv.
    - exists v. split; [reflexivity|]. split; [assumption|]. reflexivity.
    - cbn [rfold]. destruct (Hopspec i v Hv) as (u & E & S & L). rewrite E. cbn [rbind].
      assert (S' : on_strict (vadd v (vscale u var))).
      { assert (W : vwf (vscale u var)) by (apply vscale_wf; [assumption|apply S]).
        split; [apply Hvadd; [apply Hv|assumption]|]. intros k Hk. apply vadd_keys in Hk. destruct Hk as [Hk|Hk]; [apply Hv; assumption|].
        apply S. unfold M_Vectors.vscale in Hk. apply vmake_keys in Hk. rewrite map_map in Hk. cbn [fst] in Hk. rewrite map_id in Hk. assumption. }
      destruct (IH _ S') as (w & Ew & Sw & Lw). exists w. split; [exact Ew|]. split; [assumption|]. intro F. rewrite Lw.
      cbn [fold_right]. set (G := fold_right _ F l).
      rewrite Hladd; [|apply Hv|apply vscale_wf; [assumption|apply S]]. rewrite Hlscale, L by apply S.
      rewrite (lin_F_plus rO rI radd rmul rsub ropp Rth v G (fun mu => rmul var (Tdual (Z.abs i) G mu))).
      rewrite (lin_F_scale rO rI radd rmul rsub ropp Rth v var). ring.
  Qed.

  Lemma relations_hold : shifted_add_relations_spec rO rI radd rmul rsub ropp rzero beta.
  Proof.
    intros _ _. split; [|split; [|split; [|split; [|split; [|split]]]]].
    - intro i. apply (linear_of_dual (op i) (Tdual (Z.abs i))). intros v Hv. apply Hopspec. assumption.
    - intros i v w w' Hv E1 E2. destruct (op_dual i v w Hv E1) as [S1 L1]. destruct (op_dual i w w' S1 E2) as [S2 L2].
      assert (W : vwf (vscale w beta)) by (apply vscale_wf; [assumption|apply S1]).
      apply (proj2 (Hveq w' (vscale w beta) (proj1 S2) W)). intro k. rewrite (Hlin w' k (proj1 S2)), (Hlin _ k W).
      rewrite L2, L1, Hlscale, L1 by apply S1. rewrite <- (lin_F_scale rO rI radd rmul rsub ropp Rth v beta).
      apply lin_F_ext. intros mu Hmu. apply (Tdual_quad rO rI radd rmul rsub ropp beta Rth); [apply Hv; assumption|lia].
    - intros i j v a ab b ba Hi Hj Hij Hv E1 E2 E3 E4.
      destruct (op_dual i v a Hv E1) as [S1 L1]. destruct (op_dual j a ab S1 E2) as [S2 L2].
      destruct (op_dual j v b Hv E3) as [S3 L3]. destruct (op_dual i b ba S3 E4) as [S4 L4].
      apply (proj2 (Hveq ab ba (proj1 S2) (proj1 S4))). intro k. rewrite !Hlin, L2, L1, L4, L3 by (apply S2 || apply S4).
      apply lin_F_ext. intros mu Hmu. apply (Tdual_comm rO rI radd rmul rsub ropp beta Rth); try (apply Hv; assumption); lia.
    - intros i v a b c Hi Hv E1 E2 E3.
      destruct (op_dual i v a Hv E1) as [S1 L1]. destruct (op_dual (i + 1) a b S1 E2) as [S2 L2]. destruct (op_dual i b c S2 E3) as [S3 L3].
      apply (vis_zero_spec zlist_eqb zlist_eqb_eq rO c (proj1 S3)).
      intro k. rewrite Hlin, L3, L2, L1 by apply S3. unfold FinSum.lin. apply (lsum_zero rO rI radd rmul rsub ropp Rth).
      intros [mu x] Hin. cbn [fst snd]. rewrite !Z.abs_eq by lia.
      rewrite (Tdual_braid1 rO rI radd rmul rsub ropp beta Rth); [ring| |lia]. apply Hv. apply (in_map fst) in Hin. exact Hin.
    - intros i v a b c Hi Hv E1 E2 E3.
      destruct (op_dual (i + 1) v a Hv E1) as [S1 L1]. destruct (op_dual i a b S1 E2) as [S2 L2]. destruct (op_dual (i + 1) b c S2 E3) as [S3 L3].
      apply (vis_zero_spec zlist_eqb zlist_eqb_eq rO c (proj1 S3)).
      intro k. rewrite Hlin, L3, L2, L1 by apply S3. unfold FinSum.lin. apply (lsum_zero rO rI radd rmul rsub ropp Rth).
      intros [mu x] Hin. cbn [fst snd]. rewrite !Z.abs_eq by lia.
      rewrite (Tdual_braid2 rO rI radd rmul rsub ropp beta Rth); [ring| |lia]. apply Hv. apply (in_map fst) in Hin. exact Hin.
    - intros i v. unfold operator_shifted_add, shifted_add_term. rewrite Z.abs_opp. reflexivity.
    - intros n var. split.
      + apply (linear_of_dual _ (fun F => fold_right (fun i G mu => radd (G mu) (rmul var (Tdual (Z.abs i) G mu))) F (zrange 0 (n + 1)))).
        intros v Hv. apply ladder_dual. assumption.
      + apply (linear_of_dual _ (fun F => fold_right (fun i G mu => radd (G mu) (rmul var (Tdual (Z.abs i) G mu))) F (rev (zrange 0 (n + 1))))).
        intros v Hv. apply ladder_dual. assumption.
  Qed.

  Lemma action_holds : shifted_add_action_spec rO rI radd rmul rsub ropp rzero beta.
  Proof.
    intros _ _ H1 i mu Hs. set (d := Z.abs i). assert (Hd : 0 <= d) by lia.
    assert (Eone : of_tuple rI rzero mu = [(mu, rI)]).
    { unfold of_tuple, vmake. cbn [filter snd]. destruct (rzero rI) eqn:E; [apply Hz in E; contradiction|reflexivity]. }
    assert (Hv : on_strict [(mu, rI)]).
    { split; [split; [repeat constructor; intros []|repeat constructor; assumption]|]. intros k [<-|[]]. assumption. }
    rewrite Eone. destruct (Hopspec i [(mu, rI)] Hv) as (w & E & S & L). exists w. split; [assumption|]. fold d in L.
    assert (Hw : forall k, vget w k = Tdual d (fun x => if zlist_eqb x k then rI else rO) mu).
    { intro k. rewrite (Hlin w k (proj1 S)), L. unfold FinSum.lin, lsum. cbn. ring. }
    split; [|split].
    - intros C k. apply (corner_on_In mu d Hs Hd) in C. rewrite Hw, (Tdual_beta rO rI rmul beta) by apply C.
      destruct (zlist_eqb mu k); ring.
    - intros nu Hn C k. destruct (proj1 (box_added_T mu nu d Hs Hd) (conj Hn C)) as (C1 & C2 & C3).
      rewrite Hw, (Tdual_add rO rI radd rmul rsub ropp beta Rth), <- C3 by assumption. reflexivity.
    - intros N1 N2 k. rewrite Hw. rewrite (corner_on_In mu d Hs Hd) in N1.
      specialize (N2 (bump_part d mu)). pose proof (box_added_T mu (bump_part d mu) d Hs Hd) as B.
      apply Tdual_none.
      + intro D. destruct (in_dec Z.eq_dec (d + 1) mu) as [I|I]; [tauto|]. destruct (proj2 B ltac:(tauto)) as [B1 B2]. exact (N2 B1 B2).
      + destruct (in_dec Z.eq_dec (d + 1) mu) as [I|I]; destruct (in_dec Z.eq_dec d mu) as [J|J]; try tauto.
  Qed.
End C40Proof.

Theorem C40_action : forall R rO rI radd rmul rsub ropp rzero beta, @shifted_add_action_spec R rO rI radd rmul rsub ropp rzero beta.
Proof. intros R rO rI radd rmul rsub ropp rzero beta Rth Hz. exact (action_holds rO rI radd rmul rsub ropp rzero beta Rth Hz Rth Hz). Qed.
Print Assumptions C40_action.

Theorem C40_relations : forall R rO rI radd rmul rsub ropp rzero beta, @shifted_add_relations_spec R rO rI radd rmul rsub ropp rzero beta.
Proof. intros R rO rI radd rmul rsub ropp rzero beta Rth Hz. exact (relations_hold rO rI radd rmul rsub ropp rzero beta Rth Hz Rth Hz). Qed.
Print Assumptions C40_relations.

(* (3,1) has a corner on diagonal 0, and a box can be added on diagonal 1; beta = 7 *)
Example C40_example :
  operator_shifted_add 0 Z.add Z.mul (Z.eqb 0) 7 0 [([3; 1], 2)] = Ok [([3; 1], 14)] /\
  operator_shifted_add 0 Z.add Z.mul (Z.eqb 0) 7 1 [([3; 1], 2); ([3; 2], 1)] = Ok [([3; 2], 9)] /\
  operator_AL 0 Z.add Z.mul (Z.eqb 0) 7 1 1 [([2], 1)] = Ok [([2], 8); ([2; 1], 1)] /\
  strict_partition [3; 1].
Proof.
  split; [vm_compute; reflexivity|]. split; [vm_compute; reflexivity|]. split; [vm_compute; reflexivity|].
  split; [repeat constructor|]. intros [|i] Hi; [reflexivity|simpl in Hi; lia].
Qed.
Example C40_example_ring : ring_theory 0 1 Z.add Z.mul Z.sub Z.opp (@eq Z) /\ (forall x, Z.eqb 0 x = true <-> x = 0) /\ 1 <> 0.
Proof. split; [exact Zth|]. split; [intro x; rewrite Z.eqb_eq; split; intro; congruence|lia]. Qed.

(* ---- C41 ---- *)
(* the coefficients of the input are ignored *)
Theorem C41_coefficients_ignored : forall R rO rI radd rmul ropp rzero (beta : R) i (v w : list (list Z * R)),
  map fst v = map fst w ->
  operator_shifted_row_remove rO rI radd rmul ropp rzero beta i v = operator_shifted_row_remove rO rI radd rmul ropp rzero beta i w /\
  operator_shifted_column_remove rO rI radd rmul ropp rzero beta i v = operator_shifted_column_remove rO rI radd rmul ropp rzero beta i w.
Proof.
  intros R rO rI radd rmul ropp rzero beta i v w H.
  assert (G : forall (f : list (list Z * R) -> list Z -> res (list (list Z * R))) (v w : list (list Z * R)) ans, map fst v = map fst w ->
            rfold (fun ans mc => f ans (fst mc)) v ans = rfold (fun ans mc => f ans (fst mc)) w ans).
  { intros f. induction v0 as [|[m x] v0 IH]; intros [|[m' y] w0] ans E; try discriminate; [reflexivity|].
    cbn [map fst] in E. injection E as -> E. cbn [rfold fst]. destruct (f ans m'); cbn [rbind]; [apply IH; assumption|reflexivity]. }
  split; unfold operator_shifted_row_remove, operator_shifted_column_remove.
  - apply (G (fun ans m => do r <- find_shifted_inner_corner m (Z.abs i);
       match r with None => Ok ans | Some row => row_remove_loop rO rI radd rmul ropp rzero beta (S (Z.to_nat (Z.abs i))) 0 row m ans end)). assumption.
  - apply (G (fun ans m => column_remove_loop rO rI radd rmul ropp rzero beta (length m) 0 (Z.abs i) m ans)). assumption.
Qed.
Print Assumptions C41_coefficients_ignored.

(* hence they are not linear: 2 * (1) and (1) have the same image, which is not 0 *)
Theorem C41_linearity_refuted : exists (mu : list Z) (c : Z) v w w',
  strict_partition mu /\ v = [(mu, 1)] /\
  operator_shifted_row_remove 0 1 Z.add Z.mul Z.opp (Z.eqb 0) 7 0 v = Ok w /\
  operator_shifted_row_remove 0 1 Z.add Z.mul Z.opp (Z.eqb 0) 7 0 (vscale zlist_eqb 0 Z.mul (Z.eqb 0) v c) = Ok w' /\
  veq zlist_eqb 0 Z.sub (Z.eqb 0) w' (vscale zlist_eqb 0 Z.mul (Z.eqb 0) w c) = false /\
  operator_shifted_column_remove 0 1 Z.add Z.mul Z.opp (Z.eqb 0) 7 0 v = Ok w /\
  operator_shifted_column_remove 0 1 Z.add Z.mul Z.opp (Z.eqb 0) 7 0 (vscale zlist_eqb 0 Z.mul (Z.eqb 0) v c) = Ok w'.
Proof.
  exists [1], 2, [([1], 1)], [([], 1)], [([], 1)]. split; [|vm_compute; repeat split].
  split; [repeat constructor|]. intros i Hi. simpl in Hi. lia.
Qed.
Print Assumptions C41_linearity_refuted.

(* what they do to one shape: the coefficient of nu is (-beta)^e when mu is nu plus a row (column) strip
   of e + 1 boxes ending (starting) on diagonal |i|, and 0 when there is no such e *)
Definition shifted_remove_spec {R} (rO rI : R) radd rmul rsub ropp rzero beta : Prop :=
  ring_theory rO rI radd rmul rsub ropp (@eq R) -> (forall x, rzero x = true <-> x = rO) ->
  forall i mu (c : R), strict_partition mu ->
  (exists w, operator_shifted_row_remove rO rI radd rmul ropp rzero beta i [(mu, c)] = Ok w /\ vwf rO w /\
     (forall nu e, strict_partition nu -> Z.of_nat e <= Z.abs i -> row_strip_added nu mu (Z.abs i - Z.of_nat e) (Z.abs i) ->
        vget zlist_eqb rO w nu = Nat.iter e (rmul (ropp beta)) rI) /\
     (forall nu, ~ (strict_partition nu /\ exists e, Z.of_nat e <= Z.abs i /\ row_strip_added nu mu (Z.abs i - Z.of_nat e) (Z.abs i)) ->
        vget zlist_eqb rO w nu = rO)) /\
  (exists w, operator_shifted_column_remove rO rI radd rmul ropp rzero beta i [(mu, c)] = Ok w /\ vwf rO w /\
     (forall nu e, strict_partition nu -> column_strip_added nu mu (Z.abs i) (Z.abs i + Z.of_nat e) ->
        vget zlist_eqb rO w nu = Nat.iter e (rmul (ropp beta)) rI) /\
     (forall nu, ~ (strict_partition nu /\ exists e, column_strip_added nu mu (Z.abs i) (Z.abs i + Z.of_nat e)) ->
        vget zlist_eqb rO w nu = rO)).

Theorem C41_single_shape : forall R rO rI radd rmul rsub ropp rzero beta, @shifted_remove_spec R rO rI radd rmul rsub ropp rzero beta.
Proof.
  intros R rO rI radd rmul rsub ropp rzero beta Rth Hz i mu c Hs. set (d := Z.abs i). assert (Hd : 0 <= d) by lia.
  assert (Hpow : forall e, negbeta_pow rI rmul ropp beta e = Nat.iter e (rmul (ropp beta)) rI).
  { induction e as [|e IH]; [reflexivity|]. cbn [negbeta_pow Nat.iter]. rewrite IH. destruct Rth. apply Rmul_comm. }
  assert (W0 : @vwf (list Z) R rO []) by (split; constructor).
  assert (A0 : forall x, radd rO x = x) by (destruct Rth; assumption).
  destruct (ksplit_ex mu d Hd) as [k HK]. split.
  - unfold operator_shifted_row_remove. fold d. cbn [rfold fst]. rewrite (find_inner_spec mu d k Hs Hd HK). cbn [rbind].
    destruct (in_dec Z.eq_dec (d + 1) mu) as [I1|I1].
    + pose proof (proj1 (ksplit_In1 mu d k Hs Hd HK) I1) as [Kp Kr].
      assert (Hrow : row mu (k - 1) = Z.of_nat (S (Z.to_nat d))) by lia.
      destruct (row_loop_spec rO rI radd rmul rsub ropp rzero beta Rth Hz (k - 1) (S (Z.to_nat d)) mu 0 [] Hs Hrow W0) as (w & Ew & Hw & W1 & W2).
      replace (Z.of_nat (k - 1) + 1) with (Z.of_nat k) in Ew by lia.
      (* no strip when d is also a part *)
      assert (Hnone : d <> 0 -> In d mu -> forall nu e, strict_partition nu -> Z.of_nat e <= d -> ~ row_strip_added nu mu (d - Z.of_nat e) d).
      { intros D I0 nu e Hn He C. apply (row_cut_strip mu nu (k - 1) d (Z.of_nat e) Hs Hn ltac:(lia) Kr) in C. destruct C as [C1 C2].
        apply (ksplit_In mu d k Hs ltac:(lia) HK) in I0. rewrite <- (C2 k) in I0 by lia.
        pose proof (L_Operators.strict_row_lt nu (k - 1) k Hn ltac:(lia)) as L.
        pose proof (row_decr nu (proj2 (strict_is_partition nu Hn)) (k - 1) k ltac:(lia)). lia. }
      assert (Hsome : forall r, r = Some (Z.of_nat k) -> exists w0, (match r with
                 | Some row => row_remove_loop rO rI radd rmul ropp rzero beta (S (Z.to_nat d)) 0 row mu []
                 | None => Ok [] end) = Ok w0 /\ w0 = w).
      { intros r ->. exists w. split; [exact Ew|reflexivity]. }
      assert (Fin : exists w0, (do r <- Ok w; Ok r) = Ok w0 /\ vwf rO w0 /\
         (forall nu e, strict_partition nu -> Z.of_nat e <= d -> row_strip_added nu mu (d - Z.of_nat e) d ->
            vget zlist_eqb rO w0 nu = Nat.iter e (rmul (ropp beta)) rI) /\
         (forall nu, ~ (strict_partition nu /\ exists e, Z.of_nat e <= d /\ row_strip_added nu mu (d - Z.of_nat e) d) ->
            vget zlist_eqb rO w0 nu = rO)).
      { exists w. split; [reflexivity|]. split; [assumption|]. split.
        - intros nu e Hn He C. rewrite (W1 nu e Hn).
          + rewrite <- Hpow. apply A0.
          + apply (row_cut_strip mu nu (k - 1) d (Z.of_nat e) Hs Hn ltac:(lia) Kr). assumption.
        - intros nu Hno. rewrite W2; [reflexivity|]. intros [Hn (t & C)]. apply Hno. split; [assumption|]. exists t.
          assert (Z.of_nat t <= d) by (destruct C as [C _]; pose proof (strict_nonneg nu (k - 1) Hn); lia).
          split; [assumption|]. apply (row_cut_strip mu nu (k - 1) d (Z.of_nat t) Hs Hn ltac:(lia) Kr). assumption. }
      destruct Fin as (w0 & F1 & F2 & F3 & F4). cbn [rbind] in F1. injection F1 as <-.
      destruct (Z.eq_dec d 0) as [D|D]; [|destruct (in_dec Z.eq_dec d mu) as [I0|I0]].
      * exists w. rewrite Ew. cbn [rbind]. split; [reflexivity|]. split; [assumption|]. split; assumption.
      * exists []. cbn [rbind]. split; [reflexivity|]. split; [assumption|]. split; [|reflexivity].
        intros nu e Hn He C. exfalso. exact (Hnone D I0 nu e Hn He C).
      * exists w. rewrite Ew. cbn [rbind]. split; [reflexivity|]. split; [assumption|]. split; assumption.
    + exists []. cbn [rbind]. split; [reflexivity|]. split; [assumption|]. split; [|reflexivity].
      intros nu e Hn He C. exfalso. apply row_strip_rows in C; [|assumption|assumption|lia]. destruct C as (p & C1 & C2 & _).
      apply I1. apply L_PartMore.strict_In_row. exists p. split; [apply row_in_range; lia|assumption].
  - unfold operator_shifted_column_remove. fold d. cbn [rfold fst].
    destruct (column_loop_spec rO rI radd rmul rsub ropp rzero beta Rth Hz (length mu) k mu d 0 [] Hs Hd HK (proj2 (proj2 HK)) W0) as (w & Ew & Hw & W1 & W2).
    rewrite Ew. cbn [rbind]. exists w. split; [reflexivity|]. split; [assumption|]. split.
    + intros nu e Hn C. rewrite (W1 nu e Hn C), <- Hpow. apply A0.
    + intros nu Hno. rewrite (W2 nu Hno). reflexivity.
Qed.
Print Assumptions C41_single_shape.
Example C41_example :
  operator_shifted_row_remove 0 1 Z.add Z.mul Z.opp (Z.eqb 0) 7 3 [([4; 1], 5)] = Ok [([3; 1], 1); ([2; 1], -7)] /\
  operator_shifted_column_remove 0 1 Z.add Z.mul Z.opp (Z.eqb 0) 7 1 [([5; 3; 2], 5)] = Ok [([5; 3; 1], 1); ([5; 2; 1], -7)].
Proof. split; vm_compute; reflexivity. Qed.

(* ---- C42 ---- *)
Theorem C42_strips : forall a b mu, strict_partition mu -> 0 <= a <= b ->
  (exists r, sh_horizontal_strip a b (Some mu) = Ok r /\
     forall nu, r = Some nu <-> strict_partition nu /\ row_strip_added mu nu a b) /\
  (exists r, sh_vertical_strip a b (Some mu) = Ok r /\
     forall nu, r = Some nu <-> strict_partition nu /\ column_strip_added mu nu a b).
Proof. intros a b mu Hs Hab. split; [apply horizontal_spec|apply vertical_spec]; assumption. Qed.
Print Assumptions C42_strips.

Theorem C42_arguments : forall a b mu,
  (0 <= a <= b -> sh_horizontal_strip a b None = Ok None /\ sh_vertical_strip a b None = Ok None) /\
  (~ (0 <= a <= b) -> sh_horizontal_strip a b mu = Err AssertionError /\ sh_vertical_strip a b mu = Err AssertionError).
Proof.
  intros a b mu. unfold sh_horizontal_strip, sh_vertical_strip. split; intro H.
  - replace ((0 <=? a) && (a <=? b)) with true by (symmetry; apply andb_true_iff; rewrite !Z.leb_le; lia). split; reflexivity.
  - replace ((0 <=? a) && (a <=? b)) with false by (symmetry; apply andb_false_iff; rewrite !Z.leb_gt; lia). split; reflexivity.
Qed.
Print Assumptions C42_arguments.

Example C42_example :
  sh_horizontal_strip 1 3 (Some [6; 1]) = Ok (Some [6; 4]) /\ sh_horizontal_strip 1 3 (Some [4; 1]) = Ok None /\
  sh_vertical_strip 1 3 (Some [5; 3; 2; 1]) = Ok (Some [5; 4; 3; 2]) /\ sh_vertical_strip 0 3 (Some [3; 2]) = Ok None /\
  strict_partition [5; 3; 2; 1].
Proof.
  repeat (split; [vm_compute; reflexivity|]). split; [repeat constructor|].
  intros i Hi. do 4 (destruct i as [|i]; [cbn; lia|]). simpl in Hi. lia.
Qed.
