From Coq Require Import List ZArith Lia Bool Permutation Sorted Ring.
From Verif Require Import PyBase FinSum M_Vectors L_Vectors M_Perm M_Partitions S_Partitions L_Partitions L_PartBasic L_PartMore L_PartCorners
  M_Operators S_Operators L_Operators.
Import ListNotations.
Local Open Scope Z_scope.

(* ---- cells ---- *)
Lemma scell_diag : forall mu r d, shifted_cell mu r (r + d) <-> 1 <= r /\ 0 <= d /\ d < row mu (Z.to_nat (r - 1)).
Proof. intros. unfold shifted_cell. lia. Qed.

Lemma corner_on_In : forall mu d, strict_partition mu -> 0 <= d ->
  (corner_on mu d <-> In (d + 1) mu /\ (d = 0 \/ ~ In d mu)).
Proof.
  intros mu d Hs Hd. destruct (ksplit_ex mu d Hd) as [k HK]. pose proof HK as (K1 & K2 & K3).
  rewrite (ksplit_In1 mu d k Hs Hd HK). split.
  - intros (r & C1 & C2 & C3). apply scell_diag in C1. destruct C1 as (R1 & _ & R2).
    set (p := Z.to_nat (r - 1)) in *. assert (Er : r = Z.of_nat p + 1) by lia.
    rewrite Er in C2, C3. replace (Z.of_nat p + 1 + d + 1) with (Z.of_nat p + 1 + (d + 1)) in C3 by lia.
    rewrite scell_diag in C3. replace (Z.to_nat (Z.of_nat p + 1 - 1)) with p in C3 by lia.
    replace (Z.of_nat p + 1 + 1) with (Z.of_nat (S p) + 1) in C2 by lia. rewrite scell_row in C2.
    assert (Ek : k = S p).
    { apply (ksplit_unique mu d); [assumption|]. split; [|split].
      - intros i Hi. pose proof (row_decr mu (proj2 (strict_is_partition mu Hs)) i p ltac:(lia)). lia.
      - pose proof (strict_row_lt mu p (S p) Hs ltac:(lia) ltac:(lia)). lia.
      - pose proof (row_in_range mu p ltac:(lia)). lia. }
    subst k. rewrite Nat.sub_succ, Nat.sub_0_r. split; [lia|].
    destruct (Z.eq_dec d 0) as [|D]; [left; assumption|right]. rewrite (ksplit_In mu d (S p) Hs ltac:(lia) HK). lia.
  - intros [[Hk E] H]. exists (Z.of_nat (k - 1) + 1). split; [|split].
    + apply scell_row. lia.
    + replace (Z.of_nat (k - 1) + 1 + 1) with (Z.of_nat k + 1) by lia. rewrite scell_row.
      destruct (Z.eq_dec d 0) as [|D]; [lia|]. destruct H as [H|H]; [lia|].
      rewrite (ksplit_In mu d k Hs ltac:(lia) HK) in H. lia.
    + rewrite scell_row. lia.
Qed.

(* cells determine rows *)
Lemma cells_rows : forall mu nu, strict_partition nu -> strict_partition mu -> forall p f,
  (forall j, shifted_cell nu (Z.of_nat p + 1) j <-> Z.of_nat p + 1 <= j <= Z.of_nat p + f) -> 0 <= f -> row nu p = f.
Proof.
  intros mu nu Hn Hm p f H Hf. pose proof (strict_nonneg nu p Hn) as H0.
  assert (A : 0 < row nu p -> row nu p <= f).
  { intro P. pose proof (proj1 (H (Z.of_nat p + row nu p))) as A. rewrite scell_row in A. specialize (A ltac:(lia)). lia. }
  assert (B : 0 < f -> f <= row nu p).
  { intro P. pose proof (proj2 (H (Z.of_nat p + f)) ltac:(lia)) as B. rewrite scell_row in B. lia. }
  lia.
Qed.

(* a row strip on diagonals a..b extends the row of length a to b + 1 *)
Lemma row_strip_rows : forall mu nu a b, strict_partition mu -> strict_partition nu -> 0 <= a <= b ->
  (row_strip_added mu nu a b <-> exists p, row mu p = a /\ row nu p = b + 1 /\ forall i, i <> p -> row nu i = row mu i).
Proof.
  intros mu nu a b Hm Hn Hab. split.
  - intros (r & H1 & H2). assert (Hr : 1 <= r).
    { assert (C : shifted_cell nu r (r + a)) by (apply H2; right; lia). unfold shifted_cell in C. lia. }
    set (p := Z.to_nat (r - 1)). assert (Er : r = Z.of_nat p + 1) by lia. clearbody p. subst r. exists p.
    assert (Ha : row mu p = a).
    { pose proof (H1 a ltac:(lia)) as N. rewrite scell_row in N.
      destruct (Z_lt_le_dec (row mu p) a) as [C|C]; [|lia]. exfalso.
      (* the gap would not be filled in nu *)
      assert (C1 : shifted_cell nu (Z.of_nat p + 1) (Z.of_nat p + 1 + a)) by (apply H2; right; lia).
      pose proof (strict_nonneg mu p Hm).
      assert (C2 : shifted_cell nu (Z.of_nat p + 1) (Z.of_nat p + a)) by (rewrite scell_row in *; lia).
      apply H2 in C2. rewrite scell_row in C2. lia. }
    split; [assumption|]. split.
    + apply (cells_rows mu nu Hn Hm); [|lia]. intro j. rewrite H2, scell_row. lia.
    + intros i Hi. apply (cells_rows mu nu Hn Hm); [|apply strict_nonneg; assumption]. intro j. rewrite H2, scell_row. lia.
  - intros (p & E1 & E2 & E3). exists (Z.of_nat p + 1). split.
    + intros d Hd. rewrite scell_row. lia.
    + intros i j. unfold shifted_cell. destruct (Z_lt_le_dec i 1) as [|L]; [lia|].
      set (q := Z.to_nat (i - 1)). assert (Ei : i = Z.of_nat q + 1) by lia.
      destruct (Nat.eq_dec q p) as [Eq|Nq].
      * rewrite Eq. lia.
      * rewrite (E3 q Nq). lia.
Qed.

Lemma box_added_strip : forall mu nu d, box_added mu nu d <-> row_strip_added mu nu d d.
Proof.
  intros mu nu d. split; intros (r & H1 & H2); exists r.
  - split; [intros e He; replace e with d by lia; assumption|]. intros i j. rewrite H2. split; (intros [C|C]; [left; assumption|right; lia]).
  - split; [apply H1; lia|]. intros i j. rewrite H2. split; (intros [C|C]; [left; assumption|right; lia]).
Qed.

Lemma box_added_T : forall mu nu d, strict_partition mu -> 0 <= d ->
  (strict_partition nu /\ box_added mu nu d <-> ~ In (d + 1) mu /\ (d = 0 \/ In d mu) /\ nu = bump_part d mu).
Proof.
  intros mu nu d Hm Hd. split.
  - intros [Hn H]. apply box_added_strip in H. apply row_strip_rows in H; [|assumption|assumption|lia].
    destruct H as (p & E1 & E2 & E3).
    assert (Hp : (p < length nu)%nat) by (apply row_in_range; lia).
    assert (Hle : (p <= length mu)%nat).
    { destruct (Nat.le_gt_cases p (length mu)) as [|C]; [assumption|]. exfalso.
      pose proof (row_pos nu (length mu) (proj1 Hn) ltac:(lia)). rewrite (E3 (length mu)) in H by lia.
      rewrite row_overflow in H by lia. lia. }
    assert (HK : ksplit mu d p).
    { split; [|split; [lia|assumption]]. intros i Hi. rewrite <- (E3 i) by lia.
      pose proof (row_decr_strict nu Hn i p Hi ltac:(lia)). lia. }
    assert (N1 : ~ In (d + 1) mu).
    { rewrite (ksplit_In1 mu d p Hm Hd HK). intros [C1 C2].
      pose proof (row_decr_strict nu Hn (p - 1) p ltac:(lia) ltac:(lia)). rewrite (E3 (p - 1)%nat) in H by lia. lia. }
    assert (N2 : d = 0 \/ In d mu).
    { destruct (Z.eq_dec d 0) as [|D]; [left; assumption|right]. apply (ksplit_In mu d p Hm ltac:(lia) HK). assumption. }
    split; [assumption|]. split; [assumption|].
    destruct (add_row mu p Hle) as (nu' & Ea & Hr & Hl).
    pose proof (add_bump mu d p Hm Hd HK N1 N2) as Eb. rewrite Ea in Eb. injection Eb as <-.
    destruct (outer_added mu d p nu' Hm Hd HK N1 N2 Hl Hr) as (Hn' & _ & _).
    apply pos_ext; [apply Hn|apply Hn'|]. intro i. rewrite Hr. destruct (Nat.eqb_spec i p) as [->|]; [lia|]. apply E3. assumption.
  - intros (N1 & N2 & ->). destruct (ksplit_ex mu d Hd) as [k HK].
    pose proof (add_bump mu d k Hm Hd HK N1 N2) as Eb. destruct (add_row mu k (proj2 (proj2 HK))) as (nu & Ea & Hr & Hl).
    rewrite Ea in Eb. injection Eb as <-.
    destruct (outer_added mu d k nu Hm Hd HK N1 N2 Hl Hr) as (Hn & Ek & _). split; [assumption|].
    apply box_added_strip, row_strip_rows; [assumption|assumption|lia|]. exists k.
    split; [assumption|]. split; [rewrite Hr, Nat.eqb_refl; lia|]. intros i Hi. rewrite Hr.
    destruct (Nat.eqb_spec i k); [contradiction|reflexivity].
Qed.

(* ---- relations between the basis actions ---- *)
Lemma T_add : forall d mu, ~ In (d + 1) mu -> (d = 0 \/ In d mu) -> T d mu = Some (false, bump_part d mu).
Proof.
  intros d mu H1 H2. unfold T. destruct (in_dec Z.eq_dec (d + 1) mu); [contradiction|].
  destruct (Z.eq_dec d 0); [reflexivity|]. destruct (in_dec Z.eq_dec d mu); [reflexivity|tauto].
Qed.
Lemma T_beta : forall d mu, In (d + 1) mu -> (d = 0 \/ ~ In d mu) -> T d mu = Some (true, mu).
Proof.
  intros d mu H1 H2. unfold T. destruct (in_dec Z.eq_dec (d + 1) mu); [|contradiction].
  destruct (Z.eq_dec d 0); [reflexivity|]. destruct (in_dec Z.eq_dec d mu); [tauto|reflexivity].
Qed.
Lemma T_none : forall d mu, d <> 0 -> (In (d + 1) mu <-> In d mu) -> T d mu = None.
Proof.
  intros d mu H1 H2. unfold T. destruct (in_dec Z.eq_dec (d + 1) mu), (Z.eq_dec d 0), (in_dec Z.eq_dec d mu); tauto.
Qed.

Lemma T_cases : forall d mu,
  (In (d + 1) mu /\ (d = 0 \/ ~ In d mu) /\ T d mu = Some (true, mu)) \/
  (~ In (d + 1) mu /\ (d = 0 \/ In d mu) /\ T d mu = Some (false, bump_part d mu)) \/
  (d <> 0 /\ (In (d + 1) mu <-> In d mu) /\ T d mu = None).
Proof.
  intros d mu. unfold T. destruct (in_dec Z.eq_dec (d + 1) mu), (Z.eq_dec d 0), (in_dec Z.eq_dec d mu); tauto.
Qed.

Lemma T_idem : forall d mu b nu, 0 <= d -> strict_partition mu -> T d mu = Some (b, nu) -> T d nu = Some (true, nu).
Proof.
  intros d mu b nu Hd Hs E. destruct (T_cases d mu) as [(A & B & C)|[(A & B & C)|(A & B & C)]]; rewrite C in E; inversion E; subst.
  - assumption.
  - destruct (bump_part_spec d mu Hs Hd A) as [_ HI]. apply T_beta; rewrite !HI; [left; reflexivity|].
    destruct (Z.eq_dec d 0); [left; assumption|right]. intros [H|[_ H]]; [lia|contradiction].
Qed.

Section Algebra.
  Context {R : Type} (rO rI : R) (radd rmul rsub : R -> R -> R) (ropp : R -> R) (rzero : R -> bool) (beta : R).
  Hypothesis Rth : ring_theory rO rI radd rmul rsub ropp (@eq R).
  Hypothesis rzero_spec : forall x, rzero x = true <-> x = rO.
  Add Ring Rring : Rth.
  Local Notation vget := (@vget (list Z) R zlist_eqb rO).
  Local Notation vadd := (@vadd (list Z) R zlist_eqb rO radd rzero).
  Local Notation vmake := (@vmake (list Z) R rzero).
  Local Notation vwf := (@vwf (list Z) R rO).
  Local Notation op := (operator_shifted_add rO radd rmul rzero beta).
  Local Notation lin := (@lin R rO radd rmul (list Z)).

  (* vectors supported on strict partitions *)
  Definition on_strict (v : list (list Z * R)) : Prop := vwf v /\ forall mu, In mu (map fst v) -> strict_partition mu.

  (* dual action on functions of partitions *)
  Definition Tdual (d : Z) (F : list Z -> R) (mu : list Z) : R :=
    match T d mu with None => rO | Some (b, nu) => rmul (if b then beta else rI) (F nu) end.

  Definition T_term (d : Z) (mu : list Z) (c : R) : list (list Z * R) :=
    match T d mu with None => [] | Some (true, nu) => [(nu, rmul beta c)] | Some (false, nu) => [(nu, c)] end.

  Lemma shifted_add_term_T : forall i mu c, strict_partition mu ->
    shifted_add_term rmul beta i mu c = Ok (T_term (Z.abs i) mu c).
  Proof.
    intros i mu c Hs. unfold shifted_add_term, T_term, T. set (d := Z.abs i). assert (Hd : 0 <= d) by lia.
    destruct (ksplit_ex mu d Hd) as [k HK]. rewrite (find_inner_spec mu d k Hs Hd HK), (find_outer_spec mu d k Hs Hd HK). cbn [rbind].
    destruct (in_dec Z.eq_dec (d + 1) mu) as [C|C].
    - destruct (Z.eq_dec d 0); [reflexivity|]. destruct (in_dec Z.eq_dec d mu); reflexivity.
    - cbn [rbind]. destruct (Z.eq_dec d 0) as [D|D].
      + rewrite (add_bump mu d k Hs Hd HK C (or_introl D)). reflexivity.
      + destruct (in_dec Z.eq_dec d mu) as [C'|C']; [|reflexivity].
        rewrite (add_bump mu d k Hs Hd HK C (or_intror C')). reflexivity.
  Qed.

  Lemma T_term_wf : forall d mu c, vwf (vmake (T_term d mu c)).
  Proof.
    intros d mu c. apply vmake_wf; [assumption|]. unfold T_term. destruct (T d mu) as [[[] nu]|]; cbn [map fst]; repeat constructor; intros [].
  Qed.

  Lemma vadd_keys : forall v w k, In k (map fst (vadd v w)) -> In k (map fst v) \/ In k (map fst w).
  Proof.
    intros v w k H. unfold M_Vectors.vadd in H. destruct w as [|x w]; [left; assumption|].
    unfold M_Vectors.vmake in H. apply in_map_iff in H. destruct H as ([k' y] & E & H). cbn [fst] in E. subst k'.
    apply filter_In in H. destruct H as [H _]. apply in_map_iff in H. destruct H as (k'' & E & H). injection E as <- _.
    rewrite (vkeys_union_In zlist_eqb zlist_eqb_eq) in H. assumption.
  Qed.

  Lemma vmake_keys : forall d k, In k (map fst (vmake d)) -> In k (map fst d).
  Proof.
    intros d k H. unfold M_Vectors.vmake in H. apply in_map_iff in H. destruct H as ([k' y] & E & H).
    apply filter_In in H. apply in_map_iff. exists (k', y). tauto.
  Qed.

  Lemma lin_vmake_term : forall d mu c F, lin (vmake (T_term d mu c)) F = rmul c (Tdual d F mu).
  Proof.
    intros d mu c F. unfold T_term, Tdual. destruct (T d mu) as [[[] nu]|].
    - unfold M_Vectors.vmake. cbn [filter snd]. destruct (rzero (rmul beta c)) eqn:E; cbn [negb].
      + apply rzero_spec in E. unfold FinSum.lin, lsum. cbn. transitivity (rmul (rmul beta c) (F nu)); [rewrite E|]; ring.
      + unfold FinSum.lin, lsum. cbn. ring.
    - unfold M_Vectors.vmake. cbn [filter snd]. destruct (rzero c) eqn:E; cbn [negb].
      + apply rzero_spec in E. rewrite E. unfold FinSum.lin, lsum. cbn. ring.
      + unfold FinSum.lin, lsum. cbn. ring.
    - unfold FinSum.lin, lsum. cbn. ring.
  Qed.

  Lemma op_fold : forall i v ans, on_strict ans -> (forall mu, In mu (map fst v) -> strict_partition mu) ->
    exists w, rfold (fun ans mc => do t <- shifted_add_term rmul beta i (fst mc) (snd mc); Ok (vadd ans (vmake t))) v ans = Ok w /\
      on_strict w /\ forall F, lin w F = radd (lin ans F) (lin v (Tdual (Z.abs i) F)).
  Proof.
    intros i. induction v as [|[mu c] v IH]; intros ans Ha Hv.
    - exists ans. split; [reflexivity|]. split; [assumption|]. intro F. unfold FinSum.lin at 3. cbn. ring.
    - assert (Hmu : strict_partition mu) by (apply Hv; left; reflexivity).
      cbn [rfold fst snd]. rewrite (shifted_add_term_T i mu c Hmu). cbn [rbind].
      pose proof (T_term_wf (Z.abs i) mu c) as Hw.
      assert (Ha' : on_strict (vadd ans (vmake (T_term (Z.abs i) mu c)))).
      { split.
        - apply (vadd_wf zlist_eqb zlist_eqb_eq rO radd rzero rzero_spec); [apply Ha|assumption].
        - intros k Hk. apply vadd_keys in Hk. destruct Hk as [Hk|Hk]; [apply Ha; assumption|].
          apply vmake_keys in Hk. unfold T_term in Hk. destruct (T (Z.abs i) mu) as [[b nu]|] eqn:E; [|destruct Hk].
          assert (Hn : strict_partition nu) by (apply (T_strict (Z.abs i) mu b nu); [lia|assumption|assumption]).
          destruct b; destruct Hk as [<-|[]]; assumption. }
      destruct (IH _ Ha' (fun k Hk => Hv k (or_intror Hk))) as (w & Ew & Sw & Lw).
      exists w. split; [exact Ew|]. split; [assumption|]. intro F. rewrite Lw.
      rewrite (lin_vadd zlist_eqb zlist_eqb_eq rO rI radd rmul rsub ropp rzero Rth rzero_spec) by (apply Ha || assumption).
      rewrite lin_vmake_term.
      assert (Ec : lin ((mu, c) :: v) (Tdual (Z.abs i) F) = radd (rmul c (Tdual (Z.abs i) F mu)) (lin v (Tdual (Z.abs i) F))) by reflexivity.
      rewrite Ec.
      ring.
  Qed.

  Lemma op_spec : forall i v, on_strict v -> exists w, op i v = Ok w /\ on_strict w /\
    forall F, lin w F = lin v (Tdual (Z.abs i) F).
  Proof.
    intros i v Hv. destruct (op_fold i v []) as (w & E & S & L).
    - split; [split; constructor|intros mu []].
    - apply Hv.
    - exists w. split; [exact E|]. split; [assumption|]. intro F. rewrite L. unfold FinSum.lin at 1. cbn. ring.
  Qed.

  Lemma vget_lin : forall v k, vwf v -> vget v k = lin v (fun x => if zlist_eqb x k then rI else rO).
  Proof. intros v k H. apply (dget0_lin rO rI radd rmul rsub ropp Rth zlist_eqb zlist_eqb_eq). apply H. Qed.
End Algebra.
