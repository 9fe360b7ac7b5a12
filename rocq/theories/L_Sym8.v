(* Removing the corner of a diagonal from a shape: the operators of L_Sym7 *)
From Coq Require Import List ZArith Lia Bool Permutation.
From Verif Require Import PyBase M_Partitions S_Partitions L_Partitions L_PartBasic L_PartMore M_Tableaux S_Tableaux L_Strips L_Strips2 L_Shape L_Semi L_Semi2 L_Semi3 L_Tableaux L_Standard L_Sym7.
Import ListNotations.
Local Open Scope Z_scope.

Definition dcb (sh : bool) (s : list Z) (b : Z * Z) : bool :=
  (1 <=? fst b) && (1 <=? snd b - off sh (fst b - 1)) && (snd b - off sh (fst b - 1) <=? row s (Z.to_nat (fst b - 1))).
Lemma dcb_dc : forall sh s b, dcb sh s b = true <-> dc sh s b.
Proof.
  intros sh s [a b]. unfold dcb, dc. cbn [fst snd]. rewrite !andb_true_iff, !Z.leb_le. split.
  - intros [[A B] C]. replace a with (Z.of_nat (Z.to_nat (a - 1)) + 1) by lia. apply dcell_nat. replace (Z.of_nat (Z.to_nat (a - 1))) with (a - 1) by lia. lia.
  - intro D. destruct (dcell_row _ _ _ _ D) as (i & ->). apply dcell_nat in D. replace (Z.of_nat i + 1 - 1) with (Z.of_nat i) by lia. rewrite Nat2Z.id. lia.
Qed.
Lemma dcb_false : forall sh s b, dcb sh s b = false <-> ~ dc sh s b.
Proof. intros. rewrite <- dcb_dc. destruct (dcb sh s b); split; intro H; [discriminate|contradiction H; reflexivity|discriminate|reflexivity]. Qed.

(* everything weakly above and to the left belongs to the diagram *)
Lemma dc_le : forall sh s a b a' b', part_b sh s -> dc sh s (a', b') -> region sh (a, b) -> a <= a' -> b <= b' -> dc sh s (a, b).
Proof.
  intros sh s a b a' b' P D R La Lb.
  assert (Left : forall k, 0 <= k -> forall u v, region sh (u, v) -> dc sh s (u, v + k) -> dc sh s (u, v)).
  { intros k Hk. pattern k. apply natlike_ind; [intros u v _ X; rewrite Z.add_0_r in X; assumption| |assumption].
    intros x Hx IH u v Ru X. apply IH; [assumption|]. apply dc_left; [unfold region in *; cbn [fst snd] in *; destruct sh; lia|].
    unfold nexts. cbn [fst snd]. replace (v + x + 1) with (v + Z.succ x) by lia. assumption. }
  assert (Up : forall k, 0 <= k -> forall u v, region sh (u, v) -> dc sh s (u + k, v) -> dc sh s (u, v)).
  { intros k Hk. pattern k. apply natlike_ind; [intros u v _ X; rewrite Z.add_0_r in X; assumption| |assumption].
    intros x Hx IH u v Ru X. pose proof (dc_region _ _ _ X) as Rx. apply IH; [assumption|]. apply dc_up; [assumption|unfold region in *; cbn [fst snd] in *; destruct sh; lia|].
    unfold nextd. cbn [fst snd]. replace (u + x + 1) with (u + Z.succ x) by lia. assumption. }
  apply (Left (b' - b)); [lia|assumption|]. replace (b + (b' - b)) with b' by lia.
  apply (Up (a' - a)); [lia|unfold region in *; cbn [fst snd] in *; destruct sh; lia|]. replace (a + (a' - a)) with a' by lia. assumption.
Qed.

Section Corners.
  Variable sh : bool.
  Variable lam : list Z.
  Variable K : Z.
  Hypothesis K_shifted : sh = true -> K = 0.
  Hypothesis lam_part : part_b sh lam.

  Definition okS (s : list Z) : Prop := part_b sh s /\ forall b, dc sh lam b -> dc sh s b.
  Definition diag (b : Z * Z) : Z := snd b - fst b + K.
  Definition corner (s : list Z) (b : Z * Z) : Prop := dc sh s b /\ ~ dc sh s (nexts b) /\ ~ dc sh s (nextd b) /\ ~ dc sh lam b.
  Definition cornerb (s : list Z) (b : Z * Z) : bool := dcb sh s b && negb (dcb sh s (nexts b)) && negb (dcb sh s (nextd b)) && negb (dcb sh lam b).
  Lemma cornerb_spec : forall s b, cornerb s b = true <-> corner s b.
  Proof.
    intros s b. unfold cornerb, corner. rewrite !andb_true_iff, !negb_true_iff, !dcb_false, dcb_dc. tauto.
  Qed.
  Definition test (d : nat) (s : list Z) (i : nat) : bool := cornerb s (endb sh s i) && (diag (endb sh s i) =? Z.of_nat d).
  Definition cc (d : nat) (s : list Z) : bool := match find (test d s) (seq 0 (length s)) with Some _ => true | None => false end.
  Definition rr (d : nat) (s : list Z) : list Z := match find (test d s) (seq 0 (length s)) with Some i => less s i | None => s end.

  Lemma corner_end : forall s b, corner s b -> exists i, (i < length s)%nat /\ b = endb sh s i.
  Proof.
    intros s [a b] (D & N & _). unfold dc, nexts in *. cbn [fst snd] in *. destruct (dcell_row _ _ _ _ D) as (i & ->). apply dcell_nat in D.
    assert (L : (i < length s)%nat) by (destruct (Nat.lt_ge_cases i (length s)) as [C|C]; [assumption|]; rewrite row_overflow in D by lia; lia).
    exists i. split; [assumption|]. unfold endb. f_equal. rewrite dcell_nat in N. lia.
  Qed.
  Lemma corner_unique : forall s b b', part_b sh s -> corner s b -> corner s b' -> diag b = diag b' -> b = b'.
  Proof.
    intros s [i j] [i' j'] P (D & N1 & _) (D' & N1' & _) E. unfold diag, nexts in *. cbn [fst snd] in *.
    destruct (Z.lt_trichotomy i i') as [C|[C|C]].
    - exfalso. apply N1. apply (dc_le sh s i (j + 1) i' j' P D'); [|lia|lia]. apply dc_region in D. unfold region in *. cbn [fst snd] in *. destruct sh; lia.
    - f_equal; lia.
    - exfalso. apply N1'. apply (dc_le sh s i' (j' + 1) i j P D); [|lia|lia]. apply dc_region in D'. unfold region in *. cbn [fst snd] in *. destruct sh; lia.
  Qed.

  Lemma less_part : forall s i, part_b sh s -> (i < length s)%nat -> corner s (endb sh s i) -> part_b sh (less s i).
  Proof.
    intros s i P L (D & N1 & N2 & _). set (b := endb sh s i) in *.
    assert (LD : forall c, dc sh (less s i) c <-> dc sh s c /\ c <> b) by (intro c; apply less_dc; assumption).
    destruct (shape_of sh s (fun c => dc sh s c /\ c <> b) P) as (nu & Pn & En).
    - intro c. destruct (dc_dec sh s c) as [X|X]; [|tauto]. destruct (box_dec c b); tauto.
    - tauto.
    - intros c R [X1 X2]. split; [apply dc_left; assumption|]. intros ->. contradiction.
    - intros c R [X1 X2]. split; [apply dc_up; assumption|]. intros ->. contradiction.
    - assert (R : forall j, row (less s i) j = row nu j).
      { intro j. pose proof (part_b_part _ _ Pn) as Pp. pose proof (fun j => less_nonneg sh s i j P L) as NN.
        assert (I1 : forall j, row (less s i) j <= row nu j).
        { apply (dcell_incl sh); [assumption|intro; apply partition_nonneg; assumption|]. intros x y X. apply (En (x, y)). apply LD. exact X. }
        assert (I2 : forall j, row nu j <= row (less s i) j).
        { apply (dcell_incl sh); [intro; apply partition_nonneg; assumption|assumption|]. intros x y X. apply (LD (x, y)). apply En. exact X. }
        specialize (I1 j). specialize (I2 j). lia. }
      replace (less s i) with nu; [assumption|]. symmetry. apply trimmed_ext; [apply less_trimmed|apply partition_trimmed; apply (part_b_part sh); assumption|assumption].
  Qed.

  Lemma cc_spec : forall d s, cc d s = true <-> exists b, corner s b /\ diag b = Z.of_nat d.
  Proof.
    intros d s. unfold cc. destruct (find (test d s) (seq 0 (length s))) as [i|] eqn:E.
    - apply find_some in E. destruct E as [_ E]. unfold test in E. apply andb_true_iff in E. rewrite cornerb_spec, Z.eqb_eq in E. split; [|reflexivity]. intros _. exists (endb sh s i). assumption.
    - split; [discriminate|]. intros (b & C & D). exfalso. destruct (corner_end s b C) as (i & L & ->).
      pose proof (find_none _ _ E i) as X. rewrite in_seq in X. specialize (X (conj (Nat.le_0_l i) L)). unfold test in X.
      apply andb_false_iff in X. destruct X as [X|X]; [apply (proj2 (cornerb_spec s _)) in C; congruence|]. apply Z.eqb_neq in X. contradiction.
  Qed.
  Lemma cc_false : forall d s, cc d s = false <-> forall b, corner s b -> diag b <> Z.of_nat d.
  Proof.
    intros d s. pose proof (cc_spec d s) as H. destruct (cc d s).
    - split; [discriminate|]. intro X. destruct (proj1 H eq_refl) as (b & C & D). exfalso. apply (X b C D).
    - split; [|reflexivity]. intros _ b C D. assert (false = true) by (apply H; exists b; tauto). discriminate.
  Qed.
  Lemma rr_spec : forall d s b, okS s -> corner s b -> diag b = Z.of_nat d -> okS (rr d s) /\ forall c, dc sh (rr d s) c <-> dc sh s c /\ c <> b.
  Proof.
    intros d s b [P I] C D. pose proof (proj2 (cc_spec d s) (ex_intro _ b (conj C D))) as X. unfold cc in X. unfold rr. destruct (find (test d s) (seq 0 (length s))) as [i|] eqn:E; [|discriminate].
    apply find_some in E. destruct E as [L E]. apply in_seq in L. unfold test in E. apply andb_true_iff in E. rewrite cornerb_spec, Z.eqb_eq in E. destruct E as [C' D'].
    assert (Eb : endb sh s i = b) by (apply (corner_unique s); [assumption|assumption|assumption|congruence]).
    assert (LD : forall c, dc sh (less s i) c <-> dc sh s c /\ c <> b) by (intro c; rewrite <- Eb; apply less_dc; [lia|assumption]).
    split; [|assumption]. split; [apply less_part; [assumption|lia|assumption]|]. intros c Hc. apply LD. split; [apply I; assumption|]. intros ->. destruct C as (_ & _ & _ & C). contradiction.
  Qed.
  Lemma rr_case : forall d s, okS s -> cc d s = true -> exists b, corner s b /\ diag b = Z.of_nat d /\ okS (rr d s) /\ forall c, dc sh (rr d s) c <-> dc sh s c /\ c <> b.
  Proof. intros d s O H. apply cc_spec in H. destruct H as (b & C & D). exists b. split; [assumption|]. split; [assumption|]. apply rr_spec; assumption. Qed.

  (* a corner on the same diagonal as a removed corner lies further up *)
  Lemma up_left : forall s i j i' j', part_b sh s -> corner s (i, j) -> dc sh s (i', j') -> j' - i' = j - i -> (i', j') <> (i, j) -> i' < i.
  Proof.
    intros s i j i' j' P (D & N & _) D' E Ne. destruct (Z.lt_trichotomy i' i) as [C|[C|C]]; [assumption| |].
    - exfalso. apply Ne. f_equal; lia.
    - exfalso. apply N. unfold nexts. cbn [fst snd]. apply (dc_le sh s i (j + 1) i' j' P D'); [|lia|lia]. apply dc_region in D. unfold region in *. cbn [fst snd] in *. destruct sh; lia.
  Qed.
  Lemma diag_nonneg : forall s b, sh = true -> dc sh s b -> 0 <= snd b - fst b.
  Proof. intros s [a b] E D. apply dc_region in D. unfold region in D. rewrite E in D. cbn [fst snd] in *. lia. Qed.

  Lemma K1 : forall d s, okS s -> cc d s = true -> cc d (rr d s) = false.
  Proof.
    intros d s O H. destruct (rr_case d s O H) as ([i j] & C & D & O' & E). apply cc_false. intros [i' j'] (X1 & X2 & _) D'.
    apply E in X1. destruct X1 as [X1 X3]. unfold diag, nexts in *. cbn [fst snd] in *. assert (L : i' < i) by (apply (up_left s i j i' j'); [apply O|assumption|assumption|lia|assumption]).
    apply X2. apply E. split; [|intro Y; injection Y as Y1 Y2; lia]. apply (dc_le sh s i' (j' + 1) i j); [apply O|apply C| |lia|lia]. apply dc_region in X1. unfold region in *. cbn [fst snd] in *. destruct sh; lia.
  Qed.
  Lemma far_corner : forall d s b c, okS s -> corner s b -> diag b = Z.of_nat d -> (diag c + 1 < diag b \/ diag b + 1 < diag c) -> (corner (rr d s) c <-> corner s c).
  Proof.
    intros d s b c O C D L. destruct (rr_spec d s b O C D) as [_ E]. unfold corner. rewrite !E.
    assert (N1 : c <> b) by (intros ->; lia). assert (N2 : nexts c <> b) by (intros <-; unfold diag, nexts in L; cbn [fst snd] in L; lia).
    assert (N3 : nextd c <> b) by (intros <-; unfold diag, nextd in L; cbn [fst snd] in L; lia). tauto.
  Qed.
  Lemma K2 : forall d d' s, okS s -> (d + 1 < d' \/ d' + 1 < d)%nat -> cc d s = true -> cc d' (rr d s) = cc d' s.
  Proof.
    intros d d' s O L H. destruct (rr_case d s O H) as (b & C & D & O' & E).
    apply eq_true_iff_eq. rewrite !cc_spec. split; intros (c & X & Y); exists c; (split; [|assumption]); apply (far_corner d s b c O C D); (assumption || lia).
  Qed.
  Lemma K2r : forall d d' s, okS s -> (d + 1 < d')%nat -> cc d s = true -> cc d' s = true -> rr d (rr d' s) = rr d' (rr d s).
  Proof.
    intros d d' s O L H H'. destruct (rr_case d s O H) as (b & C & D & O1 & E1). destruct (rr_case d' s O H') as (b' & C' & D' & O2 & E2).
    assert (Cb : corner (rr d' s) b) by (apply (far_corner d' s b' b O C' D'); [lia|assumption]).
    assert (Cb' : corner (rr d s) b') by (apply (far_corner d s b b' O C D); [lia|assumption]).
    destruct (rr_spec d (rr d' s) b O2 Cb D) as [O3 E3]. destruct (rr_spec d' (rr d s) b' O1 Cb' D') as [O4 E4].
    apply (part_ext sh); [apply O3|apply O4|]. intro c. rewrite E3, E4, E1, E2. tauto.
  Qed.
  Lemma K3 : forall d s, okS s -> cc d s = true -> cc (d + 1) s = false.
  Proof.
    intros d s O H. apply cc_spec in H. destruct H as ([i j] & (D & N1 & N2 & _) & E). apply cc_false. intros [i' j'] (D' & N1' & N2' & _) E'.
    unfold diag, nexts, nextd in *. cbn [fst snd] in *. pose proof (dc_region _ _ _ D) as R. pose proof (dc_region _ _ _ D') as R'. unfold region in R, R'. cbn [fst snd] in R, R'.
    destruct (Z.le_gt_cases i i') as [L|L].
    - apply N1. apply (dc_le sh s i (j + 1) i' j'); [apply O|assumption| |lia|lia]. unfold region. cbn [fst snd]. destruct sh; lia.
    - apply N2'. apply (dc_le sh s (i' + 1) j' i j); [apply O|assumption| |lia|lia]. unfold region. cbn [fst snd]. destruct sh; [rewrite (K_shifted eq_refl) in *|]; lia.
  Qed.
  Lemma K4 : forall d s, okS s -> (1 <= d)%nat -> cc d s = true -> cc (d + 1) (rr d s) = true -> cc d (rr (d + 1) (rr d s)) = false.
  Proof.
    intros d s O L H H1. destruct (rr_case d s O H) as ([i j] & C & D & O1 & E1). destruct (rr_case (d + 1) (rr d s) O1 H1) as ([i1 j1] & C1 & D1 & O2 & E2).
    apply cc_false. intros [i2 j2] (X1 & _ & X2 & _) D2. apply E2 in X1. destruct X1 as [X1 _]. apply E1 in X1. destruct X1 as [X1 X3]. unfold diag, nextd in *. cbn [fst snd] in *.
    assert (Lt : i2 < i) by (apply (up_left s i j i2 j2); [apply O|assumption|assumption|lia|assumption]).
    pose proof (dc_region _ _ _ X1) as R. unfold region in R. cbn [fst snd] in R.
    apply X2. apply E2. split; [|intro Y; injection Y as Y1 Y2; lia]. apply E1. split; [|intro Y; injection Y as Y1 Y2; lia].
    apply (dc_le sh s (i2 + 1) j2 i j); [apply O|apply C| |lia|lia]. unfold region. cbn [fst snd]. destruct sh; [rewrite (K_shifted eq_refl) in *|]; lia.
  Qed.
  Lemma K5 : forall d s, okS s -> cc (d + 1) s = true -> cc d (rr (d + 1) s) = true -> cc (d + 1) (rr d (rr (d + 1) s)) = false.
  Proof.
    intros d s O H H1. destruct (rr_case (d + 1) s O H) as ([i j] & C & D & O1 & E1). destruct (rr_case d (rr (d + 1) s) O1 H1) as ([i1 j1] & C1 & D1 & O2 & E2).
    apply cc_false. intros [i2 j2] (X1 & X2 & _) D2. apply E2 in X1. destruct X1 as [X1 _]. apply E1 in X1. destruct X1 as [X1 X3]. unfold diag, nexts in *. cbn [fst snd] in *.
    assert (Lt : i2 < i) by (apply (up_left s i j i2 j2); [apply O|assumption|assumption|lia|assumption]).
    pose proof (dc_region _ _ _ X1) as R. unfold region in R. cbn [fst snd] in R.
    apply X2. apply E2. split; [|intro Y; injection Y as Y1 Y2; lia]. apply E1. split; [|intro Y; injection Y as Y1 Y2; lia].
    apply (dc_le sh s i2 (j2 + 1) i j); [apply O|apply C| |lia|lia]. unfold region. cbn [fst snd]. destruct sh; lia.
  Qed.
  Lemma rr_ok : forall d s, okS s -> cc d s = true -> okS (rr d s).
  Proof. intros d s O H. destruct (rr_case d s O H) as (b & _ & _ & O' & _). assumption. Qed.

  Definition oev (e : Z) := ev (list Z) cc rr e.
  Definition oweq (e : Z) := weq (list Z) okS cc rr e.
  Theorem half_comm : forall e n x y, 0 <= e -> 0 <= x -> 0 <= y -> oweq e (TS n x ++ TS n y) (TS n y ++ TS n x).
  Proof.
    intros e n x y He Hx Hy. apply TS_comm; [exact rr_ok|exact K1|exact K2|exact K2r|exact K3|exact K4|exact K5|assumption|assumption|assumption].
  Qed.
  Theorem full_comm : forall e (f : Z -> Z) n x y, 0 <= e -> (f = (fun x => x) \/ f = (fun x => 2 * x + e * x * x)) -> 0 <= x -> 0 <= y -> oweq e (TQ f n x ++ TQ f n y) (TQ f n y ++ TQ f n x).
  Proof.
    intros e f n x y He Hf Hx Hy. apply TQ_comm; [exact rr_ok|exact K1|exact K2|exact K2r|exact K3|exact K4|exact K5|assumption| |assumption|assumption].
    intros u v. destruct Hf as [->| ->]; ring.
  Qed.
End Corners.
