(* C111: shifted growth diagrams are local; prefixes of the word give the recording tableau cut off, small letters the insertion tableau cut off *)
From Coq Require Import List ZArith Lia Bool Permutation Arith.
From Verif Require Import PyBase M_Partitions S_Partitions L_PartBasic M_Tableaux S_Tableaux L_Tableaux S_Semistandard M_FState M_SGrowth S_SGrowth L_SGrowth P_SGrowth M_FromSGrowth L_FromSGrowth P_FromSGrowth L_SGrowth3 S_SGrowthCut.
Import ListNotations.
Local Open Scope Z_scope.

Theorem C111_restrict : forall bord d d' M N M' N' t, (M <= M')%nat -> (N <= N')%nat ->
  (forall x y, 1 <= x <= Z.of_nat N -> 1 <= y <= Z.of_nat M -> (In (x, y) d <-> In (x, y) d')) ->
  shifted_growth_diagram bord d (Some (Z.of_nat M')) (Some (Z.of_nat N')) = Ok t ->
  shifted_growth_diagram bord d' (Some (Z.of_nat M)) (Some (Z.of_nat N)) = Ok (firstn (S N) (map (firstn (S M)) t)).
Proof.
  intros bord d d' M N M' N' t LM LN A E. unfold shifted_growth_diagram in *. rewrite Nat2Z.id in *. replace (Z.to_nat (Z.of_nat M' + 1)) with (S M') in E by lia. replace (Z.to_nat (Z.of_nat M + 1)) with (S M) by lia.
  destruct (sg_rows bord d 1 N' (repeat sg_zero (S M'))) as [rs|] eqn:ER; [|discriminate]. cbn [rbind] in E. injection E as <-.
  apply (rows_restrict bord d d' M N' N 1) in ER; [|exact LN|].
  - rewrite repeat_firstn in ER by lia. rewrite ER. cbn [rbind]. refine (f_equal (fun z => Ok (z :: firstn N (map (firstn (S M)) rs))) _). symmetry. apply (repeat_firstn _ sg_zero (S M) (S M')). lia.
  - intros x y Hx Hy. specialize (A x y ltac:(lia) Hy). destruct (inb d x y) eqn:I, (inb d' x y) eqn:I'; try reflexivity; exfalso.
    + apply inb_In in I. apply A in I. apply inb_In in I. congruence.
    + apply inb_In in I'. apply A in I'. apply inb_In in I'. congruence.
Qed.
Print Assumptions C111_restrict.

(* ---------- the two tableaux, described by the diagram ---------- *)
Lemma size_exists : forall w, exists N, size_of w None N.
Proof.
  induction w as [|a w (N & O & H)]; [exists O; split; [left; reflexivity|intros x []]|]. destruct (Z_le_gt_dec a (Z.of_nat N)) as [L|L].
  - exists N. split; [destruct O as [->|I]; [left; reflexivity|right; right; exact I]|]. intros x [<-|I]; [exact L|apply H; exact I].
  - exists (Z.to_nat a). split; [right; left; lia|]. intros x [<-|I]; [lia|]. apply H in I. lia.
Qed.
Lemma size_unique : forall w N N', (forall a, In a w -> 1 <= a) -> size_of w None N -> size_of w None N' -> N = N'.
Proof. intros w N N' P [A B] [A' B']. destruct A as [A|A], A' as [A'|A']; try (apply B' in A as X); try (apply B in A' as Y); lia. Qed.
Lemma word_fst : forall w, map fst (word_positions w) = w /\ map snd (word_positions w) = map (fun k => 1 + Z.of_nat k) (seq 0 (length w)).
Proof.
  intro w. unfold word_positions, zrange, zlen. replace (Z.to_nat (Z.of_nat (length w) + 1 - 1)) with (length w) by lia. generalize O. induction w as [|a w IH]; intro s; [split; reflexivity|]. cbn [length seq map combine fst snd]. destruct (IH (S s)) as [A B]. rewrite A, B. split; reflexivity.
Qed.
Lemma word_rows : forall bord w N t, size_of w None N -> shifted_growth_diagram bord (word_positions w) None None = Ok t -> exists rs, t = repeat sg_zero (S (length w)) :: rs /\ wrows bord w N = Ok rs.
Proof.
  intros bord w N t HN E. unfold shifted_growth_diagram in E. destruct (word_fst w) as [W1 W2]. pose proof (size_spec w None N HN) as Z1. rewrite W1 in E. cbn beta iota in Z1. rewrite Z1 in E.
  assert (HM : size_of (map snd (word_positions w)) None (length w)).
  { rewrite W2. split; [destruct w as [|a w]; [left; reflexivity|right; apply in_map_iff; exists (length w); split; [cbn [length]; lia|apply in_seq; cbn [length]; lia]]|]. intros x I. apply in_map_iff in I. destruct I as (k & <- & I). apply in_seq in I. lia. }
  pose proof (size_spec _ None _ HM) as Z2. cbn beta iota in Z2. rewrite Z2, Nat2Z.id in E. replace (Z.to_nat (Z.of_nat (length w) + 1)) with (S (length w)) in E by lia.
  unfold wrows. destruct (sg_rows bord (word_positions w) 1 N (repeat sg_zero (S (length w)))) as [rs|]; [|discriminate]. cbn [rbind] in E. injection E as <-. exists rs. split; reflexivity.
Qed.

Definition spot (P : nat -> list Z) (e : nat -> bool) (c : nat -> option Z) (k : nat) (i j : Z) : Prop :=
  (c k = None /\ shifted_cell (P k) i j /\ ~ shifted_cell (P (pred k)) i j) \/ (exists z, c k = Some z /\ corner_box (P k) i j /\ z = if e k then j else i).
Lemma corner_same : forall P i j i' j', strict_partition P -> corner_box P i j -> corner_box P i' j' -> i = i' \/ j = j' -> i = i' /\ j = j'.
Proof.
  intros P i j i' j' SP (A1 & A2 & A3) (B1 & B2 & B3) [E|E]; subst.
  - split; [reflexivity|]. unfold shifted_cell in *. lia.
  - split; [|reflexivity]. assert (POS : forall x y, shifted_cell P x y -> 1 <= x) by (intros x y H; unfold shifted_cell in H; lia). pose proof (POS _ _ A1). pose proof (POS _ _ B1).
    destruct (Z.lt_trichotomy i i') as [L|[L|L]]; [exfalso; apply A3; apply (cell_above P (i + 1) i' j' SP); [lia|exact B1]|exact L|exfalso; apply B3; apply (cell_above P (i' + 1) i j' SP); [lia|exact A1]].
Qed.
Lemma of_word : forall w p q N, size_of w None N -> (forall a, In a w -> 1 <= a) -> tableaux_of w p q -> exists rs, wrows (fun l => l) w N = Ok rs /\
  let t := repeat sg_zero (S (length w)) :: rs in
  (forall i j x, holds p i j x <-> exists k, (1 <= k <= N)%nat /\ x = Z.of_nat k /\ shifted_cell (part_at t k (length w)) i j /\ ~ shifted_cell (part_at t (pred k) (length w)) i j) /\
  (forall i j v, holds q i j v <-> exists k, (1 <= k <= length w)%nat /\ v = letter (edge_at t N) k /\ spot (part_at t N) (edge_at t N) (corner_at t N) k i j).
Proof.
  intros w p q N HN POS (bord & t0 & BP & E1 & E2).
  destruct (C109_word w N HN) as (t' & T1' & T2' & T3' & T4' & T5' & T6' & _).
  destruct (C110_tableaux w N HN POS) as (t & p0 & q0 & T1 & T2 & WP & WQ & _ & _ & P1 & P2 & P3 & _ & Q1 & Q2 & Q3 & _ & Q5 & Q6).
  rewrite (T1' bord BP) in E1. injection E1 as <-. assert (TT : t = t') by (specialize (T1 bord BP); specialize (T1' bord BP); congruence). clear T1'. subst t'. rewrite (T2 bord BP) in E2. injection E2 as <- <-.
  specialize (T1 (fun l => l) (fun l => Permutation_refl l)). destruct (word_rows _ w N t HN T1) as (rs & ET & ER). exists rs. split; [exact ER|]. cbn zeta. rewrite <- ET. split.
  - intros i j x. split.
    + intro H. destruct H as (l & L1 & L2). destruct (P1 i j l L1) as (x' & -> & L3). destruct L2 as [<-|[]]. assert (H : holds p0 i j x') by (exists [x']; split; [exact L1|left; reflexivity]). exists (Z.to_nat x'). split; [lia|]. split; [lia|]. split; [apply P2; [lia|exists x'; split; [exact H|lia]]|].
      intro C. apply P2 in C; [|lia]. destruct C as (y & (l & M1 & M2) & Y). apply (lookup_In p0 _ _ WP) in L1. apply (lookup_In p0 _ _ WP) in M1. rewrite L1 in M1. injection M1 as <-. destruct M2 as [<-|[]]. lia.
    + intros (k & Hk & -> & C1 & C2). apply P2 in C1; [|lia]. destruct C1 as (y & Y1 & Y2). assert (D : y <= Z.of_nat (pred k) \/ y = Z.of_nat k) by lia. destruct D as [D| ->]; [|exact Y1]. destruct C2. apply P2; [lia|]. exists y. split; [exact Y1|exact D].
  - assert (MK : forall k, (1 <= k <= length w)%nat -> marked (part_at t N (pred k)) (part_at t N k) (edge_at t N k) (corner_at t N k)).
    { intros k Hk. destruct k as [|k]; [lia|]. cbn [pred]. destruct (nth_error w k) as [a|] eqn:Ea; [|apply nth_error_None in Ea; lia]. apply (T6' N k a (Nat.le_refl _) Ea). apply nth_error_In in Ea. split; [apply POS; exact Ea|]. apply HN. exact Ea. }
    assert (NEW : forall k, (1 <= k <= length w)%nat -> forall i j, shifted_cell (part_at t N k) i j -> ~ shifted_cell (part_at t N (pred k)) i j -> exists v, holds q0 i j v /\ Z.abs v = Z.of_nat k).
    { intros k Hk i j C1 C2. apply Q3 in C1; [|lia]. destruct C1 as (v & V1 & V2). exists v. split; [exact V1|]. assert (D : Z.abs v <= Z.of_nat (pred k) \/ Z.abs v = Z.of_nat k) by lia. destruct D as [D|D]; [|exact D]. destruct C2. apply Q3; [lia|]. exists v. split; [exact V1|exact D]. }
    assert (FW : forall k, (1 <= k <= length w)%nat -> forall i j v, holds q0 i j v -> Z.abs v = Z.of_nat k -> spot (part_at t N) (edge_at t N) (corner_at t N) k i j).
    { intros k Hk i j v V1 V2. pose proof (Q6 i j v k V1 V2) as CB. destruct (corner_at t N k) as [z|] eqn:C.
      - right. exists z. split; [exact C|]. split; [exact CB|]. apply (Q5 i j v k z V1 V2 C).
      - left. split; [exact C|]. split; [apply CB|]. destruct (MK k Hk) as [((a & b & NB & AB) & _)|(_ & a & b & _ & X)]; [|congruence].
        destruct (NEW k Hk a b) as (u & U1 & U2); [apply AB; right; split; reflexivity|exact NB|]. destruct (Q2 k Hk) as (x & y & XY). destruct (proj1 (XY a b) (ex_intro _ u (conj U1 U2))) as [-> ->]. destruct (proj1 (XY i j) (ex_intro _ v (conj V1 V2))) as [-> ->]. exact NB. }
    intros i j v. split.
    + intro H. destruct (Q1 i j v H) as (k & Hk & ->). exists k. split; [exact Hk|]. split; [reflexivity|]. apply (FW k Hk i j _ H). destruct (edge_at t N k); lia.
    + intros (k & Hk & -> & S). assert (W : exists v, holds q0 i j v /\ Z.abs v = Z.of_nat k).
      { destruct S as [(_ & S1 & S2)|(z & S1 & S2 & S3)]; [apply NEW; assumption|]. destruct (Q2 k Hk) as (x & y & XY). destruct (proj2 (XY x y) (conj eq_refl eq_refl)) as (v & V1 & V2). destruct (FW k Hk x y v V1 V2) as [(X & _)|(z' & X1 & X2 & X3)]; [congruence|]. assert (z' = z) by congruence. subst z'.
        assert (SP : strict_partition (part_at t N k)) by (apply T4'; lia). destruct (corner_same _ x y i j SP X2 S2) as [<- <-]; [destruct (edge_at t N k); [right|left]; congruence|]. exists v. split; assumption. }
      destruct W as (v & V1 & V2). destruct (Q1 i j v V1) as (k' & Hk' & EV). assert (k' = k) by (destruct (edge_at t N k'); lia). subst k'. unfold letter. rewrite <- EV. exact V1.
Qed.

(* every word of positive letters has exactly one pair of tableaux *)
Theorem C111_unique : forall w, (forall a, In a w -> 1 <= a) -> exists p q, tableaux_of w p q /\ forall p' q', tableaux_of w p' q' -> p' = p /\ q' = q.
Proof.
  intros w POS. destruct (size_exists w) as (N & HN). destruct (C110_tableaux w N HN POS) as (t & p & q & T1 & T2 & _). exists p, q. split.
  - exists (fun l => l), t. split; [intro l; apply Permutation_refl|]. split; [apply T1|apply T2]; intro l; apply Permutation_refl.
  - intros p' q' (bord & t' & BP & E1 & E2). rewrite (T1 bord BP) in E1. injection E1 as <-. rewrite (T2 bord BP) in E2. injection E2 as <- <-. split; reflexivity.
Qed.
Print Assumptions C111_unique.

(* the second tableau of the prefix w1 of w1 ++ w2 is the second tableau of w1 ++ w2 without the letters after it *)
Theorem C111_prefix : forall w1 w2 p q p1 q1, (forall a, In a (w1 ++ w2) -> 1 <= a) -> tableaux_of (w1 ++ w2) p q -> tableaux_of w1 p1 q1 ->
  forall i j v, holds q1 i j v <-> holds q i j v /\ Z.abs v <= Z.of_nat (length w1).
Proof.
  intros w1 w2 p q p1 q1 POS T T1. destruct (size_exists (w1 ++ w2)) as (N & HN). destruct (size_exists w1) as (N1 & HN1). assert (POS1 : forall a, In a w1 -> 1 <= a) by (intros a I; apply POS; apply in_or_app; left; exact I).
  destruct (of_word _ p q N HN POS T) as (rs & E & _ & Q). destruct (of_word _ p1 q1 N1 HN1 POS1 T1) as (rs1 & E1 & _ & Q1). cbn zeta in Q, Q1.
  set (t := repeat sg_zero (S (length (w1 ++ w2))) :: rs) in *. set (t1 := repeat sg_zero (S (length w1)) :: rs1) in *.
  assert (LN : (N1 <= N)%nat) by (destruct HN1 as [[->|I] _]; [lia|]; assert (Z.of_nat N1 <= Z.of_nat N) by (apply HN; apply in_or_app; left; exact I); lia).
  assert (CELL : forall j, (j <= length w1)%nat -> nth j (nth N t []) ([], false, None) = nth j (nth N1 t1 []) ([], false, None)).
  { intros j Hj. pose proof (wrows_prefix _ _ _ _ _ E) as EP. pose proof (wrows_nth _ w1 N1 N rs1 _ E1 (proj2 HN1) LN EP N (Nat.le_refl _)) as X. rewrite Nat.min_r in X by exact LN. fold t1 in X. rewrite <- X.
    replace (repeat sg_zero (S (length w1)) :: map (firstn (S (length w1))) rs) with (map (firstn (S (length w1))) t) by (unfold t; cbn [map]; rewrite repeat_firstn by (rewrite app_length; lia); reflexivity).
    change (@nil (list Z * bool * option Z)) with (firstn (S (length w1)) (@nil (list Z * bool * option Z))) at 2. rewrite map_nth. symmetry. clear - Hj. generalize (nth N t []). intro r. revert r j Hj. induction (length w1) as [|n IH]; intros [|x r] j Hj; try reflexivity; destruct j as [|j]; try reflexivity; [lia|]. cbn [firstn nth]. apply (IH r j). lia. }
  assert (CP : forall j, (j <= length w1)%nat -> part_at t N j = part_at t1 N1 j /\ edge_at t N j = edge_at t1 N1 j /\ corner_at t N j = corner_at t1 N1 j) by (intros j Hj; unfold part_at, edge_at, corner_at; rewrite (CELL j Hj); repeat split).
  assert (SPOT : forall k, (k <= length w1)%nat -> forall i j, spot (part_at t N) (edge_at t N) (corner_at t N) k i j <-> spot (part_at t1 N1) (edge_at t1 N1) (corner_at t1 N1) k i j).
  { intros k Hk i j. unfold spot. destruct (CP k Hk) as (-> & -> & ->). destruct (CP (pred k) ltac:(lia)) as (-> & _ & _). reflexivity. }
  assert (LET : forall k, (k <= length w1)%nat -> letter (edge_at t N) k = letter (edge_at t1 N1) k) by (intros k Hk; unfold letter; destruct (CP k Hk) as (_ & -> & _); reflexivity).
  intros i j v. rewrite Q, Q1. split.
  - intros (k & Hk & -> & S). split; [exists k; split; [rewrite app_length; lia|]; split; [symmetry; apply LET; lia|apply SPOT; [lia|exact S]]|]. unfold letter. destruct (edge_at t1 N1 k); lia.
  - intros ((k & Hk & -> & S) & A). assert (L : (k <= length w1)%nat) by (unfold letter in A; destruct (edge_at t N k); lia). exists k. split; [lia|]. split; [apply LET; exact L|apply SPOT; [exact L|exact S]].
Qed.
Print Assumptions C111_prefix.

(* the first tableau of the subword of the letters at most k is the first tableau of the word without the letters greater than k *)
Theorem C111_letters : forall w k p q p1 q1, 0 <= k -> (forall a, In a w -> 1 <= a) -> tableaux_of w p q -> tableaux_of (filter (fun a => a <=? k) w) p1 q1 ->
  forall i j x, holds p1 i j x <-> holds p i j x /\ x <= k.
Proof.
  intros w k p q p1 q1 K0 POS T T1. set (w1 := filter (fun a => a <=? k) w) in *. assert (IW : forall a, In a w1 <-> In a w /\ a <= k) by (intro a; unfold w1; rewrite filter_In, Z.leb_le; reflexivity).
  destruct (size_exists w) as (N & HN). destruct (size_exists w1) as (N1 & HN1). assert (POS1 : forall a, In a w1 -> 1 <= a) by (intros a I; apply POS; apply IW; exact I).
  destruct (of_word _ p q N HN POS T) as (rs & E & P & _). destruct (of_word _ p1 q1 N1 HN1 POS1 T1) as (rs1 & E1 & P1 & _). cbn zeta in P, P1.
  set (t := repeat sg_zero (S (length w)) :: rs) in *. set (t1 := repeat sg_zero (S (length w1)) :: rs1) in *.
  set (K := Nat.min (Z.to_nat k) N). assert (LN : (N1 <= K)%nat).
  { destruct HN1 as [[->|I] _]; [lia|]. apply IW in I. destruct I as [I L]. apply HN in I. unfold K. lia. }
  assert (G : forall i, (i <= K)%nat -> part_at t i (length w) = part_at t1 (Nat.min i N1) (length w1)).
  { intros i Hi. pose proof (wrows_less _ _ _ K _ E ltac:(unfold K; lia)) as EK. unfold wrows in EK. cbn [repeat] in EK.
    destruct (rows_left_out (fun l => l) w k K 1 _ _ _ (zero_left_out k w) ltac:(unfold K; lia) EK) as (rs' & E' & F). fold w1 in E'.
    pose proof (wrows_nth _ w1 N1 K rs1 rs' E1 (proj2 HN1) LN E' i Hi) as X. fold t1 in X. unfold part_at. rewrite <- X.
    assert (LO : left_out k w [] (tl (nth i t [])) (tl (nth i (repeat sg_zero (S (length w1)) :: rs') [])) /\ (exists l, nth i t [] = sg_zero :: l) /\ exists l, nth i (repeat sg_zero (S (length w1)) :: rs') [] = sg_zero :: l).
    { destruct i as [|i]; [cbn [nth t tl repeat]; split; [exact (zero_left_out k w)|split; eexists; reflexivity]|]. cbn [nth t].
      pose proof (rows_shape _ _ _ _ _ _ E) as [L1 H1]. pose proof (rows_shape _ _ _ _ _ _ E') as [L2 H2]. unfold t. cbn [nth].
      split; [|split; [apply H1|apply H2]; apply nth_In; unfold K in *; lia].
      assert (NF : nth i rs [] = nth i (firstn K rs) []) by (rewrite <- (firstn_skipn K rs) at 1; apply app_nth1; rewrite firstn_length; unfold K in *; lia). rewrite NF.
      assert (LF : (i < length (firstn K rs))%nat) by (rewrite firstn_length; unfold K in *; lia). clear - F LF. revert i LF. induction F as [|r r' l l' R F IH]; intros i LF; [cbn in LF; lia|]. destruct i as [|i]; [exact R|]. cbn [nth]. apply IH. cbn [length] in LF. lia. }
    destruct LO as (LO & (l & El) & (l' & El')). rewrite El, El' in *. cbn [tl] in LO. exact (left_out_last k w [] l l' LO sg_zero sg_zero eq_refl eq_refl). }
  intros i j x. rewrite P, P1. split.
  - intros (m & Hm & -> & C1 & C2). split; [|unfold K in LN; lia]. exists m. split; [unfold K in LN; lia|]. split; [reflexivity|]. rewrite !G by lia. rewrite !Nat.min_l by lia. split; assumption.
  - intros ((m & Hm & -> & C1 & C2) & L). assert (HK : (m <= K)%nat) by (unfold K; lia). rewrite !G in C1, C2 by lia. destruct (le_lt_dec m N1) as [D|D].
    + rewrite !Nat.min_l in C1, C2 by lia. exists m. split; [lia|]. split; [reflexivity|]. split; assumption.
    + rewrite !Nat.min_r in C1, C2 by lia. destruct (C2 C1).
Qed.
Print Assumptions C111_letters.

(* the word of tests/test_growth.py, its first five letters, and its letters at most 2 *)
Example C111_example :
  tableaux_of [4; 2; 1; 1; 2; 3; 2]
    [((1, 1), [1]); ((1, 2), [2]); ((1, 3), [3]); ((2, 2), [3]); ((2, 3), [4])]
    [((1, 1), [1]); ((1, 2), [-2]); ((1, 3), [-4; -3]); ((2, 2), [5; 6]); ((2, 3), [-7])] /\
  tableaux_of [4; 2; 1; 1; 2]
    [((1, 1), [1]); ((1, 2), [2]); ((1, 3), [4]); ((2, 2), [4])]
    [((1, 1), [1]); ((1, 2), [-2]); ((1, 3), [-4; -3]); ((2, 2), [5])] /\
  filter (fun a => a <=? 2) [4; 2; 1; 1; 2; 3; 2] = [2; 1; 1; 2; 2] /\
  tableaux_of [2; 1; 1; 2; 2] [((1, 1), [1]); ((1, 2), [2])] [((1, 1), [1]); ((1, 2), [-3; -2; 4; 5])].
Proof.
  split; [|split; [|split; [reflexivity|]]]; exists (@rev (Z * Z)); eexists; (split; [intro l; symmetry; apply Permutation_rev|]; split; [vm_compute; reflexivity|]; vm_compute; reflexivity).
Qed.
