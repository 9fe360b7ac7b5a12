(* One step of the shifted growth diagram, in terms of the lengths of the rows *)
From Coq Require Import List ZArith Lia Bool Permutation Arith.
From Verif Require Import PyBase M_Partitions S_Partitions L_Partitions L_PartBasic L_PartMore P_Partitions M_SGrowth.
Import ListNotations.
Local Open Scope Z_scope.
Local Notation rw := get.

(* ---------- rows ---------- *)
Lemma strict_rw : forall p r, strict_partition p -> 1 <= r -> 0 <= rw p r /\ (rw p (r + 1) < rw p r \/ (rw p r = 0 /\ rw p (r + 1) = 0)).
Proof.
  intros p r H Hr. rewrite !get_row by lia. replace (Z.to_nat (r + 1 - 1)) with (S (Z.to_nat (r - 1))) by lia. set (k := Z.to_nat (r - 1)).
  split; [apply row_nonneg; eapply Forall_impl; [|apply H]; cbv beta; intros; lia|].
  destruct (le_lt_dec (length p) k) as [C|C]; [right; rewrite !row_overflow by lia; lia|]. destruct (le_lt_dec (length p) (S k)) as [D|D]; [left; rewrite (row_overflow p (S k)) by lia|left; apply H; exact D].
  destruct H as [H _]. rewrite Forall_forall in H. apply H. unfold row. apply nth_In. exact C.
Qed.
Lemma strict_of_rw : forall p, trimmed p -> (forall r, 1 <= r -> 0 <= rw p r /\ (rw p (r + 1) < rw p r \/ (rw p r = 0 /\ rw p (r + 1) = 0))) -> strict_partition p.
Proof.
  intros p T H.
  assert (R : forall k, 0 <= row p k /\ (row p (S k) < row p k \/ (row p k = 0 /\ row p (S k) = 0))).
  { intro k. specialize (H (Z.of_nat k + 1) ltac:(lia)). rewrite !get_row in H by lia. replace (Z.to_nat (Z.of_nat k + 1 - 1)) with k in H by lia. replace (Z.to_nat (Z.of_nat k + 1 + 1 - 1)) with (S k) in H by lia. exact H. }
  assert (W : weak_partition p).
  { split; [|intro i; specialize (R i); lia]. apply Forall_forall. intros x Hx. destruct (In_nth p x 0 Hx) as (k & _ & <-). apply R. }
  pose proof (weak_trim_partition p W) as P. rewrite (trim_id p T) in P. split; [apply P|]. intros i Hi. destruct (R i) as [_ [X|[X _]]]; [exact X|exfalso].
  destruct P as [P _]. rewrite Forall_forall in P. assert (0 < row p i) by (apply P; unfold row; apply nth_In; lia). lia.
Qed.
Lemma rw_ext : forall p q, strict_partition p -> strict_partition q -> (forall r, 1 <= r -> rw p r = rw q r) -> p = q.
Proof.
  intros p q Hp Hq H. apply trimmed_ext; [apply partition_trimmed, strict_is_partition; assumption|apply partition_trimmed, strict_is_partition; assumption|].
  intro k. specialize (H (Z.of_nat k + 1) ltac:(lia)). rewrite !get_row in H by lia. replace (Z.to_nat (Z.of_nat k + 1 - 1)) with k in H by lia. exact H.
Qed.
Lemma cell_rw : forall p i j, shifted_cell p i j <-> 1 <= i /\ i <= j <= i - 1 + rw p i.
Proof. intros p i j. unfold shifted_cell. split; intros [H1 H2]; (split; [exact H1|]); rewrite get_row in * by lia; exact H2. Qed.
Lemma pos_rw : forall p, strict_partition p -> Forall (fun a => 0 <= a) p.
Proof. intros p H. eapply Forall_impl; [|apply H]. cbv beta. intros. lia. Qed.
Lemma skew_rw : forall mu lam i j, strict_partition lam -> (In (i, j) (skew mu lam true) <-> 1 <= i /\ i + rw lam i <= j <= i - 1 + rw mu i).
Proof.
  intros mu lam i j Hl. rewrite (skew_shifted_In mu lam i j (pos_rw lam Hl)), !cell_rw. split; [intros [[A B] C]|intros [A B]]; pose proof (strict_rw lam i Hl A) as [D _]; lia.
Qed.
Lemma contains_rw : forall mu nu, strict_partition mu -> strict_partition nu -> (contains mu nu = true <-> forall r, 1 <= r -> rw nu r <= rw mu r).
Proof.
  intros mu nu Hm Hn. rewrite contains_spec by (first [apply partition_weak, strict_is_partition; assumption|apply partition_trimmed, strict_is_partition; assumption]). split.
  - intros H r Hr. rewrite !get_row by lia. apply H.
  - intros H k. specialize (H (Z.of_nat k + 1) ltac:(lia)). rewrite !get_row in H by lia. replace (Z.to_nat (Z.of_nat k + 1 - 1)) with k in H by lia. exact H.
Qed.
Lemma add_rw : forall p a r, 1 <= a -> 1 <= r -> rw (add_box_to_row p a) r = rw p r + (if r =? a then 1 else 0).
Proof. intros p a r Ha Hr. rewrite !get_row by lia. rewrite add_box_row by lia. replace (Z.of_nat (Z.to_nat (r - 1)) + 1) with r by lia. reflexivity. Qed.
Lemma add_strict : forall p a, strict_partition p -> 1 <= a -> (a = 1 \/ rw p a + 1 < rw p (a - 1)) -> strict_partition (add_box_to_row p a).
Proof.
  intros p a Hp Ha H. apply strict_of_rw; [apply trimmed_trim|]. intros r Hr. rewrite !add_rw by lia. pose proof (strict_rw p r Hp Hr) as S1.
  destruct (Z.eqb_spec r a) as [E|E]; destruct (Z.eqb_spec (r + 1) a) as [E2|E2]; try lia. destruct H as [->|H]; [lia|]. replace (a - 1) with r in H by lia. rewrite <- E2 in *. lia.
Qed.
Lemma union_rw : forall p q r, strict_partition p -> strict_partition q -> 1 <= r -> rw (punion p q) r = Z.max (rw p r) (rw q r).
Proof. intros p q r Hp Hq Hr. rewrite !get_row by lia. apply punion_row; apply partition_weak, strict_is_partition; assumption. Qed.
Lemma inb_In : forall s a b, inb s a b = true <-> In (a, b) s.
Proof.
  intros s a b. unfold inb. rewrite existsb_exists. split.
  - intros ([x y] & H & E). cbn [fst snd] in E. apply andb_true_iff in E. rewrite !Z.eqb_eq in E. destruct E as [-> ->]. exact H.
  - intro H. exists (a, b). split; [exact H|]. cbn [fst snd]. rewrite !Z.eqb_refl. reflexivity.
Qed.
Lemma gap_rw : forall p r k, strict_partition p -> 1 <= r -> 0 < rw p (r + Z.of_nat k) -> rw p (r + Z.of_nat k) + Z.of_nat k <= rw p r.
Proof.
  intros p r k Hp Hr. induction k as [|k IH]; [rewrite Z.add_0_r; lia|]. intro H. replace (r + Z.of_nat (S k)) with (r + Z.of_nat k + 1) in * by lia.
  pose proof (strict_rw p (r + Z.of_nat k) Hp ltac:(lia)). specialize (IH ltac:(lia)). lia.
Qed.
Lemma gap : forall p r s, strict_partition p -> 1 <= r <= s -> 0 < rw p s -> rw p s + (s - r) <= rw p r.
Proof. intros p r s Hp Hr H. pose proof (gap_rw p r (Z.to_nat (s - r)) Hp ltac:(lia)) as G. replace (r + Z.of_nat (Z.to_nat (s - r))) with s in G by lia. specialize (G H). lia. Qed.

(* ---------- columns ---------- *)
Lemma maxl_spec : forall l x, (forall y, In y (x :: l) -> y <= maxl x l) /\ In (maxl x l) (x :: l).
Proof.
  induction l as [|z l IH]; intro x; [split; [intros y [->|[]]; cbn; lia|left; reflexivity]|]. unfold maxl in *. cbn [fold_left]. destruct (IH (Z.max x z)) as [A B]. split.
  - intros y [->|[->|H]]; [pose proof (A (Z.max y z) (or_introl eq_refl)); lia|pose proof (A (Z.max x y) (or_introl eq_refl)); lia|apply A; right; exact H].
  - destruct B as [B|B]; [|right; right; exact B]. rewrite <- B. destruct (Z.max_spec x z) as [[_ ->]|[_ ->]]; [right; left; reflexivity|left; reflexivity].
Qed.
Lemma column_In : forall p col i, In i (map fst (filter (fun c => snd c =? col) (shifted_shape p))) <-> shifted_cell p i col.
Proof.
  intros p col i. rewrite in_map_iff. split.
  - intros ([x y] & <- & H). apply filter_In in H. cbn [fst snd] in *. destruct H as [H E]. apply Z.eqb_eq in E. subst y. apply shifted_shape_In. exact H.
  - intro H. exists (i, col). split; [reflexivity|]. apply filter_In. cbn [snd]. split; [apply shifted_shape_In; exact H|apply Z.eqb_refl].
Qed.
Lemma column_row_spec : forall p col, 1 <= column_row p col /\ ~ shifted_cell p (column_row p col) col /\ (column_row p col = 1 \/ shifted_cell p (column_row p col - 1) col).
Proof.
  intros p col. unfold column_row. pose proof (column_In p col) as C. destruct (map fst (filter (fun c => snd c =? col) (shifted_shape p))) as [|x l].
  - split; [lia|]. split; [intro H; apply C in H; destruct H|left; reflexivity].
  - destruct (maxl_spec l x) as [A B]. apply C in B. split; [destruct B; lia|]. split; [intro H; apply C in H; apply A in H; lia|right]. replace (maxl x l + 1 - 1) with (maxl x l) by lia. exact B.
Qed.
Lemma add_column : forall p col, strict_partition p -> rw p (column_row p col) + column_row p col = col -> strict_partition (add_box_to_row p (column_row p col)) ->
  add_box_to_column p col = Ok (add_box_to_row p (column_row p col)).
Proof.
  intros p col Hp E Hg. destruct (column_row_spec p col) as (R1 & R2 & _). set (R := column_row p col) in *. set (g := add_box_to_row p R) in *.
  assert (SH : forall i j, In (i, j) ((R, col) :: shifted_shape p) <-> shifted_cell g i j).
  { intros i j. cbn [In]. rewrite shifted_shape_In, !cell_rw. unfold g. split.
    - intros [H|[H1 H2]]; [injection H as <- <-; rewrite add_rw, Z.eqb_refl by lia; pose proof (strict_rw p R Hp R1); lia|]. rewrite add_rw by lia. destruct (i =? R); lia.
    - intros [H1 H2]. rewrite add_rw in H2 by lia. destruct (Z.eqb_spec i R) as [->|N]; [|right; lia]. destruct (Z.eq_dec j col) as [->|J]; [left; reflexivity|right; lia]. }
  assert (NS : NoDup ((R, col) :: shifted_shape p)).
  { constructor; [rewrite shifted_shape_In; exact R2|]. destruct (C20_shapes p [] (Forall_nil _)) as (_ & N & _). exact N. }
  unfold add_box_to_column. fold R. replace (forallb _ _) with true.
  - f_equal. rewrite (proj2 (C20_from_shape_round_trip g ((R, col) :: shifted_shape p) (proj1 Hg)) NS SH). apply trim_id, partition_trimmed, strict_is_partition. exact Hg.
  - symmetry. apply forallb_forall. intros [i j] H. cbn [fst snd]. apply SH in H. apply cell_rw in H. destruct (Z.eqb_spec i j) as [->|N]; [apply orb_true_r|]. rewrite orb_false_r. apply inb_In, SH, cell_rw. lia.
Qed.

(* ---------- the invariant ---------- *)
(* mu/lam has at most one box in every row, and no two in a column *)
Definition rook (lam mu : list Z) : Prop := forall r, 1 <= r -> rw lam r <= rw mu r <= rw lam r + 1 /\ (rw mu r = rw lam r + 1 -> rw mu (r + 1) = rw lam (r + 1) + 1 -> rw lam r <> rw lam (r + 1) + 1).
(* (a, last box of row a) can be removed from p *)
Definition removable (p : list Z) (a : Z) : Prop := 1 <= a /\ 1 <= rw p a /\ ~ (2 <= rw p a <= rw p (a + 1) + 1).
Definition idle (lam nu : list Z) (e : bool) (c : option Z) : Prop := nu = lam /\ e = false /\ c = None.
(* a one in this column, in this row or before, has left its mark *)
Definition active (lam nu : list Z) (e : bool) (c : option Z) : Prop :=
  (exists a, 1 <= a /\ (forall r, 1 <= r -> rw nu r = rw lam r + (if r =? a then 1 else 0)) /\ c = None) \/
  (exists a, nu = lam /\ e = false /\ c = Some a /\ removable lam a) \/
  (exists x, nu = lam /\ e = true /\ c = Some (rw lam x + x - 1) /\ removable lam x).
Definition kind (lam nu : list Z) (e : bool) (c : option Z) : Prop := idle lam nu e c \/ active lam nu e c.
Lemma active_idle : forall lam nu e c, active lam nu e c -> ~ idle lam nu e c.
Proof.
  intros lam nu e c [(a & Ha & N & _)|[(a & _ & _ & -> & _)|(x & _ & _ & -> & _)]] (E & _ & E2); try discriminate. subst nu. specialize (N a Ha). rewrite Z.eqb_refl in N. lia.
Qed.

Lemma new_corner : forall lam mu r, strict_partition lam -> strict_partition mu -> rook lam mu -> 1 <= r -> rw mu r = rw lam r + 1 -> removable mu r.
Proof.
  intros lam mu r Hl Hm R Hr E. pose proof (R r Hr). pose proof (R (r + 1) ltac:(lia)). pose proof (strict_rw lam r Hl Hr). pose proof (strict_rw mu r Hm Hr). pose proof (strict_rw lam (r + 1) Hl ltac:(lia)). split; [exact Hr|]. split; [lia|]. lia.
Qed.
Lemma rook_refl : forall p, rook p p.
Proof. intros p r Hr. lia. Qed.
(* adding a box of a row without new boxes *)
Lemma rook_add : forall nu mu a, strict_partition nu -> strict_partition mu -> rook nu mu -> 1 <= a -> rw mu a = rw nu a -> (a = 1 \/ rw mu (a - 1) = rw nu (a - 1) \/ rw nu (a - 1) <> rw nu a + 1) -> rook nu (add_box_to_row mu a).
Proof.
  intros nu mu a Hn Hm R Ha E C r Hr. pose proof (R r Hr). pose proof (strict_rw nu (r + 1) Hn ltac:(lia)). pose proof (strict_rw mu r Hm Hr). rewrite !add_rw by lia. destruct (Z.eqb_spec r a) as [N|N]; destruct (Z.eqb_spec (r + 1) a) as [N2|N2]; try lia; [rewrite <- N in *; lia|].
  rewrite N2 in *. replace (a - 1) with r in C by lia. lia.
Qed.
Lemma rook_sub : forall lam nu mu a, rook lam mu -> (forall r, 1 <= r -> rw nu r = rw lam r + (if r =? a then 1 else 0)) -> rw lam a < rw mu a -> rook nu mu.
Proof.
  intros lam nu mu a R N H r Hr. pose proof (R r Hr). rewrite !N by lia. pose proof (R (r + 1) ltac:(lia)). destruct (Z.eqb_spec r a) as [Q1|Q1]; destruct (Z.eqb_spec (r + 1) a) as [Q2|Q2]; try (rewrite <- Q1 in * ); try (rewrite <- Q2 in * ); lia.
Qed.
Lemma column_two : forall lam mu r s, strict_partition lam -> strict_partition mu -> rook lam mu -> 1 <= r < s -> rw mu r = rw lam r + 1 -> rw mu s = rw lam s + 1 -> rw lam r + r <> rw lam s + s.
Proof.
  intros lam mu r s Hl Hm R Hr Er Es E. pose proof (strict_rw lam s Hl ltac:(lia)). pose proof (gap mu (r + 1) s Hm ltac:(lia) ltac:(lia)). pose proof (R r ltac:(lia)). pose proof (R (r + 1) ltac:(lia)). pose proof (strict_rw mu r Hm ltac:(lia)). pose proof (strict_rw lam r Hl ltac:(lia)). lia.
Qed.
(* the box added to a column next to a removable box (a, col - 1) *)
Lemma column_step : forall nu mu a, strict_partition nu -> strict_partition mu -> rook nu mu -> 1 <= a -> 1 <= rw nu a -> rw mu a = rw nu a ->
  (forall x, 1 <= x -> rw mu x = rw nu x + 1 -> rw nu x + x <> rw nu a + a) ->
  exists h, 1 <= h /\ add_box_to_column mu (rw mu a + a) = Ok (add_box_to_row mu h) /\ strict_partition (add_box_to_row mu h) /\ rook nu (add_box_to_row mu h).
Proof.
  intros nu mu a Hn Hm R Ha Pa Ea NC. set (col := rw mu a + a). destruct (column_row_spec mu col) as (R1 & R2 & R3). pose proof (add_column mu col Hm) as AC. set (h := column_row mu col) in *.
  assert (HA : h <= a).
  { destruct (Z_le_gt_dec h a) as [L|L]; [exact L|exfalso]. destruct R3 as [R3|R3]; [lia|]. apply cell_rw in R3. destruct (Z.eq_dec (h - 1) a) as [Q|Q]; [rewrite Q in R3; unfold col in R3; lia|]. pose proof (gap mu a (h - 1) Hm ltac:(lia) ltac:(lia)). unfold col in R3. lia. }
  pose proof (gap mu h a Hm ltac:(lia) ltac:(lia)) as G.
  assert (EH : rw mu h + h = col). { rewrite cell_rw in R2. unfold col in *. lia. }
  assert (SG : strict_partition (add_box_to_row mu h)).
  { apply add_strict; [exact Hm|exact R1|]. destruct R3 as [R3|R3]; [left; exact R3|right]. apply cell_rw in R3. lia. }
  exists h. split; [exact R1|]. split; [apply AC; [exact EH|exact SG]|]. split; [exact SG|].
  assert (EN : rw mu h = rw nu h).
  { pose proof (R h R1) as [X _]. destruct (Z.eq_dec (rw mu h) (rw nu h)) as [Q|Q]; [exact Q|exfalso]. destruct (Z.eq_dec h a) as [->|Na]; [lia|]. pose proof (gap nu h a Hn ltac:(lia) ltac:(lia)). unfold col in EH. lia. }
  apply rook_add; [exact Hn|exact Hm|exact R|exact R1|exact EN|]. destruct (Z.eq_dec h 1) as [Q|Q]; [left; exact Q|right]. pose proof (R (h - 1) ltac:(lia)) as [X _].
  destruct (Z.eq_dec (rw mu (h - 1)) (rw nu (h - 1))) as [Y|Y]; [left; exact Y|right]. intro Z0. apply (NC (h - 1)); [lia|lia|]. unfold col in EH. lia.
Qed.
