(* C35, C36: the counting functions agree with the enumerators.
   The parameters ord, bord, tord are the unspecified iteration orders of Python sets. *)
From Coq Require Import List ZArith Lia Bool Permutation.
From Verif Require Import PyBase M_Partitions S_Partitions L_Partitions L_PartBasic M_Tableaux S_Tableaux M_Strips S_Strips L_Strips2
  M_Semistandard S_Semistandard L_Shape L_Semi L_Semi3 L_Semi4 L_Semi5 L_Count L_Count2 L_Count3 P_Semistandard.
Import ListNotations.
Local Open Scope Z_scope.

(* d counts the tableaux in r by weight: its keys are partitions with at most n parts, with
   positive counts, and d[alpha] (0 if absent, d being a defaultdict) is the number of tableaux of
   weight alpha for every such partition *)
Definition counts_by_weight (n : nat) (d : cdict) (r : list tab) : Prop :=
  NoDup (map fst d) /\
  (forall alpha, In alpha (map fst d) -> partition alpha /\ (length alpha <= n)%nat /\ 0 < cget d alpha) /\
  forall alpha, partition alpha -> (length alpha <= n)%nat -> cardinality (fun T => In T r /\ has_weight alpha T) (cget d alpha).

Lemma weighted_has_weight : forall sh pr sv lam k mu alpha T, full sh pr sv lam k mu T ->
  ((forall m, occurrences m T = wt alpha m) <-> has_weight alpha T).
Proof.
  intros sh pr sv lam k mu alpha T F. unfold has_weight, wt, row. split.
  - intros H i. rewrite H. replace (1 <=? Z.of_nat i + 1) with true by (symmetry; apply Z.leb_le; lia). f_equal. lia.
  - intros H m. destruct (1 <=? m) eqn:E.
    + apply Z.leb_le in E. specialize (H (Z.to_nat (m - 1))). replace (Z.of_nat (Z.to_nat (m - 1)) + 1) with m in H by lia. assumption.
    + apply Z.leb_gt in E. apply (occ_zero _ _ _ _ _ _ _ _ F). lia.
Qed.

Lemma count_ok_by_weight : forall sh pr sv lam n mu d r, count_ok sh pr sv lam n mu d -> (forall T, In T r <-> full sh pr sv lam (2 * Z.of_nat n) mu T) -> counts_by_weight n d r.
Proof.
  intros sh pr sv lam n mu d r [[N G] H] Hr. split; [assumption|]. split.
  - intros alpha Ha. apply in_map_iff in Ha. destruct Ha as ([p c] & <- & Hp). cbn [fst]. destruct (G p c Hp) as (G1 & G2 & G3). split; [assumption|]. split; [assumption|].
    unfold cget. rewrite (In_dget zlist_eqb zlist_eqb_eq d p c N Hp). assumption.
  - intros alpha Ha Hl. apply (counts_ext _ (weighted sh pr sv lam (2 * Z.of_nat n) mu (wt alpha)) _ (cget d alpha)); [|reflexivity|apply H; [assumption|assumption|reflexivity]].
    intro T. rewrite Hr. unfold weighted. split; intros [F W]; (split; [assumption|]); apply (weighted_has_weight _ _ _ _ _ _ _ _ F); assumption.
Qed.

Section Statements.
  Variable ord : list (list Z) -> list (list Z).
  Variable bord : list (Z * Z) -> list (Z * Z).
  Variable tord : list (list ((Z * Z) * list Z)) -> list (list ((Z * Z) * list Z)).
  Hypothesis ord_perm : forall l, Permutation (ord l) l.
  Hypothesis bord_perm : forall l, Permutation (bord l) l.
  Hypothesis tord_perm : forall l, Permutation (tord l) l.

  Theorem C35_count_semistandard : forall n mu nu setvalued, partition mu -> partition nu -> (forall i j, cell nu i j -> cell mu i j) ->
    exists d r, count_semistandard ord n mu nu setvalued = Ok d /\ semistandard ord bord tord n mu nu setvalued = Ok r /\ counts_by_weight n d r.
  Proof.
    intros n mu nu sv Hm Hn Hi. assert (Hi' : forall b, dc false nu b -> dc false mu b) by (intros [i j]; apply Hi).
    destruct (semistandard_full ord bord tord ord_perm bord_perm tord_perm sv nu Hn n mu Hm Hi') as (r & E & _ & H).
    destruct (count_semistandard_ok ord ord_perm sv nu Hn n mu Hm Hi') as (d & Ed & Hd).
    exists d, r. split; [assumption|]. split; [assumption|]. eapply count_ok_by_weight; eassumption.
  Qed.

  Theorem C36_count_semistandard_marked : forall n mu nu setvalued, partition mu -> partition nu -> (forall i j, cell nu i j -> cell mu i j) ->
    exists d r, count_semistandard_marked ord n mu nu setvalued = Ok d /\ semistandard_marked ord bord tord n mu nu setvalued = Ok r /\ counts_by_weight n d r.
  Proof.
    intros n mu nu sv Hm Hn Hi. assert (Hi' : forall b, dc false nu b -> dc false mu b) by (intros [i j]; apply Hi).
    destruct (semistandard_marked_full ord bord tord ord_perm bord_perm tord_perm sv nu Hn n mu Hm Hi') as (r & E & _ & H).
    destruct (count_semistandard_marked_ok ord ord_perm sv nu Hn n mu Hm Hi') as (d & Ed & Hd).
    exists d, r. split; [assumption|]. split; [assumption|]. eapply count_ok_by_weight; eassumption.
  Qed.

  Theorem C36_count_semistandard_shifted_marked : forall n mu nu diagonal_primes setvalued, strict_partition mu -> strict_partition nu ->
    (forall i j, shifted_cell nu i j -> shifted_cell mu i j) ->
    exists d r, count_semistandard_shifted_marked ord n mu nu diagonal_primes setvalued = Ok d /\
      semistandard_shifted_marked ord bord tord n mu nu diagonal_primes setvalued = Ok r /\ counts_by_weight n d r.
  Proof.
    intros n mu nu dp sv Hm Hn Hi. assert (Hi' : forall b, dc true nu b -> dc true mu b) by (intros [i j]; apply Hi).
    destruct (semistandard_shifted_marked_full ord bord tord ord_perm bord_perm tord_perm dp sv nu Hn n mu Hm Hi') as (r & E & _ & H).
    destruct (count_semistandard_shifted_marked_ok ord ord_perm dp sv nu Hn n mu Hm Hi') as (d & Ed & Hd).
    exists d, r. split; [assumption|]. split; [assumption|]. eapply count_ok_by_weight; eassumption.
  Qed.
End Statements.

(* when the inner shape does not fit, nothing is counted *)
Theorem C35_not_contained : forall ord n mu nu setvalued, partition mu -> partition nu -> ~ (forall i j, cell nu i j -> cell mu i j) ->
  count_semistandard ord n mu nu setvalued = Ok [] /\ count_semistandard_marked ord n mu nu setvalued = Ok [].
Proof.
  intros ord n mu nu sv Hm Hn Hi. assert (C : contains mu nu = false).
  { destruct (contains mu nu) eqn:E; [|reflexivity]. exfalso. apply Hi. intros i j. apply (proj1 (contains_incl false mu nu Hm Hn) E (i, j)). }
  assert (E : zlist_eqb mu nu = false) by (destruct (zlist_eqb mu nu) eqn:E; [|reflexivity]; apply zlist_eqb_eq in E; subst; exfalso; apply Hi; auto).
  destruct n as [|n]; cbn [count_semistandard count_semistandard_marked]; rewrite E; [split; reflexivity|]. rewrite C. split; reflexivity.
Qed.
Theorem C36_not_contained : forall ord n mu nu diagonal_primes setvalued, strict_partition mu -> strict_partition nu ->
  ~ (forall i j, shifted_cell nu i j -> shifted_cell mu i j) -> count_semistandard_shifted_marked ord n mu nu diagonal_primes setvalued = Ok [].
Proof.
  intros ord n mu nu dp sv Hm Hn Hi. assert (C : contains mu nu = false).
  { destruct (contains mu nu) eqn:E; [|reflexivity]. exfalso. apply Hi. intros i j. apply (proj1 (contains_incl true mu nu Hm Hn) E (i, j)). }
  assert (E : zlist_eqb mu nu = false) by (destruct (zlist_eqb mu nu) eqn:E; [|reflexivity]; apply zlist_eqb_eq in E; subst; exfalso; apply Hi; auto).
  destruct n as [|n]; cbn [count_semistandard_shifted_marked]; rewrite L_Strips3.strict_is_strict by assumption; cbn [negb]; rewrite E; [reflexivity|]. rewrite C. reflexivity.
Qed.

(* Tableau.weight(n) is the vector of the numbers of occurrences *)
Lemma row_upd : forall l i v k, (i < length l)%nat -> row (upd l i v) k = if (k =? i)%nat then v else row l k.
Proof.
  induction l as [|a l IH]; intros i v k H; [cbn in H; lia|]. destruct i as [|i], k as [|k]; cbn [upd row nth Nat.eqb]; try reflexivity. cbn [length] in H. apply IH. lia.
Qed.
Theorem C35_weight : forall t n, (forall x, In x (flat_map snd t) -> 1 <= Z.abs x <= Z.of_nat n) ->
  exists w, tweight t (Some (Z.of_nat n)) = Ok w /\ length w = n /\ has_weight w t.
Proof.
  intros t n H. unfold tweight. rewrite Nat2Z.id.
  assert (G : forall l a, (forall x, In x l -> 1 <= Z.abs x <= Z.of_nat n) -> length a = n ->
    exists w, rfold (fun ans x => bump_at ans (Z.abs x - 1)) l a = Ok w /\ length w = n /\
      forall k, row w k = row a k + Z.of_nat (length (filter (fun x => Z.abs x =? Z.of_nat k + 1) l))).
  { clear t H. induction l as [|x l IH]; intros a H E; cbn [rfold].
    - exists a. split; [reflexivity|]. split; [assumption|]. intro k. cbn. lia.
    - destruct (H x (or_introl eq_refl)) as [B1 B2]. unfold bump_at. replace (Z.abs x - 1 <? 0) with false by (symmetry; apply Z.ltb_ge; lia).
      replace ((0 <=? Z.abs x - 1) && (Z.abs x - 1 <? zlen a)) with true by (symmetry; apply andb_true_iff; unfold zlen; rewrite Z.leb_le, Z.ltb_lt; lia). cbn [rbind].
      destruct (IH (upd a (Z.to_nat (Z.abs x - 1)) (nthz a (Z.abs x - 1) + 1))) as (w & Ew & Lw & Hw); [intros; apply H; right; assumption|rewrite L_Strips.upd_length; assumption|].
      exists w. split; [exact Ew|]. split; [assumption|]. intro k. rewrite Hw, row_upd by lia. cbn [filter].
      destruct (k =? Z.to_nat (Z.abs x - 1))%nat eqn:Ek.
      + apply Nat.eqb_eq in Ek. replace (Z.abs x =? Z.of_nat k + 1) with true by (symmetry; apply Z.eqb_eq; lia). cbn [length]. unfold nthz. replace (Z.abs x - 1 <? 0) with false by (symmetry; apply Z.ltb_ge; lia).
        rewrite <- Ek. unfold row. lia.
      + apply Nat.eqb_neq in Ek. replace (Z.abs x =? Z.of_nat k + 1) with false by (symmetry; apply Z.eqb_neq; lia). lia. }
  destruct (G (flat_map snd t) (repeat 0 n) H (repeat_length _ _)) as (w & Ew & Lw & Hw). exists w. split; [exact Ew|]. split; [assumption|].
  intro k. change (nth k w 0) with (row w k). rewrite Hw. unfold row. rewrite nth_repeat. reflexivity.
Qed.

Print Assumptions C35_count_semistandard.
Print Assumptions C36_count_semistandard_marked.
Print Assumptions C36_count_semistandard_shifted_marked.
Print Assumptions C35_not_contained.
Print Assumptions C36_not_contained.
Print Assumptions C35_weight.

Example C35_example :
  count_semistandard idl 3 [2; 1] [] false = Ok [([1; 1; 1], 2); ([2; 1], 1)] /\
  (exists d, count_semistandard idl 3 [2; 1] [] true = Ok d /\ cget d [2; 2] = 1 /\ cget d [2; 1; 1] = 3 /\ cget d [2; 2; 2] = 1) /\
  (exists d, count_semistandard_shifted_marked idl 2 [2; 1] [] false false = Ok d /\ cget d [2; 1] = 1).
Proof.
  split; [vm_compute; reflexivity|]. split; eexists; (split; [vm_compute; reflexivity|]); repeat split; vm_compute; reflexivity.
Qed.
