(* C65-C67: reverse plane partitions are enumerated, counted and weighed exactly.
   The parameters ord, bord, tord are the unspecified iteration orders of Python sets. *)
From Coq Require Import List ZArith Lia Permutation Bool.
From Verif Require Import PyBase M_Partitions M_Rref M_Tableaux M_Strips M_RPP S_Partitions S_Tableaux S_Strips S_Semistandard S_RPP
  L_Partitions L_PartBasic L_PartMore L_Tableaux L_Strips2 L_Strips3 L_Shape L_Semi L_Semi2 L_Semi3 L_Semi4 L_Sym8 L_Count L_Count2 L_Count3 L_RPP1 L_RPP2 L_RPP3 L_RPP4 M_Semistandard.
Import ListNotations.
Local Open Scope Z_scope.

(* d counts the members of r by the weight W *)
Definition counts_by (W : list Z -> list ((Z * Z) * list Z) -> Prop) (n : nat) (d : list (list Z * Z)) (r : list (list ((Z * Z) * list Z))) : Prop :=
  NoDup (map fst d) /\
  (forall alpha, In alpha (map fst d) -> partition alpha /\ (length alpha <= n)%nat /\ 0 < cget d alpha) /\
  forall alpha, partition alpha -> (length alpha <= n)%nat -> cardinality (fun T => In T r /\ W alpha T) (cget d alpha).

Lemma pf_levels : forall sh al lam mu w T a j, (forall m, a < m -> w m = 0) -> 0 <= a ->
  (forall m, 1 <= m -> pweight m T = w m) -> (pfill sh al lam (2 * (a + Z.of_nat j)) mu T <-> pfill sh al lam (2 * a) mu T).
Proof.
  intros sh al lam mu w T a j H Ha W. induction j as [|j IH]; [replace (a + Z.of_nat 0) with a by lia; reflexivity|].
  rewrite (pweight_absent sh al lam (a + Z.of_nat (S j)) mu T); [|lia|rewrite W, H by lia; reflexivity]. rewrite <- IH. replace (2 * (a + Z.of_nat (S j)) - 2) with (2 * (a + Z.of_nat j)) by lia. reflexivity.
Qed.
Lemma wt_over : forall alpha m, Z.of_nat (length alpha) < m -> wt alpha m = 0.
Proof. intros alpha m H. unfold wt. destruct (1 <=? m) eqn:E; [|reflexivity]. apply Z.leb_le in E. apply nth_overflow. lia. Qed.
Lemma wt_nth : forall alpha k, wt alpha (Z.of_nat k + 1) = nth k alpha 0.
Proof. intros alpha k. unfold wt, row. replace (1 <=? Z.of_nat k + 1) with true by (symmetry; apply Z.leb_le; lia). f_equal. lia. Qed.
Lemma pcount_by : forall sh al lam n mu d r W, pcount_ok sh al lam n mu d -> (forall T, In T r <-> pfill sh al lam (2 * Z.of_nat n) mu T) ->
  (forall alpha T, In T r -> (W alpha T <-> forall m, 1 <= m -> pweight m T = wt alpha m)) -> counts_by W n d r.
Proof.
  intros sh al lam n mu d r W [[N G] H] Hr HW. split; [assumption|]. split.
  - intros alpha Ha. apply in_map_iff in Ha. destruct Ha as ([p c] & <- & Hp). cbn [fst]. destruct (G p c Hp) as (G1 & G2 & G3). split; [assumption|]. split; [assumption|].
    unfold cget. rewrite (In_dget zlist_eqb zlist_eqb_eq d p c N Hp). assumption.
  - intros alpha Ha Hl. apply (counts_ext _ (pweighted sh al lam (2 * Z.of_nat (length alpha)) mu (wt alpha)) _ (cget d alpha)); [|reflexivity|apply H; [assumption|assumption|reflexivity]].
    intro T. pose proof (fun X => pf_levels sh al lam mu (wt alpha) T (Z.of_nat (length alpha)) (n - length alpha) (wt_over alpha) ltac:(lia) X) as PL.
    replace (Z.of_nat (length alpha) + Z.of_nat (n - length alpha)) with (Z.of_nat n) in PL by lia. unfold pweighted. split.
    + intros [F W']. pose proof (proj2 (PL W') F) as F'. pose proof (proj2 (Hr T) F') as I. split; [exact I|]. apply HW; assumption.
    + intros [I W']. pose proof (proj1 (HW alpha T I) W') as W2. split; [|exact W2]. apply (PL W2). apply Hr. assumption.
Qed.

Lemma cols_card : forall x T, cardinality (fun j => exists i, holds T i j x) (colsof x T).
Proof.
  intros x T. apply distinct_counts. intro j. rewrite in_map_iff. split.
  - intros ([i j'] & E & H). cbn [snd] in E. subst j'. apply cellsof_In in H. exists i. exact H.
  - intros [i H]. exists (i, j). split; [reflexivity|]. apply cellsof_In. exact H.
Qed.
Lemma rows_card : forall x T, cardinality (fun i => exists j, holds T i j x) (rowsof x T).
Proof.
  intros x T. apply distinct_counts. intro i. rewrite in_map_iff. split.
  - intros ([i' j] & E & H). cbn [fst] in E. subst i'. apply cellsof_In in H. exists j. exact H.
  - intros [j H]. exists (i, j). split; [reflexivity|]. apply cellsof_In. exact H.
Qed.
Lemma card_unique : forall A (P : A -> Prop) N M, cardinality P N -> cardinality P M -> N = M.
Proof. exact counts_unique. Qed.
Lemma marked_weight_eq : forall alpha T, marked_weight alpha T <-> forall m, 1 <= m -> pweight m T = wt alpha m.
Proof.
  intros alpha T. split.
  - intros H m Hm. specialize (H (Z.to_nat (m - 1))). destruct H as (a & b & Ca & Cb & E). replace (Z.of_nat (Z.to_nat (m - 1)) + 1) with m in Ca, Cb by lia.
    unfold pweight. rewrite (card_unique _ _ _ _ (cols_card m T) Ca), (card_unique _ _ _ _ (rows_card (- m) T) Cb), <- E.
    rewrite <- wt_nth. f_equal. lia.
  - intros H k. exists (colsof (Z.of_nat k + 1) T), (rowsof (- (Z.of_nat k + 1)) T). split; [apply cols_card|]. split; [apply rows_card|]. rewrite <- wt_nth, <- H by lia. reflexivity.
Qed.
Lemma plain_rows : forall lam k mu T m, pfill false al_plain lam k mu T -> 1 <= m -> rowsof (- m) T = 0.
Proof. intros lam k mu T m (_ & _ & _ & _ & Rng & _) Hm. unfold rowsof. rewrite cells_none; [reflexivity|]. intros b H. apply Rng in H. destruct H as [_ H]. unfold al_plain in H. lia. Qed.
Lemma column_weight_eq : forall lam k mu alpha T, pfill false al_plain lam k mu T -> (column_weight alpha T <-> forall m, 1 <= m -> pweight m T = wt alpha m).
Proof.
  intros lam k mu alpha T F. split.
  - intros H m Hm. specialize (H (Z.to_nat (m - 1))). replace (Z.of_nat (Z.to_nat (m - 1)) + 1) with m in H by lia.
    unfold pweight. rewrite (plain_rows lam k mu T m F Hm), (card_unique _ _ _ _ (cols_card m T) H). rewrite <- wt_nth. replace (Z.of_nat (Z.to_nat (m - 1)) + 1) with m by lia. lia.
  - intros H i. specialize (H (Z.of_nat i + 1) ltac:(lia)). unfold pweight in H. rewrite (plain_rows lam k mu T _ F) in H by lia. rewrite wt_nth in H. rewrite <- H, Z.add_0_r. apply cols_card.
Qed.

Lemma rpp_of_pfill : forall n nu mu T, okS false nu mu -> (pfill false al_plain nu (2 * n) mu T <-> reverse_plane_partition n nu mu T).
Proof. intros n nu mu T O. exact (pfill_spec false (fun _ _ x => 0 < x) n nu mu T O). Qed.
Lemma marked_of_pfill : forall dnp n nu mu T, okS true nu mu -> (pfill true (al_marked dnp) nu (2 * n) mu T <-> marked_reverse_plane_partition dnp n nu mu T).
Proof. intros dnp n nu mu T O. exact (pfill_spec true (fun i j x => dnp = false -> i = j -> x < 0) n nu mu T O). Qed.

Lemma entries_Hd : forall T e, In e (tentries T) <-> Hd T (fst e) (snd e).
Proof.
  intros T [[i j] x]. unfold tentries, Hd, holds. cbn [fst snd]. rewrite in_flat_map. split.
  - intros ([b l] & H & Hx). apply in_map_iff in Hx. destruct Hx as (y & E & Hy). cbn [fst snd] in E, Hy. injection E as -> ->. exists l. tauto.
  - intros (l & H & Hx). exists ((i, j), l). split; [assumption|]. apply in_map_iff. exists x. tauto.
Qed.
Lemma map_filter_fst : forall (f : box -> Z) (p : (box * Z) -> bool) l, map (fun e => f (fst e)) (filter p l) = map f (map fst (filter p l)).
Proof. intros. rewrite map_map. reflexivity. Qed.
Lemma nth_map_range : forall (f : Z -> Z) n k, (k < n)%nat -> nth k (map f (zrange 1 (Z.of_nat n + 1))) 0 = f (Z.of_nat k + 1).
Proof. intros f n k H. change (nth k (map f (zrange 1 (Z.of_nat n + 1))) 0) with (row (map f (zrange 1 (Z.of_nat n + 1))) k). rewrite map_range1_row. replace (Z.of_nat k <? Z.of_nat n) with true by (symmetry; apply Z.ltb_lt; lia). reflexivity. Qed.
Lemma zrange_length : forall n, length (zrange 1 (Z.of_nat n + 1)) = n.
Proof. intro n. assert (H : zlen (zrange 1 (Z.of_nat n + 1)) = Z.of_nat n + 1 - 1) by (apply zlen_zrange; lia). unfold zlen in H. lia. Qed.

Section Statements.
  Variable ord : list (list Z) -> list (list Z).
  Variable bord : list (Z * Z) -> list (Z * Z).
  Variable tord : list (list ((Z * Z) * list Z)) -> list (list ((Z * Z) * list Z)).
  Hypothesis ord_perm : forall l, Permutation (ord l) l.
  Hypothesis bord_perm : forall l, Permutation (bord l) l.
  Hypothesis tord_perm : forall l, Permutation (tord l) l.

  Theorem C65_semistandard_rpp : forall n mu nu, partition mu -> partition nu ->
    exists r, semistandard_rpp ord bord tord n mu nu = Ok r /\ NoDup r /\
      ((forall i j, cell nu i j -> cell mu i j) -> forall T, In T r <-> reverse_plane_partition (Z.of_nat n) nu mu T) /\
      (~ (forall i j, cell nu i j -> cell mu i j) -> r = []).
  Proof.
    intros n mu nu Hm Hn. destruct (rpp_full ord bord tord ord_perm bord_perm tord_perm nu Hn n mu Hm) as (r & E & N & H). exists r. split; [assumption|]. split; [assumption|]. split.
    - intros Hi T. rewrite H. apply rpp_of_pfill. split; [assumption|]. intros [i j]. apply Hi.
    - intro Hi. destruct r as [|T r]; [reflexivity|]. exfalso. apply Hi. destruct (proj1 (H T) (or_introl eq_refl)) as ([_ I] & _). intros i j. apply (I (i, j)).
  Qed.

  Theorem C65_semistandard_marked_rpp : forall n mu nu diagonal_nonprimes, strict_partition mu -> strict_partition nu ->
    exists r, semistandard_marked_rpp ord bord tord n mu nu diagonal_nonprimes = Ok r /\ NoDup r /\
      ((forall i j, shifted_cell nu i j -> shifted_cell mu i j) -> forall T, In T r <-> marked_reverse_plane_partition diagonal_nonprimes (Z.of_nat n) nu mu T) /\
      (~ (forall i j, shifted_cell nu i j -> shifted_cell mu i j) -> r = []).
  Proof.
    intros n mu nu dnp Hm Hn. destruct (marked_rpp_full ord bord tord ord_perm bord_perm tord_perm dnp nu Hn n mu Hm) as (r & E & N & H). exists r. split; [assumption|]. split; [assumption|]. split.
    - intros Hi T. rewrite H. apply marked_of_pfill. split; [assumption|]. intros [i j]. apply Hi.
    - intro Hi. destruct r as [|T r]; [reflexivity|]. exfalso. apply Hi. destruct (proj1 (H T) (or_introl eq_refl)) as ([_ I] & _). intros i j. apply (I (i, j)).
  Qed.

  Theorem C66_count_semistandard_rpp : forall n mu nu, partition mu -> partition nu ->
    exists d r, count_semistandard_rpp ord n mu nu = Ok d /\ semistandard_rpp ord bord tord n mu nu = Ok r /\ counts_by column_weight n d r.
  Proof.
    intros n mu nu Hm Hn. destruct (rpp_full ord bord tord ord_perm bord_perm tord_perm nu Hn n mu Hm) as (r & E & N & H). destruct (count_rpp_ok ord ord_perm nu Hn n mu Hm) as (d & Ed & Hd).
    exists d, r. split; [assumption|]. split; [assumption|]. eapply pcount_by; [exact Hd|exact H|]. intros alpha T I. apply H in I. eapply column_weight_eq. exact I.
  Qed.

  Theorem C66_count_semistandard_marked_rpp : forall n mu nu diagonal_nonprimes, strict_partition mu -> strict_partition nu ->
    exists d r, count_semistandard_marked_rpp ord n mu nu diagonal_nonprimes = Ok d /\ semistandard_marked_rpp ord bord tord n mu nu diagonal_nonprimes = Ok r /\ counts_by marked_weight n d r.
  Proof.
    intros n mu nu dnp Hm Hn. destruct (marked_rpp_full ord bord tord ord_perm bord_perm tord_perm dnp nu Hn n mu Hm) as (r & E & N & H). destruct (count_marked_rpp_ok ord ord_perm dnp nu Hn n mu Hm) as (d & Ed & Hd).
    exists d, r. split; [assumption|]. split; [assumption|]. eapply pcount_by; [exact Hd|exact H|]. intros alpha T I. apply marked_weight_eq.
  Qed.

  Theorem C66_not_strict : forall n mu nu diagonal_nonprimes, is_strict_partition mu = false ->
    semistandard_marked_rpp ord bord tord n mu nu diagonal_nonprimes = Err AssertionError /\ count_semistandard_marked_rpp ord n mu nu diagonal_nonprimes = Err AssertionError.
  Proof. intros n mu nu dnp H. destruct n; cbn [semistandard_marked_rpp count_semistandard_marked_rpp]; rewrite H; split; reflexivity. Qed.
End Statements.

(* the weight methods compute the weight by which the tableaux are counted *)
Theorem C67_rpp_weight : forall n nu mu T, reverse_plane_partition (Z.of_nat n) nu mu T ->
  exists alpha, rpp_weight T n = Ok alpha /\ length alpha = n /\ column_weight alpha T.
Proof.
  intros n nu mu T (_ & _ & _ & R & _). assert (Hx : forall e, In e (tentries T) -> 1 <= Z.abs (snd e) <= Z.of_nat n /\ 0 < snd e) by (intros [[i j] x] H; apply entries_Hd in H; apply (R i j); exact H).
  unfold rpp_weight. match goal with |- context [if ?c then _ else _] => replace c with true end.
  - eexists. split; [reflexivity|]. split; [rewrite map_length, zrange_length; lia|]. intro k.
    destruct (Nat.lt_ge_cases k n) as [L|L].
    + rewrite nth_map_range by assumption. refine (eq_ind _ _ (cols_card (Z.of_nat k + 1) T) _ _). unfold colsof, cellsof. rewrite (map_filter_fst snd). do 3 f_equal.
      apply filter_ext_in. intros e He. specialize (Hx e He). replace (Z.abs (snd e) =? 0) with false by (symmetry; apply Z.eqb_neq; lia). replace (Z.abs (snd e)) with (snd e) by lia. reflexivity.
    + rewrite nth_overflow by (rewrite map_length, zrange_length; lia). exists []. split; [constructor|]. split; [|reflexivity]. intro j. split; [intros []|]. intros (i & H). apply R in H. lia.
  - symmetry. apply andb_true_iff. split; [apply forallb_forall; intros e He; specialize (Hx e He); apply Z.leb_le; lia|]. destruct n; [|reflexivity]. cbn. destruct (tentries T) as [|e l]; [reflexivity|]. specialize (Hx e (or_introl eq_refl)). lia.
Qed.
Theorem C67_marked_rpp_weight : forall dnp n nu mu T, marked_reverse_plane_partition dnp (Z.of_nat n) nu mu T ->
  exists alpha, marked_rpp_weight T n = Ok alpha /\ length alpha = n /\ marked_weight alpha T.
Proof.
  intros dnp n nu mu T (_ & _ & _ & R & _). assert (Hx : forall e, In e (tentries T) -> 1 <= Z.abs (snd e) <= Z.of_nat n) by (intros [[i j] x] H; apply entries_Hd in H; apply (R i j); exact H).
  unfold marked_rpp_weight. destruct (find _ _) as [e|] eqn:F.
  - apply find_some in F. destruct F as [F1 F2]. specialize (Hx e F1). apply orb_true_iff in F2. rewrite Z.eqb_eq, Z.ltb_lt in F2. lia.
  - eexists. split; [reflexivity|]. split; [rewrite map_length, zrange_length; lia|]. intro k. exists (colsof (Z.of_nat k + 1) T), (rowsof (- (Z.of_nat k + 1)) T). split; [apply cols_card|]. split; [apply rows_card|].
    destruct (Nat.lt_ge_cases k n) as [L|L].
    + rewrite nth_map_range by assumption. unfold colsof, rowsof, cellsof. rewrite (map_filter_fst snd), (map_filter_fst fst). reflexivity.
    + rewrite nth_overflow by (rewrite map_length, zrange_length; lia). unfold colsof, rowsof. rewrite !cells_none; [reflexivity| |]; intros [i j] H; apply R in H; lia.
Qed.

Example C65_example : exists r, semistandard_rpp (fun l => l) (fun l => l) (fun l => l) 2 [2; 1] [] = Ok r /\ length r = 5%nat /\ In [((1, 1), [1]); ((1, 2), [1]); ((2, 1), [1])] r.
Proof. eexists. split; [vm_compute; reflexivity|]. split; [reflexivity|]. vm_compute. tauto. Qed.
Example C66_example :
  (exists d, count_semistandard_rpp (fun l => l) 2 [2; 1] [] = Ok d /\ cget d [2] = 1 /\ cget d [2; 1] = 1 /\ cget d [1; 1] = 1) /\
  (exists d, count_semistandard_marked_rpp (fun l => l) 2 [3; 1] [] true = Ok d /\ cget d [3; 1] = 4) /\
  rpp_weight [((1, 1), [1]); ((1, 2), [2]); ((2, 1), [1])] 2 = Ok [1; 1] /\
  marked_rpp_weight [((1, 1), [-1]); ((1, 2), [1]); ((2, 2), [-2])] 2 = Ok [2; 1].
Proof. split; [eexists; split; [vm_compute; reflexivity|]; repeat split; reflexivity|]. split; [eexists; split; [vm_compute; reflexivity|]; repeat split; reflexivity|]. split; vm_compute; reflexivity. Qed.

Print Assumptions C65_semistandard_rpp.
Print Assumptions C65_semistandard_marked_rpp.
Print Assumptions C66_count_semistandard_rpp.
Print Assumptions C66_count_semistandard_marked_rpp.
Print Assumptions C66_not_strict.
Print Assumptions C67_rpp_weight.
Print Assumptions C67_marked_rpp_weight.
