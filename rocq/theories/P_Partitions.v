(* C12-C14, C16-C21, C46: operations on partitions *)
From Coq Require Import List ZArith Lia Bool Permutation Sorted.
From Verif Require Import PyBase M_Partitions S_Partitions L_Partitions L_PartBasic L_PartEnum
  L_PartCorners L_PartMore L_Growth.
Import ListNotations.
Local Open Scope Z_scope.

Lemma ex_partition_321 : partition [3; 2; 2].
Proof.
  split; [repeat constructor|]. intros [|[|[|i]]]; unfold row; simpl; try lia. destruct i; simpl; lia.
Qed.
Lemma ex_strict_421 : strict_partition [4; 2; 1].
Proof.
  split; [repeat constructor|]. intros [|[|[|i]]] H; unfold row; simpl in *; lia.
Qed.

Lemma included_rows : forall a b, weak_partition a -> weak_partition b -> (included a b <-> forall i, row a i <= row b i).
Proof. intros a b Ha Hb. exact (cells_row_le a b Ha Hb). Qed.

(* ---- C12 ---- *)
Theorem C12_transpose_conjugation : forall mu, partition mu ->
  (forall i j, isin (transpose mu) i j false = true <-> isin mu j i false = true) /\
  (forall i j, isin mu i j false = true <-> cell mu i j) /\
  partition (transpose mu) /\ size (transpose mu) = size mu /\ transpose (transpose mu) = mu.
Proof.
  intros mu H. pose proof (partition_weak _ H) as Hw. split; [|split; [|split; [|split]]].
  - intros i j. rewrite !isin_cell. apply transpose_cell. assumption.
  - intros. apply isin_cell.
  - apply transpose_partition. assumption.
  - apply transpose_size. assumption.
  - apply transpose_involutive. assumption.
Qed.
Print Assumptions C12_transpose_conjugation.
Example C12_example : partition [3; 2; 2] /\ transpose [3; 2; 2] = [3; 3; 1].
Proof. split; [exact ex_partition_321|reflexivity]. Qed.

(* ---- C13 ---- *)
Theorem C13_trim : forall mu, trimmed (trim mu) /\ exists k, mu = trim mu ++ repeat 0 k.
Proof.
  intro mu. split; [apply trimmed_trim|].
  induction mu as [|a mu [k IH]]; [exists O; reflexivity|]. rewrite trim_cons. destruct (trim mu) as [|b r] eqn:E.
  - destruct (a =? 0) eqn:E2.
    + apply Z.eqb_eq in E2. subst a. exists (S k). simpl. f_equal. exact IH.
    + exists k. simpl. f_equal. exact IH.
  - exists k. rewrite IH at 1. reflexivity.
Qed.
Print Assumptions C13_trim.

Theorem C13_sort : forall mu,
  Permutation (psort mu false) mu /\ StronglySorted Z.ge (psort mu false) /\
  psort mu true = trim (psort mu false).
Proof. intro mu. split; [apply psort_perm|]. split; [apply psort_sorted|reflexivity]. Qed.
Print Assumptions C13_sort.

(* contains is cellwise inclusion, a partial order on partitions with positive parts; union is its join *)
Theorem C13_contains_union : forall mu nu la, partition mu -> partition nu -> partition la ->
  (contains mu nu = true <-> forall i j, cell nu i j -> cell mu i j) /\
  contains mu mu = true /\
  (contains mu nu = true -> contains nu mu = true -> mu = nu) /\
  (contains la mu = true -> contains mu nu = true -> contains la nu = true) /\
  partition (punion mu nu) /\ contains (punion mu nu) mu = true /\ contains (punion mu nu) nu = true /\
  (contains la mu = true -> contains la nu = true -> contains la (punion mu nu) = true).
Proof.
  intros mu nu la Hm Hn Hl.
  assert (CS : forall b s, partition b -> partition s -> (contains b s = true <-> forall i, row s i <= row b i)).
  { intros b s Hb Hs. apply contains_spec; [apply partition_weak; assumption|apply partition_weak; assumption|apply partition_trimmed; assumption]. }
  pose proof (partition_weak _ Hm) as Wm. pose proof (partition_weak _ Hn) as Wn.
  pose proof (punion_partition _ _ Wm Wn) as Hu.
  rewrite !CS by assumption.
  split; [|split; [|split; [|split; [|split; [|split; [|split]]]]]].
  - symmetry. apply cells_row_le; assumption.
  - intro; lia.
  - intros A B. apply pos_ext; [apply Hm|apply Hn|]. intro i. specialize (A i). specialize (B i). lia.
  - intros A B i. specialize (A i). specialize (B i). lia.
  - assumption.
  - intro i. rewrite punion_row by assumption. lia.
  - intro i. rewrite punion_row by assumption. lia.
  - intros A B i. rewrite punion_row by assumption. specialize (A i). specialize (B i). lia.
Qed.
Print Assumptions C13_contains_union.

Theorem C13_add_box_to_row : forall mu r, 1 <= r ->
  trimmed (add_box_to_row mu r) /\
  forall i, row (add_box_to_row mu r) i = row mu i + (if Z.of_nat i + 1 =? r then 1 else 0).
Proof. intros mu r Hr. split; [apply trimmed_trim|]. intro i. apply add_box_row. assumption. Qed.
Print Assumptions C13_add_box_to_row.

Example C13_example :
  partition [3; 2; 2] /\ trim [3; 0; 2; 0; 0] = [3; 0; 2] /\ psort [1; 0; 5; 2; 0] true = [5; 2; 1] /\
  contains [3; 2; 2] [2; 2] = true /\ contains [3; 2; 2] [4] = false /\ contains [3; 2; 2] [1; 1; 1; 1] = false /\
  punion [3; 2; 2] [4; 1] = [4; 2; 2] /\ add_box_to_row [3; 2; 2] 4 = [3; 2; 2; 1].
Proof. split; [exact ex_partition_321|]. repeat split. Qed.

(* ---- C14 ---- *)
Theorem C14_compositions : forall n, 0 <= n ->
  NoDup (compositions n) /\
  forall alpha, In alpha (compositions n) <-> Forall (fun a => 0 < a) alpha /\ size alpha = n.
Proof.
  intros n Hn. split; [apply compositions_aux_NoDup|]. intro alpha. rewrite size_zsum.
  apply compositions_aux_In; [assumption|]. apply Nat.le_refl.
Qed.
Print Assumptions C14_compositions.

Theorem C14_peak_compositions : forall n, 0 <= n ->
  NoDup (peak_compositions n) /\
  forall alpha, In alpha (peak_compositions n) <->
    Forall (fun a => 0 < a) alpha /\ size alpha = n /\ forall i, (S i < length alpha)%nat -> 2 <= row alpha i.
Proof.
  intros n Hn. destruct (C14_compositions n Hn) as [A B]. split; [apply NoDup_filter; exact A|].
  intro alpha. unfold peak_compositions. rewrite filter_In, B, forallb_forall.
  assert (E : (forall x, In x (removelast alpha) -> (2 <=? x) = true) <-> forall i, (S i < length alpha)%nat -> 2 <= row alpha i).
  { split.
    - intros H i Hi. apply Z.leb_le. apply H. replace (row alpha i) with (row (removelast alpha) i).
      + apply nth_In. rewrite removelast_length. lia.
      + rewrite removelast_row. apply Nat.ltb_lt in Hi. rewrite Hi. reflexivity.
    - intros H x Hx. apply Z.leb_le. apply In_nth with (d := 0) in Hx. destruct Hx as (i & Hi & <-).
      change (2 <= row (removelast alpha) i). rewrite removelast_length in Hi. rewrite removelast_row.
      assert (Hi' : (S i < length alpha)%nat) by lia. specialize (H i Hi'). apply Nat.ltb_lt in Hi'. rewrite Hi'. assumption. }
  rewrite E. tauto.
Qed.
Print Assumptions C14_peak_compositions.

Example C14_example : compositions 3 = [[1; 1; 1]; [1; 2]; [2; 1]; [3]] /\ peak_compositions 4 = [[2; 2]; [3; 1]; [4]].
Proof. split; reflexivity. Qed.

(* ---- C16 ---- *)
Theorem C16_subpartitions : forall mu nu strict, weak_partition mu -> weak_partition nu ->
  (length (trim nu) <= length mu)%nat ->
  NoDup (subpartitions mu nu strict) /\
  forall kappa, In kappa (subpartitions mu nu strict) <->
    part_b strict kappa /\ included nu kappa /\ included kappa mu.
Proof.
  intros mu nu strict Hm Hn Hl. split; [apply subpartitions_NoDup|]. intro kappa. rewrite subpartitions_spec by assumption.
  split.
  - intros [A B]. pose proof (partition_weak _ (part_b_partition _ _ A)) as W. split; [assumption|].
    rewrite !included_rows by assumption. split; intro i; apply B.
  - intros (A & B & C). pose proof (partition_weak _ (part_b_partition _ _ A)) as W. split; [assumption|].
    rewrite included_rows in B, C by assumption. intro i. split; [apply B|apply C].
Qed.
Print Assumptions C16_subpartitions.

(* without the length hypothesis the lower bound is ignored below the last row of mu *)
Theorem C16_subpartitions_long_nu_refuted : exists mu nu kappa,
  partition mu /\ partition nu /\ In kappa (subpartitions mu nu false) /\ ~ included nu kappa.
Proof.
  exists [1], [1; 1], [1]. split; [|split; [|split]].
  - split; [repeat constructor|]. intros [|[|i]]; unfold row; simpl; lia.
  - split; [repeat constructor|]. intros [|[|[|i]]]; unfold row; simpl; lia.
  - vm_compute. auto.
  - intro H. assert (C : cell [1] 2 1) by (apply H; unfold cell, row; simpl; lia). unfold cell, row in C. simpl in C. lia.
Qed.
Print Assumptions C16_subpartitions_long_nu_refuted.

Example C16_example : weak_partition [3; 1] /\ weak_partition [1] /\
  subpartitions [3; 1] [1] false = [[1]; [2]; [3]; [1; 1]; [2; 1]; [3; 1]] /\
  subpartitions [3; 1] [1] true = [[1]; [2]; [3]; [2; 1]; [3; 1]].
Proof.
  split; [|split; [|split; reflexivity]].
  - split; [repeat constructor; lia|]. intros [|[|[|i]]]; unfold row; simpl; lia.
  - split; [repeat constructor; lia|]. intros [|[|i]]; unfold row; simpl; lia.
Qed.

(* ---- C17 ---- *)
Theorem C17_successors : forall mu strict, part_b strict mu ->
  NoDup (successors mu strict) /\
  forall kappa, In kappa (successors mu strict) <->
    part_b strict kappa /\ length kappa = length mu /\ forall i, row mu i <= row kappa i <= row mu i + 1.
Proof.
  intros mu strict H. split; [apply successors_aux_NoDup; [lia|assumption]|]. intro kappa.
  unfold successors. rewrite successors_aux_spec by (try lia; assumption). unfold succ_ok. tauto.
Qed.
Print Assumptions C17_successors.
Example C17_example : part_b true [4; 2; 1] /\
  successors [4; 2; 1] true = [[5; 3; 2]; [5; 3; 1]; [5; 2; 1]; [4; 3; 2]; [4; 3; 1]; [4; 2; 1]].
Proof. split; [exact ex_strict_421|]. vm_compute. reflexivity. Qed.

(* ---- C18 ---- *)
Theorem C18_remove_inner_corners : forall mu, partition mu ->
  exists out, remove_inner_corners mu = Ok out /\ NoDup out /\
  forall kappa, In kappa out <->
    partition kappa /\ included kappa mu /\ (forall i j, cell mu i j -> ~ cell kappa i j -> corner_cell mu i j).
Proof.
  intros mu H. destruct (remove_inner_corners_spec mu (proj1 H)) as (out & E & Hn & Hin). exists out.
  split; [assumption|]. split; [assumption|]. intro kappa. rewrite Hin. apply corner_sets_cells. assumption.
Qed.
Print Assumptions C18_remove_inner_corners.

Theorem C18_remove_shifted_inner_corners : forall mu, strict_partition mu ->
  exists out, remove_shifted_inner_corners mu = Ok (map Some out) /\ NoDup out /\
  forall kappa, In kappa out <->
    strict_partition kappa /\ (forall i j, shifted_cell kappa i j -> shifted_cell mu i j) /\
    (forall i j, shifted_cell mu i j -> ~ shifted_cell kappa i j -> shifted_corner_cell mu i j).
Proof.
  intros mu H. destruct (remove_shifted_inner_corners_spec mu (proj1 H)) as (out & E & Hn & Hin). exists out.
  split; [assumption|]. split; [assumption|]. intro kappa. rewrite Hin. apply shifted_corner_sets_cells. assumption.
Qed.
Print Assumptions C18_remove_shifted_inner_corners.

Example C18_example : remove_inner_corners [3; 2; 2] = Ok [[3; 2; 2]; [2; 2; 2]; [3; 2; 1]; [2; 2; 1]] /\
  remove_shifted_inner_corners [4; 2; 1] = Ok (map Some [[4; 2; 1]; [3; 2; 1]; [4; 2]; [3; 2]]).
Proof. split; vm_compute; reflexivity. Qed.

(* ---- C19 ---- *)
Theorem C19_complement : forall n mu, strict_partition mu -> (forall v, In v mu -> v <= n) ->
  exists r, complement n mu = Ok r /\ strict_partition r /\
    (forall v, In v r <-> 1 <= v <= n /\ ~ In v mu) /\ complement n r = Ok mu.
Proof.
  intros n mu Hs Hn. destruct (complement_spec n mu Hs Hn) as (r & E & Hr & Hin). exists r.
  split; [assumption|]. split; [assumption|]. split; [assumption|].
  destruct (complement_spec n r Hr) as (r' & E' & Hr' & Hin').
  - intros v Hv. apply Hin in Hv. lia.
  - rewrite E'. f_equal. apply strict_ext_set; [assumption|assumption|]. intro v. rewrite Hin', Hin. split.
    + intros [A B]. destruct (in_dec Z.eq_dec v mu) as [|C]; [assumption|]. exfalso. apply B. split; assumption.
    + intro A. destruct Hs as [Hp _]. rewrite Forall_forall in Hp. specialize (Hp v A). specialize (Hn v A). split; [lia|]. tauto.
Qed.
Print Assumptions C19_complement.
Example C19_example : strict_partition [4; 2; 1] /\ complement 6 [4; 2; 1] = Ok [6; 5; 3].
Proof. split; [exact ex_strict_421|]. vm_compute. reflexivity. Qed.

(* ---- C20 ---- *)
Theorem C20_shapes : forall mu nu, Forall (fun a => 0 <= a) nu ->
  NoDup (shape mu) /\ NoDup (shifted_shape mu) /\ NoDup (skew mu nu false) /\ NoDup (skew mu nu true) /\
  (forall i j, In (i, j) (shape mu) <-> cell mu i j) /\
  (forall i j, In (i, j) (shifted_shape mu) <-> shifted_cell mu i j) /\
  (forall i j, In (i, j) (skew mu nu false) <-> cell mu i j /\ ~ cell nu i j) /\
  (forall i j, In (i, j) (skew mu nu true) <-> shifted_cell mu i j /\ ~ shifted_cell nu i j).
Proof.
  intros mu nu Hn. split; [rewrite shape_gshape; apply gshape_NoDup|]. split; [rewrite shifted_shape_gshape; apply gshape_NoDup|].
  split; [rewrite skew_gshape; apply gshape_NoDup|]. split; [rewrite skew_gshape; apply gshape_NoDup|].
  split; [apply shape_In|]. split; [apply shifted_shape_In|].
  split; intros i j; [apply skew_In|apply skew_shifted_In]; assumption.
Qed.
Print Assumptions C20_shapes.

(* [l] is any order in which the set of cells may be iterated *)
Theorem C20_from_shape_round_trip : forall mu l, Forall (fun a => 0 < a) mu ->
  (NoDup l -> (forall i j, In (i, j) l <-> cell mu i j) -> from_shape l = mu) /\
  (NoDup l -> (forall i j, In (i, j) l <-> shifted_cell mu i j) -> from_shape l = mu).
Proof.
  intros mu l Hm. split; intros Hn H.
  - apply (from_shape_gshape (fun _ => 0)); [assumption|]. apply NoDup_Permutation; [assumption|apply gshape_NoDup|].
    intros [i j]. rewrite <- shape_gshape, shape_In. apply H.
  - apply (from_shape_gshape (fun i => i)); [assumption|]. apply NoDup_Permutation; [assumption|apply gshape_NoDup|].
    intros [i j]. rewrite <- shifted_shape_gshape, shifted_shape_In. apply H.
Qed.
Print Assumptions C20_from_shape_round_trip.
Example C20_example : shifted_shape [3; 1] = [(1, 1); (1, 2); (1, 3); (2, 2)] /\
  from_shape [(2, 2); (1, 3); (1, 1); (1, 2)] = [3; 1] /\ skew [3; 2; 2] [2; 1] false = [(1, 3); (2, 2); (3, 1); (3, 2)].
Proof. repeat split. Qed.

(* ---- C21 ---- *)
(* the matrix entry at (i, j): the last value stored for the key, 0 if absent *)
Definition entry (d : list (Z * Z * Z)) (i j : nat) : Z := mat_get d (Z.of_nat i) (Z.of_nat j).
Definition tab (g : list (list (list Z))) (i j : nat) : list Z := nth j (nth i g []) [].

Theorem C21_growth_diagram : forall d m n, (forall k v, In (k, v) d -> 0 <= v) -> 0 <= m -> 0 <= n ->
  exists g, growth_diagram d (Some m) (Some n) = Ok g /\
    length g = S (Z.to_nat n) /\ (forall r, In r g -> length r = S (Z.to_nat m)) /\
    (forall i j, Z.of_nat i <= n -> Z.of_nat j <= m -> partition (tab g i j) /\
       size (tab g i j) = psum (fun a => psum (fun b => entry d (S a) (S b)) j) i) /\
    (forall i j, Z.of_nat i < n -> Z.of_nat j <= m -> hstrip (tab g i j) (tab g (S i) j)) /\
    (forall i j, Z.of_nat i <= n -> Z.of_nat j < m -> hstrip (tab g i j) (tab g i (S j))) /\
    forall d', (forall i j, entry d' i j = entry d j i) ->
      exists g', growth_diagram d' (Some n) (Some m) = Ok g' /\
        forall i j, Z.of_nat i <= n -> Z.of_nat j <= m -> tab g' j i = tab g i j.
Proof.
  intros d m n Hv Hm Hn.
  assert (HD : forall i j, 0 <= Dof d i j).
  { intros i j. unfold Dof, mat_get. destruct (dget zpair_eqb d (Z.of_nat i, Z.of_nat j)) as [v|] eqn:E; [|lia].
    assert (Hsp : forall a b, zpair_eqb a b = true <-> a = b).
    { intros [a1 a2] [b1 b2]. unfold zpair_eqb. simpl. rewrite andb_true_iff, !Z.eqb_eq. split; [intros [-> ->]; reflexivity|intro Q; injection Q; auto]. }
    apply (dget_In zpair_eqb Hsp) in E. eapply Hv. exact E. }
  assert (Htab : forall D M N i j, (i <= N)%nat -> (j <= M)%nat ->
     tab (map (fun a => map (gg D a) (seq 0 (S M))) (seq 0 (S N))) i j = gg D i j).
  { intros D M N i j Hi Hj. unfold tab.
    rewrite (nth_indep _ [] (map (gg D 0) (seq 0 (S M)))) by (rewrite map_length, seq_length; lia).
    rewrite (map_nth (fun a => map (gg D a) (seq 0 (S M))) (seq 0 (S N)) 0%nat i), seq_nth by lia.
    rewrite (nth_indep _ [] (gg D (0 + i) 0)) by (rewrite map_length, seq_length; lia).
    rewrite map_nth, seq_nth by lia. reflexivity. }
  pose proof (growth_diagram_spec d (Some m) (Some n) HD) as E. simpl growth_dim in E. specialize (E Hm Hn).
  set (M := Z.to_nat m) in *. set (N := Z.to_nat n) in *.
  eexists. split; [exact E|]. split; [rewrite map_length, seq_length; reflexivity|]. split.
  { intros r Hr. apply in_map_iff in Hr. destruct Hr as (a & <- & _). rewrite map_length, seq_length. reflexivity. }
  split; [|split; [|split]].
  - intros i j Hi Hj. rewrite Htab by lia. split; [apply gg_inv; assumption|]. rewrite gg_size by assumption. reflexivity.
  - intros i j Hi Hj. rewrite !Htab by lia. apply gg_inv. assumption.
  - intros i j Hi Hj. rewrite !Htab by lia. apply gg_inv. assumption.
  - intros d' Hd'. assert (HD' : forall i j, 0 <= Dof d' i j) by (intros; change (0 <= entry d' i j); rewrite Hd'; apply HD).
    pose proof (growth_diagram_spec d' (Some n) (Some m) HD') as E'. simpl growth_dim in E'. specialize (E' Hn Hm).
    fold M in E'. fold N in E'. eexists. split; [exact E'|]. intros i j Hi Hj. rewrite !Htab by lia.
    rewrite <- (gg_transpose (Dof d) HD j i).
    assert (Hext : forall D1 D2, (forall i j, D1 i j = D2 i j) -> forall i j, gg D1 i j = gg D2 i j).
    { intros D1 D2 HE. induction i0 as [|i0 IHi]; intro j0; [reflexivity|]. induction j0 as [|j0 IHj]; [reflexivity|].
      rewrite !gg_SS, IHj, !IHi, HE. reflexivity. }
    apply Hext. intros a b. apply Hd'.
Qed.
Print Assumptions C21_growth_diagram.

(* the default dimensions are the largest indices *)
Theorem C21_growth_diagram_default : forall d,
  growth_diagram d None None =
  growth_diagram d (Some (fold_right Z.max 0 (map (fun kv => snd (fst kv)) d))) (Some (fold_right Z.max 0 (map (fun kv => fst (fst kv)) d))).
Proof. reflexivity. Qed.
Print Assumptions C21_growth_diagram_default.

Example C21_example :
  growth_diagram [((1, 2), 1); ((2, 1), 1); ((2, 2), 3)] None None =
  Ok [[[]; []; []]; [[]; []; [1]]; [[]; [1]; [4; 1]]].
Proof. vm_compute. reflexivity. Qed.

(* ---- C46 ---- *)
Theorem C46_decrement : forall nu, strict_partition nu -> nu <> [] ->
  (exists r, decrement_one nu = Ok r /\ strict_partition r /\ size r = size nu - 1 /\ included r nu) /\
  (exists r, decrement_strict nu = Ok r /\ strict_partition r /\ included r nu /\ size r < size nu /\
     row r 0 = row nu 0 - 1 /\ forall i, row nu i - 1 <= row r i).
Proof.
  intros nu Hs Hne. pose proof (partition_weak _ (strict_is_partition _ Hs)) as Wn. split.
  - destruct (decrement_one_spec nu Hne Hs) as (k & r & E & Hk & Hr & Hsz & Hrow). exists r.
    split; [assumption|]. split; [assumption|]. split; [assumption|].
    apply included_rows; [apply partition_weak, strict_is_partition; assumption|assumption|].
    intro i. rewrite Hrow. destruct (i =? k)%nat; lia.
  - destruct (decrement_strict_spec nu Hne Hs) as (r & E & Hr & H0 & m & Hrow). exists r.
    assert (Hle : forall i, row nu i - 1 <= row r i <= row nu i).
    { intro i. rewrite Hrow. destruct (i <=? m)%nat; [destruct (i <? length nu)%nat|]; lia. }
    split; [assumption|]. split; [assumption|]. split; [|split; [|split]].
    + apply included_rows; [apply partition_weak, strict_is_partition; assumption|assumption|]. intro i. apply Hle.
    + set (K := Nat.max (length r) (length nu)). rewrite (size_psum r (S K)), (size_psum nu (S K)) by (unfold K; lia).
      rewrite !psum_shift. rewrite H0.
      assert (Hps : forall f g n, (forall k, f k <= g k) -> psum f n <= psum g n).
      { intros f g n Hfg. induction n as [|n IHn]; simpl; [lia|]. specialize (Hfg n). lia. }
      pose proof (Hps (fun k => row r (S k)) (fun k => row nu (S k)) K (fun k => proj2 (Hle (S k)))). lia.
    + assumption.
    + intro i. apply Hle.
Qed.
Print Assumptions C46_decrement.
Example C46_example : strict_partition [4; 2; 1] /\ decrement_one [4; 2; 1] = Ok [3; 2; 1] /\
  decrement_one [3; 2; 1] = Ok [3; 2] /\ decrement_strict [3; 2; 1] = Ok [2; 1] /\ decrement_strict [4; 2; 1] = Ok [3; 2; 1].
Proof. split; [exact ex_strict_421|]. repeat split. Qed.
