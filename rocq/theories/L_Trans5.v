(* Weights of valued-set tableaux: bounds and leading terms *)
From Coq Require Import List ZArith Lia Bool Permutation Arith Sorting.Sorted.
From Verif Require Import PyBase FinSum M_Partitions S_Partitions L_Partitions L_PartBasic L_PartEnum M_Vectors L_Vectors M_Polynomials L_Polynomials L_PolySubst M_Tableaux S_Tableaux L_Tableaux S_Strips M_Semistandard S_Semistandard L_Strips2 L_Shape M_RPP M_Symmetric M_Expansion S_Expansion M_Slow M_Families M_Dual
  L_SymPoly L_SymMul L_Growth L_Kostka L_Num L_Expand1 L_Expand2 L_Expand3 L_Expand4 L_Expand5 P_Count L_Sym1 L_Sym3 L_Slow L_Families L_Families2 P_Families L_ShiftTri L_Dual L_Dual2 S_Dual S_Transposed M_Transposed L_CountCache L_Count L_Trans1 L_Trans2 L_Trans3 L_Trans4.
Import ListNotations.
Local Open Scope Z_scope.
Local Notation sg := (nget smono_eqb).

Lemma vec_cons : forall n v l, 1 <= v <= Z.of_nat n -> zsum (vec n (v :: l)) = 1 + zsum (vec n l).
Proof.
  intros n v l Hv. unfold vec. change (zs (fun t => Z.of_nat (length (filter (Z.eqb t) (v :: l)))) (zrange 1 (Z.of_nat n + 1)) = 1 + zs (fun t => Z.of_nat (length (filter (Z.eqb t) l))) (zrange 1 (Z.of_nat n + 1))).
  rewrite (zs_ext _ _ (fun t => (if t =? v then 1 else 0) + Z.of_nat (length (filter (Z.eqb t) l)))); [rewrite zs_plus|].
  - f_equal. apply (zs_delta _ v (fun _ => 1)); [apply zrange_NoDup|apply In_zrange; lia].
  - intros t _. cbn [filter]. destruct (t =? v); cbn [length]; lia.
Qed.
Lemma vec_sum : forall n l, (forall v, In v l -> 1 <= v <= Z.of_nat n) -> zsum (vec n l) = Z.of_nat (length l).
Proof.
  intros n l. induction l as [|v l IH]; intro H.
  - unfold vec. cbn [filter length]. change (zs (fun _ => 0) (zrange 1 (Z.of_nat n + 1)) = 0). apply zs_zero. reflexivity.
  - rewrite vec_cons by (apply H; left; reflexivity). rewrite IH by (intros w Hw; apply H; right; assumption). cbn [length]. lia.
Qed.
Lemma kept_length : forall l g, (length (kept l g) <= length l)%nat.
Proof. induction l as [|[v b] l IH]; intros [|z g]; cbn [kept length]; try lia. specialize (IH g). destruct (z =? 0); cbn [length]; lia. Qed.
Lemma kept_all : forall l g, length g = length l -> length (kept l g) = length l -> g = repeat 0 (length l) /\ kept l g = map fst l.
Proof.
  induction l as [|[v b] l IH]; intros [|z g] L H; try discriminate; [split; reflexivity|]. cbn [kept length] in *. pose proof (kept_length l g). destruct (Z.eqb_spec z 0) as [->|N]; [|lia]. cbn [length] in H.
  destruct (IH g) as [E1 E2]; [lia|lia|]. split; [cbn [repeat]; f_equal; assumption|cbn [map fst]; f_equal; assumption].
Qed.
Lemma kept_zeros : forall l, kept l (repeat 0 (length l)) = map fst l.
Proof. induction l as [|[v b] l IH]; [reflexivity|]. cbn [length repeat kept map fst]. rewrite IH. reflexivity. Qed.
Lemma zeros_mask : forall l, In (repeat 0 (length l)) (masks l).
Proof. intro l. apply masks_In. split; [apply repeat_length|]. intros k _. left. apply nth_repeat. Qed.

Section Sizes.
  Variable sh : bool.
  Variable pr : Z -> Z -> Prop.
  Variable n : nat.
  Variables (lam mu : list Z) (T : tab).
  Hypothesis Hm : if sh then strict_partition mu else partition mu.
  Hypothesis Hl : if sh then strict_partition lam else partition lam.
  Hypothesis HT : tableau_of (dcell sh) pr false n mu lam T.

  Lemma tsize : Z.of_nat (length T) = size mu - size lam.
  Proof.
    destruct (tableau_cells _ _ _ _ _ _ _ HT) as [Nd Hd]. pose proof (cells_size sh mu lam (map fst T) Hm Hl (proj1 HT) Nd Hd) as E. unfold zlen in E. rewrite map_length in E. exact E.
  Qed.
  Lemma group_le : forall g, In g (masks (map snd (cellsL T))) -> zsum (vec n (kept (cellsL T) g)) <= size mu - size lam.
  Proof.
    intros g Hg. rewrite vec_sum by (intros v Hv; exact (kept_range sh pr (Z.of_nat n) lam mu T (proj2 HT) g v Hv)). rewrite <- tsize. pose proof (kept_length (cellsL T) g) as X. rewrite (cellsL_length T) in X. lia.
  Qed.
  Lemma vec_weight : forall alpha, (length alpha <= n)%nat -> (vec n (map fst (cellsL T)) = padz alpha n <-> has_weight alpha T).
  Proof.
    intros alpha La. assert (O : forall m, occurrences m T = Z.of_nat (length (filter (Z.eqb m) (map fst (cellsL T))))).
    { intro m. unfold occurrences, cellsL, heads. f_equal. destruct HT as (_ & _ & _ & S & _). revert S. clear. intro S. assert (S' : forall b l, In (b, l) T -> length l = 1%nat) by (intros [i j] l H; apply (S i j l H); reflexivity). clear S.
      rewrite !map_map. cbn [fst snd]. induction T as [|[b l] t IH]; [reflexivity|]. cbn [map flat_map fst snd]. pose proof (S' b l (or_introl eq_refl)) as L. destruct l as [|x [|y l]]; try discriminate. cbn [app hd filter]. rewrite (Z.eqb_sym m).
      assert (E := IH ltac:(intros b' l' H'; apply (S' b' l'); right; exact H')). destruct (Z.abs x =? m); cbn [length]; rewrite E; reflexivity. }
    split.
    - intros E k. rewrite O. pose proof (nth_vec n (map fst (cellsL T)) k) as N. rewrite E in N. change (nth k (padz alpha n) 0) with (row (padz alpha n) k) in N. rewrite padz_row in N. change (nth k alpha 0) with (row alpha k). rewrite N. destruct (Nat.ltb_spec k n) as [L|L]; [reflexivity|].
      rewrite filter_none; [reflexivity|]. intros v Hv. apply Z.eqb_neq. apply in_map_iff in Hv. destruct Hv as (vb & <- & Hv). pose proof (cellsL_range sh pr (Z.of_nat n) lam mu T (proj2 HT) vb Hv). lia.
    - intro W. apply nth_ext with (d := 0) (d' := 0); [rewrite vec_length, padz_length by assumption; reflexivity|]. intros k Hk. rewrite vec_length in Hk. rewrite nth_vec. replace (k <? n)%nat with true by (symmetry; apply Nat.ltb_lt; assumption).
      change (nth k (padz alpha n) 0) with (row (padz alpha n) k). rewrite padz_row. rewrite <- O. apply W.
  Qed.
  Lemma group_top : forall g alpha, In g (masks (map snd (cellsL T))) -> (length alpha <= n)%nat -> vec n (kept (cellsL T) g) = padz alpha n -> zsum alpha = size mu - size lam ->
    g = repeat 0 (length T) /\ has_weight alpha T.
  Proof.
    intros g alpha Hg La E Es. pose proof (mask_length T g Hg) as Lg.
    assert (X : length (kept (cellsL T) g) = length (cellsL T)).
    { apply (f_equal zsum) in E. rewrite vec_sum in E by (intros v Hv; exact (kept_range sh pr (Z.of_nat n) lam mu T (proj2 HT) g v Hv)). assert (Ez : zsum (padz alpha n) = zsum alpha) by apply size_padz. rewrite Ez, Es, <- tsize in E. rewrite (cellsL_length T). lia. }
    destruct (kept_all (cellsL T) g) as [E1 E2]; [rewrite (cellsL_length T); assumption|assumption|]. rewrite (cellsL_length T) in E1. split; [assumption|]. apply vec_weight; [assumption|]. rewrite <- E2. assumption.
  Qed.
  Lemma zeros_weight : forall alpha, (length alpha <= n)%nat -> has_weight alpha T -> In (repeat 0 (length T)) (masks (map snd (cellsL T))) /\ vec n (kept (cellsL T) (repeat 0 (length T))) = padz alpha n.
  Proof.
    intros alpha La W. pose proof (cellsL_length T) as L. split.
    - pose proof (zeros_mask (map snd (cellsL T))) as X. rewrite map_length, L in X. exact X.
    - rewrite <- L, kept_zeros. apply vec_weight; assumption.
  Qed.
End Sizes.

(* ---------- the number of valued-set tableaux by weight ---------- *)
Section Numbers.
  Variable sh : bool.
  Variable pr : Z -> Z -> Prop.
  Variable n : nat.
  Variables (lam mu : list Z).
  Variable R : list tab.
  Hypothesis Hm : if sh then strict_partition mu else partition mu.
  Hypothesis Hl : if sh then strict_partition lam else partition lam.
  Hypothesis HR : forall T, In T R <-> tableau_of (dcell sh) pr false n mu lam T.
  Hypothesis NR : NoDup R.

  Lemma numbers_card : forall alpha, (length alpha <= n)%nat -> cardinality (fun V => valued_set_tableau (dcell sh) pr n mu lam V /\ group_weight alpha V) (ngroups n R (padz alpha n)).
  Proof.
    intros alpha La. refine (counts_ext _ _ _ _ _ _ eq_refl (ngroups_card sh pr n lam mu R (fun T H => proj2 (proj1 (HR T) H)) NR (padz alpha n) (padz_length alpha n La))).
    intros [T G]. unfold valued_set_tableau. cbn [fst snd]. rewrite HR. assert (E : group_weight (padz alpha n) (T, G) <-> group_weight alpha (T, G)).
    { unfold group_weight. assert (X : forall i, nth i (padz alpha n) 0 = nth i alpha 0) by (intro i; exact (padz_row alpha n i)). split; intros H i; specialize (H i); rewrite X in *; exact H. }
    rewrite E. tauto.
  Qed.
  Lemma numbers_some : forall alpha, ngroups n R alpha <> 0 -> exists T g, tableau_of (dcell sh) pr false n mu lam T /\ In g (masks (map snd (cellsL T))) /\ vec n (kept (cellsL T) g) = alpha.
  Proof.
    intros alpha H. unfold ngroups in H. apply zs_nonzero in H. destruct H as (T & HT & H). apply zs_nonzero in H. destruct H as (g & Hg & H). exists T, g. split; [apply HR; assumption|]. split; [assumption|]. destruct (zlist_eqb (vec n (kept (cellsL T) g)) alpha) eqn:E; [apply zlist_eqb_eq; assumption|cbn [ind] in H; lia].
  Qed.
  Lemma numbers_le : forall alpha, (length alpha <= n)%nat -> ngroups n R (padz alpha n) <> 0 -> size alpha <= size mu - size lam.
  Proof.
    intros alpha La H. destruct (numbers_some _ H) as (T & g & HT & Hg & E). assert (Ez : zsum (padz alpha n) = size alpha) by apply size_padz. rewrite <- Ez, <- E. exact (group_le sh pr n lam mu T Hm Hl HT g Hg).
  Qed.
  Lemma numbers_top : forall alpha, (length alpha <= n)%nat -> ngroups n R (padz alpha n) <> 0 -> size alpha = size mu - size lam -> exists T, tableau_of (dcell sh) pr false n mu lam T /\ has_weight alpha T.
  Proof.
    intros alpha La H Es. destruct (numbers_some _ H) as (T & g & HT & Hg & E). exists T. split; [assumption|]. exact (proj2 (group_top sh pr n lam mu T Hm Hl HT g alpha Hg La E Es)).
  Qed.
  Lemma numbers_has : forall alpha T, (length alpha <= n)%nat -> tableau_of (dcell sh) pr false n mu lam T -> has_weight alpha T -> 0 < ngroups n R (padz alpha n).
  Proof.
    intros alpha T La HT W. destruct (zeros_weight sh pr n lam mu T HT alpha La W) as [Z1 Z2].
    apply (counts_has _ _ _ (T, grp_of T (repeat 0 (length T))) (ngroups_card sh pr n lam mu R (fun T H => proj2 (proj1 (HR T) H)) NR (padz alpha n) (padz_length alpha n La))). cbn [fst snd]. split; [apply HR; assumption|]. split.
    - apply (grouping_In sh pr (Z.of_nat n) lam mu T (proj2 HT)). unfold groupings. apply in_map. assumption.
    - apply (group_weight_vec sh pr (Z.of_nat n) lam mu T (proj2 HT) n _ (padz alpha n) eq_refl); [apply repeat_length|apply padz_length; assumption|assumption].
  Qed.
  Lemma numbers_one : forall alpha T, (length alpha <= n)%nat -> size alpha = size mu - size lam -> tableau_of (dcell sh) pr false n mu lam T -> has_weight alpha T ->
    (forall U, tableau_of (dcell sh) pr false n mu lam U -> has_weight alpha U -> U = T) -> ngroups n R (padz alpha n) = 1.
  Proof.
    intros alpha T La Es HT W Un. destruct (zeros_weight sh pr n lam mu T HT alpha La W) as [Z1 Z2].
    apply (counts_one _ _ _ (T, grp_of T (repeat 0 (length T))) (ngroups_card sh pr n lam mu R (fun T H => proj2 (proj1 (HR T) H)) NR (padz alpha n) (padz_length alpha n La))).
    - cbn [fst snd]. split; [apply HR; assumption|]. split.
      + apply (grouping_In sh pr (Z.of_nat n) lam mu T (proj2 HT)). unfold groupings. apply in_map. assumption.
      + apply (group_weight_vec sh pr (Z.of_nat n) lam mu T (proj2 HT) n _ (padz alpha n) eq_refl); [apply repeat_length|apply padz_length; assumption|assumption].
    - intros [U G] (H1 & H2 & H3). cbn [fst snd] in *. apply HR in H1. apply (grouping_In sh pr (Z.of_nat n) lam mu U (proj2 H1)) in H2. unfold groupings in H2. apply in_map_iff in H2. destruct H2 as (g & <- & Hg).
      apply (group_weight_vec sh pr (Z.of_nat n) lam mu U (proj2 H1) n g (padz alpha n) eq_refl) in H3; [|apply mask_length; assumption|apply padz_length; assumption].
      destruct (group_top sh pr n lam mu U Hm Hl H1 g alpha Hg La H3 Es) as [-> Hw]. rewrite (Un U H1 Hw). reflexivity.
  Qed.
End Numbers.
