(* rims(mu, bound) lists the rims of mu *)
From Coq Require Import List ZArith Lia Bool Permutation Sorted.
From Verif Require Import PyBase M_Partitions S_Partitions L_Partitions L_PartBasic M_Tableaux S_Tableaux L_Tableaux L_Perm L_Trans3 M_Rims S_Rims L_Rims1 L_Rims2.
From Verif Require L_Generate.
Import ListNotations.
Local Open Scope Z_scope.

Definition rw (mu : list Z) (i : Z) : Z := row mu (Z.to_nat (i - 1)).
Definition brow (i lo hi : Z) : list box := map (fun j => (i, j)) (zrange lo hi).
Lemma brow_In : forall i lo hi x, In x (brow i lo hi) <-> fst x = i /\ lo <= snd x < hi.
Proof. intros i lo hi [a b]. unfold brow. rewrite in_map_iff. cbn [fst snd]. split; [intros (j & E & H); injection E as <- <-; apply In_zrange in H; lia|]. intros [-> H]. exists b. split; [reflexivity|apply In_zrange; lia]. Qed.
Lemma brow_path : forall n i lo y L, path (y :: L) -> fst y = i - 1 -> snd y = lo + Z.of_nat n -> path (brow i lo (lo + Z.of_nat n + 1) ++ y :: L).
Proof.
  induction n as [|n IH]; intros i lo y L P F S; unfold brow.
  - rewrite zrange_cons, zrange_nil by lia. cbn [map app]. split; [|exact P]. right. unfold above. cbn [fst snd]. lia.
  - rewrite zrange_cons by lia. cbn [map app]. specialize (IH i (lo + 1) y L P F ltac:(lia)). replace (lo + 1 + Z.of_nat n + 1) with (lo + Z.of_nat (Datatypes.S n) + 1) in IH by lia. unfold brow in IH. rewrite (zrange_cons (lo + 1)) in * by lia. cbn [map app] in *. split; [|exact IH]. left. split; reflexivity.
Qed.
Lemma map_shift : forall i c d, map (fun j => (i, c + j)) (zrange 0 d) = brow i c (c + d).
Proof. intros i c d. unfold brow, zrange. rewrite !map_map. replace (c + d - c) with (d - 0) by lia. apply map_ext. intro k. f_equal. Qed.

Section Border.
  Variable mu : list Z.
  Hypothesis Hm : strict_partition mu.
  Let r := zlen mu.
  Let m := nthz (mu ++ [0]) 0 :: mu ++ [0].
  Let r_pos : 0 <= r. Proof. apply zlen_nonneg. Qed.
  Lemma Sm : strows mu. Proof. apply strict_rows. exact Hm. Qed.
  Lemma rw_nonneg : forall i, 0 <= rw mu i.
  Proof. intro i. unfold rw. pose proof (Sm (Z.to_nat (i - 1))). lia. Qed.
  Lemma rw_strict : forall i, 2 <= i <= r + 1 -> rw mu i < rw mu (i - 1).
  Proof. intros i Hi. unfold rw. pose proof (Sm (Z.to_nat (i - 1 - 1))) as S. replace (Datatypes.S (Z.to_nat (i - 1 - 1))) with (Z.to_nat (i - 1)) in S by lia. pose proof (row_pos mu (Z.to_nat (i - 1 - 1)) (proj1 Hm)) as P. unfold r, zlen in Hi. specialize (P ltac:(lia)). lia. Qed.
  Lemma rw_over : forall i, r < i -> rw mu i = 0.
  Proof. intros i Hi. unfold rw. apply row_overflow. unfold r, zlen in Hi. lia. Qed.
  Lemma m_S : forall i, 1 <= i -> nthz m i = rw mu i.
  Proof.
    intros i Hi. unfold nthz, m, rw. replace (Z.to_nat i) with (S (Z.to_nat (i - 1))) by lia. cbn [nth]. fold (row (mu ++ [0]) (Z.to_nat (i - 1))). rewrite app_row. destruct (Nat.ltb_spec (Z.to_nat (i - 1)) (length mu)); [reflexivity|]. rewrite (row_overflow mu) by lia. destruct (Z.to_nat (i - 1) - length mu)%nat as [|[|k]]; reflexivity.
  Qed.
  Lemma m_0 : nthz m 0 = rw mu 1.
  Proof. unfold m. unfold nthz at 1. cbn [Z.to_nat nth]. unfold rw. cbn. destruct mu; reflexivity. Qed.
  Lemma m_len : zlen m = r + 2.
  Proof. unfold m, r, zlen. cbn [length]. rewrite app_length. cbn [length]. lia. Qed.

  Definition bd (K : Z) : list box := flat_map (fun i => map (fun j => (i, i + nthz m i + j)) (zrange 0 (nthz m (i - 1) - nthz m i))) (rev (zrange 1 (K + 1))) ++ [(1, 1 + rw mu 1)].
  Lemma border_bd : rim_border m = bd (r + 1).
  Proof. unfold rim_border, bd. rewrite m_len, m_0. replace (r + 2) with (r + 1 + 1) by lia. reflexivity. Qed.
  Lemma bd_1 : bd 1 = [(1, 1 + rw mu 1)].
  Proof. unfold bd. rewrite zrange_cons, zrange_nil by lia. cbn [rev app flat_map]. replace (1 - 1) with 0 by lia. rewrite m_0, m_S by lia. rewrite Z.sub_diag. reflexivity. Qed.
  Lemma bd_S : forall K, 2 <= K -> bd K = brow K (K + rw mu K) (K + rw mu (K - 1)) ++ bd (K - 1).
  Proof.
    intros K HK. unfold bd. rewrite (zrange_snoc 1 (K + 1)) by lia. replace (K + 1 - 1) with K by lia. rewrite rev_app_distr. cbn [rev app flat_map]. rewrite <- app_assoc. f_equal; [|replace (K - 1 + 1) with K by lia; reflexivity]. rewrite map_shift, !m_S by lia. f_equal. lia.
  Qed.
  Lemma bd_ok : forall n, 1 + Z.of_nat n <= r + 1 -> path (bd (1 + Z.of_nat n)) /\ (exists L, bd (1 + Z.of_nat n) = (1 + Z.of_nat n, 1 + Z.of_nat n + rw mu (1 + Z.of_nat n)) :: L) /\
    forall x, In x (bd (1 + Z.of_nat n)) <-> (2 <= fst x <= 1 + Z.of_nat n /\ fst x + rw mu (fst x) <= snd x < fst x + rw mu (fst x - 1)) \/ (fst x = 1 /\ snd x = 1 + rw mu 1).
  Proof.
    induction n as [|n IH]; intro Hn.
    - replace (1 + Z.of_nat 0) with 1 by lia. rewrite bd_1. split; [exact I|]. split; [exists []; reflexivity|]. intros [a b]. cbn [In fst snd]. split; [intros [E|[]]; injection E as <- <-; right; split; reflexivity|]. intros [H|[-> ->]]; [lia|left; reflexivity].
    - destruct (IH ltac:(lia)) as (P & (L & E) & M). set (K := 1 + Z.of_nat (Datatypes.S n)) in *. replace (1 + Z.of_nat n) with (K - 1) in * by lia. rewrite (bd_S K) by lia. pose proof (rw_strict K ltac:(lia)) as S. split; [|split].
      + rewrite E in *. pose proof (brow_path (Z.to_nat (rw mu (K - 1) - rw mu K - 1)) K (K + rw mu K) _ L P) as Q. cbn [fst snd] in Q. specialize (Q eq_refl ltac:(lia)). replace (K + rw mu K + Z.of_nat (Z.to_nat (rw mu (K - 1) - rw mu K - 1)) + 1) with (K + rw mu (K - 1)) in Q by lia. exact Q.
      + unfold brow. rewrite zrange_cons by lia. cbn [map app]. eexists. reflexivity.
      + intro x. rewrite in_app_iff, brow_In, M. split.
        * intros [[Q H]|[H|H]]; [left; rewrite Q; lia|left; lia|right; exact H].
        * intros [[H1 H2]|H]; [|tauto]. destruct (Z.eq_dec (fst x) K) as [Q|Q]; [left; rewrite Q in *; lia|right; left; lia].
  Qed.
  Definition border := rim_border m.
  Lemma border_path : path border.
  Proof. unfold border. rewrite border_bd. destruct (bd_ok (length mu)) as [P _]; [unfold r, zlen; lia|]. unfold r, zlen. replace (Z.of_nat (length mu) + 1) with (1 + Z.of_nat (length mu)) by lia. exact P. Qed.
  Lemma border_In : forall x, In x border <-> (2 <= fst x <= r + 1 /\ fst x + rw mu (fst x) <= snd x < fst x + rw mu (fst x - 1)) \/ (fst x = 1 /\ snd x = 1 + rw mu 1).
  Proof. intro x. unfold border. rewrite border_bd. destruct (bd_ok (length mu)) as (_ & _ & M); [unfold r, zlen; lia|]. unfold r, zlen. replace (Z.of_nat (length mu) + 1) with (1 + Z.of_nat (length mu)) by lia. apply M. Qed.
  Lemma border_last : last border (0, 0) = (1, 1 + rw mu 1).
  Proof. unfold border. rewrite border_bd. unfold bd. apply last_last. Qed.

  (* skew cells by rows *)
  Lemma skew_cells : forall nu, strict_partition nu -> (forall i, row nu (S i) <= row mu i <= row nu i) -> forall i j, shifted_skew_cell nu mu i j <-> 1 <= i <= r + 1 /\ i + rw mu i <= j < i + rw nu i.
  Proof.
    intros nu Hn H i j. unfold shifted_skew_cell, shifted_cell, rw. pose proof (rw_nonneg i) as N. unfold rw in N. split.
    - intros [[C1 C2] C3]. split; [|lia]. split; [lia|]. destruct (Z_le_gt_dec i (r + 1)) as [|G]; [assumption|exfalso]. specialize (H (Z.to_nat (i - 1 - 1))). replace (S (Z.to_nat (i - 1 - 1))) with (Z.to_nat (i - 1)) in H by lia. rewrite (row_overflow mu (Z.to_nat (i - 1 - 1))) in H by (unfold r, zlen in *; lia). lia.
    - intros [C1 C2]. lia.
  Qed.

  (* from nu to a closed part of the border *)
  Lemma rim_closed : forall nu, strict_partition nu -> (forall i, row nu (S i) <= row mu i <= row nu i) ->
    let f := fun x : box => snd x <? fst x + rw nu (fst x) in
    closed f border /\ (f (1, 1 + rw mu 1) = true <-> row mu 0 < row nu 0) /\
    forall i j, shifted_skew_cell nu mu i j <-> (In (i, j) border /\ f (i, j) = true) \/ (i = 1 /\ 1 + row mu 0 < j <= row nu 0).
  Proof.
    intros nu Hn H f. pose proof (proj1 (strict_rows nu) Hn) as [_ Sn]. split; [|split].
    - apply closed_intro; intros x y Hx Hy [R1 R2] F; unfold f in *; apply Z.ltb_lt in F; apply Z.ltb_lt.
      + rewrite R1, R2 in F. lia.
      + rewrite R1 in *. rewrite R2 in *. apply border_In in Hx. apply border_In in Hy. assert (2 <= fst x) by lia. pose proof (rw_nonneg (fst x)). pose proof (Sn (Z.to_nat (fst x - 1 - 1))) as S. unfold rw in *. replace (Datatypes.S (Z.to_nat (fst x - 1 - 1))) with (Z.to_nat (fst x - 1)) in S by lia. lia.
    - unfold f. cbn [fst snd]. rewrite Z.ltb_lt. change (rw nu 1) with (row nu 0). change (rw mu 1) with (row mu 0). lia.
    - intros i j. rewrite skew_cells by assumption. rewrite border_In. cbn [fst snd]. unfold f. cbn [fst snd]. rewrite Z.ltb_lt. change (row nu 0) with (rw nu 1). change (row mu 0) with (rw mu 1). split.
      + intros [C1 C2]. destruct (Z.eq_dec i 1) as [->|N]; [lia|]. left. specialize (H (Z.to_nat (i - 1 - 1))). replace (S (Z.to_nat (i - 1 - 1))) with (Z.to_nat (i - 1)) in H by lia. unfold rw in *. lia.
      + intros [[[B|B] F]|B]; [lia| |]; destruct B as [-> B]; lia.
  Qed.

  Lemma prefix_count : forall (g : Z -> bool) n, (forall j, 0 <= j -> j + 1 < Z.of_nat n -> g (j + 1) = true -> g j = true) ->
    let c := zlen (filter g (zrange 0 (Z.of_nat n))) in 0 <= c <= Z.of_nat n /\ forall j, 0 <= j < Z.of_nat n -> g j = (j <? c).
  Proof.
    intros g. induction n as [|n IH]; intro H; [cbn; split; [lia|intros; lia]|]. destruct (IH ltac:(intros; apply H; lia || assumption)) as [C1 C2]. cbn zeta in *. rewrite (zrange_snoc 0 (Z.of_nat (S n))) by lia. replace (Z.of_nat (S n) - 1) with (Z.of_nat n) by lia. rewrite filter_app. unfold zlen at 1 2 3. rewrite app_length, Nat2Z.inj_add. fold (zlen (filter g (zrange 0 (Z.of_nat n)))). set (c := zlen (filter g (zrange 0 (Z.of_nat n)))) in *. cbn [filter]. destruct (g (Z.of_nat n)) eqn:G.
    - assert (Q : c = Z.of_nat n). { destruct (Z.eq_dec c (Z.of_nat n)) as [|N]; [assumption|exfalso]. assert (K : g (Z.of_nat n - 1) = true) by (apply H; [lia|lia|replace (Z.of_nat n - 1 + 1) with (Z.of_nat n) by lia; exact G]). rewrite C2 in K by lia. lia. } cbn [length]. split; [lia|]. intros j Hj. destruct (Z.eq_dec j (Z.of_nat n)) as [->|]; [rewrite G; symmetry; apply Z.ltb_lt; lia|]. rewrite C2 by lia. destruct (Z.ltb_spec j c); destruct (Z.ltb_spec j (c + Z.of_nat 1)); lia.
    - cbn [length]. rewrite Nat2Z.inj_0, Z.add_0_r. split; [lia|]. intros j Hj. destruct (Z.eq_dec j (Z.of_nat n)) as [->|]; [rewrite G; symmetry; apply Z.ltb_ge; lia|]. apply C2. lia.
  Qed.

  (* from a closed part of the border to nu *)
  Lemma closed_rim : forall f e, closed f border -> 0 <= e -> (f (1, 1 + rw mu 1) = true <-> 0 < e) ->
    exists nu, strict_partition nu /\ (forall i, row nu (S i) <= row mu i <= row nu i) /\ row nu 0 = row mu 0 + e /\
    forall i j, shifted_skew_cell nu mu i j <-> (In (i, j) border /\ f (i, j) = true) \/ (i = 1 /\ 1 + row mu 0 < j <= row mu 0 + e).
  Proof.
    intros f e C He Fe. pose proof border_path as P.
    set (d := fun i => rw mu (i - 1) - rw mu i). set (g := fun i j => f (i, i + rw mu i + j)). set (c := fun i => if i =? 1 then e else zlen (filter (g i) (zrange 0 (d i)))).
    assert (Cr : forall i, 2 <= i <= r + 1 -> 0 <= c i <= d i /\ forall j, 0 <= j < d i -> f (i, i + rw mu i + j) = (j <? c i)).
    { intros i Hi. unfold c. destruct (Z.eqb_spec i 1); [lia|]. pose proof (rw_strict i Hi). destruct (prefix_count (g i) (Z.to_nat (d i))) as [A B].
      - intros j J1 J2 G. unfold g in *. unfold d in J2. apply (closed_right f border P C (i, i + rw mu i + j) (i, i + rw mu i + (j + 1))); [apply border_In; cbn [fst snd]; lia|apply border_In; cbn [fst snd]; lia|split; cbn [fst snd]; lia|exact G].
      - cbn zeta in *. unfold d in *. rewrite Z2Nat.id in * by lia. split; [exact A|]. intros j Hj. apply (B j Hj). }
    assert (Cup : forall i, 2 <= i <= r + 1 -> c i = d i -> 0 < c (i - 1)).
    { intros i Hi Q. destruct (Cr i Hi) as [_ B]. pose proof (rw_strict i Hi). specialize (B (d i - 1) ltac:(unfold d; lia)). rewrite Q in B. replace (d i - 1 <? d i) with true in B by lia. replace (i + rw mu i + (d i - 1)) with (i - 1 + rw mu (i - 1)) in B by (unfold d; lia).
      assert (F' : f (i - 1, i - 1 + rw mu (i - 1)) = true).
      { apply (closed_above f border P C (i, i - 1 + rw mu (i - 1))); [apply border_In; cbn [fst snd]; lia| |split; cbn [fst snd]; lia|exact B]. apply border_In. cbn [fst snd]. destruct (Z.eq_dec (i - 1) 1) as [->|N]; [right; lia|left]. pose proof (rw_strict (i - 1) ltac:(lia)). lia. }
      destruct (Z.eq_dec (i - 1) 1) as [E|N].
      - rewrite E in *. apply Fe in F'. unfold c. cbn. exact F'.
      - destruct (Cr (i - 1) ltac:(lia)) as [_ B']. pose proof (rw_strict (i - 1) ltac:(lia)). specialize (B' 0 ltac:(unfold d; lia)). rewrite Z.add_0_r, F' in B'. symmetry in B'. apply Z.ltb_lt in B'. exact B'. }
    assert (C1 : c 1 = e) by reflexivity.
    exists (trim (map (fun i => rw mu i + c i) (zrange 1 (r + 1 + 1)))).
    assert (Rn : forall k, row (trim (map (fun i => rw mu i + c i) (zrange 1 (r + 1 + 1)))) k = if Z.of_nat k <? r + 1 then rw mu (Z.of_nat k + 1) + c (Z.of_nat k + 1) else 0) by (intro k; rewrite trim_row, map_range1_row; reflexivity).
    set (nu := trim (map (fun i => rw mu i + c i) (zrange 1 (r + 1 + 1)))) in *.
    assert (Cn : forall i, 1 <= i <= r + 1 -> 0 <= c i) by (intros i Hi; destruct (Z.eq_dec i 1) as [->|]; [lia|apply Cr; lia]).
    assert (Rm : forall k, row mu k = rw mu (Z.of_nat k + 1)) by (intro k; unfold rw; f_equal; lia).
    assert (Hn : strict_partition nu).
    { apply strict_rows. split; [apply trimmed_trim|]. intro k. rewrite !Rn. destruct (Z.ltb_spec (Z.of_nat (S k)) (r + 1)) as [L|L].
      - left. replace (Z.of_nat k <? r + 1) with true by lia. set (i := Z.of_nat (S k) + 1). replace (Z.of_nat k + 1) with (i - 1) by lia. destruct (Cr i ltac:(lia)) as [A _]. pose proof (Cup i ltac:(lia)). pose proof (rw_nonneg i). unfold d in *. pose proof (Cn (i - 1) ltac:(lia)). lia.
      - destruct (Z.ltb_spec (Z.of_nat k) (r + 1)) as [L'|L']; [|right; split; reflexivity]. pose proof (Cn (Z.of_nat k + 1) ltac:(lia)). pose proof (rw_nonneg (Z.of_nat k + 1)). lia. }
    assert (Hr : forall i, row nu (S i) <= row mu i <= row nu i).
    { intro k. rewrite !Rn, Rm. pose proof (rw_nonneg (Z.of_nat k + 1)). split.
      - destruct (Z.ltb_spec (Z.of_nat (S k)) (r + 1)) as [L|L]; [|lia]. destruct (Cr (Z.of_nat (S k) + 1) ltac:(lia)) as [A _]. unfold d in A. replace (Z.of_nat (S k) + 1 - 1) with (Z.of_nat k + 1) in A by lia. lia.
      - destruct (Z.ltb_spec (Z.of_nat k) (r + 1)) as [L|L]; [pose proof (Cn (Z.of_nat k + 1) ltac:(lia)); lia|]. rewrite rw_over by lia. lia. }
    split; [exact Hn|]. split; [exact Hr|]. split; [rewrite Rn; destruct (Z.ltb_spec (Z.of_nat 0) (r + 1)); [reflexivity|lia]|].
    intros i j. rewrite skew_cells by assumption. rewrite border_In. cbn [fst snd]. change (row mu 0) with (rw mu 1).
    assert (Rw : 1 <= i <= r + 1 -> rw nu i = rw mu i + c i). { intro Hi. unfold rw at 1. rewrite Rn. destruct (Z.ltb_spec (Z.of_nat (Z.to_nat (i - 1))) (r + 1)); [|lia]. replace (Z.of_nat (Z.to_nat (i - 1)) + 1) with i by lia. reflexivity. }
    split.
    - intros [I1 I2]. rewrite Rw in I2 by exact I1. destruct (Z.eq_dec i 1) as [->|N].
      + rewrite C1 in I2. destruct (Z.eq_dec j (1 + rw mu 1)) as [->|]; [left; split; [right; auto|apply Fe; lia]|right; lia].
      + left. destruct (Cr i ltac:(lia)) as [A B]. specialize (B (j - i - rw mu i) ltac:(lia)). replace (i + rw mu i + (j - i - rw mu i)) with j in B by lia. unfold d in A. split; [left; lia|]. rewrite B. apply Z.ltb_lt. lia.
    - intros [[[Bd|[-> ->]] F]|[-> Hj]].
      + split; [lia|]. rewrite Rw by lia. destruct (Cr i ltac:(lia)) as [A B]. specialize (B (j - i - rw mu i) ltac:(unfold d; lia)). replace (i + rw mu i + (j - i - rw mu i)) with j in B by lia. rewrite F in B. symmetry in B. apply Z.ltb_lt in B. lia.
      + split; [lia|]. rewrite Rw, C1 by lia. apply Fe in F. lia.
      + split; [lia|]. rewrite Rw, C1 by lia. lia.
  Qed.
End Border.

Lemma is_strict_ok : forall mu, strict_partition mu -> is_strict_partition mu = true.
Proof. intros mu H. apply L_Generate.is_strict_partition_spec; [apply H|exact H]. Qed.

Theorem rims_ok : forall mu b, strict_partition mu -> exists l, rims mu b = Ok l /\ NoDup l /\
  forall t, In t l <-> exists nu, strict_partition nu /\ (forall i, row nu (S i) <= row mu i <= row nu i) /\ row nu 0 <= row mu 0 + Z.max 0 b /\
    StronglySorted before t /\ forall i j, In (i, j) t <-> shifted_skew_cell nu mu i j.
Proof.
  intros mu b H. unfold rims. rewrite is_strict_ok by exact H. rewrite (trim_id mu) by (apply strict_rows; exact H). cbv zeta. set (m := nthz (mu ++ [0]) 0 :: mu ++ [0]). change (rim_border m) with (border mu). pose proof (border_path mu H) as P.
  destruct (helper_ok (S (length (border mu))) (border mu) P ltac:(lia)) as (rs & E & N & M). rewrite E. cbn [rbind]. rewrite border_last by exact H. assert (M0 : nthz m 0 = rw mu 1) by (unfold m; apply m_0; exact H); rewrite M0. eexists. split; [reflexivity|].
  assert (ND : NoDup (border mu)) by (apply path_NoDup; exact P).
  assert (Fin : forall f x, In x (border mu) -> (bmem x (filter f (border mu)) = f x)).
  { intros f x Hx. destruct (f x) eqn:F; [apply bmem_In; apply filter_In; auto|]. destruct (bmem x (filter f (border mu))) eqn:Q; [|reflexivity]. apply bmem_In in Q. apply filter_In in Q. destruct Q. congruence. }
  assert (L1 : In (1, 1 + rw mu 1) (border mu)) by (apply border_In; [exact H|right; split; reflexivity]).
  (* the extended lists *)
  assert (Ext : forall f i, 0 <= i -> let t := bsort (filter f (border mu) ++ map (fun j => (1, 1 + rw mu 1 + j)) (zrange 1 (i + 1))) in StronglySorted before t /\ forall x, In x t <-> (In x (border mu) /\ f x = true) \/ (fst x = 1 /\ 1 + rw mu 1 < snd x <= 1 + rw mu 1 + i)).
  { intros f i Hi t. assert (X : forall x, In x (map (fun j => (1, 1 + rw mu 1 + j)) (zrange 1 (i + 1))) <-> fst x = 1 /\ 1 + rw mu 1 < snd x <= 1 + rw mu 1 + i).
    { intros [u v]. rewrite in_map_iff. cbn [fst snd]. split; [intros (j & Q & Hj); pose proof (f_equal fst Q) as Q1; pose proof (f_equal snd Q) as Q2; cbn [fst snd] in Q1, Q2; apply In_zrange in Hj; lia|]. intros [-> Hv]. exists (v - 1 - rw mu 1). split; [f_equal; lia|apply In_zrange; lia]. }
    split.
    - apply bsort_sorted. apply NoDup_app_intro; [apply NoDup_filter; exact ND| |].
      + apply NoDup_map_inj_in; [|apply NoDup_zrange]. intros u v _ _ Q. pose proof (f_equal snd Q) as Q2; cbn [fst snd] in Q2. lia.
      + intros x H1 H2. apply filter_In in H1. destruct H1 as [H1 _]. apply X in H2. apply border_In in H1; [|exact H]. lia.
    - intro x. unfold t. rewrite bsort_In, in_app_iff, filter_In, X. tauto. }
  assert (Srt : forall f, bsort (filter f (border mu)) = bsort (filter f (border mu) ++ map (fun j => (1, 1 + rw mu 1 + j)) (zrange 1 (0 + 1)))) by (intro f; rewrite (zrange_nil 1 (0 + 1)) by lia; cbn [map]; rewrite app_nil_r; reflexivity).
  split.
  - apply NoDup_flat_map; [exact N| |].
    + intros rr Hr. apply M in Hr. destruct Hr as (f & -> & Cf). destruct (bmem (1, 1 + rw mu 1) (filter f (border mu))); [|repeat constructor; intros []]. apply NoDup_map_inj_in; [|apply NoDup_zrange]. intros i i' Hi Hi' Q. apply In_zrange in Hi. apply In_zrange in Hi'. destruct (Ext f i ltac:(lia)) as [_ A]. destruct (Ext f i' ltac:(lia)) as [_ A']. cbn zeta in *. rewrite Q in A.
      assert (T : forall j, 1 + rw mu 1 < j -> (j <= 1 + rw mu 1 + i <-> j <= 1 + rw mu 1 + i')). { intros j Hj. specialize (A (1, j)). specialize (A' (1, j)). rewrite A' in A. cbn [fst snd] in A. assert (~ In (1, j) (border mu)) by (rewrite border_In by exact H; cbn [fst snd]; lia). split; intro; [assert (K : (In (1, j) (border mu) /\ f (1, j) = true) \/ 1 = 1 /\ 1 + rw mu 1 < j <= 1 + rw mu 1 + i') by (apply A; right; lia)|assert (K : (In (1, j) (border mu) /\ f (1, j) = true) \/ 1 = 1 /\ 1 + rw mu 1 < j <= 1 + rw mu 1 + i) by (apply A; right; lia)]; destruct K as [[K _]|K]; [contradiction|lia|contradiction|lia]. }
      pose proof (T (1 + rw mu 1 + i + 1)). pose proof (T (1 + rw mu 1 + i' + 1)). lia.
    + intros r1 r2 t H1 H2 T1 T2. apply M in H1. apply M in H2. destruct H1 as (f1 & -> & C1). destruct H2 as (f2 & -> & C2).
      assert (K : forall f t, In t (if bmem (1, 1 + rw mu 1) (filter f (border mu)) then map (fun i => bsort (filter f (border mu) ++ map (fun j => (1, 1 + rw mu 1 + j)) (zrange 1 (i + 1)))) (zrange 0 b) else [bsort (filter f (border mu))]) -> forall x, In x (border mu) -> (In x t <-> f x = true)).
      { clear - Ext Srt H. intros f t Ht x Hx. assert (Q : exists i, 0 <= i /\ t = bsort (filter f (border mu) ++ map (fun j => (1, 1 + rw mu 1 + j)) (zrange 1 (i + 1)))).
        { destruct (bmem (1, 1 + rw mu 1) (filter f (border mu))).
          - apply in_map_iff in Ht. destruct Ht as (i & <- & Hi). apply In_zrange in Hi. exists i. split; [lia|reflexivity].
          - destruct Ht as [<-|[]]. exists 0. split; [lia|apply Srt]. }
        destruct Q as (i & Hi & ->). destruct (Ext f i Hi) as [_ A]. cbn zeta in A. rewrite A. split; [intros [[_ F]|F]; [exact F|]|tauto]. exfalso. apply border_In in Hx; [|exact H]. lia. }
      apply filter_ext_In. intros x Hx. pose proof (K f1 t T1 x Hx). pose proof (K f2 t T2 x Hx). destruct (f1 x), (f2 x); intuition congruence.
  - intro t. rewrite in_flat_map. split.
    + intros (rr & Hr & Ht). apply M in Hr. destruct Hr as (f & -> & Cf). rewrite Fin in Ht by exact L1. destruct (f (1, 1 + rw mu 1)) eqn:F1.
      * apply in_map_iff in Ht. destruct Ht as (i & <- & Hi). apply In_zrange in Hi. destruct (closed_rim mu H f (i + 1) Cf ltac:(lia)) as (nu & A1 & A2 & A3 & A4); [rewrite F1; split; [lia|reflexivity]|]. exists nu. split; [exact A1|]. split; [exact A2|]. split; [lia|]. destruct (Ext f i ltac:(lia)) as [S1 S2]. cbn zeta in *. split; [exact S1|]. intros u v. rewrite S2, A4. cbn [fst snd]. change (row mu 0) with (rw mu 1). replace (1 + rw mu 1 + i) with (rw mu 1 + (i + 1)) by lia. tauto.
      * destruct Ht as [<-|[]]. destruct (closed_rim mu H f 0 Cf ltac:(lia)) as (nu & A1 & A2 & A3 & A4); [rewrite F1; split; [discriminate|lia]|]. exists nu. split; [exact A1|]. split; [exact A2|]. split; [lia|]. rewrite Srt. destruct (Ext f 0 ltac:(lia)) as [S1 S2]. cbn zeta in *. split; [exact S1|]. intros u v. rewrite S2, A4. cbn [fst snd]. change (row mu 0) with (rw mu 1). assert (1 + rw mu 1 < v <= 1 + rw mu 1 + 0 <-> 1 + rw mu 1 < v <= rw mu 1 + 0) by lia. tauto.
    + intros (nu & A1 & A2 & A3 & A4 & A5). destruct (rim_closed mu H nu A1 A2) as (B1 & B2 & B3). set (f := fun x : box => snd x <? fst x + rw nu (fst x)); change (forall i j : Z, shifted_skew_cell nu mu i j <-> In (i, j) (border mu) /\ f (i, j) = true \/ i = 1 /\ 1 + row mu 0 < j <= row nu 0) in B3. exists (filter f (border mu)). split; [apply M; exists f; split; [reflexivity|exact B1]|]. rewrite Fin by exact L1. pose proof (A2 0%nat) as A20. destruct (f (1, 1 + rw mu 1)) eqn:F1.
      * pose proof (proj1 B2 F1) as Lt. apply in_map_iff. exists (row nu 0 - row mu 0 - 1). split; [|apply In_zrange; lia]. destruct (Ext f (row nu 0 - row mu 0 - 1) ltac:(lia)) as [S1 S2]. cbn zeta in *. apply sorted_same; [exact S1|exact A4|]. intros [u v]. rewrite S2, A5, B3. cbn [fst snd]. change (rw mu 1) with (row mu 0). replace (1 + row mu 0 + (row nu 0 - row mu 0 - 1)) with (row nu 0) by lia. tauto.
      * left. rewrite Srt. destruct (Ext f 0 ltac:(lia)) as [S1 S2]. cbn zeta in *. apply sorted_same; [exact S1|exact A4|]. intros [u v]. rewrite S2, A5, B3. cbn [fst snd]. change (rw mu 1) with (row mu 0). assert (row nu 0 = row mu 0). { destruct (Z_lt_le_dec (row mu 0) (row nu 0)) as [G|G]; [apply B2 in G; unfold f in F1; congruence|lia]. } assert (1 + row mu 0 < v <= 1 + row mu 0 + 0 <-> 1 + row mu 0 < v <= row nu 0) by lia. tauto.
Qed.
