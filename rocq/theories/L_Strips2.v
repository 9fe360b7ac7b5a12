From Coq Require Import List ZArith Lia Bool Permutation.
From Verif Require Import PyBase M_Partitions S_Partitions L_Partitions L_PartBasic L_Operators M_Strips S_Strips L_Strips.
Import ListNotations.
Local Open Scope Z_scope.

Lemma strip_spec_iff : forall (K K' : list Z -> Prop) (D D' C C' : list Z -> Z -> Z -> Prop) r,
  (forall k, K k <-> K' k) -> (forall k a b, K k -> (D k a b <-> D' k a b)) -> (forall k a b, K k -> (C k a b <-> C' k a b)) ->
  strip_spec K D C r -> strip_spec K' D' C' r.
Proof.
  intros K K' D D' C C' r HK HD HC (H1 & H2 & H3). split; [assumption|]. split.
  - intro k. rewrite H2. apply HK.
  - intros k diff corners Hin. assert (Hk : K k) by (apply H2; apply (in_map sshape) in Hin; exact Hin).
    destruct (H3 k diff corners Hin) as (A1 & A2 & A3 & A4). split; [assumption|]. split; [|split; [assumption|]].
    + intros a b. rewrite A2. apply HD. assumption.
    + intros a b. rewrite A4. apply HC. assumption.
Qed.

Lemma partition_row_pos : forall mu i, partition mu -> (0 < row mu i <-> (i < length mu)%nat).
Proof.
  intros mu i [P _]. split; [|apply row_pos; assumption]. intro H. destruct (lt_dec i (length mu)) as [C|C]; [assumption|]. rewrite row_overflow in H by lia. lia.
Qed.
Lemma partition_nonneg : forall mu i, partition mu -> 0 <= row mu i.
Proof. intros mu i [P _]. apply row_nonneg. apply pos_nonneg. assumption. Qed.
Lemma len_le : forall a b, partition a -> partition b -> (forall i, row a i <= row b i) -> (length a <= length b)%nat.
Proof.
  intros a b Ha Hb H. destruct (le_lt_dec (length a) (length b)) as [C|C]; [assumption|].
  apply (partition_row_pos a (length b) Ha) in C. specialize (H (length b)). rewrite (row_overflow b) in H by lia. lia.
Qed.
Lemma cell_nat : forall mu i b, cell mu (Z.of_nat i + 1) b <-> 1 <= b <= row mu i.
Proof. intros. unfold cell. replace (Z.to_nat (Z.of_nat i + 1 - 1)) with i by lia. lia. Qed.
Lemma shifted_cell_nat : forall mu i b, shifted_cell mu (Z.of_nat i + 1) b <-> 1 <= b - Z.of_nat i <= row mu i.
Proof. intros. unfold shifted_cell. replace (Z.to_nat (Z.of_nat i + 1 - 1)) with i by lia. lia. Qed.
Lemma cell_pos_row : forall mu a b, cell mu a b -> exists i, a = Z.of_nat i + 1.
Proof. intros mu a b H. exists (Z.to_nat (a - 1)). unfold cell in H. lia. Qed.
Lemma shifted_cell_pos_row : forall mu a b, shifted_cell mu a b -> exists i, a = Z.of_nat i + 1.
Proof. intros mu a b H. exists (Z.to_nat (a - 1)). unfold shifted_cell in H. lia. Qed.

(* the diagram as selected by a flag *)
Definition dcell (sh : bool) : list Z -> Z -> Z -> Prop := if sh then shifted_cell else cell.
Lemma dcell_nat : forall sh mu i b, dcell sh mu (Z.of_nat i + 1) b <-> 1 <= b - off sh (Z.of_nat i) <= row mu i.
Proof. intros [|] mu i b; cbn [dcell off]; [apply shifted_cell_nat|rewrite cell_nat; lia]. Qed.
Lemma dcell_row : forall sh mu a b, dcell sh mu a b -> exists i, a = Z.of_nat i + 1.
Proof. intros [|]; cbn [dcell]; [apply shifted_cell_pos_row|apply cell_pos_row]. Qed.
Lemma dcell_incl : forall sh a b, (forall i, 0 <= row a i) -> (forall i, 0 <= row b i) ->
  ((forall i j, dcell sh a i j -> dcell sh b i j) <-> forall i, row a i <= row b i).
Proof.
  intros sh a b Ha Hb. split; intro H.
  - intro i. destruct (Z_lt_le_dec 0 (row a i)) as [C|C].
    + assert (X : dcell sh a (Z.of_nat i + 1) (row a i + off sh (Z.of_nat i))) by (apply dcell_nat; lia). apply H in X. apply dcell_nat in X. lia.
    + specialize (Ha i). specialize (Hb i). lia.
  - intros i j X. destruct (dcell_row _ _ _ _ X) as [n ->]. apply dcell_nat in X. apply dcell_nat. specialize (H n). lia.
Qed.
Lemma diff_cells : forall sh mu k a b, (forall i, 0 <= row k i) ->
  ((exists i, (i < length mu)%nat /\ a = Z.of_nat i + 1 /\ row k i < b - off sh (Z.of_nat i) <= row mu i) <-> in_skew (dcell sh) mu k a b).
Proof.
  intros sh mu k a b Hk. unfold in_skew. split.
  - intros (i & Hi & -> & H). rewrite !dcell_nat. specialize (Hk i). lia.
  - intros [H1 H2]. destruct (dcell_row _ _ _ _ H1) as [i ->]. rewrite dcell_nat in H1, H2. exists i. split; [|split; [reflexivity|lia]].
    destruct (lt_dec i (length mu)) as [C|C]; [assumption|]. rewrite (row_overflow mu) in H1 by lia. lia.
Qed.

Section Horizontal.
  Variable ord : list (list Z) -> list (list Z).
  Hypothesis ord_perm : forall l, Permutation (ord l) l.

  Lemma column_free_rows : forall mu k, partition mu -> partition k -> (forall i, row k i <= row mu i) ->
    (column_free cell mu k <-> forall i, row mu (S i) <= row k i).
  Proof.
    intros mu k Hm Hk Hle. split; intro H.
    - intro i. destruct (Z_lt_le_dec (row k i) (row mu (S i))) as [C|C]; [|assumption]. exfalso.
      assert (B : in_skew cell mu k (Z.of_nat i + 1) (row mu (S i))).
      { unfold in_skew. rewrite !cell_nat. pose proof (proj2 Hm i). pose proof (partition_nonneg k i Hk). lia. }
      assert (B' : in_skew cell mu k (Z.of_nat (S i) + 1) (row mu (S i))).
      { unfold in_skew. rewrite !cell_nat. pose proof (proj2 Hk i). pose proof (partition_nonneg k i Hk). lia. }
      specialize (H _ _ _ B B'). lia.
    - intros a a' b [H1 H2] [H3 H4]. destruct (cell_pos_row _ _ _ H1) as [i ->]. destruct (cell_pos_row _ _ _ H3) as [i' ->].
      rewrite cell_nat in *. destruct (lt_eq_lt_dec i i') as [[C|C]|C]; [|subst; reflexivity|]; exfalso.
      + pose proof (row_decr mu (proj2 Hm) (S i) i' ltac:(lia)). specialize (H i). lia.
      + pose proof (row_decr mu (proj2 Hm) (S i') i ltac:(lia)). specialize (H i'). lia.
  Qed.

  Lemma horizontal_spec : forall mu lam, partition mu -> partition lam -> (forall i, row lam i <= row mu i) ->
    exists r, horizontal_strips ord mu lam = Ok r /\
      strip_spec (fun k => partition k /\ between cell lam k mu /\ column_free cell mu k) (in_skew cell mu)
                 (fun k => free_horizontal cell lam k mu) r.
  Proof.
    intros mu lam Hm Hl Hle. unfold horizontal_strips.
    rewrite (proj2 (contains_spec mu lam (partition_weak _ Hm) (partition_weak _ Hl) (partition_trimmed _ Hl)) Hle).
    set (core0 := map _ (zrange 0 (zlen mu))).
    assert (L0 : length core0 = length mu) by (unfold core0; rewrite map_length, length_zrange; unfold zlen; lia).
    assert (R0 : forall i, (i < length mu)%nat -> row core0 i = row mu (S i)).
    { intros i Hi. unfold core0. rewrite map_zrange_row. replace (Z.of_nat i <? zlen mu) with true by (symmetry; apply Z.ltb_lt; unfold zlen; lia).
      replace (Z.of_nat i + 1) with (Z.of_nat (S i)) by lia. rewrite nthz_row. destruct (Z.of_nat (S i) <? zlen mu) eqn:E; [reflexivity|].
      apply Z.ltb_ge in E. unfold zlen in E. rewrite row_overflow by lia. reflexivity. }
    pose proof (len_le lam mu Hl Hm Hle) as Hlen.
    destruct (core_max_ok core0 lam) as (core & Ec & Lc & Rc); [lia|intros i Hi; rewrite R0 by lia; apply partition_nonneg; assumption|].
    rewrite Ec. cbn [rbind].
    destruct (concrete_strips ord ord_perm mu core false false (fun nu i => nthz core i <? nthz nu i)) as (r & Er & Hr).
    - lia.
    - intros i Hi. rewrite Rc, R0 by lia. apply (partition_row_pos mu (S i) Hm) in Hi. lia.
    - intros i Hi. rewrite Rc, R0 by lia. pose proof (partition_nonneg mu (S i) Hm). pose proof (proj2 Hm i). specialize (Hle i). lia.
    - discriminate.
    - exists r. split; [exact Er|]. revert Hr. apply strip_spec_iff.
      + intro k. unfold inK, between. split.
        * intros (P1 & P2 & P3 & _).
          assert (Hk : partition k).
          { split; [assumption|]. intro i. destruct (lt_dec (S i) (length mu)) as [C|C].
            - pose proof (P3 i ltac:(lia)) as A. pose proof (P3 (S i) C) as B. rewrite Rc, R0 in A, B by lia. lia.
            - rewrite (row_overflow k (S i)) by lia. apply row_nonneg, pos_nonneg. assumption. }
          assert (H3 : forall i, Z.max (row mu (S i)) (row lam i) <= row k i <= row mu i).
          { intro i. destruct (lt_dec i (length mu)) as [C|C].
            - pose proof (P3 i C) as A. rewrite Rc, R0 in A by lia. assumption.
            - rewrite !row_overflow by lia. lia. }
          split; [assumption|]. split.
          -- split; [apply (proj2 (dcell_incl false lam k (fun i => partition_nonneg _ i Hl) (fun i => partition_nonneg _ i Hk)))
             |apply (proj2 (dcell_incl false k mu (fun i => partition_nonneg _ i Hk) (fun i => partition_nonneg _ i Hm)))]; intro i; specialize (H3 i); lia.
          -- apply column_free_rows; [assumption|assumption| |]; intro i; specialize (H3 i); lia.
        * intros (Hk & [B1 B2] & B3).
          pose proof (proj1 (dcell_incl false lam k (fun i => partition_nonneg _ i Hl) (fun i => partition_nonneg _ i Hk)) B1) as C1.
          pose proof (proj1 (dcell_incl false k mu (fun i => partition_nonneg _ i Hk) (fun i => partition_nonneg _ i Hm)) B2) as C2.
          pose proof (proj1 (column_free_rows mu k Hm Hk C2) B3) as C3. split; [apply Hk|]. split; [apply len_le; assumption|]. split; [|discriminate].
          intros i Hi. rewrite Rc, R0 by lia. specialize (C1 i). specialize (C2 i). specialize (C3 i). lia.
      + intros k a b (P1 & _). apply (diff_cells false). intro i. apply row_nonneg, pos_nonneg. assumption.
      + intros k a b (P1 & P2 & P3 & _). unfold free_horizontal. split.
        * intros (i & H1 & H2 & -> & ->). rewrite !nthz_row, Z.ltb_lt in H2. rewrite Rc, R0 in H2 by lia. cbn [off].
          replace (Z.of_nat i + 1 + 1) with (Z.of_nat (S i) + 1) by lia. rewrite !cell_nat. pose proof (row_pos k i P1 H1). lia.
        * intros (H1 & H2 & H3 & H4). destruct (cell_pos_row _ _ _ H1) as [i ->]. replace (Z.of_nat i + 1 + 1) with (Z.of_nat (S i) + 1) in H4 by lia. rewrite cell_nat in *.
          exists i. assert (Hi : (i < length k)%nat).
          { destruct (lt_dec i (length k)) as [C|C]; [assumption|]. rewrite (row_overflow k) in H1 by lia. lia. }
          split; [assumption|]. split; [|split; [reflexivity|cbn [off]; lia]]. rewrite !nthz_row. apply Z.ltb_lt. rewrite Rc, R0 by lia.
          pose proof (partition_nonneg mu (S i) Hm). pose proof (partition_nonneg lam i Hl). lia.
  Qed.
End Horizontal.
