From Coq Require Import List ZArith Lia Bool Permutation.
From Verif Require Import PyBase M_Partitions S_Partitions L_Partitions L_PartBasic L_Operators M_Strips S_Strips L_Strips L_Strips2.
Import ListNotations.
Local Open Scope Z_scope.

Section Rest.
  Variable ord : list (list Z) -> list (list Z).
  Hypothesis ord_perm : forall l, Permutation (ord l) l.

  Lemma vertical_spec : forall mu lam, partition mu -> partition lam -> (forall i, row lam i <= row mu i) ->
    exists r, vertical_strips ord mu lam = Ok r /\
      strip_spec (fun k => partition k /\ between cell lam k mu /\ row_free cell mu k) (in_skew cell mu)
                 (fun k => free_vertical cell lam k mu) r.
  Proof.
    intros mu lam Hm Hl Hle. unfold vertical_strips.
    pose proof (partition_weak _ Hm) as Wm. pose proof (partition_weak _ Hl) as Wl.
    pose proof (transpose_partition mu Wm) as Tm. pose proof (transpose_partition lam Wl) as Tl.
    assert (Hinc : forall i j, cell lam i j -> cell mu i j).
    { apply (proj2 (dcell_incl false lam mu (fun i => partition_nonneg _ i Hl) (fun i => partition_nonneg _ i Hm))). assumption. }
    assert (Tle : forall i, row (transpose lam) i <= row (transpose mu) i).
    { apply (proj1 (dcell_incl false _ _ (fun i => partition_nonneg _ i Tl) (fun i => partition_nonneg _ i Tm))).
      intros i j H. cbn [dcell] in *. rewrite transpose_cell in * by assumption. apply Hinc. assumption. }
    destruct (horizontal_spec ord ord_perm _ _ Tm Tl Tle) as (r & Er & N & HK & HD). rewrite Er. cbn [rbind].     set (tr := fun s : strip => match s with (nu, diff, corners) =>
               (transpose nu, map (fun c => (snd c, fst c)) diff, map (fun c => (snd c, fst c)) corners) end).
    exists (map tr r). split; [reflexivity|].
    assert (Es : forall s, sshape (tr s) = transpose (sshape s)) by (intros [[? ?] ?]; reflexivity).
    assert (Em : map sshape (map tr r) = map transpose (map sshape r)) by (rewrite !map_map; apply map_ext; exact Es).
    assert (Hsw : forall (l : list (Z * Z)) a b, In (a, b) (map (fun c => (snd c, fst c)) l) <-> In (b, a) l).
    { intros l a b. rewrite in_map_iff. split; [intros ([x y] & E & H); cbn [fst snd] in E; injection E as -> ->; assumption|].
      intro H. exists (b, a). split; [reflexivity|assumption]. }
    assert (Nsw : forall (l : list (Z * Z)), NoDup l -> NoDup (map (fun c => (snd c, fst c)) l)).
    { intros l H. apply NoDup_map_inj_in; [|assumption]. intros [x y] [x' y'] _ _ E. cbn [fst snd] in E. congruence. }
    split; [|split].
    - rewrite Em. apply NoDup_map_inj_in; [|assumption]. intros x y Hx Hy E. apply HK in Hx, Hy.
      rewrite <- (transpose_involutive x), <- (transpose_involutive y) by tauto. rewrite E. reflexivity.
    - intro k. rewrite Em, in_map_iff. split.
      + intros (x & <- & Hx). apply HK in Hx. destruct Hx as (P & [B1 B2] & F). pose proof (partition_weak _ P) as Wx. split; [apply transpose_partition; assumption|]. split.
        * split; intros i j H; rewrite transpose_cell in * by assumption.
          -- apply B1. rewrite transpose_cell by assumption. assumption.
          -- apply B2 in H. rewrite transpose_cell in H by assumption. assumption.
        * intros i j j' [H1 H2] [H3 H4]. rewrite transpose_cell in H2, H4 by assumption. apply (F j j' i); split; try assumption; rewrite transpose_cell by assumption; assumption.
      + intros (P & [B1 B2] & F). pose proof (partition_weak _ P) as Wx. exists (transpose k). split; [apply transpose_involutive; assumption|]. apply HK. split; [apply transpose_partition; assumption|]. split.
        * split; intros i j H; rewrite transpose_cell in * by assumption; [apply B1|apply B2]; assumption.
        * intros i i' j [H1 H2] [H3 H4]. rewrite transpose_cell in H1, H2, H3, H4 by assumption. apply (F j i i'); split; assumption.
    - intros k diff corners H. apply in_map_iff in H. destruct H as ([[nu d] c] & E & H). injection E as <- <- <-.
      assert (Pn : partition nu) by (apply (in_map sshape) in H; apply HK in H; apply H). pose proof (partition_weak _ Pn) as Wn.
      destruct (HD nu d c H) as (N1 & D1 & N2 & C1). split; [apply Nsw; assumption|]. split; [|split; [apply Nsw; assumption|]].
      + intros a b. rewrite Hsw, D1. unfold in_skew. rewrite !transpose_cell by assumption. tauto.
      + intros a b. rewrite Hsw, C1. unfold free_horizontal, free_vertical. rewrite !transpose_cell by assumption. tauto.
  Qed.

  Lemma shifted_column_free_rows : forall mu k, strict_partition mu -> strict_partition k -> (forall i, row k i <= row mu i) ->
    (column_free shifted_cell mu k <-> forall i, (S i < length mu)%nat -> row mu (S i) + 1 <= row k i).
  Proof.
    intros mu k Hm Hk Hle. pose proof (strict_is_partition _ Hm) as Pm. pose proof (strict_is_partition _ Hk) as Pk. split; intro H.
    - intros i Hi. destruct (Z_lt_le_dec (row k i) (row mu (S i) + 1)) as [C|C]; [|lia]. exfalso.
      apply (partition_row_pos mu (S i) Pm) in Hi.
      assert (Hm' : row mu (S i) < row mu i) by (apply Hm; apply (partition_row_pos mu (S i) Pm); assumption).
      assert (B : in_skew shifted_cell mu k (Z.of_nat i + 1) (Z.of_nat i + row mu (S i) + 1)).
      { unfold in_skew. rewrite !shifted_cell_nat. lia. }
      assert (Hk' : row k (S i) < row mu (S i)).
      { destruct (lt_dec (S i) (length k)) as [L|L]; [pose proof (proj2 Hk i L); lia|]. rewrite (row_overflow k) by lia. lia. }
      assert (B' : in_skew shifted_cell mu k (Z.of_nat (S i) + 1) (Z.of_nat i + row mu (S i) + 1)).
      { unfold in_skew. rewrite !shifted_cell_nat. lia. }
      specialize (H _ _ _ B B'). lia.
    - assert (G : forall i i' b, (i < i')%nat -> in_skew shifted_cell mu k (Z.of_nat i + 1) b -> in_skew shifted_cell mu k (Z.of_nat i' + 1) b -> False).
      { intros i i' b L [H1 H2] [H3 H4]. rewrite shifted_cell_nat in *.
        assert (Hi' : (i' < length mu)%nat) by (apply (partition_row_pos mu i' Pm); lia).
        specialize (H i ltac:(lia)). pose proof (L_PartMore.strict_gap mu (S i) (i' - S i) Hm ltac:(lia)) as Gp. replace (S i + (i' - S i))%nat with i' in Gp by lia.
        pose proof (partition_nonneg k i Pk). lia. }
      intros a a' b H1 H3. destruct (shifted_cell_pos_row _ _ _ (proj1 H1)) as [i ->]. destruct (shifted_cell_pos_row _ _ _ (proj1 H3)) as [i' ->].
      destruct (lt_eq_lt_dec i i') as [[C|C]|C]; [|subst; reflexivity|]; exfalso; eapply G; eassumption.
  Qed.

  Lemma shifted_row_free_rows : forall mu k, strict_partition mu -> strict_partition k -> (forall i, row k i <= row mu i) ->
    (row_free shifted_cell mu k <-> forall i, row mu i - 1 <= row k i).
  Proof.
    intros mu k Hm Hk Hle. pose proof (strict_is_partition _ Hm) as Pm. pose proof (strict_is_partition _ Hk) as Pk. split; intro H.
    - intro i. destruct (Z_lt_le_dec (row k i) (row mu i - 1)) as [C|C]; [|lia]. exfalso. pose proof (partition_nonneg k i Pk).
      assert (B : in_skew shifted_cell mu k (Z.of_nat i + 1) (Z.of_nat i + row mu i)) by (unfold in_skew; rewrite !shifted_cell_nat; lia).
      assert (B' : in_skew shifted_cell mu k (Z.of_nat i + 1) (Z.of_nat i + row mu i - 1)) by (unfold in_skew; rewrite !shifted_cell_nat; lia).
      specialize (H _ _ _ B B'). lia.
    - intros a b b' [H1 H2] [H3 H4]. destruct (shifted_cell_pos_row _ _ _ H1) as [i ->]. rewrite shifted_cell_nat in *. specialize (H i). lia.
  Qed.

  Lemma strict_is_strict : forall mu, strict_partition mu -> is_strict_partition mu = true.
  Proof.
    intros mu H. unfold is_strict_partition. apply forallb_forall. intros z Hz. apply In_zrange in Hz. unfold zlen in Hz. apply Z.ltb_lt.
    replace z with (Z.of_nat (S (Z.to_nat (z - 1)))) by lia. replace (Z.of_nat (S (Z.to_nat (z - 1))) - 1) with (Z.of_nat (Z.to_nat (z - 1))) by lia.
    rewrite !nthz_row. apply H. lia.
  Qed.

  Lemma shifted_horizontal_spec : forall mu lam, strict_partition mu -> strict_partition lam -> (forall i, row lam i <= row mu i) ->
    exists r, shifted_horizontal_strips ord mu lam = Ok r /\
      strip_spec (fun k => strict_partition k /\ between shifted_cell lam k mu /\ column_free shifted_cell mu k) (in_skew shifted_cell mu)
                 (fun k => free_horizontal shifted_cell lam k mu) r.
  Proof.
    intros mu lam Sm Sl Hle. pose proof (strict_is_partition _ Sm) as Hm. pose proof (strict_is_partition _ Sl) as Hl. unfold shifted_horizontal_strips.
    rewrite (strict_is_strict mu Sm), (proj2 (contains_spec mu lam (partition_weak _ Hm) (partition_weak _ Hl) (partition_trimmed _ Hl)) Hle).
    set (core0 := map _ (zrange 0 (zlen mu))).
    assert (L0 : length core0 = length mu) by (unfold core0; rewrite map_length, length_zrange; unfold zlen; lia).
    assert (R0 : forall i, (i < length mu)%nat -> row core0 i = if (S i <? length mu)%nat then row mu (S i) + 1 else 0).
    { intros i Hi. unfold core0. rewrite map_zrange_row. replace (Z.of_nat i <? zlen mu) with true by (symmetry; apply Z.ltb_lt; unfold zlen; lia).
      replace (Z.of_nat i + 1) with (Z.of_nat (S i)) by lia. rewrite nthz_row.
      replace (Z.of_nat (S i) <? zlen mu) with (S i <? length mu)%nat; [reflexivity|]. unfold zlen.
      destruct (S i <? length mu)%nat eqn:E; symmetry; [apply Z.ltb_lt; apply Nat.ltb_lt in E; lia|apply Z.ltb_ge; apply Nat.ltb_ge in E; lia]. }
    assert (R0' : forall i, (i < length mu)%nat -> (S i < length mu)%nat /\ row core0 i = row mu (S i) + 1 /\ 0 < row mu (S i) < row mu i \/ (length mu <= S i)%nat /\ row core0 i = 0 /\ row mu (S i) = 0).
    { intros i Hi. rewrite R0 by assumption. destruct (S i <? length mu)%nat eqn:E; [apply Nat.ltb_lt in E|apply Nat.ltb_ge in E].
      - left. split; [assumption|]. split; [reflexivity|]. split; [apply partition_row_pos; assumption|apply Sm; assumption].
      - right. split; [assumption|]. split; [reflexivity|]. apply row_overflow. assumption. }
    pose proof (len_le lam mu Hl Hm Hle) as Hlen.
    destruct (core_max_ok core0 lam) as (core & Ec & Lc & Rc); [lia|intros i Hi; rewrite L0 in Hi; destruct (R0' i Hi) as [?|?]; lia|].
    rewrite Ec. cbn [rbind].
    destruct (concrete_strips ord ord_perm mu core true false (fun nu i => nthz core i <? nthz nu i)) as (r & Er & Hr).
    - lia.
    - intros i Hi. rewrite Rc by lia. destruct (R0' i ltac:(lia)) as [?|?]; lia.
    - intros i Hi. rewrite Rc by lia. specialize (Hle i). pose proof (partition_nonneg lam i Hl). pose proof (partition_nonneg mu i Hm). destruct (R0' i Hi) as [?|?]; lia.
    - discriminate.
    - exists r. split; [exact Er|]. revert Hr. apply strip_spec_iff.
      + intro k. unfold inK, between. split.
        * intros (P1 & P2 & P3 & _).
          assert (Hk : strict_partition k).
          { split; [assumption|]. intros i Hi. pose proof (P3 i ltac:(lia)) as A. pose proof (P3 (S i) ltac:(lia)) as B. rewrite Rc in A, B by lia.
            destruct (R0' i ltac:(lia)) as [?|?]; lia. }
          assert (H3 : forall i, row lam i <= row k i <= row mu i).
          { intro i. destruct (lt_dec i (length mu)) as [C|C].
            - pose proof (P3 i C) as A. rewrite Rc in A by lia. lia.
            - rewrite !row_overflow by lia. lia. }
          pose proof (strict_is_partition _ Hk) as Pk. split; [assumption|]. split.
          -- split; [apply (proj2 (dcell_incl true lam k (fun i => partition_nonneg _ i Hl) (fun i => partition_nonneg _ i Pk)))
             |apply (proj2 (dcell_incl true k mu (fun i => partition_nonneg _ i Pk) (fun i => partition_nonneg _ i Hm)))]; intro i; specialize (H3 i); lia.
          -- apply shifted_column_free_rows; [assumption|assumption|intro i; apply H3|]. intros i Hi. pose proof (P3 i ltac:(lia)) as A. rewrite Rc in A by lia.
             destruct (R0' i ltac:(lia)) as [?|?]; lia.
        * intros (Sk & [B1 B2] & B3). pose proof (strict_is_partition _ Sk) as Hk.
          pose proof (proj1 (dcell_incl true lam k (fun i => partition_nonneg _ i Hl) (fun i => partition_nonneg _ i Hk)) B1) as C1.
          pose proof (proj1 (dcell_incl true k mu (fun i => partition_nonneg _ i Hk) (fun i => partition_nonneg _ i Hm)) B2) as C2.
          pose proof (proj1 (shifted_column_free_rows mu k Sm Sk C2) B3) as C3. split; [apply Hk|]. split; [apply len_le; assumption|]. split; [|discriminate].
          intros i Hi. rewrite Rc by lia. specialize (C1 i). specialize (C2 i). specialize (C3 i). pose proof (partition_nonneg k i Hk). destruct (R0' i Hi) as [?|?]; lia.
      + intros k a b (P1 & _). apply (diff_cells true). intro i. apply row_nonneg, pos_nonneg. assumption.
      + intros k a b (P1 & P2 & P3 & _). unfold free_horizontal. split.
        * intros (i & H1 & H2 & -> & ->). rewrite !nthz_row, Z.ltb_lt in H2. rewrite Rc in H2 by lia. cbn [off].
          replace (Z.of_nat i + 1 + 1) with (Z.of_nat (S i) + 1) by lia. rewrite !shifted_cell_nat. pose proof (row_pos k i P1 H1). destruct (R0' i ltac:(lia)) as [?|?]; lia.
        * intros (H1 & H2 & H3 & H4). destruct (shifted_cell_pos_row _ _ _ H1) as [i ->]. replace (Z.of_nat i + 1 + 1) with (Z.of_nat (S i) + 1) in H4 by lia. rewrite shifted_cell_nat in *.
          exists i. assert (Hi : (i < length k)%nat).
          { destruct (lt_dec i (length k)) as [C|C]; [assumption|]. rewrite (row_overflow k) in H1 by lia. lia. }
          split; [assumption|]. split; [|split; [reflexivity|cbn [off]; lia]]. rewrite !nthz_row. apply Z.ltb_lt. rewrite Rc by lia.
          pose proof (partition_nonneg lam i Hl). pose proof (P3 i ltac:(lia)) as A. rewrite Rc in A by lia. destruct (R0' i ltac:(lia)) as [?|?]; lia.
  Qed.

  Lemma shifted_vertical_spec : forall mu lam, strict_partition mu -> strict_partition lam -> (forall i, row lam i <= row mu i) ->
    exists r, shifted_vertical_strips ord mu lam = Ok r /\
      strip_spec (fun k => strict_partition k /\ between shifted_cell lam k mu /\ row_free shifted_cell mu k) (in_skew shifted_cell mu)
                 (fun k => free_vertical shifted_cell lam k mu) r.
  Proof.
    intros mu lam Sm Sl Hle. pose proof (strict_is_partition _ Sm) as Hm. pose proof (strict_is_partition _ Sl) as Hl. unfold shifted_vertical_strips.
    rewrite (strict_is_strict mu Sm), (proj2 (contains_spec mu lam (partition_weak _ Hm) (partition_weak _ Hl) (partition_trimmed _ Hl)) Hle).
    set (core0 := map _ mu).
    assert (L0 : length core0 = length mu) by (unfold core0; rewrite map_length; reflexivity).
    assert (R0 : forall i, (i < length mu)%nat -> row core0 i = row mu i - 1).
    { intros i Hi. unfold core0, row. rewrite nth_indep with (d' := 0 - 1) by (rewrite map_length; assumption). rewrite (map_nth (fun a => a - 1)). reflexivity. }
    pose proof (len_le lam mu Hl Hm Hle) as Hlen.
    destruct (core_max_ok core0 lam) as (core & Ec & Lc & Rc); [lia|intros i Hi; rewrite L0 in Hi; rewrite R0 by assumption; apply (partition_row_pos mu i Hm) in Hi; lia|].
    rewrite Ec. cbn [rbind].
    assert (Sl' : forall i, (S i < length mu)%nat -> row lam (S i) < row lam i \/ row lam (S i) = 0).
    { intros i Hi. destruct (lt_dec (S i) (length lam)) as [C|C]; [left; apply Sl; assumption|right; apply row_overflow; lia]. }
    destruct (concrete_strips ord ord_perm mu core true true
               (fun nu i => (nthz core i <? nthz nu i) && ((i =? zlen nu - 1) || (1 + nthz nu (i + 1) <? nthz nu i)))) as (r & Er & Hr).
    - lia.
    - intros i Hi. rewrite Rc, R0 by lia. pose proof (proj2 Sm i Hi). apply (partition_row_pos mu (S i) Hm) in Hi. lia.
    - intros i Hi. rewrite Rc, R0 by lia. specialize (Hle i). apply (partition_row_pos mu i Hm) in Hi. pose proof (partition_nonneg lam i Hl). lia.
    - intros _ i Hi. rewrite !Rc, !R0 by lia. pose proof (proj2 Sm i Hi). pose proof (Hle (S i)). destruct (Sl' i Hi); apply (partition_row_pos mu (S i) Hm) in Hi; lia.
    - exists r. split; [exact Er|]. revert Hr. apply strip_spec_iff.
      + intro k. unfold inK, between. split.
        * intros (P1 & P2 & P3 & P4).
          assert (Hk : strict_partition k) by (split; [assumption|]; intros i Hi; apply P4; [reflexivity|lia]).
          assert (H3 : forall i, row lam i <= row k i <= row mu i /\ row mu i - 1 <= row k i).
          { intro i. destruct (lt_dec i (length mu)) as [C|C].
            - pose proof (P3 i C) as A. rewrite Rc, R0 in A by lia. lia.
            - rewrite !row_overflow by lia. lia. }
          pose proof (strict_is_partition _ Hk) as Pk. split; [assumption|]. split.
          -- split; [apply (proj2 (dcell_incl true lam k (fun i => partition_nonneg _ i Hl) (fun i => partition_nonneg _ i Pk)))
             |apply (proj2 (dcell_incl true k mu (fun i => partition_nonneg _ i Pk) (fun i => partition_nonneg _ i Hm)))]; intro i; specialize (H3 i); lia.
          -- apply shifted_row_free_rows; [assumption|assumption| |]; intro i; specialize (H3 i); lia.
        * intros (Sk & [B1 B2] & B3). pose proof (strict_is_partition _ Sk) as Hk.
          pose proof (proj1 (dcell_incl true lam k (fun i => partition_nonneg _ i Hl) (fun i => partition_nonneg _ i Hk)) B1) as C1.
          pose proof (proj1 (dcell_incl true k mu (fun i => partition_nonneg _ i Hk) (fun i => partition_nonneg _ i Hm)) B2) as C2.
          pose proof (proj1 (shifted_row_free_rows mu k Sm Sk C2) B3) as C3. split; [apply Hk|]. split; [apply len_le; assumption|]. split.
          -- intros i Hi. rewrite Rc, R0 by lia. specialize (C1 i). specialize (C2 i). specialize (C3 i). lia.
          -- intros _ i Hi. destruct (lt_dec (S i) (length k)) as [C|C]; [apply Sk; assumption|]. rewrite (row_overflow k (S i)) by lia.
             specialize (C3 i). pose proof (proj2 Sm i Hi). apply (partition_row_pos mu (S i) Hm) in Hi. lia.
      + intros k a b (P1 & _). apply (diff_cells true). intro i. apply row_nonneg, pos_nonneg. assumption.
      + intros k a b (P1 & P2 & P3 & P4).
        assert (E0 : forall i, (i < length k)%nat -> ((nthz core (Z.of_nat i) <? nthz k (Z.of_nat i)) && ((Z.of_nat i =? zlen k - 1) || (1 + nthz k (Z.of_nat i + 1) <? nthz k (Z.of_nat i))) = true
                   <-> row mu i = row k i /\ row lam i < row k i /\ (row k (S i) = 0 \/ row k (S i) + 1 < row k i))).
        { intros i Hi. replace (Z.of_nat i + 1) with (Z.of_nat (S i)) by lia. rewrite !nthz_row, andb_true_iff, orb_true_iff, !Z.ltb_lt, Z.eqb_eq. rewrite Rc, R0 by lia.
          specialize (P3 i ltac:(lia)). unfold zlen. destruct (Nat.eq_dec (S i) (length k)) as [C|C].
          - rewrite (row_overflow k (S i)) by lia. lia.
          - pose proof (row_pos k (S i) P1 ltac:(lia)). lia. }
        unfold free_vertical. split.
        * intros (i & H1 & H2 & -> & ->). apply (E0 i H1) in H2. cbn [off].
          replace (Z.of_nat i + 1 + 1) with (Z.of_nat (S i) + 1) by lia. rewrite !shifted_cell_nat. pose proof (row_pos k i P1 H1). lia.
        * intros (H1 & H2 & H3 & H4). destruct (shifted_cell_pos_row _ _ _ H1) as [i ->]. replace (Z.of_nat i + 1 + 1) with (Z.of_nat (S i) + 1) in H3 by lia. rewrite shifted_cell_nat in *.
          exists i. assert (Hi : (i < length k)%nat).
          { destruct (lt_dec i (length k)) as [C|C]; [assumption|]. rewrite (row_overflow k) in H1 by lia. lia. }
          specialize (P3 i ltac:(lia)). pose proof (partition_nonneg lam i Hl).
          assert (Ek : row mu i = row k i /\ b = row k i + Z.of_nat i) by lia.
          split; [assumption|]. split; [|split; [reflexivity|cbn [off]; lia]]. apply (E0 i Hi). split; [lia|]. split; [lia|].
          destruct (lt_dec (S i) (length k)) as [C|C]; [|left; apply row_overflow; lia]. right. pose proof (row_pos k (S i) P1 C).
          specialize (P4 eq_refl i ltac:(lia)). lia.
  Qed.
End Rest.
