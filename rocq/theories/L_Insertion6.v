(* Undoing a push; comparing consecutive insertions *)
From Coq Require Import List ZArith Bool Lia Sorted Permutation.
From Verif Require Import PyBase M_Partitions L_PartMore M_Tableaux S_Tableaux L_Tableaux M_Insertion L_Insertion1 L_Insertion2 L_Insertion3 L_Insertion4 L_Insertion5.
Import ListNotations.
Local Open Scope Z_scope.

Lemma NoDup_all_eq : forall (A : Type) (l : list A) d, NoDup l -> In d l -> (forall x, In x l -> x = d) -> l = [d].
Proof.
  intros A [|x [|y l]] d N H E; [destruct H| |].
  - rewrite (E x (or_introl eq_refl)). reflexivity.
  - exfalso. inversion N as [|? ? N1 N2]; subst. apply N1. left. rewrite (E x (or_introl eq_refl)), (E y (or_intror (or_introl eq_refl))). reflexivity.
Qed.
Lemma NoDup_filter_keys : forall (f : box * list Z -> bool) t, NoDup (map fst t) -> NoDup (map fst (filter f t)).
Proof.
  induction t as [|[c v] t IH]; intro N; [constructor|]. cbn [map fst] in N. inversion N as [|? ? N1 N2]; subst. cbn [filter]. destruct (f (c, v)); [|apply IH; assumption].
  cbn [map fst]. constructor; [|apply IH; assumption]. intro H. apply N1. apply in_map_iff in H. destruct H as (x & <- & Hx). apply filter_In in Hx. apply in_map. tauto.
Qed.
Lemma zset_id : forall l, NoDup l -> zset l = l.
Proof.
  assert (G : forall l s, NoDup (s ++ l) -> fold_left (fun s v => if existsb (Z.eqb v) s then s else s ++ [v]) l s = s ++ l).
  { induction l as [|a l IH]; intros s N; cbn [fold_left]; [rewrite app_nil_r; reflexivity|].
    replace (existsb (Z.eqb a) s) with false.
    - rewrite IH; [rewrite <- app_assoc; reflexivity|]. rewrite <- app_assoc. exact N.
    - symmetry. apply not_true_iff_false. rewrite existsb_In. intro H. apply NoDup_remove_2 in N. apply N. apply in_app_iff. left. exact H. }
  intros l N. unfold zset. rewrite G by exact N. reflexivity.
Qed.
Lemma NoDup_app_l : forall (A : Type) (a b : list A), NoDup (a ++ b) -> NoDup a.
Proof. induction a as [|x a IH]; intros b H; [constructor|]. cbn in H. inversion H as [|? ? H1 H2]; subst. constructor; [intro K; apply H1; apply in_app_iff; left; assumption|eapply IH; eassumption]. Qed.
Lemma QI_NoDup : forall L q k c l, QI L q k -> tlookup q c = Some l -> NoDup l.
Proof.
  intros L q k c l (_ & _ & _ & _ & P & _) E. pose proof (flat_tdel c q l E) as P2. apply (NoDup_app_l _ l (flat_map snd (tdel c q))).
  apply (Permutation_NoDup P2). apply (Permutation_NoDup (Permutation_sym P)). apply NoDup_zrange.
Qed.

Lemma tpop_record : forall L q k L' d (b : bool), QI L q k -> QI L' (record_put q d k) (k + 1) -> 0 < fst d -> 0 < snd d ->
  (if b then inside L (fst d) (snd d) = false else inside L (fst d) (snd d) = true) ->
  exists v, tpop (record_put q d k) = Ok (q, (fst d, snd d, v)) /\ record_value b v.
Proof.
  intros L q k L' d b Q Q' D1 D2 Hb. pose proof Q as (Hk & W & C & NE & P & _). pose proof Q' as (_ & W' & _).
  unfold tpop. rewrite (QI_last L' _ _ Q'). cbn [rbind].
  assert (LU : forall c, tlookup (record_put q d k) c = if box_eqb d c then Some (entries q d ++ [k + 1]) else tlookup q c) by (intro; apply tlookup_tput; apply W).
  assert (EF : tfind (record_put q d k) (k + 1) = [d]).
  { unfold tfind. apply NoDup_all_eq.
    - apply NoDup_filter_keys. apply sorted_NoDup. apply W'.
    - apply in_map_iff. exists (d, entries q d ++ [k + 1]). split; [reflexivity|]. apply filter_In. split.
      + apply tlookup_In. rewrite LU, box_eqb_refl. reflexivity.
      + cbn [snd]. apply existsb_In. apply in_app_iff. right. left. reflexivity.
    - intros x Hx. apply in_map_iff in Hx. destruct Hx as ([c l] & <- & H). apply filter_In in H. destruct H as [H1 H2]. cbn [snd fst] in *. apply existsb_In in H2.
      apply In_tlookup in H1; [|apply W']. rewrite LU in H1. destruct (box_eqb d c) eqn:E; [apply box_eqb_eq in E; symmetry; exact E|].
      pose proof (QI_entry L q k c l (k + 1) Q H1 H2). lia. }
  rewrite EF. destruct d as [i j]. cbn [fst snd] in *. unfold tget. rewrite LU, box_eqb_refl.
  assert (EL : tlookup (record_put q (i, j) k) (i, j) = Some (entries q (i, j) ++ [k + 1])) by (rewrite LU, box_eqb_refl; reflexivity).
  destruct b.
  - assert (E : tlookup q (i, j) = None). { specialize (C (i, j)). cbn [fst snd] in C. destruct (tlookup q (i, j)); [|reflexivity]. exfalso. assert (K : inside L i j = true) by (apply C; discriminate). congruence. }
    assert (E2 : entries q (i, j) = []) by (unfold entries; rewrite E; reflexivity). rewrite E2. cbn [app]. rewrite (tremove_None _ i j _ W' EL). cbn [rbind].
    exists (VInt (k + 1)). split; [|exists (k + 1); reflexivity]. f_equal. f_equal. apply wf_ext; [apply tdel_wf; exact W'|exact W|]. intro c. rewrite tlookup_tdel by apply W'. rewrite LU.
    destruct (box_eqb (i, j) c) eqn:Ec; [|reflexivity]. apply box_eqb_eq in Ec. subst c. symmetry. exact E.
  - assert (E : exists l, tlookup q (i, j) = Some l). { destruct (tlookup q (i, j)) as [l|] eqn:E; [exists l; reflexivity|]. exfalso. apply (proj2 (C (i, j)) Hb). exact E. }
    destruct E as [l E]. assert (E2 : entries q (i, j) = l) by (unfold entries; rewrite E; reflexivity). rewrite E2 in *. pose proof (NE _ _ E) as Hl.
    assert (EM : match l ++ [k + 1] with [x] => Some (VInt x) | _ => Some (VTup (l ++ [k + 1])) end = Some (VTup (l ++ [k + 1]))) by (destruct l as [|x [|y l']]; [contradiction|reflexivity|reflexivity]).
    assert (ND : NoDup (l ++ [k + 1])) by (apply (QI_NoDup L' _ _ _ _ Q' EL)).
    assert (EZ : zset (l ++ [k + 1]) = l ++ [k + 1]) by (apply zset_id; exact ND).
    match goal with |- exists v, match ?x with _ => _ end = _ /\ _ => replace x with (Some (VTup (l ++ [k + 1]))) by (symmetry; exact EM) end.
    cbv zeta. rewrite (tremove_None _ i j _ W' EL). cbn [rbind]. rewrite EZ.
    assert (EFi : filter (fun x => negb ((x =? k + 1) || (x =? - (k + 1)))) (l ++ [k + 1]) = l).
    { rewrite filter_app. cbn [filter]. rewrite Z.eqb_refl. cbn [orb negb]. rewrite app_nil_r.
      assert (G : forall l, (forall x, In x l -> 1 <= x <= k) -> filter (fun x => negb ((x =? k + 1) || (x =? - (k + 1)))) l = l).
      { clear. induction l as [|x l IH]; intro H; [reflexivity|]. cbn [filter]. pose proof (H x (or_introl eq_refl)).
        replace (x =? k + 1) with false by (symmetry; apply Z.eqb_neq; lia). replace (x =? - (k + 1)) with false by (symmetry; apply Z.eqb_neq; lia). cbn [orb negb]. rewrite IH by (intros; apply H; right; assumption). reflexivity. }
      apply G. intros x Hx. apply (QI_entry L q k (i, j) l x Q E Hx). }
    rewrite EFi. destruct (wf_lookup q (i, j) l W E) as [_ Il]. rewrite (sorted_id l Il).
    unfold tadd. replace ((0 <? i) && (0 <? j)) with true by (symmetry; apply andb_true_iff; rewrite !Z.ltb_lt; lia).
    rewrite tlookup_tdel by apply W'. rewrite box_eqb_refl. rewrite tinit_mput_eq; [|apply tdel_wf; exact W'|split; cbn [fst snd]; lia]. cbn [rbind tuplize].
    rewrite (sorted_id l Il). exists (VTup (l ++ [k + 1])). split.
    + f_equal. f_equal. apply wf_ext; [apply tput_wf; [apply tdel_wf; exact W'|split; cbn [fst snd]; lia|exact Il]|exact W|]. intro c.
      rewrite tlookup_tput by (apply tdel_wf; exact W'). rewrite tlookup_tdel by apply W'. rewrite LU. destruct (box_eqb (i, j) c) eqn:Ec; [|reflexivity]. apply box_eqb_eq in Ec. subst c. symmetry. exact E.
    + exists (l ++ [k + 1]). split; [reflexivity|]. rewrite EZ, app_length. destruct l; [contradiction|]. cbn. lia.
Qed.

Lemma Ins_Nonneg : forall L g i a L' g' c k, Ins L g i a L' g' c k -> 0 <= a -> Nonneg L g -> Nonneg L' g'.
Proof.
  intros L g i a L' g' c k H. induction H as [L g i a HI F C|L g i a HI F C|L g i a x L' g' c k HI B C H IH|L g i a x L' g' c k HI B C H IH]; intros Ha N.
  - intros r s Hr Hs. unfold updg. destruct ((r =? i) && (s =? L i + 1)) eqn:E; [assumption|]. unfold updr in Hs. destruct (Z.eqb_spec r i) as [->|Er]; [|apply N; assumption].
    cbn [andb] in E. apply Z.eqb_neq in E. apply N; [assumption|lia].
  - assumption.
  - destruct HI as (_ & _ & Hi & _). destruct B as (Hx & _). apply IH; [apply N; assumption|apply Nonneg_updg; assumption].
  - destruct HI as (_ & _ & Hi & _). destruct B as (Hx & _). apply IH; [apply N; assumption|assumption].
Qed.
Lemma Ins_row : forall L g i a L' g' c k, Ins L g i a L' g' c k -> i <= fst c /\ 1 <= L' (fst c).
Proof.
  intros L g i a L' g' c k H. split.
  - induction H; cbn [fst]; lia.
  - destruct k.
    + destruct (Ins_add_box _ _ _ _ _ _ _ _ H eq_refl) as (A & B & C & (D1 & D2 & D3 & D4)). lia.
    + destruct (Ins_stop_box _ _ _ _ _ _ _ _ H eq_refl) as (-> & A & B & C & D). assumption.
Qed.

(* one round of inverse_insertion *)
Lemma inverse_step : forall L g p q k a L' g' p' c b d, shape L -> Rep L g None p -> QI L q k -> Nonneg L g -> 0 <= a ->
  Ins L g 1 a L' g' c b -> recorded L' c b d -> Rep L' g' None p' -> QI L' (record_put q d k) (k + 1) ->
  forall fuel ans, inverse_insertion (S fuel) p' (record_put q d k) ans = inverse_insertion fuel p q (a :: ans).
Proof.
  intros L g p q k a L' g' p' c b d S R Q NN Ha HI Hd R' Q' fuel ans. cbn [inverse_insertion].
  pose proof Hd as [(D1 & D2 & D3 & D4) HD]. pose proof (Ins_good _ _ _ _ _ _ _ _ HI) as [S' I']. destruct (Ins_row _ _ _ _ _ _ _ _ HI) as [Rc1 Rc2].
  destruct p' as [|cell0 p0] eqn:Ep.
  { exfalso. pose proof (lookup_None_state L' g' [] (fst d) (snd d) R') as K. unfold base in K. cbn [fst snd tlookup] in K. replace (inside L' (fst d) (snd d)) with true in K by (symmetry; apply inside_iff; lia). discriminate. }
  rewrite <- Ep in *. clear Ep cell0 p0.
  destruct (tpop_record L q k L' d b Q Q') as (v & Ev & Hv); [lia|lia| |].
  { destruct b.
    - subst d. destruct (Ins_add_box _ _ _ _ _ _ _ _ HI eq_refl) as (A & B & _). apply inside_false. lia.
    - destruct (Ins_stop_box _ _ _ _ _ _ _ _ HI eq_refl) as (-> & _). apply inside_iff. lia. }
  rewrite Ev. cbn [rbind fst snd]. destruct (hmake_None L' g' p' R') as (s' & Es & Hs' & _). rewrite Es. cbn [rbind].
  destruct (undo L g 1 a L' g' c b HI Ha NN s' d v Hs' Hd Hv) as (se & bb & si & E1 & Hsi & _ & Hr). rewrite E1. cbn [rbind fst].
  destruct (max_row_Rep L' g' p' S' R') as [M0 M1]. apply (proj1 (M1 (fst c) ltac:(lia))) in Rc2.
  replace (Z.to_nat (max_row p' None) + 3)%nat with (Z.to_nat (fst c - 1) + Datatypes.S (Z.to_nat (max_row p' None) + 2 - Z.to_nat (fst c - 1)))%nat by lia.
  rewrite Hr. cbn [rewind]. destruct Hsi as (Rsi & Ho & Hc). unfold is_initial. rewrite Ho, Z.eqb_refl. cbn [rbind]. unfold hpop. rewrite Ho.
  destruct (Rep_remove_outer L g (htab si) 1 (L 1 + 2) a Rsi (outer_outside L 1 S)) as (u & Eu & Ru). rewrite Eu. cbn [rbind].
  rewrite (geti_lookup (htab si) 1 (L 1 + 2) a) by (apply (Rep_outer L g 1); exact Rsi). cbn [rbind fst snd]. rewrite (Rep_unique L g None u p Ru R). reflexivity.
Qed.

(* rows above the current one are not changed *)
Lemma Ins_above : forall L g i a L' g' c k, Ins L g i a L' g' c k -> forall r, r < i -> L' r = L r /\ forall s, g' r s = g r s.
Proof.
  intros L g i a L' g' c k H. induction H as [L g i a HI F C|L g i a HI F C|L g i a x L' g' c k HI B C H IH|L g i a x L' g' c k HI B C H IH]; intros r Hr.
  - split; [apply updr_other; lia|]. intro s. apply updg_other. lia.
  - split; reflexivity.
  - destruct (IH r ltac:(lia)) as [A D]. split; [exact A|]. intro s. rewrite D. apply updg_other. lia.
  - apply IH. lia.
Qed.
Lemma Ins_len_above : forall L g i a L' g' c k, Ins L g i a L' g' c k -> 2 <= fst c -> L (fst c) + 1 <= L (fst c - 1).
Proof.
  intros L g i a L' g' c k H. induction H as [L g i a HI F C|L g i a HI F C|L g i a x L' g' c k HI B C H IH|L g i a x L' g' c k HI B C H IH]; intro Hc; cbn [fst] in *; try (apply IH; assumption).
  - destruct (full_above L g i a HI F) as [E|E]; lia.
  - destruct (full_above L g i a HI F) as [E|E]; lia.
Qed.
Lemma bump_le : forall L g i a x y, bump_col L g i a x -> a < g i y -> 1 <= y -> x <= y.
Proof. intros L g i a x y (A & B & C) H Hy. destruct (Z_le_gt_dec x y); [assumption|]. specialize (C y ltac:(lia)). lia. Qed.

(* Pieri: a letter followed by a weakly larger one *)
Definition weakly_right (d d' : box) : Prop := snd d < snd d' \/ d = d'.
Lemma corner_unique : forall L d d', shape L -> corner L d -> corner L d' -> snd d = snd d' -> d = d'.
Proof.
  intros L [r c] [r' c'] S (A1 & A2 & A3 & A4) (B1 & B2 & B3 & B4) E. cbn [fst snd] in *. assert (r = r'); [|congruence].
  destruct (Z_lt_ge_dec r r') as [H|H]; [pose proof (shape_mono L (r + 1) r' S); lia|]. destruct (Z_lt_ge_dec r' r) as [H2|H2]; [pose proof (shape_mono L (r' + 1) r S); lia|lia].
Qed.
(* the second insertion ends in row i' *)
Lemma weakly_right_end : forall L g i a L' g' c (k : bool) d L'' c' (k' : bool) d', Ins L g i a L' g' c k -> recorded L' c k d -> shape L'' ->
  1 <= fst c' -> fst c' <= fst c -> (fst c' = fst c \/ fst c' < fst c) -> snd c' = L' (fst c') + 1 -> (if k' then forall r, L'' r = updr L' (fst c') (snd c') r else L'' = L') ->
  recorded L'' c' k' d' -> weakly_right d d'.
Proof.
  intros L g i a L' g' c k d L'' c' k' d' H [Hd1 Hd2] S'' H1 H2 H3 H4 H5 [Hd1' Hd2'].
  pose proof (Ins_good _ _ _ _ _ _ _ _ H) as [S' _].
  assert (CL : snd d <= L' (fst c) /\ (fst c' < fst c -> snd d <= L' (fst c'))).
  { assert (A : snd d <= L' (fst c)).
    { destruct k.
      - subst d. destruct Hd1 as (_ & _ & E & _). lia.
      - destruct (Ins_stop_box _ _ _ _ _ _ _ _ H eq_refl) as (-> & A & B & _). lia. }
    split; [exact A|]. intro K. pose proof (shape_mono L' (fst c') (fst c) S'). lia. }
  assert (CLe : snd d <= L' (fst c')) by (destruct H3 as [H3|H3]; [rewrite H3; apply CL|apply CL; assumption]).
  destruct k'.
  - subst d'. left. lia.
  - subst L''. destruct Hd2' as [E _]. destruct (Z_lt_ge_dec (snd d) (snd d')); [left; assumption|right]. apply (corner_unique L'); [exact S'|exact Hd1|exact Hd1'|lia].
Qed.
Lemma Ins_inv : forall L g i a L' g' c k, Ins L g i a L' g' c k -> Inv L g i a /\
  (full_row L g i a /\ fst c = i \/
   exists x g1, bump_col L g i a x /\ (forall r s, r <> i \/ s <> x -> g1 r s = g r s) /\ Ins L g1 (i + 1) (g i x) L' g' c k).
Proof.
  intros L g i a L' g' c k H. destruct H as [L g i a HI F C|L g i a HI F C|L g i a x L' g' c k HI B C H|L g i a x L' g' c k HI B C H]; (split; [exact HI|]).
  - left. split; [exact F|reflexivity].
  - left. split; [exact F|reflexivity].
  - right. exists x, (updg g i x a). split; [exact B|]. split; [intros r s Hrs; apply updg_other; exact Hrs|exact H].
  - right. exists x, g. split; [exact B|]. split; [reflexivity|exact H].
Qed.

(* in a common row, the second bumping column is weakly to the right and its value weakly larger *)
Lemma pieri : forall L g i a L' g' c k, Ins L g i a L' g' c k -> forall d, recorded L' c k d ->
  forall g2 a' L'' g'' c' k' d', a <= a' -> (forall r s, i <= r -> g2 r s = g' r s) -> Ins L' g2 i a' L'' g'' c' k' -> recorded L'' c' k' d' -> weakly_right d d'.
Proof.
  assert (END : forall L g i a L' g' c k d g2 a' L'' g'' c' k' d', Ins L g i a L' g' c k -> recorded L' c k d -> Ins L' g2 i a' L'' g'' c' k' -> recorded L'' c' k' d' -> fst c' = i -> weakly_right d d').
  { intros L g i a L' g' c k d g2 a' L'' g'' c' k' d' H Hd H2 Hd' Ei. destruct (Ins_row _ _ _ _ _ _ _ _ H) as [Rc _].
    pose proof (Ins_good _ _ _ _ _ _ _ _ H2) as [S'' _]. apply (weakly_right_end L g i a L' g' c k d L'' c' k' d' H Hd S''); try lia; [| | |exact Hd'];
    destruct k'; try apply (Ins_add_box _ _ _ _ _ _ _ _ H2 eq_refl); apply (Ins_stop_box _ _ _ _ _ _ _ _ H2 eq_refl). }
  intros L g i a L' g' c k H.
  induction H as [L g i a HI F C|L g i a HI F C|L g i a x L' g' c k HI B C H IH|L g i a x L' g' c k HI B C H IH]; intros d Hd g2 a' L'' g'' c' k' d' Ha Hg2 H2 Hd'.
  - apply (END L g i a _ _ _ _ d g2 a' L'' g'' c' k' d' (ins_add L g i a HI F C) Hd H2 Hd'). destruct (Ins_inv _ _ _ _ _ _ _ _ H2) as [_ [[F1 EC]|(x1 & g3 & B1 & G3 & H3)]]; [exact EC|]; exfalso;
      destruct B1 as (Bx & B1 & _); rewrite updr_same in Bx; rewrite Hg2 in B1 by lia; (destruct (Z.eq_dec x1 (L i + 1)) as [->|E]; [rewrite updg_same in B1; lia|]);
      rewrite updg_other in B1 by lia; specialize (F x1 ltac:(lia)); lia.
  - apply (END L g i a _ _ _ _ d g2 a' L'' g'' c' k' d' (ins_stop L g i a HI F C) Hd H2 Hd'). destruct (Ins_inv _ _ _ _ _ _ _ _ H2) as [_ [[F1 EC]|(x1 & g3 & B1 & G3 & H3)]]; [exact EC|]; exfalso;
      destruct B1 as (Bx & B1 & _); rewrite Hg2 in B1 by lia; specialize (F x1 ltac:(lia)); lia.
  - assert (STEP : forall x1, bump_col L' g2 i a' x1 -> g i x <= g2 i x1).
    { intros x1 (Bx1 & B1 & B1'). destruct B as (Bx & B2 & B3). pose proof HI as (S & I & Hi & _).
      destruct (Ins_above _ _ _ _ _ _ _ _ H i ltac:(lia)) as [EL EG]. rewrite EL in Bx1. rewrite Hg2 in B1 |- * by lia. rewrite EG in B1 |- *.
      destruct (Z.eq_dec x1 x) as [->|Ex]; [rewrite updg_same in B1; lia|]. rewrite updg_other in B1 |- * by lia.
      assert (x < x1). { destruct (Z_lt_ge_dec x1 x); [|lia]. specialize (B3 x1 ltac:(lia)). lia. }
      pose proof (row_mono L g i x x1 I Hi ltac:(lia) ltac:(lia) ltac:(lia)). lia. }
    pose proof (ins_bump L g i a x L' g' c k HI B C H) as HIns.
    destruct (Ins_inv _ _ _ _ _ _ _ _ H2) as [_ [[F1 EC]|(x1 & g3 & B1 & G3 & H3)]].
    + apply (END L g i a _ _ _ _ d g2 a' _ _ _ _ d' HIns Hd H2 Hd' EC).
    + refine (IH d Hd g3 (g2 i x1) L'' g'' c' k' d' (STEP x1 B1) _ H3 Hd'). intros r s Hr. rewrite G3 by lia. apply Hg2. lia.
  - assert (STEP : forall x1, bump_col L' g2 i a' x1 -> g i x <= g2 i x1).
    { intros x1 (Bx1 & B1 & B1'). destruct B as (Bx & B2 & B3). pose proof HI as (S & I & Hi & _).
      destruct (Ins_above _ _ _ _ _ _ _ _ H i ltac:(lia)) as [EL EG]. rewrite EL in Bx1. rewrite Hg2 in B1 |- * by lia. rewrite EG in B1 |- *.
      destruct (Z.eq_dec x1 x) as [->|Ex]; [lia|].
      assert (x < x1). { destruct (Z_lt_ge_dec x1 x); [|lia]. specialize (B3 x1 ltac:(lia)). lia. }
      pose proof (row_mono L g i x x1 I Hi ltac:(lia) ltac:(lia) ltac:(lia)). lia. }
    pose proof (ins_pass L g i a x L' g' c k HI B C H) as HIns.
    destruct (Ins_inv _ _ _ _ _ _ _ _ H2) as [_ [[F1 EC]|(x1 & g3 & B1 & G3 & H3)]].
    + apply (END L g i a _ _ _ _ d g2 a' _ _ _ _ d' HIns Hd H2 Hd' EC).
    + refine (IH d Hd g3 (g2 i x1) L'' g'' c' k' d' (STEP x1 B1) _ H3 Hd'). intros r s Hr. rewrite G3 by lia. apply Hg2. lia.
Qed.

(* dual Pieri: a letter followed by a smaller one *)
Lemma reach : forall L g i a L' g' c k, Ins L g i a L' g' c k -> forall r y, i <= r -> 1 <= y <= L r -> a < g i y -> r < fst c.
Proof.
  intros L g i a L' g' c k H.
  induction H as [L g i a HI F C|L g i a HI F C|L g i a x L' g' c k HI B C H IH|L g i a x L' g' c k HI B C H IH]; intros r y Hr Hy Hg;
    pose proof HI as (S & I & Hi & _); pose proof (shape_mono L i r S Hi Hr) as HL.
  - specialize (F y ltac:(lia)). lia.
  - specialize (F y ltac:(lia)). lia.
  - pose proof (bump_le L g i a x y B Hg ltac:(lia)). destruct B as (Bx & B1 & B2). destruct (Ins_row _ _ _ _ _ _ _ _ H) as [Hc _]. destruct (Z.eq_dec r i) as [->|E]; [lia|].
    pose proof (shape_mono L (i + 1) r S). apply (IH r x); [lia|lia|]. rewrite updg_other by lia. apply I; lia.
  - pose proof (bump_le L g i a x y B Hg ltac:(lia)). destruct B as (Bx & B1 & B2). destruct (Ins_row _ _ _ _ _ _ _ _ H) as [Hc _]. destruct (Z.eq_dec r i) as [->|E]; [lia|].
    pose proof (shape_mono L (i + 1) r S). apply (IH r x); [lia|lia|]. apply I; lia.
Qed.
Lemma recorded_row : forall L' c k d, recorded L' c k d -> fst c <= fst d.
Proof. intros L' c k d [_ H]. destruct k; [subst; lia|lia]. Qed.

Lemma dual_pieri : forall L g i a L' g' c k, Ins L g i a L' g' c k -> forall d, recorded L' c k d ->
  forall g2 a' L'' g'' c' k' d', a' < a -> (forall r s, i <= r -> g2 r s = g' r s) -> (forall s, 2 <= i -> 1 <= s <= L (i - 1) -> g (i - 1) s = a -> g2 (i - 1) s = a) ->
  Ins L' g2 i a' L'' g'' c' k' -> recorded L'' c' k' d' -> fst d < fst d'.
Proof.
  intros L g i a L' g' c k H.
  induction H as [L g i a HI F C|L g i a HI F C|L g i a x L' g' c k HI B C H IH|L g i a x L' g' c k HI B C H IH]; intros d Hd g2 a' L'' g'' c' k' d' Ha Hg2 Hup H2 Hd';
    pose proof HI as (S & I & Hi & _); pose proof (recorded_row _ _ _ _ Hd') as RR.
  - destruct Hd as [_ ->]. cbn [fst]. pose proof (proj1 S i Hi). apply Z.lt_le_trans with (fst c'); [|exact RR].
    apply (reach _ _ _ _ _ _ _ _ H2 i (L i + 1)); [lia|rewrite updr_same; lia|]. rewrite Hg2 by lia. rewrite updg_same. exact Ha.
  - destruct Hd as [(D1 & D2 & D3 & D4) [E1 E2]]. cbn [fst snd] in *. apply Z.lt_le_trans with (fst c'); [|exact RR].
    pose proof (stop_value L g i a HI F C) as (V1 & V2 & V3).
    destruct (Z_lt_ge_dec a' (g i (L i))) as [Hlt|Hge].
    + apply (reach _ _ _ _ _ _ _ _ H2 (fst d) (L i)); [lia|lia|]. rewrite Hg2 by lia. exact Hlt.
    + exfalso. destruct (full_above L g i a HI F) as [FA|(Hi2 & FA1 & FA2 & FA3)]; [specialize (V3 FA); lia|].
      destruct (Z.eqb_spec i 1) as [Ei|Ei]; [lia|]. assert (EA : g (i - 1) (L i + 1) = a) by lia. specialize (Hup (L i + 1) Hi2 ltac:(lia) EA).
      assert (FF : full_row L g2 i a'). { intros y Hy. rewrite Hg2 by lia. destruct (Z.eq_dec y (L i)) as [->|]; [lia|]. pose proof (row_mono L g i y (L i) I Hi ltac:(lia) ltac:(lia) ltac:(lia)). lia. }
      assert (HI2 : Inv L g2 i a') by (apply (Ins_inv _ _ _ _ _ _ _ _ H2)). destruct (full_above L g2 i a' HI2 FF) as [K|(_ & _ & K & _)]; lia.
  - destruct (Ins_above _ _ _ _ _ _ _ _ H i ltac:(lia)) as [EL EG].
    assert (NF : ~ full_row L' g2 i a'). { intro K. specialize (K x). destruct B as (Bx & _). rewrite Hg2, EG, updg_same in K by lia. lia. }
    assert (STEP : forall x1, bump_col L' g2 i a' x1 -> g2 i x1 < g i x).
    { intros x1 B1. assert (X : x1 <= x). { destruct B as (Bx & _). apply (bump_le L' g2 i a'); [exact B1| |lia]. rewrite Hg2, EG, updg_same by lia. exact Ha. }
      destruct B1 as (Bx1 & B1 & B1'). destruct B as (Bx & B2 & B3). rewrite Hg2, EG by lia. destruct (Z.eq_dec x1 x) as [->|Ex]; [rewrite updg_same; lia|]. rewrite updg_other by lia. apply (row_mono L g i x1 x I Hi); lia. }
    destruct (Ins_inv _ _ _ _ _ _ _ _ H2) as [_ [[F1 EC]|(x1 & g3 & B1 & G3 & H3)]]; [contradiction|].
    refine (IH d Hd g3 (g2 i x1) L'' g'' c' k' d' (STEP x1 B1) _ _ H3 Hd'); [intros r s Hr; rewrite G3 by lia; apply Hg2; lia|].
    replace (i + 1 - 1) with i by lia. intros s _ Hs E. exfalso. destruct B as (Bx & B2 & B3). destruct (Z.eq_dec s x) as [->|Es]; [rewrite updg_same in E; lia|]. rewrite updg_other in E by lia.
    destruct (Z_lt_ge_dec s x); [pose proof (row_mono L g i s x I Hi ltac:(lia) ltac:(lia) ltac:(lia)); lia|pose proof (row_mono L g i x s I Hi ltac:(lia) ltac:(lia) ltac:(lia)); lia].
  - destruct (Ins_above _ _ _ _ _ _ _ _ H i ltac:(lia)) as [EL EG]. pose proof (pass_value L g i a x HI B C) as (V1 & V2 & V3). pose proof B as (Bx & B2 & B3).
    assert (NF : ~ full_row L' g2 i a'). { intro K. specialize (K x). rewrite Hg2, EG in K by lia. lia. }
    assert (HI2 : Inv L' g2 i a') by (apply (Ins_inv _ _ _ _ _ _ _ _ H2)).
    assert (STEP : forall x1, bump_col L' g2 i a' x1 -> x1 < x /\ g2 i x1 < g i x).
    { intros x1 B1. assert (X : x1 <= x). { apply (bump_le L' g2 i a'); [exact B1| |lia]. rewrite Hg2, EG by lia. lia. }
      assert (XX : x1 < x).
      { destruct (Z.eq_dec x1 x) as [->|]; [|lia]. exfalso. pose proof (bump_below_above L' g2 i a' x HI2 B1) as BA. destruct B1 as (Bx1 & B1 & B1').
        specialize (B1' (x - 1) ltac:(lia)). rewrite Hg2, EG in B1' by lia. destruct (Z.eqb_spec i 1) as [Ei|Ei]; [specialize (V3 Ei); lia|].
        destruct BA as [BA|(Hi2 & BA1 & BA2)]; [lia|]. assert (EA : g (i - 1) x = a) by lia. rewrite (Hup x Hi2) in BA2; [lia| |exact EA].
        destruct (bump_below_above L g i a x HI B) as [K|(_ & K & _)]; lia. }
      split; [exact XX|]. destruct B1 as (Bx1 & _). rewrite Hg2, EG by lia. apply (row_mono L g i x1 x I Hi); lia. }
    destruct (Ins_inv _ _ _ _ _ _ _ _ H2) as [_ [[F1 EC]|(x1 & g3 & B1 & G3 & H3)]]; [contradiction|]. destruct (STEP x1 B1) as [X1 X2].
    refine (IH d Hd g3 (g2 i x1) L'' g'' c' k' d' X2 _ _ H3 Hd'); [intros r s Hr; rewrite G3 by lia; apply Hg2; lia|].
      replace (i + 1 - 1) with i by lia. intros s _ Hs E. assert (s = x).
      { destruct (Z_lt_ge_dec s x); [pose proof (row_mono L g i s x I Hi ltac:(lia) ltac:(lia) ltac:(lia)); lia|]. destruct (Z.eq_dec s x); [assumption|]. pose proof (row_mono L g i x s I Hi ltac:(lia) ltac:(lia) ltac:(lia)); lia. }
      subst s. rewrite G3 by lia. rewrite Hg2, EG by lia. reflexivity.
Qed.
