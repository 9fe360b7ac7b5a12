(* Standardising a recording tableau *)
From Coq Require Import List ZArith Bool Lia Sorted Permutation.
From Verif Require Import PyBase M_Partitions L_PartMore M_Tableaux S_Tableaux L_Tableaux M_Insertion L_Insertion1 L_Insertion2 L_Insertion3 L_Insertion4 L_Insertion5 L_Insertion6.
Import ListNotations.
Local Open Scope Z_scope.

(* the entries of a tableau with their cells *)
Definition tag (t : tab) : list (Z * box) := flat_map (fun cv => map (fun v => (v, fst cv)) (snd cv)) t.
Lemma tag_tdel : forall c t l, tlookup t c = Some l -> Permutation (tag t) (map (fun v => (v, c)) l ++ tag (tdel c t)).
Proof.
  induction t as [|[d w] t IH]; intros l H; [discriminate|]. cbn [tlookup tdel] in *. rewrite box_eqb_sym. unfold tag. cbn [flat_map fst snd]. destruct (box_eqb d c) eqn:E.
  - apply box_eqb_eq in E. subst d. injection H as ->. apply Permutation_refl.
  - cbn [flat_map fst snd]. eapply Permutation_trans; [apply Permutation_app_head; apply IH; exact H|]. rewrite !app_assoc. apply Permutation_app_tail. apply Permutation_app_comm.
Qed.
Lemma tag_tput : forall c v t, StronglySorted before (map fst t) -> Permutation (tag (tput c v t)) (map (fun x => (x, c)) v ++ tag (tdel c t)).
Proof.
  intros c v t H. pose proof (tput_sorted c v t H) as H2. assert (E : tlookup (tput c v t) c = Some v) by (rewrite tlookup_tput by assumption; rewrite box_eqb_refl; reflexivity).
  eapply Permutation_trans; [apply (tag_tdel c _ v E)|]. apply Permutation_app_head.
  replace (tdel c (tput c v t)) with (tdel c t); [apply Permutation_refl|].
  apply tab_ext; [apply tdel_sorted; assumption|apply tdel_sorted; assumption|]. intro d. rewrite !tlookup_tdel, tlookup_tput by assumption. destruct (box_eqb c d); reflexivity.
Qed.
Lemma tag_record_put : forall q d k, well_formed q -> Permutation (tag (record_put q d k)) (tag q ++ [(k + 1, d)]).
Proof.
  intros q d k W. unfold record_put. eapply Permutation_trans; [apply tag_tput; apply W|]. rewrite map_app. cbn [map]. rewrite <- app_assoc.
  eapply Permutation_trans; [apply Permutation_app_head; apply Permutation_app_comm|]. rewrite app_assoc. apply Permutation_app_tail. apply Permutation_sym. unfold entries.
  destruct (tlookup q d) as [l|] eqn:E; [apply tag_tdel; exact E|]. rewrite tdel_absent by assumption. apply Permutation_refl.
Qed.
Lemma tag_In : forall t v c, StronglySorted before (map fst t) -> (In (v, c) (tag t) <-> exists l, tlookup t c = Some l /\ In v l).
Proof.
  intros t v c S. unfold tag. rewrite in_flat_map. split.
  - intros ([d l] & H & H2). apply in_map_iff in H2. destruct H2 as (x & E & Hx). cbn [fst snd] in *. injection E as -> ->. exists l. split; [apply In_tlookup; assumption|assumption].
  - intros (l & E & Hv). exists (c, l). split; [apply tlookup_In; assumption|]. apply in_map_iff. exists v. split; [reflexivity|assumption].
Qed.
Definition at_cell (c : box) (X : list (Z * box)) : list Z := map fst (filter (fun xc => box_eqb (snd xc) c) X).
Lemma at_cell_perm : forall c X Y, Permutation X Y -> Permutation (at_cell c X) (at_cell c Y).
Proof.
  intros c X Y H. unfold at_cell. apply Permutation_map. induction H as [|x l m H IH|x y l|l m n H1 IH1 H2 IH2]; cbn [filter].
  - constructor.
  - destruct (box_eqb (snd x) c); [constructor|]; exact IH.
  - destruct (box_eqb (snd y) c), (box_eqb (snd x) c); try apply Permutation_refl. apply perm_swap.
  - eapply Permutation_trans; eassumption.
Qed.
Lemma at_cell_app : forall c X Y, at_cell c (X ++ Y) = at_cell c X ++ at_cell c Y.
Proof. intros. unfold at_cell. rewrite filter_app, map_app. reflexivity. Qed.
Lemma at_cell_same : forall c l, at_cell c (map (fun v => (v, c)) l) = l.
Proof. induction l as [|v l IH]; [reflexivity|]. unfold at_cell in *. cbn [map filter snd fst]. rewrite box_eqb_refl. cbn [map fst]. rewrite IH. reflexivity. Qed.
Lemma at_cell_other : forall c d l, d <> c -> at_cell c (map (fun v => (v, d)) l) = [].
Proof. induction l as [|v l IH]; intro H; [reflexivity|]. unfold at_cell in *. cbn [map filter snd fst]. replace (box_eqb d c) with false by (symmetry; apply box_eqb_neq; exact H). apply IH. exact H. Qed.
Lemma at_cell_tag : forall t c, StronglySorted before (map fst t) -> at_cell c (tag t) = entries t c.
Proof.
  induction t as [|[d l] t IH]; intros c S; [reflexivity|]. cbn [map fst] in S. pose proof (sorted_head_notin _ _ S) as N. inversion S as [|? ? S1 S2]; subst.
  unfold tag. cbn [flat_map fst snd]. rewrite at_cell_app. fold (tag t). rewrite IH by assumption. unfold entries. cbn [tlookup]. destruct (box_eqb d c) eqn:E.
  - apply box_eqb_eq in E. subst d. rewrite at_cell_same. apply tlookup_None in N. rewrite N. apply app_nil_r.
  - apply box_eqb_neq in E. rewrite at_cell_other by assumption. reflexivity.
Qed.

(* building a tableau entry by entry *)
Lemma tadds : forall X ans, well_formed ans -> (forall x c, In (x, c) X -> positive c) ->
  exists u, rfold (fun ans (xc : Z * box) => tadd ans (fst (snd xc)) (snd (snd xc)) (VInt (fst xc))) X ans = Ok u /\ well_formed u /\
    (forall c, Permutation (entries u c) (entries ans c ++ at_cell c X)) /\
    (forall c, tlookup u c = None <-> tlookup ans c = None /\ ~ In c (map snd X)).
Proof.
  induction X as [|[x [i j]] X IH]; intros ans W P.
  - exists ans. split; [reflexivity|]. split; [assumption|]. split; [intro c; cbn; rewrite app_nil_r; apply Permutation_refl|]. intro c. cbn. tauto.
  - cbn [rfold fst snd]. destruct (P x (i, j) (or_introl eq_refl)) as [Pi Pj]. cbn [fst snd] in *. rewrite tadd_int by assumption. cbn [rbind].
    set (v := sinsert x (entries ans (i, j))). assert (Iv : increasing v). { apply sinsert_increasing. unfold entries. destruct (tlookup ans (i, j)) eqn:E; [eapply wf_lookup; eassumption|constructor]. }
    destruct (IH (tput (i, j) v ans)) as (u & E & Wu & Pu & Nu).
    + apply tput_wf; [assumption|split; assumption|assumption].
    + intros y c H. apply (P y). right. exact H.
    + exists u. split; [exact E|]. split; [exact Wu|]. split.
      * intro c. eapply Permutation_trans; [apply Pu|]. unfold entries at 1. rewrite tlookup_tput by apply W. unfold at_cell. cbn [filter snd]. destruct (box_eqb (i, j) c) eqn:Ec.
        -- apply box_eqb_eq in Ec. subst c. cbn [map fst]. fold (at_cell (i, j) X). eapply Permutation_trans; [apply Permutation_app_tail; apply Permutation_sym, sinsert_perm|].
           cbn [app]. apply Permutation_middle.
        -- apply Permutation_refl.
      * intro c. rewrite Nu. rewrite tlookup_tput by apply W. cbn [map snd In]. destruct (box_eqb (i, j) c) eqn:Ec.
        -- apply box_eqb_eq in Ec. subst c. split; [intros [K _]; discriminate|]. intros [_ K]. exfalso. apply K. left. reflexivity.
        -- apply box_eqb_neq in Ec. tauto.
Qed.
Lemma rebuild : forall q X, well_formed q -> (forall c l, tlookup q c = Some l -> l <> []) -> Permutation (tag q) X ->
  rfold (fun ans (xc : Z * box) => tadd ans (fst (snd xc)) (snd (snd xc)) (VInt (fst xc))) X [] = Ok q.
Proof.
  intros q X W NE P. destruct (tadds X [] wf_nil) as (u & E & Wu & Pu & Nu).
  { intros x c H. apply (Permutation_in _ (Permutation_sym P)) in H. apply tag_In in H; [|apply W]. destruct H as (l & H & _). apply (wf_lookup q c l W H). }
  etransitivity; [exact E|]. f_equal. apply wf_ext; [assumption|assumption|]. intro c.
  assert (EE : entries u c = entries q c).
  { apply increasing_perm_eq.
    - unfold entries. destruct (tlookup u c) eqn:K; [eapply (wf_lookup u c); eassumption|constructor].
    - unfold entries. destruct (tlookup q c) eqn:K; [eapply (wf_lookup q c); eassumption|constructor].
    - eapply Permutation_trans; [apply Pu|]. cbn [entries tlookup app]. rewrite <- (at_cell_tag q c) by apply W. apply at_cell_perm. apply Permutation_sym. exact P. }
  assert (NN : tlookup u c = None <-> tlookup q c = None).
  { rewrite Nu. cbn [tlookup]. split.
    - intros [_ K]. destruct (tlookup q c) as [l|] eqn:E2; [|reflexivity]. exfalso. apply K. destruct l as [|v l]; [exfalso; eapply NE; [exact E2|reflexivity]|].
      apply in_map_iff. exists (v, c). split; [reflexivity|]. apply (Permutation_in _ P). apply tag_In; [apply W|]. exists (v :: l). split; [assumption|left; reflexivity].
    - intro K. split; [reflexivity|]. intro H. apply in_map_iff in H. destruct H as ([v d] & Ed & H). cbn [snd] in Ed. subst d. apply (Permutation_in _ (Permutation_sym P)) in H. apply tag_In in H; [|apply W]. destruct H as (l & H & _). congruence. }
  unfold entries in EE. destruct (tlookup u c) eqn:E1, (tlookup q c) eqn:E2; try reflexivity; try (rewrite EE; reflexivity).
  - exfalso. assert (K : Some l = None) by (apply NN; reflexivity). discriminate.
  - exfalso. assert (K : Some l = None) by (apply NN; reflexivity). discriminate.
Qed.

(* stable sorting *)
Section Sorting.
  Context {A : Type} (leb : A -> A -> bool).
  Definition below (x y : A) : Prop := leb x y = true /\ (leb y x = true -> x = y).
  Lemma ins_by_place : forall x m1 m2, StronglySorted below (m1 ++ x :: m2) -> ins_by leb x (m1 ++ m2) = m1 ++ x :: m2.
  Proof.
    induction m1 as [|y m1 IH]; intros m2 H.
    - cbn [app] in *. destruct m2 as [|z m2]; [reflexivity|]. cbn [ins_by]. inversion H as [|? ? H1 H2]; subst. inversion H2 as [|? ? [K _] _]; subst. rewrite K. reflexivity.
    - cbn [app] in *. cbn [ins_by]. inversion H as [|? ? H1 H2]; subst. rewrite Forall_forall in H2. assert (Byx : below y x) by (apply H2; apply in_app_iff; right; left; reflexivity).
      destruct (leb x y) eqn:E; [|rewrite IH by assumption; reflexivity]. destruct Byx as [B1 B2]. specialize (B2 E). subst y.
      assert (AL : forall z, In z m1 -> z = x).
      { intros z Hz. destruct (H2 z) as [Z1 Z2]; [apply in_app_iff; left; assumption|].
        assert (Z3 : below z x). { clear -H1 Hz. induction m1 as [|a m1 IH]; [destruct Hz|]. cbn [app] in H1. inversion H1 as [|? ? K1 K2]; subst. rewrite Forall_forall in K2. destruct Hz as [->|Hz]; [apply K2; apply in_app_iff; right; left; reflexivity|apply IH; assumption]. }
        destruct Z3 as [_ Z3]. apply Z3. exact Z1. }
      f_equal. clear -AL. induction m1 as [|z m1 IH]; [reflexivity|]. assert (Ez : z = x) by (apply AL; left; reflexivity). subst z. cbn [app]. f_equal. apply IH. intros; apply AL; right; assumption.
  Qed.
  Lemma sorted_remove : forall (R : A -> A -> Prop) m1 x m2, StronglySorted R (m1 ++ x :: m2) -> StronglySorted R (m1 ++ m2).
  Proof.
    induction m1 as [|y m1 IH]; intros x m2 H; cbn [app] in *; inversion H as [|? ? H1 H2]; subst; [assumption|]. constructor; [eapply IH; eassumption|].
    rewrite Forall_forall in *. intros z Hz. apply H2. apply in_app_iff in Hz. apply in_app_iff. destruct Hz as [Hz|Hz]; [left; assumption|right; right; assumption].
  Qed.
  Lemma isort_unique : forall l m, Permutation l m -> StronglySorted below m -> isort leb l = m.
  Proof.
    induction l as [|x l IH]; intros m P S; [apply Permutation_nil in P; subst; reflexivity|].
    assert (Hx : In x m) by (apply (Permutation_in _ P); left; reflexivity). apply in_split in Hx. destruct Hx as (m1 & m2 & ->).
    cbn [isort fold_right]. fold (isort leb l). rewrite (IH (m1 ++ m2)); [apply ins_by_place; exact S| |eapply sorted_remove; exact S].
    apply Permutation_cons_app_inv in P. exact P.
  Qed.
End Sorting.

(* the order on recorded entries *)
Definition rec_below (x y : Z * box) : Prop := fst x < fst y \/ (fst x = fst y /\ weakly_right (snd x) (snd y)).
Lemma rec_below_std : forall x y, 0 < fst x -> 0 < fst y -> rec_below x y -> below std_order x y.
Proof.
  intros [v [i j]] [w [r s]] Hv Hw H. unfold below, std_order, box_ltb, rec_below, weakly_right in *. cbn [fst snd] in *.
  replace (v <? 0) with false by (symmetry; apply Z.ltb_ge; lia). replace (w <? 0) with false by (symmetry; apply Z.ltb_ge; lia). cbn [fst snd].
  rewrite !negb_true_iff, !orb_false_iff, !andb_false_iff, !Z.ltb_ge, !Z.eqb_neq. destruct H as [H|[-> [H|H]]].
  - split; [split; [lia|left; lia]|]. intros [K _]. lia.
  - split; [split; [lia|right; lia]|]. intros [_ K]. destruct K; lia.
  - injection H as -> ->. split; [split; [lia|right; lia]|reflexivity].
Qed.

Definition rec_of (r : list Z) (v : Z) : Z := nthz r (v - 1).
Lemma rmapping_ok : forall r v, 1 <= v <= zlen r -> rmapping r v = Ok (rec_of r v).
Proof. intros r v H. unfold rmapping. replace ((1 <=? v) && (v <=? zlen r)) with true by (symmetry; apply andb_true_iff; rewrite !Z.leb_le; lia). reflexivity. Qed.
Lemma rmap_ok : forall (A B : Type) (f : A -> res B) (h : A -> B) l, (forall x, In x l -> f x = Ok (h x)) -> rmap f l = Ok (map h l).
Proof. induction l as [|x l IH]; intro H; [reflexivity|]. cbn [rmap map]. rewrite (H x (or_introl eq_refl)). cbn [rbind]. rewrite IH by (intros; apply H; right; assumption). reflexivity. Qed.

Definition rename (f : Z -> Z) (t : tab) : tab := map (fun cv => (fst cv, map f (snd cv))) t.
Lemma tlookup_rename : forall f t c, tlookup (rename f t) c = option_map (map f) (tlookup t c).
Proof. induction t as [|[d l] t IH]; intro c; [reflexivity|]. cbn [rename map fst snd tlookup]. destruct (box_eqb d c); [reflexivity|apply IH]. Qed.
Lemma rename_keys : forall f t, map fst (rename f t) = map fst t.
Proof. intros. unfold rename. rewrite map_map. reflexivity. Qed.
Lemma tag_rename : forall f t, tag (rename f t) = map (fun vc => (f (fst vc), snd vc)) (tag t).
Proof. induction t as [|[d l] t IH]; [reflexivity|]. unfold tag, rename in *. cbn [map flat_map fst snd]. rewrite map_app, IH. f_equal. rewrite !map_map. reflexivity. Qed.
Lemma increasing_map : forall f (l : list Z), (forall x y, In x l -> In y l -> x <= y -> f x <= f y) -> increasing l -> increasing (map f l).
Proof.
  induction l as [|x l IH]; intros M I; [constructor|]. inversion I as [|? ? I1 I2]; subst. cbn [map]. constructor; [apply IH; [intros; apply M; try right; assumption|assumption]|].
  rewrite Forall_forall in *. intros y Hy. apply in_map_iff in Hy. destruct Hy as (z & <- & Hz). apply M; [left; reflexivity|right; assumption|apply I2; assumption].
Qed.
Lemma rename_wf : forall f t, well_formed t -> (forall x y, In x (flat_map snd t) -> In y (flat_map snd t) -> x <= y -> f x <= f y) -> well_formed (rename f t).
Proof.
  intros f t [S P] M. split; [rewrite rename_keys; exact S|]. intros c l H. apply in_map_iff in H. destruct H as ([d m] & E & H). cbn [fst snd] in E. injection E as <- <-.
  destruct (P d m H) as (P1 & P2 & P3). split; [assumption|]. split; [assumption|]. apply increasing_map; [|assumption].
  intros x y Hx Hy. apply M; apply in_flat_map; exists (d, m); split; assumption.
Qed.
Lemma tapply_res_rename : forall f h t, well_formed t -> (forall x, In x (flat_map snd t) -> f x = Ok (h x)) ->
  (forall x y, In x (flat_map snd t) -> In y (flat_map snd t) -> x <= y -> h x <= h y) -> tapply_res f t = Ok (rename h t).
Proof.
  intros f h t W F M. unfold tapply_res. rewrite (rmap_ok _ _ _ (fun cv => (fst cv, VTup (map h (snd cv))))).
  - cbn [rbind]. pose proof (tinit_items (rename h t) (rename_wf h t W M)) as E. unfold items, rename in E. rewrite map_map in E. exact E.
  - intros [c l] H. cbn [fst snd]. rewrite (rmap_ok _ _ _ h); [reflexivity|]. intros x Hx. apply F. apply in_flat_map. exists (c, l). split; assumption.
Qed.

Lemma flat_tag : forall t, map fst (tag t) = flat_map snd t.
Proof. induction t as [|[d l] t IH]; [reflexivity|]. unfold tag in *. cbn [flat_map fst snd]. rewrite map_app, IH. f_equal. rewrite map_map. cbn [fst]. apply map_id. Qed.

Section Standardize.
  Variables (q : tab) (D : list box) (r : list Z).
  Let k := zlen r.
  Hypothesis W : well_formed q.
  Hypothesis NE : forall c l, tlookup q c = Some l -> l <> [].
  Hypothesis LD : length D = length r.
  Hypothesis P : Permutation (tag q) (combine (zrange 1 (k + 1)) D).
  Hypothesis PR : Forall (fun x => 0 < x) r.
  Hypothesis SO : StronglySorted rec_below (combine r D).

  Lemma std_values : forall x, In x (flat_map snd q) -> 1 <= x <= k.
  Proof.
    intros x H. rewrite <- flat_tag in H. apply (Permutation_in _ (Permutation_map fst P)) in H. apply in_map_iff in H. destruct H as ([v c] & <- & H). apply in_combine_l in H. apply In_zrange in H. cbn [fst]. lia.
  Qed.
  Lemma std_all : forall x, 1 <= x <= k -> In x (flat_map snd q).
  Proof.
    intros x H. rewrite <- flat_tag. apply (Permutation_in _ (Permutation_map fst (Permutation_sym P))).
    assert (E : map fst (combine (zrange 1 (k + 1)) D) = zrange 1 (k + 1)).
    { assert (G : forall (A B : Type) (a : list A) (b : list B), length a = length b -> map fst (combine a b) = a).
      { induction a as [|x1 a IH]; intros [|y b] Hl; try discriminate; [reflexivity|]. cbn. rewrite IH by (injection Hl; auto). reflexivity. }
      apply G. rewrite length_zrange, LD. unfold k, zlen. lia. }
    rewrite E. apply In_zrange. lia.
  Qed.
  Lemma rec_nonneg_mono : forall x y, 1 <= x -> x <= y -> y <= k -> rec_of r x <= rec_of r y.
  Proof.
    intros x y Hx Hxy Hy. destruct (Z.eq_dec x y) as [->|E]; [lia|]. unfold rec_of, nthz. unfold k, zlen in Hy.
    assert (G : forall (r : list Z) (D : list box) a b, length D = length r -> StronglySorted rec_below (combine r D) -> (a < b)%nat -> (b < length r)%nat -> nth a r 0 <= nth b r 0).
    { clear. intro r0. induction r0 as [|x r0 IH]; intros [|d D0] a b HL S Hab Hb; try discriminate; cbn [length] in *; [lia|]. cbn [combine] in S. inversion S as [|? ? S1 S2]; subst. rewrite Forall_forall in S2.
      destruct b as [|b]; [lia|]. destruct a as [|a].
      - cbn [nth]. assert (K : exists e, In (nth b r0 0, e) (combine r0 D0)).
        { exists (nth b D0 (0, 0)). rewrite <- combine_nth by lia. apply nth_In. rewrite combine_length. lia. }
        destruct K as [e K]. specialize (S2 _ K). unfold rec_below in S2. cbn [fst] in S2. lia.
      - cbn [nth]. apply (IH D0); [lia|assumption|lia|lia]. }
    apply (G r D); [exact LD|exact SO|lia|lia].
  Qed.

  Let q' := rename (rec_of r) q.
  Lemma record_apply : tapply_res (rmapping r) q = Ok q'.
  Proof.
    apply tapply_res_rename; [exact W| |].
    - intros x Hx. apply std_values in Hx. apply rmapping_ok. exact Hx.
    - intros x y Hx Hy Hxy. apply std_values in Hx. apply std_values in Hy. apply rec_nonneg_mono; lia.
  Qed.
  Lemma q'_wf : well_formed q'.
  Proof. apply rename_wf; [exact W|]. intros x y Hx Hy Hxy. apply std_values in Hx. apply std_values in Hy. apply rec_nonneg_mono; lia. Qed.
  Lemma tag_q' : Permutation (tag q') (combine r D).
  Proof.
    unfold q'. rewrite tag_rename. eapply Permutation_trans; [apply Permutation_map; exact P|]. unfold k.
    assert (G : forall (r : list Z) (D : list box) s (f : Z -> Z), (forall i, (i < length r)%nat -> f (s + Z.of_nat i) = nth i r 0) -> length D = length r ->
      map (fun vc => (f (fst vc), snd vc)) (combine (zrange s (s + zlen r)) D) = combine r D).
    { clear. intro r0. induction r0 as [|x r0 IH]; intros [|d D0] s f H HL; try discriminate.
      - unfold zlen. cbn [length]. rewrite zrange_nil by lia. reflexivity.
      - unfold zlen in *. cbn [length] in *. rewrite zrange_cons by lia. cbn [combine map fst snd]. f_equal.
        + f_equal. specialize (H O ltac:(lia)). replace (s + Z.of_nat 0) with s in H by lia. exact H.
        + replace (s + Z.of_nat (S (length r0))) with (s + 1 + Z.of_nat (length r0)) by lia. apply IH; [|lia]. intros i Hi. replace (s + 1 + Z.of_nat i) with (s + Z.of_nat (S i)) by lia. apply (H (S i)). lia. }
    replace (zlen r + 1) with (1 + zlen r) by lia. rewrite G; [apply Permutation_refl| |exact LD]. intros i Hi. unfold rec_of, nthz. f_equal. lia.
  Qed.
  Lemma standardize_q' : standardize q' = Ok q.
  Proof.
    unfold standardize. fold (tag q'). rewrite (isort_unique std_order (tag q') (combine r D) tag_q').
    - etransitivity; [|exact (rebuild q (combine (zrange 1 (k + 1)) D) W NE P)]. cbv zeta.
      assert (G : forall (r : list Z) (D : list box) s ans, length D = length r -> Forall (fun x => 0 < x) r ->
        rfold (fun ans (av : Z * (Z * box)) => tadd ans (fst (snd (snd av))) (snd (snd (snd av))) (VInt (if 0 <? fst (snd av) then fst av + 1 else - fst av - 1)))
          (combine (zrange s (s + zlen r)) (combine r D)) ans =
        rfold (fun ans (xc : Z * box) => tadd ans (fst (snd xc)) (snd (snd xc)) (VInt (fst xc))) (combine (zrange (s + 1) (s + 1 + zlen r)) D) ans).
      { clear. intro r0. induction r0 as [|x r0 IH]; intros [|d D0] s ans HL F; try discriminate.
        - unfold zlen. cbn [length]. rewrite !zrange_nil by lia. reflexivity.
        - unfold zlen in *. cbn [length] in *. rewrite (zrange_cons s) by lia. rewrite (zrange_cons (s + 1) (s + 1 + Z.of_nat (S (length r0)))) by lia. cbn [combine rfold fst snd]. inversion F as [|? ? F1 F2]; subst.
          replace (0 <? x) with true by (symmetry; apply Z.ltb_lt; assumption). destruct (tadd ans (fst d) (snd d) (VInt (s + 1))); [|reflexivity]. cbn [rbind].
          replace (s + Z.of_nat (S (length r0))) with (s + 1 + Z.of_nat (length r0)) by lia. replace (s + 1 + Z.of_nat (S (length r0))) with (s + 1 + 1 + Z.of_nat (length r0)) by lia. apply IH; [lia|assumption]. }
      assert (EL : zlen (combine r D) = zlen r) by (unfold zlen; rewrite combine_length; lia). rewrite EL. specialize (G r D 0 [] LD PR).
      replace (k + 1) with (0 + 1 + zlen r) by (unfold k; lia). exact G.
    - assert (G : forall (r0 : list Z) (D0 : list box), Forall (fun x => 0 < x) r0 -> StronglySorted rec_below (combine r0 D0) -> StronglySorted (below std_order) (combine r0 D0)).
      { clear. intro r0. induction r0 as [|x r0 IH]; intros [|d D0] PR0 S0; try (constructor; fail). cbn [combine] in *.
        inversion S0 as [|? ? S1 S2]; subst. inversion PR0 as [|? ? P1 P2]; subst. constructor; [apply IH; assumption|].
        rewrite Forall_forall in *. intros [y e] H. apply rec_below_std; [assumption|apply P2; eapply in_combine_l; eassumption|apply S2; assumption]. }
      apply G; assumption.
  Qed.

  Lemma upd_length : forall (l : list Z) i v, length (upd l i v) = length l.
  Proof. induction l as [|x l IH]; intros [|i] v; try reflexivity. cbn. rewrite IH. reflexivity. Qed.
  Lemma upd_nth : forall (l : list Z) i v j, (i < length l)%nat -> nth j (upd l i v) 0 = if (j =? i)%nat then v else nth j l 0.
  Proof. induction l as [|x l IH]; intros [|i] v [|j] H; cbn [length] in H; try lia; try reflexivity. cbn. apply IH. lia. Qed.
  (* positions filled so far *)
  Definition filled (seen : list Z) (record : list Z) : Prop := zlen record = k /\ forall v, In v seen -> nthz record (v - 1) = rec_of r v.
  Lemma record_cell : forall c l, tlookup q c = Some l -> forall l1 l2 seen record, l = l1 ++ l2 -> filled seen record ->
    exists R, rfold (fun record kv =>
        let idx := Z.abs (snd kv) - 1 in
        match tlookup q' c with
        | None => Err TypeError
        | Some l =>
            if fst kv <? zlen l then
              if (0 <=? idx) && (idx <? zlen record) then Ok (upd record (Z.to_nat idx) (Z.abs (nthz l (fst kv)))) else Err IndexError
            else Err IndexError
        end) (combine (zrange (zlen l1) (zlen l)) l2) record = Ok R /\ filled (seen ++ l2) R.
  Proof.
    intros c l El l1 l2. revert l1. induction l2 as [|v l2 IH]; intros l1 seen record E F.
    - rewrite app_nil_r in E. subst l1. rewrite zrange_nil by lia. exists record. split; [reflexivity|]. rewrite app_nil_r. exact F.
    - assert (Hv : 1 <= v <= k). { apply std_values. apply in_flat_map. exists (c, l). split; [apply tlookup_In; assumption|]. cbn [snd]. rewrite E. apply in_app_iff. right. left. reflexivity. }
      assert (ZL : zlen l = zlen l1 + 1 + zlen l2) by (rewrite E; unfold zlen; rewrite app_length; cbn [length]; lia).
      rewrite zrange_cons by (unfold zlen in *; lia). cbn [combine rfold fst snd]. unfold q'. rewrite tlookup_rename, El. cbn [option_map].
      replace (zlen (map (rec_of r) l)) with (zlen l) by (unfold zlen; rewrite map_length; reflexivity).
      replace (zlen l1 <? zlen l) with true by (symmetry; apply Z.ltb_lt; unfold zlen in *; lia). destruct F as [F1 F2]. cbv zeta. rewrite F1.
      replace ((0 <=? Z.abs v - 1) && (Z.abs v - 1 <? k)) with true by (symmetry; apply andb_true_iff; rewrite Z.leb_le, Z.ltb_lt; lia). cbn [rbind].
      assert (EN : nthz (map (rec_of r) l) (zlen l1) = rec_of r v).
      { unfold nthz, zlen. rewrite Nat2Z.id, E, map_app, app_nth2; rewrite map_length; [|lia]. rewrite Nat.sub_diag. reflexivity. }
      rewrite EN. assert (RV : 0 < rec_of r v). { rewrite Forall_forall in PR. apply PR. unfold rec_of, nthz. apply nth_In. unfold k, zlen in Hv. lia. }
      rewrite (Z.abs_eq (rec_of r v)) by lia. replace (Z.abs v - 1) with (v - 1) by lia.
      destruct (IH (l1 ++ [v]) (seen ++ [v]) (upd record (Z.to_nat (v - 1)) (rec_of r v))) as (R & ER & FR).
      + rewrite <- app_assoc. exact E.
      + unfold zlen in F1. split; [unfold zlen; rewrite upd_length; exact F1|]. intros w Hw. unfold nthz. rewrite upd_nth by lia. apply in_app_iff in Hw.
        destruct (Nat.eqb_spec (Z.to_nat (w - 1)) (Z.to_nat (v - 1))) as [Ew|Ew].
        * unfold rec_of, nthz. rewrite Ew. reflexivity.
        * destruct Hw as [Hw|[->|[]]]; [apply F2; assumption|]. exfalso. apply Ew. reflexivity.
      + exists R. rewrite <- app_assoc in FR. cbn [app] in FR. split; [|exact FR]. replace (zlen l1 + 1) with (zlen (l1 ++ [v])) by (unfold zlen; rewrite app_length; cbn [length]; lia). unfold q' in ER. rewrite tlookup_rename, El in ER. cbn [option_map] in ER. replace (zlen (map (rec_of r) l)) with (zlen l) in ER by (unfold zlen; rewrite map_length; reflexivity). exact ER.
  Qed.
  Lemma record_cells : forall t seen record, (forall c l, In (c, l) t -> tlookup q c = Some l) -> filled seen record ->
    exists R, rfold (fun record (cv : box * list Z) =>
      rfold (fun record kv =>
        let idx := Z.abs (snd kv) - 1 in
        match tlookup q' (fst cv) with
        | None => Err TypeError
        | Some l =>
            if fst kv <? zlen l then
              if (0 <=? idx) && (idx <? zlen record) then Ok (upd record (Z.to_nat idx) (Z.abs (nthz l (fst kv)))) else Err IndexError
            else Err IndexError
        end) (combine (zrange 0 (zlen (snd cv))) (snd cv)) record) t record = Ok R /\ filled (seen ++ flat_map snd t) R.
  Proof.
    induction t as [|[c l] t IH]; intros seen record H F.
    - exists record. split; [reflexivity|]. cbn. rewrite app_nil_r. exact F.
    - cbn [rfold fst snd]. destruct (record_cell c l (H c l (or_introl eq_refl)) [] l seen record eq_refl F) as (R1 & E1 & F1).
      match goal with |- exists R, rbind ?x _ = _ /\ _ => assert (EX : x = Ok R1) by exact E1; rewrite EX end. cbn [rbind].
      destruct (IH (seen ++ l) R1) as (R & E & FR); [intros; apply H; right; assumption|exact F1|]. exists R. split; [exact E|]. cbn [flat_map snd]. rewrite app_assoc. exact FR.
  Qed.
  Lemma tlen_q' : tlen q' = k.
  Proof.
    unfold tlen. assert (G : forall t, zlen (sorting_word t) = zlen (tag t)).
    { induction t as [|[c l] t IH]; [reflexivity|]. unfold sorting_word, tag, zlen in *. cbn [flat_map fst snd]. rewrite !app_length, !map_length. lia. }
    rewrite G. unfold zlen. rewrite (Permutation_length tag_q'), combine_length. unfold k, zlen. lia.
  Qed.
  Lemma standardize_record : standardize_recording q' = Ok (q, r).
  Proof.
    unfold standardize_recording. rewrite standardize_q'. cbn [rbind]. rewrite tlen_q'.
    destruct (record_cells q [] (repeat 0 (Z.to_nat k))) as (R & ER & [FR1 FR2]).
    - intros c l H. apply In_tlookup; [apply W|assumption].
    - split; [|intros v []]. unfold zlen at 1. rewrite repeat_length. unfold k, zlen. lia.
    - match goal with |- rbind ?x _ = _ => assert (EX : x = Ok R) by exact ER; rewrite EX end. cbn [rbind]. f_equal. f_equal. cbn [app] in FR2.
      apply (nth_ext R r 0 0); [unfold k, zlen in FR1; lia|]. intros n Hn. specialize (FR2 (Z.of_nat n + 1)). unfold rec_of, nthz in FR2.
      replace (Z.to_nat (Z.of_nat n + 1 - 1)) with n in FR2 by lia. apply FR2. apply std_all. unfold k, zlen in *. lia.
  Qed.
End Standardize.
