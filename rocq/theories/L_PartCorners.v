(* corner removal by subsets, complement, decrement operations *)
From Coq Require Import List ZArith Lia Bool Permutation Sorted Arith.
From Verif Require Import PyBase M_Partitions S_Partitions L_Partitions L_PartBasic L_PartEnum.
Import ListNotations.
Local Open Scope Z_scope.

Lemma rmap_ok : forall A B (f : A -> res B) (g : A -> B) l, (forall x, In x l -> f x = Ok (g x)) -> rmap f l = Ok (map g l).
Proof.
  induction l as [|a l IH]; intro H; [reflexivity|]. simpl. rewrite (H a) by (left; reflexivity). simpl.
  rewrite IH by (intros; apply H; right; assumption). reflexivity.
Qed.

(* generic version over the step function *)
Lemma rfold_remove : forall (step : list Z -> Z -> res (list Z)) (s : Z), 0 <= s ->
  (forall cur k, Forall (fun a => 0 < a) cur -> removable s cur k ->
    exists r, step cur (Z.of_nat k + 1) = Ok r /\ Forall (fun a => 0 < a) r /\
      forall j, row r j = row cur j - (if (j =? k)%nat then 1 else 0)) ->
  forall S cur, Forall (fun a => 0 < a) cur -> StronglySorted Z.lt S ->
   (forall i, In i S -> 1 <= i /\ removable s cur (Z.to_nat (i - 1))) ->
   exists r, rfold step S cur = Ok r /\ Forall (fun a => 0 < a) r /\ forall j, row r j = row cur j - ind S j.
Proof.
  intros step s Hs0 Hstep. induction S as [|i S IH]; intros cur Hp Hs Hr.
  - exists cur. split; [reflexivity|]. split; [assumption|]. intro j. unfold ind. simpl. lia.
  - destruct (Hr i (or_introl eq_refl)) as [Hi Hrem]. set (k := Z.to_nat (i - 1)) in *.
    destruct (Hstep cur k Hp Hrem) as (cur1 & E1 & Hp1 & Hrow1).
    replace (Z.of_nat k + 1) with i in E1 by (unfold k; lia). simpl. rewrite E1. simpl.
    inversion Hs as [|? ? Hs' Hf]; subst.
    destruct (IH cur1) as (r & E & Hpr & Hrow); [assumption|assumption| |].
    + intros i' Hi'. rewrite Forall_forall in Hf. specialize (Hf i' Hi'). destruct (Hr i' (or_intror Hi')) as [H1 H2].
      split; [assumption|]. set (k' := Z.to_nat (i' - 1)) in *. assert (Hkk : (k < k')%nat) by (unfold k, k'; lia).
      assert (Hlen : length cur1 = length cur).
      { assert (Hin : forall q, (q < length cur)%nat <-> 0 < row cur1 q).
        { intro q. rewrite Hrow1. destruct (q =? k)%nat eqn:E2.
          - apply Nat.eqb_eq in E2. subst q. destruct Hrem as [[A B]|A].
            + pose proof (row_pos cur (Datatypes.S k) Hp A). 
              split; intros; lia.
            + exfalso. destruct H2 as [[C _]|C]; lia.
          - split; intro Hq.
            + pose proof (row_pos cur q Hp Hq). lia.
            + destruct (le_lt_dec (length cur) q) as [C|C]; [|assumption]. rewrite row_overflow in Hq by assumption. lia. }
        destruct (lt_eq_lt_dec (length cur1) (length cur)) as [[C|C]|C]; [|assumption|]; exfalso.
        - apply Hin in C. rewrite row_overflow in C by lia. lia.
        - pose proof (row_pos cur1 (length cur) Hp1 C) as Hq. apply Hin in Hq. lia. }
      destruct H2 as [[A B]|A].
      * left. rewrite Hlen. split; [assumption|]. rewrite !Hrow1.
        replace (k' =? k)%nat with false by (symmetry; apply Nat.eqb_neq; lia).
        replace (Datatypes.S k' =? k)%nat with false by (symmetry; apply Nat.eqb_neq; lia). lia.
      * right. congruence.
    + exists r. split; [assumption|]. split; [assumption|]. intro j. rewrite Hrow, Hrow1.
      assert (Hnot : ~ In i S).
      { intro Hin. rewrite Forall_forall in Hf. specialize (Hf i Hin). lia. }
      unfold ind at 2. simpl. destruct (j =? k)%nat eqn:E2.
      * apply Nat.eqb_eq in E2. subst j. replace (i =? Z.of_nat k + 1) with true by (symmetry; apply Z.eqb_eq; unfold k; lia).
        simpl. assert (ind S k = 0); [|lia]. destruct (ind_01 S k) as [|C]; [assumption|]. apply ind_In in C. exfalso. apply Hnot.
        replace i with (Z.of_nat k + 1) by (unfold k; lia). assumption.
      * apply Nat.eqb_neq in E2. replace (i =? Z.of_nat j + 1) with false by (symmetry; apply Z.eqb_neq; unfold k in E2; lia).
        simpl. unfold ind. lia.
Qed.

(* the rows selected by the code *)
Lemma sorted_filter : forall f l, StronglySorted Z.lt l -> StronglySorted Z.lt (filter f l).
Proof. intros. eapply sublist_sorted; [eassumption|]. apply sublist_filter. Qed.

Definition corner_sets (s : Z) (mu : list Z) (kappa : list Z) : Prop :=
  Forall (fun a => 0 < a) kappa /\
  forall k, row mu k - 1 <= row kappa k <= row mu k /\ (row kappa k < row mu k -> removable s mu k).

Lemma corners_generic : forall (step : list Z -> Z -> res (list Z)) (s : Z) (sel : Z -> bool) mu, 0 <= s ->
  (forall cur k, Forall (fun a => 0 < a) cur -> removable s cur k ->
    exists r, step cur (Z.of_nat k + 1) = Ok r /\ Forall (fun a => 0 < a) r /\
  forall j, row r j = row cur j - (if (j =? k)%nat then 1 else 0)) ->
  Forall (fun a => 0 < a) mu ->
  (forall k, (k < length mu)%nat -> (sel (Z.of_nat k + 1) = true <-> removable s mu k)) ->
  exists out, rmap (fun subset => rfold step subset mu) (all_combinations (filter sel (zrange 1 (zlen mu + 1)))) = Ok out /\
  NoDup out /\ forall kappa, In kappa out <-> corner_sets s mu kappa.
Proof.
  intros step s sel mu Hs0 Hstep Hp Hsel. set (rows := filter sel (zrange 1 (zlen mu + 1))).
  assert (Hrows : forall i, In i rows <-> 1 <= i <= zlen mu /\ removable s mu (Z.to_nat (i - 1))).
  { intro i. unfold rows. rewrite filter_In, In_zrange. split.
    - intros [H1 H2]. split; [lia|]. apply Hsel; [unfold zlen in H1; lia|].
      replace (Z.of_nat (Z.to_nat (i - 1)) + 1) with i by lia. assumption.
    - intros [H1 H2]. split; [lia|]. apply Hsel in H2; [|unfold zlen in H1; lia].
      replace (Z.of_nat (Z.to_nat (i - 1)) + 1) with i in H2 by lia. assumption. }
  assert (Hsr : StronglySorted Z.lt rows) by (apply sorted_filter, zrange_sorted).
  assert (Hnd : NoDup rows) by (apply NoDup_filter, NoDup_zrange).
  assert (Hok : forall S, In S (all_combinations rows) ->
     exists r, rfold step S mu = Ok r /\ Forall (fun a => 0 < a) r /\ forall j, row r j = row mu j - ind S j).
  { intros S HS. apply all_combinations_In in HS. apply (rfold_remove step s Hs0 Hstep); [assumption|eapply sublist_sorted; eassumption|].
    intros i Hi. apply (sublist_incl _ _ _ HS) in Hi. apply Hrows in Hi. split; [lia|apply Hi]. }
  set (g := fun S => match rfold step S mu with Ok r => r | Err _ => [] end).
  exists (map g (all_combinations rows)). split; [|split].
  - apply rmap_ok. intros S HS. destruct (Hok S HS) as (r & E & _). unfold g. rewrite E. reflexivity.
  - apply NoDup_map_inj_in; [|apply all_combinations_NoDup; assumption].
    intros S T HS HT E. destruct (Hok S HS) as (r & E1 & _ & R1). destruct (Hok T HT) as (r' & E2 & _ & R2).
    unfold g in E. rewrite E1, E2 in E. subst r'. apply all_combinations_In in HS, HT.
    eapply sublist_ext; [exact Hnd|assumption|assumption|]. intro i.
    assert (Hi : forall X, sublist X rows -> In i X -> i = Z.of_nat (Z.to_nat (i - 1)) + 1).
    { intros X HX Hin. apply (sublist_incl _ _ _ HX) in Hin. apply Hrows in Hin. lia. }
    assert (Hind : ind S (Z.to_nat (i - 1)) = ind T (Z.to_nat (i - 1))).
    { specialize (R1 (Z.to_nat (i - 1))). specialize (R2 (Z.to_nat (i - 1))). lia. }
    split; intro H.
    + pose proof (Hi S HS H) as Ei. rewrite Ei. apply ind_In. rewrite <- Hind. apply ind_In. rewrite <- Ei. assumption.
    + pose proof (Hi T HT H) as Ei. rewrite Ei. apply ind_In. rewrite Hind. apply ind_In. rewrite <- Ei. assumption.
  - intro kappa. rewrite in_map_iff. split.
    + intros (S & <- & HS). destruct (Hok S HS) as (r & E & Hpr & R). unfold g. rewrite E. split; [assumption|].
      intro k. rewrite R. destruct (ind_01 S k) as [C|C]; rewrite C; split; try lia.
      intros _. apply ind_In in C. apply all_combinations_In in HS. apply (sublist_incl _ _ _ HS) in C.
      apply Hrows in C. replace (Z.to_nat (Z.of_nat k + 1 - 1)) with k in C by lia. apply C.
    + intros [Hpk Hk]. set (S := filter (fun i => row kappa (Z.to_nat (i - 1)) <? row mu (Z.to_nat (i - 1))) rows).
      assert (HS : In S (all_combinations rows)) by (apply all_combinations_In, sublist_filter).
      exists S. split; [|assumption]. destruct (Hok S HS) as (r & E & Hpr & R). unfold g. rewrite E.
      apply pos_ext; [assumption|assumption|]. intro k. rewrite R. destruct (Hk k) as [H1 H2].
      destruct (ind_01 S k) as [C|C]; rewrite C.
      * destruct (Z_lt_le_dec (row kappa k) (row mu k)) as [C1|C1]; [|lia]. exfalso.
        assert (ind S k = 1); [|lia]. apply ind_In. unfold S. apply filter_In.
        replace (Z.to_nat (Z.of_nat k + 1 - 1)) with k by lia. split; [|apply Z.ltb_lt; assumption].
        apply Hrows. replace (Z.to_nat (Z.of_nat k + 1 - 1)) with k by lia. split; [|auto].
        destruct (H2 C1) as [[A _]|A]; unfold zlen; lia.
      * apply ind_In in C. unfold S in C. apply filter_In in C. destruct C as [_ C].
        replace (Z.to_nat (Z.of_nat k + 1 - 1)) with k in C by lia. apply Z.ltb_lt in C. lia.
Qed.

Lemma remove_inner_corners_spec : forall mu, Forall (fun a => 0 < a) mu ->
  exists out, remove_inner_corners mu = Ok out /\ NoDup out /\ forall kappa, In kappa out <-> corner_sets 0 mu kappa.
Proof.
  intros mu Hp. unfold remove_inner_corners. apply corners_generic.
  - lia.
  - intros. apply remove_inner_corner_ok; assumption.
  - assumption.
  - intros k Hk. destruct (remove_inner_corner mu (Z.of_nat k + 1)) eqn:E.
    + split; [|reflexivity]. intros _. eapply remove_inner_corner_removable; eassumption.
    + split; [discriminate|]. intro H. destruct (remove_inner_corner_ok mu k Hp H) as (r & E' & _). congruence.
Qed.

(* the None-propagating loop, seen through a step on plain lists *)
Definition sstep (a : list Z) (r : Z) : res (list Z) :=
  match remove_shifted_inner_corner a r with
  | Ok (Some b) => Ok b
  | Ok None => Err TypeError
  | Err e => Err e
  end.

Lemma rfold_sstep : forall S a b, rfold sstep S a = Ok b ->
  rfold (fun ans row => match ans with None => Err TypeError | Some a => remove_shifted_inner_corner a row end) S (Some a) = Ok (Some b).
Proof.
  induction S as [|i S IH]; intros a b H; simpl in *; [congruence|].
  unfold sstep at 1 in H. destruct (remove_shifted_inner_corner a i) as [[c|]|e]; simpl in *; try discriminate. auto.
Qed.

Lemma rmap_map_ok : forall A B C (f : A -> res B) (g : A -> res C) (h : B -> C) l out,
  (forall x b, f x = Ok b -> g x = Ok (h b)) -> rmap f l = Ok out -> rmap g l = Ok (map h out).
Proof.
  induction l as [|a l IH]; intros out H E; simpl in *; [injection E as <-; reflexivity|].
  destruct (f a) as [b|e] eqn:Ea; simpl in *; [|discriminate].
  destruct (rmap f l) as [bs|e] eqn:El; simpl in *; [|discriminate]. injection E as <-.
  rewrite (H _ _ Ea). simpl. rewrite (IH bs H eq_refl). reflexivity.
Qed.

Lemma remove_shifted_inner_corners_spec : forall mu, Forall (fun a => 0 < a) mu ->
  exists out, remove_shifted_inner_corners mu = Ok (map Some out) /\ NoDup out /\
  forall kappa, In kappa out <-> corner_sets 1 mu kappa.
Proof.
  intros mu Hp. unfold remove_shifted_inner_corners.
  set (sel := fun i => match remove_shifted_inner_corner mu i with Ok (Some _) => true | _ => false end).
  destruct (corners_generic sstep 1 sel mu) as (out & E & Hn & Hin).
  - lia.
  - intros cur k Hc Hr. destruct (remove_shifted_inner_corner_ok cur k Hc Hr) as (r & E & H).
    exists r. unfold sstep. rewrite E. auto.
  - assumption.
  - intros k Hk. unfold sel. destruct (remove_shifted_inner_corner mu (Z.of_nat k + 1)) as [[r|]|e] eqn:E.
    + split; [|reflexivity]. intros _. eapply remove_shifted_inner_corner_removable; eassumption.
    + split; [discriminate|]. intro H. destruct (remove_shifted_inner_corner_ok mu k Hp H) as (r & E' & _). congruence.
    + split; [discriminate|]. intro H. destruct (remove_shifted_inner_corner_ok mu k Hp H) as (r & E' & _). congruence.
  - exists out. split; [|split; assumption]. eapply rmap_map_ok; [|exact E].
    intros S b Hb. apply rfold_sstep. assumption.
Qed.

(* in terms of cells *)
Lemma cell_row : forall mu k j, cell mu (Z.of_nat k + 1) j <-> 1 <= j <= row mu k.
Proof. intros. unfold cell. replace (Z.to_nat (Z.of_nat k + 1 - 1)) with k by lia. split; [tauto|]. intro. split; [lia|assumption]. Qed.
Lemma scell_row : forall mu k j, shifted_cell mu (Z.of_nat k + 1) j <-> Z.of_nat k + 1 <= j <= Z.of_nat k + row mu k.
Proof. intros. unfold shifted_cell. replace (Z.to_nat (Z.of_nat k + 1 - 1)) with k by lia. lia. Qed.

Lemma corner_sets_cells : forall mu kappa, partition mu ->
  (corner_sets 0 mu kappa <->
   partition kappa /\ (forall i j, cell kappa i j -> cell mu i j) /\
  (forall i j, cell mu i j -> ~ cell kappa i j -> corner_cell mu i j)).
Proof.
  intros mu kappa [Hp Hd]. split.
  - intros [Hpk H]. split; [|split].
    + split; [assumption|]. intro i. destruct (H i) as [A B]. destruct (H (S i)) as [C D]. specialize (Hd i).
      destruct (Z_lt_le_dec (row kappa i) (row mu i)) as [E|E]; [|lia]. destruct (B E) as [[F G]|F]; [lia|].
      rewrite (row_overflow kappa); [apply row_nonneg, pos_nonneg; assumption|].
      destruct (le_lt_dec (length kappa) (S i)) as [Q|Q]; [assumption|].
      pose proof (row_pos kappa (S i) Hpk Q). rewrite (row_overflow mu) in C by lia. lia.
    + intros i j [Hi Hj]. split; [assumption|]. destruct (H (Z.to_nat (i - 1))). lia.
    + intros i j Hc Hn. assert (Ei : i = Z.of_nat (Z.to_nat (i - 1)) + 1) by (destruct Hc; lia).
      set (k := Z.to_nat (i - 1)) in *. rewrite Ei in *. apply cell_row in Hc. rewrite cell_row in Hn.
      destruct (H k) as [A B]. assert (Hlt : row kappa k < row mu k) by lia.
      split; [apply cell_row; assumption|]. rewrite cell_row. replace (Z.of_nat k + 1 + 1) with (Z.of_nat (S k) + 1) by lia.
      rewrite cell_row. split; [|lia]. destruct (B Hlt) as [[C D]|C]; [lia|]. rewrite (row_overflow mu) by lia. lia.
  - intros (Hk & Hsub & Hcor). split; [apply Hk|]. intro k.
    assert (H0 : 0 <= row kappa k) by (apply row_nonneg, pos_nonneg; apply Hk).
    assert (A : row kappa k <= row mu k).
    { destruct (Z.eq_dec (row kappa k) 0) as [E|E]; [rewrite E; apply row_nonneg, pos_nonneg; assumption|].
      assert (C : cell mu (Z.of_nat k + 1) (row kappa k)) by (apply Hsub, cell_row; lia). apply cell_row in C. lia. }
    assert (Hc : row kappa k < row mu k -> corner_cell mu (Z.of_nat k + 1) (row kappa k + 1)).
    { intro E. apply Hcor; rewrite cell_row; lia. }
    split.
    + split; [|assumption]. destruct (Z_lt_le_dec (row kappa k) (row mu k)) as [E|E]; [|lia].
      destruct (Hc E) as (_ & _ & C). rewrite cell_row in C. lia.
    + intro E. destruct (Hc E) as (_ & C & D). rewrite cell_row in D.
      replace (Z.of_nat k + 1 + 1) with (Z.of_nat (S k) + 1) in C by lia. rewrite cell_row in C.
      assert ((k < length mu)%nat).
      { destruct (le_lt_dec (length mu) k) as [Q|Q]; [|assumption]. rewrite (row_overflow mu) in E by assumption. lia. }
      destruct (Nat.eq_dec (S k) (length mu)); [right; assumption|]. left. split; [lia|]. lia.
Qed.

Lemma shifted_corner_sets_cells : forall mu kappa, strict_partition mu ->
  (corner_sets 1 mu kappa <->
   strict_partition kappa /\ (forall i j, shifted_cell kappa i j -> shifted_cell mu i j) /\
  (forall i j, shifted_cell mu i j -> ~ shifted_cell kappa i j -> shifted_corner_cell mu i j)).
Proof.
  intros mu kappa Hst. pose proof (strict_is_partition _ Hst) as [Hp Hd]. destruct Hst as [_ Hst]. split.
  - intros [Hpk H]. split; [|split].
    + split; [assumption|]. intros i Hi. destruct (H i) as [A B]. destruct (H (S i)) as [C D].
      pose proof (row_pos kappa (S i) Hpk Hi).
      assert ((S i < length mu)%nat).
      { destruct (le_lt_dec (length mu) (S i)) as [Q|Q]; [|assumption]. rewrite (row_overflow mu) in C by assumption. lia. }
      specialize (Hst i H1).
      destruct (Z_lt_le_dec (row kappa i) (row mu i)) as [E|E]; [|lia]. destruct (B E) as [[F G]|F]; lia.
    + intros i j [Hi Hj]. split; [assumption|]. destruct (H (Z.to_nat (i - 1))). lia.
    + intros i j Hc Hn. assert (Ei : i = Z.of_nat (Z.to_nat (i - 1)) + 1) by (destruct Hc; lia).
      set (k := Z.to_nat (i - 1)) in *. rewrite Ei in *. apply scell_row in Hc. rewrite scell_row in Hn.
      destruct (H k) as [A B]. assert (Hlt : row kappa k < row mu k) by lia.
      split; [apply scell_row; assumption|]. rewrite scell_row. replace (Z.of_nat k + 1 + 1) with (Z.of_nat (S k) + 1) by lia.
      rewrite scell_row. split; [|lia]. destruct (B Hlt) as [[C D]|C]; [lia|]. rewrite (row_overflow mu) by lia. lia.
  - intros (Hk & Hsub & Hcor). split; [apply Hk|]. intro k.
    assert (H0 : 0 <= row kappa k) by (apply row_nonneg, pos_nonneg; apply Hk).
    assert (A : row kappa k <= row mu k).
    { destruct (Z.eq_dec (row kappa k) 0) as [E|E]; [rewrite E; apply row_nonneg, pos_nonneg; assumption|].
      assert (C : shifted_cell mu (Z.of_nat k + 1) (Z.of_nat k + row kappa k)) by (apply Hsub, scell_row; lia). apply scell_row in C. lia. }
    assert (Hc : row kappa k < row mu k -> shifted_corner_cell mu (Z.of_nat k + 1) (Z.of_nat k + row kappa k + 1)).
    { intro E. apply Hcor; rewrite scell_row; lia. }
    split.
    + split; [|assumption]. destruct (Z_lt_le_dec (row kappa k) (row mu k)) as [E|E]; [|lia].
      destruct (Hc E) as (_ & _ & C). rewrite scell_row in C. lia.
    + intro E. destruct (Hc E) as (_ & C & D). rewrite scell_row in D.
      replace (Z.of_nat k + 1 + 1) with (Z.of_nat (S k) + 1) in C by lia. rewrite scell_row in C.
      assert ((k < length mu)%nat).
      { destruct (le_lt_dec (length mu) k) as [Q|Q]; [|assumption]. rewrite (row_overflow mu) in E by assumption. lia. }
      destruct (Nat.eq_dec (S k) (length mu)) as [|Q]; [right; assumption|]. left. split; [lia|].
      pose proof (row_pos mu (S k) Hp ltac:(lia)).
      specialize (Hst k ltac:(lia)). lia.
Qed.
