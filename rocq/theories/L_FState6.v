(* The recording tableau of shifted Hecke insertion *)
From Coq Require Import List ZArith Bool Lia Sorted Permutation.
From Verif Require Import PyBase M_Partitions L_PartMore M_Tableaux S_Tableaux L_Tableaux M_Insertion M_FState L_Insertion1 L_Insertion2 L_Insertion3 L_Insertion4 L_FState1 L_FState2 L_FState3 L_FState4 L_FState5.
Import ListNotations.
Local Open Scope Z_scope.

Definition FQ (L : Z -> Z) (q : tab) (k : Z) : Prop :=
  0 <= k /\ well_formed q /\ (forall c, tlookup q c <> None <-> fin L (fst c) (snd c) = true) /\
  (forall c l, tlookup q c = Some l -> l <> []) /\ Permutation (map Z.abs (flat_map snd q)) (zrange 1 (k + 1)) /\
  (forall i j l m x y, tlookup q (i, j) = Some l -> tlookup q (i, j + 1) = Some m -> In x l -> In y m -> Z.abs x < Z.abs y) /\
  (forall i j l m x y, tlookup q (i, j) = Some l -> tlookup q (i + 1, j) = Some m -> In x l -> In y m -> Z.abs x < Z.abs y) /\
  (forall i l x, tlookup q (i, i) = Some l -> In x l -> 0 < x).

Lemma FQ_value : forall L q k x, FQ L q k -> In x (flat_map snd q) -> 1 <= Z.abs x <= k.
Proof. intros L q k x (_ & _ & _ & _ & P & _) H. apply (in_map Z.abs) in H. apply (Permutation_in _ P) in H. apply In_zrange in H. lia. Qed.
Lemma FQ_entry : forall L q k c l x, FQ L q k -> tlookup q c = Some l -> In x l -> 1 <= Z.abs x <= k.
Proof. intros L q k c l x H E Hx. apply (FQ_value L q k x H). apply in_flat_map. exists (c, l). split; [apply tlookup_In; assumption|assumption]. Qed.
Lemma FQ_entries : forall L q k c x, FQ L q k -> In x (entries q c) -> 1 <= Z.abs x <= k.
Proof. intros L q k c x H Hx. unfold entries in Hx. destruct (tlookup q c) eqn:E; [eapply FQ_entry; eassumption|destruct Hx]. Qed.

Definition fsign (neg : bool) (k : Z) : Z := if neg then - (k + 1) else k + 1.
Definition fput_rec (q : tab) (d : box) (v : Z) : tab := tput d (sinsert v (entries q d)) q.

Lemma FQ_push : forall L q k L' H' d neg, FQ L q k -> fshape L' H' -> fcorner L' H' d -> (neg = true -> fst d < snd d) ->
  (forall c, fin L' (fst c) (snd c) = true <-> fin L (fst c) (snd c) = true \/ c = d) -> FQ L' (fput_rec q d (fsign neg k)) (k + 1).
Proof.
  intros L q k L' H' d neg H S (D1 & D2 & D3) HN HC. pose proof H as (Hk & W & C & NE & P & O1 & O2 & O3). unfold fput_rec. set (v := fsign neg k).
  assert (Hv : Z.abs v = k + 1) by (unfold v, fsign; destruct neg; lia).
  assert (LU : forall c, tlookup (tput d (sinsert v (entries q d)) q) c = if box_eqb d c then Some (sinsert v (entries q d)) else tlookup q c) by (intro; apply tlookup_tput; apply W).
  assert (Ent : forall x, In x (entries q d) -> 1 <= Z.abs x <= k) by (intro x; apply (FQ_entries L); exact H).
  assert (SI : forall x, In x (sinsert v (entries q d)) <-> x = v \/ In x (entries q d)).
  { intro x. pose proof (Permutation_sym (sinsert_perm v (entries q d))) as PS. split; intro K.
    - apply (Permutation_in _ PS) in K. destruct K as [K|K]; [left; symmetry; exact K|right; exact K].
    - apply (Permutation_in _ (Permutation_sym PS)). destruct K as [->|K]; [left; reflexivity|right; exact K]. }
  split; [lia|]. split; [|split; [|split; [|split; [|split; [|split]]]]].
  - apply tput_wf; [exact W|split; lia|]. apply sinsert_increasing. unfold entries. destruct (tlookup q d) eqn:E; [|constructor]. eapply wf_lookup; eassumption.
  - intro c. rewrite LU, HC. destruct (box_eqb d c) eqn:E.
    + apply box_eqb_eq in E. subst c. split; [right; reflexivity|discriminate].
    + apply box_eqb_neq in E. rewrite C. split; [tauto|]. intros [K|K]; [assumption|congruence].
  - intros c l E. rewrite LU in E. destruct (box_eqb d c); [injection E as <-; intro K; assert (X : In v []) by (rewrite <- K; apply SI; left; reflexivity); destruct X|]. apply (NE c). exact E.
  - rewrite zrange_snoc by lia. replace (k + 1 + 1 - 1) with (k + 1) by lia.
    eapply Permutation_trans; [apply Permutation_map; apply flat_tput; apply W|]. eapply Permutation_trans; [apply Permutation_map; apply Permutation_app_tail; apply Permutation_sym, sinsert_perm|].
    cbn [app map]. rewrite Hv. eapply Permutation_trans; [apply Permutation_cons_append|]. apply Permutation_app_tail. eapply Permutation_trans; [|exact P]. apply Permutation_map. apply Permutation_sym. unfold entries. destruct (tlookup q d) as [l|] eqn:E.
    + apply flat_tdel. exact E.
    + rewrite tdel_absent by assumption. apply Permutation_refl.
  - intros i j l m x y E1 E2 Hx Hy. rewrite LU in E1, E2. destruct (box_eqb d (i, j)) eqn:B1.
    + apply box_eqb_eq in B1. subst d. cbn [fst snd] in *. replace (box_eqb (i, j) (i, j + 1)) with false in E2 by (symmetry; apply box_eqb_neq; intro B; apply (f_equal snd) in B; cbn [snd] in B; lia).
      assert (N : fin L' i (j + 1) = true). { apply (HC (i, j + 1)). left. apply (C (i, j + 1)). rewrite E2. discriminate. }
      apply fin_iff in N. lia.
    + destruct (box_eqb d (i, j + 1)) eqn:B2.
      * injection E2 as <-. apply box_eqb_eq in B2. apply SI in Hy. destruct Hy as [->|Hy].
        -- pose proof (FQ_entry L q k (i, j) l x H E1 Hx). lia.
        -- unfold entries in Hy. destruct (tlookup q d) as [l'|] eqn:E3; [|destruct Hy]. subst d. exact (O1 i j l l' x y E1 E3 Hx Hy).
      * exact (O1 i j l m x y E1 E2 Hx Hy).
  - intros i j l m x y E1 E2 Hx Hy. rewrite LU in E1, E2. destruct (box_eqb d (i, j)) eqn:B1.
    + apply box_eqb_eq in B1. subst d. cbn [fst snd] in *. replace (box_eqb (i, j) (i + 1, j)) with false in E2 by (symmetry; apply box_eqb_neq; intro B; apply (f_equal fst) in B; cbn [fst] in B; lia).
      assert (N : fin L' (i + 1) j = true). { apply (HC (i + 1, j)). left. apply (C (i + 1, j)). rewrite E2. discriminate. }
      apply fin_iff in N. pose proof (proj1 (proj2 (proj2 S) (i + 1) j ltac:(lia) ltac:(lia)) ltac:(lia)). lia.
    + destruct (box_eqb d (i + 1, j)) eqn:B2.
      * injection E2 as <-. apply box_eqb_eq in B2. apply SI in Hy. destruct Hy as [->|Hy].
        -- pose proof (FQ_entry L q k (i, j) l x H E1 Hx). lia.
        -- unfold entries in Hy. destruct (tlookup q d) as [l'|] eqn:E3; [|destruct Hy]. subst d. exact (O2 i j l l' x y E1 E3 Hx Hy).
      * exact (O2 i j l m x y E1 E2 Hx Hy).
  - intros i l x E1 Hx. rewrite LU in E1. destruct (box_eqb d (i, i)) eqn:B1.
    + injection E1 as <-. apply box_eqb_eq in B1. apply SI in Hx. destruct Hx as [->|Hx].
      * destruct neg; [specialize (HN eq_refl); subst d; cbn [fst snd] in HN; lia|unfold v, fsign; lia].
      * unfold entries in Hx. destruct (tlookup q d) as [l'|] eqn:E3; [|destruct Hx]. subst d. exact (O3 i l' x E3 Hx).
    + exact (O3 i l x E1 Hx).
Qed.

(* cells after an insertion *)
Lemma outcome_cells : forall L H L' H' c k neg, fshape L H -> outcome L H L' H' c k neg ->
  forall e, fin L' (fst e) (snd e) = true <-> fin L (fst e) (snd e) = true \/ e = recorded_box L H c k neg.
Proof.
  intros L H L' H' c k neg S O [r s]. pose proof (recorded_corner L H L' H' c k neg S O) as [(R1 & R2 & R3) _]. destruct c as [i j]. unfold outcome in O. cbn [fst snd] in *. destruct O as (Hij & E & O).
  unfold recorded_box in *. destruct k.
  - destruct O as (EL & -> & -> & _). cbn [fst snd] in *. rewrite !fin_iff. unfold updr. destruct (Z.eqb_spec r i) as [->|n].
    + split; [|intros [K|K]; [lia|injection K as ->; lia]]. intro K. destruct (Z.eq_dec s j) as [->|]; [right; reflexivity|left; lia].
    + split; [tauto|]. intros [K|K]; [assumption|]. injection K as -> ->. contradiction.
  - destruct O as (-> & -> & O). split; [tauto|]. intros [K|K]; [assumption|]. rewrite <- K in *. cbn [fst snd] in *. apply fin_iff. lia.
Qed.

Lemma T_fin : forall L g t r c, T (look L g None) t -> tmem t (r, c) = fin L r c.
Proof. intros L g t r c R. rewrite (T_tmem _ _ _ R). unfold look, fbase. cbn [fst snd]. destruct (fin L r c); reflexivity. Qed.
Lemma zmax_column : forall L H g t j, fshape L H -> T (look L g None) t -> 1 <= j -> 1 <= H j -> zmax (map (fun cv : box * list Z => fst (fst cv)) (filter (fun cv : box * list Z => snd (fst cv) =? j) t)) = Some (H j).
Proof.
  intros L H g t j S R Hj HH. pose proof S as (S1 & S2 & S3). pose proof (S2 j Hj).
  assert (A : forall r, In r (map (fun cv : box * list Z => fst (fst cv)) (filter (fun cv : box * list Z => snd (fst cv) =? j) t)) <-> 1 <= r <= H j).
  { intro r. rewrite in_map_iff. split.
    - intros ([[r' c] v] & E & K). cbn [fst] in E. subst r'. apply filter_In in K. destruct K as [K Kc]. cbn [fst snd] in Kc. apply Z.eqb_eq in Kc. subst c. apply (T_cells _ _ _ _ R) in K. unfold look, fbase in K. cbn [fst snd] in K.
      destruct (fin L r j) eqn:E; [|discriminate]. apply fin_iff in E. split; [lia|]. apply S3; lia.
    - intro K. exists ((r, j), [g r j]). split; [reflexivity|]. apply filter_In. split; [|cbn [fst snd]; apply Z.eqb_refl]. apply (T_cells _ _ _ _ R). apply look_base0; [lia|lia|]. apply S3; lia. }
  destruct (zmax_spec _ _ (proj2 (A 1) ltac:(lia))) as (M & EM & HM & HX). rewrite EM. f_equal. apply A in HM. specialize (HX (H j) (proj2 (A (H j)) ltac:(lia))). lia.
Qed.
Lemma zmax_row : forall L H g t i, fshape L H -> T (look L g None) t -> 1 <= i -> i <= L i -> zmax (map (fun cv : box * list Z => snd (fst cv)) (filter (fun cv : box * list Z => i =? fst (fst cv)) t)) = Some (L i).
Proof.
  intros L H g t i S R Hi HL.
  assert (A : forall c, In c (map (fun cv : box * list Z => snd (fst cv)) (filter (fun cv : box * list Z => i =? fst (fst cv)) t)) <-> i <= c <= L i).
  { intro c. rewrite in_map_iff. split.
    - intros ([[r c'] v] & E & K). cbn [fst snd] in E. subst c'. apply filter_In in K. destruct K as [K Kc]. cbn [fst snd] in Kc. apply Z.eqb_eq in Kc. subst r. apply (T_cells _ _ _ _ R) in K. unfold look, fbase in K. cbn [fst snd] in K.
      destruct (fin L i c) eqn:E; [|discriminate]. apply fin_iff in E. lia.
    - intro K. exists ((i, c), [g i c]). split; [reflexivity|]. apply filter_In. split; [|cbn [fst snd]; apply Z.eqb_refl]. apply (T_cells _ _ _ _ R). apply look_base0; lia. }
  destruct (zmax_spec _ _ (proj2 (A i) ltac:(lia))) as (M & EM & HM & HX). rewrite EM. f_equal. apply A in HM. specialize (HX (L i) (proj2 (A (L i)) ltac:(lia))). lia.
Qed.

Lemma existsb_rev : forall (A : Type) (f : A -> bool) l, existsb f (rev l) = existsb f l.
Proof.
  intros A f l. apply eq_true_iff_eq. rewrite !existsb_exists. split; intros (x & K & E); exists x; (split; [|exact E]); apply in_rev; [|rewrite rev_involutive]; exact K.
Qed.
Lemma f_push_spec : forall L H g s q k a, fshape L H -> FIncr L g -> Evn L g -> FN L g s -> FQ L q k -> a mod 2 = 0 ->
  exists s' L' H' g' c b neg, let d := recorded_box L H c b neg in
    f_push s q a (k + 1) = Ok (s', fput_rec q d (fsign neg k)) /\ RIns L H g 1 a L' H' g' c b neg /\ fshape L' H' /\ FIncr L' g' /\ Evn L' g' /\ FN L' g' s' /\ FQ L' (fput_rec q d (fsign neg k)) (k + 1).
Proof.
  intros L H g s q k a S I Ev F Q Ea. destruct (f_insert_spec L H g s a S I Ev F Ea) as (s' & path & c & b & neg & L' & H' & g' & E & F' & HI & En).
  pose proof (RIns_outcome _ _ _ _ _ _ _ _ _ _ _ HI) as O. pose proof (RIns_good _ _ _ _ _ _ _ _ _ _ _ HI) as [S' I']. pose proof (RIns_even _ _ _ _ _ _ _ _ _ _ _ HI Ev Ea) as Ev'.
  pose proof (recorded_corner L H L' H' c b neg S O) as [RC RN]. exists s', L', H', g', c, b, neg. cbv zeta. split; [|split; [exact HI|split; [exact S'|split; [exact I'|split; [exact Ev'|split; [exact F'|]]]]]].
  2: { apply (FQ_push L q k L' H'); try assumption. apply outcome_cells with (L' := L') (H' := H'); assumption. }
  unfold f_push. rewrite E. cbn [rbind fst snd]. rewrite rev_app_distr. cbn [rev app]. destruct c as [i j]. destruct F' as [R' Ho'].
  assert (TM : tmem (htab s') (i, j) = b).
  { rewrite (T_fin L' g' _ i j R'). unfold outcome in O. cbn [fst snd] in O. destruct O as (Hij & Eh & O). destruct b.
    - destruct O as (EL & -> & -> & _). apply fin_iff. rewrite updr_same. lia.
    - destruct O as (-> & -> & O). apply fin_false. intro K. pose proof (proj1 (proj2 (proj2 S) i j ltac:(lia) ltac:(lia)) ltac:(lia)). lia. }
  rewrite TM. rewrite existsb_rev. match goal with |- context [if ?x then - (k + 1) else k + 1] => replace x with neg by (symmetry; exact En) end. clear En TM. pose proof (proj1 Q) as Hk.
  assert (EP : (if b then Ok (i, j) else if 0 <? (if neg then - (k + 1) else k + 1)
      then match zmax (map (fun cv : box * list Z => fst (fst cv)) (filter (fun cv : box * list Z => snd (fst cv) =? j - 1) (htab s'))) with Some x => Ok (x, j - 1) | None => Err ValueError end
      else match zmax (map (fun cv : box * list Z => snd (fst cv)) (filter (fun cv : box * list Z => i - 1 =? fst (fst cv)) (htab s'))) with Some x => Ok (i - 1, x) | None => Err ValueError end)
    = Ok (recorded_box L H (i, j) b neg)).
  { unfold recorded_box in *. destruct b; [reflexivity|]. unfold outcome in O. cbn [fst snd] in *. destruct O as (Hij & Eh & -> & -> & O). destruct RC as (RC1 & RC2 & RC3). destruct neg; cbn [fst snd] in *.
    - replace (0 <? - (k + 1)) with false by (symmetry; apply Z.ltb_ge; lia). rewrite (zmax_row L H g' (htab s') (i - 1) S R') by lia. reflexivity.
    - replace (0 <? k + 1) with true by (symmetry; apply Z.ltb_lt; lia). rewrite (zmax_column L H g' (htab s') (j - 1) S R') by lia. reflexivity. }
  match goal with |- rbind ?x _ = _ => replace x with (@Ok box (recorded_box L H (i, j) b neg)) by (symmetry; exact EP) end. cbn [rbind]. set (d := recorded_box L H (i, j) b neg) in *. clearbody d. clear EP. destruct RC as (RC1 & RC2 & RC3). rewrite tadd_int by (try lia; apply Q). cbn [rbind]. unfold fput_rec. rewrite <- surjective_pairing. reflexivity.
Qed.
