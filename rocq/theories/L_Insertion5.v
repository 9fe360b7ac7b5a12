(* Undoing one insertion *)
From Coq Require Import List ZArith Bool Lia Sorted Permutation.
From Verif Require Import PyBase M_Partitions L_PartMore M_Tableaux S_Tableaux L_Tableaux M_Insertion L_Insertion1 L_Insertion2 L_Insertion3 L_Insertion4.
Import ListNotations.
Local Open Scope Z_scope.

Definition Nonneg (L : Z -> Z) (g : Z -> Z -> Z) : Prop := forall i j, 1 <= i -> 1 <= j <= L i -> 0 <= g i j.
Lemma Nonneg_updg : forall L g i j v, Nonneg L g -> 0 <= v -> Nonneg L (updg g i j v).
Proof. intros L g i j v H Hv r c Hr Hc. unfold updg. destruct ((r =? i) && (c =? j)); [assumption|apply H; assumption]. Qed.

(* facts about a column bumped in row i *)
Lemma bump_below_above : forall L g i a x, Inv L g i a -> bump_col L g i a x -> i = 1 \/ 2 <= i /\ x <= L (i - 1) /\ g (i - 1) x <= a.
Proof.
  intros L g i a x (S & I & Hi & H) (Hx & B1 & B2). destruct H as [H|(Hi2 & y & Hy & H1 & H2 & H3 & H4)]; [left; assumption|right].
  assert (x <= y). { destruct (Z_le_gt_dec x y); [assumption|]. specialize (H3 ltac:(lia)). specialize (B2 y ltac:(lia)). lia. }
  split; [assumption|]. split; [lia|]. destruct (Z.eq_dec x y) as [->|]; [assumption|].
  pose proof (row_mono L g (i - 1) x y I ltac:(lia) ltac:(lia) ltac:(lia) ltac:(lia)). lia.
Qed.
Lemma pass_value : forall L g i a x, Inv L g i a -> bump_col L g i a x -> ~ can_replace g i a x ->
  2 <= x /\ (Z.max (g i (x - 1)) (if i =? 1 then a else g (i - 1) x) = a) /\ (i = 1 -> g i (x - 1) = a).
Proof.
  intros L g i a x HI B C. pose proof (bump_below_above L g i a x HI B) as BA. pose proof (Inv_pass L g i a x HI B C) as (_ & _ & _ & P).
  destruct P as [P|(_ & y & Hy & P1 & P2 & P3 & P4)]; [destruct HI as (_ & _ & Hi & _); lia|]. replace (i + 1 - 1) with i in * by lia.
  pose proof HI as (S & I & Hi & _). pose proof B as (Hx & B1 & B2).
  assert (x = y). { destruct (Z_lt_ge_dec x y); [pose proof (row_mono L g i x y I Hi ltac:(lia) ltac:(lia) ltac:(lia)); lia|].
    destruct (Z.eq_dec x y); [assumption|]. specialize (P2 ltac:(lia)). destruct (Z.eq_dec (y + 1) x) as [<-|]; [lia|]. pose proof (row_mono L g i (y + 1) x I Hi ltac:(lia) ltac:(lia) ltac:(lia)). lia. }
  subst y. specialize (P4 eq_refl). split; [assumption|]. specialize (B2 (x - 1) ltac:(lia)).
  assert (K : a <= g i (x - 1) \/ (2 <= i /\ a <= g (i - 1) x)).
  { destruct (Z_le_gt_dec a (g i (x - 1))); [left; assumption|right]. destruct BA as [E|(Hi2 & _ & BA)].
    - exfalso. apply C. split; [right; lia|left; assumption].
    - split; [assumption|]. destruct (Z_le_gt_dec a (g (i - 1) x)); [assumption|]. exfalso. apply C. split; right; lia. }
  destruct (Z.eqb_spec i 1); lia.
Qed.
Lemma stop_value : forall L g i a, Inv L g i a -> full_row L g i a -> ~ can_add L g i a ->
  1 <= L i /\ (Z.max (g i (L i)) (if i =? 1 then a else g (i - 1) (L i + 1)) = a) /\ (i = 1 -> g i (L i) = a).
Proof.
  intros L g i a HI F C. pose proof (full_above L g i a HI F) as FA. pose proof HI as (S & I & Hi & _). pose proof (proj1 S i Hi) as L0.
  assert (1 <= L i).
  { destruct (Z.eq_dec (L i) 0) as [E|E]; [|lia]. exfalso. apply C. split; [intros; lia|]. destruct FA as [FA|(_ & FA1 & FA2 & FA3)]; [left; assumption|right].
    destruct (Z.eq_dec (g (i - 1) (L i + 1)) a) as [E2|E2]; [specialize (FA3 E2); lia|lia]. }
  split; [assumption|]. pose proof (F (L i) ltac:(lia)) as FL.
  assert (K : a <= g i (L i) \/ (2 <= i /\ a <= g (i - 1) (L i + 1))).
  { destruct (Z_le_gt_dec a (g i (L i))); [left; assumption|right].
    assert (A : forall x, 1 <= x <= L i -> g i x < a).
    { intros x Hx. destruct (Z.eq_dec x (L i)) as [->|]; [lia|]. pose proof (row_mono L g i x (L i) I Hi ltac:(lia) ltac:(lia) ltac:(lia)). lia. }
    destruct FA as [E|(Hi2 & FA1 & FA2 & FA3)].
    - exfalso. apply C. split; [exact A|left; assumption].
    - split; [assumption|]. destruct (Z_le_gt_dec a (g (i - 1) (L i + 1))); [assumption|]. exfalso. apply C. split; [exact A|right; lia]. }
  destruct FA as [E|(Hi2 & FA1 & FA2 & FA3)]; destruct (Z.eqb_spec i 1); lia.
Qed.

(* entering the outer box again *)
Lemma reenter : forall L g i a t, shape L -> Rep L g None t -> 1 <= i -> (i = 1 \/ 1 <= L (i - 1)) ->
  exists u s, tadd t i (L 1 + 2) (VInt a) = Ok u /\ hmake u (Some (i, L 1 + 2)) = Ok s /\ HS L g (Some (i, a)) s.
Proof.
  intros L g i a t S R Hi HL. pose proof (proj1 S 1 ltac:(lia)). destruct (Rep_add_outer L g t i (L 1 + 2) a R ltac:(lia) ltac:(lia) (outer_outside L i S)) as (u & Eu & Ru).
  destruct (hmake_Some L g u i a S Ru Hi HL) as (s & Es & Hs & _). exists u, s. split; [exact Eu|]. split; assumption.
Qed.
Lemma lookup_None_state : forall L g t i j, Rep L g None t -> tlookup t (i, j) = base L g (i, j).
Proof. intros L g t i j [_ R]. apply R. Qed.
Lemma geti_in : forall L g t i j, Rep L g None t -> 1 <= i -> 1 <= j <= L i -> geti t i j = Ok (g i j).
Proof. intros L g t i j R Hi Hj. apply geti_lookup. rewrite (lookup_None_state L g t i j R). unfold base. cbn [fst snd]. replace (inside L i j) with true by (symmetry; apply inside_iff; lia). reflexivity. Qed.
Lemma tmem_Rep : forall L g t i j, Rep L g None t -> tmem t (i, j) = inside L i j.
Proof. intros L g t i j R. unfold tmem. rewrite (lookup_None_state L g t i j R). unfold base. cbn [fst snd]. destruct (inside L i j); reflexivity. Qed.

Lemma undo_add : forall L g i a s' v, Inv L g i a -> full_row L g i a -> can_add L g i a ->
  HS (updr L i (L i + 1)) (updg g i (L i + 1) a) None s' ->
  exists s b, previous s' (Some (i, L i + 1, VInt v)) = Ok (s, b) /\ HS L g (Some (i, a)) s.
Proof.
  intros L g i a s' v HI F C [R Ho]. unfold previous, is_initial, outer_in_last_column. rewrite Ho. unfold inverse_terminal.
  pose proof (full_above L g i a HI F) as FA. pose proof HI as (S & I & Hi & _). pose proof (proj1 S i Hi) as L0.
  rewrite (geti_in _ _ _ i (L i + 1) R Hi) by (rewrite updr_same; lia). rewrite updg_same. cbn [rbind].
  assert (R2 : Rep L g None (tdel (i, L i + 1) (htab s'))).
  { destruct R as [W R]. split; [apply tdel_wf; exact W|]. intros [r c]. rewrite tlookup_tdel by apply W. rewrite R. unfold base. cbn [fst snd]. destruct (box_eqb (i, L i + 1) (r, c)) eqn:E.
    - apply box_eqb_eq in E. injection E as <- <-. replace (inside L i (L i + 1)) with false by (symmetry; apply inside_false; lia). reflexivity.
    - apply box_eqb_neq in E. assert (NE : r <> i \/ c <> L i + 1). { destruct (Z.eq_dec r i) as [->|]; [right|left; assumption]. intros ->. apply E. reflexivity. }
      rewrite updg_other by assumption. replace (inside (updr L i (L i + 1)) r c) with (inside L r c); [reflexivity|].
      apply eq_true_iff_eq. rewrite !inside_iff. unfold updr. destruct (Z.eqb_spec r i); [subst r; lia|tauto]. }
  rewrite (tremove_None _ i (L i + 1) [a]).
  2: apply R.
  2: { rewrite (lookup_None_state _ _ _ i (L i + 1) R). unfold base. cbn [fst snd]. rewrite updg_same. replace (inside (updr L i (L i + 1)) i (L i + 1)) with true; [reflexivity|]. symmetry. apply inside_iff. rewrite updr_same. lia. }
  cbn [rbind]. rewrite (max_column_Rep L g _ S R2).
  destruct (reenter L g i a _ S R2 Hi) as (u & s & E1 & E2 & H).
  - destruct FA as [FA|FA]; [left; assumption|right; lia].
  - rewrite E1. cbn [rbind]. rewrite E2. cbn [rbind fst snd]. eexists _, _. split; [reflexivity|exact H].
Qed.

Lemma climb_spec : forall L g t i j, shape L -> Rep L g None t -> 1 <= i -> 1 <= j -> L i = j -> (i = 1 \/ L i < L (i - 1)) ->
  forall fuel r, i <= r -> L r = j -> r - i < Z.of_nat fuel -> climb fuel t r j = i.
Proof.
  intros L g t i j S R Hi Hj HL HT. induction fuel as [|fuel IH]; intros r Hr HLr Hf; [lia|]. cbn [climb]. rewrite !(tmem_Rep L g t _ _ R).
  destruct (Z.eq_dec r i) as [->|E].
  - replace (inside L (i - 1) j && negb (inside L (i - 1) (j + 1))) with false; [reflexivity|]. symmetry. destruct HT as [->|HT].
    + replace (inside L (1 - 1) j) with false; [reflexivity|]. symmetry. apply inside_false. lia.
    + destruct (Z.eq_dec i 1) as [->|]; [replace (inside L (1 - 1) j) with false; [reflexivity|]; symmetry; apply inside_false; lia|].
      replace (inside L (i - 1) (j + 1)) with true; [apply andb_false_r|]. symmetry. apply inside_iff. lia.
  - pose proof (shape_mono L i (r - 1) S). pose proof (shape_mono L (r - 1) r S). replace (inside L (r - 1) j) with true by (symmetry; apply inside_iff; lia).
    replace (inside L (r - 1) (j + 1)) with false by (symmetry; apply inside_false; lia). cbn [negb andb]. apply IH; lia.
Qed.

Lemma undo_stop : forall L g i a s' d l, Inv L g i a -> full_row L g i a -> ~ can_add L g i a -> Nonneg L g -> HS L g None s' ->
  recorded L (i, L i + 1) false d -> (2 <= length (zset l))%nat ->
  exists s b, previous s' (Some (fst d, snd d, VTup l)) = Ok (s, b) /\ HS L g (Some (i, a)) s.
Proof.
  intros L g i a s' [r j] l HI F C NN [R Ho] [(D1 & D2 & D3 & D4) [E1 E2]] Hl. cbn [fst snd] in *. replace (L i + 1 - 1) with (L i) in E1 by lia. rewrite E1 in D2, D3, D4 |- *.
  unfold previous, is_initial, outer_in_last_column. rewrite Ho. unfold inverse_terminal. destruct (zset l) as [|x1 [|x2 l']]; [cbn in Hl; lia|cbn in Hl; lia|]. clear Hl.
  pose proof (full_above L g i a HI F) as FA. pose proof (stop_value L g i a HI F C) as (V1 & V2 & V3). pose proof HI as (S & I & Hi & _).
  rewrite (climb_spec L g (htab s') i (L i) S R Hi V1 eq_refl); [|destruct FA as [FA|FA]; [left; assumption|right; lia]|assumption|assumption|lia].
  rewrite (geti_in L g _ i (L i) R Hi) by lia. cbn [rbind].
  assert (EY : exists y, geti0 (htab s') (i - 1) (L i + 1) = Ok y /\ Z.max (g i (L i)) y = a).
  { rewrite geti0_lookup, (lookup_None_state L g _ (i - 1) (L i + 1) R). unfold base. cbn [fst snd]. destruct (Z.eqb_spec i 1) as [E|E].
    - replace (inside L (i - 1) (L i + 1)) with false by (symmetry; apply inside_false; lia). exists 0. split; [reflexivity|]. specialize (NN i (L i) Hi ltac:(lia)). specialize (V3 E). lia.
    - destruct FA as [FA|FA]; [contradiction|]. replace (inside L (i - 1) (L i + 1)) with true by (symmetry; apply inside_iff; lia). eexists. split; [reflexivity|exact V2]. }
  destruct EY as (y & Ey & Hy). rewrite Ey. cbn [rbind]. rewrite Hy. rewrite (max_column_Rep L g _ S R).
  destruct (reenter L g i a _ S R Hi) as (u & s & E3 & E4 & H).
  - destruct FA as [FA|FA]; [left; assumption|right; lia].
  - rewrite E3. cbn [rbind]. rewrite E4. cbn [rbind fst snd]. eexists _, _. split; [reflexivity|exact H].
Qed.

(* rows *)
Lemma slide_spec : forall t i b (f : Z -> Z) x, (forall y, 1 < y <= x -> tlookup t (i, y) = Some [f y] /\ f y <= b) ->
  (tlookup t (i, x + 1) = None \/ exists v, tlookup t (i, x + 1) = Some [v] /\ b < v) ->
  forall fuel x0, 1 <= x0 <= x -> x - x0 <= Z.of_nat fuel -> slide fuel t i x0 b = Ok x.
Proof.
  intros t i b f x H1 H2. induction fuel as [|fuel IH]; intros x0 Hx Hf; cbn [slide]; [f_equal; lia|].
  destruct (Z.eq_dec x0 x) as [->|E].
  - unfold tmem. destruct H2 as [H2|(v & H2 & Hv)]; rewrite H2; [reflexivity|]. rewrite (geti_lookup t i (x + 1) v H2). cbn [rbind].
    replace (v <=? b) with false by (symmetry; apply Z.leb_gt; assumption). reflexivity.
  - destruct (H1 (x0 + 1) ltac:(lia)) as [H3 H4]. unfold tmem. rewrite H3. rewrite (geti_lookup _ _ _ _ H3). cbn [rbind].
    replace (f (x0 + 1) <=? b) with true by (symmetry; apply Z.leb_le; assumption). apply IH; lia.
Qed.
Lemma row_cells_length : forall t i n, (forall x, 1 <= x <= n -> tlookup t (i, x) <> None) -> n <= Z.of_nat (length t).
Proof.
  intros t i n H. destruct (Z_le_gt_dec n 0); [lia|]. pose proof (NoDup_incl_length (l := map (fun x => (i, x)) (zrange 1 (n + 1))) (l' := map fst t)) as K.
  rewrite !map_length, length_zrange in K. assert (Z.to_nat (n + 1 - 1) <= length t)%nat; [|lia]. apply K.
  - apply FinFun.Injective_map_NoDup; [intros a b E; injection E; auto|apply NoDup_zrange].
  - intros c Hc. apply in_map_iff in Hc. destruct Hc as (x & <- & Hx). apply In_zrange in Hx. destruct (tlookup t (i, x)) as [l|] eqn:E.
    + apply tlookup_In in E. apply (in_map fst) in E. exact E.
    + exfalso. apply (H x); [lia|assumption].
Qed.

Lemma undo_bump : forall L g g1 i a x s, Inv L g i a -> bump_col L g i a x -> Nonneg L g ->
  (can_replace g i a x /\ g1 = updg g i x a \/ ~ can_replace g i a x /\ g1 = g) -> Incr L g1 -> HS L g1 (Some (i + 1, g i x)) s ->
  exists s0 b, previous s None = Ok (s0, b) /\ HS L g (Some (i, a)) s0.
Proof.
  intros L g g1 i a x s HI B NN D I1 (R & Ho & Hc). pose proof HI as (S & I & Hi & HIy). pose proof B as (Hx & B1 & B2).
  pose proof (proj1 S 1 ltac:(lia)) as L1. pose proof (shape_mono L 1 i S ltac:(lia) Hi) as L1i.
  assert (G1 : g1 i x <= g i x). { destruct D as [[_ ->]|[_ ->]]; [rewrite updg_same; lia|lia]. }
  assert (G2 : x + 1 <= L i -> g i x < g1 i (x + 1)). { intro Hl. destruct D as [[_ ->]|[_ ->]]; [rewrite updg_other by lia|]; apply I; lia. }
  unfold previous, is_initial, outer_in_last_column. rewrite Ho, Hc. replace (i + 1 =? 1) with false by (symmetry; apply Z.eqb_neq; lia). rewrite Z.eqb_refl.
  unfold inverse_row. rewrite Ho. rewrite (geti_lookup (htab s) (i + 1) (L 1 + 2) (g i x)) by (apply (Rep_outer L g1 (i + 1)); exact R). cbn [rbind]. replace (i + 1 - 1) with i by lia.
  assert (LK : forall y, 1 <= y <= L i -> tlookup (htab s) (i, y) = Some [g1 i y]) by (intros y Hy; apply (Rep_base L g1 (i + 1) (g i x)); [exact S|exact R|exact Hi|exact Hy]).
  rewrite (slide_spec (htab s) i (g i x) (g1 i) x).
  2: { intros y Hy. split; [apply LK; lia|]. destruct (Z.eq_dec y x) as [->|]; [exact G1|]. pose proof (row_mono L g1 i y x I1 Hi ltac:(lia) ltac:(lia) ltac:(lia)). lia. }
  2: { destruct (Z_le_gt_dec (x + 1) (L i)) as [Hl|Hl]; [right|left].
       - exists (g1 i (x + 1)). split; [apply LK; lia|apply G2; lia].
       - apply (Rep_empty L g1 (i + 1) (g i x)); [exact R|lia|lia]. }
  2: lia.
  2: { pose proof (row_cells_length (htab s) i (L i)) as K. assert (L i <= Z.of_nat (length (htab s))); [apply K; intros y Hy; rewrite (LK y Hy); discriminate|lia]. }
  cbn [rbind]. rewrite (geti_lookup _ _ _ _ (LK x Hx)). cbn [rbind].
  destruct (Rep_remove_outer L g1 (htab s) (i + 1) (L 1 + 2) (g i x) R (outer_outside L (i + 1) S)) as (u & Eu & Ru).
  assert (HL1 : i = 1 \/ 1 <= L (i - 1)). { destruct HIy as [E|(Hi2 & y & Hy & _)]; [left; assumption|right; lia]. }
  destruct D as [[C ->]|[C ->]].
  - rewrite updg_same. replace (a =? g i x) with false by (symmetry; apply Z.eqb_neq; lia). rewrite Eu. cbn [rbind].
    assert (V : exists v, treplace u i x (VInt (g i x)) = Ok v /\ Rep L g None v).
    { unfold treplace. rewrite (tmem_Rep _ _ _ _ _ Ru). replace (inside L i x) with true by (symmetry; apply inside_iff; lia).
      rewrite tinit_mput_eq; [|apply Ru|split; cbn [fst snd]; lia]. cbn [tuplize]. eexists. split; [reflexivity|]. destruct Ru as [W Ru].
      split; [apply tput_wf; [exact W|split; cbn [fst snd]; lia|repeat constructor]|]. intros [r c]. rewrite tlookup_tput by apply W. rewrite Ru. unfold base. cbn [fst snd].
      destruct (box_eqb (i, x) (r, c)) eqn:E.
      - apply box_eqb_eq in E. injection E as <- <-. replace (inside L i x) with true by (symmetry; apply inside_iff; lia). reflexivity.
      - apply box_eqb_neq in E. rewrite updg_other; [reflexivity|]. destruct (Z.eq_dec r i) as [->|]; [right|left; assumption]. intros ->. apply E. reflexivity. }
    destruct V as (v & Ev & Rv). rewrite Ev. cbn [rbind]. destruct (reenter L g i a v S Rv Hi HL1) as (v' & s0 & E1 & E2 & H0).
    rewrite E1. cbn [rbind]. rewrite E2. cbn [rbind fst snd]. eexists _, _. split; [reflexivity|exact H0].
  - rewrite Z.eqb_refl. pose proof (pass_value L g i a x HI B C) as (V1 & V2 & V3).
    rewrite (geti_lookup _ _ _ _ (LK (x - 1) ltac:(lia))). cbn [rbind]. replace (i + 1 - 2) with (i - 1) by lia.
    assert (EZ : exists z, geti0 (htab s) (i - 1) x = Ok z /\ Z.max (g i (x - 1)) z = a).
    { rewrite geti0_lookup. destruct (Z.eqb_spec i 1) as [E|E].
      - rewrite (Rep_empty L g (i + 1) (g i x) _ (i - 1) x R) by lia. exists 0. split; [reflexivity|]. specialize (NN i (x - 1) Hi ltac:(lia)). specialize (V3 E). lia.
      - destruct (bump_below_above L g i a x HI B) as [BA|(_ & BA & _)]; [contradiction|].
        rewrite (Rep_base L g (i + 1) (g i x) _ (i - 1) x S R) by lia. eexists. split; [reflexivity|exact V2]. }
    destruct EZ as (z & Ez & Hz). rewrite Ez. cbn [rbind]. rewrite Hz, Eu. cbn [rbind].
    destruct (reenter L g i a u S Ru Hi HL1) as (v' & s0 & E1 & E2 & H0). rewrite E1. cbn [rbind]. rewrite E2. cbn [rbind fst snd]. eexists _, _. split; [reflexivity|exact H0].
Qed.

(* the recorded values of the box *)
Definition record_value (k : bool) (v : pyval) : Prop :=
  if k then exists x, v = VInt x else exists l, v = VTup l /\ (2 <= length (zset l))%nat.

Lemma undo : forall L g i a L' g' c k, Ins L g i a L' g' c k -> 0 <= a -> Nonneg L g -> forall s' d v, HS L' g' None s' -> recorded L' c k d -> record_value k v ->
  exists se b si, previous s' (Some (fst d, snd d, v)) = Ok (se, b) /\ HS L g (Some (i, a)) si /\
    i <= fst c /\ forall fuel, rewind (Z.to_nat (fst c - i) + fuel) se = rewind fuel si.
Proof.
  intros L g i a L' g' c k H. induction H as [L g i a HI F C|L g i a HI F C|L g i a x L' g' c k HI B C H IH|L g i a x L' g' c k HI B C H IH]; intros Ha NN s' d v Hs' Hd Hv.
  - destruct Hv as [x ->]. destruct Hd as [_ ->]. cbn [fst snd]. destruct (undo_add L g i a s' x HI F C Hs') as (s & b & E & Hs). exists s, b, s. split; [exact E|]. split; [exact Hs|]. split; [lia|].
    intro fuel. replace (Z.to_nat (i - i)) with O by lia. reflexivity.
  - destruct Hv as (l & -> & Hl). cbn [fst snd]. destruct (undo_stop L g i a s' d l HI F C NN Hs' Hd Hl) as (s & b & E & Hs). exists s, b, s. split; [exact E|]. split; [exact Hs|]. split; [lia|].
    intro fuel. replace (Z.to_nat (i - i)) with O by lia. reflexivity.
  - pose proof HI as (_ & _ & Hi & _). pose proof B as (Hx & B1 & B2). destruct (IH ltac:(lia) (Nonneg_updg L g i x a NN Ha) s' d v Hs' Hd Hv) as (se & b & si & E & Hsi & Hc & Hr).
    destruct (undo_bump L g (updg g i x a) i a x si HI B NN (or_introl (conj C eq_refl))) as (s0 & b0 & E0 & H0); [apply (Inv_replace L g i a x HI B C)|exact Hsi|].
    exists se, b, s0. split; [exact E|]. split; [exact H0|]. split; [lia|]. intro fuel. replace (Z.to_nat (fst c - i) + fuel)%nat with (Z.to_nat (fst c - (i + 1)) + S fuel)%nat by lia.
    rewrite Hr. cbn [rewind]. replace (is_initial si) with false; [rewrite E0; reflexivity|]. unfold is_initial. destruct Hsi as (_ & -> & _). symmetry. apply Z.eqb_neq. lia.
  - pose proof HI as (_ & I & Hi & _). pose proof B as (Hx & B1 & B2). destruct (IH ltac:(lia) NN s' d v Hs' Hd Hv) as (se & b & si & E & Hsi & Hc & Hr).
    destruct (undo_bump L g g i a x si HI B NN (or_intror (conj C eq_refl)) I Hsi) as (s0 & b0 & E0 & H0).
    exists se, b, s0. split; [exact E|]. split; [exact H0|]. split; [lia|]. intro fuel. replace (Z.to_nat (fst c - i) + fuel)%nat with (Z.to_nat (fst c - (i + 1)) + S fuel)%nat by lia.
    rewrite Hr. cbn [rewind]. replace (is_initial si) with false; [rewrite E0; reflexivity|]. unfold is_initial. destruct Hsi as (_ & -> & _). symmetry. apply Z.eqb_neq. lia.
Qed.
