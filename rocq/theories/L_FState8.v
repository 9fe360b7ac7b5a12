(* Undoing the steps of shifted Hecke insertion *)
From Coq Require Import List ZArith Bool Lia Sorted Permutation.
From Verif Require Import PyBase M_Partitions L_PartMore M_Tableaux S_Tableaux L_Tableaux M_Insertion M_FState L_Insertion1 L_Insertion2 L_Insertion3 L_Insertion4 L_FState1 L_FState2 L_FState3 L_FState4 L_FState5 L_FState6.
Import ListNotations.
Local Open Scope Z_scope.

Definition NNf (L : Z -> Z) (g : Z -> Z -> Z) : Prop := forall r c, fin L r c = true -> 0 <= g r c.
Lemma NNf_replace : forall L g i j a, NNf L g -> 0 <= a -> NNf L (updg g i j a).
Proof. intros L g i j a E Ea r c Hc. unfold updg. destruct ((r =? i) && (c =? j)); [exact Ea|apply E; exact Hc]. Qed.

(* the bumped or stopped letter is the larger of two neighbours *)
Lemma r_above : forall L H g i a x, RInv L H g i a -> r_bump L g i a x -> i = 1 \/ 2 <= i /\ x <= L (i - 1) /\ g (i - 1) x <= a.
Proof.
  intros L H g i a x (S & I & Hi & K) (Hx & B1 & B2). destruct K as [K|(Hi2 & y & Hy & H1 & H2 & H3 & H4)]; [left; assumption|right].
  assert (x <= y). { destruct (Z_le_gt_dec x y); [assumption|]. specialize (H3 ltac:(lia)). specialize (B2 y ltac:(lia)). lia. }
  split; [assumption|]. split; [lia|]. destruct (Z.eq_dec x y) as [->|]; [assumption|].
  pose proof (frow_mono L g (i - 1) x y I ltac:(lia) ltac:(lia) ltac:(lia) ltac:(lia)). lia.
Qed.
Lemma r_pass_value : forall L H g i a x, RInv L H g i a -> r_bump L g i a x -> i < x -> ~ r_rep g i a x -> 0 <= a ->
  Z.max (g i (x - 1)) (if fin L (i - 1) x then g (i - 1) x else 0) = a.
Proof.
  intros L H g i a x HI B h C Ha. pose proof (r_above L H g i a x HI B) as A. destruct B as (Hx & B1 & B2). specialize (B2 (x - 1) ltac:(lia)). destruct A as [->|(A1 & A2 & A3)].
  - rewrite (proj2 (fin_false L (1 - 1) x)) by lia. destruct (Z_lt_ge_dec (g 1 (x - 1)) a) as [k|k]; [exfalso; apply C; split; [exact k|left; reflexivity]|lia].
  - rewrite (proj2 (fin_iff L (i - 1) x)) by lia. destruct (Z_lt_ge_dec (g i (x - 1)) a) as [k|k]; [|lia]. destruct (Z_lt_ge_dec (g (i - 1) x) a) as [k2|k2]; [exfalso; apply C; split; [exact k|right; exact k2]|lia].
Qed.
Lemma d_pass_value : forall L H g i a, RInv L H g i a -> r_bump L g i a i -> ~ d_rep g i a -> 2 <= i /\ i <= L (i - 1) /\ g (i - 1) i = a.
Proof.
  intros L H g i a HI B C. pose proof (r_above L H g i a i HI B) as A. destruct A as [A|(A1 & A2 & A3)]; [exfalso; apply C; left; exact A|]. split; [exact A1|]. split; [exact A2|].
  destruct (Z_lt_ge_dec (g (i - 1) i) a) as [k|k]; [exfalso; apply C; right; exact k|lia].
Qed.
Lemma r_stop_value : forall L H g i a, RInv L H g i a -> r_full L g i a -> ~ r_add L g i a -> 0 <= a ->
  Z.max (g i (L i)) (if fin L (i - 1) (L i + 1) then g (i - 1) (L i + 1) else 0) = a.
Proof.
  intros L H g i a HI F C Ha. assert (R : RIns L H g i a L H g (i, L i + 1) false false) by (apply ri_stop; assumption). apply RIns_outcome in R. destruct R as (_ & _ & _ & _ & _ & R). cbn [fst snd] in R.
  pose proof (row_full_above L H g i a HI F) as A. pose proof HI as (S & I & Hi & _). pose proof (F (L i) ltac:(lia)) as FL.
  assert (K : g i (L i) < a -> forall x, i <= x <= L i -> g i x < a).
  { intros k x Hx. destruct (Z.eq_dec x (L i)) as [->|]; [exact k|]. pose proof (frow_mono L g i x (L i) I Hi ltac:(lia) ltac:(lia) ltac:(lia)). lia. }
  destruct A as [->|(A1 & A2 & A3 & A4)].
  - rewrite (proj2 (fin_false L (1 - 1) (L 1 + 1))) by lia. destruct (Z_lt_ge_dec (g 1 (L 1)) a) as [k|k]; [|lia]. exfalso. apply C. split; [exact (K k)|left; reflexivity].
  - rewrite (proj2 (fin_iff L (i - 1) (L i + 1))) by lia. destruct (Z_lt_ge_dec (g i (L i)) a) as [k|k]; [|lia]. destruct (Z_lt_ge_dec (g (i - 1) (L i + 1)) a) as [k2|k2]; [|lia]. exfalso. apply C. split; [exact (K k)|right; exact k2].
Qed.
Lemma c_left : forall L H g j a x, CInv L H g j a -> c_bump H g j a x -> g x (j - 1) <= a.
Proof.
  intros L H g j a x (S & I & Hj & y & Hy & H1 & H3 & H4 & H5) (B1 & B2 & B3). pose proof S as (S1 & S2 & S3). pose proof (S2 j ltac:(lia)). pose proof (S2 (j - 1) ltac:(lia)).
  assert (x <= y). { destruct (Z_le_gt_dec x y); [assumption|]. specialize (H4 ltac:(lia)). specialize (B3 y ltac:(lia)). lia. }
  destruct (Z.eq_dec x y) as [->|]; [assumption|]. pose proof (proj2 (S3 y (j - 1) ltac:(lia) ltac:(lia)) ltac:(lia)) as A2. pose proof (fcol_mono L H g x y (j - 1) S I ltac:(lia) ltac:(lia) ltac:(lia) A2). lia.
Qed.
Lemma c_pass_value : forall L H g j a x, CInv L H g j a -> c_bump H g j a x -> ~ c_rep g j a x -> 2 <= x /\ Z.max (g (x - 1) j) (g x (j - 1)) = a.
Proof.
  intros L H g j a x HI B C. pose proof (c_left L H g j a x HI B) as A. pose proof (CInv_pass L H g j a x HI B C) as (_ & _ & _ & P).
  assert (X2 : 2 <= x).
  { destruct HI as (S & I & Hj & y & Hy & H1 & H2 & H3 & H4). destruct B as (Hx & B1 & B2). destruct (Z.eq_dec x 1) as [->|]; [|lia]. exfalso. apply C. split; [|left; reflexivity].
    destruct (Z.eq_dec y 1) as [->|Ey].
    + destruct (Z.eq_dec (g 1 (j - 1)) a) as [E|E]; [specialize (H4 E); lia|lia].
    + pose proof S as (S1 & S2 & S3). pose proof (S2 (j - 1) ltac:(lia)). assert (j - 1 <= L y) by (apply S3; lia). pose proof (fcol_mono L H g 1 y (j - 1) S I ltac:(lia) ltac:(lia) ltac:(lia) ltac:(lia)). lia. }
  split; [exact X2|]. destruct B as (Hx & B1 & B2). specialize (B2 (x - 1) ltac:(lia)).
  destruct (Z_lt_ge_dec (g (x - 1) j) a) as [k|k]; [|lia]. destruct (Z_lt_ge_dec (g x (j - 1)) a) as [k2|k2]; [|lia]. exfalso. apply C. split; [exact k2|right; exact k].
Qed.
Lemma c_stop_value : forall L H g j a, CInv L H g j a -> c_full H g j a -> ~ c_add H g j a -> 1 <= H j /\ Z.max (g (H j) j) (g (H j + 1) (j - 1)) = a.
Proof.
  intros L H g j a HI F C. assert (R : CIns L H g j a L H g (H j + 1, j) false) by (apply ci_stop; assumption). apply CIns_outcome in R. destruct R as (_ & _ & _ & _ & R). cbn [fst snd] in R.
  pose proof (col_full_left L H g j a HI F) as (F0 & F1 & F2 & F3 & F4 & F5). split; [lia|]. pose proof HI as (S & I & Hj & _). pose proof (F (H j) ltac:(lia)) as FL.
  assert (K : g (H j) j < a -> forall x, 1 <= x <= H j -> g x j < a).
  { intros k x Hx. destruct (Z.eq_dec x (H j)) as [->|]; [exact k|]. pose proof (fcol_mono L H g x (H j) j S I ltac:(lia) ltac:(lia) ltac:(lia)) as K. specialize (K ltac:(apply S; lia)). lia. }
  destruct (Z_lt_ge_dec (g (H j) j) a) as [k|k]; [|lia]. destruct (Z_lt_ge_dec (g (H j + 1) (j - 1)) a) as [k2|k2]; [|lia]. exfalso. apply C. split; [exact (K k)|exact k2].
Qed.

(* entering the outer box *)
Lemma FS_ext : forall L M g g' d a s, FS L M g d a s -> (forall r c, fin L r c = true -> g r c = g' r c) -> FS L M g' d a s.
Proof.
  intros L M g g' d a s (R & Ho & Hr & Hc) E. split; [|split; [exact Ho|split; [exact Hr|exact Hc]]]. apply (T_ext _ _ _ R). intro c. unfold look. destruct (box_eqb d c); [reflexivity|]. unfold fbase. destruct (fin L (fst c) (snd c)) eqn:F; [|reflexivity]. rewrite (E _ _ F). reflexivity.
Qed.
Lemma T_gext : forall L g g' t, T (look L g None) t -> (forall r c, fin L r c = true -> g r c = g' r c) -> T (look L g' None) t.
Proof.
  intros L g g' t R E. apply (T_ext _ _ _ R). intro c. unfold look, fbase. destruct (fin L (fst c) (snd c)) eqn:F; [|reflexivity]. rewrite (E _ _ F). reflexivity.
Qed.
Lemma f_enter : forall L H M g t d a, fshape L H -> rows L M -> good_outer L M d -> T (look L g None) t ->
  exists u s, tadd t (fst d) (snd d) (VInt a) = Ok u /\ hmake u (Some (fst d, snd d)) = Ok s /\ FS L M g d a s.
Proof.
  intros L H M g t [i j] a S RM G R. cbn [fst snd]. pose proof (good_outside L H M _ S RM G) as O. cbn [fst snd] in O. pose proof (proj1 S 1 ltac:(lia)). pose proof (proj1 RM).
  destruct (T_add _ t i j a R) as (u & Eu & Ru); [apply look_out0; exact O|destruct G as [G|G]; cbn [fst snd] in G; lia|destruct G as [G|G]; cbn [fst snd] in G; lia|].
  assert (RU : T (look L g (Some ((i, j), a))) u). { apply (T_ext _ _ _ Ru). intro c. unfold fput, look. destruct (box_eqb (i, j) c); reflexivity. }
  destruct (fmake_Some L H M g u (i, j) a S RM G RU) as (s & E1 & HFS & _). exists u, s. split; [exact Eu|]. split; [exact E1|exact HFS].
Qed.
Lemma T_geti0 : forall L g o t r c, T (look L g o) t -> (forall d v, o = Some (d, v) -> d <> (r, c)) -> geti0 t r c = Ok (if fin L r c then g r c else 0).
Proof.
  intros L g o t r c [W R] N. rewrite geti0_lookup. assert (E : look L g o (r, c) = fbase L g (r, c)).
  { unfold look. destruct o as [[d v]|]; [|reflexivity]. replace (box_eqb d (r, c)) with false; [reflexivity|]. symmetry. apply box_eqb_neq. apply (N d v eq_refl). }
  rewrite R, E. unfold fbase. cbn [fst snd]. destruct (fin L r c); reflexivity.
Qed.

(* loops *)
Lemma segment_length : forall (t : tab) (f : Z -> box) lo hi, (forall x y, f x = f y -> x = y) -> (forall y, lo < y <= hi -> tlookup t (f y) <> None) -> hi - lo <= Z.of_nat (length t).
Proof.
  intros t f lo hi J H. destruct (Z_le_gt_dec hi lo); [lia|]. pose proof (NoDup_incl_length (l := map f (zrange (lo + 1) (hi + 1))) (l' := map fst t)) as K.
  rewrite !map_length, length_zrange in K. assert (Z.to_nat (hi + 1 - (lo + 1)) <= length t)%nat; [|lia]. apply K.
  - apply FinFun.Injective_map_NoDup; [exact J|apply NoDup_zrange].
  - intros c Hc. apply in_map_iff in Hc. destruct Hc as (y & <- & Hy). apply In_zrange in Hy. specialize (H y ltac:(lia)). destruct (tlookup t (f y)) as [l|] eqn:E; [|contradiction]. apply tlookup_In in E. apply (in_map fst) in E. exact E.
Qed.
Lemma f_slide : forall t i b (f : Z -> Z) x, (tlookup t (i, x + 1) = None \/ exists v, tlookup t (i, x + 1) = Some [v] /\ b < v) ->
  forall fuel x0, x0 <= x -> (forall y, x0 < y <= x -> tlookup t (i, y) = Some [f y] /\ f y <= b) -> x - x0 <= Z.of_nat fuel -> slide fuel t i x0 b = Ok x.
Proof.
  intros t i b f x H2. induction fuel as [|fuel IH]; intros x0 Hx H1 Hf; cbn [slide]; [f_equal; lia|].
  destruct (Z.eq_dec x0 x) as [->|E].
  - unfold tmem. destruct H2 as [H2|(v & H2 & Hv)]; rewrite H2; [reflexivity|]. rewrite (geti_lookup t i (x + 1) v H2). cbn [rbind].
    replace (v <=? b) with false by (symmetry; apply Z.leb_gt; assumption). reflexivity.
  - destruct (H1 (x0 + 1) ltac:(lia)) as [H3 H4]. unfold tmem. rewrite H3. rewrite (geti_lookup _ _ _ _ H3). cbn [rbind].
    replace (f (x0 + 1) <=? b) with true by (symmetry; apply Z.leb_le; assumption). apply IH; [lia| |lia]. intros y Hy. apply H1. lia.
Qed.
Lemma f_slide_down : forall t j b (f : Z -> Z) x, (tlookup t (x + 1, j) = None \/ exists v, tlookup t (x + 1, j) = Some [v] /\ b < v) ->
  forall fuel x0, x0 <= x -> (forall y, x0 < y <= x -> tlookup t (y, j) = Some [f y] /\ f y <= b) -> x - x0 <= Z.of_nat fuel -> slide_down fuel t x0 j b = Ok x.
Proof.
  intros t j b f x H2. induction fuel as [|fuel IH]; intros x0 Hx H1 Hf; cbn [slide_down]; [f_equal; lia|].
  destruct (Z.eq_dec x0 x) as [->|E].
  - unfold tmem. destruct H2 as [H2|(v & H2 & Hv)]; rewrite H2; [reflexivity|]. rewrite (geti_lookup t (x + 1) j v H2). cbn [rbind].
    replace (v <=? b) with false by (symmetry; apply Z.leb_gt; assumption). reflexivity.
  - destruct (H1 (x0 + 1) ltac:(lia)) as [H3 H4]. unfold tmem. rewrite H3. rewrite (geti_lookup _ _ _ _ H3). cbn [rbind].
    replace (f (x0 + 1) <=? b) with true by (symmetry; apply Z.leb_le; assumption). apply IH; [lia| |lia]. intros y Hy. apply H1. lia.
Qed.

Lemma updg_restore : forall g i x a r c, updg (updg g i x a) i x (g i x) r c = g r c.
Proof. intros g i x a r c. unfold updg. destruct ((r =? i) && (c =? x)) eqn:E; [|reflexivity]. apply andb_true_iff in E. destruct E as [E1 E2]. apply Z.eqb_eq in E1, E2. subst. reflexivity. Qed.
Lemma bump_state : forall (g g1 : Z -> Z -> Z) i x a r c, (g1 = updg g i x a \/ g1 = g) -> (r <> i \/ c <> x) -> g1 r c = g r c.
Proof. intros g g1 i x a r c [->| ->] N; [apply updg_other; exact N|reflexivity]. Qed.

Section Back.
  Variables (L H : Z -> Z) (M : Z) (g : Z -> Z -> Z) (a : Z) (s : hstate).
  Hypothesis HM : rows L M.
  Hypothesis NN : NNf L g.
  Hypothesis Ha : 0 <= a.

  Lemma look_in : forall g1 d b r c, FS L M g1 d b s -> fshape L H -> good_outer L M d -> fin L r c = true -> tlookup (htab s) (r, c) = Some [g1 r c].
  Proof. intros g1 d b r c ((W & R) & _) S G F. rewrite R. apply fin_iff in F. apply look_base; [exact (good_outside L H M d S HM G)|lia|lia|lia]. Qed.
  Lemma look_no : forall g1 d b r c, FS L M g1 d b s -> fin L r c = false -> d <> (r, c) -> tlookup (htab s) (r, c) = None.
  Proof. intros g1 d b r c ((W & R) & _) F N. rewrite R. apply look_out; [apply fin_false; exact F|congruence]. Qed.

  (* rows *)
  Lemma r_back : forall g1 i x, RInv L H g i a -> r_bump L g i a x -> i < x ->
    (g1 = updg g i x a /\ r_rep g i a x \/ g1 = g /\ ~ r_rep g i a x) -> FS L M g1 (i + 1, L 1 + 2) (g i x) s ->
    exists s0 b, f_inverse_row s = Ok (s0, b) /\ FS L M g (i, L 1 + 2) a s0.
  Proof.
    intros g1 i x HI B h C Hs. pose proof HI as (S & I & Hi & _). pose proof B as (Hx & B1 & B2). pose proof (proj1 S 1 ltac:(lia)) as L0. pose proof (proj1 (proj2 HM i Hi) ltac:(lia)) as HiM.
    assert (XL : x <= L 1) by (pose proof (L_le1 L H i S Hi ltac:(lia)); lia).
    assert (G : good_outer L M (i + 1, L 1 + 2)) by (left; cbn [fst snd]; lia). assert (G' : good_outer L M (i, L 1 + 2)) by (left; cbn [fst snd]; lia).
    assert (C' : g1 = updg g i x a \/ g1 = g) by tauto. assert (GX : g1 i x <= g i x) by (destruct C as [[-> _]|[-> _]]; [rewrite updg_same|]; lia).
    pose proof Hs as (R & Ho & _). unfold f_inverse_row. rewrite Ho. rewrite (T_geti _ _ _ _ _ R (look_outer L g1 (i + 1, L 1 + 2) (g i x))). cbn [rbind].
    replace (i + 1 - 1) with i by lia. replace (i + 1 - 2) with (i - 1) by lia.
    rewrite (f_slide (htab s) i (g i x) (g1 i) x).
    - cbn [rbind]. rewrite (proj2 (Z.ltb_lt i x) h). rewrite (geti_lookup _ i x (g1 i x)) by (apply (look_in _ _ _ i x Hs S G); apply fin_iff; lia). cbn [rbind].
      destruct (remove_outer L g1 (i + 1, L 1 + 2) (g i x) (htab s) R (good_outside L H M _ S HM G)) as (u & Eu & Ru). cbn [fst snd] in Eu.
      destruct C as [[E C]|[E C]].
      + subst g1. rewrite updg_same. rewrite (proj2 (Z.eqb_neq a (g i x))) by lia. rewrite Eu. cbn [rbind].
        destruct (replace_state L _ None u i x (g i x) Ru Hi ltac:(lia) ltac:(lia) ltac:(intros; discriminate)) as (u2 & E2 & R2). rewrite E2. cbn [rbind].
        destruct (f_enter L H M _ u2 (i, L 1 + 2) a S HM G' R2) as (u3 & s0 & E3 & E4 & F). cbn [fst snd] in E3, E4. rewrite E3. cbn [rbind]. rewrite E4. cbn [rbind]. eexists _, _. split; [reflexivity|]. apply (FS_ext _ _ _ _ _ _ _ F). intros r c _. apply updg_restore.
      + subst g1. rewrite Z.eqb_refl. rewrite (geti_lookup _ i (x - 1) (g i (x - 1))) by (apply (look_in _ _ _ i (x - 1) Hs S G); apply fin_iff; lia). cbn [rbind].
        rewrite (T_geti0 _ _ _ _ (i - 1) x R) by (intros d v K; injection K as <- <-; intro K; injection K as K1 K2; lia). cbn [rbind]. rewrite Eu. cbn [rbind].
        rewrite (r_pass_value L H g i a x HI B h C Ha).
        destruct (f_enter L H M _ u (i, L 1 + 2) a S HM G' Ru) as (u3 & s0 & E3 & E4 & F). cbn [fst snd] in E3, E4. rewrite E3. cbn [rbind]. rewrite E4. cbn [rbind]. eexists _, _. split; [reflexivity|exact F].
    - destruct (fin L i (x + 1)) eqn:Fx.
      + right. exists (g i (x + 1)). split; [rewrite (look_in _ _ _ i (x + 1) Hs S G Fx); rewrite (bump_state g g1 i x a i (x + 1) C' ltac:(lia)); reflexivity|]. apply fin_iff in Fx. apply I; lia.
      + left. apply (look_no _ _ _ _ _ Hs Fx). intro K. injection K as K1 K2. lia.
    - lia.
    - intros y Hy. split; [apply (look_in _ _ _ i y Hs S G); apply fin_iff; lia|]. destruct (Z.eq_dec y x) as [->|]; [exact GX|]. rewrite (bump_state g g1 i x a i y C' ltac:(lia)). pose proof (frow_mono L g i y x I Hi ltac:(lia) ltac:(lia) ltac:(lia)). lia.
    - apply (segment_length _ (fun y => (i, y))); [intros u v K; injection K as K; exact K|]. intros y Hy. rewrite (look_in _ _ _ i y Hs S G) by (apply fin_iff; lia). discriminate.
  Qed.

  (* columns *)
  Lemma c_back : forall g1 j x, CInv L H g j a -> c_bump H g j a x ->
    (g1 = updg g x j a /\ c_rep g j a x \/ g1 = g /\ ~ c_rep g j a x) -> FS L M g1 (M + 2, j + 1) (g x j) s ->
    exists s0 b, f_inverse_column s = Ok (s0, b) /\ FS L M g (M + 2, j) a s0.
  Proof.
    intros g1 j x HI B C Hs. pose proof (c_bump_left L H g j a x HI B) as (X1 & X2 & X3). pose proof HI as (S & I & Hj & _). pose proof B as (Hx & B1 & B2). pose proof S as (S1 & S2 & S3). pose proof (proj1 HM) as M0.
    assert (JL : forall y, 1 <= y <= H j -> fin L y j = true). { intros y Hy. apply fin_iff. pose proof (S2 j ltac:(lia)). split; [lia|]. apply S3; lia. }
    assert (J1 : j <= L 1) by (pose proof (JL 1 ltac:(lia)) as K; apply fin_iff in K; lia).
    assert (G : good_outer L M (M + 2, j + 1)) by (right; cbn [fst snd]; lia). assert (G' : good_outer L M (M + 2, j)) by (right; cbn [fst snd]; lia).
    assert (C' : g1 = updg g x j a \/ g1 = g) by tauto. assert (GX : g1 x j <= g x j) by (destruct C as [[-> _]|[-> _]]; [rewrite updg_same|]; lia).
    pose proof Hs as (R & Ho & _). unfold f_inverse_column. rewrite Ho. rewrite (T_geti _ _ _ _ _ R (look_outer L g1 (M + 2, j + 1) (g x j))). cbn [rbind].
    replace (j + 1 - 1) with j by lia. replace (j + 1 - 2) with (j - 1) by lia.
    rewrite (f_slide_down (htab s) j (g x j) (fun y => g1 y j) x).
    - cbn [rbind]. rewrite (proj2 (Z.eqb_neq x j)) by lia. cbn [andb]. rewrite (geti_lookup _ x j (g1 x j)) by (apply (look_in _ _ _ x j Hs S G); apply JL; lia). cbn [rbind].
      destruct (remove_outer L g1 (M + 2, j + 1) (g x j) (htab s) R (good_outside L H M _ S HM G)) as (u & Eu & Ru). cbn [fst snd] in Eu.
      destruct C as [[E C]|[E C]].
      + subst g1. rewrite updg_same. rewrite (proj2 (Z.eqb_neq a (g x j))) by lia. rewrite Eu. cbn [rbind].
        destruct (replace_state L _ None u x j (g x j) Ru ltac:(lia) ltac:(lia) ltac:(pose proof (proj1 (fin_iff L x j) (JL x Hx)); lia) ltac:(intros; discriminate)) as (u2 & E2 & R2). rewrite E2. cbn [rbind].
        destruct (f_enter L H M _ u2 (M + 2, j) a S HM G' R2) as (u3 & s0 & E3 & E4 & F). cbn [fst snd] in E3, E4. rewrite E3. cbn [rbind]. rewrite E4. cbn [rbind]. eexists _, _. split; [reflexivity|]. apply (FS_ext _ _ _ _ _ _ _ F). intros r c _. apply updg_restore.
      + subst g1. rewrite Z.eqb_refl. destruct (c_pass_value L H g j a x HI B C) as [V1 V2]. rewrite (geti_lookup _ (x - 1) j (g (x - 1) j)) by (apply (look_in _ _ _ (x - 1) j Hs S G); apply JL; lia). cbn [rbind].
        rewrite (T_geti0 _ _ _ _ x (j - 1) R) by (intros d v K; injection K as <- <-; intro K; injection K as K1 K2; lia). cbn [rbind]. rewrite (proj2 (fin_iff L x (j - 1))) by lia. rewrite Eu. cbn [rbind].
        rewrite V2. destruct (f_enter L H M _ u (M + 2, j) a S HM G' Ru) as (u3 & s0 & E3 & E4 & F). cbn [fst snd] in E3, E4. rewrite E3. cbn [rbind]. rewrite E4. cbn [rbind]. eexists _, _. split; [reflexivity|exact F].
    - destruct (fin L (x + 1) j) eqn:Fx.
      + right. exists (g (x + 1) j). split; [rewrite (look_in _ _ _ (x + 1) j Hs S G Fx); rewrite (bump_state g g1 x j a (x + 1) j C' ltac:(lia)); reflexivity|]. apply fin_iff in Fx. apply I; lia.
      + left. apply (look_no _ _ _ _ _ Hs Fx). intro K. injection K as K1 K2. lia.
    - lia.
    - intros y Hy. split; [apply (look_in _ _ _ y j Hs S G); apply JL; lia|]. destruct (Z.eq_dec y x) as [->|]; [exact GX|]. rewrite (bump_state g g1 x j a y j C' ltac:(lia)). pose proof (fcol_mono L H g y x j S I ltac:(lia) ltac:(lia) ltac:(lia)) as K. specialize (K ltac:(pose proof (proj1 (fin_iff L x j) (JL x Hx)); lia)). lia.
    - apply (segment_length _ (fun y => (y, j))); [intros u v K; injection K as K; exact K|]. intros y Hy. rewrite (look_in _ _ _ y j Hs S G) by (apply JL; lia). discriminate.
  Qed.

  (* the diagonal *)
  Lemma d_slide : forall g1 i b, fshape L H -> FIncr L g1 -> 1 <= i -> i <= L i -> FS L M g1 (M + 2, i + 1) b s -> g1 i i <= b -> slide_down (length (htab s)) (htab s) 1 i b = Ok i.
  Proof.
    intros g1 i b S I Hi Hl Hs Hb. pose proof (L_le1 L H i S Hi Hl). assert (G : good_outer L M (M + 2, i + 1)) by (right; cbn [fst snd]; lia). pose proof S as (S1 & S2 & S3).
    assert (JL : forall y, 1 <= y <= i -> fin L y i = true). { intros y Hy. apply fin_iff. split; [lia|]. apply (fmono L H y i i S); lia. }
    rewrite (f_slide_down (htab s) i b (fun y => g1 y i) i).
    - reflexivity.
    - left. apply (look_no _ _ _ _ _ Hs); [apply fin_false; lia|]. intro K. injection K as K1 K2. lia.
    - lia.
    - intros y Hy. split; [apply (look_in _ _ _ y i Hs S G); apply JL; lia|]. destruct (Z.eq_dec y i) as [->|]; [exact Hb|]. pose proof (fcol_mono L H g1 y i i S I ltac:(lia) ltac:(lia) ltac:(lia) Hl). lia.
    - apply (segment_length _ (fun y => (y, i))); [intros u v K; injection K as K; exact K|]. intros y Hy. rewrite (look_in _ _ _ y i Hs S G) by (apply JL; lia). discriminate.
  Qed.
  Lemma holds_value_in : forall g1 d b r c v, FS L M g1 d b s -> fshape L H -> good_outer L M d -> fin L r c = true -> holds_value (htab s) r c v = (g1 r c =? v).
  Proof. intros g1 d b r c v Hs S G F. unfold holds_value, tget. rewrite (look_in _ _ _ r c Hs S G F). reflexivity. Qed.
  Lemma holds_value_no : forall g1 d b r c v, FS L M g1 d b s -> fin L r c = false -> d <> (r, c) -> holds_value (htab s) r c v = false.
  Proof. intros g1 d b r c v Hs F N. unfold holds_value, tget. rewrite (look_no _ _ _ r c Hs F N). reflexivity. Qed.

  Lemma d1_back : forall i, RInv L H g i a -> r_bump L g i a (i + 1) -> ~ r_rep g i a (i + 1) -> g i (i + 1) mod 2 = 0 -> FS L M g (M + 2, i + 1) (g i (i + 1)) s ->
    exists s0 b, f_inverse_column s = Ok (s0, b) /\ FS L M g (i, L 1 + 2) a s0.
  Proof.
    intros i HI B C Ev Hs. pose proof HI as (S & I & Hi & _). pose proof B as (Hx & B1 & B2). pose proof (proj1 HM) as M0. pose proof (L_le1 L H i S Hi ltac:(lia)) as LL. pose proof (proj1 (proj2 HM i Hi) ltac:(lia)) as HiM.
    assert (G : good_outer L M (M + 2, i + 1)) by (right; cbn [fst snd]; lia). assert (G' : good_outer L M (i, L 1 + 2)) by (left; cbn [fst snd]; lia).
    pose proof Hs as (R & Ho & _). unfold f_inverse_column. rewrite Ho. rewrite (T_geti _ _ _ _ _ R (look_outer L g (M + 2, i + 1) (g i (i + 1)))). cbn [rbind].
    replace (i + 1 - 1) with i by lia. replace (i + 1 - 2) with (i - 1) by lia. pose proof (proj1 I i i Hi ltac:(lia) ltac:(lia)) as GI. rewrite (d_slide g i (g i (i + 1)) S I Hi ltac:(lia) Hs ltac:(lia)). cbn [rbind].
    rewrite (geti_lookup _ i i (g i i)) by (apply (look_in _ _ _ i i Hs S G); apply fin_iff; lia). cbn [rbind]. rewrite Z.eqb_refl. rewrite (holds_value_in g _ _ i (i + 1) _ Hs S G) by (apply fin_iff; lia). rewrite Z.eqb_refl, Ev. cbn [andb Z.eqb].
    destruct (remove_outer L g (M + 2, i + 1) (g i (i + 1)) (htab s) R (good_outside L H M _ S HM G)) as (u & Eu & Ru). cbn [fst snd] in Eu. rewrite Eu. cbn [rbind]. rewrite (fmax_column L H g u S Ru).
    rewrite (T_geti _ _ _ _ _ Ru (look_base0 L g i i Hi ltac:(lia) ltac:(lia))). cbn [rbind]. rewrite (T_geti0 _ _ _ _ (i - 1) (i + 1) Ru) by (intros; discriminate). cbn [rbind].
    pose proof (r_pass_value L H g i a (i + 1) HI B ltac:(lia) C Ha) as V. replace (i + 1 - 1) with i in V by lia. rewrite V.
    destruct (f_enter L H M _ u (i, L 1 + 2) a S HM G' Ru) as (u3 & s0 & E3 & E4 & F). cbn [fst snd] in E3, E4. rewrite E3. cbn [rbind]. rewrite E4. cbn [rbind]. eexists _, _. split; [reflexivity|exact F].
  Qed.
  Lemma d2_back : forall g1 i, RInv L H g i a -> r_bump L g i a i -> FIncr L g1 -> Evn L g -> g i i mod 2 = 0 ->
    (g1 = updg g i i a /\ d_rep g i a \/ g1 = g /\ ~ d_rep g i a) -> FS L M g1 (M + 2, i + 1) (g i i) s ->
    exists s0 b, f_inverse_column s = Ok (s0, b) /\ FS L M g (i, L 1 + 2) a s0.
  Proof.
    intros g1 i HI B I1 Ev Ei C Hs. pose proof HI as (S & I & Hi & _). pose proof B as (Hx & B1 & B2). pose proof (proj1 HM) as M0. pose proof (L_le1 L H i S Hi ltac:(lia)) as LL. pose proof (proj1 (proj2 HM i Hi) ltac:(lia)) as HiM.
    assert (G : good_outer L M (M + 2, i + 1)) by (right; cbn [fst snd]; lia). assert (G' : good_outer L M (i, L 1 + 2)) by (left; cbn [fst snd]; lia).
    assert (C' : g1 = updg g i i a \/ g1 = g) by tauto. assert (GX : g1 i i <= g i i) by (destruct C as [[-> _]|[-> _]]; [rewrite updg_same|]; lia).
    pose proof Hs as (R & Ho & _). unfold f_inverse_column. rewrite Ho. rewrite (T_geti _ _ _ _ _ R (look_outer L g1 (M + 2, i + 1) (g i i))). cbn [rbind].
    replace (i + 1 - 1) with i by lia. replace (i + 1 - 2) with (i - 1) by lia. rewrite (d_slide g1 i (g i i) S I1 Hi ltac:(lia) Hs GX). cbn [rbind].
    rewrite (geti_lookup _ i i (g1 i i)) by (apply (look_in _ _ _ i i Hs S G); apply fin_iff; lia). cbn [rbind]. rewrite Z.eqb_refl. cbn [andb].
    assert (HV : holds_value (htab s) i (i + 1) (g i i) = false).
    { destruct (fin L i (i + 1)) eqn:Fx.
      - rewrite (holds_value_in g1 _ _ i (i + 1) _ Hs S G Fx). rewrite (bump_state g g1 i i a i (i + 1) C' ltac:(lia)). apply fin_iff in Fx. pose proof (proj1 I i i Hi ltac:(lia) ltac:(lia)). apply Z.eqb_neq. lia.
      - apply (holds_value_no g1 _ _ _ _ _ Hs Fx). intro K. injection K as K1. lia. }
    rewrite HV, Ei. cbn [andb Z.eqb negb]. rewrite andb_false_r. rewrite !andb_true_r.
    destruct C as [[E C]|[E C]]; subst g1.
    - rewrite updg_same. rewrite (proj2 (Z.eqb_neq a (g i i))) by lia. cbn [rbind]. rewrite (proj2 (Z.ltb_lt a (g i i))) by lia.
      destruct (replace_state L _ _ (htab s) i i (g i i) R Hi ltac:(lia) ltac:(lia)) as (u2 & E2 & R2); [intros d w K; injection K as <- <-; exact (good_outside L H M _ S HM G)|]. rewrite E2. cbn [rbind].
      destruct (remove_outer L _ (M + 2, i + 1) (g i i) u2 R2 (good_outside L H M _ S HM G)) as (u & Eu & Ru). cbn [fst snd] in Eu. rewrite Eu. cbn [rbind]. rewrite (fmax_column L H _ u S Ru).
      destruct (f_enter L H M _ u (i, L 1 + 2) a S HM G' Ru) as (u3 & s0 & E3 & E4 & F). cbn [fst snd] in E3, E4. rewrite E3. cbn [rbind]. rewrite E4. cbn [rbind]. eexists _, _. split; [reflexivity|]. apply (FS_ext _ _ _ _ _ _ _ F). intros r c _. apply updg_restore.
    - rewrite Z.eqb_refl. destruct (d_pass_value L H g i a HI B C) as (V1 & V2 & V3). rewrite (geti_lookup _ (i - 1) i (g (i - 1) i)) by (apply (look_in _ _ _ (i - 1) i Hs S G); apply fin_iff; lia). cbn [rbind].
      rewrite (Ev (i - 1) i) by (apply fin_iff; lia). cbn [Z.eqb].
      destruct (remove_outer L g (M + 2, i + 1) (g i i) (htab s) R (good_outside L H M _ S HM G)) as (u & Eu & Ru). cbn [fst snd] in Eu. rewrite Eu. cbn [rbind]. rewrite (fmax_column L H g u S Ru).
      rewrite (T_geti _ _ _ _ _ Ru (look_base0 L g (i - 1) i ltac:(lia) ltac:(lia) ltac:(lia))). cbn [rbind]. rewrite V3.
      destruct (f_enter L H M _ u (i, L 1 + 2) a S HM G' Ru) as (u3 & s0 & E3 & E4 & F). cbn [fst snd] in E3, E4. rewrite E3. cbn [rbind]. rewrite E4. cbn [rbind]. eexists _, _. split; [reflexivity|exact F].
  Qed.
End Back.
