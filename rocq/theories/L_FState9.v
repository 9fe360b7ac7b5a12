(* Undoing an insertion of shifted Hecke insertion *)
From Coq Require Import List ZArith Bool Lia Sorted Permutation.
From Verif Require Import PyBase M_Partitions L_PartMore M_Tableaux S_Tableaux L_Tableaux M_Insertion M_FState L_Insertion1 L_Insertion2 L_Insertion3 L_Insertion4 L_FState1 L_FState2 L_FState3 L_FState4 L_FState5 L_FState6 L_FState8.
Import ListNotations.
Local Open Scope Z_scope.

Definition vvals (v : pyval) : list Z := match v with VInt x => [x] | VTup l => zset l end.
(* the record says whether a box was added and whether the insertion left the rows *)
Definition rec_ok (k neg : bool) (v : pyval) : Prop :=
  exists n : Z, zmax (map Z.abs (vvals v)) = Some n /\ existsb (Z.eqb n) (vvals v) = negb neg /\ existsb (Z.eqb n) (vvals v) && existsb (Z.eqb (- n)) (vvals v) = false /\
    if k then exists x, vvals v = [x] else exists x y l, vvals v = x :: y :: l.

Lemma f_previous_terminal : forall L g s (r : Z * Z * pyval), FN L g s -> f_previous s (Some r) = rbind (f_inverse_terminal s r) (fun sb : hstate * box => Ok (fst sb, Some (snd sb))).
Proof. intros L g s r [_ Ho]. unfold f_previous, is_initial, outer_in_last_column, outer_in_last_row. rewrite Ho. reflexivity. Qed.

Lemma t_add : forall L H M g i j a s v (neg : bool), fshape L H -> rows L M -> 1 <= i <= j -> L i = j - 1 ->
  good_outer L M (if neg then (M + 2, j) else (i, L 1 + 2)) -> rec_ok true neg v -> FN (updr L i j) (updg g i j a) s ->
  exists se b, f_previous s (Some (i, j, v)) = Ok (se, b) /\ FS L M g (if neg then (M + 2, j) else (i, L 1 + 2)) a se.
Proof.
  intros L H M g i j a s v neg S HM Hij EL G (n & E1 & E2 & E3 & x & Ex) HN. rewrite (f_previous_terminal _ _ _ _ HN). destruct HN as [R Ho]. unfold f_inverse_terminal.
  change (match v with VInt x => [x] | VTup l => zset l end) with (vvals v). rewrite E1, E3. rewrite E2. rewrite Ex.
  assert (LK : look (updr L i j) (updg g i j a) None (i, j) = Some [a]). { rewrite look_base0; [rewrite updg_same; reflexivity|lia|lia|rewrite updr_same; lia]. }
  rewrite (T_geti _ _ _ _ _ R LK). cbn [rbind]. destruct (T_remove _ _ i j _ R LK) as (u & Eu & Ru). rewrite Eu. cbn [rbind].
  assert (RU : T (look L g None) u).
  { apply (T_ext _ _ _ Ru). intros [r c]. unfold fput. destruct (box_eqb (i, j) (r, c)) eqn:B.
    - apply box_eqb_eq in B. injection B as <- <-. symmetry. apply look_out0. lia.
    - apply box_eqb_neq in B. assert (NE : r <> i \/ c <> j). { destruct (Z.eq_dec r i) as [->|]; [right|left; assumption]. intros ->. apply B. reflexivity. }
      unfold look, fbase. cbn [fst snd]. rewrite updg_other by assumption. replace (fin (updr L i j) r c) with (fin L r c); [reflexivity|].
      apply eq_true_iff_eq. rewrite !fin_iff. unfold updr. destruct (Z.eqb_spec r i); [subst r; lia|tauto]. }
  rewrite (fmax_column L H g u S RU). rewrite (rows_unique L (max_row u None) M (fmax_row L H g u S RU) HM).
  destruct (f_enter L H M g u _ a S HM G RU) as (u3 & s0 & E4 & E5 & F). destruct neg; cbn [negb fst snd] in *; rewrite E4; cbn [rbind]; rewrite E5; cbn [rbind fst snd]; eexists _, _; (split; [reflexivity|exact F]).
Qed.

Lemma f_climb : forall L H g t i, fshape L H -> T (look L g None) t -> 1 <= i -> i <= L i -> (i = 1 \/ 2 <= i /\ L i + 1 <= L (i - 1)) ->
  forall fuel r, i <= r -> r <= H (L i) -> r - i < Z.of_nat fuel -> climb fuel t r (L i) = i.
Proof.
  intros L H g t i S R Hi HL HT. pose proof S as (S1 & S2 & S3). pose proof (S2 (L i) ltac:(lia)) as HB. induction fuel as [|fuel IH]; intros r Hr HLr Hf; [lia|]. cbn [climb]. rewrite !(T_fin L g t _ _ R).
  destruct (Z.eq_dec r i) as [->|E].
  - replace (fin L (i - 1) (L i) && negb (fin L (i - 1) (L i + 1))) with false; [reflexivity|]. symmetry. destruct HT as [->|HT].
    + rewrite (proj2 (fin_false L (1 - 1) (L 1))) by lia. reflexivity.
    + rewrite (proj2 (fin_iff L (i - 1) (L i + 1))) by lia. apply andb_false_r.
  - rewrite (proj2 (fin_iff L (r - 1) (L i))) by (split; [lia|]; apply S3; lia).
    rewrite (proj2 (fin_false L (r - 1) (L i + 1))) by (intro K; pose proof (fmono L H i (r - 1) (L i + 1) S); lia). cbn [negb andb]. apply IH; lia.
Qed.
Lemma t_stop_row : forall L H M g i a s v, RInv L H g i a -> r_full L g i a -> ~ r_add L g i a -> 0 <= a -> rows L M -> rec_ok false false v -> FN L g s ->
  exists se b, f_previous s (Some (H (L i), L i, v)) = Ok (se, b) /\ FS L M g (i, L 1 + 2) a se.
Proof.
  intros L H M g i a s v HI F C Ha HM (n & E1 & E2 & E3 & x & y & l & Ex) HN. rewrite (f_previous_terminal _ _ _ _ HN). destruct HN as [R Ho]. unfold f_inverse_terminal.
  change (match v with VInt x => [x] | VTup l => zset l end) with (vvals v). rewrite E1, E3. rewrite E2. rewrite Ex. cbn [negb].
  assert (O : RIns L H g i a L H g (i, L i + 1) false false) by (apply ri_stop; assumption). apply RIns_outcome in O. destruct O as (_ & _ & _ & _ & _ & O). cbn [fst snd] in O.
  pose proof (row_full_above L H g i a HI F) as FA. pose proof HI as (S & I & Hi & _). pose proof S as (S1 & S2 & S3). pose proof (proj1 (S3 i (L i) Hi ltac:(lia)) ltac:(lia)) as HH.
  rewrite (f_climb L H g (htab s) i S R Hi ltac:(lia) ltac:(lia)) by lia. rewrite (T_geti _ _ _ _ _ R (look_base0 L g i (L i) Hi ltac:(lia) ltac:(lia))). cbn [rbind].
  rewrite (T_geti0 _ _ _ _ (i - 1) (L i + 1) R) by (intros; discriminate). cbn [rbind]. rewrite (r_stop_value L H g i a HI F C Ha). rewrite (fmax_column L H g _ S R).
  assert (G : good_outer L M (i, L 1 + 2)) by (left; cbn [fst snd]; pose proof (proj1 (proj2 HM i Hi)); lia).
  destruct (f_enter L H M g _ (i, L 1 + 2) a S HM G R) as (u3 & s0 & E4 & E5 & K). cbn [fst snd] in E4, E5. rewrite E4. cbn [rbind]. rewrite E5. cbn [rbind fst snd]. eexists _, _. split; [reflexivity|exact K].
Qed.

Lemma f_climb_left : forall L g t i j, T (look L g None) t -> 1 <= i -> L (i + 1) = j - 1 -> i + 1 <= j ->
  forall fuel r, j <= r -> r <= L i -> r - j < Z.of_nat fuel -> climb_left fuel t i r = j.
Proof.
  intros L g t i j R Hi HL HT. induction fuel as [|fuel IH]; intros r Hr HLr Hf; [lia|]. cbn [climb_left]. rewrite !(T_fin L g t _ _ R).
  destruct (Z.eq_dec r j) as [->|E].
  - destruct (Z.leb_spec (i + 1) (j - 1)) as [h|h]; [|rewrite andb_false_r; reflexivity]. rewrite (proj2 (fin_iff L (i + 1) (j - 1))) by lia. cbn [negb]. rewrite andb_false_r. reflexivity.
  - rewrite (proj2 (fin_iff L i (r - 1))) by lia. rewrite (proj2 (fin_false L (i + 1) (r - 1))) by lia. rewrite (proj2 (Z.leb_le (i + 1) (r - 1))) by lia. cbn [negb andb]. apply IH; lia.
Qed.
Lemma t_stop_col : forall L H M g i j a s v, fshape L H -> 1 <= i -> i + 1 <= j -> j <= L i -> L (i + 1) = j - 1 -> Z.max (g i j) (if fin L (i + 1) (j - 1) then g (i + 1) (j - 1) else 0) = a ->
  rows L M -> rec_ok false true v -> FN L g s -> exists se b, f_previous s (Some (i, L i, v)) = Ok (se, b) /\ FS L M g (M + 2, j) a se.
Proof.
  intros L H M g i j a s v S Hi Hj HL HL1 Ea HM (n & E1 & E2 & E3 & x & y & l & Ex) HN. rewrite (f_previous_terminal _ _ _ _ HN). destruct HN as [R Ho]. unfold f_inverse_terminal.
  change (match v with VInt x => [x] | VTup l => zset l end) with (vvals v). rewrite E1, E3. rewrite E2. rewrite Ex. cbn [negb].
  rewrite (f_climb_left L g (htab s) i j R Hi HL1 Hj) by lia. rewrite (T_geti _ _ _ _ _ R (look_base0 L g i j Hi ltac:(lia) ltac:(lia))). cbn [rbind].
  rewrite (T_geti0 _ _ _ _ (i + 1) (j - 1) R) by (intros; discriminate). cbn [rbind]. rewrite Ea. rewrite (rows_unique L (max_row (htab s) None) M (fmax_row L H g _ S R) HM).
  assert (G : good_outer L M (M + 2, j)) by (right; cbn [fst snd]; pose proof (L_le1 L H i S Hi); lia).
  destruct (f_enter L H M g _ (M + 2, j) a S HM G R) as (u3 & s0 & E4 & E5 & K). cbn [fst snd] in E4, E5. rewrite E4. cbn [rbind]. rewrite E5. cbn [rbind fst snd]. eexists _, _. split; [reflexivity|exact K].
Qed.

(* one step of the loop *)
Lemma rewind_row : forall L M g i b s s0 d fuel, FS L M g (i, L 1 + 2) b s -> 2 <= i -> f_inverse_row s = Ok (s0, d) -> f_rewind (S fuel) s = f_rewind fuel s0.
Proof.
  intros L M g i b s s0 d fuel Hs Hi E. cbn [f_rewind]. unfold f_previous. rewrite (FS_last_column L M g i b s Hs). destruct Hs as (_ & Ho & _). unfold is_initial. rewrite Ho. rewrite (proj2 (Z.eqb_neq i 1)) by lia. rewrite E. reflexivity.
Qed.
Lemma rewind_column : forall L M g j b s s0 d fuel, FS L M g (M + 2, j) b s -> 0 <= M -> j <= L 1 + 1 -> f_inverse_column s = Ok (s0, d) -> f_rewind (S fuel) s = f_rewind fuel s0.
Proof.
  intros L M g j b s s0 d fuel Hs HM Hj E. cbn [f_rewind]. unfold f_previous. destruct (FS_last_row L M g j b s Hs Hj) as [-> ->]. destruct Hs as (_ & Ho & _). unfold is_initial. rewrite Ho. rewrite (proj2 (Z.eqb_neq (M + 2) 1)) by lia. rewrite E. reflexivity.
Qed.

Lemma CIns_inv : forall L H g j a L' H' g' c k, CIns L H g j a L' H' g' c k -> CInv L H g j a.
Proof. intros L H g j a L' H' g' c k K. destruct K; assumption. Qed.

Lemma c_bump_fin : forall L H g j a x, CInv L H g j a -> c_bump H g j a x -> fin L x j = true.
Proof. intros L H g j a x ((S1 & S2 & S3) & _ & Hj & _) (Hx & _). pose proof (S2 j ltac:(lia)). apply fin_iff. split; [lia|]. apply S3; lia. Qed.
Lemma c_undo : forall L H g j a L' H' g' c k, CIns L H g j a L' H' g' c k -> forall M s v, rows L M -> FN L' g' s -> rec_ok k true v ->
  exists se b si n, f_previous s (Some (fst (recorded_box L H c k true), snd (recorded_box L H c k true), v)) = Ok (se, b) /\ FS L M g (M + 2, j) a si /\
    Z.of_nat n = snd c - j /\ snd c <= L 1 + 1 /\ forall fuel, f_rewind (n + fuel) se = f_rewind fuel si.
Proof.
  intros L H g j a L' H' g' c k HC. induction HC as [L H g j a I F C|L H g j a I F C|L H g j a x L' H' g' c k I B C K IH|L H g j a x L' H' g' c k I B C K IH]; intros M s v HM HN HV.
  - pose proof (col_full_left L H g j a I F) as (F0 & F1 & F2 & F3 & F4 & F5). pose proof I as (S & _). unfold recorded_box. cbn [fst snd].
    assert (J1 : j <= L 1 + 1) by (pose proof (L_le1 L H (H j + 1) S); lia).
    destruct (t_add L H M g (H j + 1) j a s v true S HM ltac:(lia) F3 ltac:(right; cbn [fst snd]; lia) HV HN) as (se & b & E & Fe). exists se, b, se, O. split; [exact E|]. split; [exact Fe|]. split; [lia|]. split; [exact J1|reflexivity].
  - pose proof (col_full_left L H g j a I F) as (F0 & F1 & F2 & F3 & F4 & F5). pose proof (c_stop_value L H g j a I F C) as [V1 V2]. pose proof I as (S & _ & Hj & _). pose proof S as (S1 & S2 & S3). unfold recorded_box. cbn [fst snd]. replace (H j + 1 - 1) with (H j) by lia.
    assert (J1 : j <= L 1 + 1) by (pose proof (L_le1 L H (H j + 1) S); lia).
    destruct (t_stop_col L H M g (H j) j a s v S V1 ltac:(lia)) as (se & b & E & Fe); try assumption.
    + apply S3; lia.
    + rewrite (proj2 (fin_iff L (H j + 1) (j - 1))) by lia. exact V2.
    + exists se, b, se, O. split; [exact E|]. split; [exact Fe|]. split; [lia|]. split; [exact J1|reflexivity].
  - pose proof (c_bump_fin L H g j a x I B) as Fx. pose proof I as (S & _ & Hj & _). destruct (IH M s v HM HN HV) as (se & b & si & n & E & Fe & En & Hc & Hr).
    destruct (c_back L H M g a si HM (updg g x j a) j x I B (or_introl (conj eq_refl C)) Fe) as (s0 & b0 & E0 & F0).
    exists se, b, s0, (n + 1)%nat. split; [exact E|]. split; [exact F0|]. split; [lia|]. split; [exact Hc|]. intro fuel. replace (n + 1 + fuel)%nat with (n + Datatypes.S fuel)%nat by lia. rewrite Hr. apply (rewind_column L M _ (j + 1) _ _ _ _ _ Fe (proj1 HM)) with (2 := E0).
    apply fin_iff in Fx. pose proof (fmono L H 1 x j S). lia.
  - pose proof (c_bump_fin L H g j a x I B) as Fx. pose proof I as (S & _ & Hj & _). destruct (IH M s v HM HN HV) as (se & b & si & n & E & Fe & En & Hc & Hr).
    destruct (c_back L H M g a si HM g j x I B (or_intror (conj eq_refl C)) Fe) as (s0 & b0 & E0 & F0).
    exists se, b, s0, (n + 1)%nat. split; [exact E|]. split; [exact F0|]. split; [lia|]. split; [exact Hc|]. intro fuel. replace (n + 1 + fuel)%nat with (n + Datatypes.S fuel)%nat by lia. rewrite Hr. apply (rewind_column L M _ (j + 1) _ _ _ _ _ Fe (proj1 HM)) with (2 := E0).
    apply fin_iff in Fx. pose proof (fmono L H 1 x j S). lia.
Qed.

Lemma r_bump_nn : forall L H g i a x, RInv L H g i a -> r_bump L g i a x -> NNf L g -> 0 <= g i x.
Proof. intros L H g i a x I B E. apply E. apply fin_iff. destruct B as (B & _). destruct I as (_ & _ & Hi & _). lia. Qed.
Lemma r_undo : forall L H g i a L' H' g' c k (neg : bool), RIns L H g i a L' H' g' c k neg -> NNf L g -> Evn L g -> 0 <= a -> a mod 2 = 0 -> forall M s v, rows L M -> FN L' g' s -> rec_ok k neg v ->
  exists se b si n, f_previous s (Some (fst (recorded_box L H c k neg), snd (recorded_box L H c k neg), v)) = Ok (se, b) /\ FS L M g (i, L 1 + 2) a si /\
    Z.of_nat n = (if neg then snd c else fst c) - i /\ (if neg then snd c <= L 1 + 1 else fst c <= M + 1) /\ forall fuel, f_rewind (n + fuel) se = f_rewind fuel si.
Proof.
  intros L H g i a L' H' g' c k neg HI. induction HI as [L H g i a I F C|L H g i a I F C|L H g i a x L' H' g' c k neg I B h C K IH|L H g i a x L' H' g' c k neg I B h C D K IH|L H g i a I B C D|L H g i a L' H' g' c k I B D K|L H g i a L' H' g' c k I B D K]; intros NN Ev Ha Ea M s v HM HN HV.
  - pose proof (row_full_above L H g i a I F) as FA. pose proof I as (S & _ & Hi & _). pose proof (proj1 S i Hi). unfold recorded_box. cbn [fst snd]. pose proof (proj2 HM (i - 1)) as HM1. pose proof (proj1 HM) as M0.
    destruct (t_add L H M g i (L i + 1) a s v false S HM ltac:(lia) ltac:(lia)) as (se & b & E & Fe); try assumption.
    + left. cbn [fst snd]. lia.
    + exists se, b, se, O. split; [exact E|]. split; [exact Fe|]. split; [lia|]. split; [lia|reflexivity].
  - pose proof (row_full_above L H g i a I F) as FA. pose proof I as (S & _ & Hi & _). pose proof (proj1 S i Hi). unfold recorded_box. cbn [fst snd]. replace (L i + 1 - 1) with (L i) by lia. pose proof (proj2 HM (i - 1)) as HM1. pose proof (proj1 HM) as M0.
    destruct (t_stop_row L H M g i a s v I F C Ha HM HV HN) as (se & b & E & Fe). exists se, b, se, O. split; [exact E|]. split; [exact Fe|]. split; [lia|]. split; [lia|reflexivity].
  - destruct (IH (NNf_replace L g i x a NN Ha) (Evn_replace L g i x a Ev Ea) (r_bump_nn L H g i a x I B NN) (bump_even L H g i a x I B Ev) M s v HM HN HV) as (se & b & si & n & E & Fe & En & Hc & Hr).
    destruct (r_back L H M g a si HM Ha (updg g i x a) i x I B h (or_introl (conj eq_refl C)) Fe) as (s0 & b0 & E0 & F0).
    exists se, b, s0, (n + 1)%nat. split; [exact E|]. split; [exact F0|]. split; [lia|]. split; [exact Hc|]. intro fuel. replace (n + 1 + fuel)%nat with (n + Datatypes.S fuel)%nat by lia. rewrite Hr. apply (rewind_row L M _ (i + 1) _ _ _ _ _ Fe) with (2 := E0). destruct I as (_ & _ & Hi & _). lia.
  - destruct (IH NN Ev (r_bump_nn L H g i a x I B NN) (bump_even L H g i a x I B Ev) M s v HM HN HV) as (se & b & si & n & E & Fe & En & Hc & Hr).
    destruct (r_back L H M g a si HM Ha g i x I B h (or_intror (conj eq_refl C)) Fe) as (s0 & b0 & E0 & F0).
    exists se, b, s0, (n + 1)%nat. split; [exact E|]. split; [exact F0|]. split; [lia|]. split; [exact Hc|]. intro fuel. replace (n + 1 + fuel)%nat with (n + Datatypes.S fuel)%nat by lia. rewrite Hr. apply (rewind_row L M _ (i + 1) _ _ _ _ _ Fe) with (2 := E0). destruct I as (_ & _ & Hi & _). lia.
  - pose proof I as (S & _ & Hi & _). pose proof (proj1 B) as Bx. pose proof (proj1 S (i + 1) ltac:(lia)) as L1. unfold recorded_box. cbn [fst snd]. replace (i + 1 - 1) with i by lia.
    pose proof (r_bump_nn L H g i a (i + 1) I B NN) as N1.
    destruct (t_stop_col L H M g i (i + 1) (g i (i + 1)) s v S Hi ltac:(lia) ltac:(lia) ltac:(lia)) as (se & b & E & Fe); try assumption.
    { rewrite (proj2 (fin_false L (i + 1) (i + 1 - 1))) by lia. lia. }
    destruct (d1_back L H M g a se HM Ha i I B C (bump_even L H g i a _ I B Ev) Fe) as (s0 & b0 & E0 & F0). pose proof (L_le1 L H i S Hi ltac:(lia)).
    exists se, b, s0, 1%nat. split; [exact E|]. split; [exact F0|]. split; [lia|]. split; [lia|]. intro fuel. apply (rewind_column L M _ (i + 1) _ _ _ _ _ Fe (proj1 HM)) with (2 := E0). lia.
  - pose proof I as (S & _ & Hi & _). pose proof (proj1 B) as Bx. destruct (c_undo _ _ _ _ _ _ _ _ _ _ K M s v HM HN HV) as (se & b & si & n & E & Fe & En & Hc & Hr). pose proof (CIns_inv _ _ _ _ _ _ _ _ _ _ K) as (_ & I1 & _).
    destruct (d2_back L H M g a si HM (updg g i i a) i I B I1 Ev (bump_even L H g i a _ I B Ev) (or_introl (conj eq_refl D)) Fe) as (s0 & b0 & E0 & F0). pose proof (L_le1 L H i S Hi ltac:(lia)).
    exists se, b, s0, (n + 1)%nat. split; [exact E|]. split; [exact F0|]. split; [lia|]. split; [exact Hc|]. intro fuel. replace (n + 1 + fuel)%nat with (n + Datatypes.S fuel)%nat by lia. rewrite Hr. apply (rewind_column L M _ (i + 1) _ _ _ _ _ Fe (proj1 HM)) with (2 := E0). lia.
  - pose proof I as (S & _ & Hi & _). pose proof (proj1 B) as Bx. destruct (c_undo _ _ _ _ _ _ _ _ _ _ K M s v HM HN HV) as (se & b & si & n & E & Fe & En & Hc & Hr). pose proof (CIns_inv _ _ _ _ _ _ _ _ _ _ K) as (_ & I1 & _).
    destruct (d2_back L H M g a si HM g i I B I1 Ev (bump_even L H g i a _ I B Ev) (or_intror (conj eq_refl D)) Fe) as (s0 & b0 & E0 & F0). pose proof (L_le1 L H i S Hi ltac:(lia)).
    exists se, b, s0, (n + 1)%nat. split; [exact E|]. split; [exact F0|]. split; [lia|]. split; [exact Hc|]. intro fuel. replace (n + 1 + fuel)%nat with (n + Datatypes.S fuel)%nat by lia. rewrite Hr. apply (rewind_column L M _ (i + 1) _ _ _ _ _ Fe (proj1 HM)) with (2 := E0). lia.
Qed.
