(* The history of an insertion and its inverse, with recorded words *)
From Coq Require Import List ZArith Bool Lia Sorted Permutation RelationClasses.
From Verif Require Import PyBase M_Partitions L_PartMore M_Tableaux S_Tableaux L_Tableaux P_Tableaux M_Insertion S_Insertion L_Insertion1 L_Insertion2 L_Insertion3 L_Insertion4 L_Insertion5 L_Insertion6 L_Insertion7.
Import ListNotations.
Local Open Scope Z_scope.

(* consecutive letters and the cells recorded for them *)
Definition step_rel (x y : Z * box) : Prop :=
  (fst x <= fst y -> weakly_right (snd x) (snd y)) /\ (fst y < fst x -> fst (snd x) < fst (snd y)).
Lemma run : forall w L g p q k, shape L -> Incr L g -> Rep L g None p -> QI L q k ->
  exists p' q' L' g' D, rfold (fun pq a => push (fst pq) (snd pq) a) w (p, q) = Ok (p', q') /\
    shape L' /\ Incr L' g' /\ Rep L' g' None p' /\ QI L' q' (k + zlen w) /\ length D = length w /\
    Permutation (tag q') (tag q ++ combine (zrange (k + 1) (k + 1 + zlen w)) D) /\ Sorted step_rel (combine w D) /\
    (forall a d w' D', w = a :: w' -> D = d :: D' -> exists L1 g1 c b, Ins L g 1 a L1 g1 c b /\ recorded L1 c b d) /\
    (Nonneg L g -> Forall (fun x => 0 <= x) w -> forall fuel ans, inverse_insertion (length w + fuel) p' q' ans = inverse_insertion fuel p q (w ++ ans)).
Proof.
  induction w as [|a w IH]; intros L g p q k S I R Q.
  - exists p, q, L, g, []. split; [reflexivity|]. split; [assumption|]. split; [assumption|]. split; [assumption|]. replace (k + zlen (@nil Z)) with k by (cbn; lia).
    split; [assumption|]. split; [reflexivity|]. split; [|split; [constructor|split; [intros; discriminate|reflexivity]]].
    replace (combine (zrange (k + 1) (k + 1 + zlen (@nil Z))) (@nil box)) with (@nil (Z * box)); [rewrite app_nil_r; apply Permutation_refl|]. destruct (zrange (k + 1) (k + 1 + zlen (@nil Z))); reflexivity.
  - cbn [rfold fst snd]. destruct (push_good L g p q k a S I R Q) as (p1 & L1 & g1 & c & b & d & HI & Hd & S1 & I1 & R1 & Q1 & E). rewrite E. cbn [rbind].
    destruct (IH L1 g1 p1 (record_put q d k) (k + 1) S1 I1 R1 Q1) as (p' & q' & L' & g' & D & E' & S' & I' & R' & Q' & LD & P & SO & FI & INV).
    exists p', q', L', g', (d :: D). split; [exact E'|]. split; [assumption|]. split; [assumption|]. split; [assumption|].
    assert (ZL : zlen (a :: w) = 1 + zlen w) by (unfold zlen; cbn [length]; lia). split; [rewrite ZL; replace (k + (1 + zlen w)) with (k + 1 + zlen w) by lia; exact Q'|].
    split; [cbn [length]; rewrite LD; reflexivity|]. split; [|split; [|split]].
    + rewrite ZL. rewrite zrange_cons by (unfold zlen; lia). cbn [combine]. replace (k + 1 + (1 + zlen w)) with (k + 1 + 1 + zlen w) by lia.
      eapply Permutation_trans; [exact P|]. replace (tag q ++ (k + 1, d) :: combine (zrange (k + 1 + 1) (k + 1 + 1 + zlen w)) D) with ((tag q ++ [(k + 1, d)]) ++ combine (zrange (k + 1 + 1) (k + 1 + 1 + zlen w)) D) by (rewrite <- app_assoc; reflexivity).
      apply Permutation_app_tail. apply tag_record_put. apply Q.
    + cbn [combine]. constructor; [exact SO|]. destruct w as [|a' w]; [constructor|]. destruct D as [|d' D]; [discriminate|]. cbn [combine]. constructor.
      destruct (FI a' d' w D eq_refl eq_refl) as (L2 & g2 & c2 & b2 & H2 & Hd2). split; cbn [fst snd]; intro C.
      * apply (pieri _ _ _ _ _ _ _ _ HI d Hd g1 a' L2 g2 c2 b2 d' C); [reflexivity|exact H2|exact Hd2].
      * apply (dual_pieri _ _ _ _ _ _ _ _ HI d Hd g1 a' L2 g2 c2 b2 d' C); [reflexivity|intros; lia|exact H2|exact Hd2].
    + intros a0 d0 w0 D0 Ew ED. injection Ew as <- <-. injection ED as <- <-. exists L1, g1, c, b. split; assumption.
    + intros N F fuel ans. inversion F as [|? ? F1 F2]; subst. assert (N1 : Nonneg L1 g1) by (eapply Ins_Nonneg; eassumption). specialize (INV N1 F2 (Datatypes.S fuel) ans).
      cbn [length]. replace (Datatypes.S (length w) + fuel)%nat with (length w + Datatypes.S fuel)%nat by lia. rewrite INV. cbn [app].
      apply (inverse_step L g p q k a L1 g1 p1 c b d S R Q N F1 HI Hd R1 Q1).
Qed.

Lemma start : let L := fun _ : Z => 0 in let g := fun _ _ : Z => 0 in shape L /\ Incr L g /\ Rep L g None [] /\ QI L [] 0 /\ Nonneg L g.
Proof.
  cbv zeta. assert (IN : forall r c, inside (fun _ => 0) r c = false) by (intros; apply inside_false; lia).
  split; [split; intros; lia|]. split; [split; intros; lia|]. split; [|split].
  - split; [apply wf_nil|]. intros [i j]. cbn [tlookup]. unfold base. cbn [fst snd]. rewrite IN. reflexivity.
  - split; [lia|]. split; [apply wf_nil|]. split; [intro c; rewrite IN; cbn; split; intro H; [exfalso; apply H; reflexivity|discriminate]|]. split; [intros c l H; discriminate|].
    split; [constructor|]. split; intros; discriminate.
  - intros i j _ H. lia.
Qed.

(* transposition *)
Definition flip (c : box) : box := (snd c, fst c).
Lemma flip_flip : forall c, flip (flip c) = c.
Proof. intros [i j]. reflexivity. Qed.
Lemma transpose_tag : forall t u, well_formed t -> well_formed u -> (forall i j, tlookup u (j, i) = tlookup t (i, j)) -> Permutation (tag u) (map (fun vc => (fst vc, flip (snd vc))) (tag t)).
Proof.
  intros t u Wt Wu H. assert (P : Permutation u (map (fun cv => (flip (fst cv), snd cv)) t)).
  { apply NoDup_Permutation.
    - apply (NoDup_map_inv fst). apply sorted_NoDup. apply Wu.
    - apply (NoDup_map_inv fst). rewrite map_map. cbn [fst]. assert (ND : NoDup (map fst t)) by (apply sorted_NoDup; apply Wt). rewrite <- (map_map fst flip).
      apply FinFun.Injective_map_NoDup; [|exact ND]. intros x y E. rewrite <- (flip_flip x), E. apply flip_flip.
    - intros [[i j] l]. rewrite in_map_iff. split.
      + intro K. apply In_tlookup in K; [|apply Wu]. rewrite H in K. exists ((j, i), l). split; [reflexivity|]. apply tlookup_In. exact K.
      + intros ([[r s] m] & E & K). unfold flip in E. cbn [fst snd] in E. injection E as <- <- <-. apply tlookup_In. rewrite H. apply In_tlookup; [apply Wt|exact K]. }
  unfold tag at 1. eapply Permutation_trans; [apply Permutation_flat_map; exact P|].
  replace (map (fun vc : Z * box => (fst vc, flip (snd vc))) (tag t)) with (flat_map (fun cv : box * list Z => map (fun v => (v, fst cv)) (snd cv)) (map (fun cv : box * list Z => (flip (fst cv), snd cv)) t)); [apply Permutation_refl|].
  clear. induction t as [|[c l] t IH]; [reflexivity|]. unfold tag in *. cbn [map flat_map fst snd]. rewrite map_app, IH. f_equal. rewrite map_map. reflexivity.
Qed.
Lemma transpose_nonempty : forall t u, (forall i j, tlookup u (j, i) = tlookup t (i, j)) -> (forall c l, tlookup t c = Some l -> l <> []) -> forall c l, tlookup u c = Some l -> l <> [].
Proof. intros t u H N [i j] l K. rewrite H in K. eapply N. exact K. Qed.

(* sorting of recorded words *)
Lemma weakly_right_trans : forall a b c, weakly_right a b -> weakly_right b c -> weakly_right a c.
Proof. intros a b c [H| ->] [K| <-]; unfold weakly_right; [left; lia|left; assumption|left; assumption|right; reflexivity]. Qed.
Lemma rec_below_trans : Relations_1.Transitive rec_below.
Proof.
  intros x y z [H|[E H]] [K|[E2 K]]; unfold rec_below; [left; lia|left; lia|left; lia|]. right. split; [lia|]. eapply weakly_right_trans; eassumption.
Qed.

Lemma adjacent_sorted : forall (w r : list Z) (D : list box) (multi : bool), length w = length r -> length D = length w ->
  forallb (fun ab => fst ab <=? snd ab) (adjacent r) = true ->
  forallb (fun x => implb (if multi then snd (fst x) <? fst (fst x) else fst (fst x) <=? snd (fst x)) (fst (snd x) <? snd (snd x))) (combine (adjacent w) (adjacent r)) = true ->
  Sorted step_rel (combine w D) -> StronglySorted rec_below (combine r (if multi then D else map flip D)).
Proof.
  intros w r D multi L1 L2 A B S. apply Sorted_StronglySorted; [exact rec_below_trans|]. revert r D L1 L2 A B S.
  induction w as [|a w IH]; intros [|x r] [|d D] L1 L2 A B S; try discriminate; [destruct multi; constructor|].
  assert (ST : Sorted rec_below (combine r (if multi then D else map flip D))).
  { apply IH; [injection L1; auto|injection L2; auto| | |].
    - destruct r as [|y r]; [reflexivity|]. cbn [adjacent forallb] in A. apply andb_true_iff in A. apply A.
    - destruct r as [|y r]; [destruct (adjacent w); reflexivity|]. destruct w as [|b w]; [reflexivity|]. cbn [adjacent combine forallb] in B. apply andb_true_iff in B. apply B.
    - inversion S; assumption. }
  assert (G : Sorted rec_below ((x, if multi then d else flip d) :: combine r (if multi then D else map flip D))).
  { constructor; [exact ST|]. destruct r as [|y r]; [constructor|]. destruct w as [|b w]; [discriminate|]. destruct D as [|e D]; [discriminate|].
    cbn [adjacent forallb fst snd] in A. apply andb_true_iff in A. destruct A as [A _]. apply Z.leb_le in A.
    cbn [adjacent combine forallb fst snd] in B. apply andb_true_iff in B. destruct B as [B _].
    inversion S as [|? ? _ HD]; subst. cbn [combine] in HD. inversion HD as [|? ? K1]; subst. destruct K1 as [K1 K2]. cbn [fst snd] in *.
    destruct multi; cbn [map combine]; constructor; unfold rec_below; cbn [fst snd].
    - destruct (Z.ltb_spec b a) as [Hb|Hb]; cbn [implb] in B; [apply Z.ltb_lt in B; left; exact B|]. destruct (Z_lt_ge_dec x y); [left; assumption|]. right. split; [lia|]. apply K1. lia.
    - destruct (Z.leb_spec a b) as [Hb|Hb]; cbn [implb] in B; [apply Z.ltb_lt in B; left; exact B|]. destruct (Z_lt_ge_dec x y); [left; assumption|]. right. split; [lia|]. left. cbn [flip fst snd]. apply K2. lia. }
  destruct multi; exact G.
Qed.

Definition rec_strict (x y : Z * box) : Prop := fst x < fst y \/ (fst x = fst y /\ snd (snd x) < snd (snd y)).
Lemma adjacent_strict : forall (w r : list Z) (D : list box), length w = length r -> length D = length w ->
  forallb (fun ab => fst ab <=? snd ab) (adjacent r) = true ->
  forallb (fun x => implb (fst (fst x) <=? snd (fst x)) (fst (snd x) <? snd (snd x))) (combine (adjacent w) (adjacent r)) = true ->
  Sorted step_rel (combine w D) -> StronglySorted rec_strict (combine r (map flip D)).
Proof.
  intros w r D L1 L2 A B S. apply Sorted_StronglySorted; [intros x y z [H|[E H]] [K|[E2 K]]; unfold rec_strict; lia|]. revert r D L1 L2 A B S.
  induction w as [|a w IH]; intros [|x r] [|d D] L1 L2 A B S; try discriminate; [constructor|].
  assert (ST : Sorted rec_strict (combine r (map flip D))).
  { apply IH; [injection L1; auto|injection L2; auto| | |].
    - destruct r as [|y r]; [reflexivity|]. cbn [adjacent forallb] in A. apply andb_true_iff in A. apply A.
    - destruct r as [|y r]; [destruct (adjacent w); reflexivity|]. destruct w as [|b w]; [reflexivity|]. cbn [adjacent combine forallb] in B. apply andb_true_iff in B. apply B.
    - inversion S; assumption. }
  constructor; [exact ST|]. destruct r as [|y r]; [constructor|]. destruct w as [|b w]; [discriminate|]. destruct D as [|e D]; [discriminate|].
  cbn [adjacent forallb fst snd] in A. apply andb_true_iff in A. destruct A as [A _]. apply Z.leb_le in A.
  cbn [adjacent combine forallb fst snd] in B. apply andb_true_iff in B. destruct B as [B _].
  inversion S as [|? ? _ HD]; subst. cbn [combine] in HD. inversion HD as [|? ? K1]; subst. destruct K1 as [K1 K2]. cbn [fst snd] in *.
  cbn [map combine]; constructor; unfold rec_strict; cbn [fst snd flip].
  destruct (Z.leb_spec a b) as [Hb|Hb]; cbn [implb] in B; [apply Z.ltb_lt in B; left; exact B|]. destruct (Z_lt_ge_dec x y); [left; assumption|]. right. split; [lia|]. apply K2. lia.
Qed.

(* the default record *)
Lemma adjacent_range : forall n a, forallb (fun ab => fst ab <=? snd ab) (adjacent (zrange a (a + Z.of_nat n))) = true /\
  forallb (fun ab => fst ab <? snd ab) (adjacent (zrange a (a + Z.of_nat n))) = true.
Proof.
  induction n as [|n IH]; intro a; [rewrite zrange_nil by lia; split; reflexivity|]. rewrite zrange_cons by lia. replace (a + Z.of_nat (S n)) with (a + 1 + Z.of_nat n) by lia. destruct (IH (a + 1)) as [IH1 IH2]. clear IH.
  destruct n as [|n]; [rewrite zrange_nil by lia; split; reflexivity|].
  rewrite zrange_cons in * by lia. cbn [adjacent forallb fst snd] in *. rewrite IH1, IH2. split; apply andb_true_iff; split; try reflexivity; [apply Z.leb_le; lia|apply Z.ltb_lt; lia].
Qed.
Lemma check_default : forall w multi, check_record w None multi = Ok (zrange 1 (zlen w + 1)).
Proof.
  intros w multi. unfold check_record. destruct (adjacent_range (length w) 1) as [A B]. replace (zlen w + 1) with (1 + Z.of_nat (length w)) by (unfold zlen; lia). rewrite A.
  replace (length w =? length (zrange 1 (1 + Z.of_nat (length w))))%nat with true by (symmetry; apply Nat.eqb_eq; rewrite length_zrange; lia). cbn [andb].
  replace (forallb _ _) with true; [reflexivity|]. symmetry. apply forallb_forall. intros [x y] H. apply in_combine_r in H. rewrite forallb_forall in B. cbn [fst snd]. rewrite (B y H). destruct (if multi then _ else _); reflexivity.
Qed.
