(* C44, C45: Hecke insertion and its inverse *)
From Coq Require Import List ZArith Bool Lia Sorted Permutation.
From Verif Require Import PyBase M_Partitions L_PartMore M_Tableaux S_Tableaux L_Tableaux P_Tableaux M_Insertion S_Insertion L_Insertion1 L_Insertion2 L_Insertion3 L_Insertion4 L_Insertion5 L_Insertion6 L_Insertion7 L_Insertion8.
From Verif Require L_Perm.
Import ListNotations.
Local Open Scope Z_scope.

Lemma adjacent_forallb : forall (f : Z * Z -> bool) l, forallb f (adjacent l) = true <-> forall n, (S n < length l)%nat -> f (nth n l 0, nth (S n) l 0) = true.
Proof.
  induction l as [|a l IH]; [split; [intros _ n H; cbn in H; lia|reflexivity]|]. destruct l as [|b l]; [split; [intros _ n H; cbn in H; lia|reflexivity]|].
  change (adjacent (a :: b :: l)) with ((a, b) :: adjacent (b :: l)). cbn [forallb]. rewrite andb_true_iff, IH. split.
  - intros [H K] [|n] Hn; [exact H|]. cbn [nth length] in *. apply K. lia.
  - intro H. split; [apply (H O); cbn; lia|]. intros n Hn. apply (H (S n)). cbn [length] in *. lia.
Qed.
Lemma adjacent_forallb2 : forall (f : (Z * Z) * (Z * Z) -> bool) w l, length l = length w ->
  (forallb f (combine (adjacent w) (adjacent l)) = true <-> forall n, (S n < length w)%nat -> f ((nth n w 0, nth (S n) w 0), (nth n l 0, nth (S n) l 0)) = true).
Proof.
  induction w as [|c w IH]; intros [|a l] HL; try discriminate; [split; [intros _ n H; cbn in H; lia|reflexivity]|].
  destruct w as [|d w]; [split; [intros _ n H; cbn in H; lia|reflexivity]|]. destruct l as [|b l]; [discriminate|].
  change (adjacent (a :: b :: l)) with ((a, b) :: adjacent (b :: l)). change (adjacent (c :: d :: w)) with ((c, d) :: adjacent (d :: w)). cbn [combine forallb].
  rewrite andb_true_iff, (IH (b :: l)) by (injection HL; auto). split.
  - intros [H K] [|n] Hn; [exact H|]. cbn [nth length] in *. apply K. lia.
  - intro H. split; [apply (H O); cbn; lia|]. intros n Hn. apply (H (S n)). cbn [length] in *. lia.
Qed.
Lemma check_compatible : forall w r multi, compatible multi w r -> check_record w (Some r) multi = Ok r.
Proof.
  intros w r multi [HL H]. unfold check_record. rewrite (proj2 (Nat.eqb_eq _ _) (eq_sym HL)). cbn [andb].
  rewrite (proj2 (adjacent_forallb _ r)).
  - rewrite (proj2 (adjacent_forallb2 _ w r HL)); [reflexivity|]. intros n Hn. cbn [fst snd]. destruct (H n Hn) as [_ K]. destruct multi.
    + destruct (Z.ltb_spec (nth (S n) w 0) (nth n w 0)) as [Hc|Hc]; [|reflexivity]. cbn [implb]. apply Z.ltb_lt. apply K. exact Hc.
    + destruct (Z.leb_spec (nth n w 0) (nth (S n) w 0)) as [Hc|Hc]; [|reflexivity]. cbn [implb]. apply Z.ltb_lt. apply K. exact Hc.
  - intros n Hn. cbn [fst snd]. apply Z.leb_le. apply H. lia.
Qed.
Lemma check_incompatible : forall w r multi, ~ compatible multi w r -> check_record w (Some r) multi = Err AssertionError.
Proof.
  intros w r multi H. unfold check_record. match goal with |- (if ?b then _ else _) = _ => destruct b eqn:E end; [|reflexivity]. exfalso. apply H.
  apply andb_true_iff in E. destruct E as [E E3]. apply andb_true_iff in E. destruct E as [E1 E2]. apply Nat.eqb_eq in E1. symmetry in E1. split; [exact E1|].
  intros n Hn. pose proof (proj1 (adjacent_forallb _ r) E2 n ltac:(lia)) as K2. pose proof (proj1 (adjacent_forallb2 _ w r E1) E3 n Hn) as K3. cbn [fst snd] in *. apply Z.leb_le in K2. split; [exact K2|].
  intro K. apply Z.ltb_lt. destruct multi; [apply Z.ltb_lt in K|apply Z.leb_le in K]; rewrite K in K3; exact K3.
Qed.
Lemma check_ok : forall w ro multi r, check_record w ro multi = Ok r -> length r = length w /\ forallb (fun ab => fst ab <=? snd ab) (adjacent r) = true /\
  forallb (fun x => implb (if multi then snd (fst x) <? fst (fst x) else fst (fst x) <=? snd (fst x)) (fst (snd x) <? snd (snd x))) (combine (adjacent w) (adjacent r)) = true.
Proof.
  intros w ro multi r H. unfold check_record in H. set (l := match ro with Some r => r | None => zrange 1 (zlen w + 1) end) in H. clearbody l.
  match type of H with (if ?b then _ else _) = _ => destruct b eqn:E end; [|discriminate]. injection H as ->.
  apply andb_true_iff in E. destruct E as [E E3]. apply andb_true_iff in E. destruct E as [E1 E2]. apply Nat.eqb_eq in E1. auto.
Qed.

(* states as tableaux *)
Lemma holds_lookup : forall t i j l, well_formed t -> (holds t i j l <-> tlookup t (i, j) = Some l).
Proof. intros t i j l W. split; [intro H; apply In_tlookup; [apply W|exact H]|apply tlookup_In]. Qed.
Lemma cell_lookup : forall t i j, well_formed t -> (cell t i j <-> tlookup t (i, j) <> None).
Proof.
  intros t i j W. unfold cell. split.
  - intros [l H]. apply holds_lookup in H; [|assumption]. congruence.
  - intro H. destruct (tlookup t (i, j)) as [l|] eqn:E; [|congruence]. exists l. apply holds_lookup; assumption.
Qed.
Lemma Rep_lookup : forall L g p i j, Rep L g None p -> tlookup p (i, j) = if inside L i j then Some [g i j] else None.
Proof. intros L g p i j [_ R]. rewrite R. reflexivity. Qed.
Lemma straight_of : forall L t, shape L -> well_formed t -> (forall i j, tlookup t (i, j) <> None <-> inside L i j = true) -> straight t.
Proof.
  intros L t S W H i j C. apply (cell_lookup t i j W) in C. apply H in C. apply inside_iff in C. destruct C as (C1 & C2 & C3). split; [lia|]. split; [lia|].
  intros r c Hr Hc. apply (cell_lookup t r c W). apply H. apply inside_iff. pose proof (shape_mono L r i S ltac:(lia) ltac:(lia)). lia.
Qed.
Lemma increasing_of : forall L g p, shape L -> Incr L g -> Rep L g None p -> increasing_tableau p.
Proof.
  intros L g p S I R. pose proof R as [W _]. split; [|split; [|split]].
  - apply (straight_of L); [assumption|assumption|]. intros i j. rewrite (Rep_lookup L g p i j R). destruct (inside L i j); split; intro H; congruence.
  - intros i j l H. apply holds_lookup in H; [|assumption]. rewrite (Rep_lookup L g p i j R) in H. destruct (inside L i j); [|discriminate]. injection H as <-. exists (g i j). reflexivity.
  - intros i j x y Hx Hy. apply holds_lookup in Hx, Hy; try assumption. rewrite (Rep_lookup L g p _ _ R) in Hx. rewrite (Rep_lookup L g p _ _ R) in Hy. destruct (inside L i j) eqn:E1; [|discriminate]. destruct (inside L i (j + 1)) eqn:E2; [|discriminate].
    injection Hx as <-. injection Hy as <-. apply inside_iff in E1, E2. apply I; lia.
  - intros i j x y Hx Hy. apply holds_lookup in Hx, Hy; try assumption. rewrite (Rep_lookup L g p _ _ R) in Hx. rewrite (Rep_lookup L g p _ _ R) in Hy. destruct (inside L i j) eqn:E1; [|discriminate]. destruct (inside L (i + 1) j) eqn:E2; [|discriminate].
    injection Hx as <-. injection Hy as <-. apply inside_iff in E1, E2. apply I; lia.
Qed.
Lemma standard_of : forall L q k, shape L -> QI L q k -> standard_setvalued k q.
Proof.
  intros L q k S Q. pose proof Q as (K0 & W & C & N & P & R1 & R2). split; [|split; [|split; [|split; [|split]]]].
  - apply (straight_of L); [assumption|assumption|]. intros i j. apply (C (i, j)).
  - intros i j l H. apply holds_lookup in H; [|assumption]. eapply N. exact H.
  - apply (Permutation_NoDup (Permutation_sym P)). apply NoDup_zrange.
  - intro x. apply (QI_range L q k x Q).
  - intros i j l m x y Hl Hm. apply holds_lookup in Hl, Hm; try assumption. eapply R1; eassumption.
  - intros i j l m x y Hl Hm. apply holds_lookup in Hl, Hm; try assumption. eapply R2; eassumption.
Qed.
Lemma holds_transpose : forall t u, well_formed t -> well_formed u -> (forall i j, tlookup u (j, i) = tlookup t (i, j)) -> forall i j l, holds u i j l <-> holds t j i l.
Proof. intros t u Wt Wu H i j l. rewrite !holds_lookup by assumption. rewrite H. reflexivity. Qed.
Lemma straight_transpose : forall t u, (forall i j l, holds u i j l <-> holds t j i l) -> straight t -> straight u.
Proof.
  intros t u H S i j [l C]. apply H in C. destruct (S j i (ex_intro _ l C)) as (A & B & D). split; [assumption|]. split; [assumption|]. intros r c Hr Hc.
  destruct (D c r Hc Hr) as [m Hm]. exists m. apply H. exact Hm.
Qed.
Lemma flat_transpose : forall t u, well_formed t -> well_formed u -> (forall i j, tlookup u (j, i) = tlookup t (i, j)) -> Permutation (flat_map snd u) (flat_map snd t).
Proof.
  intros t u Wt Wu H. rewrite <- !flat_tag. eapply Permutation_trans; [apply Permutation_map; apply (transpose_tag t u Wt Wu H)|]. rewrite map_map. cbn [fst]. apply Permutation_refl.
Qed.

(* what an insertion leaves behind *)
Lemma hecke_core : forall w ro multi r, check_record w ro multi = Ok r -> exists p q D,
  hecke w ro multi = Ok (p, rename (rec_of r) q) /\ well_formed q /\ (forall c l, tlookup q c = Some l -> l <> []) /\ length D = length r /\
  Permutation (tag q) (combine (zrange 1 (zlen r + 1)) D) /\ StronglySorted rec_below (combine r D) /\ (multi = false -> StronglySorted rec_strict (combine r D)) /\
  increasing_tableau p /\ standard_setvalued (zlen w) q /\ (forall i j, cell p i j <-> cell q i j) /\
  (forall ro' r', check_record w ro' multi = Ok r' -> hecke w ro' multi = Ok (p, rename (rec_of r') q)) /\
  (Forall (fun x => 0 <= x) w -> exists p1 q1, (if multi then Ok p else ttranspose p) = Ok p1 /\ (if multi then Ok q else ttranspose q) = Ok q1 /\
     inverse_insertion (S (Z.to_nat (tlen q1))) p1 q1 [] = Ok w).
Proof.
  intros w ro multi r C. destruct start as (S0 & I0 & R0 & Q0 & N0).
  destruct (run w _ _ [] [] 0 S0 I0 R0 Q0) as (p & q & L & g & D & E & S & I & R & Q & LD & P & SO & _ & INV). cbn [tag flat_map app] in P.
  replace (0 + zlen w) with (zlen w) in Q by lia. replace (0 + 1 + zlen w) with (zlen w + 1) in P by lia. replace (0 + 1) with 1 in P by lia.
  pose proof Q as (_ & Wq & Cq & Nq & _). pose proof R as [Wp _]. fold (insertion_tableaux w) in E.
  assert (EI : insertion_tableaux w = Ok (p, q)) by exact E.
  assert (TL : tlen q = zlen w).
  { unfold tlen. assert (G : forall t, zlen (sorting_word t) = zlen (tag t)).
    { induction t as [|[c l] t IH]; [reflexivity|]. unfold sorting_word, tag, zlen in *. cbn [flat_map fst snd]. rewrite !app_length, !map_length. lia. }
    rewrite G. unfold zlen. rewrite (Permutation_length P), combine_length, length_zrange. unfold zlen. lia. }
  assert (CP : forall i j, cell p i j <-> cell q i j).
  { intros i j. rewrite (cell_lookup p i j Wp), (cell_lookup q i j Wq), (Rep_lookup L g p i j R), (Cq (i, j)). cbn [fst snd]. destruct (inside L i j); split; congruence. }
  assert (IV : Forall (fun x => 0 <= x) w -> inverse_insertion (Datatypes.S (Z.to_nat (tlen q))) p q [] = Ok w).
  { intro F. specialize (INV N0 F 1%nat []). rewrite app_nil_r in INV. rewrite TL. replace (Datatypes.S (Z.to_nat (zlen w))) with (length w + 1)%nat by (unfold zlen; lia). rewrite INV. reflexivity. }
  destruct multi.
  - exists p, q, D.
    assert (AP : forall ro' r', check_record w ro' true = Ok r' -> StronglySorted rec_below (combine r' D) /\ length r' = length w /\ hecke w ro' true = Ok (p, rename (rec_of r') q)).
    { intros ro' r' C'. destruct (check_ok w ro' true r' C') as (L1 & A & B). pose proof (adjacent_sorted w r' D true (eq_sym L1) LD A B SO) as SO'. cbn iota in SO'.
      split; [exact SO'|]. split; [exact L1|]. unfold hecke. rewrite C'. cbn [rbind]. rewrite EI. cbn [rbind fst snd].
      rewrite (record_apply q D r' Wq); [reflexivity|congruence| |exact SO']. replace (zlen r') with (zlen w) by (unfold zlen; congruence). exact P. }
    destruct (AP ro r C) as (SO' & L1 & EH). split; [exact EH|]. split; [exact Wq|]. split; [exact Nq|]. split; [congruence|].
    split; [replace (zlen r) with (zlen w) by (unfold zlen; congruence); exact P|]. split; [exact SO'|]. split; [discriminate|]. split; [apply (increasing_of L g); assumption|]. split; [apply (standard_of L); assumption|].
    split; [exact CP|]. split; [intros; apply AP; assumption|]. intro F. exists p, q. split; [reflexivity|]. split; [reflexivity|]. apply IV. exact F.
  - destruct (C32_transpose p Wp) as (pt & Ep & Wpt & Lp & Bp). destruct (C32_transpose q Wq) as (qt & Eq & Wqt & Lq & Bq). exists pt, qt, (map flip D).
    assert (PT : Permutation (tag qt) (combine (zrange 1 (zlen w + 1)) (map flip D))).
    { eapply Permutation_trans; [apply (transpose_tag q qt Wq Wqt Lq)|]. eapply Permutation_trans; [apply Permutation_map; exact P|].
      assert (G : forall (a : list Z) (b : list box), map (fun vc => (fst vc, flip (snd vc))) (combine a b) = combine a (map flip b)).
      { induction a as [|x a IH]; intros [|y b]; try reflexivity. cbn [combine map fst snd]. rewrite IH. reflexivity. }
      rewrite G. apply Permutation_refl. }
    assert (AP : forall ro' r', check_record w ro' false = Ok r' -> StronglySorted rec_below (combine r' (map flip D)) /\ length r' = length w /\ hecke w ro' false = Ok (pt, rename (rec_of r') qt)).
    { intros ro' r' C'. destruct (check_ok w ro' false r' C') as (L1 & A & B). pose proof (adjacent_sorted w r' D false (eq_sym L1) LD A B SO) as SO'. cbn iota in SO'.
      split; [exact SO'|]. split; [exact L1|]. unfold hecke. rewrite C'. cbn [rbind]. rewrite EI. cbn [rbind fst snd]. rewrite Ep. cbn [rbind]. rewrite Eq. cbn [rbind].
      rewrite (record_apply qt (map flip D) r' Wqt); [reflexivity|rewrite map_length; congruence| |exact SO']. replace (zlen r') with (zlen w) by (unfold zlen; congruence). exact PT. }
    pose proof (holds_transpose p pt Wp Wpt Lp) as Hp. pose proof (holds_transpose q qt Wq Wqt Lq) as Hq.
    destruct (AP ro r C) as (SO' & L1 & EH). split; [exact EH|]. split; [exact Wqt|]. split; [apply (transpose_nonempty q); assumption|]. split; [rewrite map_length; congruence|].
    split; [replace (zlen r) with (zlen w) by (unfold zlen; congruence); exact PT|]. split; [exact SO'|].
    split; [intros _; destruct (check_ok w ro false r C) as (L1' & A & B); exact (adjacent_strict w r D (eq_sym L1) LD A B SO)|].
    pose proof (increasing_of L g p S I R) as (IP1 & IP2 & IP3 & IP4). pose proof (standard_of L q (zlen w) S Q) as (IQ1 & IQ2 & IQ3 & IQ4 & IQ5 & IQ6). pose proof (flat_transpose q qt Wq Wqt Lq) as FT.
    split; [|split; [|split; [|split]]].
    + split; [apply (straight_transpose p); assumption|]. split; [intros i j l H; apply Hp in H; eapply IP2; exact H|].
      split; intros i j x y Hx Hy; apply Hp in Hx, Hy; [apply (IP4 j i)|apply (IP3 j i)]; assumption.
    + split; [apply (straight_transpose q); assumption|]. split; [intros i j l H; apply Hq in H; eapply IQ2; exact H|].
      split; [apply (Permutation_NoDup (Permutation_sym FT)); exact IQ3|]. split; [intro x; rewrite <- IQ4; split; apply Permutation_in; [exact FT|apply Permutation_sym; exact FT]|].
      split; intros i j l m x y Hl Hm; apply Hq in Hl, Hm; [eapply (IQ6 j i)|eapply (IQ5 j i)]; eassumption.
    + intros i j. specialize (CP j i). unfold cell in *. destruct CP as [CP1 CP2]. split; intros [l H]; [apply Hp in H|apply Hq in H].
      * destruct CP1 as [m Hm]; [exists l; exact H|]. exists m. apply Hq. exact Hm.
      * destruct CP2 as [m Hm]; [exists l; exact H|]. exists m. apply Hp. exact Hm.
    + intros; apply AP; assumption.
    + intro F. exists p, q. split; [exact Bp|]. split; [exact Bq|]. apply IV. exact F.
Qed.

Lemma rename_id : forall (f : Z -> Z) t, (forall x, In x (flat_map snd t) -> f x = x) -> rename f t = t.
Proof.
  induction t as [|[c l] t IH]; intro H; [reflexivity|]. cbn [rename map fst snd]. f_equal.
  - f_equal. rewrite <- (map_id l) at 2. apply map_ext_in. intros x Hx. apply H. cbn [flat_map snd]. apply in_app_iff. left. exact Hx.
  - apply IH. intros x Hx. apply H. cbn [flat_map snd]. apply in_app_iff. right. exact Hx.
Qed.
Lemma holds_rename : forall f t i j l, holds (rename f t) i j l <-> exists m, holds t i j m /\ l = map f m.
Proof.
  intros. unfold holds, rename. rewrite in_map_iff. split.
  - intros ([c m] & E & H). cbn [fst snd] in E. injection E as -> <-. exists m. split; [exact H|reflexivity].
  - intros (m & H & ->). exists ((i, j), m). split; [reflexivity|exact H].
Qed.

(* Hecke insertion succeeds on every word of ints: P is an increasing tableau of partition shape and Q, of
   the same shape, is a standard set-valued tableau *)
Theorem C44_total : forall w multi, exists p q, hecke w None multi = Ok (p, q) /\
  increasing_tableau p /\ standard_setvalued (zlen w) q /\ (forall i j, cell p i j <-> cell q i j).
Proof.
  intros w multi. destruct (hecke_core w None multi _ (check_default w multi)) as (p & q & D & E & W & N & LD & P & SO & _ & IP & SQ & CC & _).
  exists p, q. split; [|split; [exact IP|split; [exact SQ|exact CC]]]. rewrite E. f_equal. f_equal. apply rename_id. intros x Hx. destruct SQ as (_ & _ & _ & R & _). apply R in Hx.
  unfold rec_of. rewrite L_Perm.nthz_zrange by lia. lia.
Qed.

Lemma sorted_nth : forall (A : Type) (R : A -> A -> Prop) (d : A) l, StronglySorted R l -> forall i j, (i < j)%nat -> (j < length l)%nat -> R (nth i l d) (nth j l d).
Proof.
  induction l as [|x l IH]; intros S i j Hij Hj; cbn [length] in Hj; [lia|]. inversion S as [|? ? S1 S2]; subst. destruct j as [|j]; [lia|]. destruct i as [|i]; cbn [nth].
  - rewrite Forall_forall in S2. apply S2. apply nth_In. lia.
  - apply IH; [assumption|lia|lia].
Qed.
Lemma tag_order : forall (R : Z * box -> Z * box -> Prop) q r D, length D = length r -> Permutation (tag q) (combine (zrange 1 (zlen r + 1)) D) -> StronglySorted R (combine r D) ->
  forall v c v' c', In (v, c) (tag q) -> In (v', c') (tag q) -> v < v' -> R (rec_of r v, c) (rec_of r v', c').
Proof.
  intros R q r D LD P S v c v' c' H H' Hv.
  assert (G : forall v c, In (v, c) (tag q) -> 1 <= v <= zlen r /\ c = nth (Z.to_nat (v - 1)) D (0, 0)).
  { clear -LD P. intros v c H. apply (Permutation_in _ P) in H. apply (In_nth _ _ (0, (0, 0))) in H. destruct H as (n & Hn & E). rewrite combine_length, length_zrange in Hn. unfold zlen in *.
    assert (LL : length (zrange 1 (Z.of_nat (length r) + 1)) = length D) by (rewrite length_zrange, LD; lia). rewrite combine_nth in E by exact LL. injection E as E1 E2. 
    assert (K : nthz (zrange 1 (Z.of_nat (length r) + 1)) (Z.of_nat n) = 1 + Z.of_nat n) by (apply L_Perm.nthz_zrange; lia). unfold nthz in K. rewrite Nat2Z.id in K. rewrite K in E1.
    split; [lia|]. rewrite <- E2. f_equal. lia. }
  destruct (G v c H) as [V1 ->]. destruct (G v' c' H') as [V2 ->]. unfold rec_of, nthz. unfold zlen in *.
  rewrite <- !combine_nth by (symmetry; exact LD). apply sorted_nth; [exact S|lia|]. rewrite combine_length. lia.
Qed.

(* A compatible record renames the values of the default recording tableau, and the result is semistandard *)
Theorem C44_record : forall w r multi, compatible multi w r -> exists p q0 q,
  hecke w None multi = Ok (p, q0) /\ hecke w (Some r) multi = Ok (p, q) /\
  (forall i j l, holds q i j l <-> exists m, holds q0 i j m /\ l = map (fun v => nth (Z.to_nat (v - 1)) r 0) m) /\ semistandard_cells multi q.
Proof.
  intros w r multi C. destruct (C44_total w multi) as (p0 & q0 & E0 & _). pose proof (check_compatible w r multi C) as CK.
  destruct (hecke_core w (Some r) multi r CK) as (p & q & D & E & W & N & LD & P & SO & ST & IP & SQ & CC & AL & _).
  pose proof (AL None _ (check_default w multi)) as EN. exists p, q, (rename (rec_of r) q).
  assert (RI : rename (rec_of (zrange 1 (zlen w + 1))) q = q).
  { apply rename_id. intros x Hx. destruct SQ as (_ & _ & _ & R & _). apply R in Hx. unfold rec_of. rewrite L_Perm.nthz_zrange by lia. lia. }
  rewrite RI in EN. split; [exact EN|]. split; [exact E|]. split; [intros i j l; apply holds_rename|].
  destruct SQ as (_ & _ & _ & RG & SQ1 & SQ2).
  assert (TG : forall i j l x, holds q i j l -> In x l -> In (x, (i, j)) (tag q)).
  { intros i j l x H Hx. apply tag_In; [apply W|]. exists l. split; [apply holds_lookup; assumption|exact Hx]. }
  split; [|split].
  - intros i j l H. apply holds_rename in H. destruct H as (m & H & ->). pose proof H as H0. apply holds_lookup in H0; [|assumption]. split; [intro K; apply map_eq_nil in K; eapply N; eassumption|].
    destruct multi; [left; reflexivity|right]. specialize (ST eq_refl). assert (I : increasing m) by (eapply (wf_lookup q); eassumption).
    assert (ND : NoDup m).
    { destruct (C44_total w false) as (p1 & q1 & E1 & _ & (_ & _ & ND & _) & _). rewrite EN in E1. injection E1 as <- <-. apply (NoDup_app_l _ m (flat_map snd (tdel (i, j) q))). apply (Permutation_NoDup (flat_tdel (i, j) q m H0)). exact ND. }
    assert (G : forall l, increasing l -> NoDup l -> (forall x, In x l -> In x m) -> NoDup (map (rec_of r) l)).
    { induction l as [|x l IH]; intros Il Nl Sl; [constructor|]. inversion Il as [|? ? I1 I2]; subst. inversion Nl as [|? ? N1 N2]; subst. cbn [map]. constructor.
      - intro K. apply in_map_iff in K. destruct K as (y & Ey & Hy). rewrite Forall_forall in I2. specialize (I2 y Hy). assert (x <> y) by congruence.
        pose proof (tag_order rec_strict q r D LD P ST x (i, j) y (i, j) (TG i j m x H (Sl x (or_introl eq_refl))) (TG i j m y H (Sl y (or_intror Hy))) ltac:(lia)) as K. unfold rec_strict in K. cbn [fst snd] in K. lia.
      - apply IH; [assumption|assumption|intros; apply Sl; right; assumption]. }
    apply G; [assumption|assumption|auto].
  - intros i j l m x y Hl Hm Hx Hy. apply holds_rename in Hl, Hm. destruct Hl as (l0 & Hl & ->). destruct Hm as (m0 & Hm & ->). apply in_map_iff in Hx, Hy. destruct Hx as (a & <- & Ha). destruct Hy as (b & <- & Hb).
    pose proof (tag_order rec_below q r D LD P SO a (i, j) b (i, j + 1) (TG _ _ _ _ Hl Ha) (TG _ _ _ _ Hm Hb) (SQ1 _ _ _ _ _ _ Hl Hm Ha Hb)) as K. unfold rec_below in K. cbn [fst snd] in K. lia.
  - intros i j l m x y Hl Hm Hx Hy. apply holds_rename in Hl, Hm. destruct Hl as (l0 & Hl & ->). destruct Hm as (m0 & Hm & ->). apply in_map_iff in Hx, Hy. destruct Hx as (a & <- & Ha). destruct Hy as (b & <- & Hb).
    pose proof (tag_order rec_below q r D LD P SO a (i, j) b (i + 1, j) (TG _ _ _ _ Hl Ha) (TG _ _ _ _ Hm Hb) (SQ2 _ _ _ _ _ _ Hl Hm Ha Hb)) as K. unfold rec_below in K. cbn [fst snd] in K.
    destruct K as [K|[_ [K|K]]]; [exact K|cbn [snd] in K; lia|]. injection K as K. lia.
Qed.
(* any other record is rejected *)
Theorem C44_incompatible : forall w r multi, ~ compatible multi w r -> hecke w (Some r) multi = Err AssertionError.
Proof. intros w r multi H. unfold hecke. rewrite (check_incompatible w r multi H). reflexivity. Qed.

(* inverse_hecke undoes hecke on words of nonnegative letters, with any compatible positive record *)
Theorem C45_inverse : forall w r multi, Forall (fun x => 0 <= x) w -> Forall (fun x => 0 < x) r -> compatible multi w r ->
  exists p q, hecke w (Some r) multi = Ok (p, q) /\ inverse_hecke p q multi = Ok (w, r).
Proof.
  intros w r multi F G C. pose proof (check_compatible w r multi C) as CK.
  destruct (hecke_core w (Some r) multi r CK) as (p & q & D & E & W & N & LD & P & SO & _ & _ & _ & _ & _ & INV). destruct (INV F) as (p1 & q1 & E1 & E2 & E3).
  exists p, (rename (rec_of r) q). split; [exact E|]. unfold inverse_hecke. rewrite (standardize_record q D r W N LD P G SO). cbn [rbind fst snd].
  rewrite E1. cbn [rbind]. rewrite E2. cbn [rbind]. rewrite E3. reflexivity.
Qed.
Theorem C45_default : forall w multi, Forall (fun x => 0 <= x) w ->
  exists p q, hecke w None multi = Ok (p, q) /\ inverse_hecke p q multi = Ok (w, zrange 1 (zlen w + 1)).
Proof.
  intros w multi F. pose proof (check_default w multi) as CK.
  destruct (hecke_core w None multi _ CK) as (p & q & D & E & W & N & LD & P & SO & _ & _ & _ & _ & _ & INV). destruct (INV F) as (p1 & q1 & E1 & E2 & E3).
  exists p, (rename (rec_of (zrange 1 (zlen w + 1))) q). split; [exact E|]. unfold inverse_hecke. rewrite (standardize_record q D _ W N LD P); [|apply Forall_forall; intros x Hx; apply In_zrange in Hx; lia|exact SO]. cbn [rbind fst snd].
  rewrite E1. cbn [rbind]. rewrite E2. cbn [rbind]. rewrite E3. reflexivity.
Qed.
(* so the pair of tableaux determines the word and the record *)
Theorem C45_injective : forall w r w' r' multi, Forall (fun x => 0 <= x) w -> Forall (fun x => 0 < x) r -> compatible multi w r ->
  Forall (fun x => 0 <= x) w' -> Forall (fun x => 0 < x) r' -> compatible multi w' r' ->
  hecke w (Some r) multi = hecke w' (Some r') multi -> w = w' /\ r = r'.
Proof.
  intros w r w' r' multi A B C A' B' C' E. destruct (C45_inverse w r multi A B C) as (p & q & E1 & E2). destruct (C45_inverse w' r' multi A' B' C') as (p' & q' & E1' & E2').
  rewrite E1, E1' in E. injection E as <- <-. rewrite E2 in E2'. injection E2' as <- <-. split; reflexivity.
Qed.
(* negative letters: the code's default 0 for a missing cell gets in the way *)
Theorem C45_negative_refuted : exists w p q w' r', hecke w None true = Ok (p, q) /\ inverse_hecke p q true = Ok (w', r') /\ w' <> w.
Proof. exists [-1; -1], [((1, 1), [-1])], [((1, 1), [1; 2])], [-1; 0], [1; 2]. split; [vm_compute; reflexivity|]. split; [vm_compute; reflexivity|]. discriminate. Qed.

Example C44_example : hecke [2; 1; 1; 3; 2] None true = Ok ([((1, 1), [1]); ((1, 2), [2]); ((2, 1), [2]); ((2, 2), [3])], [((1, 1), [1]); ((1, 2), [4]); ((2, 1), [2; 3]); ((2, 2), [5])]).
Proof. vm_compute. reflexivity. Qed.
Example C45_example : compatible true [2; 1; 1; 3; 2] [1; 4; 4; 4; 7] /\ compatible false [2; 1; 1; 3; 2] [1; 1; 4; 6; 6] /\
  (do pq <- hecke [2; 1; 1; 3; 2] (Some [1; 4; 4; 4; 7]) true; inverse_hecke (fst pq) (snd pq) true) = Ok ([2; 1; 1; 3; 2], [1; 4; 4; 4; 7]) /\
  (do pq <- hecke [2; 1; 1; 3; 2] (Some [1; 1; 4; 6; 6]) false; inverse_hecke (fst pq) (snd pq) false) = Ok ([2; 1; 1; 3; 2], [1; 1; 4; 6; 6]) /\
  hecke [1; 2] (Some [1; 1]) false = Err AssertionError.
Proof.
  split; [|split]; [| |repeat split; vm_compute; reflexivity]; (split; [reflexivity|]); intros n Hn; cbn [length] in Hn; do 4 (destruct n as [|n]; [cbn; lia|]); lia.
Qed.

Print Assumptions C44_total.
Print Assumptions C44_record.
Print Assumptions C44_incompatible.
Print Assumptions C45_inverse.
Print Assumptions C45_default.
Print Assumptions C45_injective.
Print Assumptions C45_negative_refuted.
