(* Set-valued column insertion on lists of codes: the bumps are found in order, every index is valid, no letter is lost,
   no box becomes empty. *)
From Coq Require Import List ZArith Bool Lia Permutation Sorted.
From Verif Require Import PyBase M_Partitions S_Tableaux M_Tableaux M_DiagUnprime.
Import ListNotations.
Local Open Scope Z_scope.

Lemma code_uncode : forall v, uncode (code v) = v.
Proof.
  intro v. unfold uncode, code. destruct (Z.ltb_spec v 0).
  - replace (-1 - 2 * v) with (1 + (- v - 1) * 2) by lia. rewrite Z.mod_add by lia. change (1 mod 2) with 1. cbn [Z.eqb negb].
    replace (- (1 + (- v - 1) * 2 + 1)) with (v * 2) by lia. apply Z.div_mul. lia.
  - replace (2 * v) with (v * 2) by lia. rewrite Z.mod_mul by lia. cbn [Z.eqb negb]. apply Z.div_mul. lia.
Qed.

Lemma rfold_app : forall (A B : Type) (f : B -> A -> res B) l m s, rfold f (l ++ m) s = (do x <- rfold f l s; rfold f m x).
Proof. intros A B f. induction l as [|a l IH]; intros m s; [reflexivity|]. cbn [app rfold]. destruct (f s a) as [s'|e]; cbn [rbind]; [apply IH|reflexivity]. Qed.

Lemma bumped_mono : forall v v' b, v <= v' -> bumped v' b = true -> bumped v b = true.
Proof.
  intros v v' b H. unfold bumped. rewrite !orb_true_iff, !andb_true_iff, !Z.leb_le, !Z.ltb_lt, !negb_true_iff. intro E.
  destruct (Z.eq_dec v v') as [->|N]; [exact E|]. destruct (v mod 2 =? 0); [left|right]; split; try reflexivity; lia.
Qed.
Lemma bump_in_some : forall v box j k, bump_in v box j = Some k -> exists q b, k = (j + q)%nat /\ nth_error box q = Some b /\ bumped v b = true /\ Forall (fun e => bumped v e = false) (firstn q box).
Proof.
  intro v. induction box as [|b box IH]; intros j k H; [discriminate|]. cbn [bump_in] in H. destruct (bumped v b) eqn:E.
  - injection H as <-. exists 0%nat, b. split; [lia|]. split; [reflexivity|]. split; [exact E|constructor].
  - apply IH in H. destruct H as (q & b' & -> & N & B & F). exists (S q), b'. split; [lia|]. split; [exact N|]. split; [exact B|]. cbn [firstn]. constructor; assumption.
Qed.
Lemma bump_in_none : forall v box j, bump_in v box j = None <-> Forall (fun e => bumped v e = false) box.
Proof.
  intro v. induction box as [|b box IH]; intro j; [split; [constructor|reflexivity]|]. cbn [bump_in]. destruct (bumped v b) eqn:E.
  - split; [discriminate|]. intro F. inversion F; congruence.
  - rewrite IH. split; [intro; constructor; assumption|intro F; inversion F; assumption].
Qed.
(* what bump_location finds *)
Definition located (boxes : list (list Z)) (v : Z) (i j : nat) : Prop :=
  (forall k box, (k < i)%nat -> nth_error boxes k = Some box -> Forall (fun e => bumped v e = false) box) /\
  ((i = length boxes /\ j = 0%nat) \/
   exists box b, nth_error boxes i = Some box /\ nth_error box j = Some b /\ bumped v b = true /\ Forall (fun e => bumped v e = false) (firstn j box)).
Lemma bump_from_spec : forall v boxes i a j, bump_from boxes v i = (a, j) -> exists q, a = (i + q)%nat /\ located boxes v q j.
Proof.
  intro v. induction boxes as [|box boxes IH]; intros i a j H; cbn [bump_from] in H.
  - injection H as <- <-. exists 0%nat. split; [lia|]. split; [intros; lia|left; split; reflexivity].
  - destruct (bump_in v box 0) as [q|] eqn:E.
    + injection H as <- <-. apply bump_in_some in E. destruct E as (r & b & -> & N & B & F). exists 0%nat. split; [lia|]. split; [intros; lia|].
      right. exists box, b. split; [reflexivity|]. split; [exact N|]. split; assumption.
    + apply IH in H. destruct H as (q & -> & L1 & L2). exists (S q). split; [lia|]. apply bump_in_none in E. split.
      * intros [|k] bx Hk Hn; [injection Hn as <-; exact E|]. apply (L1 k bx); [lia|exact Hn].
      * destruct L2 as [[-> ->]|L2]; [left; split; reflexivity|right; exact L2].
Qed.
Lemma location_spec : forall boxes v i j, bump_location boxes v = (i, j) -> located boxes v i j.
Proof. intros boxes v i j H. apply bump_from_spec in H. destruct H as (q & -> & L). exact L. Qed.
Lemma located_mono : forall boxes v v' i j i' j', v <= v' -> located boxes v i j -> located boxes v' i' j' -> (i <= i')%nat.
Proof.
  intros boxes v v' i j i' j' H [A1 A2] [B1 B2]. destruct (Nat.le_gt_cases i i') as [|G]; [assumption|exfalso].
  destruct B2 as [[-> ->]|(box & b & N & Nb & B & F)].
  - destruct A2 as [[-> _]|(box & b & N & _)]; [lia|]. assert (i < length boxes)%nat by (apply nth_error_Some; congruence). lia.
  - specialize (A1 i' box G N). rewrite Forall_forall in A1. specialize (A1 b (nth_error_In _ _ Nb)). rewrite (bumped_mono v v' b H B) in A1. discriminate.
Qed.

Definition idx (m : nat * nat * list Z) : nat := fst (fst m).
(* one bump: the letters val, in order, all land in box i, the first one at position j *)
Definition good_bump (boxes : list (list Z)) (m : nat * nat * list Z) : Prop :=
  let '(i, j, val) := m in
  increasing val /\ (exists v rest, val = v :: rest /\ located boxes v i j) /\ Forall (fun v => exists j', located boxes v i j') val.
Definition good_bumps (boxes : list (list Z)) (ms : list (nat * nat * list Z)) : Prop :=
  Forall (good_bump boxes) ms /\ StronglySorted lt (map idx ms).

Lemma sorted_app : forall (A : Type) (R : A -> A -> Prop) l m, StronglySorted R (l ++ m) <-> StronglySorted R l /\ StronglySorted R m /\ (forall x y, In x l -> In y m -> R x y).
Proof.
  intros A R. induction l as [|a l IH]; intro m; cbn [app].
  - split; [intro H; split; [constructor|]; split; [exact H|intros x y []]|tauto].
  - split.
    + intro H. inversion H as [|? ? S F]; subst. apply IH in S. destruct S as (S1 & S2 & S3). rewrite Forall_app in F. destruct F as [F1 F2].
      split; [constructor; assumption|]. split; [assumption|]. intros x y [<-|Hx] Hy; [rewrite Forall_forall in F2; apply F2; exact Hy|apply S3; assumption].
    + intros (S1 & S2 & S3). inversion S1 as [|? ? S F]; subst. constructor; [apply IH; split; [assumption|]; split; [assumption|intros; apply S3; [right|]; assumption]|].
      rewrite Forall_app. split; [assumption|]. apply Forall_forall. intros y Hy. apply S3; [left; reflexivity|exact Hy].
Qed.

Lemma find_bumps_gen : forall boxes vs ms, good_bumps boxes ms -> increasing vs ->
  (forall m u v, In m ms -> In u (snd m) -> In v vs -> u <= v) ->
  good_bumps boxes (fold_left (add_bump boxes) vs ms) /\ flat_map snd (fold_left (add_bump boxes) vs ms) = flat_map snd ms ++ vs.
Proof.
  intro boxes. induction vs as [|v vs IH]; intros ms G I L; [cbn [fold_left]; rewrite app_nil_r; split; [exact G|reflexivity]|].
  cbn [fold_left]. inversion I as [|? ? I2 F2]; subst.
  destruct (bump_location boxes v) as [i j] eqn:EL. pose proof (location_spec _ _ _ _ EL) as LV.
  assert (K : good_bumps boxes (add_bump boxes ms v) /\ flat_map snd (add_bump boxes ms v) = flat_map snd ms ++ [v]).
  { destruct G as [GF GS].
    assert (NEW : good_bump boxes (i, j, [v])). { split; [repeat constructor|]. split; [exists v, []; split; [reflexivity|exact LV]|constructor; [exists j; exact LV|constructor]]. }
    unfold add_bump. rewrite EL. destruct (rev ms) as [|[[i' j'] vals] r] eqn:ER.
    - apply (f_equal (@rev _)) in ER. rewrite rev_involutive in ER. cbn in ER. subst ms. cbn [app]. split; [split; [constructor; [exact NEW|constructor]|repeat constructor]|reflexivity].
    - apply (f_equal (@rev _)) in ER. rewrite rev_involutive in ER. cbn [rev] in ER. subst ms. set (r' := rev r) in *. rewrite Forall_app in GF. destruct GF as [GF1 GF2]. apply Forall_inv in GF2.
      rewrite map_app in GS. apply sorted_app in GS. destruct GS as (GS1 & _ & GS3). cbn [map idx fst snd] in GS3.
      destruct GF2 as (V1 & (v0 & rest & -> & V2) & V3).
      assert (LE : (i' <= i)%nat). { apply (located_mono boxes v0 v i' j' i j); [|exact V2|exact LV]. apply (L (i', j', v0 :: rest) v0 v); [apply in_or_app; right; left; reflexivity|left; reflexivity|left; reflexivity]. }
      destruct (Nat.eqb_spec i' i) as [EI|NI].
      + subst i'. split.
        * split.
          -- rewrite Forall_app. split; [exact GF1|]. constructor; [|constructor]. split.
             { apply sorted_app. split; [exact V1|]. split; [repeat constructor|]. intros x y Hx [<-|[]]. apply (L (i, j', v0 :: rest) x v); [apply in_or_app; right; left; reflexivity|exact Hx|left; reflexivity]. }
             split; [exists v0, (rest ++ [v]); split; [reflexivity|exact V2]|]. rewrite Forall_app. split; [exact V3|]. constructor; [exists j; exact LV|constructor].
          -- rewrite map_app. apply sorted_app. split; [exact GS1|]. split; [repeat constructor|exact GS3].
        * rewrite !flat_map_app. cbn [flat_map snd]. rewrite !app_nil_r, <- app_assoc. reflexivity.
      + split.
        * split; [rewrite !Forall_app; split; [split; [exact GF1|constructor; [|constructor]]|constructor; [exact NEW|constructor]]|].
          -- split; [exact V1|]. split; [exists v0, rest; split; [reflexivity|exact V2]|exact V3].
          -- rewrite !map_app. apply sorted_app. split; [apply sorted_app; split; [exact GS1|]; split; [repeat constructor|exact GS3]|]. split; [repeat constructor|].
             intros x y Hx Hy. cbn [map idx fst snd In] in Hy. destruct Hy as [<-|[]]. apply in_app_or in Hx. destruct Hx as [Hx|[<-|[]]].
             ++ specialize (GS3 x i' Hx (or_introl eq_refl)). lia.
             ++ cbn [idx fst]. lia.
        * rewrite (flat_map_app _ (r' ++ _)). reflexivity. }
  destruct K as [K1 K2]. destruct (IH (add_bump boxes ms v) K1 I2) as [R1 R2].
  { intros m u x Hm Hu Hx. assert (In u (flat_map snd ms ++ [v])) by (rewrite <- K2; apply in_flat_map; exists m; split; assumption).
    apply in_app_or in H. destruct H as [H|[<-|[]]].
    - apply in_flat_map in H. destruct H as (m' & Hm' & Hu'). apply (L m' u x Hm' Hu'). right. exact Hx.
    - rewrite Forall_forall in F2. apply F2. exact Hx. }
  split; [exact R1|]. rewrite R2, K2, <- app_assoc. reflexivity.
Qed.
Lemma find_bumps_ok : forall boxes vs, increasing vs -> good_bumps boxes (find_bumps boxes vs) /\ flat_map snd (find_bumps boxes vs) = vs.
Proof. intros boxes vs I. apply (find_bumps_gen boxes vs []); [split; constructor|exact I|intros m u v []]. Qed.

Lemma filter_prefix : forall (p : Z -> bool) l, increasing l -> (forall x y, x <= y -> p y = true -> p x = true) -> filter p l ++ skipn (length (filter p l)) l = l.
Proof.
  intros p l I M. induction I as [|x l I IH F]; [reflexivity|]. cbn [filter]. destruct (p x) eqn:E; [cbn [app length skipn]; rewrite IH; reflexivity|].
  assert (N : filter p l = []). { clear IH I. induction F as [|y l H F IH]; [reflexivity|]. cbn [filter]. destruct (p y) eqn:Ey; [rewrite (M x y H Ey) in E; discriminate|exact IH]. }
  rewrite N. reflexivity.
Qed.
Lemma stays_mono : forall b bnd x y, x <= y -> stays b bnd y = true -> stays b bnd x = true.
Proof.
  intros b bnd x y H. unfold stays. rewrite !andb_true_iff, !Z.leb_le, !negb_true_iff, !orb_false_iff, !andb_false_iff, !negb_false_iff, !Z.ltb_ge, !Z.eqb_eq, !Z.eqb_neq.
  intros (A & B & C). split; [lia|]. split; [lia|]. destruct (Z.eq_dec x y) as [->|N]; [exact C|]. destruct (Z.eq_dec bnd 0); [left; left; assumption|left; right; lia].
Qed.

Lemma set_nth_length : forall (A : Type) i (x : A) l, (i < length l)%nat -> length (set_nth i x l) = length l.
Proof. intros A i x l H. unfold set_nth. rewrite app_length. cbn [length]. rewrite firstn_length, skipn_length. lia. Qed.
Lemma nth_split_eq : forall (A : Type) i (y : A) l, nth_error l i = Some y -> l = firstn i l ++ y :: skipn (S i) l.
Proof. intros A. induction i as [|i IH]; intros y [|a l] H; try discriminate; [injection H as ->; reflexivity|]. cbn [firstn app]. f_equal. apply (IH y l H). Qed.
Lemma nth_set_other : forall (A : Type) i (x : A) l k, (i < length l)%nat -> k <> i -> nth_error (set_nth i x l) k = nth_error l k.
Proof.
  intros A. induction i as [|i IH]; intros x [|a l] k H N; cbn [length] in H; try lia.
  - destruct k as [|k]; [lia|reflexivity].
  - destruct k as [|k]; [reflexivity|]. unfold set_nth in *. cbn [firstn app nth_error]. apply (IH x l k); lia.
Qed.
Lemma nth_set_same : forall (A : Type) i (x : A) l, (i < length l)%nat -> nth_error (set_nth i x l) i = Some x.
Proof. intros A. induction i as [|i IH]; intros x [|a l] H; cbn [length] in H; try lia; [reflexivity|]. unfold set_nth in *. cbn [firstn app nth_error]. apply IH. lia. Qed.
Lemma perm_count : forall l m : list Z, (forall z, count_occ Z.eq_dec l z = count_occ Z.eq_dec m z) -> Permutation l m.
Proof. intros l m H. apply (Permutation_count_occ Z.eq_dec). exact H. Qed.
Lemma set_nth_perm : forall i (x y : list Z) l, nth_error l i = Some y -> Permutation (concat (set_nth i x l) ++ y) (concat l ++ x).
Proof.
  intros i x y l H. pattern l at 2. rewrite (nth_split_eq _ _ _ _ H). unfold set_nth. apply perm_count. intro z. rewrite !concat_app. cbn [concat].
  rewrite !count_occ_app. lia.
Qed.
Lemma Forall_firstn : forall (A : Type) (P : A -> Prop) i l, Forall P l -> Forall P (firstn i l).
Proof. intros A P i l F. rewrite <- (firstn_skipn i l), Forall_app in F. tauto. Qed.
Lemma Forall_skipn : forall (A : Type) (P : A -> Prop) i l, Forall P l -> Forall P (skipn i l).
Proof. intros A P i l F. rewrite <- (firstn_skipn i l), Forall_app in F. tauto. Qed.
Lemma set_nth_Forall : forall (A : Type) (P : A -> Prop) i x l, Forall P l -> P x -> Forall P (set_nth i x l).
Proof. intros A P i x l F H. unfold set_nth. rewrite Forall_app. split; [apply Forall_firstn; exact F|]. constructor; [exact H|apply Forall_skipn; exact F]. Qed.

(* the state after the bumps ms: R says how the boxes of the result relate to those at the start *)
Lemma apply_bumps : forall boxes bound ms, Forall (fun b => b <> []) boxes -> length bound = S (length boxes) -> good_bumps boxes ms ->
  exists boxes' ans, rfold (apply_bump bound) (rev ms) (boxes, []) = Ok (boxes', ans) /\
    (length boxes' = length boxes \/ length boxes' = S (length boxes)) /\
    (ms = [] -> boxes' = boxes) /\
    (forall k, Forall (fun m => (k < idx m)%nat) ms -> (k < length boxes)%nat -> nth_error boxes' k = nth_error boxes k) /\
    Permutation (concat boxes ++ flat_map snd ms) (concat boxes' ++ ans) /\ Forall (fun b => b <> []) boxes'.
Proof.
  intros boxes bound ms NE LB. induction ms as [|[[i j] val] ms IH]; intro G.
  - exists boxes, []. cbn. rewrite !app_nil_r. split; [reflexivity|]. split; [left; reflexivity|]. split; [reflexivity|]. split; [reflexivity|]. split; [apply Permutation_refl|exact NE].
  - destruct G as [GF GS]. inversion GF as [|? ? G1 GF2]; subst. cbn [map] in GS. inversion GS as [|? ? GS2 GS1]; subst. cbn [idx fst] in GS1.
    destruct (IH (conj GF2 GS2)) as (bx & ans & E & LE & EN & NK & P & NE2). clear IH. destruct G1 as (VI & (v & rest & -> & L1 & L2) & VF).
    cbn [rev]. rewrite rfold_app, E. cbn [rbind rfold]. cbn [apply_bump].
    destruct L2 as [[-> ->]|(box & b & NB & Nb & BB & FB)].
    + assert (MS : ms = []). { destruct ms as [|[[i2 j2] val2] ms]; [reflexivity|exfalso]. apply Forall_inv in GS1. cbn [idx fst] in GS1. apply Forall_inv in GF2. destruct GF2 as (_ & (? & ? & _ & _ & [[? _]|(? & ? & N & _)]) & _); [lia|].
        assert (i2 < length boxes)%nat by (apply nth_error_Some; congruence). lia. }
      rewrite (EN MS) in *. subst ms. rewrite Nat.eqb_refl. cbn [rbind]. exists (boxes ++ [v :: rest]), ans. split; [reflexivity|]. split; [right; rewrite app_length; cbn; lia|].
      split; [discriminate|]. split; [intros k _ Hk; apply nth_error_app1; exact Hk|]. split; [|rewrite Forall_app; split; [exact NE|constructor; [discriminate|constructor]]].
      cbn [flat_map snd] in *. rewrite app_nil_r in *. apply perm_count. intro z. rewrite concat_app. cbn [concat]. rewrite app_nil_r. rewrite !count_occ_app. pose proof (proj1 (Permutation_count_occ Z.eq_dec _ _) P z) as Pz. rewrite !count_occ_app in Pz. cbn [app] in Pz. lia.
    + assert (Hi : (i < length boxes)%nat) by (apply nth_error_Some; congruence).
      rewrite (proj2 (Nat.eqb_neq i (length bx))) by lia.
      assert (NX : nth_error bx i = Some box). { rewrite NK; [exact NB| |exact Hi]. rewrite Forall_map in GS1. exact GS1. }
      rewrite NX. destruct (nth_error bound (S i)) as [bnd|] eqn:EB; [|exfalso; apply nth_error_None in EB; lia]. rewrite Nb.
      set (add := v :: filter (stays b bnd) rest). set (left := skipn (length add) (v :: rest)).
      assert (AL : add ++ left = v :: rest). { unfold left, add. cbn [length skipn app]. f_equal. apply filter_prefix; [inversion VI; assumption|apply stays_mono]. }
      set (bx1 := set_nth i (firstn j box ++ add) bx).
      assert (L1' : length bx1 = length bx) by (apply set_nth_length; lia).
      assert (NE3 : Forall (fun b => b <> []) bx1). { apply set_nth_Forall; [exact NE2|]. unfold add. destruct (firstn j box); discriminate. }
      assert (PB : Permutation (concat bx1 ++ box) (concat bx ++ firstn j box ++ add)) by (apply set_nth_perm; exact NX).
      assert (NK1 : forall k, (k < i)%nat -> nth_error bx1 k = nth_error boxes k). { intros k Hk. unfold bx1. rewrite nth_set_other by lia. apply NK; [|lia]. rewrite Forall_map in GS1. eapply Forall_impl; [|exact GS1]. intros m Hm. cbv beta in *. lia. }
      clearbody bx1. clearbody left. clearbody add.
      assert (PC : Permutation (concat boxes ++ (v :: rest) ++ flat_map snd ms) (concat bx1 ++ left ++ skipn j box ++ ans)).
      { apply perm_count. intro z. rewrite <- AL. rewrite !count_occ_app. pose proof (proj1 (Permutation_count_occ Z.eq_dec _ _) P z) as Pz. pose proof (proj1 (Permutation_count_occ Z.eq_dec _ _) PB z) as Qz.
        repeat rewrite count_occ_app in Pz. repeat rewrite count_occ_app in Qz. assert (Bz : count_occ Z.eq_dec box z = (count_occ Z.eq_dec (firstn j box) z + count_occ Z.eq_dec (skipn j box) z)%nat) by (rewrite <- count_occ_app, firstn_skipn; reflexivity). lia. }
      cbn [flat_map snd]. destruct left as [|l0 left'].
      * cbn [rbind]. exists bx1, (skipn j box ++ ans). split; [reflexivity|]. split; [lia|]. split; [discriminate|]. split; [|split; [exact PC|exact NE3]].
        intros k Hk _. apply NK1. apply Forall_inv in Hk. exact Hk.
      * rewrite L1'. destruct (Nat.eqb_spec (S i) (length bx)) as [EQ|NQ].
        -- rewrite nth_error_app2 by lia. replace (S i - length bx1)%nat with 0%nat by lia. cbn [nth_error rbind].
           assert (SE : set_nth (S i) ((l0 :: left') ++ []) (bx1 ++ [[]]) = bx1 ++ [l0 :: left']).
           { rewrite app_nil_r. unfold set_nth. rewrite firstn_app. replace (S i - length bx1)%nat with 0%nat by lia. rewrite firstn_all2 by lia. cbn [firstn]. rewrite app_nil_r. f_equal. f_equal. apply skipn_all2. rewrite app_length. cbn. lia. }
           rewrite SE. exists (bx1 ++ [l0 :: left']), (skipn j box ++ ans). split; [reflexivity|]. split; [rewrite app_length; cbn [length]; lia|]. split; [discriminate|]. split.
           { intros k Hk Hk2. apply Forall_inv in Hk. cbn [idx fst] in Hk. rewrite nth_error_app1 by lia. apply NK1. exact Hk. }
           split; [rewrite concat_app; cbn [concat]; rewrite app_nil_r, <- app_assoc; exact PC|]. rewrite Forall_app. split; [exact NE3|constructor; [discriminate|constructor]].
        -- destruct (nth_error bx1 (S i)) as [next|] eqn:EX; [|exfalso; apply nth_error_None in EX; lia]. cbn [rbind].
           exists (set_nth (S i) ((l0 :: left') ++ next) bx1), (skipn j box ++ ans). split; [reflexivity|]. split; [rewrite set_nth_length by lia; lia|]. split; [discriminate|]. split.
           { intros k Hk Hk2. apply Forall_inv in Hk. cbn [idx fst] in Hk. rewrite nth_set_other by lia. apply NK1. exact Hk. }
           split; [|apply set_nth_Forall; [exact NE3|discriminate]].
           pose proof (set_nth_perm (S i) ((l0 :: left') ++ next) next bx1 EX) as PD. apply perm_count. intro z.
           pose proof (proj1 (Permutation_count_occ Z.eq_dec _ _) PC z) as Pz. pose proof (proj1 (Permutation_count_occ Z.eq_dec _ _) PD z) as Qz. rewrite !count_occ_app in *. lia.
Qed.
