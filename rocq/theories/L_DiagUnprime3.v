(* Set-valued column insertion keeps the column in order *)
From Coq Require Import List ZArith Bool Lia Permutation Sorted.
From Verif Require Import PyBase M_Partitions S_Tableaux M_Tableaux M_DiagUnprime L_DiagUnprime1.
Import ListNotations.
Local Open Scope Z_scope.

(* codes in a column: increasing, and no even code (unprimed letter) twice *)
Definition cord (x y : Z) : Prop := x < y \/ (x = y /\ x mod 2 <> 0).
Lemma cord_trans : forall x y z, cord x y -> cord y z -> cord x z.
Proof. unfold cord. intros x y z [A|[<- A]] [B|[<- B]]; [left; lia|left; lia|left; lia|right; split; [reflexivity|exact A]]. Qed.
Lemma not_bumped : forall v e, bumped v e = false -> cord e v.
Proof.
  intros v e. unfold bumped, cord. rewrite orb_false_iff, !andb_false_iff, Z.leb_gt, Z.ltb_ge, negb_false_iff, Z.eqb_neq, Z.eqb_eq. intros [A B].
  destruct (Z.eq_dec e v) as [->|N]; [|left; lia]. right. split; [reflexivity|]. destruct A as [A|A]; [lia|exact A].
Qed.
Lemma bumped_before : forall v e f, bumped v e = true -> cord e f -> cord v f.
Proof.
  intros v e f. unfold bumped, cord. rewrite orb_true_iff, !andb_true_iff, Z.leb_le, Z.ltb_lt, negb_true_iff, Z.eqb_eq, Z.eqb_neq. intros A B.
  destruct (Z.eq_dec v f) as [->|N]; [|left; lia]. right. split; [reflexivity|]. destruct A as [[A1 A2]|[A1 A2]]; [|exact A2]. destruct B as [B|[-> B]]; [lia|exact B].
Qed.

Lemma set_nth_mid : forall (A : Type) (a t : list A) (x y : A), set_nth (length a) x (a ++ y :: t) = a ++ x :: t.
Proof.
  intros A a t x y. unfold set_nth. rewrite firstn_app, Nat.sub_diag, firstn_all. cbn [firstn]. rewrite app_nil_r. f_equal. f_equal.
  replace (a ++ y :: t) with ((a ++ [y]) ++ t) by (rewrite <- app_assoc; reflexivity). rewrite skipn_app. replace (S (length a)) with (length (a ++ [y])) by (rewrite app_length; cbn; lia). rewrite skipn_all, Nat.sub_diag. reflexivity.
Qed.
Lemma nth_mid : forall (A : Type) (a t : list A) y, nth_error (a ++ y :: t) (length a) = Some y.
Proof. intros A a t y. rewrite nth_error_app2, Nat.sub_diag by lia. reflexivity. Qed.

Lemma apply_step : forall bound a box t ans j v rest b, (S (length a) < length bound)%nat -> nth_error box j = Some b -> increasing (v :: rest) ->
  exists row t', apply_bump bound (a ++ box :: t, ans) (length a, j, v :: rest) = Ok (a ++ row :: t', skipn j box ++ ans) /\ concat (row :: t') = firstn j box ++ (v :: rest) ++ concat t.
Proof.
  intros bound a box t ans j v rest b HB Nb VI. cbn [apply_bump]. rewrite (proj2 (Nat.eqb_neq (length a) (length (a ++ box :: t)))) by (rewrite app_length; cbn; lia).
  rewrite nth_mid. destruct (nth_error bound (S (length a))) as [bnd|] eqn:EB; [|exfalso; apply nth_error_None in EB; lia]. rewrite Nb.
  set (add := v :: filter (stays b bnd) rest). set (left := skipn (length add) (v :: rest)).
  assert (AL : add ++ left = v :: rest). { unfold left, add. cbn [length skipn app]. f_equal. apply filter_prefix; [inversion VI; assumption|apply stays_mono]. }
  clearbody left. clearbody add. rewrite set_nth_mid. destruct left as [|l0 left].
  - exists (firstn j box ++ add), t. split; [reflexivity|]. cbn [concat]. rewrite app_nil_r in AL. rewrite AL, <- app_assoc. reflexivity.
  - replace (a ++ (firstn j box ++ add) :: t) with ((a ++ [firstn j box ++ add]) ++ t) by (rewrite <- app_assoc; reflexivity).
    assert (LA : S (length a) = length (a ++ [firstn j box ++ add])) by (rewrite app_length; cbn; lia). rewrite LA.
    set (a' := a ++ [firstn j box ++ add]) in *. exists (firstn j box ++ add). destruct t as [|next t].
    + rewrite app_nil_r. rewrite Nat.eqb_refl. rewrite nth_mid, set_nth_mid. exists [(l0 :: left) ++ []]. split; [unfold a'; rewrite <- app_assoc; reflexivity|].
      cbn [concat]. rewrite !app_nil_r, <- AL, app_assoc. reflexivity.
    + rewrite (proj2 (Nat.eqb_neq (length a') (length (a' ++ next :: t)))) by (rewrite app_length; cbn; lia). rewrite nth_mid, set_nth_mid. exists (((l0 :: left) ++ next) :: t). split; [unfold a'; rewrite <- app_assoc; reflexivity|].
      cbn [concat]. rewrite <- AL, <- !app_assoc. reflexivity.
Qed.

Lemma In_skip : forall (x : Z) k l, In x (concat (skipn (S k) l)) -> In x (concat (skipn k l)).
Proof. intros x k. induction k as [|k IH]; intros [|a l] H; try exact H; [cbn [skipn concat]; apply in_or_app; right; exact H|]. cbn [skipn] in *. apply IH. exact H. Qed.
Lemma In_skip_le : forall (x : Z) k k' l, (k <= k')%nat -> In x (concat (skipn k' l)) -> In x (concat (skipn k l)).
Proof. intros x k k' l H. induction H as [|k' H IH]; [tauto|]. intro A. apply IH, In_skip. exact A. Qed.
Lemma In_skip_box : forall (x : Z) k i l box, (k <= i)%nat -> nth_error l i = Some box -> In x box -> In x (concat (skipn k l)).
Proof. intros x k i l box H N I. apply (In_skip_le x k i l H). rewrite (nth_split_eq _ _ _ _ N). rewrite skipn_app. apply in_concat. exists box. split; [|exact I]. apply in_or_app. right.
  assert (i < length l)%nat by (apply nth_error_Some; congruence). rewrite firstn_length, Nat.min_l by lia. rewrite Nat.sub_diag. left. reflexivity. Qed.
Lemma firstn_S : forall (A : Type) i (y : A) l, nth_error l i = Some y -> firstn (S i) l = firstn i l ++ [y].
Proof. intros A. induction i as [|i IH]; intros y [|a l] H; try discriminate; [injection H as ->; reflexivity|]. cbn [firstn app]. f_equal. apply (IH y l H). Qed.

Lemma bumps_sorted : forall boxes bound ms, length bound = S (length boxes) -> good_bumps boxes ms -> StronglySorted cord (concat boxes) -> StronglySorted cord (flat_map snd ms) ->
  forall boxes' ans, rfold (apply_bump bound) (rev ms) (boxes, []) = Ok (boxes', ans) ->
  StronglySorted cord (concat boxes') /\ StronglySorted cord ans /\
  forall k, (k <= length boxes)%nat -> Forall (fun m => (k <= idx m)%nat) ms ->
    (exists T, boxes' = firstn k boxes ++ T /\ forall x, In x (concat T) -> In x (concat (skipn k boxes)) \/ In x (flat_map snd ms)) /\
    (forall x, In x ans -> In x (concat (skipn k boxes))).
Proof.
  intros boxes bound ms LB. induction ms as [|[[i j] val] ms IH]; intros G SB SV boxes' ans E.
  - cbn in E. injection E as <- <-. split; [exact SB|]. split; [constructor|]. intros k Hk _. split; [|intros x []]. exists (skipn k boxes). split; [symmetry; apply firstn_skipn|left; assumption].
  - destruct G as [GF GS]. inversion GF as [|? ? G1 GF2]; subst. cbn [map] in GS. inversion GS as [|? ? GS2 GS1]; subst. cbn [idx fst] in GS1. rewrite Forall_map in GS1.
    cbn [rev] in E. rewrite rfold_app in E. destruct (rfold (apply_bump bound) (rev ms) (boxes, [])) as [[bx an]|] eqn:E1; [|discriminate]. cbn [rbind rfold] in E.
    cbn [flat_map snd] in SV. apply sorted_app in SV. destruct SV as (SV1 & SV2 & SV3).
    destruct (IH (conj GF2 GS2) SB SV2 bx an eq_refl) as (S1 & S2 & K). clear IH.
    destruct G1 as (VI & (v & rest & -> & L1 & L2) & VF).
    (* everything before the bumped letter is below the letters inserted here *)
    assert (BEF : forall e, (exists k box, (k < i)%nat /\ nth_error boxes k = Some box /\ In e box) -> cord e v).
    { intros e (k & box & Hk & Hn & He). specialize (L1 k box Hk Hn). rewrite Forall_forall in L1. apply not_bumped, L1. exact He. }
    assert (HV : forall e, cord e v -> forall u, In u (v :: rest) -> cord e u).
    { intros e He u [<-|Hu]; [exact He|]. inversion SV1 as [|? ? _ F]; subst. rewrite Forall_forall in F. exact (cord_trans _ _ _ He (F u Hu)). }
    assert (FST : forall e, In e (concat (firstn i boxes)) -> exists k box, (k < i)%nat /\ nth_error boxes k = Some box /\ In e box).
    { intros e He. apply in_concat in He. destruct He as (box & Hb & He). apply In_nth_error in Hb. destruct Hb as (k & Hk). assert (k < length (firstn i boxes))%nat by (apply nth_error_Some; congruence). rewrite firstn_length in H.
      exists k, box. split; [lia|]. split; [|exact He]. rewrite <- (firstn_skipn i boxes). rewrite nth_error_app1 by (rewrite firstn_length; lia). exact Hk. }
    destruct L2 as [[-> ->]|(box & b & NB & Nb & BB & FB)].
    + assert (MS : ms = []). { destruct ms as [|[[i2 j2] val2] ms]; [reflexivity|exfalso]. apply Forall_inv in GS1. cbn [idx fst] in GS1. apply Forall_inv in GF2. destruct GF2 as (_ & (? & ? & _ & _ & [[? _]|(? & ? & N & _)]) & _); [lia|].
        assert (i2 < length boxes)%nat by (apply nth_error_Some; congruence). lia. }
      subst ms. cbn in E1. injection E1 as <- <-. cbn [apply_bump] in E. rewrite Nat.eqb_refl in E. cbn [rbind] in E. injection E as <- <-.
      split; [|split; [constructor|]].
      * rewrite concat_app. cbn [concat]. rewrite app_nil_r. apply sorted_app. split; [exact SB|]. split; [exact SV1|]. intros x y Hx Hy. apply (HV x); [|exact Hy]. apply BEF, FST. rewrite firstn_all. exact Hx.
      * intros k Hk _. split; [|intros x []]. exists (skipn k boxes ++ [v :: rest]). split; [rewrite app_assoc, firstn_skipn; reflexivity|]. intros x Hx. rewrite concat_app in Hx. apply in_app_or in Hx. destruct Hx as [Hx|Hx]; [left; exact Hx|right]. cbn [concat flat_map snd] in *. exact Hx.
    + assert (Hi : (i < length boxes)%nat) by (apply nth_error_Some; congruence).
      destruct (K (S i) ltac:(lia) GS1) as [(T & -> & HT) HA]. rewrite (firstn_S _ _ _ _ NB), <- app_assoc in E, S1. cbn [app] in E, S1.
      assert (LI : length (firstn i boxes) = i) by (rewrite firstn_length; lia).
      destruct (apply_step bound (firstn i boxes) box T an j v rest b) as (row & T' & EQ & EC); [lia|exact Nb|exact VI|]. rewrite LI in EQ. rewrite EQ in E. cbn [rbind] in E. injection E as <- <-.
      assert (SPL : concat boxes = concat (firstn i boxes) ++ box ++ concat (skipn (S i) boxes)) by (rewrite (nth_split_eq _ _ _ _ NB) at 1; rewrite concat_app; reflexivity).
      pose proof SB as SB0. rewrite SPL in SB0. apply sorted_app in SB0. destruct SB0 as (SA & SBC & SAB). apply sorted_app in SBC. destruct SBC as (SX & SC & SXC).
      pose proof SX as SX0. rewrite <- (firstn_skipn j box) in SX0. apply sorted_app in SX0. destruct SX0 as (SF & SK & SFK).
      assert (PRE : forall e, In e (firstn j box) -> cord e v) by (intros e He; rewrite Forall_forall in FB; apply not_bumped, FB, He).
      assert (POST : forall u f, In u (v :: rest) -> In f (concat T) -> cord u f).
      { intros u f Hu Hf. destruct (HT f Hf) as [H|H].
        - rewrite Forall_forall in VF. destruct (VF u Hu) as (j' & _ & [[X _]|(box' & e & N' & Ne & Be & _)]); [lia|]. rewrite NB in N'. injection N' as <-. apply (bumped_before u e f Be). apply SXC; [apply (nth_error_In _ _ Ne)|exact H].
        - apply SV3; [exact Hu|exact H]. }
      assert (ST : StronglySorted cord (concat T)). { rewrite concat_app in S1. apply sorted_app in S1. destruct S1 as (_ & S1 & _). cbn [concat] in S1. apply sorted_app in S1. tauto. }
      split; [|split].
      * rewrite concat_app, EC. apply sorted_app. split; [exact SA|]. split.
        -- apply sorted_app. split; [exact SF|]. split; [apply sorted_app; split; [exact SV1|]; split; [exact ST|exact POST]|].
           intros x y Hx Hy. apply in_app_or in Hy. destruct Hy as [Hy|Hy]; [exact (HV x (PRE x Hx) y Hy)|]. exact (cord_trans _ _ _ (PRE x Hx) (POST v y (or_introl eq_refl) Hy)).
        -- intros x y Hx Hy. apply in_app_or in Hy. destruct Hy as [Hy|Hy].
           ++ apply SAB; [exact Hx|]. apply in_or_app. left. rewrite <- (firstn_skipn j box). apply in_or_app. left. exact Hy.
           ++ pose proof (BEF x (FST x Hx)) as Hv. apply in_app_or in Hy. destruct Hy as [Hy|Hy]; [exact (HV x Hv y Hy)|]. exact (cord_trans _ _ _ Hv (POST v y (or_introl eq_refl) Hy)).
      * apply sorted_app. split; [exact SK|]. split; [exact S2|]. intros x y Hx Hy. apply SXC; [rewrite <- (firstn_skipn j box); apply in_or_app; right; exact Hx|apply HA; exact Hy].
      * intros k Hk FK. apply Forall_inv in FK. cbn [idx fst] in FK. split.
        -- exists (skipn k (firstn i boxes) ++ row :: T'). split; [rewrite app_assoc; f_equal; rewrite <- (firstn_skipn k (firstn i boxes)) at 1; rewrite firstn_firstn, Nat.min_l by lia; reflexivity|].
           intros x Hx. rewrite concat_app, EC in Hx. cbn [flat_map snd]. apply in_app_or in Hx. destruct Hx as [Hx|Hx].
           ++ left. apply in_concat in Hx. destruct Hx as (l & Hl & Hx). apply in_concat. exists l. split; [|exact Hx]. rewrite <- (firstn_skipn i boxes), skipn_app. apply in_or_app. left. exact Hl.
           ++ apply in_app_or in Hx. destruct Hx as [Hx|Hx]; [left; apply (In_skip_box x k i boxes box FK NB); rewrite <- (firstn_skipn j box); apply in_or_app; left; exact Hx|].
              apply in_app_or in Hx. destruct Hx as [Hx|Hx]; [right; apply in_or_app; left; exact Hx|]. destruct (HT x Hx) as [H|H]; [left; apply (In_skip_le x k (S i)); [lia|exact H]|right; apply in_or_app; right; exact H].
        -- intros x Hx. apply in_app_or in Hx. destruct Hx as [Hx|Hx]; [apply (In_skip_box x k i boxes box FK NB); rewrite <- (firstn_skipn j box); apply in_or_app; right; exact Hx|]. apply (In_skip_le x k (S i)); [lia|apply HA; exact Hx].
Qed.
