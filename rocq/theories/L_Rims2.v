(* The border of a shifted shape is a path; _rims_helper lists its closed parts *)
From Coq Require Import List ZArith Lia Bool Permutation Sorted.
From Verif Require Import PyBase M_Partitions S_Partitions L_Partitions L_PartBasic M_Tableaux S_Tableaux L_Tableaux M_Rims.
Import ListNotations.
Local Open Scope Z_scope.

Definition rightof (x y : box) : Prop := fst y = fst x /\ snd y = snd x + 1.
Definition above (x y : box) : Prop := fst y = fst x - 1 /\ snd y = snd x.
Fixpoint path (B : list box) : Prop :=
  match B with
  | x :: r => match r with y :: _ => (rightof x y \/ above x y) /\ path r | [] => True end
  | [] => True
  end.
Fixpoint closed (f : box -> bool) (B : list box) : Prop :=
  match B with
  | x :: r => match r with y :: _ => (rightof x y -> f y = true -> f x = true) /\ (above x y -> f x = true -> f y = true) /\ closed f r | [] => True end
  | [] => True
  end.
Lemma path_tail : forall x B, path (x :: B) -> path B.
Proof. intros x [|y B] H; [exact I|]. apply H. Qed.
Lemma closed_tail : forall f x B, closed f (x :: B) -> closed f B.
Proof. intros f x [|y B] H; [exact I|]. apply H. Qed.
Lemma path_mono : forall B x y, path (x :: B) -> In y B -> fst y <= fst x /\ snd x <= snd y /\ (fst y < fst x \/ snd x < snd y).
Proof.
  induction B as [|z B IH]; intros x y H Hy; [destruct Hy|]. destruct H as [S H]. unfold rightof, above in S. destruct Hy as [<-|Hy]; [lia|]. destruct (IH z y H Hy). lia.
Qed.
Lemma path_NoDup : forall B, path B -> NoDup B.
Proof. induction B as [|x B IH]; intro H; [constructor|]. constructor; [|apply IH; exact (path_tail x B H)]. intro K. pose proof (path_mono B x x H K). lia. Qed.
Lemma path_app : forall A B, path (A ++ B) -> path B.
Proof. induction A as [|x A IH]; intros B H; [exact H|]. apply IH. exact (path_tail x (A ++ B) H). Qed.
Lemma closed_app : forall f A B, closed f (A ++ B) -> closed f B.
Proof. intro f. induction A as [|x A IH]; intros B H; [exact H|]. apply IH. exact (closed_tail f x (A ++ B) H). Qed.

(* closedness speaks about neighbours *)
Lemma closed_right : forall f B, path B -> closed f B -> forall x y, In x B -> In y B -> rightof x y -> f y = true -> f x = true.
Proof.
  intro f. induction B as [|z B IH]; intros P C x y Hx Hy R F; [destruct Hx|]. destruct Hx as [<-|Hx].
  - destruct Hy as [<-|Hy]; [unfold rightof in R; lia|]. destruct B as [|w B]; [destruct Hy|]. destruct P as [S P]. destruct C as (C1 & C2 & C3). destruct S as [S|S].
    + apply C1; [exact S|]. replace w with y; [exact F|]. unfold rightof in *. destruct y, w; cbn in *; f_equal; lia.
    + exfalso. destruct Hy as [<-|Hy]; [unfold rightof, above in *; lia|]. pose proof (path_mono B w y P Hy). unfold rightof, above in *. lia.
  - destruct Hy as [<-|Hy].
    + exfalso. pose proof (path_mono B z x P Hx). unfold rightof in R. lia.
    + apply (IH (path_tail z B P) (closed_tail f z B C) x y); assumption.
Qed.
Lemma closed_above : forall f B, path B -> closed f B -> forall x y, In x B -> In y B -> above x y -> f x = true -> f y = true.
Proof.
  intro f. induction B as [|z B IH]; intros P C x y Hx Hy R F; [destruct Hx|]. destruct Hx as [<-|Hx].
  - destruct Hy as [<-|Hy]; [unfold above in R; lia|]. destruct B as [|w B]; [destruct Hy|]. destruct P as [S P]. destruct C as (C1 & C2 & C3). destruct S as [S|S].
    + exfalso. destruct Hy as [<-|Hy]; [unfold rightof, above in *; lia|]. pose proof (path_mono B w y P Hy). unfold rightof, above in *. lia.
    + replace y with w; [apply C2; [exact S|exact F]|]. unfold above in *. destruct y, w; cbn in *; f_equal; lia.
  - destruct Hy as [<-|Hy].
    + exfalso. pose proof (path_mono B z x P Hx). unfold above in R. lia.
    + apply (IH (path_tail z B P) (closed_tail f z B C) x y); assumption.
Qed.
Lemma closed_intro : forall f B, (forall x y, In x B -> In y B -> rightof x y -> f y = true -> f x = true) -> (forall x y, In x B -> In y B -> above x y -> f x = true -> f y = true) -> closed f B.
Proof.
  intro f. induction B as [|x B IH]; intros R A; [exact I|]. destruct B as [|y B]; [exact I|]. split; [apply R; cbn; tauto|]. split; [apply A; cbn; tauto|]. apply IH; intros u v Hu Hv; [apply R|apply A]; right; assumption.
Qed.

Lemma skip_row_split : forall a l, exists pre, l = pre ++ skip_row a l /\ (forall y, In y pre -> fst y = a) /\ match skip_row a l with y :: _ => fst y <> a | [] => True end.
Proof.
  intro a. induction l as [|[a' b'] l (pre & E & H & K)]; [exists []; cbn; tauto|]. cbn [skip_row]. destruct (Z.eqb_spec a' a) as [->|N].
  - exists ((a, b') :: pre). split; [cbn; f_equal; exact E|]. split; [|exact K]. intros y [<-|Hy]; [reflexivity|apply H; exact Hy].
  - exists []. split; [reflexivity|]. split; [intros y []|exact N].
Qed.
Lemma take_col_split : forall b l, l = fst (take_col b l) ++ snd (take_col b l) /\ (forall y, In y (fst (take_col b l)) -> snd y = b) /\ match snd (take_col b l) with y :: _ => snd y <> b | [] => True end.
Proof.
  intro b. induction l as [|[a' b'] l (E & H & K)]; [cbn; tauto|]. cbn [take_col]. destruct (Z.eqb_spec b' b) as [->|N]; cbn [fst snd].
  - split; [cbn; f_equal; exact E|]. split; [|exact K]. intros y [<-|Hy]; [reflexivity|apply H; exact Hy].
  - split; [reflexivity|]. split; [intros y []|exact N].
Qed.
Lemma skip_row_length : forall a l, (length (skip_row a l) <= length l)%nat.
Proof. intro a. induction l as [|[a' b'] l IH]; [cbn; lia|]. cbn [skip_row]. destruct (a' =? a); cbn [length]; lia. Qed.
Lemma take_col_length : forall a l, (length (snd (take_col a l)) <= length l)%nat.
Proof. intro a. induction l as [|[a' b'] l IH]; [cbn; lia|]. cbn [take_col]. destruct (b' =? a); cbn [length snd]; lia. Qed.

Lemma filter_ext_In : forall A (f g : A -> bool) l, (forall x, In x l -> f x = g x) -> filter f l = filter g l.
Proof. intros A f g. induction l as [|a l IH]; intro H; [reflexivity|]. cbn [filter]. rewrite (H a (or_introl eq_refl)), IH by (intros; apply H; right; assumption). reflexivity. Qed.

Lemma helper_ok : forall fuel B, path B -> (length B < fuel)%nat -> exists l, rims_helper fuel B = Ok l /\ NoDup l /\ forall r, In r l <-> exists f, r = filter f B /\ closed f B.
Proof.
  induction fuel as [|fuel IH]; intros B P L; [lia|]. cbn [rims_helper]. destruct B as [|[a b] next].
  - exists [[]]. split; [reflexivity|]. split; [repeat constructor; cbn; tauto|]. intro r. split.
    + intros [<-|[]]. exists (fun _ => true). split; [reflexivity|exact I].
    + intros (f & -> & _). left. reflexivity.
  - cbn [length] in L. destruct (skip_row_split a next) as (pre1 & E1 & A1 & H1). destruct (take_col_split b next) as (E2 & A2 & H2). set (suf1 := skip_row a next) in *. set (pre2 := fst (take_col b next)) in *. set (suf2 := snd (take_col b next)) in *.
    assert (P1 : path suf1) by (apply (path_app ((a, b) :: pre1)); cbn [app]; rewrite <- E1; exact P).
    assert (P2 : path suf2) by (apply (path_app ((a, b) :: pre2)); cbn [app]; rewrite <- E2; exact P).
    destruct (IH suf1 P1) as (l1 & Q1 & N1 & M1); [unfold suf1; pose proof (skip_row_length a next); lia|]. destruct (IH suf2 P2) as (l2 & Q2 & N2 & M2); [unfold suf2; pose proof (take_col_length b next); lia|].
    rewrite Q1. cbn [rbind]. rewrite Q2. cbn [rbind].
    assert (B1 : forall y, In y suf1 -> fst y < a).
    { intros y Hy. destruct suf1 as [|z s1] eqn:Es; [destruct Hy|]. assert (Hz : In z next) by (rewrite E1; apply in_or_app; right; left; reflexivity). pose proof (path_mono next (a, b) z P Hz) as Mz. cbn [fst snd] in Mz. destruct Hy as [<-|Hy]; [lia|]. pose proof (path_mono s1 z y P1 Hy). lia. }
    assert (B2 : forall y, In y suf2 -> b < snd y).
    { intros y Hy. destruct suf2 as [|z s2] eqn:Es; [destruct Hy|]. assert (Hz : In z next) by (rewrite E2; apply in_or_app; right; left; reflexivity). pose proof (path_mono next (a, b) z P Hz) as Mz. cbn [fst snd] in Mz. destruct Hy as [<-|Hy]; [lia|]. pose proof (path_mono s2 z y P2 Hy). lia. }
    exists (l1 ++ map (fun bns => (a, b) :: pre2 ++ bns) l2). split; [reflexivity|]. split.
    + apply NoDup_app_intro; [exact N1| |].
      * apply NoDup_map_inj_in; [|exact N2]. intros x y _ _ Q. injection Q as Q. apply app_inv_head in Q. exact Q.
      * intros r H H'. apply in_map_iff in H'. destruct H' as (bns & <- & _). apply M1 in H. destruct H as (f & Q & _). assert (K : In (a, b) (filter f suf1)) by (rewrite <- Q; left; reflexivity). apply filter_In in K. destruct K as [K _]. apply B1 in K. cbn in K. lia.
    + intro r. rewrite in_app_iff, in_map_iff. split.
      * intros [H|(bns & <- & H)].
        -- apply M1 in H. destruct H as (f & -> & Cf). exists (fun y => f y && (fst y <? a)). split.
           ++ rewrite E1. change ((a, b) :: pre1 ++ suf1) with (((a, b) :: pre1) ++ suf1). rewrite filter_app. rewrite (filter_none _ _ ((a, b) :: pre1)).
              ** cbn [app]. apply filter_ext_In. intros y Hy. apply B1 in Hy. replace (fst y <? a) with true by lia. rewrite andb_true_r. reflexivity.
              ** intros y [<-|Hy]; [cbn; rewrite Z.ltb_irrefl; apply andb_false_r|]. apply A1 in Hy. rewrite Hy, Z.ltb_irrefl. apply andb_false_r.
           ++ apply closed_intro; intros x y Hx Hy R F; apply andb_true_iff in F; destruct F as [F1 F2].
              ** destruct R as [R1 R2]. rewrite <- R1. rewrite F2, andb_true_r. assert (X : forall z, In z ((a, b) :: next) -> fst z < a -> In z suf1). { intros z [<-|Hz] Lz; [cbn in Lz; lia|]. rewrite E1 in Hz. apply in_app_or in Hz. destruct Hz as [Hz|Hz]; [apply A1 in Hz; lia|exact Hz]. } apply (closed_right f suf1 P1 Cf x y); [apply X; [exact Hx|lia]|apply X; [exact Hy|lia]|split; assumption|exact F1].
              ** destruct R as [R1 R2]. replace (fst y <? a) with true by lia. rewrite andb_true_r. assert (X : forall z, In z ((a, b) :: next) -> fst z < a -> In z suf1). { intros z [<-|Hz] Lz; [cbn in Lz; lia|]. rewrite E1 in Hz. apply in_app_or in Hz. destruct Hz as [Hz|Hz]; [apply A1 in Hz; lia|exact Hz]. } apply (closed_above f suf1 P1 Cf x y); [apply X; [exact Hx|lia]|apply X; [exact Hy|lia]|split; assumption|exact F1].
        -- apply M2 in H. destruct H as (f & -> & Cf). exists (fun y => f y || (snd y <=? b)). assert (X : forall z, In z ((a, b) :: next) -> b < snd z -> In z suf2). { intros z [<-|Hz] Lz; [cbn in Lz; lia|]. rewrite E2 in Hz. apply in_app_or in Hz. destruct Hz as [Hz|Hz]; [apply A2 in Hz; lia|exact Hz]. } split.
           ++ rewrite E2. change ((a, b) :: pre2 ++ suf2) with (((a, b) :: pre2) ++ suf2). rewrite filter_app. rewrite (filter_all _ _ ((a, b) :: pre2)).
              ** cbn [app]. f_equal. f_equal. apply filter_ext_In. intros y Hy. apply B2 in Hy. replace (snd y <=? b) with false by lia. rewrite orb_false_r. reflexivity.
              ** intros y [<-|Hy]; [cbn; rewrite Z.leb_refl; apply orb_true_r|]. apply A2 in Hy. rewrite Hy, Z.leb_refl. apply orb_true_r.
           ++ apply closed_intro; intros x y Hx Hy R F; apply orb_true_iff in F; destruct R as [R1 R2].
              ** destruct (Z.leb_spec (snd x) b) as [G|G]; [apply orb_true_r|]. rewrite orb_false_r. destruct F as [F|F]; [|lia]. apply (closed_right f suf2 P2 Cf x y); [apply X; [exact Hx|lia]|apply X; [exact Hy|lia]|split; assumption|exact F].
              ** destruct (Z.leb_spec (snd y) b) as [G|G]; [apply orb_true_r|]. rewrite orb_false_r. destruct F as [F|F]; [|lia]. apply (closed_above f suf2 P2 Cf x y); [apply X; [exact Hx|lia]|apply X; [exact Hy|lia]|split; assumption|exact F].
      * intros (f & -> & Cf). destruct (f (a, b)) eqn:F.
        -- right. exists (filter f suf2). split.
           ++ assert (T : forall y, In y pre2 -> f y = true).
              { assert (G : forall pre x, f x = true -> snd x = b -> (forall y, In y pre -> snd y = b) -> path (x :: pre ++ suf2) -> closed f (x :: pre ++ suf2) -> forall y, In y pre -> f y = true).
                { clear. induction pre as [|z pre IH]; intros x Fx Sx A P C y Hy; [destruct Hy|]. destruct P as [S P]. destruct C as (C1 & C2 & C3). assert (Fz : f z = true). { apply C2; [|exact Fx]. destruct S as [S|S]; [|exact S]. specialize (A z (or_introl eq_refl)). unfold rightof in S. lia. } destruct Hy as [<-|Hy]; [exact Fz|]. apply (IH z); [exact Fz|apply A; left; reflexivity|intros; apply A; right; assumption|exact P|exact C3|exact Hy]. }
                apply (G pre2 (a, b)); [exact F|reflexivity|exact A2|rewrite E2 in P; exact P|rewrite E2 in Cf; exact Cf]. }
              rewrite E2 at 1. cbn [filter]. rewrite F, filter_app, (filter_all _ f pre2 T). reflexivity.
           ++ apply M2. exists f. split; [reflexivity|]. apply (closed_app f ((a, b) :: pre2)). cbn [app]. rewrite <- E2. exact Cf.
        -- left. apply M1. exists f. split.
           ++ assert (T : forall y, In y pre1 -> f y = false).
              { assert (G : forall pre x, f x = false -> fst x = a -> (forall y, In y pre -> fst y = a) -> path (x :: pre ++ suf1) -> closed f (x :: pre ++ suf1) -> forall y, In y pre -> f y = false).
                { clear. induction pre as [|z pre IH]; intros x Fx Sx A P C y Hy; [destruct Hy|]. destruct P as [S P]. destruct C as (C1 & C2 & C3). assert (Fz : f z = false). { destruct (f z) eqn:Q; [|reflexivity]. rewrite C1 in Fx; [discriminate| |reflexivity]. destruct S as [S|S]; [exact S|]. specialize (A z (or_introl eq_refl)). unfold above in S. lia. } destruct Hy as [<-|Hy]; [exact Fz|]. apply (IH z); [exact Fz|apply A; left; reflexivity|intros; apply A; right; assumption|exact P|exact C3|exact Hy]. }
                apply (G pre1 (a, b)); [exact F|reflexivity|exact A1|rewrite E1 in P; exact P|rewrite E1 in Cf; exact Cf]. }
              rewrite E1 at 1. cbn [filter]. rewrite F, filter_app, (filter_none _ f pre1 T). reflexivity.
           ++ apply (closed_app f ((a, b) :: pre1)). cbn [app]. rewrite <- E1. exact Cf.
Qed.

(* bsort *)
Lemma binsert_In : forall x l y, In y (binsert x l) <-> y = x \/ In y l.
Proof. intros x. induction l as [|z l IH]; intro y; cbn [binsert]; [cbn; intuition congruence|]. destruct (box_ltb z x); cbn [In]; [rewrite IH; tauto|]. intuition congruence. Qed.
Lemma bsort_In : forall l y, In y (bsort l) <-> In y l.
Proof. induction l as [|x l IH]; intro y; [tauto|]. cbn [bsort fold_right]. fold (bsort l). rewrite binsert_In, IH. cbn [In]. intuition congruence. Qed.
Lemma binsert_sorted : forall x l, StronglySorted before l -> ~ In x l -> StronglySorted before (binsert x l).
Proof.
  intros x. induction l as [|z l IH]; intros S N; cbn [binsert]; [repeat constructor|]. inversion S as [|u v S1 S2]; subst. destruct (box_ltb z x) eqn:E.
  - apply box_ltb_before in E. constructor; [apply IH; [exact S1|intro K; apply N; right; exact K]|]. apply Forall_forall. intros y Hy. apply binsert_In in Hy. rewrite Forall_forall in S2. destruct Hy as [->|Hy]; [exact E|apply S2; exact Hy].
  - constructor; [exact S|]. assert (Bz : before x z). { destruct (before_total x z) as [H|[H|H]]; [exact H|exfalso; apply N; left; congruence|]. apply box_ltb_before in H. congruence. } constructor; [exact Bz|]. eapply Forall_impl; [|exact S2]. intros y Hy. apply (before_trans x z y); assumption.
Qed.
Lemma bsort_sorted : forall l, NoDup l -> StronglySorted before (bsort l).
Proof. induction l as [|x l IH]; intro N; [constructor|]. inversion N as [|? ? N1 N2]; subst. cbn [bsort fold_right]. fold (bsort l). apply binsert_sorted; [apply IH; exact N2|]. rewrite bsort_In. exact N1. Qed.
Lemma bmem_In : forall x l, bmem x l = true <-> In x l.
Proof. intros x l. unfold bmem. rewrite existsb_exists. split; [intros (y & Hy & E); apply box_eqb_eq in E; subst; exact Hy|]. intro H. exists x. split; [exact H|apply box_eqb_refl]. Qed.
