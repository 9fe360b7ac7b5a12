(* The loops of unprime_diagonal *)
From Coq Require Import List ZArith Bool Lia Permutation Sorted.
From Verif Require Import PyBase M_Partitions S_Tableaux M_Tableaux L_Tableaux S_Semistandard S_Standardize M_DiagUnprime S_DiagUnprime L_DiagUnprime1 L_DiagUnprime2.
From Verif Require L_Insertion3 L_Insertion4.
Import ListNotations.
Local Open Scope Z_scope.

Lemma filter_two : forall (p q : Z -> bool) l, (forall x, In x l -> q x = negb (p x)) -> Permutation (filter p l ++ filter q l) l.
Proof.
  intros p q. induction l as [|x l IH]; intro H; [constructor|]. cbn [filter]. rewrite (H x (or_introl eq_refl)). specialize (IH (fun y Hy => H y (or_intror Hy))). destruct (p x); cbn [negb].
  - cbn [app]. constructor. exact IH.
  - eapply Permutation_trans; [apply Permutation_sym, Permutation_middle|]. constructor. exact IH.
Qed.
Lemma perm_sorted : forall l, Permutation (sorted l) l.
Proof. intro. apply Permutation_sym, sorted_perm. Qed.
Lemma filter_nil : forall (p : Z -> bool) l, filter p l = [] -> forall x, In x l -> p x = false.
Proof. intros p l E x H. destruct (p x) eqn:X; [|reflexivity]. assert (In x (filter p l)) by (apply filter_In; split; assumption). rewrite E in H0. destruct H0. Qed.

Section Box.
  Variable u : list Z.
  Hypothesis UI : increasing u.
  Hypothesis UZ : Forall (fun x => x <> 0) u.
  Hypothesis UN : u <> [].
  Let v := sorted (map Z.opp (filter (fun x => x <? 0) u)).
  Let w := sorted (filter (fun x => 0 <? x) u).
  Lemma In_v : forall x, In x v <-> 0 < x /\ In (- x) u.
  Proof.
    intro x. unfold v. split.
    - intro H. apply (Permutation_in _ (perm_sorted _)) in H. apply in_map_iff in H. destruct H as (y & <- & H). apply filter_In in H. destruct H as [H L]. apply Z.ltb_lt in L. rewrite Z.opp_involutive. split; [lia|exact H].
    - intros [A B]. apply (Permutation_in _ (sorted_perm _)). apply in_map_iff. exists (- x). split; [lia|]. apply filter_In. split; [exact B|apply Z.ltb_lt; lia].
  Qed.
  Lemma In_w : forall x, In x w <-> 0 < x /\ In x u.
  Proof.
    intro x. unfold w. split.
    - intro H. apply (Permutation_in _ (perm_sorted _)) in H. apply filter_In in H. destruct H as [H L]. apply Z.ltb_lt in L. tauto.
    - intros [A B]. apply (Permutation_in _ (sorted_perm _)). apply filter_In. split; [exact B|apply Z.ltb_lt; lia].
  Qed.
  Lemma vw_perm : Permutation (map Z.opp v ++ w) u.
  Proof.
    unfold v, w. eapply Permutation_trans; [apply Permutation_app; [apply Permutation_map, perm_sorted|apply perm_sorted]|]. rewrite map_map. rewrite (map_ext _ (fun x => x)) by (intro; lia). rewrite map_id. apply filter_two.
    intros x Hx. rewrite Forall_forall in UZ. specialize (UZ x Hx). destruct (Z.ltb_spec 0 x), (Z.ltb_spec x 0); try lia; reflexivity.
  Qed.
  Lemma settled_none : v = [] -> settled u.
  Proof. intro E. left. intros x Hx. rewrite Forall_forall in UZ. specialize (UZ x Hx). destruct (Z.lt_ge_cases x 0); [|lia]. assert (H0 : In (- x) v) by (apply In_v; split; [lia|rewrite Z.opp_involutive; exact Hx]). rewrite E in H0. destruct H0. Qed.
  Lemma settled_one : forall a, v = [a] -> (forall x, In x w -> x < a) -> settled u.
  Proof.
    intros a E H. right. assert (Ha : In a v) by (rewrite E; left; reflexivity). apply In_v in Ha. destruct Ha as [Pa Ha].
    assert (EX0 : exists x u', u = x :: u') by (destruct u as [|x u']; [congruence|exists x, u'; reflexivity]). destruct EX0 as (x & u' & EU).
    pose proof UI as UI2. rewrite EU in UI2, Ha. apply StronglySorted_inv in UI2. destruct UI2 as [U1 F].
    assert (Hx : x < 0). { destruct Ha as [Ha|Ha]; [lia|]. rewrite Forall_forall in F. specialize (F _ Ha). lia. }
    assert (L : length (filter (fun y => y <? 0) u') = 0%nat). { apply (f_equal (@length Z)) in E. unfold v in E. rewrite (Permutation_length (perm_sorted _)), map_length, EU in E. cbn [filter] in E. rewrite (proj2 (Z.ltb_lt x 0)) in E by exact Hx. cbn [length] in E. lia. }
    apply length_zero_iff_nil in L. pose proof (filter_nil _ _ L) as NN.
    assert (EX : x = - a). { destruct Ha as [Ha|Ha]; [exact Ha|]. specialize (NN _ Ha). apply Z.ltb_ge in NN. lia. }
    exists a, u'. split; [rewrite EU, EX; reflexivity|]. intros y Hy. specialize (NN y Hy). apply Z.ltb_ge in NN. assert (Yu : In y u) by (rewrite EU; right; exact Hy). rewrite Forall_forall in UZ. specialize (UZ y Yu). split; [lia|]. apply H. apply In_w. split; [lia|exact Yu].
  Qed.
  Lemma settled_inv : settled u -> v <> [] -> exists a, v = [a] /\ forall x, In x w -> x < a.
  Proof.
    intros S NV.
    assert (H0 : exists x, In x v) by (destruct v as [|x v']; [congruence|exists x; left; reflexivity]). destruct H0 as (x & Hx). apply In_v in Hx. destruct Hx as [Px Hx].
    destruct S as [S|(a & r & E & S)]; [specialize (S _ Hx); lia|].
    assert (XA : x = a). { rewrite E in Hx. destruct Hx as [Hx|Hx]; [lia|]. specialize (S _ Hx). lia. } subst x.
    exists a. split.
    - unfold v. rewrite E. cbn [filter]. rewrite (proj2 (Z.ltb_lt (- a) 0)) by lia.
      assert (FN : filter (fun y => y <? 0) r = []). { clear - S. induction r as [|y r IH]; [reflexivity|]. cbn [filter]. pose proof (S y (or_introl eq_refl)). rewrite (proj2 (Z.ltb_ge y 0)) by lia. apply IH. intros z Hz. apply S. right. exact Hz. }
      rewrite FN. cbn [map sorted fold_right sinsert]. rewrite Z.opp_involutive. reflexivity.
    - intros y Hy. apply In_w in Hy. destruct Hy as [Py Hy]. rewrite E in Hy. destruct Hy as [Hy|Hy]; [lia|]. apply S. exact Hy.
  Qed.
  (* what is put in the diagonal cell and what is inserted *)
  Lemma moved : forall v0 v', v = v0 :: v' ->
    let newvalue := sorted (v0 :: filter (fun x => x <? v0) w) in
    let addvalue := sorted (map Z.opp v' ++ filter (fun x => v0 <=? x) w) in
    0 < v0 /\ newvalue <> [] /\ (forall x, In x newvalue -> 0 < x) /\ Forall (fun x => x <> 0) addvalue /\
    exists X, Permutation (newvalue ++ addvalue) (v0 :: X) /\ Permutation u (- v0 :: X).
  Proof.
    intros v0 v' E newvalue addvalue. assert (P0 : 0 < v0) by (apply In_v; rewrite E; left; reflexivity). split; [exact P0|].
    assert (PN : Permutation newvalue (v0 :: filter (fun x => x <? v0) w)) by apply perm_sorted.
    assert (PA : Permutation addvalue (map Z.opp v' ++ filter (fun x => v0 <=? x) w)) by apply perm_sorted.
    assert (P1 : Permutation (newvalue ++ addvalue) (v0 :: map Z.opp v' ++ w)).
    { eapply Permutation_trans; [apply Permutation_app; [exact PN|exact PA]|]. cbn [app]. constructor. rewrite app_assoc. eapply Permutation_trans; [apply Permutation_app_tail, Permutation_app_comm|]. rewrite <- app_assoc. apply Permutation_app_head.
      apply filter_two. intros x _. rewrite Z.leb_antisym. reflexivity. }
    assert (P2 : Permutation u (- v0 :: map Z.opp v' ++ w)). { apply Permutation_sym. pose proof vw_perm as P. rewrite E in P. exact P. }
    split; [intro X; rewrite X in PN; apply Permutation_nil in PN; discriminate|]. split; [|split].
    - intros x H. apply (Permutation_in _ PN) in H. destruct H as [<-|H]; [exact P0|]. apply filter_In in H. destruct H as [H _]. apply In_w in H. tauto.
    - apply Forall_forall. intros x H. assert (H2 : In x (v0 :: map Z.opp v' ++ w)) by (apply (Permutation_in _ P1); apply in_or_app; right; exact H). destruct H2 as [<-|H2]; [lia|]. rewrite Forall_forall in UZ. apply UZ. apply (Permutation_in _ (Permutation_sym P2)). right. exact H2.
    - exists (map Z.opp v' ++ w). split; assumption.
  Qed.
End Box.
