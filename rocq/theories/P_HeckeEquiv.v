(* C102: a word and its insertion tableau have the same Demazure product *)
From Coq Require Import List ZArith Bool Lia Sorted Permutation.
From Verif Require Import PyBase M_Partitions L_PartMore M_Tableaux S_Tableaux L_Tableaux P_Tableaux M_Insertion S_Insertion S_HeckeEquiv L_Insertion1 L_Insertion7 L_Insertion8 P_Insertion L_HeckeEquiv.
From Verif Require Import M_Perm S_Perm S_Levels L_Perm L_PermLen L_PermWord L_PermDem L_LevelsInst P_Levels L_PermActs S_PermGroth.
Import ListNotations.
Local Open Scope Z_scope.

Lemma he_letters : forall u v, hecke_equiv u v -> forall x, In x u <-> In x v.
Proof.
  intros u v H. induction H as [u|u v H IH|u v w H1 IH1 H2 IH2|u v a|u v a b Hab|u v a]; intro x; rewrite ?in_app_iff; cbn [In]; try tauto.
  - symmetry. apply IH.
  - rewrite IH1. apply IH2.
Qed.
Lemma he_Forall : forall (P : Z -> Prop) u v, hecke_equiv u v -> Forall P u -> Forall P v.
Proof. intros P u v H. rewrite !Forall_forall. intros K x Hx. apply K. apply (he_letters u v H). exact Hx. Qed.
Lemma dw_equiv : forall a b, hecke_equiv a b -> Forall (fun i => 1 <= i) a -> forall u, canonical u -> dw u a = dw u b.
Proof.
  assert (G : forall l : list Z, Forall (fun i => 1 <= i) l -> gens l) by (intros l H; eapply Forall_impl; [|exact H]; cbn; intros; lia).
  intros a b H. induction H as [a|a b H IH|a b c H1 IH1 H2 IH2|p s i|p s i j Hij|p s i]; intros F u Hu.
  - reflexivity.
  - symmetry. apply IH; [|exact Hu]. apply (he_Forall _ b a (he_sym _ _ H)). exact F.
  - rewrite IH1 by assumption. apply IH2; [|exact Hu]. apply (he_Forall _ a b H1). exact F.
  - apply Forall_app in F. destruct F as [F1 F2]. rewrite !dw_app. f_equal. apply dw_idem2; [apply dw_canonical; [exact Hu|apply G; exact F1]|]. inversion F2; lia.
  - apply Forall_app in F. destruct F as [F1 F2]. rewrite !dw_app. f_equal. cbn [app] in F2. inversion F2 as [|? ? K1 F3]; subst. inversion F3 as [|? ? K2 _]; subst.
    assert (C : canonical (dw u p)) by (apply dw_canonical; [exact Hu|apply G; exact F1]). destruct (Z_lt_ge_dec i j); [apply dw_comm2; [exact C|lia|lia]|symmetry; apply dw_comm2; [exact C|lia|lia]].
  - apply Forall_app in F. destruct F as [F1 F2]. rewrite !dw_app. f_equal. apply dw_braid; [apply dw_canonical; [exact Hu|apply G; exact F1]|]. inversion F2; lia.
Qed.
(* the Demazure product of a word, as a function *)
Lemma acts_dw : forall v u f h, canonical u -> Forall (fun i => 1 <= i) v -> (forall x, f x = pcall u x) -> (acts hecke_rel f v h <-> forall x, h x = pcall (dw u v) x).
Proof.
  induction v as [|i v IH]; intros u f h Hu F E.
  - cbn [dw fold_left]. split; [intro H; inversion H; subst; intro x; rewrite <- E; auto|]. intro H. constructor. intro x. rewrite H, E. reflexivity.
  - inversion F as [|? ? Fi Fv]; subst. assert (Hi : 0 <= i) by lia. pose proof (dm_rel u i Hu Hi) as R. assert (R' : hecke_rel f i (pcall (dm u i))) by (apply (hecke_rel_ext (pcall u)); [intro x; symmetry; apply E|exact R]).
    change (dw u (i :: v)) with (dw (dm u i) v). assert (Hd : canonical (dm u i)) by (apply dm_canonical; assumption). split.
    + intro H. inversion H as [|? ? g ? ? R2 H2]; subst. apply (IH (dm u i) g h Hd Fv); [|exact H2]. intro x. exact (hecke_rel_fun f i g _ R2 R' x).
    + intro H. apply (acts_cons hecke_rel f i (pcall (dm u i))); [exact R'|]. apply (IH (dm u i) _ h Hd Fv); [reflexivity|exact H].
Qed.
Lemma equiv_hecke_word : forall a b f, hecke_equiv a b -> (hecke_word f a <-> hecke_word f b).
Proof.
  assert (G : forall a b f, hecke_equiv a b -> hecke_word f a -> hecke_word f b).
  { intros a b f H [F A]. pose proof (he_Forall _ a b H F) as F'. split; [exact F'|]. apply (acts_dw b [] (fun x => x) f nil_canonical F'); [intro x; rewrite pcall_nil; reflexivity|].
    pose proof (proj1 (acts_dw a [] (fun x => x) f nil_canonical F (fun x => eq_sym (pcall_nil x))) A) as A'. intro x. rewrite A'. rewrite (dw_equiv a b H F [] nil_canonical). reflexivity. }
  intros a b f H. split; apply G; [exact H|apply he_sym; exact H].
Qed.

Lemma hecke_parts : forall w ro multi p q, hecke w ro multi = Ok (p, q) -> exists p1 q1, insertion_tableaux w = Ok (p1, q1) /\ (if multi then Ok p1 else ttranspose p1) = Ok p.
Proof.
  intros w ro multi p q E. unfold hecke in E. destruct (check_record w ro multi) as [r|e]; [|discriminate]. cbn [rbind] in E. destruct (insertion_tableaux w) as [[p1 q1]|e]; [|discriminate]. cbn [rbind fst snd] in E.
  destruct (if multi then Ok p1 else ttranspose p1) as [p2|e] eqn:E1; [|discriminate]. cbn [rbind] in E. destruct (if multi then Ok q1 else ttranspose q1) as [q2|e]; [|discriminate]. cbn [rbind] in E. destruct (tapply_res (rmapping r) q2); [|discriminate]. cbn [rbind] in E. injection E as <- <-.
  exists p1, q1. split; [reflexivity|exact E1].
Qed.

(* the word is equivalent to the row reading word of its insertion tableau, for letters of any sign *)
Theorem C102_row_reading : forall w record p q, hecke w record true = Ok (p, q) -> hecke_equiv w (row_reading_word p).
Proof. intros w ro p q E. destruct (hecke_parts w ro true p q E) as (p1 & q1 & E1 & E2). injection E2 as <-. exact (insertion_equiv w p1 q1 E1). Qed.
(* in the other mode the insertion tableau comes back transposed *)
Theorem C102_transposed : forall w record p q, hecke w record false = Ok (p, q) -> exists p', ttranspose p = Ok p' /\ hecke_equiv w (row_reading_word p').
Proof.
  intros w ro p q E. destruct (hecke_parts w ro false p q E) as (p1 & q1 & E1 & E2). exists p1. split; [|exact (insertion_equiv w p1 q1 E1)].
  destruct start as (S0 & I0 & R0 & Q0 & N0). destruct (run w _ _ [] [] 0 S0 I0 R0 Q0) as (p' & q' & L & g & D & E' & S & I & R & _).
  assert (K : Ok (p1, q1) = Ok (p', q')) by (exact (eq_trans (eq_sym E1) E')). injection K as <- <-. destruct R as [W _].
  destruct (C32_transpose p1 W) as (pt & Ep & _ & _ & B). rewrite E2 in Ep. injection Ep as <-. exact B.
Qed.
(* hence for letters >= 1 the two words have the same Demazure product *)
Theorem C102_permutation : forall w record p q f, hecke w record true = Ok (p, q) -> (hecke_word f w <-> hecke_word f (row_reading_word p)).
Proof. intros w ro p q f E. apply equiv_hecke_word. exact (C102_row_reading w ro p q E). Qed.
(* words with the same insertion tableau are equivalent *)
Theorem C102_class : forall multi w w' record record' p q q', hecke w record multi = Ok (p, q) -> hecke w' record' multi = Ok (p, q') ->
  hecke_equiv w w' /\ forall f, hecke_word f w <-> hecke_word f w'.
Proof.
  intros multi w w' ro ro' p q q' E E'. assert (H : hecke_equiv w w').
  { destruct multi.
    - eapply he_trans; [exact (C102_row_reading w ro p q E)|]. apply he_sym. exact (C102_row_reading w' ro' p q' E').
    - destruct (C102_transposed w ro p q E) as (p1 & A & B). destruct (C102_transposed w' ro' p q' E') as (p2 & A' & B'). rewrite A in A'. injection A' as <-. eapply he_trans; [exact B|]. apply he_sym. exact B'. }
  split; [exact H|]. intro f. apply equiv_hecke_word. exact H.
Qed.
(* the converse fails: equivalent words may have different insertion tableaux *)
Theorem C102_converse_refuted : exists w w' p q p' q', hecke_equiv w w' /\ hecke w None true = Ok (p, q) /\ hecke w' None true = Ok (p', q') /\ p <> p'.
Proof.
  exists [3; 1], [1; 3], [((1, 1), [1]); ((2, 1), [3])], [((1, 1), [1]); ((2, 1), [2])], [((1, 1), [1]); ((1, 2), [3])], [((1, 1), [1]); ((1, 2), [2])].
  split; [exact (he_comm [] [] 3 1 ltac:(cbn; lia))|]. split; [vm_compute; reflexivity|]. split; [vm_compute; reflexivity|discriminate].
Qed.

Example C102_example : exists p q, hecke [2; 1; 3; 1; 2; 2] None true = Ok (p, q) /\ row_reading_word p = [2; 3; 1; 2] /\ hecke_word (pcall [3; 4; 1; 2]) [2; 3; 1; 2] /\ hecke_word (pcall [3; 4; 1; 2]) [2; 1; 3; 1; 2; 2].
Proof.
  eexists. eexists. split; [vm_compute; reflexivity|]. split; [vm_compute; reflexivity|].
  assert (K : forall v, forallb (fun i => 1 <=? i) v = true -> dw [] v = [3; 4; 1; 2] -> hecke_word (pcall [3; 4; 1; 2]) v).
  { intros v Fv E. assert (F : Forall (fun i => 1 <= i) v) by (apply Forall_forall; intros x Hx; rewrite forallb_forall in Fv; apply Z.leb_le; apply Fv; exact Hx).
    split; [exact F|]. apply (acts_dw v [] (fun x => x) _ nil_canonical F); [intro x; rewrite pcall_nil; reflexivity|]. rewrite E. reflexivity. }
  split; apply K; vm_compute; reflexivity.
Qed.

Print Assumptions C102_row_reading.
Print Assumptions C102_transposed.
Print Assumptions C102_permutation.
Print Assumptions C102_class.
Print Assumptions C102_converse_refuted.
