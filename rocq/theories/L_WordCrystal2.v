(* Factorizations of words and compatible records. *)
From Coq Require Import List ZArith Lia Bool Permutation Arith.
From Verif Require Import PyBase M_PolyHash M_Partitions M_Words S_Words P_Words S_Insertion M_WordCrystal.
Import ListNotations.
Local Open Scope Z_scope.

Fixpoint blocks (s : Z) (us : list (list Z)) : list Z :=
  match us with [] => [] | u :: us' => repeat s (length u) ++ blocks (s + 1) us' end.
Lemma array_spec : forall us, factorization_tuple_to_array us = (concat us, blocks 1 us).
Proof.
  intro us. unfold factorization_tuple_to_array.
  assert (G : forall us (w i : list Z) s, fold_left (fun st (part : list Z) => let '(w, i, index) := st in (w ++ part, i ++ repeat index (length part), index + 1)) us (w, i, s) = (w ++ concat us, i ++ blocks s us, s + Z.of_nat (length us))).
  { clear us. induction us as [|u us IH]; intros w i s; cbn [fold_left concat blocks length]; [rewrite !app_nil_r; f_equal; lia|]. rewrite IH, <- !app_assoc. f_equal. lia. }
  rewrite G. reflexivity.
Qed.

Definition bad (multi : bool) (a b : Z) : Prop := if multi then b < a else a <= b.
Fixpoint comp (multi : bool) (w r : list Z) : Prop :=
  match w, r with
  | [], [] => True
  | a :: w', x :: r' => (match w', r' with b :: _, y :: _ => x <= y /\ (bad multi a b -> x < y) | _, _ => True end) /\ comp multi w' r'
  | _, _ => False
  end.
Lemma compat_iff : forall multi w r, compatible multi w r <-> comp multi w r.
Proof.
  intros multi. induction w as [|a w IH]; intros [|x r].
  - split; [intros _; exact I|]. intros _. split; [reflexivity|]. cbn. intros; lia.
  - split; [intros [H _]; discriminate|intros []].
  - split; [intros [H _]; discriminate|intros []].
  - cbn [comp]. rewrite <- IH. split.
    + intros [L H]. cbn in L. injection L as L. split.
      * destruct w as [|b w]; [exact I|]. destruct r as [|y r]; [exact I|]. exact (H 0%nat ltac:(cbn; lia)).
      * split; [exact L|]. intros n Hn. exact (H (S n) ltac:(cbn; lia)).
    + intros [H [L K]]. split; [cbn; lia|]. intros [|n] Hn.
      * destruct w as [|b w]; [cbn in Hn; lia|]. destruct r as [|y r]; [discriminate|]. exact H.
      * exact (K n ltac:(cbn in Hn; lia)).
Qed.
Definition fine (multi : bool) : Z -> Z -> Prop := if negb multi then Z.gt else Z.le.
Lemma fine_bad : forall multi a b, fine multi a b <-> ~ bad multi a b.
Proof. intros [|] a b; cbn; lia. Qed.
Lemma fine_trans : forall multi a b c, fine multi a b -> fine multi b c -> fine multi a c.
Proof. intros [|] a b c; cbn; lia. Qed.
Lemma pairwise_tail : forall R a u, pairwise R (a :: u) -> pairwise R u.
Proof. intros R a u H p q Hpq. exact (H (S p) (S q) ltac:(cbn; lia)). Qed.
Lemma pairwise_hd : forall R a b u, pairwise R (a :: b :: u) -> R a b.
Proof. intros R a b u H. exact (H 0%nat 1%nat ltac:(cbn; lia)). Qed.
Lemma pairwise_cons : forall multi a u, pairwise (fine multi) u -> match u with [] => True | b :: _ => fine multi a b end -> pairwise (fine multi) (a :: u).
Proof.
  intros multi a u H Hd p q Hpq. destruct q as [|q]; [lia|]. cbn [length] in Hpq. destruct p as [|p]; [|exact (H p q ltac:(lia))]. cbn [nth]. destruct u as [|b u]; [cbn in Hpq; lia|]. destruct q as [|q]; [exact Hd|].
  apply (fine_trans multi a b); [exact Hd|]. exact (H 0%nat (S q) ltac:(lia)).
Qed.
Lemma blocks_range : forall us s, Forall (fun x => s <= x < s + Z.of_nat (length us)) (blocks s us).
Proof.
  induction us as [|u us IH]; intro s; cbn [blocks length]; [constructor|]. apply Forall_app. split.
  - apply Forall_forall. intros x Hx. apply repeat_spec in Hx. lia.
  - eapply Forall_impl; [|apply IH]. cbn. intros; lia.
Qed.
Lemma comp_block : forall multi u s w r, pairwise (fine multi) u -> comp multi w r -> Forall (fun x => s < x) r -> comp multi (u ++ w) (repeat s (length u) ++ r).
Proof.
  intros multi. induction u as [|a u IH]; intros s w r P C F; [exact C|]. cbn [app length repeat comp]. split; [|apply IH; [eapply pairwise_tail; exact P|exact C|exact F]].
  destruct u as [|b u]; cbn [app length repeat].
  - destruct w as [|b w]; [exact I|]. destruct r as [|y r]; [exact I|]. inversion F; subst. lia.
  - split; [lia|]. intro B. exfalso. apply pairwise_hd in P. apply fine_bad in P. exact (P B).
Qed.
Lemma comp_blocks : forall multi us s, Forall (pairwise (fine multi)) us -> comp multi (concat us) (blocks s us).
Proof.
  intros multi. induction us as [|u us IH]; intros s F; [exact I|]. inversion F; subst. cbn [concat blocks]. apply comp_block; [assumption|apply IH; assumption|]. eapply Forall_impl; [|apply blocks_range]. cbn. intros; lia.
Qed.
Lemma comp_ge : forall multi w r a x, comp multi (a :: w) (x :: r) -> Forall (fun y => x <= y) r.
Proof.
  intros multi. induction w as [|b w IH]; intros [|y r] a x H; [constructor|destruct H as [_ []]|constructor|]. destruct H as [H1 H2]. constructor; [apply H1|].
  eapply Forall_impl; [|exact (IH r b y H2)]. cbn. intros; lia.
Qed.
Lemma comp_split : forall multi s w r, comp multi w r -> Forall (fun x => s <= x) r ->
  exists u w' r', w = u ++ w' /\ r = repeat s (length u) ++ r' /\ pairwise (fine multi) u /\ comp multi w' r' /\ Forall (fun x => s < x) r'.
Proof.
  intros multi s. induction w as [|a w IH]; intros [|x r] C F; [|destruct C|destruct C|].
  - exists [], [], []. split; [reflexivity|]. split; [reflexivity|]. split; [intros p q H; cbn in H; lia|]. split; [exact I|constructor].
  - destruct C as [H H0]. inversion F as [|? ? F1 F2]; subst. destruct (Z.eq_dec x s) as [->|N].
    + destruct (IH r H0 F2) as (u & w' & r' & -> & -> & P & C' & G). exists (a :: u), w', r'. split; [reflexivity|]. split; [reflexivity|]. split; [|split; [exact C'|exact G]].
      apply pairwise_cons; [exact P|]. destruct u as [|b u]; [exact I|]. cbn [app length repeat] in H. apply fine_bad. intro B. destruct H as [_ H]. specialize (H B). lia.
    + exists [], (a :: w), (x :: r). split; [reflexivity|]. split; [reflexivity|]. split; [intros p q K; cbn in K; lia|]. split; [split; assumption|]. constructor; [lia|].
      eapply Forall_impl; [|exact (comp_ge multi w r a x (conj H H0))]. cbn. intros; lia.
Qed.
Lemma comp_factor : forall multi k s w r, comp multi w r -> Forall (fun x => s <= x < s + Z.of_nat k) r ->
  exists us, length us = k /\ concat us = w /\ blocks s us = r /\ Forall (pairwise (fine multi)) us.
Proof.
  intros multi. induction k as [|k IH]; intros s w r C F.
  - destruct r as [|x r]; [|inversion F; lia]. destruct w as [|a w]; [|destruct C]. exists []. repeat split; constructor.
  - destruct (comp_split multi s w r C) as (u & w' & r' & -> & -> & P & C' & G); [eapply Forall_impl; [|exact F]; cbn; intros; lia|].
    destruct (IH (s + 1) w' r' C') as (us & L & E1 & E2 & F2).
    { apply Forall_app in F. destruct F as [_ F]. rewrite Forall_forall in F, G |- *. intros x Hx. specialize (F x Hx). specialize (G x Hx). lia. }
    exists (u :: us). cbn [length concat blocks]. rewrite L, E1, E2. split; [reflexivity|]. split; [reflexivity|]. split; [reflexivity|]. constructor; assumption.
Qed.
Lemma repeat_app_inj : forall s n m r r', Forall (fun x => s < x) r -> Forall (fun x => s < x) r' -> repeat s n ++ r = repeat s m ++ r' -> n = m /\ r = r'.
Proof.
  intros s. induction n as [|n IH]; intros [|m] r r' F F' E; cbn [repeat app] in E.
  - split; [reflexivity|exact E].
  - subst r. inversion F; lia.
  - subst r'. inversion F'; lia.
  - injection E as E. destruct (IH m r r' F F' E) as [-> ->]. split; reflexivity.
Qed.
Lemma blocks_inj : forall us vs s, length us = length vs -> concat us = concat vs -> blocks s us = blocks s vs -> us = vs.
Proof.
  assert (G : forall us s, Forall (fun x => s < x) (blocks (s + 1) us)) by (intros us s; eapply Forall_impl; [|apply blocks_range]; cbn; intros; lia).
  induction us as [|u us IH]; intros [|v vs] s L E B; try discriminate; [reflexivity|]. cbn [concat blocks] in E, B. injection L as L. apply repeat_app_inj in B; [|apply G|apply G]. destruct B as [B1 B2].
  assert (u = v /\ concat us = concat vs) as [-> E2].
  { clear - E B1. revert v B1 E. induction u as [|a u IHu]; intros [|b v] B1 E; try discriminate; [split; [reflexivity|exact E]|]. injection E as -> E. injection B1 as B1. destruct (IHu v B1 E) as [-> K]. split; [reflexivity|exact K]. }
  f_equal. eapply IH; eassumption.
Qed.

Lemma sort_insert_perm : forall (A : Type) (key : A -> list Z) x l, Permutation (sort_insert key x l) (x :: l).
Proof. intros A key x. induction l as [|y l IH]; cbn [sort_insert]; [reflexivity|]. destruct (lex_leb _ _); [reflexivity|]. eapply Permutation_trans; [apply perm_skip; exact IH|apply perm_swap]. Qed.
Lemma sort_by_perm : forall (A : Type) (key : A -> list Z) l, Permutation (sort_by key l) l.
Proof. intros A key. induction l as [|x l IH]; [reflexivity|]. cbn [sort_by fold_right]. eapply Permutation_trans; [apply sort_insert_perm|]. apply perm_skip. exact IH. Qed.

Lemma elements_ok : forall words k (decreasing : bool), NoDup words ->
  NoDup (factorizations words k decreasing) /\
  forall w r, In (w, r) (factorizations words k decreasing) <-> In w words /\ compatible (negb decreasing) w r /\ Forall (fun x => 1 <= x <= Z.of_nat k) r.
Proof.
  intros words k dec N. set (fac := flat_map (fun w => map factorization_tuple_to_array (get_increasing_factorizations w k dec)) words).
  assert (P : Permutation (factorizations words k dec) fac).
  { unfold factorizations. fold fac. eapply Permutation_trans; [apply Permutation_sym, Permutation_rev|]. eapply Permutation_trans; [apply sort_by_perm|]. apply Permutation_sym, Permutation_rev. }
  assert (FE : fine (negb dec) = if dec then Z.gt else Z.le) by (unfold fine; rewrite negb_involutive; reflexivity).
  assert (M : forall w r, In (w, r) fac <-> In w words /\ compatible (negb dec) w r /\ Forall (fun x => 1 <= x <= Z.of_nat k) r).
  { intros w r. unfold fac. rewrite in_flat_map. split.
    - intros (w0 & H0 & H). apply in_map_iff in H. destruct H as (us & E & H). rewrite array_spec in E. injection E as <- <-. apply (proj2 (C25_increasing_factorizations w0 k dec)) in H. destruct H as (L & <- & F). rewrite <- FE in F.
      split; [exact H0|]. split; [apply compat_iff, comp_blocks; exact F|]. eapply Forall_impl; [|apply blocks_range]. cbv beta. intros; lia.
    - intros (H0 & C & F). exists w. split; [exact H0|]. apply compat_iff in C. destruct (comp_factor (negb dec) k 1 w r C) as (us & L & E1 & E2 & F2); [eapply Forall_impl; [|exact F]; cbv beta; intros; lia|].
      apply in_map_iff. exists us. split; [rewrite array_spec, E1, E2; reflexivity|]. apply (proj2 (C25_increasing_factorizations w k dec)). rewrite <- FE. auto. }
  split.
  - apply (Permutation_NoDup (Permutation_sym P)). unfold fac. apply NoDup_flat_map; [exact N| |].
    + intros w _. destruct (C25_increasing_factorizations w k dec) as [Nw Mw]. apply (NoDup_map_inj_in _ _); [|exact Nw]. intros us vs Hu Hv E. rewrite !array_spec in E. injection E as E1 E2. apply Mw in Hu, Hv. destruct Hu as (L1 & _). destruct Hv as (L2 & _). eapply blocks_inj; [congruence|exact E1|exact E2].
    + intros x y b _ _ Hx Hy. apply in_map_iff in Hx, Hy. destruct Hx as (us & <- & Hu). destruct Hy as (vs & E & Hv). rewrite !array_spec in E. injection E as E _. apply (proj2 (C25_increasing_factorizations x k dec)) in Hu. apply (proj2 (C25_increasing_factorizations y k dec)) in Hv. destruct Hu as (_ & <- & _). destruct Hv as (_ & <- & _). symmetry. exact E.
  - intros w r. rewrite <- M. split; apply Permutation_in; [exact P|apply Permutation_sym; exact P].
Qed.
