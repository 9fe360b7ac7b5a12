From Coq Require Import List ZArith Lia Bool Permutation Sorted.
From Verif Require Import PyBase M_Partitions M_Tableaux S_Tableaux.
Import ListNotations.
Local Open Scope Z_scope.

Lemma box_eqb_eq : forall a b, box_eqb a b = true <-> a = b.
Proof.
  intros [a1 a2] [b1 b2]. unfold box_eqb. cbn [fst snd]. rewrite andb_true_iff, !Z.eqb_eq. split.
  - intros [-> ->]. reflexivity.
  - intro H. injection H as -> ->. split; reflexivity.
Qed.
Lemma box_eqb_refl : forall a, box_eqb a a = true.
Proof. intro. apply box_eqb_eq. reflexivity. Qed.
Lemma box_eqb_neq : forall a b, box_eqb a b = false <-> a <> b.
Proof. intros. rewrite <- box_eqb_eq. destruct (box_eqb a b); split; congruence. Qed.
Lemma box_eqb_sym : forall a b, box_eqb a b = box_eqb b a.
Proof. intros. destruct (box_eqb b a) eqn:E; [apply box_eqb_eq in E; subst; apply box_eqb_refl|]. apply box_eqb_neq. apply box_eqb_neq in E. congruence. Qed.
Lemma box_ltb_before : forall a b, box_ltb a b = true <-> before a b.
Proof. intros [a1 a2] [b1 b2]. unfold box_ltb, before. cbn [fst snd]. rewrite orb_true_iff, andb_true_iff, !Z.ltb_lt, Z.eqb_eq. tauto. Qed.
Lemma before_irrefl : forall a, ~ before a a.
Proof. intro a. unfold before. lia. Qed.
Lemma before_trans : forall a b c, before a b -> before b c -> before a c.
Proof. intros a b c. unfold before. lia. Qed.
Lemma before_total : forall a b, before a b \/ a = b \/ before b a.
Proof. intros [a1 a2] [b1 b2]. unfold before. cbn [fst snd]. destruct (Z_dec a1 b1) as [[H|H]|H], (Z_dec a2 b2) as [[K|K]|K]; subst; try (left; lia); try (right; right; lia). right. left. reflexivity. Qed.
Lemma box_dec : forall a b : box, {a = b} + {a <> b}.
Proof. intros [a1 a2] [b1 b2]. destruct (Z.eq_dec a1 b1), (Z.eq_dec a2 b2); [left|right|right|right]; congruence. Qed.

Lemma tlookup_In : forall t c l, tlookup t c = Some l -> In (c, l) t.
Proof.
  induction t as [|[d w] t IH]; intros c l H; [discriminate|]. cbn [tlookup] in H. destruct (box_eqb d c) eqn:E.
  - apply box_eqb_eq in E. subst. injection H as ->. left. reflexivity.
  - right. apply IH. assumption.
Qed.
Lemma tlookup_None : forall t c, tlookup t c = None <-> ~ In c (map fst t).
Proof.
  induction t as [|[d w] t IH]; intro c; cbn [tlookup map fst]; [split; [intros _ []|reflexivity]|].
  destruct (box_eqb d c) eqn:E.
  - apply box_eqb_eq in E. subst. split; [discriminate|]. intro H. exfalso. apply H. left. reflexivity.
  - apply box_eqb_neq in E. rewrite IH. split; intro H; [intros [A|A]; [congruence|exact (H A)]|intro A; apply H; right; assumption].
Qed.
Lemma sorted_head_notin : forall d l, StronglySorted before (d :: l) -> ~ In d l.
Proof. intros d l H C. inversion H as [|? ? H1 H2]; subst. rewrite Forall_forall in H2. apply (before_irrefl d). apply H2. assumption. Qed.
Lemma In_tlookup : forall t c l, StronglySorted before (map fst t) -> In (c, l) t -> tlookup t c = Some l.
Proof.
  induction t as [|[d w] t IH]; intros c l Hs H; [destruct H|]. cbn [tlookup]. cbn [map fst] in Hs. pose proof (sorted_head_notin _ _ Hs) as N.
  inversion Hs as [|? ? S1 S2]; subst. destruct H as [H|H].
  - injection H as -> ->. rewrite box_eqb_refl. reflexivity.
  - destruct (box_eqb d c) eqn:E; [|apply IH; assumption]. apply box_eqb_eq in E. subst. exfalso. apply N. apply (in_map fst) in H. exact H.
Qed.

Lemma tput_keys : forall c v t d, In d (map fst (tput c v t)) <-> d = c \/ In d (map fst t).
Proof.
  induction t as [|[e w] t IH]; intro d; cbn [tput].
  - cbn. intuition congruence.
  - destruct (box_ltb c e); [cbn [map fst In]; intuition congruence|]. destruct (box_eqb c e) eqn:E.
    + apply box_eqb_eq in E. subst. cbn [map fst In]. intuition congruence.
    + cbn [map fst In]. rewrite IH. tauto.
Qed.
Lemma tput_sorted : forall c v t, StronglySorted before (map fst t) -> StronglySorted before (map fst (tput c v t)).
Proof.
  induction t as [|[e w] t IH]; intro H; cbn [tput].
  - cbn. repeat constructor.
  - cbn [map fst] in H. inversion H as [|? ? H1 H2]; subst. destruct (box_ltb c e) eqn:L.
    + apply box_ltb_before in L. cbn [map fst]. constructor; [assumption|]. constructor; [assumption|].
      rewrite Forall_forall in *. intros x Hx. eapply before_trans; [exact L|]. apply H2. assumption.
    + destruct (box_eqb c e) eqn:E.
      * apply box_eqb_eq in E. subst. cbn [map fst]. constructor; assumption.
      * cbn [map fst]. constructor; [apply IH; assumption|]. rewrite Forall_forall in *. intros x Hx. apply tput_keys in Hx.
        destruct Hx as [->|Hx]; [|apply H2; assumption]. destruct (before_total e c) as [B|[B|B]]; [assumption| |].
        -- subst. rewrite box_eqb_refl in E. discriminate.
        -- apply box_ltb_before in B. congruence.
Qed.
Lemma tlookup_tput : forall c v t d, StronglySorted before (map fst t) ->
  tlookup (tput c v t) d = if box_eqb c d then Some v else tlookup t d.
Proof.
  induction t as [|[e w] t IH]; intros d H; cbn [tput]; [reflexivity|]. cbn [map fst] in H. inversion H as [|? ? H1 H2]; subst.
  destruct (box_ltb c e) eqn:L; [reflexivity|]. destruct (box_eqb c e) eqn:E.
  - apply box_eqb_eq in E. subst. cbn [tlookup]. destruct (box_eqb e d); reflexivity.
  - cbn [tlookup]. rewrite IH by assumption. destruct (box_eqb e d) eqn:E2; [|reflexivity]. apply box_eqb_eq in E2. subst. rewrite E. reflexivity.
Qed.
Lemma tdel_incl : forall c t x, In x (tdel c t) -> In x t.
Proof. induction t as [|[e w] t IH]; intros x H; [destruct H|]. cbn [tdel] in H. destruct (box_eqb c e); [right; assumption|]. destruct H as [H|H]; [left; assumption|right; apply IH; assumption]. Qed.
Lemma tdel_sorted : forall c t, StronglySorted before (map fst t) -> StronglySorted before (map fst (tdel c t)).
Proof.
  induction t as [|[e w] t IH]; intro H; [exact H|]. cbn [tdel]. cbn [map fst] in H. inversion H as [|? ? H1 H2]; subst.
  destruct (box_eqb c e); [assumption|]. cbn [map fst]. constructor; [apply IH; assumption|]. rewrite Forall_forall in *. intros x Hx.
  apply H2. apply in_map_iff in Hx. destruct Hx as (y & <- & Hy). apply in_map. eapply tdel_incl. eassumption.
Qed.
Lemma tlookup_tdel : forall c t d, StronglySorted before (map fst t) -> tlookup (tdel c t) d = if box_eqb c d then None else tlookup t d.
Proof.
  induction t as [|[e w] t IH]; intros d H; cbn [tdel]; [cbn; destruct (box_eqb c d); reflexivity|]. cbn [map fst] in H.
  pose proof (sorted_head_notin _ _ H) as N. inversion H as [|? ? H1 H2]; subst. destruct (box_eqb c e) eqn:E.
  - apply box_eqb_eq in E. subst. cbn [tlookup]. destruct (box_eqb e d) eqn:E2; [|reflexivity]. apply box_eqb_eq in E2. subst. apply tlookup_None. assumption.
  - cbn [tlookup]. rewrite IH by assumption. destruct (box_eqb e d) eqn:E2; [|reflexivity]. apply box_eqb_eq in E2. subst. rewrite E. reflexivity.
Qed.

Lemma tab_ext : forall t u, StronglySorted before (map fst t) -> StronglySorted before (map fst u) ->
  (forall c, tlookup t c = tlookup u c) -> t = u.
Proof.
  induction t as [|[c v] t IH]; intros [|[d w] u] Ht Hu H.
  - reflexivity.
  - specialize (H d). cbn [tlookup] in H. rewrite box_eqb_refl in H. discriminate.
  - specialize (H c). cbn [tlookup] in H. rewrite box_eqb_refl in H. discriminate.
  - cbn [map fst] in Ht, Hu. pose proof (sorted_head_notin _ _ Ht) as Nt. pose proof (sorted_head_notin _ _ Hu) as Nu.
    inversion Ht as [|? ? T1 T2]; inversion Hu as [|? ? U1 U2]; subst. rewrite Forall_forall in T2, U2.
    assert (E : c = d).
    { destruct (before_total c d) as [B|[B|B]]; [|assumption|]; exfalso.
      - pose proof (H c) as Hc. cbn [tlookup] in Hc. rewrite box_eqb_refl in Hc. destruct (box_eqb d c) eqn:E; [apply box_eqb_eq in E; subst; exact (before_irrefl _ B)|].
        symmetry in Hc. apply tlookup_In in Hc. apply (in_map fst) in Hc. apply U2 in Hc. exact (before_irrefl _ (before_trans _ _ _ B Hc)).
      - pose proof (H d) as Hc. cbn [tlookup] in Hc. rewrite box_eqb_refl in Hc. destruct (box_eqb c d) eqn:E; [apply box_eqb_eq in E; subst; exact (before_irrefl _ B)|].
        apply tlookup_In in Hc. apply (in_map fst) in Hc. apply T2 in Hc. exact (before_irrefl _ (before_trans _ _ _ B Hc)). }
    subst d. pose proof (H c) as Hc. cbn [tlookup] in Hc. rewrite box_eqb_refl in Hc. injection Hc as <-. f_equal. apply IH; [assumption|assumption|].
    intro e. specialize (H e). cbn [tlookup] in H. destruct (box_eqb c e) eqn:E; [|assumption]. apply box_eqb_eq in E. subst e.
    rewrite (proj2 (tlookup_None t c) Nt), (proj2 (tlookup_None u c) Nu). reflexivity.
Qed.

(* sorting of ints *)
Lemma sinsert_perm : forall x l, Permutation (x :: l) (sinsert x l).
Proof.
  induction l as [|y l IH]; cbn [sinsert]; [apply Permutation_refl|]. destruct (x <=? y); [apply Permutation_refl|].
  eapply Permutation_trans; [apply perm_swap|]. constructor. assumption.
Qed.
Lemma sorted_perm : forall l, Permutation l (sorted l).
Proof. induction l as [|x l IH]; [constructor|]. cbn. eapply Permutation_trans; [constructor; exact IH|]. apply sinsert_perm. Qed.
Lemma sinsert_increasing : forall x l, increasing l -> increasing (sinsert x l).
Proof.
  induction l as [|y l IH]; intro H; cbn [sinsert]; [repeat constructor|]. inversion H as [|? ? H1 H2]; subst.
  destruct (x <=? y) eqn:E.
  - apply Z.leb_le in E. constructor; [assumption|]. constructor; [assumption|]. rewrite Forall_forall in *. intros z Hz. specialize (H2 z Hz). lia.
  - apply Z.leb_gt in E. constructor; [apply IH; assumption|]. rewrite Forall_forall in *. intros z Hz.
    apply (Permutation_in z (Permutation_sym (sinsert_perm x l))) in Hz. destruct Hz as [<-|Hz]; [lia|apply H2; assumption].
Qed.
Lemma sorted_increasing : forall l, increasing (sorted l).
Proof. induction l as [|x l IH]; [constructor|]. apply sinsert_increasing. assumption. Qed.
Lemma increasing_perm_eq : forall a b, increasing a -> increasing b -> Permutation a b -> a = b.
Proof.
  induction a as [|x a IH]; intros b Ha Hb P; [apply Permutation_nil in P; subst; reflexivity|].
  destruct b as [|y b]; [apply Permutation_sym, Permutation_nil in P; discriminate|].
  inversion Ha as [|? ? A1 A2]; inversion Hb as [|? ? B1 B2]; subst. rewrite Forall_forall in A2, B2.
  assert (x = y).
  { assert (I1 : In x (y :: b)) by (eapply Permutation_in; [exact P|left; reflexivity]).
    assert (I2 : In y (x :: a)) by (eapply Permutation_in; [apply Permutation_sym; exact P|left; reflexivity]).
    destruct I1 as [I1|I1], I2 as [I2|I2]; try congruence. specialize (B2 _ I1). specialize (A2 _ I2). lia. }
  subst y. f_equal. apply IH; [assumption|assumption|]. eapply Permutation_cons_inv. exact P.
Qed.
Lemma sorted_id : forall l, increasing l -> sorted l = l.
Proof. intros. apply increasing_perm_eq; [apply sorted_increasing|assumption|apply Permutation_sym, sorted_perm]. Qed.
Lemma sorted_snoc : forall l x, increasing l -> sorted (l ++ [x]) = sinsert x l.
Proof.
  intros l x H. apply increasing_perm_eq; [apply sorted_increasing|apply sinsert_increasing; assumption|].
  eapply Permutation_trans; [apply Permutation_sym, sorted_perm|]. eapply Permutation_trans; [|apply sinsert_perm].
  apply Permutation_sym. apply Permutation_cons_append.
Qed.
Lemma cut_first_perm : forall x l, In x l -> Permutation l (x :: cut_first x l).
Proof.
  induction l as [|y l IH]; intro H; [destruct H|]. cbn [cut_first]. destruct (y =? x) eqn:E; [apply Z.eqb_eq in E; subst; apply Permutation_refl|].
  destruct H as [H|H]; [subst; rewrite Z.eqb_refl in E; discriminate|]. eapply Permutation_trans; [constructor; apply IH; assumption|]. apply perm_swap.
Qed.
Lemma cut_first_In : forall x l z, In z (cut_first x l) -> In z l.
Proof. induction l as [|y l IH]; intros z H; [destruct H|]. cbn [cut_first] in H. destruct (y =? x); [right; assumption|]. destruct H as [H|H]; [left; assumption|right; apply IH; assumption]. Qed.
Lemma cut_first_increasing : forall x l, increasing l -> increasing (cut_first x l).
Proof.
  induction l as [|y l IH]; intro H; [constructor|]. inversion H as [|? ? H1 H2]; subst. cbn [cut_first]. destruct (y =? x); [assumption|].
  constructor; [apply IH; assumption|]. rewrite Forall_forall in *. intros z Hz. apply H2. eapply cut_first_In. eassumption.
Qed.

(* dict items *)
Fixpoint mlookup (m : list (box * pyval)) (c : box) : option pyval :=
  match m with [] => None | (d, v) :: m' => if box_eqb d c then Some v else mlookup m' c end.
Lemma mlookup_None : forall m c, mlookup m c = None <-> ~ In c (map fst m).
Proof.
  induction m as [|[d w] t IH]; intro c; cbn [mlookup map fst]; [split; [intros _ []|reflexivity]|].
  destruct (box_eqb d c) eqn:E.
  - apply box_eqb_eq in E. subst. split; [discriminate|]. intro H. exfalso. apply H. left. reflexivity.
  - apply box_eqb_neq in E. rewrite IH. split; intro H; [intros [A|A]; [congruence|exact (H A)]|intro A; apply H; right; assumption].
Qed.
Lemma mlookup_In : forall m c v, mlookup m c = Some v -> In (c, v) m.
Proof.
  induction m as [|[d w] m IH]; intros c v H; [discriminate|]. cbn [mlookup] in H. destruct (box_eqb d c) eqn:E; [|right; apply IH; assumption].
  apply box_eqb_eq in E. subst. injection H as ->. left. reflexivity.
Qed.
Lemma In_mlookup : forall m c v, NoDup (map fst m) -> In (c, v) m -> mlookup m c = Some v.
Proof.
  induction m as [|[d w] m IH]; intros c v N H; [destruct H|]. cbn [map fst] in N. inversion N as [|? ? N1 N2]; subst. cbn [mlookup]. destruct H as [H|H].
  - injection H as -> ->. rewrite box_eqb_refl. reflexivity.
  - destruct (box_eqb d c) eqn:E; [|apply IH; assumption]. apply box_eqb_eq in E. subst. exfalso. apply N1. apply (in_map fst) in H. exact H.
Qed.
Lemma mlookup_mput : forall c v m d, mlookup (mput c v m) d = if box_eqb c d then Some v else mlookup m d.
Proof.
  induction m as [|[e w] m IH]; intro d; cbn [mput]; [reflexivity|]. destruct (box_eqb e c) eqn:E.
  - apply box_eqb_eq in E. subst. cbn [mlookup]. destruct (box_eqb c d); reflexivity.
  - cbn [mlookup]. rewrite IH. destruct (box_eqb e d) eqn:E2; [|reflexivity]. apply box_eqb_eq in E2. subst. rewrite box_eqb_sym, E. reflexivity.
Qed.
Lemma mput_keys : forall c v m d, In d (map fst (mput c v m)) <-> d = c \/ In d (map fst m).
Proof.
  induction m as [|[e w] t IH]; intro d; cbn [mput].
  - cbn. intuition congruence.
  - destruct (box_eqb e c) eqn:E.
    + apply box_eqb_eq in E. subst. cbn [map fst In]. intuition congruence.
    + cbn [map fst In]. rewrite IH. tauto.
Qed.
Lemma mput_NoDup : forall c v m, NoDup (map fst m) -> NoDup (map fst (mput c v m)).
Proof.
  induction m as [|[e w] m IH]; intro H; cbn [mput]; [repeat constructor; intros []|]. cbn [map fst] in H. inversion H as [|? ? N1 N2]; subst.
  destruct (box_eqb e c) eqn:E.
  - apply box_eqb_eq in E. subst. cbn [map fst]. constructor; assumption.
  - cbn [map fst]. constructor; [|apply IH; assumption]. rewrite mput_keys. intros [->|C]; [rewrite box_eqb_refl in E; discriminate|contradiction].
Qed.
Lemma keys_items : forall t, map fst (items t) = map fst t.
Proof. intro t. unfold items. rewrite map_map. reflexivity. Qed.
Lemma mlookup_items : forall t c, mlookup (items t) c = option_map VTup (tlookup t c).
Proof. induction t as [|[d w] t IH]; intro c; [reflexivity|]. cbn [items map fst snd mlookup tlookup]. destruct (box_eqb d c); [reflexivity|apply IH]. Qed.
Lemma sorted_NoDup : forall l, StronglySorted before l -> NoDup l.
Proof. induction l as [|a l IH]; intro H; [constructor|]. constructor; [apply sorted_head_notin; assumption|]. apply IH. inversion H; assumption. Qed.

Definition positive (c : box) : Prop := 0 < fst c /\ 0 < snd c.

(* the constructor *)
Lemma fold_tput_spec : forall m acc, NoDup (map fst m) -> StronglySorted before (map fst acc) ->
  let t := fold_left (fun t cv => tput (fst cv) (tuplize (snd cv)) t) m acc in
  StronglySorted before (map fst t) /\
  forall c, tlookup t c = match mlookup m c with Some v => Some (tuplize v) | None => tlookup acc c end.
Proof.
  induction m as [|[d w] m IH]; intros acc N S; cbn [fold_left fst snd].
  - split; [assumption|]. reflexivity.
  - cbn [map fst] in N. inversion N as [|? ? N1 N2]; subst. specialize (IH (tput d (tuplize w) acc) N2 (tput_sorted _ _ _ S)). cbv zeta in IH. destruct IH as [I1 I2].
    split; [exact I1|]. intro c. rewrite I2. cbn [mlookup]. destruct (box_eqb d c) eqn:E.
    + apply box_eqb_eq in E. subst c. rewrite (proj2 (mlookup_None m d) N1), tlookup_tput, box_eqb_refl by assumption. reflexivity.
    + destruct (mlookup m c); [reflexivity|]. rewrite tlookup_tput, E by assumption. reflexivity.
Qed.
Lemma tuplize_increasing : forall v, increasing (tuplize v).
Proof. intros [x|l]; cbn [tuplize]; [repeat constructor|apply sorted_increasing]. Qed.
Lemma tinit_spec : forall m, NoDup (map fst m) -> (forall c, In c (map fst m) -> positive c) ->
  exists t, tinit m = Ok t /\ well_formed t /\ forall c, tlookup t c = option_map tuplize (mlookup m c).
Proof.
  intros m N P. unfold tinit.
  replace (forallb _ m) with true.
  2: { symmetry. apply forallb_forall. intros [c v] H. apply (in_map fst) in H. apply P in H. cbn [fst] in *. rewrite andb_true_iff, !Z.ltb_lt. exact H. }
  destruct (fold_tput_spec m [] N ltac:(constructor)) as [S L]. eexists. split; [reflexivity|]. split.
  - split; [exact S|]. intros c l H. apply (In_tlookup _ _ _ S) in H. rewrite L in H. destruct (mlookup m c) eqn:E; [|discriminate].
    injection H as <-. apply mlookup_In in E. apply (in_map fst) in E. apply P in E. destruct E. split; [assumption|]. split; [assumption|]. apply tuplize_increasing.
  - intro c. rewrite L. destruct (mlookup m c); reflexivity.
Qed.
Lemma tinit_bad : forall m c, In c (map fst m) -> ~ positive c -> tinit m = Err AssertionError.
Proof.
  intros m c H P. unfold tinit. destruct (forallb (fun cv => (0 <? fst (fst cv)) && (0 <? snd (fst cv))) m) eqn:E; [|reflexivity]. exfalso. rewrite forallb_forall in E.
  apply in_map_iff in H. destruct H as ([d v] & <- & H). specialize (E _ H). cbn [fst] in *. rewrite andb_true_iff, !Z.ltb_lt in E. exact (P E).
Qed.

Lemma wf_lookup : forall t c l, well_formed t -> tlookup t c = Some l -> positive c /\ increasing l.
Proof. intros t c l [S P] H. apply tlookup_In in H. apply P in H. unfold positive. tauto. Qed.
Lemma wf_keys : forall t c, well_formed t -> In c (map fst t) -> positive c.
Proof. intros t c [S P] H. apply in_map_iff in H. destruct H as ([d v] & <- & H). apply P in H. unfold positive. tauto. Qed.
Lemma wf_ext : forall t u, well_formed t -> well_formed u -> (forall c, tlookup t c = tlookup u c) -> t = u.
Proof. intros t u [A _] [B _]. apply tab_ext; assumption. Qed.
Lemma items_NoDup : forall t, well_formed t -> NoDup (map fst (items t)).
Proof. intros t [S _]. rewrite keys_items. apply sorted_NoDup. assumption. Qed.
Lemma wf_nil : well_formed [].
Proof. split; [constructor|]. intros c l []. Qed.

(* the tableau with the value at one cell changed *)
Lemma tinit_mput : forall t c v, well_formed t -> positive c ->
  exists u, tinit (mput c v (items t)) = Ok u /\ well_formed u /\
    forall d, tlookup u d = if box_eqb c d then Some (tuplize v) else tlookup t d.
Proof.
  intros t c v W P. destruct (tinit_spec (mput c v (items t))) as (u & E & Wu & L).
  - apply mput_NoDup. apply items_NoDup. assumption.
  - intros d Hd. apply mput_keys in Hd. destruct Hd as [->|Hd]; [assumption|]. rewrite keys_items in Hd. apply (wf_keys t); assumption.
  - exists u. split; [assumption|]. split; [assumption|]. intro d. rewrite L, mlookup_mput. destruct (box_eqb c d); [reflexivity|].
    rewrite mlookup_items. destruct (tlookup t d) eqn:E2; [|reflexivity]. cbn [option_map tuplize]. rewrite sorted_id; [reflexivity|]. apply (wf_lookup t d); assumption.
Qed.
Lemma tinit_items : forall t, well_formed t -> tinit (items t) = Ok t.
Proof.
  intros t W. destruct (tinit_spec (items t)) as (u & E & Wu & L).
  - apply items_NoDup. assumption.
  - intros d Hd. rewrite keys_items in Hd. apply (wf_keys t); assumption.
  - rewrite E. f_equal. apply wf_ext; [assumption|assumption|]. intro d. rewrite L, mlookup_items. destruct (tlookup t d) eqn:E2; [|reflexivity].
    cbn [option_map tuplize]. rewrite sorted_id; [reflexivity|]. apply (wf_lookup t d); assumption.
Qed.
Lemma tdel_wf : forall t c, well_formed t -> well_formed (tdel c t).
Proof. intros t c [S P]. split; [apply tdel_sorted; assumption|]. intros d l H. apply (P d l). eapply tdel_incl. eassumption. Qed.
Lemma tput_wf : forall t c l, well_formed t -> positive c -> increasing l -> well_formed (tput c l t).
Proof.
  intros t c l [S P] Hc Hl. split; [apply tput_sorted; assumption|]. intros d v H. apply (In_tlookup _ _ _ (tput_sorted c l t S)) in H.
  rewrite tlookup_tput in H by assumption. destruct (box_eqb c d) eqn:E.
  - apply box_eqb_eq in E. subst. injection H as <-. unfold positive in Hc. tauto.
  - apply tlookup_In in H. apply P in H. assumption.
Qed.
Lemma tinit_mput_eq : forall t c v, well_formed t -> positive c -> tinit (mput c v (items t)) = Ok (tput c (tuplize v) t).
Proof.
  intros t c v W P. destruct (tinit_mput t c v W P) as (u & E & Wu & L). rewrite E. f_equal.
  apply wf_ext; [assumption|apply tput_wf; [assumption|assumption|apply tuplize_increasing]|].
  intro d. rewrite L, tlookup_tput; [reflexivity|apply W].
Qed.

(* add of an int: an equation *)
Definition entries (t : tab) (c : box) : list Z := match tlookup t c with Some l => l | None => [] end.
Lemma tadd_int : forall t i j x, well_formed t -> 0 < i -> 0 < j ->
  tadd t i j (VInt x) = Ok (tput (i, j) (sinsert x (entries t (i, j))) t).
Proof.
  intros t i j x W Hi Hj. unfold tadd, entries. replace ((0 <? i) && (0 <? j)) with true by (symmetry; apply andb_true_iff; rewrite !Z.ltb_lt; lia).
  destruct (tlookup t (i, j)) eqn:E.
  - rewrite (tinit_mput_eq t (i, j)) by (first [exact W|exact (conj Hi Hj)]). cbn [tuplize].
    assert (Hl : increasing l) by (apply (wf_lookup t (i, j)); assumption).
    rewrite (sorted_id (sorted (l ++ [x]))) by apply sorted_increasing. rewrite sorted_snoc by assumption. reflexivity.
  - rewrite (tinit_mput_eq t (i, j)) by (first [exact W|exact (conj Hi Hj)]). reflexivity.
Qed.
