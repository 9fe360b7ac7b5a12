(* Numbering the entries of a semistandard recording tableau *)
From Coq Require Import List ZArith Bool Lia Sorted Permutation RelationClasses.
From Verif Require Import PyBase M_Partitions L_PartMore M_Tableaux S_Tableaux L_Tableaux P_Tableaux M_Insertion S_Insertion L_Insertion1 L_Insertion2 L_Insertion3 L_Insertion4 L_Insertion5 L_Insertion6 L_Insertion7 L_Insertion8 P_Insertion L_HeckeOnto L_HeckeOnto2.
Import ListNotations.
Local Open Scope Z_scope.

(* values first, then columns *)
Definition tle (x y : Z * box) : Prop := fst x < fst y \/ (fst x = fst y /\ snd (snd x) <= snd (snd y)).
Lemma tle_sort : forall l : list (Z * box), exists l', Permutation l l' /\ StronglySorted tle l'.
Proof.
  assert (INS : forall (x : Z * box) l, StronglySorted tle l -> exists l', Permutation (x :: l) l' /\ StronglySorted tle l').
  { intros x l. induction l as [|y l IH]; intro S; [exists [x]; split; [apply Permutation_refl|repeat constructor]|]. inversion S as [|? ? S1 S2]; subst.
    assert (T : tle x y \/ tle y x) by (unfold tle; lia). destruct T as [T|T].
    - exists (x :: y :: l). split; [apply Permutation_refl|]. constructor; [exact S|]. constructor; [exact T|]. rewrite Forall_forall in *. intros z Hz. specialize (S2 z Hz). unfold tle in *. lia.
    - destruct (IH S1) as (l' & P & S'). exists (y :: l'). split; [eapply Permutation_trans; [apply perm_swap|apply perm_skip; exact P]|]. constructor; [exact S'|]. rewrite Forall_forall in *. intros z Hz.
      apply (Permutation_in _ (Permutation_sym P)) in Hz. destruct Hz as [<-|Hz]; [exact T|apply S2; exact Hz]. }
  induction l as [|x l IH]; [exists []; split; [apply Permutation_refl|constructor]|]. destruct IH as (l' & P & S). destruct (INS x l' S) as (l'' & P' & S'). exists l''. split; [|exact S'].
  eapply Permutation_trans; [apply perm_skip; exact P|exact P'].
Qed.

Lemma sorted_filter : forall (A : Type) (R : A -> A -> Prop) f l, StronglySorted R l -> StronglySorted R (filter f l).
Proof.
  intros A R f l S. induction S as [|x l S IH F]; [constructor|]. cbn [filter]. destruct (f x); [|exact IH]. constructor; [exact IH|]. rewrite Forall_forall in *. intros y Hy. apply filter_In in Hy. apply F. apply Hy.
Qed.
Lemma sorted_map : forall (A B : Type) (R : A -> A -> Prop) (Q : B -> B -> Prop) (f : A -> B) l, (forall x y, R x y -> Q (f x) (f y)) -> StronglySorted R l -> StronglySorted Q (map f l).
Proof.
  intros A B R Q f l H S. induction S as [|x l S IH F]; [constructor|]. cbn [map]. constructor; [exact IH|]. rewrite Forall_forall in *. intros y Hy. apply in_map_iff in Hy. destruct Hy as (z & <- & Hz). apply H. apply F. exact Hz.
Qed.
Lemma sorted_cases : forall (A : Type) (R : A -> A -> Prop) l x y, StronglySorted R l -> In x l -> In y l -> R x y \/ x = y \/ R y x.
Proof.
  intros A R l x y S. induction S as [|z l S IH F]; intros Hx Hy; [destruct Hx|]. rewrite Forall_forall in F. destruct Hx as [->|Hx]; destruct Hy as [->|Hy]; auto.
Qed.
Lemma filter_snd : forall (A B : Type) (f : B -> bool) (l : list (A * B)), map snd (filter (fun x => f (snd x)) l) = filter f (map snd l).
Proof. intros A B f l. induction l as [|[a b] l IH]; [reflexivity|]. cbn [filter map snd]. destruct (f b); cbn [map snd]; rewrite IH; reflexivity. Qed.
Lemma Permutation_filter : forall (A : Type) (f : A -> bool) l l', Permutation l l' -> Permutation (filter f l) (filter f l').
Proof.
  intros A f l l' P. induction P as [|x l l' P IH|x y l|l l' l'' P1 IH1 P2 IH2]; cbn [filter]; [constructor| | |eapply Permutation_trans; eassumption].
  - destruct (f x); [apply perm_skip|]; exact IH.
  - destruct (f x); destruct (f y); try apply Permutation_refl. apply perm_swap.
Qed.
Lemma snd_combine : forall (A B : Type) (a : list A) (b : list B), length a = length b -> map snd (combine a b) = b.
Proof. induction a as [|x a IH]; intros [|y b] H; try discriminate; [reflexivity|]. cbn [combine map snd]. rewrite IH by (injection H; auto). reflexivity. Qed.
Lemma fst_combine : forall (A B : Type) (a : list A) (b : list B), length a = length b -> map fst (combine a b) = a.
Proof. induction a as [|x a IH]; intros [|y b] H; try discriminate; [reflexivity|]. cbn [combine map fst]. rewrite IH by (injection H; auto). reflexivity. Qed.

Lemma sorted_sort_eq : forall l l', increasing l -> increasing l' -> Permutation l l' -> l = l'.
Proof.
  intros l l' S S' P. revert l' S' P. induction S as [|x l S IH F]; intros l' S' P; [apply Permutation_nil in P; congruence|].
  destruct l' as [|y l']; [apply Permutation_sym, Permutation_nil in P; discriminate|]. inversion S' as [|? ? S1 F']; subst. rewrite Forall_forall in F, F'.
  assert (x = y).
  { pose proof (Permutation_in x P (or_introl eq_refl)) as H1. pose proof (Permutation_in y (Permutation_sym P) (or_introl eq_refl)) as H2.
    destruct H1 as [H1|H1]; [congruence|]. destruct H2 as [H2|H2]; [congruence|]. specialize (F _ H2). specialize (F' _ H1). lia. }
  subst y. f_equal. apply IH; [exact S1|]. apply (Permutation_cons_inv P).
Qed.

(* the entries of one cell *)
Lemma tag_cell : forall t c l, StronglySorted before (map fst t) -> tlookup t c = Some l -> filter (fun x => box_eqb c (snd x)) (tag t) = map (fun v => (v, c)) l.
Proof.
  assert (A : forall (d c : box) l, box_eqb c d = false -> filter (fun x => box_eqb c (snd x)) (map (fun v => (v, d)) l) = @nil (Z * box)).
  { intros d c l E. induction l as [|v l IH]; [reflexivity|]. cbn [map filter snd]. rewrite E. exact IH. }
  assert (B : forall (c : box) l, filter (fun x => box_eqb c (snd x)) (map (fun v => (v, c)) l) = map (fun v : Z => (v, c)) l).
  { intros c l. induction l as [|v l IH]; [reflexivity|]. cbn [map filter snd]. rewrite box_eqb_refl, IH. reflexivity. }
  assert (C : forall t c, ~ In c (map fst t) -> filter (fun x => box_eqb c (snd x)) (tag t) = []).
  { intros t c. induction t as [|[d m] t IH]; intro N; [reflexivity|]. unfold tag in *. cbn [flat_map fst snd map In] in *. rewrite filter_app. rewrite A by (apply box_eqb_neq; intro K; subst; tauto). apply IH. tauto. }
  intros t c l S. induction t as [|[d m] t IH]; intro H; [discriminate|]. cbn [tlookup map fst] in *. unfold tag in *. cbn [flat_map fst snd]. rewrite filter_app. destruct (box_eqb d c) eqn:E.
  - apply box_eqb_eq in E. subst d. injection H as ->. rewrite B. fold (tag t). rewrite C by (apply sorted_head_notin; exact S). apply app_nil_r.
  - rewrite A by (rewrite box_eqb_sym; exact E). apply IH; [inversion S; assumption|exact H].
Qed.
(* splitting a list by cells *)
Lemma split_cells : forall (K : list box) (l : list (Z * box)), NoDup K -> (forall x, In x l -> In (snd x) K) ->
  Permutation (flat_map (fun c => filter (fun x => box_eqb c (snd x)) l) K) l.
Proof.
  intros K l. revert K. induction l as [|x l IH]; intros K N H.
  - clear. induction K as [|c K IH]; [constructor|exact IH].
  - specialize (IH K N ltac:(intros; apply H; right; assumption)). assert (HK : In (snd x) K) by (apply H; left; reflexivity).
    eapply Permutation_trans; [|apply perm_skip; exact IH]. clear IH H. apply in_split in HK. destruct HK as (K1 & K2 & ->).
    assert (E : forall K', ~ In (snd x) K' -> flat_map (fun c => filter (fun y => box_eqb c (snd y)) (x :: l)) K' = flat_map (fun c => filter (fun y => box_eqb c (snd y)) l) K').
    { induction K' as [|c K' IH]; intro N'; [reflexivity|]. cbn [flat_map]. cbn [In] in N'. rewrite IH by tauto. f_equal. cbn [filter]. replace (box_eqb c (snd x)) with false; [reflexivity|]. symmetry. apply box_eqb_neq. intro; subst; tauto. }
    apply NoDup_remove_2 in N. rewrite in_app_iff in N. rewrite !flat_map_app. cbn [flat_map]. rewrite !E by tauto. replace (filter (fun y => box_eqb (snd x) (snd y)) (x :: l)) with (x :: filter (fun y => box_eqb (snd x) (snd y)) l) by (cbn [filter]; rewrite box_eqb_refl; reflexivity).
    cbn [app]. apply Permutation_sym, Permutation_middle.
Qed.

Section Number.
  Variables (Q : tab) (multi : bool) (ST : list (Z * box)).
  Hypothesis W : well_formed Q.
  Hypothesis SQ : straight Q.
  Hypothesis SS : semistandard_cells multi Q.
  Hypothesis P : Permutation (tag Q) ST.
  Hypothesis SO : StronglySorted tle ST.
  Let r := map fst ST.
  Let D := map snd ST.
  Let T3 := combine (zrange 1 (zlen ST + 1)) ST.
  Let pos (c : box) : list Z := map fst (filter (fun x => box_eqb c (snd (snd x))) T3).
  Let q : tab := map (fun cv => (fst cv, pos (fst cv))) Q.

  Lemma num_len : length (zrange 1 (zlen ST + 1)) = length ST.
  Proof. rewrite length_zrange. unfold zlen. lia. Qed.
  Lemma num_T3_snd : map snd T3 = ST.
  Proof. apply snd_combine. apply num_len. Qed.
  Lemma num_T3_fst : map fst T3 = zrange 1 (zlen ST + 1).
  Proof. apply fst_combine. apply num_len. Qed.
  Lemma num_T3_sorted : StronglySorted (fun x y => fst x < fst y /\ tle (snd x) (snd y)) T3.
  Proof.
    unfold T3. clear -SO. assert (G : forall l n a, StronglySorted tle l -> n = length l -> StronglySorted (fun x y => fst x < fst y /\ tle (snd x) (snd y)) (combine (zrange a (a + Z.of_nat n)) l)).
    { induction l as [|x l IH]; intros n a S ->; [destruct (zrange _ _); constructor|]. cbn [length]. rewrite zrange_cons by lia. cbn [combine]. inversion S as [|? ? S1 S2]; subst. rewrite Forall_forall in S2.
      replace (a + Z.of_nat (Datatypes.S (length l))) with (a + 1 + Z.of_nat (length l)) by lia. constructor; [apply IH; [exact S1|reflexivity]|]. rewrite Forall_forall. intros [m y] H. cbn [fst snd]. split.
      - apply in_combine_l in H. apply In_zrange in H. lia.
      - apply S2. apply in_combine_r in H. exact H. }
    replace (zlen ST + 1) with (1 + Z.of_nat (length ST)) by (unfold zlen; lia). apply G; [exact SO|reflexivity].
  Qed.
  Lemma num_T3_rec : forall x, In x T3 -> rec_of r (fst x) = fst (snd x).
  Proof.
    intros x H. apply (In_nth _ _ (0, (0, (0, 0)))) in H. destruct H as (n & Hn & E). unfold T3 in *. rewrite combine_length, num_len in Hn. rewrite combine_nth in E by apply num_len. subst x. cbn [fst snd].
    pose proof (L_Perm.nthz_zrange 1 (zlen ST + 1) (Z.of_nat n) ltac:(unfold zlen; lia)) as K. unfold nthz in K. rewrite Nat2Z.id in K. rewrite K. unfold rec_of, nthz, r. replace (Z.to_nat (1 + Z.of_nat n - 1)) with n by lia.
    change 0 with (fst (0, (0, 0)) : Z) at 1. apply map_nth.
  Qed.
  Lemma num_lookup : forall c, tlookup q c = match tlookup Q c with Some _ => Some (pos c) | None => None end.
  Proof. unfold q. intro c. clear. induction Q as [|[d l] t IH]; [reflexivity|]. cbn [map tlookup fst]. destruct (box_eqb d c) eqn:E; [apply box_eqb_eq in E; subst; reflexivity|exact IH]. Qed.
  Lemma num_keys : map fst q = map fst Q.
  Proof. unfold q. rewrite map_map. reflexivity. Qed.
  Lemma num_sorted : StronglySorted before (map fst q).
  Proof. exact (eq_ind_r (fun l => StronglySorted before l) (proj1 W) num_keys). Qed.
  Lemma num_pos_inc : forall c, increasing (pos c).
  Proof.
    intro c. unfold pos. apply (sorted_map _ _ (fun x y => fst x < fst y /\ tle (snd x) (snd y)) Z.le); [intros x y [H _]; lia|]. apply sorted_filter. apply num_T3_sorted.
  Qed.
  Lemma num_wf : well_formed q.
  Proof.
    split; [exact num_sorted|]. intros c l H. assert (HK : In c (map fst Q)) by (exact (eq_ind _ (fun k => In c k) (in_map fst q (c, l) H) _ num_keys)).
    pose proof (wf_keys Q c W HK) as [A B]. split; [exact A|]. split; [exact B|]. apply In_tlookup in H; [|exact num_sorted]. rewrite num_lookup in H. destruct (tlookup Q c); [|discriminate]. injection H as <-. apply num_pos_inc.
  Qed.
  Lemma num_In : forall x v c, In (x, (v, c)) T3 <-> In x (pos c) /\ rec_of r x = v /\ 1 <= x <= zlen ST.
  Proof.
    intros x v c. split.
    - intro H. split; [apply in_map_iff; exists (x, (v, c)); split; [reflexivity|]; apply filter_In; split; [exact H|cbn [snd]; apply box_eqb_refl]|]. split; [exact (num_T3_rec _ H)|]. apply in_combine_l in H. apply In_zrange in H. lia.
    - intros (H & E & _). apply in_map_iff in H. destruct H as ([x' [v' c']] & Ex & H). cbn [fst] in Ex. subst x'. apply filter_In in H. destruct H as [H B]. cbn [snd] in B. apply box_eqb_eq in B. subst c'. pose proof (num_T3_rec _ H) as K. cbn [fst snd] in K. congruence.
  Qed.
  Lemma num_holds : forall c x, In x (pos c) -> exists l, tlookup Q c = Some l /\ In (rec_of r x) l.
  Proof.
    intros c x H. apply in_map_iff in H. destruct H as ([x' [v' c']] & Ex & H). cbn [fst] in Ex. subst x'. apply filter_In in H. destruct H as [H B]. cbn [snd] in B. apply box_eqb_eq in B. subst c'.
    pose proof (num_T3_rec _ H) as K. cbn [fst snd] in K. rewrite K. apply in_combine_r in H. apply (Permutation_in _ (Permutation_sym P)) in H. apply tag_In in H; [exact H|apply W].
  Qed.
  Lemma num_values : forall c l, tlookup Q c = Some l -> map (rec_of r) (pos c) = l.
  Proof.
    intros c l H. unfold pos. rewrite map_map. rewrite (map_ext_in _ (fun x => fst (snd x))) by (intros x Hx; apply filter_In in Hx; apply num_T3_rec; apply Hx).
    rewrite <- (map_map snd fst). rewrite (filter_snd _ _ (fun y => box_eqb c (snd y)) T3), num_T3_snd. apply sorted_sort_eq.
    - apply (sorted_map _ _ tle Z.le); [intros x y [K|[K _]]; lia|]. apply sorted_filter. exact SO.
    - eapply wf_lookup; eassumption.
    - pose proof (Permutation_map fst (Permutation_filter _ (fun y : Z * box => box_eqb c (snd y)) _ _ P)) as K. rewrite (tag_cell Q c l (proj1 W) H) in K. rewrite map_map in K. cbn [fst] in K. rewrite map_id in K. apply Permutation_sym. exact K.
  Qed.
  Lemma num_rename : rename (rec_of r) q = Q.
  Proof.
    apply tab_ext; [exact (eq_ind_r (fun l => StronglySorted before l) num_sorted (rename_keys (rec_of r) q))|apply W|]. intro c. rewrite tlookup_rename, num_lookup. destruct (tlookup Q c) as [l|] eqn:E; [|reflexivity]. cbn [option_map]. f_equal. apply num_values. exact E.
  Qed.
  Lemma num_tag : Permutation (tag q) (combine (zrange 1 (zlen r + 1)) D).
  Proof.
    assert (E : combine (zrange 1 (zlen r + 1)) D = map (fun x => (fst x, snd (snd x))) T3).
    { replace (zlen r) with (zlen ST) by (unfold zlen, r; rewrite map_length; reflexivity). unfold D, T3. generalize (zrange 1 (zlen ST + 1)). clear. intro l. revert ST. induction l as [|n l IH]; intros [|x s]; try reflexivity. cbn [combine map fst snd]. rewrite IH. reflexivity. }
    rewrite E. set (M := map (fun x => (fst x, snd (snd x))) T3).
    assert (F : tag q = flat_map (fun c => filter (fun x => box_eqb c (snd x)) M) (map fst Q)).
    { assert (G : forall c, map (fun v => (v, c)) (pos c) = filter (fun x => box_eqb c (snd x)) M).
      { intro c. unfold pos, M. rewrite map_map. clear. induction T3 as [|[n [v d]] t IH]; [reflexivity|]. cbn [map filter fst snd]. destruct (box_eqb c d) eqn:E; [|exact IH]. cbn [map fst]. rewrite IH. apply box_eqb_eq in E. subst d. reflexivity. }
      unfold tag, q. clear -G. induction Q as [|[c l] t IH]; [reflexivity|]. cbn [map flat_map fst snd]. rewrite G, IH. reflexivity. }
    rewrite F. apply split_cells; [apply sorted_NoDup; apply W|]. intros x H. unfold M in H. apply in_map_iff in H. destruct H as ([n [v d]] & <- & H). cbn [snd]. apply in_combine_r in H. apply (Permutation_in _ (Permutation_sym P)) in H. apply tag_In in H; [|apply W].
    destruct H as (l & H & _). apply tlookup_In in H. apply in_map_iff. exists (d, l). split; [reflexivity|exact H].
  Qed.

  (* further right in a row, further down in a column *)
  Lemma ss_row : forall n i j j' l m x y, j' = j + Z.of_nat n -> tlookup Q (i, j) = Some l -> tlookup Q (i, j') = Some m -> In x l -> In y m -> (n = O -> x = y) -> x <= y.
  Proof.
    induction n as [|n IH]; intros i j j' l m x y E Hl Hm Hx Hy E0; [rewrite E0; [lia|reflexivity]|]. destruct SS as (S1 & S2 & S3).
    apply (holds_lookup Q _ _ _ W) in Hl, Hm. assert (CC : cell Q i (j + 1)). { destruct (SQ i j' (ex_intro _ m Hm)) as (A & B & C). apply C; [lia|]. destruct (SQ i j (ex_intro _ l Hl)). lia. }
    destruct CC as [l' Hl']. destruct n as [|n].
    - replace j' with (j + 1) in Hm by lia. exact (S2 _ _ _ _ _ _ Hl Hm Hx Hy).
    - destruct l' as [|z l0]; [exfalso; apply (S1 _ _ _ Hl'); reflexivity|]. specialize (S2 _ _ _ _ x z Hl Hl' Hx (or_introl eq_refl)).
      specialize (IH i (j + 1) j' (z :: l0) m z y ltac:(lia)). rewrite <- !(holds_lookup Q _ _ _ W) in IH. specialize (IH Hl' Hm (or_introl eq_refl) Hy ltac:(discriminate)). lia.
  Qed.
  Lemma ss_col : forall n i i' j l m x y, i' = i + Z.of_nat (Datatypes.S n) -> tlookup Q (i, j) = Some l -> tlookup Q (i', j) = Some m -> In x l -> In y m -> x < y.
  Proof.
    induction n as [|n IH]; intros i i' j l m x y E Hl Hm Hx Hy; destruct SS as (S1 & S2 & S3); apply (holds_lookup Q _ _ _ W) in Hl, Hm.
    - replace i' with (i + 1) in Hm by lia. exact (S3 _ _ _ _ _ _ Hl Hm Hx Hy).
    - assert (CC : cell Q (i + 1) j). { destruct (SQ i' j (ex_intro _ m Hm)) as (A & B & C). apply C; [|lia]. destruct (SQ i j (ex_intro _ l Hl)). lia. }
      destruct CC as [l' Hl']. destruct l' as [|z l0]; [exfalso; apply (S1 _ _ _ Hl'); reflexivity|]. specialize (S3 _ _ _ _ x z Hl Hl' Hx (or_introl eq_refl)).
      specialize (IH (i + 1) i' j (z :: l0) m z y ltac:(lia)). rewrite <- !(holds_lookup Q _ _ _ W) in IH. specialize (IH Hl' Hm (or_introl eq_refl) Hy). lia.
  Qed.
  Lemma ss_below : forall i j i' j' l m x y, tlookup Q (i, j) = Some l -> tlookup Q (i', j') = Some m -> In x l -> In y m -> i < i' -> j <= j' -> x < y.
  Proof.
    intros i j i' j' l m x y Hl Hm Hx Hy Hi Hj. destruct (Z.eq_dec j j') as [E|E].
    - subst j'. apply (ss_col (Z.to_nat (i' - i - 1)) i i' j l m); try assumption. lia.
    - assert (CC : cell Q i' j). { apply (holds_lookup Q _ _ _ W) in Hl, Hm. destruct (SQ i' j' (ex_intro _ m Hm)) as (A & B & C). apply C; [lia|]. destruct (SQ i j (ex_intro _ l Hl)). lia. }
      destruct CC as [l' Hl']. destruct l' as [|z l0]; [exfalso; apply (proj1 SS _ _ _ Hl'); reflexivity|]. apply (holds_lookup Q _ _ _ W) in Hl'.
      pose proof (ss_col (Z.to_nat (i' - i - 1)) i i' j l _ x z ltac:(lia) Hl Hl' Hx (or_introl eq_refl)). pose proof (ss_row (Z.to_nat (j' - j)) i' j j' _ m z y ltac:(lia) Hl' Hm (or_introl eq_refl) Hy ltac:(lia)). lia.
  Qed.
  Lemma num_below : StronglySorted rec_below (combine r D).
  Proof.
    assert (E : combine r D = ST). { unfold r, D. clear. induction ST as [|[v c] t IH]; [reflexivity|]. cbn [map combine fst snd]. rewrite IH. reflexivity. }
    rewrite E. assert (IN : forall x, In x ST -> In x (tag Q)) by (intros x; apply Permutation_in; apply Permutation_sym; exact P). clear -SO IN W SS SQ. induction SO as [|x l S IH F]; [constructor|]. constructor; [apply IH; [exact S|]; intros; apply IN; right; assumption|].
    rewrite Forall_forall in *. intros y Hy. pose proof (IN x (or_introl eq_refl)) as Hx. pose proof (IN y (or_intror Hy)) as Hy'. destruct (F y Hy) as [K|[K1 K2]]; [left; exact K|right; split; [exact K1|]]. unfold weakly_right.
    destruct (Z_lt_ge_dec (snd (snd x)) (snd (snd y))) as [|G]; [left; assumption|right]. destruct x as [v [i j]]. destruct y as [v' [i' j']]. cbn [fst snd] in *. subst v'. assert (j' = j) by lia. subst j'. f_equal.
    apply tag_In in Hx; [|apply W]. apply tag_In in Hy'; [|apply W]. destruct Hx as (l1 & A1 & A2). destruct Hy' as (l2 & B1 & B2).
    destruct (Z_lt_ge_dec i i') as [C|C]; [pose proof (ss_below i j i' j l1 l2 v v A1 B1 A2 B2 C ltac:(lia)); lia|].
    destruct (Z_lt_ge_dec i' i) as [C'|C']; [pose proof (ss_below i' j i j l2 l1 v v B1 A1 B2 A2 C' ltac:(lia)); lia|lia].
  Qed.
  Lemma num_standard : standard_setvalued (zlen r) q.
  Proof.
    assert (LU : forall i j l, holds q i j l <-> (exists m, holds Q i j m) /\ l = pos (i, j)).
    { intros i j l. rewrite (holds_lookup q i j l num_wf), num_lookup. split.
      - destruct (tlookup Q (i, j)) as [m|] eqn:E; [|discriminate]. intro K. injection K as <-. split; [exists m; apply holds_lookup; assumption|reflexivity].
      - intros [[m H] ->]. apply (holds_lookup Q i j m W) in H. rewrite H. reflexivity. }
    assert (CC : forall i j, cell q i j <-> cell Q i j). { intros i j. split; [intros [l H]; apply LU in H; apply H|]. intros [m H]. exists (pos (i, j)). apply LU. split; [exists m; exact H|reflexivity]. }
    assert (FP : Permutation (flat_map snd q) (zrange 1 (zlen r + 1))).
    { rewrite <- flat_tag. eapply Permutation_trans; [apply Permutation_map; apply num_tag|]. rewrite fst_combine; [apply Permutation_refl|]. rewrite length_zrange. unfold zlen, r, D. rewrite !map_length. lia. }
    assert (OR : forall c c' x y, In x (pos c) -> In y (pos c') -> c <> c' -> ~ tle (rec_of r y, c') (rec_of r x, c) -> x < y).
    { intros c c' x y Hx Hy N K. assert (Rg : forall z e, In z (pos e) -> In (z, (rec_of r z, e)) T3).
      { intros z e Hz. apply num_In. split; [exact Hz|]. split; [reflexivity|]. unfold pos in Hz. apply in_map_iff in Hz. destruct Hz as ([z' [v' e']] & <- & Hz). apply filter_In in Hz. destruct Hz as [Hz _]. apply in_combine_l in Hz. apply In_zrange in Hz. cbn [fst]. lia. }
      destruct (sorted_cases _ _ _ _ _ num_T3_sorted (Rg x c Hx) (Rg y c' Hy)) as [[A _]|[A|[_ A]]]; cbn [fst snd] in *; [exact A|injection A as _ _ A; contradiction|contradiction]. }
    split; [|split; [|split; [|split; [|split]]]].
    - intros i j H. apply CC in H. destruct (SQ i j H) as (A & B & C). split; [exact A|]. split; [exact B|]. intros. apply CC. apply C; assumption.
    - intros i j l H. apply LU in H. destruct H as [[m H] ->]. intro K. apply (holds_lookup Q i j m W) in H. pose proof (num_values _ _ H) as V. rewrite K in V. cbn [map] in V. apply (holds_lookup Q i j m W) in H. apply (proj1 SS) in H. destruct H as [H _]. congruence.
    - apply (Permutation_NoDup (Permutation_sym FP)). apply NoDup_zrange.
    - intro x. split; intro H; [apply (Permutation_in _ FP) in H; apply In_zrange in H; lia|apply (Permutation_in _ (Permutation_sym FP)); apply In_zrange; lia].
    - intros i j l m x y Hl Hm Hx Hy. apply LU in Hl, Hm. destruct Hl as [[l' Hl] ->]. destruct Hm as [[m' Hm] ->]. apply (OR (i, j) (i, j + 1)); [exact Hx|exact Hy|intro K; injection K; lia|].
      destruct (num_holds _ _ Hx) as (l1 & A1 & A2). destruct (num_holds _ _ Hy) as (l2 & B1 & B2). apply (holds_lookup Q _ _ _ W) in A1, B1. pose proof (proj1 (proj2 SS) _ _ _ _ _ _ A1 B1 A2 B2). unfold tle. cbn [fst snd]. lia.
    - intros i j l m x y Hl Hm Hx Hy. apply LU in Hl, Hm. destruct Hl as [[l' Hl] ->]. destruct Hm as [[m' Hm] ->]. apply (OR (i, j) (i + 1, j)); [exact Hx|exact Hy|intro K; injection K; lia|].
      destruct (num_holds _ _ Hx) as (l1 & A1 & A2). destruct (num_holds _ _ Hy) as (l2 & B1 & B2). apply (holds_lookup Q _ _ _ W) in A1, B1. pose proof (proj2 (proj2 SS) _ _ _ _ _ _ A1 B1 A2 B2). unfold tle. cbn [fst snd]. lia.
  Qed.
  Lemma num_cells : forall i j, cell q i j <-> cell Q i j.
  Proof. intros i j. rewrite (cell_lookup q i j num_wf), (cell_lookup Q i j W), num_lookup. destruct (tlookup Q (i, j)); split; congruence. Qed.
  (* neighbours in the numbering *)
  Lemma num_next : forall n, (Datatypes.S n < length r)%nat -> nth n r 0 <= nth (Datatypes.S n) r 0 /\
    (nth n r 0 = nth (Datatypes.S n) r 0 -> ~ fst (nth n D (0, 0)) < fst (nth (Datatypes.S n) D (0, 0)) /\ (multi = false -> nth n D (0, 0) <> nth (Datatypes.S n) D (0, 0))).
  Proof.
    intros n Hn. assert (LS : length r = length ST) by apply map_length. rewrite LS in Hn.
    assert (E : forall m, nth m ST (0, (0, 0)) = (nth m r 0, nth m D (0, 0))). { intro m. unfold r, D. change 0 with (fst (0, (0, 0)) : Z) at 4. rewrite map_nth. change (0, 0) with (snd (0, (0, 0)) : box) at 3. rewrite map_nth. destruct (nth m ST (0, (0, 0))); reflexivity. }
    pose proof (sorted_nth _ tle (0, (0, 0)) ST SO n (Datatypes.S n) ltac:(lia) Hn) as K. rewrite !E in K.
    pose proof (nth_In ST (0, (0, 0)) Hn) as I2. pose proof (nth_In ST (0, (0, 0)) (n := n) ltac:(lia)) as I1. rewrite E in I1, I2.
    apply (Permutation_in _ (Permutation_sym P)) in I1, I2. apply tag_In in I1; [|apply W]. apply tag_In in I2; [|apply W]. destruct I1 as (l1 & A1 & A2). destruct I2 as (l2 & B1 & B2).
    unfold tle in K. cbn [fst snd] in K. split; [lia|]. intro Ev. split.
    - intro Hlt. destruct (nth n D (0, 0)) as [i j]. destruct (nth (Datatypes.S n) D (0, 0)) as [i' j']. cbn [fst snd] in *. pose proof (ss_below i j i' j' l1 l2 _ _ A1 B1 A2 B2 Hlt ltac:(lia)). lia.
    - intros Em Ec. assert (ND : NoDup l1). { destruct (nth n D (0, 0)) as [i j]. apply (holds_lookup Q _ _ _ W) in A1. apply (proj1 SS) in A1. destruct A1 as [_ [A1|A1]]; [congruence|exact A1]. }
      set (c := nth n D (0, 0)) in *. pose proof (Permutation_filter _ (fun y : Z * box => box_eqb c (snd y)) _ _ P) as PF. rewrite (tag_cell Q c l1 (proj1 W) A1) in PF. apply (Permutation_map fst) in PF. rewrite map_map in PF. cbn [fst] in PF. rewrite map_id in PF.
      apply (Permutation_NoDup PF) in ND. clear PF.
      assert (SP : exists s1 s2, ST = s1 ++ nth n ST (0, (0, 0)) :: nth (Datatypes.S n) ST (0, (0, 0)) :: s2).
      { clear -Hn. revert n Hn. induction ST as [|x t IH]; intros n Hn; cbn [length] in Hn; [lia|]. destruct n as [|n].
        - destruct t as [|y t]; [cbn [length] in Hn; lia|]. exists [], t. reflexivity.
        - destruct (IH n ltac:(lia)) as (s1 & s2 & Es). exists (x :: s1), s2. cbn [nth app]. rewrite Es at 1. reflexivity. }
      destruct SP as (s1 & s2 & Es). rewrite !E in Es. rewrite <- Ec in Es. fold c in Es. rewrite Es in ND. rewrite filter_app in ND. cbn [filter snd] in ND. rewrite box_eqb_refl in ND. rewrite map_app in ND. cbn [map fst] in ND. apply NoDup_app_r in ND || (apply NoDup_remove_2 in ND).
      rewrite Ev in ND. clear -ND. try (inversion ND as [|? ? N1 N2]; subst; apply N1; left; reflexivity); try (apply ND; apply in_app_iff; right; left; reflexivity).
  Qed.
End Number.
