(* Filling a set of cells label by label: the engine behind KOG and KLG. *)
From Coq Require Import List ZArith Lia Bool Permutation.
From Verif Require Import PyBase L_PartEnum M_Tableaux L_Tableaux M_Rims L_Rims2 M_KOG.
Import ListNotations.
Local Open Scope Z_scope.

Definition graph (F : box -> Z) (l : list box) : list fcell := map (fun x => (x, F x)) l.
Lemma graph_In : forall F l x a, In (x, a) (graph F l) <-> In x l /\ a = F x.
Proof. intros F l x a. unfold graph. rewrite in_map_iff. split; [intros (y & E & H); injection E as -> <-; tauto|intros [H ->]; exists x; tauto]. Qed.

Lemma subsets_In : forall s l S, In S (subsets_from s l) <-> sublist S l /\ (s <= length S)%nat.
Proof.
  intros s l S. unfold subsets_from. rewrite in_flat_map. split.
  - intros (k & Hk & H). apply in_seq in Hk. apply combinations_sublist in H. destruct H as [H1 H2]. split; [exact H2|lia].
  - intros [H1 H2]. exists (length S). split; [apply in_seq; pose proof (sublist_length _ _ _ H1); lia|]. apply combinations_sublist. tauto.
Qed.
Lemma subsets_NoDup : forall s l, NoDup l -> NoDup (subsets_from s l).
Proof.
  intros s l H. unfold subsets_from. apply NoDup_flat_map; [apply seq_NoDup|intros; apply combinations_NoDup; exact H|]. intros x y b _ _ H1 H2. apply combinations_sublist in H1, H2. destruct H1, H2. congruence.
Qed.
Lemma sublist_nodup : forall A (l s : list A), NoDup l -> sublist s l -> NoDup s.
Proof.
  induction l as [|a l IH]; intros s N H; cbn [sublist] in H; [subst; constructor|]. inversion N as [|? ? N1 N2]; subst. destruct H as [H|(s' & -> & H)]; [apply IH; assumption|]. constructor; [|apply IH; assumption]. intro K. apply N1. apply (sublist_incl _ _ _ H). exact K.
Qed.
Lemma binsert_perm : forall x l, Permutation (binsert x l) (x :: l).
Proof. intros x. induction l as [|y l IH]; cbn [binsert]; [apply Permutation_refl|]. destruct (box_ltb y x); [|apply Permutation_refl]. eapply Permutation_trans; [apply perm_skip; exact IH|]. apply perm_swap. Qed.
Lemma bsort_perm : forall l, Permutation (bsort l) l.
Proof. induction l as [|x l IH]; [apply Permutation_refl|]. unfold bsort in *. cbn [fold_right]. eapply Permutation_trans; [apply binsert_perm|]. apply perm_skip. exact IH. Qed.

Lemma nodup_app_r : forall A (a b : list A), NoDup (a ++ b) -> NoDup b.
Proof. induction a as [|x a IH]; intros b H; [exact H|]. inversion H; subst. apply IH. assumption. Qed.
(* the value of a cell *)
Fixpoint lk (c : list fcell) (x : box) : Z :=
  match c with
  | [] => 0
  | (y, a) :: c' => if box_eqb y x then a else lk c' x
  end.
Lemma lk_In : forall c x a, NoDup (map fst c) -> In (x, a) c -> lk c x = a.
Proof.
  induction c as [|[y b] c IH]; intros x a N H; [destruct H|]. cbn [lk map fst] in *. inversion N as [|? ? N1 N2]; subst. destruct H as [E|H].
  - injection E as -> ->. rewrite box_eqb_refl. reflexivity.
  - destruct (box_eqb y x) eqn:E; [|apply IH; assumption]. apply box_eqb_eq in E. subst y. exfalso. apply N1. apply in_map_iff. exists (x, a). tauto.
Qed.
Lemma map_ext_inv : forall A B (f g : A -> B) l x, map f l = map g l -> In x l -> f x = g x.
Proof. intros A B f g. induction l as [|y l IH]; intros x E H; [destruct H|]. cbn in E. injection E as E1 E2. destruct H as [<-|H]; [exact E1|apply IH; assumption]. Qed.

Section Peel.
  Variable cord : list box -> list box.
  Hypothesis cord_perm : forall l, Permutation (cord l) l.
  Variable crn : Z -> list fcell -> list box -> box -> bool.
  Variable skip : Z -> list fcell -> bool.
  Hypothesis crn_ext : forall n f1 f2 l1 l2 x, (forall c, In c f1 <-> In c f2) -> (forall y, In y l1 <-> In y l2) -> crn n f1 l1 x = crn n f2 l2 x.
  Hypothesis skip_ext : forall n f1 f2, (forall c, In c f1 <-> In c f2) -> skip n f1 = skip n f2.

  Fixpoint peel (ls : list Z) (filled : list fcell) (left : list box) : list (list fcell) :=
    match ls with
    | [] => match left with [] => [filled] | _ => [] end
    | n :: ls' => flat_map (fun S => peel ls' (fst (fill n filled left S)) (snd (fill n filled left S)))
        (subsets_from (if skip n filled then 0%nat else 1%nat) (cord (filter (crn n filled left) left)))
    end.

  Fixpoint valid (ls : list Z) (filled : list fcell) (left : list box) (F : box -> Z) : Prop :=
    match ls with
    | [] => forall x, ~ In x left
    | n :: ls' => (forall x, In x left -> F x = n -> crn n filled left x = true) /\ (skip n filled = true \/ exists x, In x left /\ F x = n) /\
        valid ls' (filled ++ graph F (filter (fun x => F x =? n) left)) (filter (fun x => negb (F x =? n)) left) F
    end.
  Lemma valid_ext : forall ls f1 f2 l1 l2 F, (forall c, In c f1 <-> In c f2) -> (forall y, In y l1 <-> In y l2) -> valid ls f1 l1 F -> valid ls f2 l2 F.
  Proof.
    induction ls as [|n ls IH]; intros f1 f2 l1 l2 F Hf Hl V; cbn [valid] in *; [intros x K; apply (V x), Hl; exact K|]. destruct V as (A & B & C). split; [|split].
    - intros x Hx E. rewrite <- (crn_ext n f1 f2 l1 l2 x Hf Hl). apply A; [apply Hl; exact Hx|exact E].
    - rewrite <- (skip_ext n f1 f2 Hf). destruct B as [B|(x & Hx & E)]; [left; exact B|right; exists x; split; [apply Hl; exact Hx|exact E]].
    - eapply IH; [| |exact C].
      + intros [x a]. rewrite !in_app_iff, !graph_In, !filter_In, Hf, Hl. tauto.
      + intro y. rewrite !filter_In, Hl. tauto.
  Qed.
  Lemma valid_labels : forall ls f l F, valid ls f l F -> forall x, In x l -> In (F x) ls.
  Proof.
    induction ls as [|n ls IH]; intros f l F V x Hx; cbn [valid] in V; [destruct (V x Hx)|]. destruct V as (_ & _ & V). destruct (Z.eq_dec (F x) n) as [E|E]; [left; congruence|]. right. apply (IH _ _ _ V). apply filter_In. split; [exact Hx|]. destruct (Z.eqb_spec (F x) n); [congruence|reflexivity].
  Qed.

  Variable cells : list box.
  Definition wordof (c : list fcell) : list Z := map (lk c) cells.

  Lemma peel_cells : forall ls filled left c, NoDup (map fst filled ++ left) -> Permutation (map fst filled ++ left) cells -> In c (peel ls filled left) -> Permutation (map fst c) cells /\ NoDup (map fst c).
  Proof.
    induction ls as [|n ls IH]; intros filled left c N P H; cbn [peel] in H.
    - destruct left; [|destruct H]. destruct H as [<-|[]]. rewrite app_nil_r in *. tauto.
    - apply in_flat_map in H. destruct H as (S & HS & H). apply subsets_In in HS. destruct HS as [HS _].
      assert (Nl : NoDup left) by (exact (nodup_app_r _ _ _ N)).
      assert (Nc : NoDup (cord (filter (crn n filled left) left))) by (eapply Permutation_NoDup; [apply Permutation_sym, cord_perm|apply NoDup_filter; exact Nl]).
      pose proof (sublist_nodup _ _ _ Nc HS) as NS.
      assert (IS : forall x, In x S -> In x left). { intros x Hx. apply (sublist_incl _ _ _ HS) in Hx. apply (Permutation_in x (cord_perm _)) in Hx. apply filter_In in Hx. tauto. }
      assert (PP : Permutation (S ++ filter (fun x => negb (bmem x S)) left) left).
      { apply NoDup_Permutation; [|exact Nl|].
        - apply NoDup_app_intro; [exact NS|apply NoDup_filter; exact Nl|]. intros x H1 H2. apply filter_In in H2. destruct H2 as [_ H2]. apply bmem_In in H1. rewrite H1 in H2. discriminate.
        - intro x. rewrite in_app_iff, filter_In. split; [intros [K|[K _]]; [apply IS; exact K|exact K]|]. intro K. destruct (bmem x S) eqn:E; [left; apply bmem_In; exact E|right; split; [exact K|reflexivity]]. }
      cbn [fill fst snd] in H.
      assert (Q : Permutation (map fst (filled ++ map (fun ij => (ij, n)) S) ++ bsort (filter (fun x => negb (bmem x S)) left)) (map fst filled ++ left)).
      { rewrite map_app, map_map. cbn [fst]. rewrite map_id, <- app_assoc. apply Permutation_app_head. eapply Permutation_trans; [|exact PP]. apply Permutation_app_head. apply bsort_perm. }
      eapply IH; [| |exact H]; [eapply Permutation_NoDup; [apply Permutation_sym; exact Q|exact N]|eapply Permutation_trans; [exact Q|exact P]].
  Qed.

  Lemma peel_ok : forall ls filled left, NoDup ls -> NoDup (map fst filled ++ left) -> Permutation (map fst filled ++ left) cells ->
    NoDup (map wordof (peel ls filled left)) /\
    forall F, In (map F cells) (map wordof (peel ls filled left)) <-> (forall x a, In (x, a) filled -> F x = a) /\ valid ls filled left F.
  Proof.
    induction ls as [|n ls IH]; intros filled left NL N P.
    - cbn [peel valid]. destruct left as [|x0 left].
      + rewrite app_nil_r in *. split; [repeat constructor; cbn; tauto|]. intro F. cbn [map In]. split.
        * intros [E|[]]. split; [|intros x []]. intros x a H. unfold wordof in E. rewrite <- (lk_In filled x a N H). symmetry. apply (map_ext_inv _ _ _ _ cells x E). apply (Permutation_in x P). apply in_map_iff. exists (x, a). tauto.
        * intros [H _]. left. unfold wordof. apply map_ext_in. intros x Hx. apply (Permutation_in x (Permutation_sym P)) in Hx. apply in_map_iff in Hx. destruct Hx as ([y a] & <- & Hx). cbn [fst]. rewrite (lk_In filled y a N Hx). symmetry. apply H. exact Hx.
      + cbn [map]. split; [constructor|]. intro F. split; [intros []|]. intros [_ K]. destruct (K x0 (or_introl eq_refl)).
    - inversion NL as [|? ? NL1 NL2]; subst.
      assert (Nl : NoDup left) by (exact (nodup_app_r _ _ _ N)).
      set (cs := cord (filter (crn n filled left) left)).
      assert (Nc : NoDup cs) by (eapply Permutation_NoDup; [apply Permutation_sym, cord_perm|apply NoDup_filter; exact Nl]).
      assert (Ics : forall x, In x cs <-> In x left /\ crn n filled left x = true). { intro x. unfold cs. split; [intro K; apply (Permutation_in x (cord_perm _)) in K; apply filter_In in K; exact K|intro K; apply (Permutation_in x (Permutation_sym (cord_perm _))); apply filter_In; exact K]. }
      set (sub := subsets_from (if skip n filled then 0%nat else 1%nat) cs).
      (* what one choice yields *)
      assert (Step : forall S, In S sub -> let f' := fst (fill n filled left S) in let l' := snd (fill n filled left S) in
        NoDup (map wordof (peel ls f' l')) /\ forall F, In (map F cells) (map wordof (peel ls f' l')) <-> (forall x a, In (x, a) f' -> F x = a) /\ valid ls f' l' F).
      { intros S HS. apply subsets_In in HS. destruct HS as [HS _]. pose proof (sublist_nodup _ _ _ Nc HS) as NS.
        assert (IS : forall x, In x S -> In x left) by (intros x Hx; apply (sublist_incl _ _ _ HS) in Hx; apply Ics in Hx; tauto).
        assert (PP : Permutation (S ++ filter (fun x => negb (bmem x S)) left) left).
        { apply NoDup_Permutation; [|exact Nl|].
          - apply NoDup_app_intro; [exact NS|apply NoDup_filter; exact Nl|]. intros x H1 H2. apply filter_In in H2. destruct H2 as [_ H2]. apply bmem_In in H1. rewrite H1 in H2. discriminate.
          - intro x. rewrite in_app_iff, filter_In. split; [intros [K|[K _]]; [apply IS; exact K|exact K]|]. intro K. destruct (bmem x S) eqn:E; [left; apply bmem_In; exact E|right; split; [exact K|reflexivity]]. }
        cbn [fill fst snd]. cbv zeta.
        assert (Q : Permutation (map fst (filled ++ map (fun ij => (ij, n)) S) ++ bsort (filter (fun x => negb (bmem x S)) left)) (map fst filled ++ left)).
        { rewrite map_app, map_map. cbn [fst]. rewrite map_id, <- app_assoc. apply Permutation_app_head. eapply Permutation_trans; [|exact PP]. apply Permutation_app_head. apply bsort_perm. }
        apply IH; [exact NL2|eapply Permutation_NoDup; [apply Permutation_sym; exact Q|exact N]|eapply Permutation_trans; [exact Q|exact P]]. }
      (* the chosen subset is the set of cells of this label *)
      assert (Key : forall S F, In S sub -> In (map F cells) (map wordof (peel ls (fst (fill n filled left S)) (snd (fill n filled left S)))) -> forall x, In x S <-> In x left /\ F x = n).
      { intros S F HS H x. apply Step in H; [|exact HS]. destruct H as [A V]. apply subsets_In in HS. destruct HS as [HS _]. cbn [fill fst snd] in A, V. split.
        - intro K. split; [apply (sublist_incl _ _ _ HS) in K; apply Ics in K; tauto|]. apply A. apply in_or_app. right. apply in_map_iff. exists x. tauto.
        - intros [K E]. destruct (bmem x S) eqn:B; [apply bmem_In; exact B|]. exfalso. apply NL1. rewrite <- E. apply (valid_labels _ _ _ _ V). apply bsort_In, filter_In. split; [exact K|]. rewrite B. reflexivity. }
      cbn [peel]. fold cs sub. rewrite flat_map_concat_map, concat_map, map_map, <- flat_map_concat_map. split.
      + apply NoDup_flat_map; [apply subsets_NoDup; exact Nc|intros S HS; apply (Step S HS)|]. intros S T w HS HT H1 H2.
        assert (EW : exists F, w = map F cells). { apply in_map_iff in H1. destruct H1 as (c & <- & _). exists (lk c). reflexivity. } destruct EW as [F ->].
        pose proof (Key S F HS H1) as K1. pose proof (Key T F HT H2) as K2. apply subsets_In in HS, HT. apply (sublist_ext _ cs); [exact Nc|apply HS|apply HT|]. intro x. rewrite K1, K2. tauto.
      + intro F. rewrite in_flat_map. cbn [valid]. split.
        * intros (S & HS & H). pose proof (Key S F HS H) as K. apply Step in H; [|exact HS]. destruct H as [A V]. apply subsets_In in HS. destruct HS as [HS Hl]. cbn [fill fst snd] in A, V. split; [intros x a Hx; apply A; apply in_or_app; left; exact Hx|]. split; [|split].
          -- intros x Hx E. apply Ics. apply (sublist_incl _ _ _ HS). apply K. tauto.
          -- destruct (skip n filled); [left; reflexivity|]. right. destruct S as [|x S]; [cbn in Hl; lia|]. exists x. apply K. left. reflexivity.
          -- eapply valid_ext; [| |exact V].
             ++ intros [x a]. rewrite !in_app_iff, graph_In, in_map_iff, filter_In, Z.eqb_eq. split; (intros [H|H]; [left; exact H|right]).
                ** destruct H as (y & E & H). injection E as -> <-. apply K in H. split; [exact H|symmetry; apply H].
                ** destruct H as [H ->]. exists x. split; [f_equal; symmetry; apply H|apply K; exact H].
             ++ intro y. rewrite bsort_In, !filter_In, !negb_true_iff, Z.eqb_neq. split; intros [H1 H2]; (split; [exact H1|]).
                ** intro E. assert (X : In y S) by (apply K; tauto). apply bmem_In in X. congruence.
                ** apply not_true_is_false. intro X. apply bmem_In, K in X. tauto.
        * intros (A & B & C & V). exists (filter (fun x => F x =? n) cs). assert (HS : In (filter (fun x => F x =? n) cs) sub).
          { apply subsets_In. split; [apply sublist_filter|]. destruct (skip n filled); [lia|]. destruct C as [C|(x & Hx & E)]; [discriminate|]. assert (X : In x (filter (fun x => F x =? n) cs)) by (apply filter_In; split; [apply Ics; split; [exact Hx|apply B; assumption]|apply Z.eqb_eq; exact E]). destruct (filter _ cs); [destruct X|cbn; lia]. }
          assert (K : forall x, In x (filter (fun x => F x =? n) cs) <-> In x left /\ F x = n). { intro x. rewrite filter_In, Ics, Z.eqb_eq. split; [tauto|]. intros [H1 H2]. split; [split; [exact H1|apply B; assumption]|exact H2]. }
          split; [exact HS|]. apply Step; [exact HS|]. cbn [fill fst snd]. split.
          -- intros x a H. apply in_app_iff in H. destruct H as [H|H]; [apply A; exact H|]. apply in_map_iff in H. destruct H as (y & E & H). injection E as -> <-. apply K in H. apply H.
          -- eapply valid_ext; [| |exact V].
             ++ intros [x a]. rewrite !in_app_iff, graph_In, in_map_iff, filter_In, Z.eqb_eq. split; (intros [H|H]; [left; exact H|right]).
                ** destruct H as [H ->]. exists x. split; [f_equal; symmetry; apply H|apply K; exact H].
                ** destruct H as (y & E & H). injection E as -> <-. apply K in H. split; [exact H|symmetry; apply H].
             ++ intro y. rewrite bsort_In, !filter_In, !negb_true_iff, Z.eqb_neq. split; intros [H1 H2]; (split; [exact H1|]).
                ** apply not_true_is_false. intro X. apply bmem_In, K in X. tauto.
                ** intro E. assert (X : In y (filter (fun x => F x =? n) cs)) by (apply K; tauto). apply bmem_In in X. congruence.
  Qed.

  (* validity in closed form *)
  Definition inz (n : Z) (l : list Z) : bool := if in_dec Z.eq_dec n l then true else false.
  Lemma inz_In : forall n l, inz n l = true <-> In n l.
  Proof. intros n l. unfold inz. destruct (in_dec Z.eq_dec n l); split; intro; tauto || discriminate. Qed.
  Lemma valid_closed : forall ls f left F, NoDup ls -> (valid ls f left F <-> (forall x, In x left -> In (F x) ls) /\
    forall l1 n l2, ls = l1 ++ n :: l2 -> let f' := f ++ graph F (filter (fun x => inz (F x) l1) left) in
      (forall x, In x left -> F x = n -> crn n f' (filter (fun x => negb (inz (F x) l1)) left) x = true) /\ (skip n f' = true \/ exists x, In x left /\ F x = n)).
  Proof.
    induction ls as [|n ls IH]; intros f left F NL.
    - cbn [valid]. split; [intro H; split; [intros x Hx; destruct (H x Hx)|intros [|? ?] ? ? E; discriminate]|intros [H _] x Hx; destruct (H x Hx)].
    - inversion NL as [|? ? NL1 NL2]; subst. cbn [valid]. rewrite (IH _ _ _ NL2).
      assert (E1 : forall l1 c, In c ((f ++ graph F (filter (fun x => F x =? n) left)) ++ graph F (filter (fun x => inz (F x) l1) (filter (fun x => negb (F x =? n)) left))) <-> In c (f ++ graph F (filter (fun x => inz (F x) (n :: l1)) left))).
      { intros l1 [x a]. rewrite !in_app_iff, !graph_In, !filter_In, !inz_In, Z.eqb_eq, negb_true_iff, Z.eqb_neq. cbn [In]. destruct (Z.eq_dec (F x) n); intuition congruence. }
      assert (E2 : forall l1 y, In y (filter (fun x => negb (inz (F x) l1)) (filter (fun x => negb (F x =? n)) left)) <-> In y (filter (fun x => negb (inz (F x) (n :: l1))) left)).
      { intros l1 x. rewrite !filter_In, !negb_true_iff, <- !not_true_iff_false, !inz_In, Z.eqb_eq. cbn [In]. intuition congruence. }
      assert (E0 : forall c, In c (f ++ graph F (filter (fun x => inz (F x) []) left)) <-> In c f).
      { intros [x a]. rewrite in_app_iff, graph_In, filter_In, inz_In. cbn [In]. tauto. }
      assert (E0' : forall y, In y (filter (fun x => negb (inz (F x) [])) left) <-> In y left).
      { intro y. rewrite filter_In, negb_true_iff, <- not_true_iff_false, inz_In. cbn [In]. tauto. }
      split.
      + intros (A & B & C & D). split.
        * intros x Hx. destruct (Z.eq_dec (F x) n) as [E|E]; [left; congruence|right]. apply C. apply filter_In. split; [exact Hx|]. destruct (Z.eqb_spec (F x) n); [congruence|reflexivity].
        * intros [|m l1] k l2 E; cbn [app] in E.
          -- injection E as <- <-. cbv zeta. split; [intros x Hx Ex; rewrite (crn_ext n _ f _ left x E0 E0'); apply A; assumption|]. rewrite (skip_ext n _ f E0). exact B.
          -- injection E as -> ->. specialize (D l1 k l2 eq_refl). cbv zeta in *. destruct D as [D1 D2]. split.
             ++ intros x Hx Ex. rewrite <- (crn_ext k _ _ _ _ x (E1 l1) (E2 l1)). apply D1; [|exact Ex]. apply filter_In. split; [exact Hx|]. rewrite negb_true_iff, Z.eqb_neq. intro Q. apply NL1. rewrite <- Q, Ex. apply in_or_app. right. left. reflexivity.
             ++ rewrite <- (skip_ext k _ _ (E1 l1)). destruct D2 as [D2|(x & Hx & Ex)]; [left; exact D2|right; exists x; split; [apply filter_In in Hx; tauto|exact Ex]].
      + intros [A D]. split; [|split; [|split]].
        * intros x Hx Ex. destruct (D [] n ls eq_refl) as [D1 _]. cbv zeta in D1. specialize (D1 x Hx Ex). rewrite (crn_ext n _ f _ left x E0 E0') in D1. exact D1.
        * destruct (D [] n ls eq_refl) as [_ D2]. cbv zeta in D2. rewrite (skip_ext n _ f E0) in D2. exact D2.
        * intros x Hx. apply filter_In in Hx. destruct Hx as [Hx E]. destruct (A x Hx) as [Q|Q]; [rewrite <- Q, Z.eqb_refl in E; discriminate|exact Q].
        * intros l1 k l2 E. cbv zeta. destruct (D (n :: l1) k l2) as [D1 D2]; [cbn [app]; congruence|]. cbv zeta in *. split.
          -- intros x Hx Ex. rewrite (crn_ext k _ _ _ _ x (E1 l1) (E2 l1)). apply D1; [apply filter_In in Hx; tauto|exact Ex].
          -- rewrite (skip_ext k _ _ (E1 l1)). destruct D2 as [D2|(x & Hx & Ex)]; [left; exact D2|right; exists x; split; [|exact Ex]]. apply filter_In. split; [exact Hx|]. rewrite negb_true_iff, Z.eqb_neq. intro Q. apply NL1. rewrite <- Q, Ex, E. apply in_or_app. right. left. reflexivity.
  Qed.
End Peel.
