(* Tableaux as predicates; adding one letter to a set of cells *)
From Coq Require Import List ZArith Lia Bool Permutation Sorted.
From Verif Require Import PyBase M_Partitions S_Partitions L_Partitions M_Tableaux S_Tableaux L_Tableaux M_Strips S_Strips L_Strips L_Strips2
  M_Semistandard S_Semistandard L_Fill L_Shape.
Import ListNotations.
Local Open Scope Z_scope.

Definition Hd (T : tab) (b : box) (x : Z) : Prop := holds T (fst b) (snd b) x.
Definition proper (T : tab) : Prop := well_formed T /\ forall b l, In (b, l) T -> l <> [] /\ NoDup l.

Lemma Hd_entries : forall T b x, well_formed T -> (Hd T b x <-> In x (entries T b)).
Proof.
  intros T [i j] x W. unfold Hd, holds, entries. cbn [fst snd]. split.
  - intros (l & H1 & H2). rewrite (In_tlookup _ _ _ (proj1 W) H1). assumption.
  - destruct (tlookup T (i, j)) as [l|] eqn:E; [|intros []]. intro H. exists l. split; [apply tlookup_In; assumption|assumption].
Qed.

Lemma Hd_dec : forall T b x, well_formed T -> Hd T b x \/ ~ Hd T b x.
Proof. intros T b x W. rewrite Hd_entries by assumption. destruct (in_dec Z.eq_dec x (entries T b)); [left|right]; assumption. Qed.

Lemma increasing_set_eq : forall a b, increasing a -> increasing b -> NoDup a -> NoDup b -> (forall x, In x a <-> In x b) -> a = b.
Proof. intros. apply increasing_perm_eq; [assumption|assumption|]. apply NoDup_Permutation; assumption. Qed.

Lemma proper_ext : forall T U, proper T -> proper U -> (forall b x, Hd T b x <-> Hd U b x) -> T = U.
Proof.
  intros T U [WT PT] [WU PU] H. apply wf_ext; [assumption|assumption|]. intro c.
  assert (E : forall x, In x (entries T c) <-> In x (entries U c)) by (intro x; rewrite <- !Hd_entries by assumption; apply H).
  unfold entries in E. destruct (tlookup T c) as [l|] eqn:ET, (tlookup U c) as [m|] eqn:EU.
  - f_equal. pose proof (wf_lookup _ _ _ WT ET) as [_ I1]. pose proof (wf_lookup _ _ _ WU EU) as [_ I2]. apply tlookup_In in ET, EU.
    apply increasing_set_eq; [assumption|assumption|apply (PT c l); assumption|apply (PU c m); assumption|assumption].
  - exfalso. apply tlookup_In in ET. destruct (PT c l ET) as [N _]. destruct l as [|x l]; [apply N; reflexivity|]. apply (proj1 (E x)). left. reflexivity.
  - exfalso. apply tlookup_In in EU. destruct (PU c m EU) as [N _]. destruct m as [|x m]; [apply N; reflexivity|]. apply (proj2 (E x)). left. reflexivity.
  - reflexivity.
Qed.

(* adding one letter to every cell of a list *)
Definition addv (v : Z) (A : list box) (T : tab) : tab := fold_left (fun T b => tput b (sinsert v (entries T b)) T) A T.

Lemma add_all_ok : forall A v T, well_formed T -> (forall b, In b A -> positive b) -> add_all A v T = Ok (addv v A T) /\ well_formed (addv v A T).
Proof.
  induction A as [|[i j] A IH]; intros v T W P; [split; [reflexivity|assumption]|]. unfold add_all, addv. cbn [rfold fold_left fst snd].
  destruct (P (i, j) (or_introl eq_refl)) as [P1 P2]. cbn [fst snd] in P1, P2. rewrite tadd_int by assumption. cbn [rbind].
  apply IH; [|intros b Hb; apply P; right; assumption]. apply tput_wf; [assumption|split; assumption|]. apply sinsert_increasing.
  unfold entries. destruct (tlookup T (i, j)) eqn:E; [apply (wf_lookup _ _ _ W) in E; tauto|constructor].
Qed.

Lemma entries_tput : forall c v T b, well_formed T -> entries (tput c v T) b = if box_eqb c b then v else entries T b.
Proof. intros c v T b W. unfold entries. rewrite tlookup_tput by apply W. destruct (box_eqb c b); reflexivity. Qed.

Lemma sinsert_In : forall x l y, In y (sinsert x l) <-> y = x \/ In y l.
Proof.
  intros x l y. split; intro H.
  - apply (Permutation_in _ (Permutation_sym (sinsert_perm x l))) in H. destruct H; [left; congruence|right; assumption].
  - apply (Permutation_in _ (sinsert_perm x l)). destruct H; [left; congruence|right; assumption].
Qed.

Lemma put_letter : forall T b v, proper T -> positive b -> ~ Hd T b v ->
  let U := tput b (sinsert v (entries T b)) T in
  proper U /\ forall c x, Hd U c x <-> Hd T c x \/ (x = v /\ c = b).
Proof.
  intros T b v [W P] Pb N U.
  assert (Ie : increasing (entries T b)) by (unfold entries; destruct (tlookup T b) eqn:E; [apply (wf_lookup _ _ _ W) in E; tauto|constructor]).
  assert (Ne : NoDup (entries T b)) by (unfold entries; destruct (tlookup T b) eqn:E; [apply tlookup_In in E; apply P in E; tauto|constructor]).
  assert (WU : well_formed U) by (apply tput_wf; [assumption|assumption|apply sinsert_increasing; assumption]).
  split.
  - split; [assumption|]. intros c l H. apply (In_tlookup _ _ _ (proj1 WU)) in H. unfold U in H. rewrite tlookup_tput in H by apply W.
    destruct (box_eqb b c) eqn:E.
    + injection H as <-. split.
      * intro C. assert (X : In v (sinsert v (entries T b))) by (apply sinsert_In; left; reflexivity). rewrite C in X. destruct X.
      * apply (Permutation_NoDup (sinsert_perm v (entries T b))). constructor; [|assumption]. rewrite <- Hd_entries by assumption. assumption.
    + apply tlookup_In in H. apply (P c l). assumption.
  - intros c x. rewrite !Hd_entries by assumption. unfold U. rewrite entries_tput by assumption. destruct (box_eqb b c) eqn:E.
    + apply box_eqb_eq in E. subst c. rewrite sinsert_In. tauto.
    + apply box_eqb_neq in E. split; [left; assumption|]. intros [H|[_ H]]; [assumption|]. congruence.
Qed.

Lemma addv_spec : forall A v T, proper T -> NoDup A -> (forall b, In b A -> positive b /\ ~ Hd T b v) ->
  proper (addv v A T) /\ forall c x, Hd (addv v A T) c x <-> Hd T c x \/ (x = v /\ In c A).
Proof.
  induction A as [|b A IH]; intros v T HP N H; [split; [assumption|]; intros c x; cbn; tauto|].
  unfold addv. cbn [fold_left]. destruct (H b (or_introl eq_refl)) as [Pb Nb]. destruct (put_letter T b v HP Pb Nb) as [PU HU].
  inversion N as [|? ? N1 N2]; subst.
  destruct (IH v _ PU N2) as [P2 H2].
  { intros c Hc. destruct (H c (or_intror Hc)) as [Pc Nc]. split; [assumption|]. rewrite HU. intros [X|[_ X]]; [contradiction|]. subst. contradiction. }
  split; [exact P2|]. intros c x. fold (addv v A (tput b (sinsert v (entries T b)) T)). rewrite H2, HU. cbn [In]. intuition congruence.
Qed.

Lemma addv_app : forall A B v T, addv v (A ++ B) T = addv v B (addv v A T).
Proof. intros. unfold addv. apply fold_left_app. Qed.

(* the order in which the cells are visited does not matter *)
Lemma addv_perm : forall A B v T, proper T -> NoDup A -> (forall b, In b A -> positive b /\ ~ Hd T b v) -> Permutation A B -> addv v A T = addv v B T.
Proof.
  intros A B v T HP N H P.
  destruct (addv_spec A v T HP N H) as [PA HA]. destruct (addv_spec B v T HP (Permutation_NoDup P N)) as [PB HB].
  { intros b Hb. apply H. apply (Permutation_in _ (Permutation_sym P)). assumption. }
  apply proper_ext; [assumption|assumption|]. intros b x. rewrite HA, HB. split; (intros [X|[X Y]]; [left; assumption|right; split; [assumption|]]).
  - apply (Permutation_in _ P). assumption.
  - apply (Permutation_in _ (Permutation_sym P)). assumption.
Qed.

(* two different letters can be added in either order *)
Lemma addv_comm : forall A B v w T, v <> w -> proper T -> NoDup A -> NoDup B ->
  (forall b, In b A -> positive b /\ ~ Hd T b v) -> (forall b, In b B -> positive b /\ ~ Hd T b w) ->
  addv v A (addv w B T) = addv w B (addv v A T).
Proof.
  intros A B v w T E HP NA NB HA HB.
  destruct (addv_spec A v T HP NA HA) as [P1 H1]. destruct (addv_spec B w T HP NB HB) as [P2 H2].
  destruct (addv_spec A v _ P2 NA) as [P3 H3]; [intros b Hb; split; [apply HA; assumption|]; rewrite H2; intros [X|[X _]]; [apply HA in X; assumption|congruence]|].
  destruct (addv_spec B w _ P1 NB) as [P4 H4]; [intros b Hb; split; [apply HB; assumption|]; rewrite H1; intros [X|[X _]]; [apply HB in X; assumption|congruence]|].
  apply proper_ext; [assumption|assumption|]. intros c x. rewrite H3, H4, H1, H2. tauto.
Qed.

(* letters *)
Lemma dbl_cases : forall x, (0 < x /\ dbl x = 2 * x) \/ (x <= 0 /\ dbl x = -1 - 2 * x).
Proof. intro x. unfold dbl. destruct (0 <? x) eqn:E; [apply Z.ltb_lt in E; left|apply Z.ltb_ge in E; right]; lia. Qed.
Definition letters (k : Z) (x : Z) : Prop := 1 <= dbl x <= k.
Definition letter (k : Z) : Z := if Z.even k then k / 2 else - ((k + 1) / 2).
Lemma letter_even : forall n, letter (2 * n) = n.
Proof. intro n. unfold letter. rewrite Z.even_mul. cbn [Z.even orb]. rewrite Z.mul_comm, Z.div_mul; lia. Qed.
Lemma letter_odd : forall n, letter (2 * n - 1) = - n.
Proof.
  intro n. unfold letter. replace (2 * n - 1) with (2 * (n - 1) + 1) by lia. rewrite Z.even_add, Z.even_mul. cbn [Z.even orb Bool.eqb].
  replace (2 * (n - 1) + 1 + 1) with (n * 2) by lia. rewrite Z.div_mul by lia. reflexivity.
Qed.
Lemma dbl_letter : forall k, 1 <= k -> dbl (letter k) = k.
Proof.
  intros k H. destruct (Z.Even_or_Odd k) as [[n ->]|[n ->]].
  - rewrite letter_even. destruct (dbl_cases n); lia.
  - replace (2 * n + 1) with (2 * (n + 1) - 1) by lia. rewrite letter_odd. destruct (dbl_cases (- (n + 1))); lia.
Qed.
Lemma dbl_inj : forall x y, 1 <= dbl x -> dbl x = dbl y -> x = y.
Proof. intros x y H E. destruct (dbl_cases x), (dbl_cases y); lia. Qed.
Lemma letters_top : forall k x, 1 <= k -> (letters k x <-> letters (k - 1) x \/ x = letter k).
Proof.
  intros k x H. unfold letters. pose proof (dbl_letter k H) as L. split.
  - intro R. destruct (Z.eq_dec (dbl x) k) as [E|E]; [right; apply dbl_inj; lia|left; lia].
  - intros [R| ->]; lia.
Qed.

Section Direction.
  (* even letters (unprimed) form horizontal strips, odd ones vertical strips *)
  Definition dir_s (k : Z) := if Z.even k then nexts else nextd.
  Definition dir_d (k : Z) := if Z.even k then nextd else nexts.
  Definition ok_s (k : Z) := if Z.even k then row_ok else column_ok.
  Definition ok_d (k : Z) := if Z.even k then column_ok else row_ok.

  Lemma letter_facts : forall k, 1 <= k -> let v := letter k in let low := letters (k - 1) in
    ok_s k v v /\ ~ ok_d k v v /\ (forall x, low x -> ok_s k x v /\ ok_d k x v) /\
    (forall y, low y -> ~ ok_s k v y /\ ~ ok_d k v y) /\ ~ low v.
  Proof.
    intros k H v low. subst v low. unfold letters. pose proof (dbl_letter k H) as L.
    destruct (Z.Even_or_Odd k) as [[n ->]|[n E]].
    - unfold ok_s, ok_d. rewrite Z.even_mul. cbn [Z.even orb]. rewrite letter_even in *. unfold row_ok, column_ok.
      split; [lia|]. split; [lia|]. split; [|split; [|lia]]; intros x Hx; destruct (dbl_cases x); lia.
    - assert (Ek : k = 2 * (n + 1) - 1) by lia. clear E. subst k. unfold ok_s, ok_d.
      replace (Z.even (2 * (n + 1) - 1)) with false by (replace (2 * (n + 1) - 1) with (2 * n + 1) by lia; rewrite Z.even_add, Z.even_mul; reflexivity).
      rewrite letter_odd in *. unfold row_ok, column_ok.
      split; [lia|]. split; [lia|]. split; [|split; [|lia]]; intros x Hx; destruct (dbl_cases x); lia.
  Qed.
End Direction.

Section Fillings.
  Variable sh : bool.
  Variable pr : box -> Prop.
  Variable sv : bool.
  Definition allowed (b : box) (x : Z) : Prop := x < 0 -> pr b.
  Definition full (lam : list Z) (k : Z) (mu : list Z) (T : tab) : Prop :=
    proper T /\ fill nexts nextd row_ok column_ok allowed sv (letters k) (dc sh lam) (dc sh mu) (Hd T).

  Lemma fill_swap : forall k P lam mu H, fill (dir_s k) (dir_d k) (ok_s k) (ok_d k) allowed sv P lam mu H <->
    fill nexts nextd row_ok column_ok allowed sv P lam mu H.
  Proof.
    intros k P lam mu H. unfold fill, dir_s, dir_d, ok_s, ok_d. destruct (Z.even k); [reflexivity|]. intuition assumption.
  Qed.
  Lemma fill_ext : forall (P Q : Z -> Prop) lam mu mu' (H H' : box -> Z -> Prop), (forall x, P x <-> Q x) -> (forall b, mu b <-> mu' b) ->
    (forall b x, H b x <-> H' b x) ->
    fill nexts nextd row_ok column_ok allowed sv P lam mu H -> fill nexts nextd row_ok column_ok allowed sv Q lam mu' H'.
  Proof.
    intros P Q lam mu mu' H H' EP EM EH (D1 & D2 & D3 & D4 & D5). split; [|split; [|split; [|split]]].
    - intro b. rewrite <- EM, <- D1. split; intros (x & Hx); exists x; apply EH; assumption.
    - intros b x Hx. apply EH in Hx. rewrite <- EP. apply D2. assumption.
    - intros b x y Hx Hy. apply EH in Hx, Hy. eapply D3; eassumption.
    - intros b x y Hx Hy. apply EH in Hx, Hy. eapply D4; eassumption.
    - intros Hs b x y Hx Hy. apply EH in Hx, Hy. eapply D5; eassumption.
  Qed.

  Lemma full_semistandard : forall n lam mu T,
    semistandard_filling (dcell sh) (fun i j => pr (i, j)) sv n lam mu T <-> full lam (2 * n) mu T.
  Proof.
    intros n lam mu T.
    assert (LQ : forall x, 1 <= Z.abs x <= n <-> letters (2 * n) x) by (intro x; unfold letters; destruct (dbl_cases x); lia).
    split.
    - intros (W & D & L & E & R & C). assert (P : proper T) by (split; [assumption|]; intros [i j] l H; apply L in H; tauto).
      split; [assumption|]. split; [|split; [|split; [|split]]].
      + intros [i j]. change (dc sh mu (i, j) /\ ~ dc sh lam (i, j)) with (in_skew (dcell sh) mu lam i j). rewrite <- D. split.
        * intros (x & l & H1 & H2). exists l. assumption.
        * intros (l & H). destruct (L _ _ _ H) as [N _]. destruct l as [|x l]; [contradiction N; reflexivity|]. exists x, (x :: l). split; [assumption|left; reflexivity].
      + intros [i j] x H. apply E in H. cbn [fst snd] in H. rewrite <- LQ. exact H.
      + intros [i j] x y H1 H2. exact (R i j x y H1 H2).
      + intros [i j] x y H1 H2. exact (C i j x y H1 H2).
      + intros Hs [i j] x y (l & H1 & H2) (m & H3 & H4). cbn [fst snd] in *.
        pose proof (In_tlookup _ _ _ (proj1 W) H1) as A. rewrite (In_tlookup _ _ _ (proj1 W) H3) in A. injection A as ->.
        destruct (L _ _ _ H1) as (_ & _ & L1). specialize (L1 Hs). destruct l as [|a [|c l]]; try discriminate. destruct H2 as [<-|[]], H4 as [<-|[]]. reflexivity.
    - intros ([W P] & D1 & D2 & D3 & D4 & D5). split; [assumption|]. split; [|split; [|split; [|split]]].
      + intros i j. change (in_skew (dcell sh) mu lam i j) with (dc sh mu (i, j) /\ ~ dc sh lam (i, j)). rewrite <- D1. split.
        * intros (l & H). destruct (P _ _ H) as [N _]. destruct l as [|x l]; [contradiction N; reflexivity|]. exists x, (x :: l). split; [assumption|left; reflexivity].
        * intros (x & l & H1 & H2). exists l. assumption.
      + intros i j l H. destruct (P _ _ H) as [N1 N2]. split; [assumption|]. split; [assumption|]. intro Hs.
        destruct l as [|a [|c l]]; [contradiction N1; reflexivity|reflexivity|]. exfalso.
        assert (a = c). { apply (D5 Hs (i, j)); exists (a :: c :: l); (split; [exact H|]); cbn; tauto. }
        subst. inversion N2 as [|? ? X _]; subst. apply X. left. reflexivity.
      + intros i j x H. destruct (D2 (i, j) x H) as [A B]. split; [apply LQ; assumption|assumption].
      + intros i j x y H1 H2. exact (D3 (i, j) x y H1 H2).
      + intros i j x y H1 H2. exact (D4 (i, j) x y H1 H2).
  Qed.
End Fillings.
