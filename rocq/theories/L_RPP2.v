(* Fillings by weakly increasing rows and columns: adding and removing the largest letter *)
From Coq Require Import List ZArith Lia Permutation Bool.
From Verif Require Import PyBase M_Partitions M_Rref M_Tableaux M_Strips M_Semistandard M_RPP S_Partitions S_Tableaux S_Strips S_Semistandard S_Standard S_RPP
  L_Partitions L_PartBasic L_PartMore L_PartEnum L_Generate L_Tableaux L_Destand L_Operators L_Strips L_Strips2 L_Strips3 L_Shape L_Semi L_Semi2 L_Semi3 L_Semi4 L_Standard L_Sym8
  L_Count L_Count2 L_Count3 L_RPP1.
Import ListNotations.
Local Open Scope Z_scope.

(* cells and lines holding a given letter *)
Definition cellsof (x : Z) (T : tab) : list box := map fst (filter (fun e => snd e =? x) (tentries T)).
Lemma cellsof_In : forall x T b, In b (cellsof x T) <-> Hd T b x.
Proof.
  intros x T b. unfold cellsof, tentries. rewrite in_map_iff. split.
  - intros ([c y] & E & H). cbn [fst] in E. subst c. apply filter_In in H. destruct H as [H E]. cbn [snd] in E. apply Z.eqb_eq in E. subst y.
    apply in_flat_map in H. destruct H as ([d l] & H1 & H2). apply in_map_iff in H2. destruct H2 as (z & E & Hz). cbn [fst snd] in *. injection E as -> ->. exists l. rewrite <- surjective_pairing. tauto.
  - intros (l & H1 & H2). rewrite <- surjective_pairing in H1. exists (b, x). split; [reflexivity|]. apply filter_In. cbn [snd]. rewrite Z.eqb_refl. split; [|reflexivity].
    apply in_flat_map. exists (b, l). split; [assumption|]. apply in_map_iff. exists x. split; [reflexivity|assumption].
Qed.
Lemma distinct_ext : forall l m, (forall x, In x l <-> In x m) -> distinct l = distinct m.
Proof.
  intros l m H. unfold distinct, zlen. f_equal. apply Permutation_length. apply NoDup_Permutation; [apply NoDup_nodup|apply NoDup_nodup|].
  intro x. rewrite !nodup_In. apply H.
Qed.
Lemma distinct_zero : forall l, distinct l = 0 <-> l = [].
Proof.
  intro l. unfold distinct, zlen. split; [|intros ->; reflexivity]. intro H. destruct l as [|a l]; [reflexivity|]. exfalso.
  assert (I : In a (nodup Z.eq_dec (a :: l))) by (apply nodup_In; left; reflexivity). destruct (nodup Z.eq_dec (a :: l)); [destruct I|cbn in H; lia].
Qed.
Lemma distinct_nonneg : forall l, 0 <= distinct l.
Proof. intro. unfold distinct, zlen. lia. Qed.
Lemma distinct_counts : forall l (P : Z -> Prop), (forall x, In x l <-> P x) -> counts P (distinct l).
Proof. intros l P H. exists (nodup Z.eq_dec l). split; [apply NoDup_nodup|]. split; [|reflexivity]. intro x. rewrite nodup_In. apply H. Qed.
Definition colsof (x : Z) (T : tab) : Z := distinct (map snd (cellsof x T)).
Definition rowsof (x : Z) (T : tab) : Z := distinct (map fst (cellsof x T)).
Definition pweight (m : Z) (T : tab) : Z := colsof m T + rowsof (- m) T.
Lemma map_same : forall (f : box -> Z) l m, (forall b, In b l <-> In b m) -> distinct (map f l) = distinct (map f m).
Proof. intros f l m H. apply distinct_ext. intro x. rewrite !in_map_iff. split; intros (b & E & Hb); exists b; (split; [assumption|]); apply H; assumption. Qed.
Lemma cells_same : forall (f : box -> Z) x T U, (forall b, Hd T b x <-> Hd U b x) -> distinct (map f (cellsof x T)) = distinct (map f (cellsof x U)).
Proof. intros f x T U H. apply map_same. intro b. rewrite !cellsof_In. apply H. Qed.
Lemma cells_none : forall (f : box -> Z) x T, (forall b, ~ Hd T b x) -> distinct (map f (cellsof x T)) = 0.
Proof. intros f x T H. destruct (cellsof x T) as [|b l] eqn:E; [reflexivity|]. exfalso. apply (H b). apply cellsof_In. rewrite E. left. reflexivity. Qed.
Lemma cells_some : forall (f : box -> Z) x T b, Hd T b x -> 0 < distinct (map f (cellsof x T)).
Proof.
  intros f x T b H. pose proof (distinct_nonneg (map f (cellsof x T))). assert (distinct (map f (cellsof x T)) <> 0); [|lia].
  rewrite distinct_zero. apply cellsof_In in H. intro E. destruct (cellsof x T); [destruct H|discriminate].
Qed.

Section Fill.
  Variable sh : bool.
  Variable al : box -> Z -> Prop.
  Variable lam : list Z.
  Hypothesis lam_part : part_b sh lam.
  Notation D := (dc sh).

  Definition pfill (k : Z) (mu : list Z) (T : tab) : Prop :=
    okS sh lam mu /\ proper T /\
    (forall b, (exists x, Hd T b x) <-> D mu b /\ ~ D lam b) /\
    (forall b x y, Hd T b x -> Hd T b y -> x = y) /\
    (forall b x, Hd T b x -> letters k x /\ al b x) /\
    (forall b x y, Hd T b x -> Hd T (nexts b) y -> dbl x <= dbl y) /\
    (forall b x y, Hd T b x -> Hd T (nextd b) y -> dbl x <= dbl y).

  (* all shapes between lam and mu *)
  Definition layers (mu : list Z) (r : list (list Z * list box)) : Prop :=
    NoDup (map fst r) /\
    (forall k d, In (k, d) r -> part_b sh k /\ (forall b, D k b -> D mu b) /\ NoDup d /\ forall b, In b d <-> D mu b /\ ~ D k b) /\
    forall k, okS sh lam k -> (forall b, D k b -> D mu b) -> exists d, In (k, d) r.

  Definition glue (k : Z) (mu nu : list Z) (T' T : tab) : Prop := forall c x, Hd T c x <-> Hd T' c x \/ (x = letter k /\ D mu c /\ ~ D nu c).

  Lemma pf_up : forall k nu mu T' T, 1 <= k -> okS sh lam mu -> (forall b, D nu b -> D mu b) -> (forall b, D mu b -> ~ D nu b -> al b (letter k)) ->
    pfill (k - 1) nu T' -> proper T -> glue k mu nu T' T -> pfill k mu T.
  Proof.
    intros k nu mu T' T Hk Om Inc Al (On & PT' & Cells & One & Rng & Rw & Cl) PT G. pose proof (dbl_letter k Hk) as Dk.
    assert (Low : forall b x, Hd T' b x -> dbl x <= k - 1) by (intros b x H; apply Rng in H; destruct H as [[_ H] _]; assumption).
    assert (InNu : forall b x, Hd T' b x -> D nu b) by (intros b x H; assert (X : exists x, Hd T' b x) by (exists x; assumption); apply Cells in X; tauto).
    split; [assumption|]. split; [assumption|]. split; [|split; [|split; [|split]]].
    - intro b. split.
      + intros (x & H). apply G in H. destruct H as [H|(-> & H1 & H2)].
        * assert (X : exists x, Hd T' b x) by (exists x; assumption). apply Cells in X. destruct X as [X Y]. split; [apply Inc; assumption|assumption].
        * split; [assumption|]. intro X. apply H2. apply On. assumption.
      + intros [H1 H2]. destruct (dc_dec sh nu b) as [Y|N].
        * assert (X : exists x, Hd T' b x) by (apply Cells; tauto). destruct X as (x & X). exists x. apply G. left. assumption.
        * exists (letter k). apply G. right. tauto.
    - intros b x y Hx Hy. apply G in Hx. apply G in Hy. destruct Hx as [Hx|(-> & X1 & X2)], Hy as [Hy|(-> & Y1 & Y2)].
      + apply (One b); assumption.
      + exfalso. apply Y2. apply (InNu b x). assumption.
      + exfalso. apply X2. apply (InNu b y). assumption.
      + reflexivity.
    - intros b x H. apply G in H. destruct H as [H|(-> & H1 & H2)].
      + apply Rng in H. destruct H as [H1 H2]. split; [|assumption]. unfold letters in *. lia.
      + split; [unfold letters; lia|]. apply Al; assumption.
    - intros b x y Hx Hy. apply G in Hx. apply G in Hy. destruct Hx as [Hx|(-> & X1 & X2)], Hy as [Hy|(-> & Y1 & Y2)].
      + apply (Rw b); assumption.
      + apply Low in Hx. lia.
      + exfalso. apply X2. apply dc_left; [apply (dc_region sh mu); assumption|]. apply (InNu _ y). assumption.
      + lia.
    - intros b x y Hx Hy. apply G in Hx. apply G in Hy. destruct Hx as [Hx|(-> & X1 & X2)], Hy as [Hy|(-> & Y1 & Y2)].
      + apply (Cl b); assumption.
      + apply Low in Hx. lia.
      + exfalso. apply X2. apply dc_up; [apply On|apply (dc_region sh mu); assumption|]. apply (InNu _ y). assumption.
      + lia.
  Qed.
  Lemma pf_down : forall k mu T, 1 <= k -> pfill k mu T -> exists nu T', (forall b, D nu b -> D mu b) /\ (forall b, D mu b -> ~ D nu b -> al b (letter k)) /\
    pfill (k - 1) nu T' /\ glue k mu nu T' T.
  Proof.
    intros k mu T Hk (Om & PT & Cells & One & Rng & Rw & Cl). pose proof (dbl_letter k Hk) as Dk.
    assert (InMu : forall b x, Hd T b x -> D mu b /\ ~ D lam b) by (intros b x H; apply Cells; exists x; assumption).
    destruct (shape_of sh mu (fun b => D lam b \/ exists x, Hd T b x /\ dbl x < k) (proj1 Om)) as (nu & Pn & En).
    - intro b. destruct (dc_dec sh lam b); [tauto|]. destruct (dc_dec sh mu b) as [M|M].
      + destruct (proj2 (Cells b) (conj M H)) as (x & Hx). destruct (Z_lt_le_dec (dbl x) k) as [C|C]; [left; right; exists x; tauto|].
        right. intros [X|(y & Hy & Ly)]; [contradiction|]. rewrite (One b y x Hy Hx) in Ly. lia.
      + right. intros [X|(y & Hy & _)]; [contradiction|]. apply InMu in Hy. tauto.
    - intros b [H|(x & H & _)]; [apply Om; assumption|]. apply InMu in H. tauto.
    - intros b R [H|(y & Hy & Ly)]; [left; apply dc_left; assumption|]. destruct (dc_dec sh lam b) as [|N]; [tauto|]. right.
      destruct (InMu _ _ Hy) as [M _]. destruct (proj2 (Cells b)) as (x & Hx); [split; [apply dc_left; assumption|assumption]|]. exists x. split; [assumption|]. pose proof (Rw b x y Hx Hy). lia.
    - intros b R [H|(y & Hy & Ly)]; [left; apply dc_up; assumption|]. destruct (dc_dec sh lam b) as [|N]; [tauto|]. right.
      destruct (InMu _ _ Hy) as [M _]. destruct (proj2 (Cells b)) as (x & Hx); [split; [apply dc_up; [apply Om|assumption|assumption]|assumption]|]. exists x. split; [assumption|]. pose proof (Cl b x y Hx Hy). lia.
    - destruct (remv_spec (letter k) T PT) as [PR HR].
      assert (Top : forall b x, Hd T b x -> (x = letter k <-> ~ dbl x < k)).
      { intros b x H. apply Rng in H. destruct H as [[L1 L2] _]. split; [intros ->; lia|]. intro N. apply dbl_inj; lia. }
      assert (NuMu : forall b, D nu b -> D mu b) by (intros b H; apply En in H; destruct H as [H|(x & H & _)]; [apply Om; assumption|apply InMu in H; tauto]).
      assert (TopCell : forall b, D mu b -> ~ D nu b -> Hd T b (letter k)).
      { intros b M N. assert (NL : ~ D lam b) by (intro X; apply N, En; left; assumption). destruct (proj2 (Cells b) (conj M NL)) as (x & Hx).
        rewrite <- (proj2 (Top b x Hx)); [assumption|]. intro L. apply N, En. right. exists x. tauto. }
      exists nu, (remv (letter k) T). split; [assumption|]. split; [intros b M N; apply (Rng b), TopCell; assumption|]. split.
      + split; [split; [assumption|intros b H; apply En; left; assumption]|]. split; [assumption|]. split; [|split; [|split; [|split]]].
        * intro b. split.
          -- intros (x & H). apply HR in H. destruct H as [H N]. split; [|apply InMu in H; tauto]. apply En. right. exists x. split; [assumption|].
             destruct (Z_lt_le_dec (dbl x) k) as [|C]; [assumption|]. exfalso. apply N. apply (Top b x H). lia.
          -- intros [H N]. apply En in H. destruct H as [H|(x & H & L)]; [contradiction|]. exists x. apply HR. split; [assumption|]. intro E. apply (Top b x H) in E. contradiction.
        * intros b x y Hx Hy. apply HR in Hx. apply HR in Hy. apply (One b); tauto.
        * intros b x H. apply HR in H. destruct H as [H N]. destruct (Rng b x H) as [[L1 L2] A]. split; [|assumption]. split; [assumption|].
          destruct (Z_lt_le_dec (dbl x) k) as [|C]; [lia|]. exfalso. apply N. apply (Top b x H). lia.
        * intros b x y Hx Hy. apply HR in Hx. apply HR in Hy. apply (Rw b); tauto.
        * intros b x y Hx Hy. apply HR in Hx. apply HR in Hy. apply (Cl b); tauto.
      + intros c x. rewrite HR. split.
        * intro H. destruct (Z.eq_dec x (letter k)) as [->|N]; [|tauto]. right. split; [reflexivity|]. destruct (InMu _ _ H) as [M NL]. split; [assumption|]. intro X. apply En in X.
          destruct X as [X|(y & Hy & L)]; [contradiction|]. rewrite (One c y (letter k) Hy H) in L. lia.
        * intros [H|(-> & M & N)]; [tauto|]. apply TopCell; assumption.
  Qed.
  Lemma pf_unique : forall k mu nu1 nu2 T1 T2 T, 1 <= k -> pfill (k - 1) nu1 T1 -> pfill (k - 1) nu2 T2 -> glue k mu nu1 T1 T -> glue k mu nu2 T2 T -> nu1 = nu2 /\ T1 = T2.
  Proof.
    intros k mu nu1 nu2 T1 T2 T Hk F1 F2 G1 G2. pose proof (dbl_letter k Hk) as Dk.
    assert (X : forall nu T', pfill (k - 1) nu T' -> glue k mu nu T' T -> forall c x, Hd T' c x <-> Hd T c x /\ x <> letter k).
    { intros nu T' (_ & _ & _ & _ & Rng & _) G c x. rewrite (G c x). split.
      - intro H. split; [tauto|]. intros ->. apply Rng in H. destruct H as [[_ H] _]. lia.
      - intros [[H|(-> & _)] N]; [assumption|contradiction]. }
    pose proof (X _ _ F1 G1) as X1. pose proof (X _ _ F2 G2) as X2.
    assert (ET : T1 = T2) by (apply proper_ext; [apply F1|apply F2|]; intros b x; rewrite X1, X2; reflexivity). split; [|assumption]. subst T2.
    destruct F1 as ([P1 I1] & _ & C1 & _). destruct F2 as ([P2 I2] & _ & C2 & _). apply (part_ext sh); [assumption|assumption|]. intro c.
    destruct (dc_dec sh lam c) as [Y|N]; [split; intros _; [apply I2|apply I1]; assumption|]. split; intro H.
    - apply C2. apply C1. tauto.
    - apply C1. apply C2. tauto.
  Qed.

  (* letters that are never allowed *)
  Lemma pf_skip : forall k mu T, 1 <= k -> (forall b, ~ al b (letter k)) -> (pfill k mu T <-> pfill (k - 1) mu T).
  Proof.
    intros k mu T Hk N. unfold pfill. split; intros (Om & PT & Cells & One & Rng & Rw & Cl); (split; [assumption|]); (split; [assumption|]); (split; [assumption|]); (split; [assumption|]); (split; [|tauto]).
    - intros b x H. destruct (Rng b x H) as [L A]. split; [|assumption]. apply letters_top in L; [|assumption]. destruct L as [L|L]; [assumption|]. subst x. exfalso. apply (N b A).
    - intros b x H. destruct (Rng b x H) as [L A]. split; [|assumption]. unfold letters in *. lia.
  Qed.
  Lemma pf_equal : forall k T, pfill k lam T <-> T = [].
  Proof.
    intros k T. split.
    - intros (_ & PT & Cells & _). apply proper_ext; [assumption|apply proper_nil|]. intros b x. split.
      + intro H. assert (X : exists x, Hd T b x) by (exists x; assumption). apply Cells in X. tauto.
      + intros (l & [] & _).
    - intros ->. assert (Nn : forall b x, ~ Hd [] b x) by (intros b x (l & [] & _)). split; [split; [assumption|tauto]|]. split; [apply proper_nil|]. split; [|split; [|split; [|split]]].
      + intro b. split; [intros (x & H); exfalso; apply (Nn b x H)|tauto].
      + intros b x y H. exfalso. apply (Nn b x H).
      + intros b x H. exfalso. apply (Nn b x H).
      + intros b x y H. exfalso. apply (Nn b x H).
      + intros b x y H. exfalso. apply (Nn b x H).
  Qed.
  Lemma pf_zero : forall mu T, pfill 0 mu T -> mu = lam.
  Proof.
    intros mu T ([Pm I] & PT & Cells & _ & Rng & _). apply (part_ext sh); [assumption|assumption|]. intro c. split; [|apply I]. intro H.
    destruct (dc_dec sh lam c) as [|N]; [assumption|]. exfalso. destruct (proj2 (Cells c) (conj H N)) as (x & Hx). apply Rng in Hx. destruct Hx as [[? ?] _]. lia.
  Qed.

  (* ----- with lists of cells ----- *)
  Lemma layer_positive : forall mu r nu d b, layers mu r -> In (nu, d) r -> In b d -> positive b.
  Proof. intros mu r nu d b (_ & L & _) H Hb. apply L in H. destruct H as (_ & _ & _ & E). apply E in Hb. apply (region_positive sh). apply (dc_region sh mu). tauto. Qed.
  Lemma layer_fresh : forall k mu r nu d T' b, 1 <= k -> layers mu r -> In (nu, d) r -> pfill (k - 1) nu T' -> In b d -> forall v, ~ Hd T' b v.
  Proof.
    intros k mu r nu d T' b Hk (_ & L & _) H (_ & _ & Cells & _) Hb v Hv. apply L in H. destruct H as (_ & _ & _ & E). apply E in Hb.
    assert (X : exists x, Hd T' b x) by (exists v; assumption). apply Cells in X. tauto.
  Qed.
  Lemma layer_addv : forall k mu r nu d T', 1 <= k -> layers mu r -> In (nu, d) r -> pfill (k - 1) nu T' ->
    proper (addv (letter k) d T') /\ glue k mu nu T' (addv (letter k) d T').
  Proof.
    intros k mu r nu d T' Hk L H F. destruct (addv_spec d (letter k) T') as [P G].
    - apply F.
    - apply (proj1 (proj2 L) nu d H).
    - intros b Hb. split; [eapply layer_positive; eassumption|eapply layer_fresh; eassumption].
    - split; [assumption|]. intros c x. rewrite G. destruct L as (_ & L & _). destruct (L nu d H) as (_ & _ & _ & E). rewrite E. tauto.
  Qed.
  Definition okd (k : Z) (d : list box) : Prop := forall b, In b d -> al b (letter k).
  Lemma half_set : forall k mu r T, 1 <= k -> okS sh lam mu -> layers mu r ->
    (pfill k mu T <-> exists nu d T', In (nu, d) r /\ okd k d /\ pfill (k - 1) nu T' /\ T = addv (letter k) d T').
  Proof.
    intros k mu r T Hk Om L. split.
    - intro F. destruct (pf_down k mu T Hk F) as (nu & T' & Inc & Al & F' & G). destruct (proj2 (proj2 L) nu (proj1 F') Inc) as (d & Hd').
      destruct (layer_addv k mu r nu d T' Hk L Hd' F') as [P' G']. exists nu, d, T'. split; [assumption|]. split; [|split; [assumption|]].
      + intros b Hb. destruct L as (_ & L & _). apply (L nu d Hd') in Hb. apply Al; tauto.
      + apply proper_ext; [apply F|assumption|]. intros b x. rewrite (G b x), (G' b x). reflexivity.
    - intros (nu & d & T' & H & A & F & ->). destruct (layer_addv k mu r nu d T' Hk L H F) as [P G]. destruct L as (_ & L & _). destruct (L nu d H) as (_ & I & _ & E).
      apply (pf_up k nu mu T'); try assumption. intros b M N. apply A, E. tauto.
  Qed.
  Lemma half_inj : forall k mu r nu1 d1 T1 nu2 d2 T2, 1 <= k -> layers mu r -> In (nu1, d1) r -> In (nu2, d2) r -> pfill (k - 1) nu1 T1 -> pfill (k - 1) nu2 T2 ->
    addv (letter k) d1 T1 = addv (letter k) d2 T2 -> (nu1, d1) = (nu2, d2) /\ T1 = T2.
  Proof.
    intros k mu r nu1 d1 T1 nu2 d2 T2 Hk L H1 H2 F1 F2 E. destruct (layer_addv k mu r nu1 d1 T1 Hk L H1 F1) as [P1 G1]. destruct (layer_addv k mu r nu2 d2 T2 Hk L H2 F2) as [P2 G2].
    rewrite <- E in G2. destruct (pf_unique k mu nu1 nu2 T1 T2 _ Hk F1 F2 G1 G2) as [En ET]. split; [|assumption]. subst nu2. f_equal.
    destruct L as (N & _). clear - N H1 H2. induction r as [|[k0 d0] r IH]; [destruct H1|]. cbn [map fst] in N. inversion N as [|? ? N1 N2]; subst.
    destruct H1 as [H1|H1], H2 as [H2|H2].
    - congruence.
    - exfalso. apply N1. injection H1 as -> ->. apply (in_map fst) in H2. exact H2.
    - exfalso. apply N1. injection H2 as -> ->. apply (in_map fst) in H1. exact H1.
    - apply IH; assumption.
  Qed.

  (* ----- weights ----- *)
  Definition lines (k : Z) (d : list box) : Z := if Z.even k then distinct (map snd d) else distinct (map fst d).
  Lemma letter_abs : forall k, 1 <= k -> (if Z.even k then letter k = Z.abs (letter k) else letter k = - Z.abs (letter k)) /\ 1 <= Z.abs (letter k).
  Proof.
    intros k Hk. destruct (Z.Even_or_Odd k) as [[n ->]|[n ->]].
    - rewrite letter_even, Z.even_mul. cbn [Z.even orb]. lia.
    - replace (2 * n + 1) with (2 * (n + 1) - 1) by lia. rewrite letter_odd. replace (2 * (n + 1) - 1) with (2 * n + 1) by lia. rewrite Z.even_add, Z.even_mul. cbn [Z.even orb Bool.eqb]. lia.
  Qed.
  Lemma pweight_glue : forall k mu nu d T' T m, 1 <= k -> 1 <= m -> pfill (k - 1) nu T' -> glue k mu nu T' T -> (forall b, In b d <-> D mu b /\ ~ D nu b) ->
    pweight m T = pweight m T' + ind (Z.abs (letter k) =? m) * lines k d.
  Proof.
    intros k mu nu d T' T m Hk Hm F G E. pose proof (dbl_letter k Hk) as Dk. destruct (letter_abs k Hk) as [La Lp].
    assert (NT : forall b, ~ Hd T' b (letter k)) by (intros b H; destruct F as (_ & _ & _ & _ & Rng & _); apply Rng in H; destruct H as [[_ H] _]; lia).
    assert (Other : forall (f : box -> Z) x, x <> letter k -> distinct (map f (cellsof x T)) = distinct (map f (cellsof x T'))).
    { intros f x N. apply cells_same. intro b. rewrite (G b x). tauto. }
    assert (This : forall (f : box -> Z), distinct (map f (cellsof (letter k) T)) = distinct (map f d)).
    { intros f. apply map_same. intro b. rewrite cellsof_In, (G b (letter k)), E. split; [|tauto]. intros [H|H]; [exfalso; apply (NT b H)|tauto]. }
    assert (OC : forall x, x <> letter k -> colsof x T = colsof x T') by (intros x N; apply (Other snd); assumption).
    assert (OR : forall x, x <> letter k -> rowsof x T = rowsof x T') by (intros x N; apply (Other fst); assumption).
    assert (TC : colsof (letter k) T = distinct (map snd d)) by apply (This snd).
    assert (TR : rowsof (letter k) T = distinct (map fst d)) by apply (This fst).
    assert (ZC : colsof (letter k) T' = 0) by (apply (cells_none snd); assumption).
    assert (ZR : rowsof (letter k) T' = 0) by (apply (cells_none fst); assumption).
    unfold pweight, lines. destruct (Z.eqb_spec (Z.abs (letter k)) m) as [Em|Nm]; cbn [ind].
    - destruct (Z.even k) eqn:Ev.
      + replace m with (letter k) by lia. rewrite TC, ZC, (OR (- letter k)) by lia. lia.
      + replace (- m) with (letter k) by lia. rewrite TR, ZR, (OC m) by lia. lia.
    - rewrite OC, OR by (destruct (Z.even k); lia). lia.
  Qed.
  Lemma pweight_above : forall k mu T m, pfill k mu T -> k < 2 * m - 1 -> pweight m T = 0.
  Proof.
    intros k mu T m (_ & _ & _ & _ & Rng & _) Hm. unfold pweight, colsof, rowsof.
    rewrite !cells_none; [reflexivity| |]; intros b H; apply Rng in H; destruct H as [[L1 L2] _]; [destruct (dbl_cases (- m))|destruct (dbl_cases m)]; lia.
  Qed.
  (* a letter of weight zero is absent *)
  Lemma pweight_absent : forall n mu T, 1 <= n -> pweight n T = 0 -> (pfill (2 * n) mu T <-> pfill (2 * n - 2) mu T).
  Proof.
    intros n mu T Hn W. unfold pweight in W. assert (CN : 0 <= colsof n T) by apply distinct_nonneg. assert (RN : 0 <= rowsof (- n) T) by apply distinct_nonneg.
    assert (A : forall b, ~ Hd T b n) by (intros b Hb; assert (0 < colsof n T) by (apply (cells_some snd n T b Hb)); lia).
    assert (B : forall b, ~ Hd T b (- n)) by (intros b Hb; assert (0 < rowsof (- n) T) by (apply (cells_some fst (- n) T b Hb)); lia).
    unfold pfill. split; intros (Om & PT & Cells & One & Rng & Rw & Cl); (split; [assumption|]); (split; [assumption|]); (split; [assumption|]); (split; [assumption|]); (split; [|tauto]); intros b x Hx; destruct (Rng b x Hx) as [[L1 L2] A'].
    - split; [|assumption]. split; [assumption|]. assert (x <> n) by (intros ->; apply (A b Hx)). assert (x <> - n) by (intros ->; apply (B b Hx)). destruct (dbl_cases x); lia.
    - split; [|assumption]. split; lia.
  Qed.

  Definition pweighted (k : Z) (mu : list Z) (w : Z -> Z) (T : tab) : Prop := pfill k mu T /\ forall m, 1 <= m -> pweight m T = w m.
  Variable alb : box -> Z -> bool.
  Hypothesis alb_spec : forall b x, alb b x = true <-> al b x.
  Definition okdb (k : Z) (d : list box) : bool := forallb (fun b => alb b (letter k)) d.
  Lemma okdb_spec : forall k d, okdb k d = true <-> okd k d.
  Proof. intros k d. unfold okdb, okd. rewrite forallb_forall. split; intros H b Hb; apply alb_spec, H; assumption. Qed.
  Lemma half_pcount : forall k mu r w (N : list Z * list box -> Z), 1 <= k -> okS sh lam mu -> layers mu r ->
    (forall nu d, In (nu, d) r -> okdb k d = true -> counts (pweighted (k - 1) nu (fun m => w m - ind (Z.abs (letter k) =? m) * lines k d)) (N (nu, d))) ->
    counts (pweighted k mu w) (zs (fun s => if okdb k (snd s) then N s else 0) r).
  Proof.
    intros k mu r w N Hk Om L H.
    apply (counts_ext _ (fun T => exists s, In s r /\ (okdb k (snd s) = true /\ exists T', pweighted (k - 1) (fst s) (fun m => w m - ind (Z.abs (letter k) =? m) * lines k (snd s)) T' /\ T = addv (letter k) (snd s) T'))
      _ (zs (fun s => if okdb k (snd s) then N s else 0) r)); [|reflexivity|].
    - intro T. split.
      + intros ([nu d] & Hs & A & T' & [F W] & ->). cbn [fst snd] in *. destruct (layer_addv k mu r nu d T' Hk L Hs F) as [P G]. split.
        * apply (half_set k mu r _ Hk Om L). exists nu, d, T'. split; [assumption|]. split; [apply okdb_spec; assumption|]. tauto.
        * intros m Hm. destruct L as (_ & L & _). destruct (L nu d Hs) as (_ & _ & _ & E). rewrite (pweight_glue k mu nu d T' _ m Hk Hm F G E), W by assumption. lia.
      + intros [F W]. destruct (proj1 (half_set k mu r T Hk Om L) F) as (nu & d & T' & Hs & A & F' & ->). destruct (layer_addv k mu r nu d T' Hk L Hs F') as [P G].
        exists (nu, d). cbn [fst snd]. split; [assumption|]. split; [apply okdb_spec; assumption|]. exists T'. split; [|reflexivity]. split; [assumption|].
        intros m Hm. rewrite <- W by assumption. destruct L as (_ & L & _). destruct (L nu d Hs) as (_ & _ & _ & E). rewrite (pweight_glue k mu nu d T' _ m Hk Hm F' G E). lia.
    - apply counts_union.
      + eapply NoDup_map_inv. apply L.
      + intros [nu d] Hs. cbn [fst snd]. destruct (okdb k d) eqn:E.
        * apply (counts_ext _ (fun T => exists T', pweighted (k - 1) nu (fun m => w m - ind (Z.abs (letter k) =? m) * lines k d) T' /\ T = addv (letter k) d T') _ (N (nu, d))); [intro T; tauto|reflexivity|].
          apply counts_image; [|apply H; assumption]. intros T1 T2 [F1 _] [F2 _] E'. apply (half_inj k mu r nu d T1 nu d T2 Hk L Hs Hs F1 F2 E').
        * apply counts_empty. intros T [X _]. discriminate.
      + intros [nu1 d1] [nu2 d2] T H1 H2 (_ & T1 & [F1 _] & E1) (_ & T2 & [F2 _] & E2). cbn [fst snd] in *. rewrite E1 in E2. apply (half_inj k mu r nu1 d1 T1 nu2 d2 T2 Hk L H1 H2 F1 F2 E2).
  Qed.
End Fill.

Lemma strips_layers : forall sh lam lam' mu r, (forall b, dc sh lam' b -> dc sh lam b) -> all_strips sh lam' mu r -> layers sh lam mu r.
Proof.
  intros sh lam lam' mu r I (N & S & C). split; [assumption|]. split.
  - intros k d H. destruct (C k d H) as [C1 C2]. assert (X : In k (map fst r)) by (apply (in_map fst) in H; exact H). apply S in X. destruct X as [[P _] X]. tauto.
  - intros k [P J] X. assert (Y : In k (map fst r)) by (apply S; split; [split; [assumption|intros b Hb; apply J, I; assumption]|assumption]).
    apply in_map_iff in Y. destruct Y as ([k' d] & E & Y). cbn [fst] in E. subst k'. exists d. assumption.
Qed.

(* the spec of S_RPP *)
Lemma dbl_le : forall x y, 1 <= Z.abs x -> 1 <= Z.abs y -> (letter_le x y <-> dbl x <= dbl y).
Proof. intros x y Hx Hy. unfold letter_le. destruct (dbl_cases x), (dbl_cases y); lia. Qed.
Lemma pfill_spec : forall sh ok n lam mu T, okS sh lam mu -> (pfill sh (fun b x => ok (fst b) (snd b) x) lam (2 * n) mu T <-> plane_filling (dcell sh) ok n lam mu T).
Proof.
  intros sh ok n lam mu T Om.
  assert (LQ : forall x, letters (2 * n) x <-> 1 <= Z.abs x <= n) by (intro x; unfold letters; destruct (dbl_cases x); lia).
  assert (CE : proper T -> forall b, (exists x, Hd T b x) <-> exists l, In (b, l) T).
  { intros PT b. split; [intros (x & l & H & _); exists l; rewrite <- surjective_pairing in H; assumption|]. intros (l & H). destruct (proj2 PT b l H) as [N _].
    destruct l as [|x l]; [contradiction|]. exists x, (x :: l). rewrite <- surjective_pairing. split; [assumption|left; reflexivity]. }
  unfold pfill, plane_filling, in_skew. split.
  - intros (_ & PT & Cells & One & Rng & Rw & Cl). split; [apply PT|]. split; [|split; [|split; [|split]]].
    + intros i j. rewrite <- (CE PT (i, j)), Cells. reflexivity.
    + intros i j l H. destruct (proj2 PT (i, j) l H) as [N ND]. destruct l as [|x [|y l]]; [contradiction|reflexivity|]. exfalso.
      assert (x = y) by (apply (One (i, j)); exists (x :: y :: l); (split; [exact H|cbn [In]; tauto])). subst. inversion ND as [|? ? X _]. apply X. left. reflexivity.
    + intros i j x H. destruct (Rng (i, j) x H) as [L A]. apply LQ in L. split; [assumption|exact A].
    + intros i j x y Hx Hy. destruct (Rng (i, j) x Hx) as [L _]. destruct (Rng (i, j + 1) y Hy) as [L' _]. apply LQ in L, L'. apply dbl_le; [lia|lia|]. apply (Rw (i, j)); assumption.
    + intros i j x y Hx Hy. destruct (Rng (i, j) x Hx) as [L _]. destruct (Rng (i + 1, j) y Hy) as [L' _]. apply LQ in L, L'. apply dbl_le; [lia|lia|]. apply (Cl (i, j)); assumption.
  - intros (W & Cells & One & Rng & Rw & Cl).
    assert (PT : proper T).
    { split; [assumption|]. intros [i j] l H. apply One in H. destruct l as [|x [|y l]]; try discriminate. split; [discriminate|]. constructor; [intros []|constructor]. }
    split; [assumption|]. split; [assumption|]. split; [|split; [|split; [|split]]].
    + intros [i j]. rewrite (CE PT (i, j)), Cells. reflexivity.
    + intros [i j] x y Hx Hy. rewrite Hd_entries in Hx, Hy by assumption. unfold entries in *. destruct (tlookup T (i, j)) as [l|] eqn:E; [|destruct Hx]. apply tlookup_In in E. apply One in E.
      destruct l as [|a [|b l]]; try discriminate. destruct Hx as [Hx|[]], Hy as [Hy|[]]. congruence.
    + intros [i j] x H. destruct (Rng i j x H) as [L A]. split; [apply LQ; assumption|exact A].
    + intros [i j] x y Hx Hy. destruct (Rng i j x Hx) as [L _]. destruct (Rng i (j + 1) y Hy) as [L' _]. apply dbl_le; [lia|lia|]. apply (Rw i j); assumption.
    + intros [i j] x y Hx Hy. destruct (Rng i j x Hx) as [L _]. destruct (Rng (i + 1) j y Hy) as [L' _]. apply dbl_le; [lia|lia|]. apply (Cl i j); assumption.
Qed.
