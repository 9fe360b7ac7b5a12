(* Lemmas on the enumeration of standard tableaux: adding and removing the largest entry *)
From Coq Require Import List ZArith Lia Permutation Sorted Bool.
From Verif Require Import PyBase M_Partitions M_Tableaux M_Strips M_Semistandard S_Partitions S_Tableaux S_Strips S_Semistandard S_Standard
  L_Partitions L_PartBasic L_PartMore L_PartEnum L_Generate L_Tableaux L_Destand L_Operators L_Strips L_Strips2 L_Strips3 L_Shape L_Semi L_Semi2 L_Semi3 L_Semi4.
Import ListNotations.
Local Open Scope Z_scope.

Section Std.
  Variable sh : bool.
  Variable pr : box -> Prop.

  Definition std (lam mu : list Z) (T : tab) : Prop :=
    proper T /\
    (forall b, (exists x, Hd T b x) <-> dc sh mu b /\ ~ dc sh lam b) /\
    (forall b x y, Hd T b x -> Hd T b y -> x = y) /\
    (forall b x, Hd T b x -> 1 <= Z.abs x <= zsum mu - zsum lam /\ allowed pr b x) /\
    (forall k, 1 <= k <= zsum mu - zsum lam -> exists b x, Hd T b x /\ Z.abs x = k) /\
    (forall b c x y, Hd T b x -> Hd T c y -> Z.abs x = Z.abs y -> b = c) /\
    (forall b x y, Hd T b x -> Hd T (nexts b) y -> Z.abs x < Z.abs y) /\
    (forall b x y, Hd T b x -> Hd T (nextd b) y -> Z.abs x < Z.abs y).

  (* mu without the last cell of row i *)
  Definition less (mu : list Z) (i : nat) : list Z := trim (upd mu i (row mu i - 1)).
  Definition endb (mu : list Z) (i : nat) : box := (Z.of_nat i + 1, off sh (Z.of_nat i) + row mu i).
  Definition checkb (nu : list Z) : bool := if sh then is_strict_partition nu else is_partition nu.

  Lemma less_row : forall mu i j, (i < length mu)%nat -> row (less mu i) j = if (j =? i)%nat then row mu i - 1 else row mu j.
  Proof. intros mu i j H. unfold less. rewrite trim_row. apply L_Strips.upd_row. assumption. Qed.
  Lemma less_trimmed : forall mu i, trimmed (less mu i).
  Proof. intros. apply trimmed_trim. Qed.
  Lemma zsum_size : forall l, zsum l = size l.
  Proof. induction l as [|a l IH]; [reflexivity|]. cbn [size]. rewrite <- IH. reflexivity. Qed.
  Lemma less_zsum : forall mu i, (i < length mu)%nat -> zsum (less mu i) = zsum mu - 1.
  Proof.
    intros mu i H. unfold less. rewrite zsum_size, size_trim, <- zsum_size. rewrite zsum_upd by assumption. lia.
  Qed.
  Lemma less_dc : forall mu i c, (i < length mu)%nat -> part_b sh mu -> (dc sh (less mu i) c <-> dc sh mu c /\ c <> endb mu i).
  Proof.
    intros mu i c H P. unfold dc. destruct c as [a b]. cbn [fst snd]. split.
    - intro D. destruct (dcell_row _ _ _ _ D) as (j & ->). apply dcell_nat in D. rewrite less_row in D by assumption. unfold endb.
      destruct (Nat.eqb_spec j i) as [Ej|Nj]; [rewrite Ej in *|].
      + split; [apply dcell_nat; lia|]. intro E. injection E as E. lia.
      + split; [apply dcell_nat; lia|]. intro E. injection E as E _. lia.
    - intros [D N]. destruct (dcell_row _ _ _ _ D) as (j & ->). apply dcell_nat in D. apply dcell_nat. rewrite less_row by assumption.
      destruct (Nat.eqb_spec j i) as [Ej|Nj]; [rewrite Ej in *|assumption].
      assert (b <> off sh (Z.of_nat i) + row mu i) by (intro E; apply N; unfold endb; rewrite E; reflexivity). lia.
  Qed.
  Lemma less_nonneg : forall mu i j, part_b sh mu -> (i < length mu)%nat -> 0 <= row (less mu i) j.
  Proof.
    intros mu i j P H. rewrite less_row by assumption. apply part_b_part in P. destruct (j =? i)%nat.
    - pose proof (row_pos mu i (proj1 P) H). lia.
    - apply partition_nonneg. assumption.
  Qed.
  Lemma trimmed_last : forall l, trimmed l -> l <> [] -> row l (length l - 1) <> 0.
  Proof.
    assert (G : forall l : list Z, last l 0 = nth (length l - 1) l 0).
    { induction l as [|a [|b l] IH]; [reflexivity|reflexivity|]. change (last (a :: b :: l) 0) with (last (b :: l) 0). rewrite IH.
      replace (length (a :: b :: l) - 1)%nat with (S (length (b :: l) - 1)) by (cbn [length]; lia). reflexivity. }
    intros l [->|H] N; [contradiction|]. intro E. apply H. rewrite G. exact E.
  Qed.
  Lemma check_part : forall mu i, part_b sh mu -> (i < length mu)%nat -> (checkb (less mu i) = true <-> part_b sh (less mu i)).
  Proof.
    intros mu i P H. pose proof (fun j => less_nonneg mu i j P H) as NN. pose proof (less_trimmed mu i) as TT. set (nu := less mu i) in *.
    unfold checkb, part_b. destruct sh.
    - split; [|apply strict_is_strict]. intro C.
      assert (D : forall j, (S j < length nu)%nat -> row nu (S j) < row nu j).
      { intros j Hj. unfold is_strict_partition in C. rewrite forallb_forall in C. specialize (C (Z.of_nat (S j))).
        replace (Z.of_nat (S j) - 1) with (Z.of_nat j) in C by lia. rewrite !nthz_row in C. apply Z.ltb_lt, C, In_zrange. unfold zlen. lia. }
      apply strict_of_rows; [|assumption]. intros j Hj. destruct (Nat.lt_ge_cases (S j) (length nu)) as [C1|C1].
      + specialize (D j C1). specialize (NN (S j)). lia.
      + assert (E : row nu (length nu - 1) <> 0) by (apply trimmed_last; [assumption|destruct nu; [simpl in Hj; lia|discriminate]]).
        replace (length nu - 1)%nat with j in E by lia. specialize (NN j). lia.
    - rewrite is_partition_weak. split.
      + intro W. rewrite <- (trim_id nu TT). apply weak_trim_partition. assumption.
      + intros [F D]. split; [|assumption]. revert F. apply Forall_impl. intros; lia.
  Qed.

  Lemma end_cell : forall mu i, (i < length mu)%nat -> part_b sh mu -> dc sh mu (endb mu i) /\ region sh (endb mu i) /\ ~ dc sh mu (nexts (endb mu i)).
  Proof.
    intros mu i H P. assert (D : dc sh mu (endb mu i)).
    { unfold dc, endb. cbn [fst snd]. apply dcell_nat. pose proof (row_pos mu i (proj1 (part_b_part _ _ P)) H). lia. }
    split; [assumption|]. split; [apply (dc_region sh mu); assumption|]. unfold dc, endb, nexts. cbn [fst snd]. intro X. apply dcell_nat in X. lia.
  Qed.

  Lemma std_up : forall lam mu i T x, part_b sh lam -> part_b sh mu -> (i < length mu)%nat -> part_b sh (less mu i) ->
    (forall b, dc sh lam b -> dc sh (less mu i) b) -> std lam (less mu i) T -> Z.abs x = zsum mu - zsum lam -> 1 <= Z.abs x -> allowed pr (endb mu i) x ->
    let b := endb mu i in std lam mu (tput b (sinsert x (entries T b)) T).
  Proof.
    intros lam mu i T x Plam Pmu Hi Pnu Inc (Pr & Cells & One & Rng & Sur & Inj & Rw & Cl) Hx Hx1 Al b.
    destruct (end_cell mu i Hi Pmu) as (Db & Rb & _). fold b in Db, Rb.
    assert (Dn : forall c, dc sh (less mu i) c <-> dc sh mu c /\ c <> b) by (intro c; apply less_dc; assumption).
    rewrite less_zsum in Rng, Sur by assumption.
    assert (Nb : forall y, ~ Hd T b y).
    { intros y Hy. assert (X : exists z, Hd T b z) by (exists y; assumption). apply Cells in X. destruct X as [X _]. apply Dn in X. destruct X as [_ X]. apply X. reflexivity. }
    pose proof (put_letter T b x Pr (region_positive sh b Rb) (Nb x)) as PL. cbv zeta in PL. destruct PL as [PU HU]. set (U := tput b (sinsert x (entries T b)) T) in *.
    assert (NoN : forall c y, (c = nexts b \/ c = nextd b) -> ~ Hd T c y).
    { intros c y Hc Hy. assert (X : exists z, Hd T c z) by (exists y; assumption). apply Cells in X. destruct X as [X _].
      assert (X2 : dc sh (less mu i) b).
      { destruct Hc as [->| ->]; [apply dc_left; assumption|apply dc_up; assumption]. }
      apply Dn in X2. destruct X2 as [_ X2]. apply X2. reflexivity. }
    assert (Nx : nexts b <> b) by (destruct b as [u v]; unfold nexts; cbn [fst snd]; intro E; injection E as E; lia).
    assert (Nd : nextd b <> b) by (destruct b as [u v]; unfold nextd; cbn [fst snd]; intro E; injection E as E; lia).
    split; [assumption|]. split; [|split; [|split; [|split; [|split; [|split]]]]].
    - intro c. split.
      + intros (y & Hy). apply HU in Hy. destruct Hy as [Hy|[-> ->]].
        * assert (X : exists z, Hd T c z) by (exists y; assumption). apply Cells in X. destruct X as [X1 X2]. apply Dn in X1. tauto.
        * split; [assumption|]. intro X. apply Inc in X. apply Dn in X. tauto.
      + intros [X1 X2]. destruct (box_dec c b) as [->|N].
        * exists x. apply HU. right. split; reflexivity.
        * assert (X : exists z, Hd T c z) by (apply Cells; split; [apply Dn; split; assumption|assumption]). destruct X as (z & Hz). exists z. apply HU. left. assumption.
    - intros c y z Hy Hz. apply HU in Hy. apply HU in Hz. destruct Hy as [Hy|[-> ->]], Hz as [Hz|[-> Ez]].
      + apply (One c); assumption.
      + subst c. exfalso. apply (Nb y Hy).
      + exfalso. apply (Nb z Hz).
      + reflexivity.
    - intros c y Hy. apply HU in Hy. destruct Hy as [Hy|[-> ->]].
      + destruct (Rng c y Hy). split; [lia|assumption].
      + split; [lia|assumption].
    - intros k Hk. destruct (Z.eq_dec k (zsum mu - zsum lam)) as [->|N].
      + exists b, x. split; [apply HU; right; split; reflexivity|assumption].
      + destruct (Sur k) as (c & y & Hy & E); [lia|]. exists c, y. split; [apply HU; left; assumption|assumption].
    - intros c d y z Hy Hz E. apply HU in Hy. apply HU in Hz. destruct Hy as [Hy|[-> ->]], Hz as [Hz|[-> ->]].
      + apply (Inj c d y z); assumption.
      + destruct (Rng _ _ Hy). lia.
      + destruct (Rng _ _ Hz). lia.
      + reflexivity.
    - intros c y z Hy Hz. apply HU in Hy. apply HU in Hz. destruct Hy as [Hy|[-> ->]], Hz as [Hz|[-> Ez]].
      + apply (Rw c); assumption.
      + destruct (Rng _ _ Hy). lia.
      + exfalso. apply (NoN _ z (or_introl eq_refl) Hz).
      + exfalso. apply Nx. assumption.
    - intros c y z Hy Hz. apply HU in Hy. apply HU in Hz. destruct Hy as [Hy|[-> ->]], Hz as [Hz|[-> Ez]].
      + apply (Cl c); assumption.
      + destruct (Rng _ _ Hy). lia.
      + exfalso. apply (NoN _ z (or_intror eq_refl) Hz).
      + exfalso. apply Nd. assumption.
  Qed.

  Lemma std_down : forall lam mu T, part_b sh lam -> part_b sh mu -> (forall b, dc sh lam b -> dc sh mu b) -> 1 <= zsum mu - zsum lam -> std lam mu T ->
    exists i x T', (i < length mu)%nat /\ part_b sh (less mu i) /\ (forall b, dc sh lam b -> dc sh (less mu i) b) /\ std lam (less mu i) T' /\
      Z.abs x = zsum mu - zsum lam /\ allowed pr (endb mu i) x /\ T = tput (endb mu i) (sinsert x (entries T' (endb mu i))) T'.
  Proof.
    intros lam mu T Plam Pmu Inc HN (Pr & Cells & One & Rng & Sur & Inj & Rw & Cl).
    destruct (Sur (zsum mu - zsum lam)) as (b & x & Hb & Hx); [lia|].
    assert (Db : dc sh mu b /\ ~ dc sh lam b) by (apply Cells; exists x; assumption). destruct Db as [Db Lb].
    assert (Rb : region sh b) by (apply (dc_region sh mu); assumption).
    assert (N1 : ~ dc sh mu (nexts b)).
    { intro D. destruct (proj2 (Cells (nexts b))) as (y & Hy).
      - split; [assumption|]. intro X. apply Lb. apply dc_left; assumption.
      - pose proof (Rw b x y Hb Hy). destruct (Rng _ _ Hy). lia. }
    assert (N2 : ~ dc sh mu (nextd b)).
    { intro D. destruct (proj2 (Cells (nextd b))) as (y & Hy).
      - split; [assumption|]. intro X. apply Lb. apply dc_up; assumption.
      - pose proof (Cl b x y Hb Hy). destruct (Rng _ _ Hy). lia. }
    destruct (shape_of sh mu (fun c => dc sh mu c /\ c <> b) Pmu) as (nu & Pnu & Dnu).
    { intro c. destruct (dc_dec sh mu c), (box_dec c b); tauto. }
    { intros c [H _]. assumption. }
    { intros c R [H _]. split; [apply dc_left; assumption|]. intros ->. contradiction. }
    { intros c R [H _]. split; [apply dc_up; assumption|]. intros ->. contradiction. }
    assert (Eb : exists i, (i < length mu)%nat /\ b = endb mu i).
    { destruct b as [u v]. unfold dc in Db, N1. cbn [fst snd nexts] in Db, N1. destruct (dcell_row _ _ _ _ Db) as (i & ->). exists i.
      apply dcell_nat in Db. rewrite dcell_nat in N1. split; [apply row_in_range; lia|]. unfold endb. f_equal. lia. }
    destruct Eb as (i & Hi & ->).
    assert (En : less mu i = nu).
    { apply trimmed_ext; [apply less_trimmed|apply partition_trimmed, (part_b_part sh); assumption|]. intro j.
      assert (A : forall c, dc sh (less mu i) c <-> dc sh nu c) by (intro c; rewrite Dnu; apply less_dc; assumption).
      pose proof (less_nonneg mu i j Pmu Hi) as G1. pose proof (partition_nonneg nu j (part_b_part _ _ Pnu)) as G2.
      assert (B : forall t, 1 <= t <= row (less mu i) j <-> 1 <= t <= row nu j).
      { intro t. specialize (A (Z.of_nat j + 1, off sh (Z.of_nat j) + t)). unfold dc in A. cbn [fst snd] in A. rewrite !dcell_nat in A.
        replace (off sh (Z.of_nat j) + t - off sh (Z.of_nat j)) with t in A by lia. exact A. }
      pose proof (B (row (less mu i) j)). pose proof (B (row nu j)). lia. }
    set (b := endb mu i) in *. subst nu.
    destruct (remv_spec x T Pr) as [PU HU].
    assert (HU' : forall c y, Hd (remv x T) c y <-> Hd T c y /\ c <> b).
    { intros c y. rewrite HU. split; intros [H1 H2]; split; try assumption.
      - intros ->. apply H2. apply (One b); assumption.
      - intros ->. apply H2. apply (Inj c b x x); [assumption|assumption|reflexivity]. }
    exists i, x, (remv x T). split; [assumption|]. split; [assumption|]. split.
    { intros c Hc. apply Dnu. split; [apply Inc; assumption|]. intros ->. contradiction. }
    split; [|split; [assumption|split; [apply (Rng b x Hb)|]]].
    - unfold std. rewrite less_zsum by assumption. split; [assumption|]. split; [|split; [|split; [|split; [|split; [|split]]]]].
      + intro c. split.
        * intros (y & Hy). apply HU' in Hy. destruct Hy as [Hy Nc]. assert (X : exists z, Hd T c z) by (exists y; assumption). apply Cells in X.
          rewrite Dnu. tauto.
        * intros [D L]. apply Dnu in D. destruct D as [D Nc]. destruct (proj2 (Cells c) (conj D L)) as (y & Hy). exists y. apply HU'. split; assumption.
      + intros c y z Hy Hz. apply HU' in Hy. apply HU' in Hz. apply (One c); tauto.
      + intros c y Hy. apply HU' in Hy. destruct Hy as [Hy Nc]. destruct (Rng c y Hy) as [G A]. split; [|assumption].
        assert (Z.abs y <> Z.abs x) by (intro E; apply Nc; apply (Inj c b y x); assumption). lia.
      + intros k Hk. destruct (Sur k) as (c & y & Hy & E); [lia|]. exists c, y. split; [|assumption]. apply HU'. split; [assumption|].
        intros ->. assert (y = x) by (apply (One b); assumption). subst y. lia.
      + intros c d y z Hy Hz E. apply HU' in Hy. apply HU' in Hz. apply (Inj c d y z); tauto.
      + intros c y z Hy Hz. apply HU' in Hy. apply HU' in Hz. apply (Rw c); tauto.
      + intros c y z Hy Hz. apply HU' in Hy. apply HU' in Hz. apply (Cl c); tauto.
    - fold b. assert (Nb : ~ Hd (remv x T) b x) by (rewrite HU; tauto).
      pose proof (put_letter (remv x T) b x PU (region_positive sh b Rb) Nb) as PL. cbv zeta in PL. destruct PL as [PU2 HU2].
      apply proper_ext; [assumption|assumption|]. intros c y. rewrite HU2, HU'. split.
      + intro Hy. destruct (box_dec c b) as [->|N]; [right; split; [apply (One b); assumption|reflexivity]|left; split; assumption].
      + intros [[Hy _]|[-> ->]]; assumption.
  Qed.

  Lemma std_equal : forall lam T, part_b sh lam -> (std lam lam T <-> T = []).
  Proof.
    intros lam T P. split.
    - intros (Pr & Cells & _). apply proper_ext; [assumption|apply proper_nil|]. intros b x. split.
      + intro H. assert (X : exists z, Hd T b z) by (exists x; assumption). apply Cells in X. tauto.
      + intros (l & H & _). destruct H.
    - intros ->. assert (N : forall b x, ~ Hd [] b x) by (intros b x (l & H & _); destruct H).
      split; [apply proper_nil|]. split; [|repeat split; intros; try (exfalso; eapply N; eassumption)].
      + intro b. split; [intros (x & H); exfalso; apply (N b x H)|tauto].
      + lia.
  Qed.

  Lemma incl_sum : forall lam mu, part_b sh lam -> part_b sh mu -> (forall b, dc sh lam b -> dc sh mu b) -> zsum lam <= zsum mu /\ (zsum mu = zsum lam -> mu = lam).
  Proof.
    intros lam mu Pl Pm Inc. pose proof (proj1 (part_incl sh lam mu Pl Pm) Inc) as Inc2. clear Inc. rename Inc2 into Inc. apply part_b_part in Pl. apply part_b_part in Pm.
    assert (G : forall a b, (forall i, row a i <= row b i) -> Forall (fun x => 0 < x) a -> Forall (fun x => 0 < x) b -> zsum a <= zsum b /\ (zsum b = zsum a -> b = a)).
    { clear. induction a as [|x a IH]; intros [|y b] H Fa Fb.
      - split; [lia|reflexivity].
      - assert (0 < y) by (inversion Fb; assumption). assert (0 <= zsum b) by (apply zsum_pos_nonneg; inversion Fb; assumption). cbn [zsum]. split; lia.
      - specialize (H O). inversion Fa; subst. unfold row in H. cbn [nth] in H. lia.
      - inversion Fa; inversion Fb; subst. destruct (IH b) as [G1 G2]; [intro i; exact (H (S i))|assumption|assumption|].
        pose proof (H O) as H0. unfold row in H0. cbn [nth] in H0. cbn [zsum]. split; [lia|]. intro E. rewrite G2 by lia. f_equal. lia. }
    apply G; [assumption|apply Pl|apply Pm].
  Qed.
End Std.

Lemma std_spec : forall sh pr lam mu T, std sh pr lam mu T <-> standard_filling (dcell sh) (fun i j => pr (i, j)) lam mu T.
Proof.
  intros sh pr lam mu T. unfold std, standard_filling. rewrite !(zsum_size). split.
  - intros ((W & Ne) & Cells & One & Rng & Sur & Inj & Rw & Cl). split; [assumption|].
    split; [|split; [|split; [|split; [|split; [|split]]]]].
    + intros i j. specialize (Cells (i, j)). unfold dc in Cells. cbn [fst snd] in Cells. unfold in_skew. rewrite <- Cells. split.
      * intros (l & Hl). destruct (Ne _ _ Hl) as [N _]. destruct l as [|x l]; [contradiction|]. exists x, (x :: l). split; [assumption|left; reflexivity].
      * intros (x & l & Hl & _). exists l. assumption.
    + intros i j l Hl. destruct (Ne _ _ Hl) as [N ND]. destruct l as [|x [|y l]]; [contradiction|reflexivity|]. exfalso.
      assert (x = y). { apply (One (i, j)); exists (x :: y :: l); (split; [assumption|]); [left|right; left]; reflexivity. }
      subst y. inversion ND; subst. apply H1. left. reflexivity.
    + intros i j x H. exact (Rng (i, j) x H).
    + intros k Hk. destruct (Sur k Hk) as ([i j] & x & H & E). exists i, j, x. split; assumption.
    + intros i j x i' j' y H1 H2 E. pose proof (Inj (i, j) (i', j') x y H1 H2 E) as Q. injection Q. auto.
    + intros i j x y. exact (Rw (i, j) x y).
    + intros i j x y. exact (Cl (i, j) x y).
  - intros (W & Cells & One & Rng & Sur & Inj & Rw & Cl). split; [split; [assumption|]|split; [|split; [|split; [|split; [|split; [|split]]]]]].
    + intros [i j] l Hl. specialize (One i j l Hl). destruct l as [|x [|y l]]; try discriminate. split; [discriminate|]. constructor; [intros []|constructor].
    + intros [i j]. specialize (Cells i j). unfold in_skew in Cells. unfold dc. cbn [fst snd]. rewrite <- Cells. split.
      * intros (x & l & Hl & _). exists l. assumption.
      * intros (l & Hl). pose proof (One i j l Hl) as L. destruct l as [|x l]; [discriminate|]. exists x, (x :: l). split; [assumption|left; reflexivity].
    + intros [i j] x y (l & Hl & Hx) (l' & Hl' & Hy). pose proof (One i j l Hl) as L.
      assert (l' = l). { pose proof (In_tlookup T _ _ (proj1 W) Hl) as A. pose proof (In_tlookup T _ _ (proj1 W) Hl') as B. cbn [fst snd] in A, B. congruence. }
      subst l'. destruct l as [|z [|w l]]; try discriminate. destruct Hx as [<-|[]], Hy as [<-|[]]. reflexivity.
    + intros [i j] x H. exact (Rng i j x H).
    + intros k Hk. destruct (Sur k Hk) as (i & j & x & H & E). exists (i, j), x. split; assumption.
    + intros [i j] [i' j'] x y H1 H2 E. destruct (Inj i j x i' j' y H1 H2 E) as [-> ->]. reflexivity.
    + intros [i j] x y. exact (Rw i j x y).
    + intros [i j] x y. exact (Cl i j x y).
Qed.

Section Enum.
  Variable tord : list tab -> list tab.
  Hypothesis tord_perm : forall l, Permutation (tord l) l.

  Lemma tord_In : forall l t, In t (tord l) <-> In t l.
  Proof. intros l t. split; apply Permutation_in; [apply tord_perm|apply Permutation_sym, tord_perm]. Qed.

  Lemma std_tadd : forall sh pr lam mu i T x, part_b sh mu -> (i < length mu)%nat -> std sh pr lam (less mu i) T ->
    tadd T (Z.of_nat i + 1) (off sh (Z.of_nat i) + row mu i) (VInt x) = Ok (tput (endb sh mu i) (sinsert x (entries T (endb sh mu i))) T).
  Proof.
    intros sh pr lam mu i T x P Hi ((W & _) & _). apply tadd_int; [assumption|lia|].
    pose proof (row_pos mu i (proj1 (part_b_part _ _ P)) Hi). destruct sh; cbn [off]; lia.
  Qed.

  Lemma not_contains : forall sh mu lam, part_b sh mu -> part_b sh lam -> contains mu lam = false -> ~ (forall b, dc sh lam b -> dc sh mu b).
  Proof. intros sh mu lam P1 P2 H C. apply (contains_incl sh mu lam P1 P2) in C. congruence. Qed.

  Lemma standard_ok : forall lam, partition lam -> forall fuel mu, partition mu -> (forall b, dc false lam b -> dc false mu b) ->
    zsum mu - zsum lam <= Z.of_nat fuel ->
    exists r, standard_fuel tord fuel mu lam = Ok r /\ NoDup r /\ forall T, In T r <-> std false (fun _ => False) lam mu T.
  Proof.
    intros lam Pl. induction fuel as [|f IH]; intros mu Pm Inc Hf.
    - destruct (incl_sum false lam mu Pl Pm Inc) as [S1 S2]. assert (E : mu = lam) by (apply S2; lia). subst mu. cbn [standard_fuel].
      rewrite zlist_eqb_refl. exists [[]]. split; [reflexivity|]. split; [constructor; [intros []|constructor]|].
      intro T. rewrite (std_equal false _ lam T Pl). cbn [In]. split; [intros [<-|[]]; reflexivity|intros ->; left; reflexivity].
    - cbn [standard_fuel]. destruct (zlist_eqb mu lam) eqn:E.
      { apply zlist_eqb_eq in E. subst mu. exists [[]]. split; [reflexivity|]. split; [constructor; [intros []|constructor]|].
        intro T. rewrite (std_equal false _ lam T Pl). cbn [In]. split; [intros [<-|[]]; reflexivity|intros ->; left; reflexivity]. }
      assert (NE : mu <> lam) by (intros ->; rewrite zlist_eqb_refl in E; discriminate).
      destruct (incl_sum false lam mu Pl Pm Inc) as [S1 S2]. assert (HN : 1 <= zsum mu - zsum lam) by (assert (zsum mu <> zsum lam) by auto; lia).
      rewrite (proj2 (contains_incl false mu lam Pm Pl) Inc). cbv zeta.
      set (F := fun i : Z => if is_partition (trim (upd mu (Z.to_nat i) (nthz mu i - 1))) then
        do tabs <- standard_fuel tord f (trim (upd mu (Z.to_nat i) (nthz mu i - 1))) lam;
        rmap (fun t => tadd t (i + 1) (nthz mu i) (VInt (zsum mu - zsum lam))) (tord tabs) else Ok []).
      assert (FX : forall i, (i < length mu)%nat -> exists ys, F (Z.of_nat i) = Ok ys /\
        forall U, In U ys <-> part_b false (less mu i) /\ (forall b, dc false lam b -> dc false (less mu i) b) /\
          exists T, std false (fun _ => False) lam (less mu i) T /\ U = tput (endb false mu i) (sinsert (zsum mu - zsum lam) (entries T (endb false mu i))) T).
      { intros i Hi. unfold F. rewrite Nat2Z.id, nthz_row. change (trim (upd mu i (row mu i - 1))) with (less mu i).
        pose proof (check_part false mu i Pm Hi) as CP. unfold checkb in CP. destruct (is_partition (less mu i)) eqn:EP.
        2:{ exists []. split; [reflexivity|]. intro U. split; [intros []|intros (X & _); apply CP in X; discriminate]. }
        assert (Pn : part_b false (less mu i)) by (apply CP; reflexivity).
        destruct (contains (less mu i) lam) eqn:EC.
        - pose proof (proj1 (contains_incl false (less mu i) lam Pn Pl) EC) as Inc2.
          destruct (IH (less mu i) Pn Inc2) as (r & Er & _ & Hr); [rewrite less_zsum by assumption; lia|].
          rewrite Er. cbn [rbind].
          destruct (rmap_ok _ _ (fun t => tadd t (Z.of_nat i + 1) (row mu i) (VInt (zsum mu - zsum lam))) (tord r)) as (ys & Ey & Hy).
          { intros t Ht. apply (proj1 (tord_In _ _)) in Ht. apply Hr in Ht. eexists. exact (std_tadd false _ lam mu i t _ Pm Hi Ht). }
          exists ys. split; [exact Ey|]. intro U. rewrite Hy. split.
          + intros (t & Ht & Eq). apply (proj1 (tord_In _ _)) in Ht. apply Hr in Ht. split; [assumption|]. split; [assumption|]. exists t. split; [assumption|].
            pose proof (std_tadd false _ lam mu i t (zsum mu - zsum lam) Pm Hi Ht) as Q. cbn [off] in Q. rewrite Z.add_0_l in Q. rewrite Q in Eq. injection Eq as <-. reflexivity.
          + intros (_ & _ & t & Ht & ->). exists t. split; [apply (proj2 (tord_In _ _)), Hr; assumption|]. exact (std_tadd false _ lam mu i t _ Pm Hi Ht).
        - pose proof (not_contains false _ _ Pn Pl EC) as NI. exists []. split.
          + assert (Q : standard_fuel tord f (less mu i) lam = Ok []).
            { assert (Q1 : zlist_eqb (less mu i) lam = false).
              { destruct (zlist_eqb (less mu i) lam) eqn:Q2; [|reflexivity]. apply zlist_eqb_eq in Q2. exfalso. apply NI. rewrite Q2. auto. }
              destruct f; cbn [standard_fuel]; rewrite Q1, EC; reflexivity. }
            rewrite Q. cbn [rbind]. assert (Q2 : tord [] = []) by (apply Permutation_nil, Permutation_sym, tord_perm). rewrite Q2. reflexivity.
          + intro U. split; [intros []|intros (_ & X & _); contradiction]. }
      destruct (rconcat_ok _ _ F (zrange 0 (zlen mu))) as (r & Er & Hr).
      { intros z Hz. apply In_zrange in Hz. unfold zlen in Hz. destruct (FX (Z.to_nat z)) as (ys & Ey & _); [lia|]. rewrite Z2Nat.id in Ey by lia. exists ys. assumption. }
      rewrite Er. cbn [rbind]. exists (set_tab r). split; [reflexivity|]. split; [apply set_tab_NoDup|]. intro U. rewrite set_tab_In, Hr. split.
      + intros (z & ys & Hz & Ey & Hu). apply In_zrange in Hz. unfold zlen in Hz. destruct (FX (Z.to_nat z)) as (ys' & Ey' & Hy'); [lia|].
        rewrite Z2Nat.id in Ey' by lia. rewrite Ey in Ey'. injection Ey' as <-. apply Hy' in Hu. destruct Hu as (Pn & Inc2 & t & Ht & ->).
        apply (std_up false); try assumption; [lia|lia|lia|]. intro X. lia.
      + intro Hu. destruct (std_down false _ lam mu U Pl Pm Inc HN Hu) as (i & x & t & Hi & Pn & Inc2 & Ht & Hx & Al & Eq).
        destruct (FX i Hi) as (ys & Ey & Hy). exists (Z.of_nat i), ys. split; [apply In_zrange; unfold zlen; lia|]. split; [assumption|].
        apply Hy. split; [assumption|]. split; [assumption|]. exists t. split; [assumption|].
        assert (x = zsum mu - zsum lam). { destruct (Z.lt_ge_cases x 0) as [C|C]; [destruct (Al C)|lia]. } subst x. assumption.
  Qed.

  Lemma standard_shifted_ok : forall dp lam, strict_partition lam -> forall fuel mu, strict_partition mu -> (forall b, dc true lam b -> dc true mu b) ->
    zsum mu - zsum lam <= Z.of_nat fuel ->
    exists r, standard_shifted_marked_fuel tord fuel mu lam dp = Ok r /\ NoDup r /\
      forall T, In T r <-> std true (fun b => dp = true \/ fst b <> snd b) lam mu T.
  Proof.
    intros dp lam Pl. set (pr := fun b : box => dp = true \/ fst b <> snd b).
    assert (Base : forall r0, r0 = [[]] -> NoDup r0 /\ forall T, In T r0 <-> std true pr lam lam T).
    { intros r0 ->. split; [constructor; [intros []|constructor]|].
      intro T. rewrite (std_equal true _ lam T Pl). cbn [In]. split; [intros [<-|[]]; reflexivity|intros ->; left; reflexivity]. }
    induction fuel as [|f IH]; intros mu Pm Inc Hf.
    - destruct (incl_sum true lam mu Pl Pm Inc) as [S1 S2]. assert (E : mu = lam) by (apply S2; lia). subst mu. cbn [standard_shifted_marked_fuel].
      rewrite (strict_is_strict lam Pl). cbn [negb]. rewrite zlist_eqb_refl. exists [[]]. split; [reflexivity|]. apply Base. reflexivity.
    - cbn [standard_shifted_marked_fuel]. rewrite (strict_is_strict mu Pm). cbn [negb]. destruct (zlist_eqb mu lam) eqn:E.
      { apply zlist_eqb_eq in E. subst mu. exists [[]]. split; [reflexivity|]. apply Base. reflexivity. }
      assert (NE : mu <> lam) by (intros ->; rewrite zlist_eqb_refl in E; discriminate).
      destruct (incl_sum true lam mu Pl Pm Inc) as [S1 S2]. assert (HN : 1 <= zsum mu - zsum lam) by (assert (zsum mu <> zsum lam) by auto; lia).
      rewrite (proj2 (contains_incl true mu lam Pm Pl) Inc). cbv zeta.
      set (n := zsum mu - zsum lam) in *.
      set (F := fun i : Z => if is_strict_partition (trim (upd mu (Z.to_nat i) (nthz mu i - 1))) then
        do tabs <- standard_shifted_marked_fuel tord f (trim (upd mu (Z.to_nat i) (nthz mu i - 1))) lam dp;
        rconcat (fun t => do t1 <- tadd t (i + 1) (i + nthz mu i) (VInt n);
                if dp || negb (i + 1 =? i + nthz mu i)
                then do t2 <- tadd t (i + 1) (i + nthz mu i) (VInt (- n)); Ok [t1; t2]
                else Ok [t1]) (tord tabs) else Ok []).
      assert (FX : forall i, (i < length mu)%nat -> exists ys, F (Z.of_nat i) = Ok ys /\
        forall U, In U ys <-> part_b true (less mu i) /\ (forall b, dc true lam b -> dc true (less mu i) b) /\
          exists T x, std true pr lam (less mu i) T /\ (x = n \/ x = - n /\ pr (endb true mu i)) /\ U = tput (endb true mu i) (sinsert x (entries T (endb true mu i))) T).
      { intros i Hi. unfold F. rewrite Nat2Z.id, nthz_row. change (trim (upd mu i (row mu i - 1))) with (less mu i).
        pose proof (check_part true mu i Pm Hi) as CP. unfold checkb in CP. destruct (is_strict_partition (less mu i)) eqn:EP.
        2:{ exists []. split; [reflexivity|]. intro U. split; [intros []|intros (X & _); apply CP in X; discriminate]. }
        assert (Pn : part_b true (less mu i)) by (apply CP; reflexivity).
        destruct (contains (less mu i) lam) eqn:EC.
        - pose proof (proj1 (contains_incl true (less mu i) lam Pn Pl) EC) as Inc2.
          destruct (IH (less mu i) Pn Inc2) as (r & Er & _ & Hr); [rewrite less_zsum by assumption; lia|].
          rewrite Er. cbn [rbind].
          set (G := fun t => do t1 <- tadd t (Z.of_nat i + 1) (Z.of_nat i + row mu i) (VInt n);
                if dp || negb (Z.of_nat i + 1 =? Z.of_nat i + row mu i)
                then do t2 <- tadd t (Z.of_nat i + 1) (Z.of_nat i + row mu i) (VInt (- n)); Ok [t1; t2]
                else Ok [t1]).
          assert (PB : dp || negb (Z.of_nat i + 1 =? Z.of_nat i + row mu i) = true <-> pr (endb true mu i)).
          { unfold pr, endb. cbn [fst snd off]. rewrite orb_true_iff, negb_true_iff, Z.eqb_neq. reflexivity. }
          set (put := fun x t => tput (endb true mu i) (sinsert x (entries t (endb true mu i))) t).
          assert (GX : forall t, In t r -> exists ys, G t = Ok ys /\ forall U, In U ys <-> exists x, (x = n \/ x = - n /\ pr (endb true mu i)) /\ U = put x t).
          { intros t Ht. apply Hr in Ht. unfold G.
            pose proof (std_tadd true _ lam mu i t n Pm Hi Ht) as Q1. pose proof (std_tadd true _ lam mu i t (- n) Pm Hi Ht) as Q2. cbn [off] in Q1, Q2.
            rewrite Q1, Q2. cbn [rbind]. destruct (dp || negb (Z.of_nat i + 1 =? Z.of_nat i + row mu i)) eqn:ED.
            - assert (PE : pr (endb true mu i)) by (apply PB; reflexivity). eexists. split; [reflexivity|]. intro U. cbn [In]. split.
              + intros [<-|[<-|[]]]; [exists n; split; [left; reflexivity|reflexivity]|exists (- n); split; [right; split; [reflexivity|assumption]|reflexivity]].
              + intros (x & [->|[-> _]] & ->); [left|right; left]; reflexivity.
            - eexists. split; [reflexivity|]. intro U. cbn [In]. split.
              + intros [<-|[]]. exists n; split; [left; reflexivity|reflexivity].
              + intros (x & [->|[-> X]] & ->); [left; reflexivity|]. apply PB in X. discriminate. }
          destruct (rconcat_ok _ _ G (tord r)) as (ys & Ey & Hy).
          { intros t Ht. apply (proj1 (tord_In _ _)) in Ht. destruct (GX t Ht) as (zs & Ez & _). exists zs. assumption. }
          exists ys. split; [exact Ey|]. intro U. rewrite Hy. split.
          + intros (t & zs & Ht & Eq & Hu). apply (proj1 (tord_In _ _)) in Ht. destruct (GX t Ht) as (zs' & Ez & Hz). rewrite Eq in Ez. injection Ez as <-. apply Hz in Hu.
            destruct Hu as (x & Hx & ->). split; [assumption|]. split; [assumption|]. exists t, x. split; [apply Hr; assumption|]. split; [assumption|reflexivity].
          + intros (_ & _ & t & x & Ht & Hx & ->). apply Hr in Ht. destruct (GX t Ht) as (zs & Ez & Hz). exists t, zs.
            split; [apply (proj2 (tord_In _ _)); assumption|]. split; [assumption|]. apply Hz. exists x. split; [assumption|reflexivity].
        - pose proof (not_contains true _ _ Pn Pl EC) as NI. exists []. split.
          + assert (Q : standard_shifted_marked_fuel tord f (less mu i) lam dp = Ok []).
            { assert (Q1 : zlist_eqb (less mu i) lam = false).
              { destruct (zlist_eqb (less mu i) lam) eqn:Q2; [|reflexivity]. apply zlist_eqb_eq in Q2. exfalso. apply NI. rewrite Q2. auto. }
              destruct f; cbn [standard_shifted_marked_fuel]; rewrite EP, Q1, EC; reflexivity. }
            rewrite Q. cbn [rbind]. assert (Q2 : tord [] = []) by (apply Permutation_nil, Permutation_sym, tord_perm). rewrite Q2. reflexivity.
          + intro U. split; [intros []|intros (_ & X & _); contradiction]. }
      destruct (rconcat_ok _ _ F (zrange 0 (zlen mu))) as (r & Er & Hr).
      { intros z Hz. apply In_zrange in Hz. unfold zlen in Hz. destruct (FX (Z.to_nat z)) as (ys & Ey & _); [lia|]. rewrite Z2Nat.id in Ey by lia. exists ys. assumption. }
      rewrite Er. cbn [rbind]. exists (set_tab r). split; [reflexivity|]. split; [apply set_tab_NoDup|]. intro U. rewrite set_tab_In, Hr. split.
      + intros (z & ys & Hz & Ey & Hu). apply In_zrange in Hz. unfold zlen in Hz. destruct (FX (Z.to_nat z)) as (ys' & Ey' & Hy'); [lia|].
        rewrite Z2Nat.id in Ey' by lia. rewrite Ey in Ey'. injection Ey' as <-. apply Hy' in Hu. destruct Hu as (Pn & Inc2 & t & x & Ht & Hx & ->).
        apply (std_up true); try assumption; [lia|unfold n in *; lia|lia|]. intro X. destruct Hx as [Hx|[_ Hx]]; [lia|assumption].
      + intro Hu. destruct (std_down true _ lam mu U Pl Pm Inc HN Hu) as (i & x & t & Hi & Pn & Inc2 & Ht & Hx & Al & Eq).
        destruct (FX i Hi) as (ys & Ey & Hy). exists (Z.of_nat i), ys. split; [apply In_zrange; unfold zlen; lia|]. split; [assumption|].
        apply Hy. split; [assumption|]. split; [assumption|]. exists t, x. split; [assumption|]. split; [|assumption].
        unfold n. destruct (Z.lt_ge_cases x 0) as [C|C]; [right; split; [lia|apply Al; assumption]|left; lia].
  Qed.
End Enum.
