(* The generating function of the tableaux of one shape as a sum over chains of strips *)
From Coq Require Import List ZArith Lia Bool Permutation Arith.
From Verif Require Import PyBase M_Partitions S_Partitions L_Partitions L_PartBasic L_Growth L_PartMore L_PartEnum M_Tableaux S_Tableaux M_Strips S_Strips L_Strips L_Strips2
  M_Semistandard S_Semistandard L_Fill L_Shape L_Semi L_Semi2 L_Semi3 L_Semi4 L_Count L_Count2 L_Count3 L_Kostka L_Sym1 L_Sym2.
From Verif Require L_Destand2.
Import ListNotations.
Local Open Scope Z_scope.

Lemma zs_fibers : forall I A (f : A -> Z) (P : I -> list A) L R, NoDup L -> NoDup R -> (forall i, In i L -> NoDup (P i)) ->
  (forall i j x, In i L -> In j L -> In x (P i) -> In x (P j) -> i = j) -> (forall x, In x R <-> exists i, In i L /\ In x (P i)) ->
  zs f R = zs (fun i => zs f (P i)) L.
Proof.
  intros I A f P L R NL NR NP D H. rewrite <- zs_flat_map. apply zs_same; [assumption|apply NoDup_flat_map; assumption|]. intro x. rewrite H, in_flat_map. reflexivity.
Qed.

Lemma half_sum : forall sh pr sv lam k mu r (R : list tab) (tabs : list Z -> list tab) (f : tab -> Z), 1 <= k -> part_b sh lam -> part_b sh mu -> (forall b, dc sh lam b -> dc sh mu b) ->
  layer_ok sh pr lam k mu r -> NoDup R -> (forall T, In T R <-> full sh pr sv lam k mu T) ->
  (forall nu d c, In (nu, d, c) r -> NoDup (tabs nu) /\ forall T, In T (tabs nu) <-> full sh pr sv lam (k - 1) nu T) ->
  zs f R = zs (fun s : strip => match s with (nu, d, c) => zs (fun C => zs (fun T => f (addv (letter k) (d ++ C) T)) (tabs nu)) (choose sv c) end) r.
Proof.
  intros sh pr sv lam k mu r R tabs f Hk Hl Hm Hi L NR HR HT.
  set (idx := flat_map (fun s : strip => map (fun C => (s, C)) (choose sv (snd s))) r).
  set (P := fun i : strip * list box => match i with ((nu, d, c), C) => map (addv (letter k) (d ++ C)) (tabs nu) end).
  assert (Hidx : forall nu d c C, In ((nu, d, c), C) idx <-> In (nu, d, c) r /\ In C (choose sv c)).
  { intros nu d c C. unfold idx. rewrite in_flat_map. split.
    - intros (s & Hs & H). apply in_map_iff in H. destruct H as (C' & E & H). injection E as -> ->. split; assumption.
    - intros [H1 H2]. exists (nu, d, c). split; [assumption|]. apply in_map. assumption. }
  assert (U : forall i j T1 T2, In i idx -> In j idx -> In T1 (tabs (sshape (fst i))) -> In T2 (tabs (sshape (fst j))) ->
    (match i with ((nu, d, c), C) => addv (letter k) (d ++ C) T1 end) = (match j with ((nu, d, c), C) => addv (letter k) (d ++ C) T2 end) -> i = j /\ T1 = T2).
  { intros [[[nu1 d1] c1] C1] [[[nu2 d2] c2] C2] T1 T2 H1 H2 HT1 HT2 E. apply Hidx in H1, H2. destruct H1 as [H1 H1'], H2 as [H2 H2']. cbn [fst sshape] in HT1, HT2.
    apply (HT _ _ _ H1) in HT1. apply (HT _ _ _ H2) in HT2.
    destruct (half_unique sh pr sv lam k Hk mu r L _ _ _ _ _ _ _ _ _ _ H1 H1' HT1 H2 H2' HT2 E) as (X1 & X2 & X3). split; [f_equal; assumption|assumption]. }
  rewrite (zs_fibers _ _ f P idx R).
  - unfold idx. rewrite zs_flat_map. apply zs_ext. intros [[nu d] c] _. cbn [snd]. rewrite zs_map. apply zs_ext. intros C _. unfold P. rewrite zs_map. reflexivity.
  - unfold idx. apply NoDup_flat_map.
    + eapply layer_NoDup; eassumption.
    + intros [[nu d] c] Hs. apply NoDup_map_inj_in; [intros ? ? _ _ E; exact (f_equal snd E)|]. apply choose_NoDup. destruct L as (_ & _ & D). apply (D _ _ _ Hs).
    + intros s s' b _ _ H1 H2. apply in_map_iff in H1, H2. destruct H1 as (? & <- & _), H2 as (? & E & _). apply (f_equal fst) in E. symmetry. exact E.
  - assumption.
  - intros [[[nu d] c] C] Hi'. unfold P. apply NoDup_map_inj_in; [|apply Hidx in Hi'; destruct Hi' as [Hr _]; apply (HT _ _ _ Hr)].
    intros T1 T2 H1 H2 E. exact (proj2 (U _ _ T1 T2 Hi' Hi' H1 H2 E)).
  - intros i j T Hi1 Hj1 H1 H2. unfold P in H1, H2.
    assert (X1 : exists T1, In T1 (tabs (sshape (fst i))) /\ T = match i with ((nu, d, c), C) => addv (letter k) (d ++ C) T1 end).
    { destruct i as [[[nu1 d1] c1] C1]. apply in_map_iff in H1. destruct H1 as (T1 & E & H1). exists T1. split; [exact H1|congruence]. }
    assert (X2 : exists T2, In T2 (tabs (sshape (fst j))) /\ T = match j with ((nu, d, c), C) => addv (letter k) (d ++ C) T2 end).
    { destruct j as [[[nu1 d1] c1] C1]. apply in_map_iff in H2. destruct H2 as (T1 & E & H2). exists T1. split; [exact H2|congruence]. }
    destruct X1 as (T1 & HT1 & E1), X2 as (T2 & HT2 & E2). apply (U i j T1 T2 Hi1 Hj1 HT1 HT2). etransitivity; [symmetry; exact E1|exact E2].
  - intro T. rewrite HR. split.
    + intro F. destruct (half_down sh pr sv lam Hl k Hk mu r Hm Hi L T F) as (nu & d & c & C & T' & Hr & HC & F' & ->).
      exists ((nu, d, c), C). split; [apply Hidx; split; assumption|]. unfold P. apply in_map. apply (HT _ _ _ Hr). assumption.
    + intros ([[[nu d] c] C] & H1 & H2). apply Hidx in H1. destruct H1 as [Hr HC]. unfold P in H2. apply in_map_iff in H2. destruct H2 as (T' & <- & H2). apply (HT _ _ _ Hr) in H2.
      apply (half_up sh pr sv lam k Hk mu r Hi L nu d c C T'); assumption.
Qed.

(* occurrences in an extended tableau *)
Lemma occ_add : forall sh pr sv lam k mu r nu d c C T m, 1 <= k -> layer_ok sh pr lam k mu r -> In (nu, d, c) r -> In C (choose sv c) -> full sh pr sv lam (k - 1) nu T ->
  occurrences m (addv (letter k) (d ++ C) T) = occurrences m T + ind (Z.abs (letter k) =? m) * (zlen d + zlen C).
Proof.
  intros sh pr sv lam k mu r nu d c C T m Hk L Hr HC F. destruct (aug_ok sh pr sv lam k mu r L nu d c C Hr HC) as (ND & _ & _ & P).
  rewrite occ_addv; [unfold zlen; rewrite app_length, Nat2Z.inj_add; reflexivity|apply F|assumption|].
  intros b Hb. split; [apply (region_positive sh); apply P; assumption|eapply no_letter; eassumption].
Qed.

Lemma sum_choose_pow : forall A sv (l : list A) x, zs (fun C => x ^ zlen C) (choose sv l) = (1 + ind sv * x) ^ zlen l.
Proof.
  intros A [|] l x; cbn [choose ind].
  - rewrite Z.mul_1_l. induction l as [|a l IH]; [cbn; reflexivity|]. cbn [sublists]. rewrite zs_app, zs_map, IH.
    rewrite (zs_ext _ (fun C => x ^ zlen (a :: C)) (fun C => x * x ^ zlen C)).
    + rewrite zs_scale, IH. replace (zlen (a :: l)) with (Z.succ (zlen l)) by (unfold zlen; cbn [length]; lia). rewrite Z.pow_succ_r by (unfold zlen; lia). ring.
    + intros C _. replace (zlen (a :: C)) with (Z.succ (zlen C)) by (unfold zlen; cbn [length]; lia). rewrite Z.pow_succ_r by (unfold zlen; lia). reflexivity.
  - rewrite zs_cons, zs_nil. cbn [zlen length]. replace (1 + 0 * x) with 1 by lia. rewrite Z.pow_1_l by (unfold zlen; lia). reflexivity.
Qed.

(* horizontal strips in terms of rows *)
Definition hrow (lam mu nu : list Z) (i : nat) : bool := Z.max (row mu (S i)) (row lam i) <? row nu i.
Lemma layer_rows : forall pr lam k mu r, Z.even k = true -> 1 <= k -> partition lam -> partition mu -> layer_ok false pr lam k mu r ->
  (forall nu, (exists d c, In (nu, d, c) r) <-> partition nu /\ forall i, Z.max (row mu (S i)) (row lam i) <= row nu i <= row mu i) /\
  (forall nu d c, In (nu, d, c) r -> zlen d = size mu - size nu /\ forall n, (length mu <= n)%nat -> zlen c = zlen (filter (hrow lam mu nu) (seq 0 n))).
Proof.
  intros pr lam k mu r Ek Hk Hl Hm (N & K & D). pose proof (proj1 (letter_sign k Hk) Ek) as Hv.
  assert (HA : forall b, allowed pr b (letter k)) by (intros b X; lia).
  assert (K' : forall nu, (exists d c, In (nu, d, c) r) <-> partition nu /\ forall i, Z.max (row mu (S i)) (row lam i) <= row nu i <= row mu i).
  { intro nu. rewrite K. unfold dir_d. rewrite Ek. split.
    - intros (Pn & B1 & B2 & Adj & _). split; [exact Pn|]. pose proof (proj1 (part_incl false lam nu Hl Pn) B1) as B1'. pose proof (proj1 (part_incl false nu mu Pn Hm) B2) as B2'.
      pose proof (proj1 (column_free_rows mu nu Hm Pn B2') (proj2 (column_free_adj false mu nu Hm Pn) Adj)) as X. clear B1 B2. rename B1' into B1, B2' into B2. intro i. specialize (X i). specialize (B1 i). specialize (B2 i). lia.
    - intros [Pn H]. split; [exact Pn|]. assert (B1 : forall i, row lam i <= row nu i) by (intro i; specialize (H i); lia). assert (B2 : forall i, row nu i <= row mu i) by (intro i; apply H).
      split; [exact (proj2 (part_incl false lam nu Hl Pn) B1)|]. split; [exact (proj2 (part_incl false nu mu Pn Hm) B2)|]. split; [|intros; apply HA].
      apply (proj1 (column_free_adj false mu nu Hm Pn)). apply (proj2 (column_free_rows mu nu Hm Pn B2)). intro i. specialize (H i). lia. }
  split; [exact K'|]. intros nu d c Hr. destruct (proj1 (K' nu) (ex_intro _ d (ex_intro _ c Hr))) as [Pn Rn]. destruct (D nu d c Hr) as (Nd & Hd & Nc & Hc).
  split; [apply skew_count; try assumption; [intro i; apply Rn|]; intros a b; rewrite Hd; reflexivity|].
  intros n Hn. unfold dir_s, dir_d in Hc. rewrite Ek in Hc.
  assert (P : Permutation c (map (fun i => (Z.of_nat i + 1, row nu i)) (filter (hrow lam mu nu) (seq 0 n)))).
  { apply NoDup_Permutation; [assumption| |].
    - apply NoDup_map_inj_in; [|apply NoDup_filter, seq_NoDup]. intros i j _ _ E. apply (f_equal fst) in E. cbn [fst] in E. lia.
    - intros [a b]. rewrite Hc, in_map_iff. unfold freeb, dc, nexts, nextd. cbn [fst snd]. split.
      + intros [(F1 & F2 & F3 & F4) _]. destruct (dcell_row false nu a b F1) as [i ->]. rewrite dcell_nat in *. cbn [off] in *.
        replace (Z.of_nat i + 1 + 1) with (Z.of_nat (S i) + 1) in F4 by lia. rewrite dcell_nat in F4. cbn [off] in F4.
        assert (Eb : b = row nu i) by lia. exists i. split; [f_equal; lia|]. apply filter_In. split.
        * apply in_seq. destruct (le_lt_dec n i) as [X|X]; [|lia]. exfalso. pose proof (Rn i) as Y. assert (Y' : row mu i = 0) by (apply nth_overflow; lia). lia.
        * unfold hrow. apply Z.ltb_lt. lia.
      + intros (i & E & Hf). injection E as <- <-. apply filter_In in Hf. destruct Hf as [_ Hf]. unfold hrow in Hf. apply Z.ltb_lt in Hf. split; [|apply HA].
        rewrite !dcell_nat. cbn [off]. replace (Z.of_nat i + 1 + 1) with (Z.of_nat (S i) + 1) by lia. rewrite dcell_nat. cbn [off].
        pose proof (partition_nonneg mu (S i) Hm). pose proof (partition_nonneg lam i Hl). lia. }
  unfold zlen. rewrite (Permutation_length P), map_length. reflexivity.
Qed.

Lemma hw_closed : forall e x lam kap mu, length lam = length mu -> length kap = length mu -> (forall i, (i < length mu)%nat -> row kap i <= row mu i) ->
  hw e x lam kap mu = x ^ (size mu - size kap) * (1 + e * x) ^ zlen (filter (hrow lam mu kap) (seq 0 (length mu))).
Proof.
  intros e x. induction lam as [|l lam IH]; intros [|k kap] [|m mu] L1 L2 H; try discriminate; [cbn; lia|].
  assert (H0 : k <= m) by (apply (H 0%nat); cbn; lia). assert (H' : forall i, (i < length mu)%nat -> row kap i <= row mu i) by (intros i Hi; apply (H (S i)); cbn; lia).
  assert (HS : forall kap mu, length kap = length mu -> (forall i, (i < length mu)%nat -> row kap i <= row mu i) -> size kap <= size mu).
  { clear. intro a. induction a as [|k kap IH]; intros [|m mu] L H; try discriminate. cbn [size]. specialize (IH mu ltac:(cbn in *; lia) (fun i Hi => H (S i) (proj1 (Nat.succ_lt_mono _ _) Hi))). pose proof (H 0%nat ltac:(cbn; lia)) as X. unfold row in X. cbn [nth] in X. lia. }
  cbn [hw]. rewrite IH by (cbn in *; lia || assumption). cbn [size length]. change (seq 0 (S (length mu))) with (0%nat :: seq 1 (length mu)). rewrite <- seq_shift. cbn [filter].
  assert (E : filter (hrow (l :: lam) (m :: mu) (k :: kap)) (map S (seq 0 (length mu))) = map S (filter (hrow lam mu kap) (seq 0 (length mu)))).
  { generalize (seq 0 (length mu)). intro s. induction s as [|a s IHs]; [reflexivity|]. cbn [map filter]. rewrite IHs.
    replace (hrow (l :: lam) (m :: mu) (k :: kap) (S a)) with (hrow lam mu kap a) by reflexivity. destruct (hrow lam mu kap a); reflexivity. }
  rewrite E. assert (E0 : hrow (l :: lam) (m :: mu) (k :: kap) 0 = (Z.max (hd0 mu) l <? k)) by (unfold hrow, row; cbn [nth]; destruct mu; reflexivity).
  rewrite E0. assert (Ls : forall l : list nat, zlen (map S l) = zlen l) by (intro q; unfold zlen; rewrite map_length; reflexivity).
  replace (m + size mu - (k + size kap)) with ((m - k) + (size mu - size kap)) by lia. pose proof (HS kap mu ltac:(cbn in *; lia) H'). rewrite Z.pow_add_r by lia.
  destruct (Z.max (hd0 mu) l <? k); cbn [pw].
  - replace (zlen (0%nat :: map S (filter (hrow lam mu kap) (seq 0 (length mu))))) with (Z.succ (zlen (filter (hrow lam mu kap) (seq 0 (length mu))))) by (unfold zlen; cbn [length]; rewrite map_length; lia).
    rewrite Z.pow_succ_r by (unfold zlen; lia). ring.
  - rewrite Ls. ring.
Qed.
Lemma size_padz : forall mu n, size (padz mu n) = size mu.
Proof. intros mu n. rewrite <- (size_trim (padz mu n)), <- (size_trim mu). f_equal. apply trimmed_ext; [apply trimmed_trim|apply trimmed_trim|]. intro i. rewrite !trim_row. apply padz_row. Qed.

(* the monomial of a tableau; the first variable belongs to the largest letter *)
Fixpoint monr (ys : list Z) (T : tab) : Z := match ys with [] => 1 | y :: ys' => y ^ occurrences (zlen ys) T * monr ys' T end.

Section Gen.
  Variable sv : bool.
  Variable lam : list Z.
  Hypothesis lam_part : partition lam.
  Variable L : nat.

  Definition tabs_of (n : nat) (nu : list Z) : list tab := match semistandard (fun l => l) (fun l => l) (fun l => l) n nu lam sv with Ok r => r | Err _ => [] end.
  Lemma tabs_of_spec : forall n nu, partition nu -> (forall b, dc false lam b -> dc false nu b) ->
    NoDup (tabs_of n nu) /\ forall T, In T (tabs_of n nu) <-> full false noprime sv lam (2 * Z.of_nat n) nu T.
  Proof.
    intros n nu Pn Hi. destruct (semistandard_full (fun l => l) (fun l => l) (fun l => l) (fun l => Permutation_refl l) (fun l => Permutation_refl l) (fun l => Permutation_refl l) sv lam lam_part n nu Pn Hi) as (r & E & N & H).
    unfold tabs_of. rewrite E. split; assumption.
  Qed.

  Lemma monr_skip : forall ys T T', (forall m, 1 <= m <= zlen ys -> occurrences m T = occurrences m T') -> monr ys T = monr ys T'.
  Proof.
    induction ys as [|y ys IH]; intros T T' H; [reflexivity|]. cbn [monr]. rewrite (IH T T'), (H (zlen (y :: ys))); [reflexivity|unfold zlen; cbn [length]; lia|].
    intros m Hm. apply H. unfold zlen in *. cbn [length]. lia.
  Qed.

  Theorem gen_chains : forall ys mu R, partition mu -> (forall b, dc false lam b -> dc false mu b) -> (length mu <= L)%nat -> NoDup R ->
    (forall T, In T R <-> full false noprime sv lam (2 * zlen ys) mu T) -> zs (monr ys) R = chains (ind sv) (padz lam L) ys (padz mu L).
  Proof.
    induction ys as [|y ys IH]; intros mu R Pm Hi Lm NR HR.
    - assert (Ll : (length lam <= length mu)%nat) by (apply strip_length; [assumption|assumption|]; exact (proj1 (part_incl false lam mu lam_part Pm) Hi)).
      cbn [chains]. destruct (zlist_eqb (padz mu L) (padz lam L)) eqn:E.
      + apply zlist_eqb_eq in E. assert (X : mu = lam) by (rewrite <- (trim_padz mu L), <- (trim_padz lam L), E by (apply partition_trimmed; assumption); reflexivity).
        rewrite (zs_same _ _ R [[]]); [reflexivity|assumption|repeat constructor; intros []|]. intro T. rewrite HR. change (2 * zlen (@nil Z)) with 0. rewrite (full_equal false noprime sv lam 0 mu T lam_part Pm X). cbn. intuition congruence.
      + destruct R as [|T R]; [reflexivity|]. exfalso. assert (F : full false noprime sv lam 0 mu T) by (apply HR; left; reflexivity). apply full_zero in F; [|assumption|assumption|assumption].
        subst mu. rewrite zlist_eqb_refl in E. discriminate.
    - set (n := length ys). set (k := 2 * zlen (y :: ys)). assert (Ek : k = 2 * Z.of_nat (S n)) by reflexivity. assert (Hk : 1 <= k) by lia.
      assert (Fk : forall nu T, full false noprime sv lam (k - 1) nu T <-> full false noprime sv lam (2 * Z.of_nat n) nu T).
      { intros nu T. rewrite Ek. unfold noprime. rewrite (full_noprime false sv lam nu (Z.of_nat (S n)) T). replace (2 * Z.of_nat (S n) - 2) with (2 * Z.of_nat n) by lia. reflexivity. }
      assert (Lk : letter k = Z.of_nat (S n)) by (rewrite Ek; apply letter_even).
      destruct (hlayer (fun l => l) (fun l => Permutation_refl l) false noprime k lam mu Hk (even_2n _) lam_part Pm Hi) as (r & Er & Lr).
      assert (Hs : forall nu d c, In (nu, d, c) r -> partition nu /\ (forall b, dc false lam b -> dc false nu b)).
      { intros nu d c Hr. destruct (layer_strip _ _ _ _ _ _ _ _ _ Lr Hr) as (Pn & In' & _). split; assumption. }
      rewrite (half_sum false noprime sv lam k mu r R (tabs_of n) (monr (y :: ys)) Hk lam_part Pm Hi Lr NR HR).
      2:{ intros nu d c Hr. destruct (Hs _ _ _ Hr) as [Pn In']. destruct (tabs_of_spec n nu Pn In') as [A1 A2]. split; [assumption|]. intro T. rewrite A2, Fk. reflexivity. }
      destruct (layer_rows noprime lam k mu r (even_2n _) Hk lam_part Pm Lr) as [LK LD].
      set (W := fun nu => hw (ind sv) y (padz lam L) (padz nu L) (padz mu L) * chains (ind sv) (padz lam L) ys (padz nu L)).
      assert (Ll : (length lam <= length mu)%nat) by (apply strip_length; [assumption|assumption|]; exact (proj1 (part_incl false lam mu lam_part Pm) Hi)).
      transitivity (zs (fun s : strip => W (sshape s)) r).
      + apply zs_ext. intros [[nu d] c] Hr. destruct (Hs _ _ _ Hr) as [Pn In']. destruct (tabs_of_spec n nu Pn In') as [A1 A2]. destruct (LD _ _ _ Hr) as [D1 D2]. change (sshape (nu, d, c)) with nu.
        pose proof (proj1 (LK nu) (ex_intro _ d (ex_intro _ c Hr))) as [_ Rn].
        assert (Ln : (length nu <= length mu)%nat) by (apply strip_length; [assumption|assumption|]; intro i; apply Rn).
        assert (IHn : zs (monr ys) (tabs_of n nu) = chains (ind sv) (padz lam L) ys (padz nu L)) by (apply IH; [assumption|assumption|lia|assumption|exact A2]).
        transitivity (zs (fun C => (y ^ zlen d * chains (ind sv) (padz lam L) ys (padz nu L)) * y ^ zlen C) (choose sv c)).
        * apply zs_ext. intros C HC. rewrite <- IHn. rewrite <- zs_scale, Z.mul_comm, <- zs_scale. apply zs_ext. intros T HT. apply A2 in HT. assert (F : full false noprime sv lam (k - 1) nu T) by (apply Fk; assumption).
          pose proof (fun m => occ_add _ _ _ _ _ _ _ _ _ _ _ _ m Hk Lr Hr HC F) as O. rewrite Lk in O. cbn [monr]. rewrite (monr_skip ys _ T).
          -- rewrite Lk, O. rewrite (occ_zero _ _ _ _ _ _ _ _ HT) by (unfold zlen; cbn [length]; fold n; lia). replace (Z.abs (Z.of_nat (S n)) =? zlen (y :: ys)) with true by (symmetry; apply Z.eqb_eq; unfold zlen; cbn [length]; fold n; lia).
             cbn [ind]. rewrite Z.mul_1_l, Z.add_0_l, Z.pow_add_r by (unfold zlen; lia). ring.
          -- intros m Hm. rewrite Lk, O. replace (Z.abs (Z.of_nat (S n)) =? m) with false by (symmetry; apply Z.eqb_neq; unfold zlen in Hm; fold n in Hm; lia). cbn [ind]. lia.
        * rewrite zs_scale, sum_choose_pow. unfold W. rewrite hw_closed.
          -- rewrite !size_padz, D1. rewrite padz_length by assumption. rewrite (D2 L Lm).
             rewrite (filter_ext (hrow (padz lam L) (padz mu L) (padz nu L)) (hrow lam mu nu)) by (intro i; unfold hrow; rewrite !padz_row; reflexivity). ring.
          -- rewrite !padz_length by lia. reflexivity.
          -- rewrite !padz_length by lia. reflexivity.
          -- intros i _. rewrite !padz_row. apply Rn.
      + cbn [chains]. rewrite <- (zs_map _ _ sshape W). transitivity (zs (fun v => hw (ind sv) y (padz lam L) v (padz mu L) * chains (ind sv) (padz lam L) ys v) (map (fun nu => padz nu L) (map sshape r))).
        { rewrite (zs_map _ _ (fun nu => padz nu L)). reflexivity. }
        assert (InR : forall nu, In nu (map sshape r) <-> exists d c, In (nu, d, c) r).
        { intro nu. rewrite in_map_iff. split; [intros ([[n' d] c] & E & X); exists d, c; rewrite <- E; exact X|intros (d & c & X); exists (nu, d, c); split; [reflexivity|assumption]]. }
        apply zs_same.
        * apply NoDup_map_inj_in; [|apply Lr]. intros a b Ha Hb E. apply InR, LK in Ha. apply InR, LK in Hb. rewrite <- (trim_padz a L), <- (trim_padz b L), E by (apply partition_trimmed; tauto). reflexivity.
        * apply strips_NoDup.
        * intro v. rewrite strips_In by (rewrite !padz_length by lia; reflexivity). rewrite in_map_iff. split.
          -- intros (nu & <- & Hn). apply InR, LK in Hn. destruct Hn as [Pn Rn]. assert (Ln : (length nu <= length mu)%nat) by (apply strip_length; [assumption|assumption|]; intro i; apply Rn).
             rewrite !padz_length by lia. split; [reflexivity|]. intros i _. rewrite !padz_row. apply Rn.
          -- intros [V1 V2]. rewrite padz_length in V1, V2 by assumption.
             assert (V3 : forall i, Z.max (row mu (S i)) (row lam i) <= row v i <= row mu i).
             { intro i. destruct (le_lt_dec L i) as [X|X]; [unfold row; rewrite !nth_overflow by lia; lia|]. specialize (V2 i X). rewrite !padz_row in V2. exact V2. }
             assert (Wk : weak_partition v).
             { split; [|intro i; pose proof (V3 i); pose proof (V3 (S i)); lia]. apply Forall_forall. intros a Ha. destruct (In_nth v a 0 Ha) as (i & Hi1 & <-). pose proof (V3 i) as X. pose proof (partition_nonneg lam i lam_part). unfold row in X at 3. lia. }
             exists (trim v). split.
             ++ apply nth_ext with (d := 0) (d' := 0); [rewrite padz_length; [lia|]; rewrite <- V1; apply L_Destand2.trim_length|].
                intros i _. change (row (padz (trim v) L) i = row v i). rewrite padz_row, trim_row. reflexivity.
             ++ apply InR, LK. split; [apply weak_trim_partition; assumption|]. intro i. rewrite trim_row. apply V3.
  Qed.
End Gen.
