(* The generating functions of marked and shifted tableaux, as products of commuting operators *)
From Coq Require Import List ZArith Lia Bool Permutation Arith.
From Verif Require Import PyBase M_Partitions S_Partitions L_Partitions L_PartBasic L_PartMore L_PartEnum M_Tableaux S_Tableaux L_Tableaux M_Strips S_Strips L_Strips L_Strips2 L_Fill L_Shape
  M_Semistandard S_Semistandard L_Semi L_Semi2 L_Semi3 L_Semi4 L_Semi5 L_Count L_Count2 L_Count3 L_Standard L_Sym1 L_Sym3 L_Sym4 L_Sym5 L_Sym7 L_Sym8 L_Sym9.
Import ListNotations.
Local Open Scope Z_scope.

Section Words.
  Variable sh : bool.
  Variable prb : box -> bool.
  Variable sv : bool.
  Variable lam : list Z.
  Variable K : Z.
  Hypothesis K_shifted : sh = true -> K = 0.
  Hypothesis lam_part : part_b sh lam.
  Let pr := fun b => prb b = true.
  Let e := ind sv.

  (* exhaustive lists of tableaux with letters 1', 1, ..., n *)
  Variable tabs2 : nat -> list Z -> list tab.
  Hypothesis tabs2_spec : forall n nu, okS sh lam nu -> NoDup (tabs2 n nu) /\ forall T, In T (tabs2 n nu) <-> full sh pr sv lam (2 * Z.of_nat n) nu T.

  Definition upto (k : Z) (T : tab) : bool := forallb (fun x => dbl x <=? k) (flat_map snd T).
  Definition tabs (k : Z) (nu : list Z) : list tab := filter (upto k) (tabs2 (Z.to_nat k) nu).
  Lemma upto_spec : forall k nu T n, k <= 2 * n -> (full sh pr sv lam k nu T <-> full sh pr sv lam (2 * n) nu T /\ upto k T = true).
  Proof.
    intros k nu T n L. unfold upto. rewrite forallb_forall. split.
    - intros [P (D1 & D2 & D)]. split.
      + split; [assumption|]. split; [assumption|]. split; [|assumption]. intros b x Hx. destruct (D2 b x Hx) as [X Y]. split; [unfold letters in *; lia|assumption].
      + intros x Hx. apply in_flat_map in Hx. destruct Hx as ([b l] & H1 & H2). cbn [snd] in H2. destruct (D2 b x) as [X _]; [exists l; split; [rewrite <- surjective_pairing; assumption|assumption]|]. unfold letters in X. apply Z.leb_le. lia.
    - intros [[P (D1 & D2 & D)] U]. split; [assumption|]. split; [assumption|]. split; [|assumption]. intros b x Hx. destruct (D2 b x Hx) as [X Y]. split; [|assumption].
      destruct Hx as (l & H1 & H2). assert (Z : dbl x <= k) by (apply Z.leb_le, U, in_flat_map; exists (fst b, snd b, l); split; assumption). unfold letters in *. lia.
  Qed.
  Lemma tabs_spec : forall k nu, 0 <= k -> okS sh lam nu -> NoDup (tabs k nu) /\ forall T, In T (tabs k nu) <-> full sh pr sv lam k nu T.
  Proof.
    intros k nu Hk O. destruct (tabs2_spec (Z.to_nat k) nu O) as [N H]. unfold tabs. split; [apply NoDup_filter; assumption|].
    intro T. rewrite filter_In, H. rewrite (upto_spec k nu T (Z.of_nat (Z.to_nat k))) by lia. reflexivity.
  Qed.

  (* one half-letter *)
  Lemma half_step : forall k mu r R y ys, 1 <= k -> Z.abs (letter k) = zlen (y :: ys) -> okS sh lam mu -> layer_ok sh pr lam k mu r -> NoDup R ->
    (forall T, In T R <-> full sh pr sv lam k mu T) ->
    zs (monr (y :: ys)) R = zs (weigh e y (fun nu => zs (monr (y :: ys)) (tabs (k - 1) nu))) r.
  Proof.
    intros k mu r R y ys Hk Lk O Lr NR HR.
    assert (Hs : forall nu d c, In (nu, d, c) r -> okS sh lam nu).
    { intros nu d c Hr. destruct (layer_strip _ _ _ _ _ _ _ _ _ Lr Hr) as (Pn & In' & _). split; assumption. }
    rewrite (half_sum sh pr sv lam k mu r R (tabs (k - 1)) (monr (y :: ys)) Hk lam_part (proj1 O) (proj2 O) Lr NR HR).
    2:{ intros nu d c Hr. apply tabs_spec; [lia|]. apply (Hs nu d c Hr). }
    apply zs_ext. intros [[nu d] c] Hr. pose proof (Hs _ _ _ Hr) as On. destruct (tabs_spec (k - 1) nu ltac:(lia) On) as [A1 A2]. cbn [weigh].
    set (G := zs (monr (y :: ys)) (tabs (k - 1) nu)).
    transitivity (zs (fun C => (y ^ zlen d * G) * y ^ zlen C) (choose sv c)).
    - apply zs_ext. intros C HC. unfold G. rewrite <- zs_scale, Z.mul_comm, <- zs_scale. apply zs_ext. intros T HT. apply A2 in HT.
      pose proof (fun m => occ_add _ _ _ _ _ _ _ _ _ _ _ _ m Hk Lr Hr HC HT) as Oc. cbn [monr]. rewrite (monr_skip ys _ T).
      + rewrite Oc, Lk, Z.eqb_refl. cbn [ind]. rewrite Z.mul_1_l, Z.pow_add_r, Z.pow_add_r by (unfold zlen, occurrences; lia). ring.
      + intros m Hm. rewrite Oc, Lk. replace (zlen (y :: ys) =? m) with false by (symmetry; apply Z.eqb_neq; unfold zlen in *; cbn [length]; lia). cbn [ind]. lia.
    - rewrite zs_scale, sum_choose_pow. unfold e. ring.
  Qed.

  (* diagonals occurring in the shapes *)
  Variables lowd topd N : nat.
  Hypothesis low_top : (lowd <= topd <= N + 1)%nat.
  Definition inside (mu : list Z) : Prop := forall b, dc sh mu b -> Z.of_nat lowd <= diag K b <= Z.of_nat N /\ (prb b = true <-> Z.of_nat topd <= diag K b).

  Definition hds : list nat := rev (seq lowd (N + 1 - lowd)).
  Definition vds : list nat := seq topd (N + 1 - topd).
  Lemma hds_ranks : forall k n, Z.even k = true -> ranks k (Z.of_nat lowd + Z.of_nat n - 1) (rev (seq lowd n)).
  Proof.
    intros k n E. induction n as [|n IH]; [constructor|]. rewrite seq_S, rev_app_distr. cbn [rev app]. constructor; [unfold sgn; rewrite E; lia|].
    replace (Z.of_nat lowd + Z.of_nat (S n) - 1 - 1) with (Z.of_nat lowd + Z.of_nat n - 1) by lia. assumption.
  Qed.
  Lemma vds_ranks : forall k n t, Z.even k = false -> ranks k (- Z.of_nat t) (seq t n).
  Proof.
    intros k n. induction n as [|n IH]; intros t E; [constructor|]. cbn [seq]. constructor; [unfold sgn; rewrite E; lia|].
    replace (- Z.of_nat t - 1) with (- Z.of_nat (S t)) by lia. apply IH. assumption.
  Qed.

  Lemma layer_layerM : forall k M mu r, layer_ok sh pr lam k mu r -> (forall b, dc sh mu b -> (allowed pr b (letter k) <-> rank K k b <= M)) -> layerM sh lam K k M mu r.
  Proof.
    intros k M mu r (N1 & KK & DD) H. split; [assumption|]. split.
    - intro nu. rewrite KK. split; intros (S1 & S2 & S3 & S4 & S5); (split; [assumption|]; split; [assumption|]; split; [assumption|]; split; [assumption|]); intros b X Y; specialize (S5 b X Y); apply H; assumption.
    - intros nu d c Hr. pose proof (proj1 (KK nu) (ex_intro _ d (ex_intro _ c Hr))) as (S1 & S2 & S3 & _). destruct (DD nu d c Hr) as (A1 & A2 & A3 & A4). split; [assumption|]. split; [assumption|]. split; [assumption|].
      intro b. rewrite A4. split; intros [X Y]; (split; [assumption|]); apply H; try assumption; apply S3; apply X.
  Qed.

  Definition delta (mu : list Z) : Z := if zlist_eqb mu lam then 1 else 0.
  Definition T (y : Z) : list factor := word y hds ++ word y vds.

  Lemma inside_sub : forall mu nu, inside mu -> (forall b, dc sh nu b -> dc sh mu b) -> inside nu.
  Proof. intros mu nu I S b D. apply I, S, D. Qed.

  Theorem gen_words : forall ys mu R, okS sh lam mu -> inside mu -> NoDup R -> (forall U, In U R <-> full sh pr sv lam (2 * zlen ys) mu U) ->
    zs (monr ys) R = oev sh lam K e (flat_map T ys) delta mu.
  Proof.
    induction ys as [|y ys IH]; intros mu R O I NR HR.
    - change (oev sh lam K e (flat_map T []) delta mu) with (delta mu). unfold delta. change (2 * zlen (@nil Z)) with 0 in HR. destruct (zlist_eqb mu lam) eqn:E.
      + apply zlist_eqb_eq in E. rewrite (zs_same _ _ R [[]]); [reflexivity|assumption|repeat constructor; intros []|]. intro U. rewrite HR, (full_equal sh pr sv lam 0 mu U lam_part (proj1 O) E). cbn. intuition congruence.
      + destruct R as [|U R]; [reflexivity|]. exfalso. assert (F : full sh pr sv lam 0 mu U) by (apply HR; left; reflexivity). apply full_zero in F; [|assumption|apply O|apply O].
        subst mu. rewrite zlist_eqb_refl in E. discriminate.
    - set (n := length ys). set (k := 2 * zlen (y :: ys)) in *. assert (Ek : k = 2 * Z.of_nat (S n)) by reflexivity. assert (Hk : 1 <= k) by lia.
      assert (Evk : Z.even k = true) by (rewrite Ek; apply even_2n). assert (Odk : Z.even (k - 1) = false) by (rewrite Z.even_sub, Evk; reflexivity).
      assert (Lk : Z.abs (letter k) = zlen (y :: ys)) by (rewrite Ek, letter_even; unfold zlen; cbn [length]; fold n; lia).
      assert (Lk' : Z.abs (letter (k - 1)) = zlen (y :: ys)) by (rewrite Ek, letter_odd; unfold zlen; cbn [length]; fold n; lia).
      (* primed letter *)
      assert (V : forall nu, okS sh lam nu -> inside nu -> zs (monr (y :: ys)) (tabs (k - 1) nu) = oev sh lam K e (word y vds) (oev sh lam K e (flat_map T ys) delta) nu).
      { intros nu On Inn. destruct (vlayer (fun l => l) (fun l => Permutation_refl l) sh prb (k - 1) lam nu ltac:(lia) Odk lam_part (proj1 On) (proj2 On)) as (r0 & _ & Lr). set (r := flt prb r0) in *.
        destruct (tabs_spec (k - 1) nu ltac:(lia) On) as [B1 B2]. rewrite (half_step (k - 1) nu r (tabs (k - 1) nu) y ys ltac:(lia) Lk' On Lr B1 B2).
        rewrite (zs_ext _ _ (weigh e y (oev sh lam K e (flat_map T ys) delta))).
        - apply (strip_sum sh lam K K_shifted lam_part (k - 1) e y vds (- Z.of_nat topd)); [apply vds_ranks; assumption|assumption| |].
          + intros b D. destruct (Inn b D) as [J _]. unfold vds. rewrite seq_length. unfold rank, sgn. rewrite Odk. lia.
          + apply layer_layerM; [assumption|]. intros b D. destruct (Inn b D) as [_ J]. unfold rank, sgn. rewrite Odk. unfold allowed, pr.
            assert (letter (k - 1) < 0) by (apply letter_sign; [lia|assumption]). split; [intro X; specialize (X H); apply J in X; lia|intros X _; apply J; lia].
        - intros [[nu2 d] c] Hr. cbn [weigh]. f_equal. destruct (layer_strip _ _ _ _ _ _ _ _ _ Lr Hr) as (Pn & In' & _).
          assert (On2 : okS sh lam nu2) by (split; assumption). assert (Inn2 : inside nu2).
          { apply (inside_sub nu); [assumption|]. destruct Lr as (_ & KK & _). apply (proj1 (KK nu2) (ex_intro _ d (ex_intro _ c Hr))). }
          assert (E2 : k - 1 - 1 = 2 * zlen ys) by (unfold k, zlen; cbn [length]; lia). rewrite E2.
          destruct (tabs_spec (2 * zlen ys) nu2 ltac:(unfold zlen; lia) On2) as [C1 C2]. rewrite <- (IH nu2 (tabs (2 * zlen ys) nu2) On2 Inn2 C1 C2).
          apply zs_ext. intros U HU. apply C2 in HU. cbn [monr]. rewrite (occ_zero _ _ _ _ _ _ _ _ HU) by (unfold zlen; cbn [length]; lia). rewrite Z.pow_0_r. lia. }
      destruct (hlayer (fun l => l) (fun l => Permutation_refl l) sh pr k lam mu Hk Evk lam_part (proj1 O) (proj2 O)) as (r & _ & Lr).
      rewrite (half_step k mu r R y ys Hk Lk O Lr NR HR). cbn [flat_map]. unfold oev. rewrite ev_app. unfold T at 1. rewrite ev_app. fold (oev sh lam K e).
      set (G := oev sh lam K e (word y vds) (oev sh lam K e (flat_map T ys) delta)).
      rewrite (zs_ext _ _ (weigh e y G)).
      + apply (strip_sum sh lam K K_shifted lam_part k e y hds (Z.of_nat N)); [|assumption| |].
        * unfold hds. replace (Z.of_nat N) with (Z.of_nat lowd + Z.of_nat (N + 1 - lowd) - 1) by lia. apply hds_ranks. assumption.
        * intros b D. destruct (I b D) as [J _]. unfold hds. rewrite rev_length, seq_length. unfold rank, sgn. rewrite Evk. lia.
        * apply layer_layerM; [assumption|]. intros b D. destruct (I b D) as [J _]. unfold rank, sgn. rewrite Evk. unfold allowed.
          assert (0 < letter k) by (apply letter_sign; [lia|assumption]). split; [intros _; lia|intros _ X; lia].
      + intros [[nu d] c] Hr. cbn [weigh]. f_equal. destruct (layer_strip _ _ _ _ _ _ _ _ _ Lr Hr) as (Pn & In' & _). apply V; [split; assumption|].
        apply (inside_sub mu); [assumption|]. destruct Lr as (_ & KK & _). apply (proj1 (KK nu) (ex_intro _ d (ex_intro _ c Hr))).
  Qed.

  (* commuting words give symmetric counts *)
  Hypothesis T_comm : forall x y, 0 <= x -> 0 <= y -> oweq sh lam K e (T x ++ T y) (T y ++ T x).
  Lemma words_perm : forall xs ys, Permutation xs ys -> Forall (fun x => 1 <= x) xs -> oweq sh lam K e (flat_map T xs) (flat_map T ys).
  Proof.
    assert (RO : forall d s, okS sh lam s -> cc sh lam K d s = true -> okS sh lam (rr sh lam K d s)) by (apply rr_ok; assumption).
    intros xs ys P. unfold oweq. induction P as [|x a b P IH|x y l|a b c P1 IH1 P2 IH2]; intro F.
    - intros G s _. reflexivity.
    - inversion F; subst. cbn [flat_map]. intros G s Hs. rewrite !ev_app. apply (ev_feq _ _ _ _ _ RO); [|assumption]. apply IH. assumption.
    - inversion F as [|? ? F1 F2]; subst. inversion F2; subst. cbn [flat_map]. rewrite !app_assoc. intros G s Hs. rewrite !(ev_app _ _ _ _ (_ ++ _)). apply (T_comm y x); [lia|lia|assumption].
    - intros G s Hs. rewrite (IH1 F G s Hs). apply IH2; [|assumption]. apply (Permutation_Forall P1). assumption.
  Qed.
  Theorem words_symmetric : forall n mu R, okS sh lam mu -> inside mu -> NoDup R -> (forall U, In U R <-> full sh pr sv lam (2 * Z.of_nat n) mu U) ->
    forall alpha beta, length alpha = n -> Permutation alpha beta -> wcount n R alpha = wcount n R beta.
  Proof.
    intros n mu R O I NR HR alpha beta La Pab.
    assert (V : forall xs, length xs = n -> zs (fun T => mon xs (wts n T)) R = oev sh lam K e (flat_map T xs) delta mu).
    { intros xs Lx. rewrite <- (gen_words xs mu R O I NR).
      - apply zs_ext. intros U _. rewrite monr_mon, Lx. reflexivity.
      - intro U. rewrite HR. unfold zlen. rewrite Lx. reflexivity. }
    apply (symmetric_coefficients _ n R (wts n)).
    - intros U _. split; [apply wts_length|apply wts_nonneg].
    - intros xs ys Pxy Lx Fx. rewrite (V xs Lx), (V ys); [|rewrite <- Lx; symmetry; apply Permutation_length; assumption]. apply (words_perm xs ys Pxy Fx). assumption.
    - transitivity alpha; [apply Permutation_sym, Permutation_rev|]. transitivity beta; [assumption|apply Permutation_rev].
    - rewrite rev_length. assumption.
  Qed.
End Words.
