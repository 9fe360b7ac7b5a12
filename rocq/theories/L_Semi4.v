(* The enumerators of M_Semistandard list exactly the fillings: the recursions *)
From Coq Require Import List ZArith Lia Bool Permutation Sorted.
From Verif Require Import PyBase M_Partitions S_Partitions L_Partitions L_PartBasic M_Tableaux S_Tableaux L_Tableaux M_Strips S_Strips L_Strips L_Strips2 L_Strips3
  M_Semistandard S_Semistandard L_Fill L_Shape L_Semi L_Semi2 L_Semi3.
Import ListNotations.
Local Open Scope Z_scope.

Section Enum.
  Variable ord : list (list Z) -> list (list Z).
  Variable bord : list box -> list box.
  Variable tord : list tab -> list tab.
  Hypothesis ord_perm : forall l, Permutation (ord l) l.
  Hypothesis bord_perm : forall l, Permutation (bord l) l.
  Hypothesis tord_perm : forall l, Permutation (tord l) l.

  Lemma contains_incl : forall sh mu lam, part_b sh mu -> part_b sh lam -> (contains mu lam = true <-> forall b, dc sh lam b -> dc sh mu b).
  Proof.
    intros sh mu lam Hm Hl. rewrite (part_incl sh lam mu Hl Hm). apply part_b_part in Hm, Hl.
    apply contains_spec; [apply partition_weak; assumption|apply partition_weak; assumption|apply partition_trimmed; assumption].
  Qed.

  (* what the layer says about one strip *)
  Lemma layer_strip : forall sh pr lam k mu r nu d c, layer_ok sh pr lam k mu r -> In (nu, d, c) r ->
    part_b sh nu /\ (forall b, dc sh lam b -> dc sh nu b) /\ NoDup (d ++ c).
  Proof.
    intros sh pr lam k mu r nu d c (_ & K & D) H. assert (X : exists d c, In (nu, d, c) r) by (exists d, c; assumption). apply K in X. destruct X as (P & I & _).
    split; [assumption|]. split; [assumption|]. destruct (D _ _ _ H) as (N1 & D1 & N2 & D2). apply NoDup_app_intro; [assumption|assumption|].
    intros b H1 H2. apply D1 in H1. apply D2 in H2. destruct H2 as [(X & _) _]. tauto.
  Qed.

  (* one augmented letter *)
  Lemma add_letter : forall sh pr sv lam k mu r nu d c C T, 1 <= k -> layer_ok sh pr lam k mu r -> In (nu, d, c) r -> In C (choose sv c) ->
    full sh pr sv lam (k - 1) nu T -> add_all (bord (d ++ C)) (letter k) T = Ok (addv (letter k) (d ++ C) T).
  Proof.
    intros sh pr sv lam k mu r nu d c C T Hk L H HC F.
    destruct (aug_ok sh pr sv lam k mu r L nu d c C H HC) as (N & _ & _ & P).
    rewrite (addv_perm (d ++ C) (bord (d ++ C)) (letter k) T (proj1 F) N).
    - apply add_all_ok; [apply F|]. intros b Hb. apply (Permutation_in _ (bord_perm _)) in Hb. apply (region_positive sh). apply P. assumption.
    - intros b Hb. split; [apply (region_positive sh); apply P; assumption|eapply no_letter; eassumption].
    - apply Permutation_sym, bord_perm.
  Qed.

  Lemma even_2n : forall n, Z.even (2 * n) = true.
  Proof. intro n. rewrite Z.even_mul. reflexivity. Qed.
  Lemma even_2n1 : forall n, Z.even (2 * n - 1) = false.
  Proof. intro n. replace (2 * n - 1) with (2 * (n - 1) + 1) by lia. rewrite Z.even_add, Z.even_mul. reflexivity. Qed.

  Definition noprime : box -> Prop := fun _ => false = true.

  Lemma semistandard_full : forall sv lam, partition lam -> forall n mu, partition mu -> (forall b, dc false lam b -> dc false mu b) ->
    exists r, semistandard ord bord tord n mu lam sv = Ok r /\ NoDup r /\ forall T, In T r <-> full false noprime sv lam (2 * Z.of_nat n) mu T.
  Proof.
    intros sv lam Hl. induction n as [|n IH]; intros mu Hm Hi.
    - cbn [semistandard]. destruct (zlist_eqb mu lam) eqn:E.
      + apply zlist_eqb_eq in E. exists [[]]. split; [reflexivity|]. split; [repeat constructor; intros []|]. intro T. rewrite (full_equal false noprime sv lam _ mu T Hl Hm E). cbn. intuition congruence.
      + exists []. split; [reflexivity|]. split; [constructor|]. intro T. split; [intros []|]. intro F. apply full_zero in F; [|assumption|assumption|assumption]. apply zlist_eqb_eq in F. congruence.
    - cbn [semistandard]. destruct (zlist_eqb mu lam) eqn:E.
      { apply zlist_eqb_eq in E. exists [[]]. split; [reflexivity|]. split; [repeat constructor; intros []|]. intro T. rewrite (full_equal false noprime sv lam _ mu T Hl Hm E). cbn. intuition congruence. }
      rewrite (proj2 (contains_incl false mu lam Hm Hl) Hi).
      set (k := 2 * Z.of_nat (S n)). assert (Hk : 1 <= k) by (subst k; lia).
      assert (Lk : letter k = Z.of_nat (S n)) by (apply letter_even).
      assert (Fk : forall nu T, full false noprime sv lam (k - 1) nu T <-> full false noprime sv lam (2 * Z.of_nat n) nu T).
      { intros nu T. subst k. rewrite (full_noprime false sv lam nu (Z.of_nat (S n)) T). replace (2 * Z.of_nat (S n) - 2) with (2 * Z.of_nat n) by lia. reflexivity. }
      destruct (hlayer ord ord_perm false noprime k lam mu Hk (even_2n _) Hl Hm Hi) as (r & Er & L). cbn [hstrips] in Er. rewrite Er. cbn [rbind].
      assert (Body : forall s, In s r -> exists ys, (match s with (nu, diff, corners) =>
                 do tabs <- semistandard ord bord tord n nu lam sv;
                 rconcat (fun aug => rmap (add_all (bord aug) (Z.of_nat (S n))) (tord tabs)) (subsets diff corners sv) end) = Ok ys /\
               forall T, In T ys <-> match s with (nu, diff, corners) => exists C T', In C (choose sv corners) /\ full false noprime sv lam (k - 1) nu T' /\ T = addv (letter k) (diff ++ C) T' end).
      { intros [[nu d] c] H. destruct (layer_strip _ _ _ _ _ _ _ _ _ L H) as (Pn & In' & N).
        destruct (IH nu Pn In') as (tabs & Et & Nt & Ht). rewrite Et. cbn [rbind].
        assert (A : forall aug, In aug (subsets d c sv) -> exists ys, rmap (add_all (bord aug) (Z.of_nat (S n))) (tord tabs) = Ok ys /\
                     forall T, In T ys <-> exists T', In T' tabs /\ T = addv (letter k) aug T').
        { intros aug Ha. apply (subsets_In d c sv aug N) in Ha. destruct Ha as (C & HC & ->).
          assert (Hadd : forall T', In T' (tord tabs) -> add_all (bord (d ++ C)) (Z.of_nat (S n)) T' = Ok (addv (letter k) (d ++ C) T')).
          { intros T' HT. rewrite <- Lk. eapply add_letter; try eassumption. apply Fk, Ht. apply (Permutation_in _ (tord_perm _)). assumption. }
          destruct (rmap_ok _ _ (add_all (bord (d ++ C)) (Z.of_nat (S n))) (tord tabs)) as (ys & Ey & Hy); [intros T' HT; eexists; apply Hadd; assumption|].
          exists ys. split; [assumption|]. intro T. rewrite Hy. split.
          - intros (T' & HT & X). rewrite (Hadd T' HT) in X. injection X as <-. exists T'. split; [apply (Permutation_in _ (tord_perm _)); assumption|reflexivity].
          - intros (T' & HT & ->). exists T'. assert (HT' : In T' (tord tabs)) by (apply (Permutation_in _ (Permutation_sym (tord_perm _))); assumption). split; [assumption|apply Hadd; assumption]. }
        destruct (rconcat_ok _ _ (fun aug => rmap (add_all (bord aug) (Z.of_nat (S n))) (tord tabs)) (subsets d c sv)) as (ys & Ey & Hy).
        { intros aug Ha. destruct (A aug Ha) as (ys & X & _). exists ys. assumption. }
        exists ys. split; [assumption|]. intro T. rewrite Hy. split.
        - intros (aug & zs & Ha & Ez & Hz). destruct (A aug Ha) as (ws & Ew & Hw). rewrite Ew in Ez. injection Ez as <-. apply Hw in Hz. destruct Hz as (T' & HT & ->).
          apply (subsets_In d c sv aug N) in Ha. destruct Ha as (C & HC & ->). exists C, T'. split; [assumption|]. split; [apply Fk, Ht; assumption|reflexivity].
        - intros (C & T' & HC & F & ->). assert (Ha : In (d ++ C) (subsets d c sv)) by (apply (subsets_In d c sv _ N); exists C; split; [assumption|reflexivity]).
          destruct (A _ Ha) as (ws & Ew & Hw). exists (d ++ C), ws. split; [assumption|]. split; [assumption|]. apply Hw. exists T'. split; [apply Ht, Fk; assumption|reflexivity]. }
      set (body := fun s : strip => match s with (nu, diff, corners) =>
                 do tabs <- semistandard ord bord tord n nu lam sv;
                 rconcat (fun aug => rmap (add_all (bord aug) (Z.of_nat (S n))) (tord tabs)) (subsets diff corners sv) end).
      change (exists r0, (do ans <- rconcat body r; Ok (set_tab ans)) = Ok r0 /\ NoDup r0 /\ forall T, In T r0 <-> full false noprime sv lam k mu T).
      destruct (rconcat_ok _ _ body r) as (ys & Ey & Hy); [intros s Hs; destruct (Body s Hs) as (ys & X & _); exists ys; exact X|].
      rewrite Ey. cbn [rbind]. exists (set_tab ys). split; [reflexivity|]. split; [apply set_tab_NoDup|]. intro T. rewrite set_tab_In, Hy. split.
      + intros (s & zs & Hs & Ez & Hz). destruct (Body s Hs) as (ws & Ew & Hw). unfold body in Ez. rewrite Ew in Ez. injection Ez as <-. apply Hw in Hz. destruct s as [[nu d] c]. destruct Hz as (C & T' & HC & F & ->).
        apply (half_up false noprime sv lam k Hk mu r Hi L nu d c C T'); assumption.
      + intro F. destruct (half_down false noprime sv lam Hl k Hk mu r Hm Hi L T F) as (nu & d & c & C & T' & Hr & HC & F' & ->).
        destruct (Body _ Hr) as (ws & Ew & Hw). exists (nu, d, c), ws. split; [assumption|]. split; [exact Ew|]. apply Hw. exists C, T'. auto.
  Qed.

  (* two layers: an unprimed and a primed letter *)
  Lemma double_up : forall sh prb sv lam n mu r1 r2, 1 <= n -> part_b sh lam ->
    (forall b, dc sh lam b -> dc sh mu b) -> layer_ok sh (fun b => prb b = true) lam (2 * n) mu r1 ->
    forall nu1 d1 c1 C1 nu2 d2 c2 C2 T, In (nu1, d1, c1) r1 -> In C1 (choose sv c1) ->
    layer_ok sh (fun b => prb b = true) lam (2 * n - 1) nu1 r2 -> In (nu2, d2, c2) r2 -> In C2 (choose sv c2) ->
    full sh (fun b => prb b = true) sv lam (2 * (n - 1)) nu2 T ->
    (do t1 <- add_all (bord (d1 ++ C1)) n T; add_all (bord (d2 ++ C2)) (- n) t1) = Ok (addv n (d1 ++ C1) (addv (- n) (d2 ++ C2) T)) /\
    full sh (fun b => prb b = true) sv lam (2 * n) mu (addv n (d1 ++ C1) (addv (- n) (d2 ++ C2) T)).
  Proof.
    intros sh prb sv lam n mu r1 r2 Hn Hl Hi L1 nu1 d1 c1 C1 nu2 d2 c2 C2 T H1 HC1 L2 H2 HC2 F.
    destruct (layer_strip _ _ _ _ _ _ _ _ _ L1 H1) as (P1 & I1 & _).
    replace (2 * (n - 1)) with (2 * n - 1 - 1) in F by lia.
    pose proof (half_up sh _ sv lam (2 * n - 1) ltac:(lia) nu1 r2 I1 L2 nu2 d2 c2 C2 T H2 HC2 F) as F2. rewrite letter_odd in F2.
    pose proof (half_up sh _ sv lam (2 * n) ltac:(lia) mu r1 Hi L1 nu1 d1 c1 C1 _ H1 HC1 F2) as F1. rewrite letter_even in F1.
    destruct (aug_ok sh _ sv lam (2 * n) mu r1 L1 nu1 d1 c1 C1 H1 HC1) as (N1 & _ & _ & Q1).
    destruct (aug_ok sh _ sv lam (2 * n - 1) nu1 r2 L2 nu2 d2 c2 C2 H2 HC2) as (N2 & _ & _ & Q2).
    assert (V1 : forall b, ~ Hd T b n).
    { intros b X. destruct F as [_ (_ & D2 & _)]. apply D2 in X. destruct X as [X _]. unfold letters in X. destruct (dbl_cases n); lia. }
    assert (V2 : forall b, ~ Hd T b (- n)).
    { intros b X. destruct F as [_ (_ & D2 & _)]. apply D2 in X. destruct X as [X _]. unfold letters in X. destruct (dbl_cases (- n)); lia. }
    assert (A1 : forall b, In b (d1 ++ C1) -> positive b /\ ~ Hd T b n) by (intros b Hb; split; [apply (region_positive sh); apply Q1; assumption|apply V1]).
    assert (A2 : forall b, In b (d2 ++ C2) -> positive b /\ ~ Hd T b (- n)) by (intros b Hb; split; [apply (region_positive sh); apply Q2; assumption|apply V2]).
    split; [|assumption].
    rewrite (addv_comm (d1 ++ C1) (d2 ++ C2) n (- n) T) by (try assumption; try lia; apply F).
    destruct (addv_spec (d1 ++ C1) n T (proj1 F) N1 A1) as [PU HU].
    assert (E1 : add_all (bord (d1 ++ C1)) n T = Ok (addv n (d1 ++ C1) T)).
    { rewrite (addv_perm (d1 ++ C1) (bord (d1 ++ C1)) n T (proj1 F) N1 A1 (Permutation_sym (bord_perm _))). apply add_all_ok; [apply F|].
      intros b Hb. apply A1. apply (Permutation_in _ (bord_perm _)). assumption. }
    rewrite E1. cbn [rbind].
    assert (A3 : forall b, In b (d2 ++ C2) -> positive b /\ ~ Hd (addv n (d1 ++ C1) T) b (- n)).
    { intros b Hb. split; [apply A2; assumption|]. rewrite HU. intros [X|[X _]]; [eapply V2; eassumption|lia]. }
    rewrite (addv_perm (d2 ++ C2) (bord (d2 ++ C2)) (- n) _ PU N2 A3 (Permutation_sym (bord_perm _))). apply add_all_ok; [apply PU|].
    intros b Hb. apply A3. apply (Permutation_in _ (bord_perm _)). assumption.
  Qed.

  Lemma double_down : forall sh prb sv lam n mu r1, 1 <= n -> part_b sh lam -> part_b sh mu ->
    (forall b, dc sh lam b -> dc sh mu b) -> layer_ok sh (fun b => prb b = true) lam (2 * n) mu r1 ->
    forall T, full sh (fun b => prb b = true) sv lam (2 * n) mu T ->
    exists nu1 d1 c1 C1, In (nu1, d1, c1) r1 /\ In C1 (choose sv c1) /\
      forall r2, layer_ok sh (fun b => prb b = true) lam (2 * n - 1) nu1 r2 ->
      exists nu2 d2 c2 C2 T', In (nu2, d2, c2) r2 /\ In C2 (choose sv c2) /\ full sh (fun b => prb b = true) sv lam (2 * (n - 1)) nu2 T' /\
        T = addv n (d1 ++ C1) (addv (- n) (d2 ++ C2) T').
  Proof.
    intros sh prb sv lam n mu r1 Hn Hl Hm Hi L1 T F.
    destruct (half_down sh _ sv lam Hl (2 * n) ltac:(lia) mu r1 Hm Hi L1 T F) as (nu1 & d1 & c1 & C1 & T1 & H1 & HC1 & F1 & ->).
    exists nu1, d1, c1, C1. split; [assumption|]. split; [assumption|]. intros r2 L2.
    destruct (layer_strip _ _ _ _ _ _ _ _ _ L1 H1) as (P1 & I1 & _).
    destruct (half_down sh _ sv lam Hl (2 * n - 1) ltac:(lia) nu1 r2 P1 I1 L2 T1 F1) as (nu2 & d2 & c2 & C2 & T2 & H2 & HC2 & F2 & ->).
    exists nu2, d2, c2, C2, T2. rewrite letter_odd, letter_even. replace (2 * (n - 1)) with (2 * n - 1 - 1) by lia. auto.
  Qed.

  (* the inner loops of the marked enumerators *)
  Definition inner_loops (n : nat) (sv : bool) (d1 c1 d2 c2 : list box) (tabs : list tab) : res (list tab) :=
    rconcat (fun aug1 => rconcat (fun aug2 =>
      rmap (fun t => do t1 <- add_all (bord aug1) (Z.of_nat n) t; add_all (bord aug2) (- Z.of_nat n) t1) (tord tabs))
      (subsets d2 c2 sv)) (subsets d1 c1 sv).

  Lemma inner_loops_ok : forall n sv d1 c1 d2 c2 tabs (g : list box -> list box -> tab -> tab), NoDup (d1 ++ c1) -> NoDup (d2 ++ c2) ->
    (forall C1 C2 T, In C1 (choose sv c1) -> In C2 (choose sv c2) -> In T tabs ->
       (do t1 <- add_all (bord (d1 ++ C1)) (Z.of_nat n) T; add_all (bord (d2 ++ C2)) (- Z.of_nat n) t1) = Ok (g C1 C2 T)) ->
    exists ys, inner_loops n sv d1 c1 d2 c2 tabs = Ok ys /\
      forall U, In U ys <-> exists C1 C2 T, In C1 (choose sv c1) /\ In C2 (choose sv c2) /\ In T tabs /\ U = g C1 C2 T.
  Proof.
    intros n sv d1 c1 d2 c2 tabs g N1 N2 G. unfold inner_loops.
    assert (A : forall C1 C2, In C1 (choose sv c1) -> In C2 (choose sv c2) ->
       exists ys, rmap (fun t => do t1 <- add_all (bord (d1 ++ C1)) (Z.of_nat n) t; add_all (bord (d2 ++ C2)) (- Z.of_nat n) t1) (tord tabs) = Ok ys /\
         forall U, In U ys <-> exists T, In T tabs /\ U = g C1 C2 T).
    { intros C1 C2 H1 H2. destruct (rmap_ok _ _ (fun t => do t1 <- add_all (bord (d1 ++ C1)) (Z.of_nat n) t; add_all (bord (d2 ++ C2)) (- Z.of_nat n) t1) (tord tabs)) as (ys & E & H).
      - intros T HT. eexists. apply G; [assumption|assumption|]. apply (Permutation_in _ (tord_perm _)). assumption.
      - exists ys. split; [assumption|]. intro U. rewrite H. split.
        + intros (T & HT & X). apply (Permutation_in _ (tord_perm _)) in HT. rewrite (G C1 C2 T H1 H2 HT) in X. injection X as <-. exists T. split; [assumption|reflexivity].
        + intros (T & HT & ->). exists T. split; [apply (Permutation_in _ (Permutation_sym (tord_perm _))); assumption|apply G; assumption]. }
    assert (B : forall C1, In C1 (choose sv c1) -> exists ys, rconcat (fun aug2 =>
        rmap (fun t => do t1 <- add_all (bord (d1 ++ C1)) (Z.of_nat n) t; add_all (bord aug2) (- Z.of_nat n) t1) (tord tabs)) (subsets d2 c2 sv) = Ok ys /\
        forall U, In U ys <-> exists C2 T, In C2 (choose sv c2) /\ In T tabs /\ U = g C1 C2 T).
    { intros C1 H1. destruct (rconcat_ok _ _ (fun aug2 => rmap (fun t => do t1 <- add_all (bord (d1 ++ C1)) (Z.of_nat n) t; add_all (bord aug2) (- Z.of_nat n) t1) (tord tabs)) (subsets d2 c2 sv)) as (ys & E & H).
      - intros aug Ha. apply (subsets_In d2 c2 sv aug N2) in Ha. destruct Ha as (C2 & H2 & ->). destruct (A C1 C2 H1 H2) as (ys & E & _). exists ys. exact E.
      - exists ys. split; [assumption|]. intro U. rewrite H. split.
        + intros (aug & zs & Ha & Ez & Hz). apply (subsets_In d2 c2 sv aug N2) in Ha. destruct Ha as (C2 & H2 & ->). destruct (A C1 C2 H1 H2) as (ws & Ew & Hw). rewrite Ew in Ez. injection Ez as <-.
          apply Hw in Hz. destruct Hz as (T & HT & ->). exists C2, T. auto.
        + intros (C2 & T & H2 & HT & ->). destruct (A C1 C2 H1 H2) as (ws & Ew & Hw). exists (d2 ++ C2), ws.
          split; [apply (subsets_In d2 c2 sv _ N2); exists C2; split; [assumption|reflexivity]|]. split; [assumption|]. apply Hw. exists T. auto. }
    destruct (rconcat_ok _ _ (fun aug1 => rconcat (fun aug2 => rmap (fun t => do t1 <- add_all (bord aug1) (Z.of_nat n) t; add_all (bord aug2) (- Z.of_nat n) t1) (tord tabs)) (subsets d2 c2 sv)) (subsets d1 c1 sv)) as (ys & E & H).
    - intros aug Ha. apply (subsets_In d1 c1 sv aug N1) in Ha. destruct Ha as (C1 & H1 & ->). destruct (B C1 H1) as (ys & E & _). exists ys. exact E.
    - exists ys. split; [assumption|]. intro U. rewrite H. split.
      + intros (aug & zs & Ha & Ez & Hz). apply (subsets_In d1 c1 sv aug N1) in Ha. destruct Ha as (C1 & H1 & ->). destruct (B C1 H1) as (ws & Ew & Hw). rewrite Ew in Ez. injection Ez as <-.
        apply Hw in Hz. destruct Hz as (C2 & T & H2 & HT & ->). exists C1, C2, T. auto.
      + intros (C1 & C2 & T & H1 & H2 & HT & ->). destruct (B C1 H1) as (ws & Ew & Hw). exists (d1 ++ C1), ws.
        split; [apply (subsets_In d1 c1 sv _ N1); exists C1; split; [assumption|reflexivity]|]. split; [assumption|]. apply Hw. exists C2, T. auto.
  Qed.

  (* the body shared by the two marked enumerators *)
  Definition marked_body (sh : bool) (prb : box -> bool) (n : nat) (sv : bool) (lam mu : list Z) (rec : list Z -> res (list tab)) : res (list tab) :=
    do strips1 <- hstrips ord sh mu lam;
    do ans <- rconcat (fun s1 => match s1 with (nu1, diff1, corners1) =>
      do strips2 <- vstrips ord sh nu1 lam;
      rconcat (fun s2 => match s2 with (nu2, diff2, corners2) =>
        if forallb prb diff2 then
        do tabs <- rec nu2;
        inner_loops n sv diff1 corners1 diff2 (filter prb corners2) tabs else Ok [] end) strips2 end) strips1;
    Ok (set_tab ans).

  Lemma marked_body_ok : forall sh prb n sv lam mu rec, part_b sh lam -> part_b sh mu -> (forall b, dc sh lam b -> dc sh mu b) ->
    (forall nu, part_b sh nu -> (forall b, dc sh lam b -> dc sh nu b) ->
       exists r, rec nu = Ok r /\ forall T, In T r <-> full sh (fun b => prb b = true) sv lam (2 * Z.of_nat n) nu T) ->
    exists r, marked_body sh prb (S n) sv lam mu rec = Ok r /\ NoDup r /\
      forall T, In T r <-> full sh (fun b => prb b = true) sv lam (2 * Z.of_nat (S n)) mu T.
  Proof.
    intros sh prb n sv lam mu rec Hl Hm Hi IH. unfold marked_body.
    set (N := Z.of_nat (S n)). assert (HN : 1 <= N) by (subst N; lia). assert (EN : Z.of_nat n = N - 1) by (subst N; lia). rewrite EN in IH.
    destruct (hlayer ord ord_perm sh (fun b => prb b = true) (2 * N) lam mu ltac:(lia) (even_2n N) Hl Hm Hi) as (r1 & E1 & L1). rewrite E1. cbn [rbind].
    set (body2 := fun (diff1 corners1 : list box) (s2 : strip) => match s2 with (nu2, diff2, corners2) =>
        if forallb prb diff2 then do tabs <- rec nu2; inner_loops (S n) sv diff1 corners1 diff2 (filter prb corners2) tabs else Ok [] end).
    assert (Body2 : forall nu1 d1 c1 r2, In (nu1, d1, c1) r1 -> layer_ok sh (fun b => prb b = true) lam (2 * N - 1) nu1 (flt prb r2) ->
       exists ys, rconcat (body2 d1 c1) r2 = Ok ys /\ forall U, In U ys <->
         exists nu2 d2 c2 C1 C2 T, In (nu2, d2, c2) (flt prb r2) /\ In C1 (choose sv c1) /\ In C2 (choose sv c2) /\
           full sh (fun b => prb b = true) sv lam (2 * (N - 1)) nu2 T /\ U = addv N (d1 ++ C1) (addv (- N) (d2 ++ C2) T)).
    { intros nu1 d1 c1 r2 H1 L2. destruct (layer_strip _ _ _ _ _ _ _ _ _ L1 H1) as (P1 & I1 & N1).
      assert (One : forall nu2 d2 c2, In (nu2, d2, c2) r2 -> exists ys, body2 d1 c1 (nu2, d2, c2) = Ok ys /\ forall U, In U ys <-> forallb prb d2 = true /\
           exists C1 C2 T, In C1 (choose sv c1) /\ In C2 (choose sv (filter prb c2)) /\ full sh (fun b => prb b = true) sv lam (2 * (N - 1)) nu2 T /\
           U = addv N (d1 ++ C1) (addv (- N) (d2 ++ C2) T)).
      { intros nu2 d2 c2 H2. cbn [body2]. unfold body2. destruct (forallb prb d2) eqn:F2.
        - assert (H2' : In (nu2, d2, filter prb c2) (flt prb r2)) by (apply flt_In; exists c2; auto).
          destruct (layer_strip _ _ _ _ _ _ _ _ _ L2 H2') as (P2 & I2 & N2).
          destruct (IH nu2 P2 I2) as (tabs & Et & Ht). rewrite Et. cbn [rbind].
          destruct (inner_loops_ok (S n) sv d1 c1 d2 (filter prb c2) tabs (fun C1 C2 T => addv N (d1 ++ C1) (addv (- N) (d2 ++ C2) T)) N1 N2) as (ys & Ey & Hy).
          { intros C1 C2 T HC1 HC2 HT. apply Ht in HT.
            exact (proj1 (double_up sh prb sv lam N mu r1 (flt prb r2) HN Hl Hi L1 nu1 d1 c1 C1 nu2 d2 (filter prb c2) C2 T H1 HC1 L2 H2' HC2 HT)). }
          exists ys. split; [assumption|]. intro U. rewrite Hy. split.
          + intros (C1 & C2 & T & X1 & X2 & X3 & X4). split; [reflexivity|]. exists C1, C2, T. rewrite <- Ht. auto.
          + intros (_ & C1 & C2 & T & X1 & X2 & X3 & X4). exists C1, C2, T. rewrite Ht. auto.
        - exists []. split; [reflexivity|]. intro U. split; [intros []|]. intros [X _]. discriminate. }
      destruct (rconcat_ok _ _ (body2 d1 c1) r2) as (ys & Ey & Hy).
      { intros [[nu2 d2] c2] H2. destruct (One _ _ _ H2) as (ys & X & _). exists ys. exact X. }
      exists ys. split; [assumption|]. intro U. rewrite Hy. split.
      - intros ([[nu2 d2] c2] & zs & H2 & Ez & Hz). destruct (One _ _ _ H2) as (ws & Ew & Hw). rewrite Ew in Ez. injection Ez as <-. apply Hw in Hz.
        destruct Hz as (F2 & C1 & C2 & T & X1 & X2 & X3 & X4). exists nu2, d2, (filter prb c2), C1, C2, T. split; [apply flt_In; exists c2; auto|]. auto.
      - intros (nu2 & d2 & c2 & C1 & C2 & T & H2 & X1 & X2 & X3 & X4). apply flt_In in H2. destruct H2 as (c0 & H2 & F2 & ->).
        destruct (One _ _ _ H2) as (ws & Ew & Hw). exists (nu2, d2, c0), ws. split; [assumption|]. split; [assumption|]. apply Hw. split; [assumption|]. exists C1, C2, T. auto. }
    assert (Body1 : forall nu1 d1 c1, In (nu1, d1, c1) r1 -> exists r2 ys, vstrips ord sh nu1 lam = Ok r2 /\ layer_ok sh (fun b => prb b = true) lam (2 * N - 1) nu1 (flt prb r2) /\
         rconcat (body2 d1 c1) r2 = Ok ys /\ forall U, In U ys <->
         exists nu2 d2 c2 C1 C2 T, In (nu2, d2, c2) (flt prb r2) /\ In C1 (choose sv c1) /\ In C2 (choose sv c2) /\
           full sh (fun b => prb b = true) sv lam (2 * (N - 1)) nu2 T /\ U = addv N (d1 ++ C1) (addv (- N) (d2 ++ C2) T)).
    { intros nu1 d1 c1 H1. destruct (layer_strip _ _ _ _ _ _ _ _ _ L1 H1) as (P1 & I1 & N1).
      destruct (vlayer ord ord_perm sh prb (2 * N - 1) lam nu1 ltac:(lia) (even_2n1 N) Hl P1 I1) as (r2 & E2 & L2).
      destruct (Body2 nu1 d1 c1 r2 H1 L2) as (ys & Ey & Hy). exists r2, ys. auto. }
    set (body1 := fun s1 : strip => match s1 with (nu1, diff1, corners1) => do strips2 <- vstrips ord sh nu1 lam; rconcat (body2 diff1 corners1) strips2 end).
    change (exists r, (do ans <- rconcat body1 r1; Ok (set_tab ans)) = Ok r /\ NoDup r /\ forall T, In T r <-> full sh (fun b => prb b = true) sv lam (2 * N) mu T).
    destruct (rconcat_ok _ _ body1 r1) as (ys & Ey & Hy).
    { intros [[nu1 d1] c1] H1. destruct (Body1 _ _ _ H1) as (r2 & ys & E2 & _ & Ey & _). exists ys. unfold body1. rewrite E2. exact Ey. }
    rewrite Ey. cbn [rbind]. exists (set_tab ys). split; [reflexivity|]. split; [apply set_tab_NoDup|]. intro U. rewrite set_tab_In, Hy. split.
    - intros ([[nu1 d1] c1] & zs & H1 & Ez & Hz). destruct (Body1 _ _ _ H1) as (r2 & ws & E2 & L2 & Ew & Hw). unfold body1 in Ez. rewrite E2 in Ez. cbn [rbind] in Ez. rewrite Ew in Ez. injection Ez as <-.
      apply Hw in Hz. destruct Hz as (nu2 & d2 & c2 & C1 & C2 & T & H2 & X1 & X2 & X3 & ->).
      exact (proj2 (double_up sh prb sv lam N mu r1 (flt prb r2) HN Hl Hi L1 nu1 d1 c1 C1 nu2 d2 c2 C2 T H1 X1 L2 H2 X2 X3)).
    - intro F. destruct (double_down sh prb sv lam N mu r1 HN Hl Hm Hi L1 U F) as (nu1 & d1 & c1 & C1 & H1 & HC1 & Rest).
      destruct (Body1 _ _ _ H1) as (r2 & ws & E2 & L2 & Ew & Hw). destruct (Rest _ L2) as (nu2 & d2 & c2 & C2 & T & H2 & HC2 & F2 & E).
      exists (nu1, d1, c1), ws. split; [assumption|]. split; [unfold body1; rewrite E2; exact Ew|]. apply Hw. exists nu2, d2, c2, C1, C2, T. auto.
  Qed.
End Enum.
