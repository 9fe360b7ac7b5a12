(* The counters of reverse plane partitions are exact *)
From Coq Require Import List ZArith Lia Permutation Bool.
From Verif Require Import PyBase M_Partitions M_Rref M_Tableaux M_Strips M_Semistandard M_RPP S_Partitions S_Tableaux S_Strips S_Semistandard S_Standard S_RPP
  L_Partitions L_PartBasic L_PartMore L_PartEnum L_Generate L_Tableaux L_Destand L_Operators L_Strips L_Strips2 L_Strips3 L_Shape L_Semi L_Semi2 L_Semi3 L_Semi4 L_Standard L_Sym8
  L_Count L_Count2 L_Count3 L_RPP1 L_RPP2 L_RPP3 L_Semi5 M_Semistandard.
Import ListNotations.
Local Open Scope Z_scope.

(* appending a part to every key *)
Definition tailv (m : Z) (d : cdict) (alpha : list Z) : Z := match alpha with [] => 0 | _ => if last alpha 0 =? m then cget d (removelast alpha) else 0 end.
Lemma cget_cons : forall p c d x, cget ((p, c) :: d) x = if zlist_eqb p x then c else cget d x.
Proof. intros p c d x. unfold cget. cbn [dget]. destruct (zlist_eqb p x); reflexivity. Qed.
Lemma cget_fresh : forall d x, ~ In x (map fst d) -> cget d x = 0.
Proof.
  induction d as [|[p c] d IH]; intros x H; [reflexivity|]. rewrite cget_cons. destruct (zlist_eqb p x) eqn:E; [apply zlist_eqb_eq in E; subst; exfalso; apply H; left; reflexivity|]. apply IH. intro X. apply H. right. assumption.
Qed.
Lemma extend_ok : forall n m d ans, 0 < m -> good n d -> good (S n) ans -> good (S n) (rpp_extend m d ans) /\
  forall alpha, partition alpha -> cget (rpp_extend m d ans) alpha = cget ans alpha + tailv m d alpha.
Proof.
  intros n m d. induction d as [|[p c] d IH]; intros ans Hm Gd Ga.
  - split; [assumption|]. intros alpha _. unfold rpp_extend. cbn [fold_left]. unfold tailv. destruct alpha; [lia|]. destruct (_ =? m); unfold cget; cbn [dget]; lia.
  - destruct Gd as [Nd Hd']. cbn [map fst] in Nd. inversion Nd as [|? ? Np Nd']; subst. destruct (Hd' p c (or_introl eq_refl)) as (Pp & Lp & Cp).
    assert (Gd' : good n d) by (split; [assumption|intros q e H; apply Hd'; right; assumption]).
    unfold rpp_extend. cbn [fold_left fst snd]. fold (rpp_extend m d (if rpp_skip p m then ans else cincr ans (p ++ [m]) c)).
    assert (T : forall alpha, partition alpha -> tailv m ((p, c) :: d) alpha = tailv m d alpha + (if zlist_eqb (p ++ [m]) alpha then c else 0)).
    { intros alpha Pa. destruct alpha as [|a alpha]; [cbn [tailv]; destruct (zlist_eqb (p ++ [m]) []) eqn:E; [apply zlist_eqb_eq in E; destruct p; discriminate|lia]|].
      unfold tailv. destruct (exists_last (l := a :: alpha)) as (q & x & E); [discriminate|]. rewrite E, last_last, removelast_last, cget_cons.
      destruct (x =? m) eqn:E1.
      - apply Z.eqb_eq in E1. subst x. destruct (zlist_eqb p q) eqn:E2.
        + apply zlist_eqb_eq in E2. subst q. rewrite zlist_eqb_refl, cget_fresh by assumption. lia.
        + destruct (zlist_eqb (p ++ [m]) (q ++ [m])) eqn:E3; [|lia]. apply zlist_eqb_eq in E3. apply app_inj_tail in E3. destruct E3 as [-> _]. rewrite zlist_eqb_refl in E2. discriminate.
      - apply Z.eqb_neq in E1. destruct (zlist_eqb (p ++ [m]) (q ++ [x])) eqn:E3; [|lia]. apply zlist_eqb_eq in E3. apply app_inj_tail in E3. destruct E3 as [_ ->]. congruence. }
    destruct (rpp_skip p m) eqn:E.
    + destruct (IH ans Hm Gd' Ga) as [G H]. split; [assumption|]. intros alpha Pa. rewrite H, T by assumption. destruct (zlist_eqb (p ++ [m]) alpha) eqn:E2; [|lia].
      apply zlist_eqb_eq in E2. subst alpha. exfalso. apply partition_snoc in Pa. destruct Pa as (_ & _ & [->|X]); [discriminate|]. unfold rpp_skip in E. destruct p; [discriminate|]. apply Z.ltb_lt in E. lia.
    + assert (Pm : partition (p ++ [m])).
      { apply partition_snoc. split; [assumption|]. split; [assumption|]. unfold rpp_skip in E. destruct p; [left; reflexivity|right]. apply Z.ltb_ge in E. assumption. }
      destruct (IH (cincr ans (p ++ [m]) c) Hm Gd') as [G H]; [apply good_cincr; [assumption|assumption|rewrite app_length; cbn [length]; lia|assumption]|].
      split; [assumption|]. intros alpha Pa. rewrite H, T, cget_cincr by assumption. lia.
Qed.

Definition pcount_ok (sh : bool) (al : box -> Z -> Prop) (lam : list Z) (n : nat) (mu : list Z) (d : cdict) : Prop :=
  good n d /\ forall alpha w, partition alpha -> (length alpha <= n)%nat -> (forall m, 1 <= m -> w m = wt alpha m) ->
    counts (pweighted sh al lam (2 * Z.of_nat (length alpha)) mu w) (cget d alpha).

Lemma pweight_nil : forall m, pweight m [] = 0.
Proof. reflexivity. Qed.
Lemma partition_nil' : partition [].
Proof. split; [constructor|]. intro i. destruct i; cbn; lia. Qed.

Lemma distinct_zero : forall f (d : list box), distinct (map f d) = 0 -> d = [].
Proof. intros f d H. destruct d as [|b d]; [reflexivity|]. exfalso. unfold distinct, zlen in H. assert (X : In (f b) (nodup Z.eq_dec (map f (b :: d)))) by (apply nodup_In; left; reflexivity). destruct (nodup Z.eq_dec (map f (b :: d))); [destruct X|cbn [length] in H; lia]. Qed.
Lemma distinct_nneg : forall l, 0 <= distinct l.
Proof. intro l. unfold distinct, zlen. lia. Qed.

Section Count.
  Variable sh : bool.
  Variable al : box -> Z -> Prop.
  Variable lam : list Z.
  Hypothesis lam_part : part_b sh lam.
  Variable alb : box -> Z -> bool.
  Hypothesis alb_spec : forall b x, alb b x = true <-> al b x.

  Lemma pcount_equal : forall n, pcount_ok sh al lam n lam [([], 1)].
  Proof.
    intros n. split.
    - split; [repeat constructor; intros []|]. intros p c [X|[]]. injection X as <- <-. split; [apply partition_nil'|]. cbn. lia.
    - intros alpha w Ha Hn W. unfold cget. cbn [dget]. destruct alpha as [|a alpha].
      + cbn. exists [[]]. split; [repeat constructor; intros []|]. split; [|reflexivity]. intro T. split.
        * intros [<-|[]]. split; [apply (pf_equal sh al lam lam_part); reflexivity|]. intros m Hm. rewrite W, wt_nil by assumption. reflexivity.
        * intros [F _]. apply (pf_equal sh al lam lam_part) in F. left. auto.
      + apply counts_empty. intros T [F O]. apply (pf_equal sh al lam lam_part) in F. subst T. specialize (O 1 ltac:(lia)). rewrite W in O by lia. cbn in O.
        destruct Ha as [Ha _]. inversion Ha. lia.
  Qed.
  Lemma pcount_none : forall n mu, ~ okS sh lam mu -> pcount_ok sh al lam n mu [].
  Proof. intros n mu N. split; [apply good_nil|]. intros alpha w _ _ _. apply counts_empty. intros T [F _]. apply N. apply F. Qed.
  Lemma pcount_zero : forall mu, mu <> lam -> pcount_ok sh al lam 0 mu [].
  Proof.
    intros mu N. split; [apply good_nil|]. intros alpha w _ L _. destruct alpha; [|cbn [length] in L; lia]. apply counts_empty. intros T [F _]. apply pf_zero in F; [contradiction|assumption].
  Qed.
  Lemma okS_dec : forall mu, part_b sh mu -> okS sh lam mu \/ ~ okS sh lam mu.
  Proof.
    intros mu P. destruct (contains mu lam) eqn:C; [left|right].
    - split; [assumption|]. apply (contains_incl sh mu lam); assumption.
    - apply contains_false; assumption.
  Qed.
  Lemma half_pcount' : forall k mu r w (N : list Z * list box -> Z), 1 <= k -> part_b sh mu -> layers sh lam mu r ->
    (forall nu d, In (nu, d) r -> okdb alb k d = true -> counts (pweighted sh al lam (k - 1) nu (fun m => w m - ind (Z.abs (letter k) =? m) * lines k d)) (N (nu, d))) ->
    counts (pweighted sh al lam k mu w) (zs (fun s => if okdb alb k (snd s) then N s else 0) r).
  Proof.
    intros k mu r w N Hk P L H. destruct (okS_dec mu P) as [O|O]; [apply (half_pcount sh al lam lam_part alb alb_spec); assumption|].
    replace (zs (fun s => if okdb alb k (snd s) then N s else 0) r) with 0; [apply counts_empty; intros T [F _]; apply O, F|].
    symmetry. apply zs_zero. intros [nu d] Hs. cbn [snd]. destruct (okdb alb k d) eqn:E; [|reflexivity]. eapply counts_unique; [apply (H nu d Hs E)|]. apply counts_empty. intros T [F _]. apply O.
    split; [assumption|]. intros b Hb. destruct L as (_ & L & _). destruct (L nu d Hs) as (_ & I' & _). apply I'. destruct F as ([_ I] & _). apply I. assumption.
  Qed.

  (* removing the largest letter *)
  Lemma pfiber : forall n nu d alpha w x, pcount_ok sh al lam n nu d -> partition alpha -> alpha <> [] -> (length alpha <= S n)%nat ->
    (forall m, 1 <= m -> w m = wt alpha m - ind (Z.of_nat (length alpha) =? m) * x) ->
    counts (pweighted sh al lam (2 * Z.of_nat (length alpha) - 2) nu w) (tailv x d alpha).
  Proof.
    intros n nu d alpha w x [_ H] Ha Hne Hl W. destruct (exists_last Hne) as (q & a & ->). rewrite app_length in *. cbn [length] in *.
    destruct (head_tail (length q) (q ++ [a]) Ha) as (H1 & H2 & H3); [rewrite app_length; cbn; lia|].
    assert (Eh : head_of (length q) (q ++ [a]) = q) by (unfold head_of; rewrite app_length; cbn [length]; replace (length q + 1)%nat with (S (length q)) by lia; rewrite Nat.eqb_refl; apply removelast_last).
    assert (Et : tail_of (length q) (q ++ [a]) = a) by (unfold tail_of; rewrite app_length; cbn [length]; replace (length q + 1)%nat with (S (length q)) by lia; rewrite Nat.eqb_refl; apply last_last).
    rewrite Eh in H1, H2, H3. rewrite Et in H3.
    assert (Tv : tailv x d (q ++ [a]) = if a =? x then cget d q else 0).
    { unfold tailv. destruct (q ++ [a]) eqn:E; [destruct q; discriminate|]. rewrite <- E, last_last, removelast_last. reflexivity. }
    rewrite Tv. replace (2 * Z.of_nat (length q + 1) - 2) with (2 * Z.of_nat (length q)) by lia.
    replace (Z.of_nat (length q + 1)) with (Z.of_nat (S (length q))) in W by lia.
    destruct (a =? x) eqn:E.
    - apply Z.eqb_eq in E. subst x. apply H; [assumption|lia|]. intros m Hm. rewrite W by assumption. apply H3.
    - apply Z.eqb_neq in E. apply counts_empty. intros T [F O]. specialize (O (Z.of_nat (S (length q))) ltac:(lia)). rewrite W in O by lia. rewrite Z.eqb_refl in O. cbn [ind] in O.
      rewrite (pweight_above sh al lam (2 * Z.of_nat (length q)) nu T (Z.of_nat (S (length q))) F) in O by lia.
      pose proof (H3 (Z.of_nat (S (length q)))) as X. rewrite Z.eqb_refl in X. cbn [ind] in X. unfold wt at 2 in X. replace (1 <=? Z.of_nat (S (length q))) with true in X by (symmetry; apply Z.leb_le; lia).
      replace (row q (Z.to_nat (Z.of_nat (S (length q)) - 1))) with 0 in X by (symmetry; apply nth_overflow; lia). lia.
  Qed.
  Lemma tailv_zero : forall d alpha, partition alpha -> tailv 0 d alpha = 0.
  Proof.
    intros d alpha Ha. unfold tailv. destruct alpha as [|a alpha]; [reflexivity|]. destruct (exists_last (l := a :: alpha)) as (q & x & E); [discriminate|]. rewrite E in *. rewrite last_last.
    apply partition_snoc in Ha. replace (x =? 0) with false by (symmetry; apply Z.eqb_neq; lia). reflexivity.
  Qed.
  Lemma tailv_nil : forall x d, tailv x d [] = 0.
  Proof. reflexivity. Qed.
  Lemma layer_empty : forall mu r nu, part_b sh mu -> layers sh lam mu r -> In (nu, []) r -> nu = mu.
  Proof.
    intros mu r nu P (_ & L & _) H. destruct (L nu [] H) as (Pn & I & _ & C). apply (part_ext sh); [assumption|assumption|]. intro b. split; [apply I|]. intro Hb.
    destruct (dc_dec sh nu b) as [X|X]; [assumption|]. exfalso. apply (C b). tauto.
  Qed.
  Lemma layer_same : forall mu r d, layers sh lam mu r -> In (mu, d) r -> d = [].
  Proof.
    intros mu r d (_ & L & _) H. destruct (L mu d H) as (Pn & I & _ & C). destruct d as [|b d]; [reflexivity|]. exfalso. destruct (proj1 (C b) (or_introl eq_refl)). contradiction.
  Qed.
End Count.

Section Counters.
  Variable ord : list (list Z) -> list (list Z).
  Hypothesis ord_perm : forall l, Permutation (ord l) l.

  Lemma count_rpp_ok : forall lam, partition lam -> forall n mu, partition mu ->
    exists d, count_semistandard_rpp ord n mu lam = Ok d /\ pcount_ok false al_plain lam n mu d.
  Proof.
    intros lam Hl. induction n as [|n IH]; intros mu Hm; cbn [count_semistandard_rpp]; (destruct (zlist_eqb mu lam) eqn:E; [apply zlist_eqb_eq in E; subst mu; eexists; split; [reflexivity|apply pcount_equal; assumption]|apply zlist_neq in E]).
    - eexists. split; [reflexivity|]. apply pcount_zero; assumption.
    - destruct (contains mu lam) eqn:C; [|eexists; split; [reflexivity|]; apply pcount_none; apply (contains_false false); assumption].
      assert (Inc : forall b, dc false lam b -> dc false mu b) by (apply (contains_incl false mu lam); assumption).
      destruct (vertical_spec ord ord_perm mu lam Hm Hl) as (strips & Es & Hs & _). specialize (Hs Inc). rewrite Es. cbn [rbind].
      pose proof (strips_layers false lam lam mu strips (fun b H => H) Hs) as L.
      set (D := fun nu => match count_semistandard_rpp ord n nu lam with Ok d => d | Err _ => [] end).
      assert (HD : forall nu d, In (nu, d) strips -> count_semistandard_rpp ord n nu lam = Ok (D nu) /\ pcount_ok false al_plain lam n nu (D nu)).
      { intros nu d H. assert (Pn : part_b false nu) by apply (proj1 (proj2 L) nu d H). destruct (IH nu Pn) as (dd & Ed & Hd). unfold D. rewrite Ed. split; [reflexivity|assumption]. }
      destruct (rfold_counts n (list Z * list box) (fun ans s => match s with (nu, diff) =>
                 if zlist_eqb mu nu then Ok ans else
                 do d <- count_semistandard_rpp ord n nu lam;
                 Ok (rpp_extend (distinct (map snd diff)) d ans) end)
                (fun s alpha => tailv (distinct (map snd (snd s))) (D (fst s)) alpha) strips [] (good_nil _)) as (d & Ed & Gd & Hd).
      { intros [nu diff] ans Hs' Ga. cbn [fst snd]. destruct (zlist_eqb mu nu) eqn:E1.
        - apply zlist_eqb_eq in E1. subst nu. exists ans. split; [reflexivity|]. split; [assumption|]. intros alpha Pa _. rewrite (layer_same false lam mu strips diff L Hs'). cbn [map]. change (distinct []) with 0. rewrite tailv_zero by assumption. lia.
        - destruct (HD nu diff Hs') as [X1 X2]. rewrite X1. cbn [rbind]. eexists. split; [reflexivity|].
          assert (Hp : 0 < distinct (map snd diff)).
          { pose proof (distinct_nonneg (map snd diff)). destruct (Z.eq_dec (distinct (map snd diff)) 0) as [X|X]; [|lia]. exfalso. apply zlist_neq in E1. apply E1. symmetry. apply (layer_empty false lam mu strips nu Hm L). apply distinct_zero in X. subst diff. assumption. }
          destruct (extend_ok n (distinct (map snd diff)) (D nu) ans Hp (proj1 X2) Ga) as [G1 G2]. split; [assumption|]. intros alpha Pa _. apply G2. assumption. }
      exists d. split; [exact Ed|]. split; [assumption|]. intros alpha w Ha Hn W. rewrite (Hd alpha Ha Hn). change (cget [] alpha) with 0. rewrite Z.add_0_l.
      destruct (list_eq_dec Z.eq_dec alpha []) as [->|Hne].
      + rewrite zs_zero by (intros; reflexivity). apply counts_empty. intros T [F _]. apply pf_zero in F; [contradiction|assumption].
      + set (k := 2 * Z.of_nat (length alpha)). assert (Hla : (1 <= length alpha)%nat) by (destruct alpha; [congruence|cbn; lia]). assert (Hk : 1 <= k) by (subst k; lia).
        assert (Hok : forall s : list Z * list box, okdb alb_plain k (snd s) = true) by (intro s; apply (okdb_spec al_plain alb_plain alb_plain_spec); subst k; apply okd_plain; lia).
        refine (counts_ext _ _ _ _ _ (fun T => iff_refl _) _ (half_pcount' false al_plain lam Hl alb_plain alb_plain_spec k mu strips w (fun s => tailv (distinct (map snd (snd s))) (D (fst s)) alpha) Hk Hm L _)).
        { apply zs_ext. intros s _. rewrite Hok. reflexivity. }
        intros nu d0 Hs' _. destruct (HD nu d0 Hs') as [_ X2]. cbn [fst snd].
        apply (counts_ext _ (pweighted false al_plain lam (k - 2) nu (fun m => w m - ind (Z.abs (letter k) =? m) * lines k d0)) _ (tailv (distinct (map snd d0)) (D nu) alpha)); [|reflexivity|].
        * intro T. unfold pweighted. rewrite (pf_skip false al_plain lam (k - 1) nu T); [replace (k - 1 - 1) with (k - 2) by lia; reflexivity|subst k; lia|].
          intros b X. unfold al_plain in X. subst k. rewrite letter_odd in X. lia.
        * unfold k. apply (pfiber false al_plain lam n); [assumption|assumption|assumption|assumption|].
          intros m Hm1. rewrite W by assumption. rewrite letter_even. replace (Z.abs (Z.of_nat (length alpha))) with (Z.of_nat (length alpha)) by lia. unfold lines. rewrite even_2n'. reflexivity.
  Qed.

  Section Marked.
    Variable dnp : bool.
    Variable lam : list Z.
    Hypothesis Hl : strict_partition lam.
    Notation S1 := (strips1 ord).
    Notation S2 := (strips2 ord).

    Lemma count_marked_rpp_ok : forall n mu, strict_partition mu ->
      exists d, count_semistandard_marked_rpp ord n mu lam dnp = Ok d /\ pcount_ok true (al_marked dnp) lam n mu d.
    Proof.
      induction n as [|n IH]; intros mu Hm; cbn [count_semistandard_marked_rpp]; rewrite (strict_is_strict mu) by assumption; cbn [negb];
        (destruct (zlist_eqb mu lam) eqn:E; [apply zlist_eqb_eq in E; subst mu; eexists; split; [reflexivity|apply pcount_equal; assumption]|apply zlist_neq in E]).
      - eexists. split; [reflexivity|]. apply pcount_zero; assumption.
      - destruct (contains mu lam) eqn:C; [|eexists; split; [reflexivity|]; apply pcount_none; apply (contains_false true); assumption].
        destruct (strips1_ok ord ord_perm lam mu Hm) as [Es1 L1]. rewrite Es1. cbn [rbind].
        set (D := fun nu => match count_semistandard_marked_rpp ord n nu lam dnp with Ok d => d | Err _ => [] end).
        assert (HD : forall nu, strict_partition nu -> count_semistandard_marked_rpp ord n nu lam dnp = Ok (D nu) /\ pcount_ok true (al_marked dnp) lam n nu (D nu)).
        { intros nu P. destruct (IH nu P) as (dd & Ed & Hd). unfold D. rewrite Ed. split; [reflexivity|assumption]. }
        assert (P1 : forall nu1 d1, In (nu1, d1) (S1 mu) -> strict_partition nu1) by (intros nu1 d1 H1; apply (proj1 (proj2 L1) nu1 d1 H1)).
        assert (L2 : forall nu1 d1, In (nu1, d1) (S1 mu) -> shifted_rpp_vertical_strips ord nu1 = Ok (S2 nu1) /\ layers true lam nu1 (S2 nu1)).
        { intros nu1 d1 H1. apply (strips2_ok ord ord_perm lam nu1). apply (P1 nu1 d1 H1). }
        assert (P2 : forall nu1 d1 nu2 d2, In (nu1, d1) (S1 mu) -> In (nu2, d2) (S2 nu1) -> strict_partition nu2).
        { intros nu1 d1 nu2 d2 H1 H2. destruct (L2 nu1 d1 H1) as [_ (_ & X & _)]. apply (X nu2 d2 H2). }
        set (h2 := fun (d1 : list box) (s2 : list Z * list box) (alpha : list Z) => tailv (distinct (map snd d1) + distinct (map fst (snd s2))) (D (fst s2)) alpha).
        set (h1 := fun (s1 : list Z * list box) (alpha : list Z) => if okdb (alb_marked dnp) 2 (snd s1) then zs (fun s2 => h2 (snd s1) s2 alpha) (S2 (fst s1)) else 0).
        assert (O2 : forall n' d, 0 < n' -> okdb (alb_marked dnp) (2 * n') d = okdb (alb_marked dnp) 2 d).
        { intros n' d Hn'. rewrite okd_top by assumption. change 2 with (2 * 1). rewrite okd_top by lia. reflexivity. }
        assert (O1 : forall d, okdb (alb_marked dnp) 2 d = negb (negb dnp && existsb (fun c => fst c =? snd c) d)).
        { intro d. change 2 with (2 * 1). rewrite okd_top by lia. rewrite negb_andb, negb_involutive. reflexivity. }
        destruct (rfold_counts n (list Z * list box) (fun ans s1 => match s1 with (nu1, diff1) =>
                 if negb dnp && existsb (fun c => fst c =? snd c) diff1 then Ok ans else
                 do strips2 <- shifted_rpp_vertical_strips ord nu1;
                 rfold (fun ans s2 => match s2 with (nu2, diff2) =>
                   if zlist_eqb mu nu2 then Ok ans else
                   do d <- count_semistandard_marked_rpp ord n nu2 lam dnp;
                   Ok (rpp_extend (distinct (map snd diff1) + distinct (map fst diff2)) d ans) end) strips2 ans end) h1 (S1 mu) [] (good_nil _)) as (d & Ed & Gd & Hd).
        { intros [nu1 d1] ans H1 Ga. unfold h1. cbn [fst snd]. rewrite O1. destruct (negb dnp && existsb (fun c => fst c =? snd c) d1); cbn [negb].
          - exists ans. split; [reflexivity|]. split; [assumption|]. intros. lia.
          - destruct (L2 nu1 d1 H1) as [Es2 Ly2]. rewrite Es2. cbn [rbind]. apply rfold_counts; [assumption|].
            intros [nu2 d2] ans' H2 Ga'. unfold h2. cbn [fst snd]. pose proof (distinct_nonneg (map snd d1)) as N1. pose proof (distinct_nonneg (map fst d2)) as N2. destruct (zlist_eqb mu nu2) eqn:E1.
            + apply zlist_eqb_eq in E1. subst nu2. exists ans'. split; [reflexivity|]. split; [assumption|]. intros alpha Pa _.
              assert (En : nu1 = mu).
              { apply (part_ext true); [apply (P1 nu1 d1 H1)|assumption|]. intro b. split; [apply (proj1 (proj2 L1) nu1 d1 H1)|apply (proj1 (proj2 Ly2) mu d2 H2)]. }
              subst nu1. rewrite (layer_same true lam mu (S1 mu) d1 L1 H1), (layer_same true lam mu (S2 mu) d2 Ly2 H2). cbn [map]. change (distinct [] + distinct []) with 0. rewrite tailv_zero by assumption. lia.
            + destruct (HD nu2 (P2 nu1 d1 nu2 d2 H1 H2)) as [X1 X2]. rewrite X1. cbn [rbind]. eexists. split; [reflexivity|].
              assert (Hp : 0 < distinct (map snd d1) + distinct (map fst d2)).
              { destruct (Z.eq_dec (distinct (map snd d1)) 0) as [X|X]; [|lia]. destruct (Z.eq_dec (distinct (map fst d2)) 0) as [Y|Y]; [|lia]. exfalso. apply zlist_neq in E1. apply E1.
                apply distinct_zero in X. apply distinct_zero in Y. subst d1 d2.
                rewrite <- (layer_empty true lam mu (S1 mu) nu1 Hm L1 H1). symmetry. apply (layer_empty true lam nu1 (S2 nu1) nu2 (P1 nu1 [] H1) Ly2 H2). }
              destruct (extend_ok n _ (D nu2) ans' Hp (proj1 X2) Ga') as [G1 G2]. split; [assumption|]. intros alpha Pa _. apply G2. assumption. }
        exists d. split; [exact Ed|]. split; [assumption|]. intros alpha w Ha Hn W. rewrite (Hd alpha Ha Hn). change (cget [] alpha) with 0. rewrite Z.add_0_l.
        destruct (list_eq_dec Z.eq_dec alpha []) as [->|Hne].
        + rewrite zs_zero; [apply counts_empty; intros T [F _]; apply pf_zero in F; [contradiction|assumption]|]. intros s _. unfold h1. destruct (okdb _ _ _); [|reflexivity]. apply zs_zero. reflexivity.
        + assert (Hla : (1 <= length alpha)%nat) by (destruct alpha; [congruence|cbn; lia]). set (N := Z.of_nat (length alpha)). assert (HN : 0 < N) by (subst N; lia).
          refine (counts_ext _ _ _ _ _ (fun T => iff_refl _) _ (half_pcount' true (al_marked dnp) lam Hl (alb_marked dnp) (alb_marked_spec dnp) (2 * N) mu (S1 mu) w (fun s1 => zs (fun s2 => h2 (snd s1) s2 alpha) (S2 (fst s1))) _ Hm L1 _)); [|lia|].
          { apply zs_ext. intros s _. unfold h1. rewrite O2 by assumption. reflexivity. }
          intros nu1 d1 H1 _. cbn [fst snd]. destruct (L2 nu1 d1 H1) as [_ Ly2].
          refine (counts_ext _ _ _ _ _ (fun T => iff_refl _) _ (half_pcount' true (al_marked dnp) lam Hl (alb_marked dnp) (alb_marked_spec dnp) (2 * N - 1) nu1 (S2 nu1) _ (fun s2 => h2 d1 s2 alpha) _ (P1 nu1 d1 H1) Ly2 _)); [|lia|].
          { apply zs_ext. intros s _. replace (okdb (alb_marked dnp) (2 * N - 1) (snd s)) with true; [reflexivity|]. symmetry. apply (okdb_spec _ _ (alb_marked_spec dnp)). apply okd_prime. assumption. }
          intros nu2 d2 H2 _. destruct (HD nu2 (P2 nu1 d1 nu2 d2 H1 H2)) as [_ X2]. unfold h2. cbn [fst snd]. replace (2 * N - 1 - 1) with (2 * N - 2) by lia.
          apply (pfiber true (al_marked dnp) lam n); [assumption|assumption|assumption|assumption|].
          intros m Hm1. rewrite W by assumption. fold N. rewrite letter_even, letter_odd. replace (Z.abs N) with N by lia. replace (Z.abs (- N)) with N by lia. unfold lines. rewrite even_2n', odd_2n1. ring.
    Qed.
  End Marked.
End Counters.
