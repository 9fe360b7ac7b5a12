(* The counting functions count the fillings *)
From Coq Require Import List ZArith Lia Bool Permutation Sorted.
From Verif Require Import PyBase M_Rref M_Partitions S_Partitions L_Partitions L_PartBasic M_Tableaux S_Tableaux L_Tableaux M_Strips S_Strips L_Strips L_Strips2 L_Strips3
  M_Semistandard S_Semistandard L_Fill L_Shape L_Semi L_Semi2 L_Semi3 L_Semi4 L_Semi5 L_Count L_Count2.
Import ListNotations.
Local Open Scope Z_scope.

Definition wt (alpha : list Z) (m : Z) : Z := if 1 <=? m then row alpha (Z.to_nat (m - 1)) else 0.

Lemma occ_zero : forall sh pr sv lam k mu T m, full sh pr sv lam k mu T -> ~ (1 <= m /\ 2 * m - 1 <= k) -> occurrences m T = 0.
Proof.
  intros sh pr sv lam k mu T m F Hm. unfold occurrences. rewrite filter_none; [reflexivity|]. intros x Hx. apply in_flat_map in Hx. destruct Hx as ([b l] & H1 & H2). cbn [snd] in H2. destruct F as [P (_ & D & _)].
  destruct (D b x) as [L _]; [exists l; split; [rewrite <- surjective_pairing; assumption|assumption]|]. unfold letters in L. apply Z.eqb_neq. intro E. apply Hm. destruct (dbl_cases x); lia.
Qed.

Definition count_ok (sh : bool) (pr : box -> Prop) (sv : bool) (lam : list Z) (n : nat) (mu : list Z) (d : cdict) : Prop :=
  good n d /\ forall alpha w, partition alpha -> (length alpha <= n)%nat -> (forall m, w m = wt alpha m) ->
    counts (weighted sh pr sv lam (2 * Z.of_nat n) mu w) (cget d alpha).

Lemma wt_nil : forall m, wt [] m = 0.
Proof. intro m. unfold wt, row. destruct (1 <=? m); [|reflexivity]. destruct (Z.to_nat (m - 1)); reflexivity. Qed.

Lemma count_equal : forall sh pr sv lam n mu, part_b sh lam -> part_b sh mu -> mu = lam -> count_ok sh pr sv lam n mu [([], 1)].
Proof.
  intros sh pr sv lam n mu Hl Hm E. split.
  - split; [repeat constructor; intros []|]. intros p c [X|[]]. injection X as <- <-. split; [split; [constructor|]; intro i; destruct i; cbn; lia|]. cbn. lia.
  - intros alpha w Ha Hn W. unfold cget. cbn [dget]. destruct alpha as [|a alpha].
    + cbn. exists [[]]. split; [repeat constructor; intros []|]. split; [|reflexivity]. intro T. split.
      * intros [<-|[]]. split; [apply (full_equal sh pr sv lam _ mu [] Hl Hm E); reflexivity|]. intro m. rewrite W, wt_nil. reflexivity.
      * intros [F _]. apply (full_equal sh pr sv lam _ mu T Hl Hm E) in F. left. auto.
    + cbn. apply counts_empty. intros T [F O]. apply (full_equal sh pr sv lam _ mu T Hl Hm E) in F. subst T. specialize (O 1). rewrite W in O. cbn in O.
      destruct Ha as [Ha _]. inversion Ha. lia.
Qed.
Lemma count_zero : forall sh pr sv lam mu, part_b sh lam -> part_b sh mu -> (forall b, dc sh lam b -> dc sh mu b) -> mu <> lam -> count_ok sh pr sv lam 0 mu [].
Proof.
  intros sh pr sv lam mu Hl Hm Hi N. split; [split; [constructor|intros p c []]|]. intros alpha w _ _ _. apply counts_empty. intros T [F _].
  apply full_zero in F; [contradiction|assumption|assumption|assumption].
Qed.

Lemma head_tail : forall n alpha, partition alpha -> (length alpha <= S n)%nat ->
  partition (head_of n alpha) /\ (length (head_of n alpha) <= n)%nat /\
  forall m, wt alpha m - ind (Z.of_nat (S n) =? m) * tail_of n alpha = wt (head_of n alpha) m.
Proof.
  intros n alpha Ha Hl. unfold head_of, tail_of. destruct (length alpha =? S n)%nat eqn:E.
  - apply Nat.eqb_eq in E. destruct (exists_last (l := alpha)) as (q & a & ->); [intros ->; discriminate|]. rewrite removelast_last, last_last.
    apply partition_snoc in Ha. rewrite app_length in E. cbn [length] in E. split; [apply Ha|]. split; [lia|]. intro m. unfold wt. destruct (1 <=? m) eqn:Em.
    + apply Z.leb_le in Em. rewrite row_snoc. destruct (Z.to_nat (m - 1) <? length q)%nat eqn:E1.
      * apply Nat.ltb_lt in E1. replace (Z.of_nat (S n) =? m) with false by (symmetry; apply Z.eqb_neq; lia). cbn [ind]. lia.
      * apply Nat.ltb_ge in E1. replace (row q (Z.to_nat (m - 1))) with 0 by (symmetry; apply nth_overflow; assumption).
        destruct (Z.to_nat (m - 1) =? length q)%nat eqn:E2.
        -- apply Nat.eqb_eq in E2. replace (Z.of_nat (S n) =? m) with true by (symmetry; apply Z.eqb_eq; lia). cbn [ind]. lia.
        -- apply Nat.eqb_neq in E2. replace (Z.of_nat (S n) =? m) with false by (symmetry; apply Z.eqb_neq; lia). cbn [ind]. lia.
    + apply Z.leb_gt in Em. replace (Z.of_nat (S n) =? m) with false by (symmetry; apply Z.eqb_neq; lia). cbn [ind]. lia.
  - apply Nat.eqb_neq in E. split; [assumption|]. split; [lia|]. intro m. lia.
Qed.

Lemma wt_top : forall n alpha, partition alpha -> (length alpha <= S n)%nat -> wt alpha (Z.of_nat (S n)) = tail_of n alpha.
Proof.
  intros n alpha Ha Hl. destruct (head_tail n alpha Ha Hl) as (_ & H2 & H3). specialize (H3 (Z.of_nat (S n))). rewrite Z.eqb_refl in H3. cbn [ind] in H3.
  unfold wt at 2 in H3. replace (1 <=? Z.of_nat (S n)) with true in H3 by (symmetry; apply Z.leb_le; lia).
  replace (row (head_of n alpha) (Z.to_nat (Z.of_nat (S n) - 1))) with 0 in H3 by (symmetry; apply nth_overflow; lia). lia.
Qed.

(* the fillings obtained after x occurrences of the letter n+1 have been removed *)
Lemma fiber : forall sh pr sv lam n nu d alpha w x, count_ok sh pr sv lam n nu d -> partition alpha -> (length alpha <= S n)%nat ->
  (forall m, w m = wt alpha m - ind (Z.of_nat (S n) =? m) * x) ->
  counts (weighted sh pr sv lam (2 * Z.of_nat n) nu w) (if x =? tail_of n alpha then cget d (head_of n alpha) else 0).
Proof.
  intros sh pr sv lam n nu d alpha w x [_ H] Ha Hl W. destruct (head_tail n alpha Ha Hl) as (H1 & H2 & H3). destruct (x =? tail_of n alpha) eqn:E.
  - apply Z.eqb_eq in E. subst x. apply H; [assumption|assumption|]. intro m. rewrite W. apply H3.
  - apply Z.eqb_neq in E. apply counts_empty. intros T [F O]. specialize (O (Z.of_nat (S n))). rewrite W, Z.eqb_refl, (wt_top n alpha Ha Hl) in O. cbn [ind] in O.
    rewrite (occ_zero _ _ _ _ _ _ _ _ F) in O by lia. lia.
Qed.

(* loops over strips *)
Lemma rfold_counts : forall n (A : Type) (f : cdict -> A -> res cdict) (h : A -> list Z -> Z) l ans, good (S n) ans ->
  (forall s ans, In s l -> good (S n) ans -> exists r, f ans s = Ok r /\ good (S n) r /\
     forall alpha, partition alpha -> (length alpha <= S n)%nat -> cget r alpha = cget ans alpha + h s alpha) ->
  exists r, rfold f l ans = Ok r /\ good (S n) r /\
     forall alpha, partition alpha -> (length alpha <= S n)%nat -> cget r alpha = cget ans alpha + zs (fun s => h s alpha) l.
Proof.
  intros n A f h. induction l as [|s l IH]; intros ans G H; cbn [rfold]; [exists ans; split; [reflexivity|]; split; [assumption|]; intros; rewrite zs_nil; lia|].
  destruct (H s ans (or_introl eq_refl) G) as (r1 & E1 & G1 & H1). rewrite E1. cbn [rbind].
  destruct (IH r1 G1) as (r2 & E2 & G2 & H2); [intros; apply H; [right; assumption|assumption]|].
  exists r2. split; [assumption|]. split; [assumption|]. intros alpha Ha Hl. rewrite H2, H1, zs_cons by assumption. lia.
Qed.
Lemma good_nil : forall n, good n [].
Proof. intro n. split; [constructor|intros p c []]. Qed.

Section Counting.
  Variable ord : list (list Z) -> list (list Z).
  Hypothesis ord_perm : forall l, Permutation (ord l) l.

  Lemma count_semistandard_ok : forall sv lam, partition lam -> forall n mu, partition mu -> (forall b, dc false lam b -> dc false mu b) ->
    exists d, count_semistandard ord n mu lam sv = Ok d /\ count_ok false noprime sv lam n mu d.
  Proof.
    intros sv lam Hl. induction n as [|n IH]; intros mu Hm Hi; cbn [count_semistandard]; (destruct (zlist_eqb mu lam) eqn:E; [apply zlist_eqb_eq in E|apply zlist_neq in E]).
    - eexists. split; [reflexivity|]. apply count_equal; assumption.
    - eexists. split; [reflexivity|]. apply (count_zero false); assumption.
    - eexists. split; [reflexivity|]. apply count_equal; assumption.
    - rewrite (proj2 (contains_incl false mu lam Hm Hl) Hi).
      set (k := 2 * Z.of_nat (S n)). assert (Hk : 1 <= k) by (subst k; lia).
      destruct (hlayer ord ord_perm false noprime k lam mu Hk (even_2n _) Hl Hm Hi) as (r & Er & L). cbn [hstrips] in Er. rewrite Er. cbn [rbind].
      set (D := fun nu => match count_semistandard ord n nu lam sv with Ok d => d | Err _ => [] end).
      assert (HD : forall nu d c, In (nu, d, c) r -> count_semistandard ord n nu lam sv = Ok (D nu) /\ count_ok false noprime sv lam n nu (D nu)).
      { intros nu d c H. destruct (layer_strip _ _ _ _ _ _ _ _ _ L H) as (Pn & In' & _). destruct (IH nu Pn In') as (dd & Ed & Hd). unfold D. rewrite Ed. split; [reflexivity|assumption]. }
      destruct (rfold_counts n strip (fun ans s => match s with (nu, diff, corners) =>
                 do d <- count_semistandard ord n nu lam sv;
                 Ok (fold_left (fun ans pc =>
                   count_loop (S n) (fst pc) (snd pc) (zlen diff) (nchoosek (zlen corners)) (corner_range corners sv) ans) d ans) end)
                (fun s alpha => match s with (nu, diff, corners) => zs (fun i => nchoosek (zlen corners) i * (if zlen diff + i =? tail_of n alpha then cget (D nu) (head_of n alpha) else 0)) (corner_range corners sv) end) r [] (good_nil _))
        as (d & Ed & Gd & Hd).
      { intros [[nu diff] corners] ans Hs Ga. destruct (HD _ _ _ Hs) as [X1 X2]. rewrite X1. cbn [rbind]. eexists. split; [reflexivity|]. apply strip_items; [apply X2|assumption]. }
      exists d. split; [exact Ed|]. split; [assumption|]. intros alpha w Ha Hn W. rewrite (Hd alpha Ha Hn). change (cget [] alpha) with 0. rewrite Z.add_0_l.
      refine (counts_ext _ _ _ _ _ (fun T => iff_refl _) _ (half_count false noprime sv lam k mu r w
        (fun s C => match s with (nu, diff, corners) => if zlen diff + zlen C =? tail_of n alpha then cget (D nu) (head_of n alpha) else 0 end) Hk Hl Hm Hi L _)).
      { apply zs_ext. intros [[nu diff] corners] _. cbn [snd]. apply (sum_choose sv corners (fun x => if zlen diff + x =? tail_of n alpha then cget (D nu) (head_of n alpha) else 0)). }
      intros nu d0 c C Hs HC. destruct (HD _ _ _ Hs) as [_ X2].
      apply (counts_ext _ (weighted false noprime sv lam (2 * Z.of_nat n) nu (fun m => w m - ind (Z.abs (letter k) =? m) * zlen (d0 ++ C))) _ (if zlen d0 + zlen C =? tail_of n alpha then cget (D nu) (head_of n alpha) else 0)); [|reflexivity|].
      + intro T. unfold weighted. assert (X : full false noprime sv lam (k - 1) nu T <-> full false noprime sv lam (2 * Z.of_nat n) nu T).
        { subst k. unfold noprime. rewrite (full_noprime false sv lam nu (Z.of_nat (S n)) T). replace (2 * Z.of_nat (S n) - 2) with (2 * Z.of_nat n) by lia. reflexivity. }
        rewrite X. reflexivity.
      + apply fiber; [assumption|assumption|assumption|]. intro m. rewrite W. unfold k. rewrite letter_even. replace (Z.abs (Z.of_nat (S n))) with (Z.of_nat (S n)) by lia.
        unfold zlen. rewrite app_length, Nat2Z.inj_add. reflexivity.
  Qed.

  Definition marked_count_body (sh : bool) (prb : box -> bool) (n : nat) (sv : bool) (lam mu : list Z) (rec : list Z -> res cdict) : res cdict :=
    do strips1 <- hstrips ord sh mu lam;
    rfold (fun ans s1 => match s1 with (nu1, diff1, corners1) =>
      do strips2 <- vstrips ord sh nu1 lam;
      rfold (fun ans s2 => match s2 with (nu2, diff2, corners2) =>
        if forallb prb diff2 then
        do d <- rec nu2;
        Ok (fold_left (fun ans pc => count_loop2 n (fst pc) (snd pc) (zlen diff1 + zlen diff2) corners1 (filter prb corners2) sv ans) d ans) else Ok ans end) strips2 ans end) strips1 [].

  Lemma zs_flt : forall prb (f : strip -> Z) r, zs f (flt prb r) = zs (fun s => match s with (nu, d, c) => if forallb prb d then f (nu, d, filter prb c) else 0 end) r.
  Proof.
    intros prb f r. induction r as [|[[nu d] c] r IH]; [reflexivity|].
    transitivity ((if forallb prb d then f (nu, d, filter prb c) else 0) + zs f (flt prb r)); [|exact (f_equal (Z.add (if forallb prb d then f (nu, d, filter prb c) else 0)) IH)].
    unfold flt at 1. cbn [filter]. destruct (forallb prb d); reflexivity.
  Qed.

  Lemma marked_count_body_ok : forall sh prb n sv lam mu rec, part_b sh lam -> part_b sh mu -> (forall b, dc sh lam b -> dc sh mu b) ->
    (forall nu, part_b sh nu -> (forall b, dc sh lam b -> dc sh nu b) -> exists d, rec nu = Ok d /\ count_ok sh (fun b => prb b = true) sv lam n nu d) ->
    exists d, marked_count_body sh prb (S n) sv lam mu rec = Ok d /\ count_ok sh (fun b => prb b = true) sv lam (S n) mu d.
  Proof.
    intros sh prb n sv lam mu rec Hl Hm Hi IH. unfold marked_count_body.
    set (k := 2 * Z.of_nat (S n)). assert (Hk : 1 <= k) by (subst k; lia). assert (Hk1 : 1 <= k - 1) by (subst k; lia).
    destruct (hlayer ord ord_perm sh (fun b => prb b = true) k lam mu Hk (even_2n _) Hl Hm Hi) as (r1 & E1 & L1). rewrite E1. cbn [rbind].
    set (D := fun nu => match rec nu with Ok d => d | Err _ => [] end).
    assert (HD : forall nu, part_b sh nu -> (forall b, dc sh lam b -> dc sh nu b) -> rec nu = Ok (D nu) /\ count_ok sh (fun b => prb b = true) sv lam n nu (D nu)).
    { intros nu Pn In'. destruct (IH nu Pn In') as (dd & Ed & Hd). unfold D. rewrite Ed. split; [reflexivity|assumption]. }
    set (V := fun nu => match vstrips ord sh nu lam with Ok r => r | Err _ => [] end).
    assert (HV : forall nu, part_b sh nu -> (forall b, dc sh lam b -> dc sh nu b) -> vstrips ord sh nu lam = Ok (V nu) /\ layer_ok sh (fun b => prb b = true) lam (k - 1) nu (flt prb (V nu))).
    { intros nu Pn In'. destruct (vlayer ord ord_perm sh prb (k - 1) lam nu Hk1 (even_2n1 _) Hl Pn In') as (r2 & E2 & L2). unfold V. rewrite E2. split; [reflexivity|assumption]. }
    set (F := fun (alpha : list Z) (x : Z) (nu2 : list Z) => if x =? tail_of n alpha then cget (D nu2) (head_of n alpha) else 0).
    set (h2 := fun (d1 c1 : list box) (s2 : strip) (alpha : list Z) => match s2 with (nu2, d2, c2) => if forallb prb d2 then
        zs (fun i => nchoosek (zlen c1) i * zs (fun j => nchoosek (zlen (filter prb c2)) j * F alpha (zlen d1 + zlen d2 + i + j) nu2) (corner_range (filter prb c2) sv)) (corner_range c1 sv) else 0 end).
    destruct (rfold_counts n strip (fun ans s1 => match s1 with (nu1, diff1, corners1) =>
      do strips2 <- vstrips ord sh nu1 lam;
      rfold (fun ans s2 => match s2 with (nu2, diff2, corners2) =>
        if forallb prb diff2 then
        do d <- rec nu2;
        Ok (fold_left (fun ans pc => count_loop2 (S n) (fst pc) (snd pc) (zlen diff1 + zlen diff2) corners1 (filter prb corners2) sv ans) d ans) else Ok ans end) strips2 ans end)
      (fun s1 alpha => match s1 with (nu1, d1, c1) => zs (fun s2 => h2 d1 c1 s2 alpha) (V nu1) end) r1 [] (good_nil _)) as (d & Ed & Gd & Hd).
    { intros [[nu1 d1] c1] ans H1 Ga. destruct (layer_strip _ _ _ _ _ _ _ _ _ L1 H1) as (P1 & I1 & _). destruct (HV nu1 P1 I1) as [E2 L2]. rewrite E2. cbn [rbind].
      apply (rfold_counts n strip _ (h2 d1 c1) (V nu1) ans Ga). intros [[nu2 d2] c2] a H2 G2. cbn [h2]. unfold h2. destruct (forallb prb d2) eqn:E3.
      - assert (H2' : In (nu2, d2, filter prb c2) (flt prb (V nu1))) by (apply flt_In; exists c2; auto).
        destruct (layer_strip _ _ _ _ _ _ _ _ _ L2 H2') as (P2 & I2 & _). destruct (HD nu2 P2 I2) as [X1 X2]. rewrite X1. cbn [rbind]. eexists. split; [reflexivity|].
        apply pair_items; [apply Z.add_nonneg_nonneg; apply zlen_nonneg|apply X2|assumption].
      - exists a. split; [reflexivity|]. split; [assumption|]. intros. lia. }
    exists d. split; [exact Ed|]. split; [assumption|]. intros alpha w Ha Hn W. rewrite (Hd alpha Ha Hn). change (cget [] alpha) with 0. rewrite Z.add_0_l.
    set (N2 := fun (x : Z) (s2 : strip) (C2 : list box) => match s2 with (nu2, d2, c2) => F alpha (x + zlen d2 + zlen C2) nu2 end).
    set (N1 := fun (s1 : strip) (C1 : list box) => match s1 with (nu1, d1, c1) => zs (fun s2 => zs (N2 (zlen d1 + zlen C1) s2) (choose sv (snd s2))) (flt prb (V nu1)) end).
    refine (counts_ext _ _ _ _ _ (fun T => iff_refl _) _ (half_count sh _ sv lam k mu r1 w N1 Hk Hl Hm Hi L1 _)).
    { apply zs_ext. intros [[nu1 d1] c1] _. cbn [snd]. unfold N1. rewrite zs_swap, zs_flt. apply zs_ext. intros [[nu2 d2] c2] _. unfold h2. destruct (forallb prb d2); [|reflexivity].
      etransitivity; [|exact (sum_choose sv c1 (fun i => zs (fun j => nchoosek (zlen (filter prb c2)) j * F alpha (zlen d1 + zlen d2 + i + j) nu2) (corner_range (filter prb c2) sv)))].
      apply zs_ext. intros C1 _. cbn [snd]. etransitivity; [|exact (sum_choose sv (filter prb c2) (fun j => F alpha (zlen d1 + zlen d2 + zlen C1 + j) nu2))].
      apply zs_ext. intros C2 _. unfold N2. f_equal. unfold box in *. lia. }
    intros nu1 d1 c1 C1 H1 HC1. destruct (layer_strip _ _ _ _ _ _ _ _ _ L1 H1) as (P1 & I1 & _). destruct (HV nu1 P1 I1) as [_ L2].
    unfold N1. apply (half_count sh _ sv lam (k - 1) nu1 _ _ _ Hk1 Hl P1 I1 L2).
    intros nu2 d2 c2 C2 H2 HC2. destruct (layer_strip _ _ _ _ _ _ _ _ _ L2 H2) as (P2 & I2 & _). destruct (HD nu2 P2 I2) as [_ X2].
    unfold N2, F. replace (k - 1 - 1) with (2 * Z.of_nat n) by (subst k; lia). apply fiber; [assumption|assumption|assumption|]. intro m. rewrite W.
    unfold k. rewrite letter_even, letter_odd. replace (Z.abs (- Z.of_nat (S n))) with (Z.of_nat (S n)) by lia. replace (Z.abs (Z.of_nat (S n))) with (Z.of_nat (S n)) by lia.
    unfold zlen. rewrite !app_length, !Nat2Z.inj_add. unfold box. ring.
  Qed.

  Lemma rfold_ext : forall A B (f g : B -> A -> res B) l b, (forall b x, In x l -> f b x = g b x) -> rfold f l b = rfold g l b.
  Proof.
    induction l as [|a l IH]; intros b H; [reflexivity|]. cbn [rfold]. rewrite (H b a (or_introl eq_refl)). destruct (g b a); [|reflexivity]. cbn [rbind]. apply IH. intros. apply H. right. assumption.
  Qed.

  Lemma count_semistandard_marked_ok : forall sv lam, partition lam -> forall n mu, partition mu -> (forall b, dc false lam b -> dc false mu b) ->
    exists d, count_semistandard_marked ord n mu lam sv = Ok d /\ count_ok false (fun _ => true = true) sv lam n mu d.
  Proof.
    intros sv lam Hl. induction n as [|n IH]; intros mu Hm Hi; cbn [count_semistandard_marked]; (destruct (zlist_eqb mu lam) eqn:E; [apply zlist_eqb_eq in E|apply zlist_neq in E]).
    - eexists. split; [reflexivity|]. apply count_equal; assumption.
    - eexists. split; [reflexivity|]. apply (count_zero false); assumption.
    - eexists. split; [reflexivity|]. apply count_equal; assumption.
    - rewrite (proj2 (contains_incl false mu lam Hm Hl) Hi).
      destruct (marked_count_body_ok false (fun _ => true) n sv lam mu (fun nu => count_semistandard_marked ord n nu lam sv) Hl Hm Hi IH) as (d & Ed & Hd).
      exists d. split; [|assumption]. rewrite <- Ed. unfold marked_count_body. cbn [hstrips].
      destruct (horizontal_strips ord mu lam) as [strips1|]; [|reflexivity]. cbn [rbind].
      apply rfold_ext. intros ans [[nu1 d1] c1] _. cbn [vstrips].
      destruct (vertical_strips ord nu1 lam) as [strips2|]; [|reflexivity]. cbn [rbind]. apply rfold_ext. intros a [[nu2 d2] c2] _.
      rewrite forallb_true, filter_true by reflexivity. reflexivity.
  Qed.

  Lemma count_semistandard_shifted_marked_ok : forall dp sv lam, strict_partition lam -> forall n mu, strict_partition mu -> (forall b, dc true lam b -> dc true mu b) ->
    exists d, count_semistandard_shifted_marked ord n mu lam dp sv = Ok d /\ count_ok true (fun b => diag_ok dp b = true) sv lam n mu d.
  Proof.
    intros dp sv lam Hl. induction n as [|n IH]; intros mu Hm Hi; cbn [count_semistandard_shifted_marked]; rewrite strict_is_strict by assumption; cbn [negb];
      (destruct (zlist_eqb mu lam) eqn:E; [apply zlist_eqb_eq in E|apply zlist_neq in E]).
    - eexists. split; [reflexivity|]. apply (count_equal true); assumption.
    - eexists. split; [reflexivity|]. apply (count_zero true); assumption.
    - eexists. split; [reflexivity|]. apply (count_equal true); assumption.
    - rewrite (proj2 (contains_incl true mu lam Hm Hl) Hi).
      destruct (marked_count_body_ok true (diag_ok dp) n sv lam mu (fun nu => count_semistandard_shifted_marked ord n nu lam dp sv) Hl Hm Hi IH) as (d & Ed & Hd).
      exists d. split; [|assumption]. rewrite <- Ed. unfold marked_count_body. cbn [hstrips].
      destruct (shifted_horizontal_strips ord mu lam) as [strips1|]; [|reflexivity]. cbn [rbind].
      apply rfold_ext. intros ans [[nu1 d1] c1] _. cbn [vstrips].
      destruct (shifted_vertical_strips ord nu1 lam) as [strips2|]; [|reflexivity]. cbn [rbind]. apply rfold_ext. intros a [[nu2 d2] c2] _.
      destruct dp; cbn [negb andb].
      + rewrite forallb_true, filter_true by reflexivity. reflexivity.
      + rewrite existsb_forallb. change (forallb (fun x : Z * Z => negb (fst x =? snd x)) d2) with (forallb (diag_ok false) d2).
        destruct (forallb (diag_ok false) d2); reflexivity.
  Qed.
End Counting.
