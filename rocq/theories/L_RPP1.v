(* Lemmas on the strips of reverse plane partitions: the enumerators return every smaller shape *)
From Coq Require Import List ZArith Lia Permutation Bool.
From Verif Require Import PyBase M_Partitions M_Rref M_Tableaux M_Strips M_Semistandard M_RPP S_Partitions S_Tableaux S_Strips S_Semistandard S_Standard
  L_Partitions L_PartBasic L_PartMore L_PartEnum L_Generate L_Tableaux L_Destand L_Operators L_Strips L_Strips2 L_Strips3 L_Shape L_Semi L_Semi2 L_Semi3 L_Semi4 L_Standard L_Sym8.
Import ListNotations.
Local Open Scope Z_scope.

Section Queue.
  Variable sh : bool.
  Variable lam : list Z.
  Variable line : box -> Z.
  Variable rb : Z -> list Z -> option (list Z).
  Notation ok := (okS sh lam).
  Notation D := (dc sh).
  Hypothesis line_s : forall b, line b <= line (nexts b).
  Hypothesis line_d : forall b, line b <= line (nextd b).
  Hypothesis rb_some : forall i s s', ok s -> 0 <= i -> rb i s = Some s' ->
    ok s' /\ zsum s' = zsum s - 1 /\ exists b, D s b /\ line b = i /\ (forall c, D s' c <-> D s c /\ c <> b) /\
    forall k c, ok k -> D k b -> D s c -> line c = i -> D k c.
  Hypothesis rb_none : forall i s k, ok s -> 0 <= i -> rb i s = None -> ok k -> (forall b, D k b -> D s b) ->
    (forall b, line b <> i -> D s b -> D k b) -> forall b, D s b -> D k b.

  Lemma ok_zsum : forall s, ok s -> 0 <= zsum s.
  Proof.
    intros s [P _]. rewrite zsum_size. apply part_b_part in P. destruct P as [F _]. clear - F. induction F as [|a l Ha F IH]; cbn [size]; lia.
  Qed.
  Lemma all_boxes : forall i, 0 <= i -> forall fuel s, ok s -> zsum s <= Z.of_nat fuel -> exists l, remove_all_boxes fuel (rb i) s = Ok l /\
    forall k, In k l <-> ok k /\ (forall b, D k b -> D s b) /\ (forall b, line b <> i -> D s b -> D k b).
  Proof.
    intros i Hi. induction fuel as [|fuel IH]; intros s Hs Hf; cbn [remove_all_boxes]; destruct (rb i s) as [s'|] eqn:E.
    - exfalso. destruct (rb_some i s s' Hs Hi E) as (O' & Z' & _). apply ok_zsum in O'. lia.
    - exists [s]. split; [reflexivity|]. intro k. split.
      + intros [<-|[]]. split; [assumption|]. tauto.
      + intros (O & I & A). left. apply (part_ext sh); [apply Hs|apply O|]. intro c. split; [apply (rb_none i s k); assumption|apply I].
    - destruct (rb_some i s s' Hs Hi E) as (O' & Z' & b & Db & Lb & E' & M). destruct (IH s' O' ltac:(lia)) as (l & El & Hl). rewrite El. cbn [rbind]. exists (s :: l). split; [reflexivity|].
      intro k. cbn [In]. rewrite Hl. split.
      + intros [<-|(O & I & A)]; [split; [assumption|]; tauto|]. split; [assumption|]. split; [intros c Hc; apply I, E' in Hc; tauto|].
        intros c N Hc. apply A; [assumption|]. apply E'. split; [assumption|]. intros ->. contradiction.
      + intros (O & I & A). destruct (dc_dec sh k b) as [Y|N].
        * left. apply (part_ext sh); [apply Hs|apply O|]. intro c. split; [|apply I]. intro Hc. destruct (Z.eq_dec (line c) i) as [El'|Nl]; [apply (M k c); assumption|apply A; assumption].
        * right. split; [assumption|]. split; [|intros c Nl Hc; apply E' in Hc; apply A; tauto].
          intros c Hc. apply E'. split; [apply I; assumption|]. intros ->. contradiction.
    - exists [s]. split; [reflexivity|]. intro k. split.
      + intros [<-|[]]. split; [assumption|]. tauto.
      + intros (O & I & A). left. apply (part_ext sh); [apply Hs|apply O|]. intro c. split; [apply (rb_none i s k); assumption|apply I].
  Qed.

  Variable mu : list Z.
  Hypothesis mu_ok : ok mu.
  Hypothesis line_nonneg : forall b, D mu b -> 0 <= line b.

  Definition agree (i : nat) (k : list Z) : Prop := ok k /\ (forall b, D k b -> D mu b) /\ (forall b, line b < Z.of_nat i -> D mu b -> D k b).
  Lemma queue_spec : forall i nus, (forall k, In k nus <-> agree i k) -> exists l, rpp_queue rb i nus = Ok l /\
    forall k, In k l <-> (0 < i)%nat /\ ok k /\ (forall b, D k b -> D mu b).
  Proof.
    induction i as [|i IH]; intros nus Hn; cbn [rpp_queue].
    - exists []. split; [reflexivity|]. intro k. split; [intros []|lia].
    - destruct (rconcat_ok _ _ (fun nu => remove_all_boxes (S (Z.to_nat (zsum nu))) (rb (Z.of_nat i)) nu) nus) as (r & Er & Hr).
      { intros s Hs. apply Hn in Hs. destruct Hs as (O & _). destruct (all_boxes (Z.of_nat i) ltac:(lia) (S (Z.to_nat (zsum s))) s O) as (l & El & _); [pose proof (ok_zsum s O); lia|]. exists l. exact El. }
      rewrite Er. cbn [rbind].
      assert (Hr' : forall k, In k r <-> agree i k).
      { intro k. rewrite Hr. split.
        - intros (s & ys & Hs & Ey & Hk). apply Hn in Hs. destruct Hs as (O & I & A).
          destruct (all_boxes (Z.of_nat i) ltac:(lia) (S (Z.to_nat (zsum s))) s O) as (l & El & Hl); [pose proof (ok_zsum s O); lia|]. rewrite El in Ey. injection Ey as <-. apply Hl in Hk.
          destruct Hk as (Ok' & I' & A'). split; [assumption|]. split; [intros b Hb; apply I, I'; assumption|]. intros b Lb Hb. apply A'; [lia|]. apply A; [lia|assumption].
        - intros (O & I & A). destruct (shape_of sh mu (fun c => D mu c /\ (line c <= Z.of_nat i \/ D k c)) (proj1 mu_ok)) as (s & Ps & Es).
          + intro c. destruct (dc_dec sh mu c); [|tauto]. destruct (dc_dec sh k c); [tauto|]. destruct (Z_le_gt_dec (line c) (Z.of_nat i)); [tauto|]. right. intros [_ [X|X]]; [lia|contradiction].
          + tauto.
          + intros c R [X1 X2]. split; [apply dc_left; assumption|]. destruct X2 as [X2|X2]; [left; specialize (line_s c); lia|right; apply dc_left; assumption].
          + intros c R [X1 X2]. split; [apply dc_up; [apply mu_ok|assumption|assumption]|]. destruct X2 as [X2|X2]; [left; specialize (line_d c); lia|right; apply dc_up; [apply O|assumption|assumption]].
          + assert (Os : ok s). { split; [assumption|]. intros b Hb. apply Es. split; [apply mu_ok; assumption|]. right. apply O. assumption. }
            destruct (all_boxes (Z.of_nat i) ltac:(lia) (S (Z.to_nat (zsum s))) s Os) as (l & El & Hl); [pose proof (ok_zsum s Os); lia|].
            exists s, l. split; [|split; [exact El|]].
            * apply Hn. split; [assumption|]. split; [intros b Hb; apply Es in Hb; tauto|]. intros b Lb Hb. apply Es. split; [assumption|]. left. lia.
            * apply Hl. split; [assumption|]. split; [intros b Hb; apply Es; split; [apply I; assumption|right; assumption]|].
              intros b Nb Hb. apply Es in Hb. destruct Hb as [Hb [Lb|Kb]]; [apply A; [lia|assumption]|assumption]. }
      destruct (IH r Hr') as (rest & Erest & Hrest). rewrite Erest. cbn [rbind]. exists (r ++ rest). split; [reflexivity|].
      intro k. rewrite in_app_iff, Hr', Hrest. split.
      + intros [(O & I & _)|(_ & O & I)]; (split; [lia|]); tauto.
      + intros (_ & O & I). destruct i as [|i]; [|right; split; [lia|tauto]]. left. split; [assumption|]. split; [assumption|].
        intros b Lb Hb. exfalso. apply line_nonneg in Hb. cbn in Lb. lia.
  Qed.
  Lemma queue_all : forall n, (forall b, D mu b -> line b < Z.of_nat n) -> exists l, rpp_queue rb n [mu] = Ok l /\
    forall k, In k l <-> (0 < n)%nat /\ ok k /\ (forall b, D k b -> D mu b).
  Proof.
    intros n Hn. apply queue_spec. intro k. split.
    - intros [<-|[]]. split; [assumption|]. tauto.
    - intros (O & I & A). left. apply (part_ext sh); [apply mu_ok|apply O|]. intro c. split; [|apply I]. intro Hc. apply A; [apply Hn; assumption|assumption].
  Qed.
End Queue.

Lemma cell_index : forall sh s b, dc sh s b -> exists i, (i < length s)%nat /\ fst b = Z.of_nat i + 1 /\ 1 <= snd b - off sh (Z.of_nat i) <= row s i.
Proof.
  intros sh s [a b] H. unfold dc in H. cbn [fst snd] in *. destruct (dcell_row _ _ _ _ H) as (i & ->). apply dcell_nat in H. exists i.
  split; [|split; [reflexivity|assumption]]. destruct (Nat.lt_ge_cases i (length s)) as [C|C]; [assumption|]. rewrite row_overflow in H by lia. lia.
Qed.

(* rows *)
Section Rows.
  Variable sh : bool.
  Variable lam : list Z.
  Hypothesis lam_part : part_b sh lam.
  Variable okf : list Z -> bool.
  Hypothesis okf_spec : forall s, part_b sh s -> (okf s = true <-> forall b, dc sh lam b -> dc sh s b).
  Notation ok := (okS sh lam).
  Notation D := (dc sh).
  Definition rline (b : box) : Z := fst b - 1.

  Lemma steps_part : forall s i, ok s -> (i < length s)%nat ->
    (forallb (fun j => if sh then nthz (less s i) (j + 1) <? nthz (less s i) j else nthz (less s i) (j + 1) <=? nthz (less s i) j) (zrange 0 (zlen (less s i) - 1)) = true <-> part_b sh (less s i)).
  Proof.
    intros s i [P _] L. rewrite <- (check_part sh s i P L). unfold checkb. pose proof (fun j => less_nonneg sh s i j P L) as NN. set (nu := less s i) in *.
    destruct sh.
    - unfold is_strict_partition. rewrite !forallb_forall. split; intros H x Hx; rewrite In_zrange in Hx.
      + specialize (H (x - 1)). replace (x - 1 + 1) with x in H by lia. apply H, In_zrange. lia.
      + specialize (H (x + 1)). replace (x + 1 - 1) with x in H by lia. apply H, In_zrange. lia.
    - rewrite is_partition_weak. rewrite forallb_forall. split.
      + intro H. split; [apply Forall_rows; intros; apply NN|]. intro j. destruct (Nat.lt_ge_cases (S j) (length nu)) as [C|C].
        * specialize (H (Z.of_nat j)). replace (Z.of_nat j + 1) with (Z.of_nat (S j)) in H by lia. rewrite !L_Strips.nthz_row in H. apply Z.leb_le, H, In_zrange. unfold zlen. lia.
        * rewrite (row_overflow nu (S j)) by lia. apply NN.
      + intros [_ W] x Hx. rewrite In_zrange in Hx. replace x with (Z.of_nat (Z.to_nat x)) by lia. replace (Z.of_nat (Z.to_nat x) + 1) with (Z.of_nat (S (Z.to_nat x))) by lia.
        rewrite !L_Strips.nthz_row. apply Z.leb_le, W.
  Qed.
  Lemma row_some : forall i s s', ok s -> 0 <= i -> remove_box_row sh okf i s = Some s' ->
    ok s' /\ zsum s' = zsum s - 1 /\ exists b, D s b /\ rline b = i /\ (forall c, D s' c <-> D s c /\ c <> b) /\
    forall k c, ok k -> D k b -> D s c -> rline c = i -> D k c.
  Proof.
    intros i s s' O Hi E. unfold remove_box_row in E. destruct ((i <? zlen s) && (0 <? nthz s i)) eqn:C; [|discriminate].
    apply andb_true_iff in C. rewrite Z.ltb_lt in C. destruct C as [C _]. unfold zlen in C. assert (L : (Z.to_nat i < length s)%nat) by lia. set (m := Z.to_nat i) in *.
    replace i with (Z.of_nat m) in E |- * by lia. rewrite L_Strips.nthz_row in E. cbv zeta in E. replace (Z.to_nat (Z.of_nat m)) with m in E by lia.
    fold (less s m) in E.
    destruct (forallb _ _) eqn:F in E; [|discriminate]. cbn [andb] in E. destruct (okf (less s m)) eqn:G; [|discriminate]. injection E as <-.
    pose proof (proj1 (steps_part s m O L) F) as P. pose proof (proj1 (okf_spec _ P) G) as I. destruct O as [Ps Is].
    split; [split; assumption|]. split; [apply less_zsum; assumption|]. destruct (end_cell sh s m L Ps) as (E1 & E2 & E3).
    exists (endb sh s m). split; [assumption|]. split; [unfold rline, endb; cbn [fst]; lia|]. split; [intro c; apply less_dc; assumption|].
    intros k c Hk Hb Hc Lc. destruct (cell_index _ _ _ Hc) as (n & Hn & En & Rn). unfold rline in Lc. assert (n = m) by lia. subst n.
    pose proof (dc_region _ _ _ Hc) as Rc. destruct c as [x y]. cbn [fst snd] in *. apply (dc_le sh k x y (Z.of_nat m + 1) (off sh (Z.of_nat m) + row s m)); [apply Hk|exact Hb|assumption|lia|lia].
  Qed.
  Lemma row_none : forall i s k, ok s -> 0 <= i -> remove_box_row sh okf i s = None -> ok k -> (forall b, D k b -> D s b) ->
    (forall b, rline b <> i -> D s b -> D k b) -> forall b, D s b -> D k b.
  Proof.
    intros i s k O Hi E Hk I A c Hc. destruct (Z.eq_dec (rline c) i) as [Lc|Nc]; [|apply A; assumption].
    destruct (dc_dec sh k c) as [|N]; [assumption|]. exfalso.
    destruct (cell_index _ _ _ Hc) as (m & Hm & Em & Rm). unfold rline in Lc. assert (Ei : i = Z.of_nat m) by lia. clear Lc. subst i.
    destruct O as [Ps Is]. destruct (end_cell sh s m Hm Ps) as (E1 & E2 & E3). set (b := endb sh s m) in *.
    assert (Nb : ~ D k b).
    { intro X. apply N. pose proof (dc_region _ _ _ Hc) as Rc. destruct c as [x y]. cbn [fst snd] in *. apply (dc_le sh k x y (Z.of_nat m + 1) (off sh (Z.of_nat m) + row s m)); [apply Hk|exact X|assumption|lia|lia]. }
    assert (Co : corner sh lam s b).
    { split; [assumption|]. split; [assumption|]. split; [|intro X; apply Hk in X; contradiction].
      intro X. apply Nb. apply dc_up; [apply Hk|assumption|]. apply A; [|assumption]. unfold rline, nextd, b, endb. cbn [fst]. lia. }
    pose proof (less_part sh lam s m Ps Hm Co) as P.
    assert (OF : okf (less s m) = true).
    { apply okf_spec; [assumption|]. intros x Hx. apply less_dc; [assumption|assumption|]. split; [apply Is; assumption|]. intros ->. apply Hk in Hx. contradiction. }
    pose proof (proj2 (steps_part s m (conj Ps Is) Hm) P) as ST.
    unfold remove_box_row in E. rewrite L_Strips.nthz_row in E.
    replace ((Z.of_nat m <? zlen s) && (0 <? row s m)) with true in E by (symmetry; apply andb_true_iff; rewrite !Z.ltb_lt; unfold zlen; lia).
    cbv zeta in E. replace (Z.to_nat (Z.of_nat m)) with m in E by lia. fold (less s m) in E. rewrite ST, OF in E. discriminate.
  Qed.
  Lemma rows_queue : forall mu, ok mu -> exists l, rpp_queue (remove_box_row sh okf) (length mu) [mu] = Ok l /\
    forall k, In k l <-> mu <> [] /\ ok k /\ (forall b, D k b -> D mu b).
  Proof.
    intros mu O. destruct (queue_all sh lam rline (remove_box_row sh okf)) with (mu := mu) (n := length mu) as (l & El & Hl).
    - intros [a b]. unfold rline, nexts. cbn [fst]. lia.
    - intros [a b]. unfold rline, nextd. cbn [fst]. lia.
    - apply row_some.
    - apply row_none.
    - assumption.
    - intros b Hb. apply cell_index in Hb. destruct Hb as (i & _ & E & _). unfold rline. lia.
    - intros b Hb. apply cell_index in Hb. destruct Hb as (i & L & E & _). unfold rline. lia.
    - exists l. split; [assumption|]. intro k. rewrite Hl. destruct mu; cbn [length]; split; intros (X & Y); (split; [|exact Y]); try lia; try discriminate; try contradiction.
  Qed.
End Rows.

(* columns of shifted diagrams *)
Section Columns.
  Notation ok := (okS true []).
  Notation D := (dc true).
  Definition cline (b : box) : Z := snd b - 1.

  Lemma find_last : forall (p : Z -> bool) n j, find p (rev (zrange 0 (Z.of_nat n))) = Some j -> 0 <= j < Z.of_nat n /\ p j = true /\ forall k, j < k < Z.of_nat n -> p k = false.
  Proof.
    induction n as [|n IH]; intros j H; [discriminate|].
    assert (E : zrange 0 (Z.of_nat (S n)) = zrange 0 (Z.of_nat n) ++ [Z.of_nat n]).
    { rewrite zrange_snoc by lia. replace (Z.of_nat (S n) - 1) with (Z.of_nat n) by lia. reflexivity. }
    rewrite E, rev_app_distr in H. cbn [rev app find] in H. destruct (p (Z.of_nat n)) eqn:P.
    - injection H as <-. split; [lia|]. split; [assumption|]. intros; lia.
    - apply IH in H. destruct H as (A & B & C). split; [lia|]. split; [assumption|]. intros k Hk. destruct (Z.eq_dec k (Z.of_nat n)) as [->|]; [assumption|]. apply C. lia.
  Qed.
  Lemma col_some : forall i s s', ok s -> 0 <= i -> remove_box_column i s = Some s' ->
    ok s' /\ zsum s' = zsum s - 1 /\ exists b, D s b /\ cline b = i /\ (forall c, D s' c <-> D s c /\ c <> b) /\
    forall k c, ok k -> D k b -> D s c -> cline c = i -> D k c.
  Proof.
    intros i s s' O Hi E. unfold remove_box_column in E. destruct (find _ _) as [j|] eqn:F; [|discriminate]. injection E as <-.
    unfold zlen in F. apply find_last in F. destruct F as (R & P & M). assert (L : (Z.to_nat j < length s)%nat) by lia. set (m := Z.to_nat j) in *.
    assert (Ej : j = Z.of_nat m) by lia. rewrite Ej in P, M |- *. rewrite L_Strips.nthz_row in *. apply Z.eqb_eq in P. fold (less s m).
    destruct O as [Ps Is]. destruct (end_cell true s m L Ps) as (E1 & E2 & E3).
    assert (Eb : endb true s m = (Z.of_nat m + 1, i + 1)) by (unfold endb; cbn [off]; f_equal; lia).
    assert (NoD : ~ D s (nextd (endb true s m))).
    { intro X. rewrite Eb in X. unfold nextd in X. cbn [fst snd] in X. apply cell_index in X. destruct X as (n & Ln & En & Rn). cbn [fst snd off] in En, Rn. assert (n = S m) by lia. subst n.
      assert (Lt : row s (S m) < row s m) by (apply Ps; apply row_pos in L; [assumption|apply (part_b_part true s Ps)]).
      specialize (M (Z.of_nat (S m)) ltac:(lia)). rewrite L_Strips.nthz_row in M. apply Z.eqb_neq in M. lia. }
    assert (Co : corner true [] s (endb true s m)).
    { split; [assumption|]. split; [assumption|]. split; [assumption|]. intro X. apply cell_index in X. destruct X as (n & Ln & _). cbn in Ln. lia. }
    split; [split; [apply (less_part true []); assumption|intros b Hb; apply cell_index in Hb; destruct Hb as (n & Ln & _); cbn in Ln; lia]|].
    split; [apply less_zsum; assumption|]. exists (endb true s m). split; [assumption|]. split; [rewrite Eb; unfold cline; cbn [snd]; lia|]. split; [intro c; apply less_dc; assumption|].
    intros k c Hk Hb Hc Lc. pose proof (dc_region _ _ _ Hc) as Rc. rewrite Eb in Hb. destruct c as [x y]. unfold cline in Lc. cbn [snd] in Lc.
    apply (dc_le true k x y (Z.of_nat m + 1) (i + 1)); [apply Hk|exact Hb|assumption| |lia].
    destruct (Z_le_gt_dec x (Z.of_nat m + 1)) as [|G]; [assumption|]. exfalso. apply NoD. rewrite Eb. unfold nextd. cbn [fst snd].
    apply (dc_le true s (Z.of_nat m + 1 + 1) (i + 1) x y); [assumption|exact Hc| |lia|lia]. unfold region in *. cbn [fst snd] in *. lia.
  Qed.
  Lemma col_none : forall i s k, ok s -> 0 <= i -> remove_box_column i s = None -> ok k -> (forall b, D k b -> D s b) ->
    (forall b, cline b <> i -> D s b -> D k b) -> forall b, D s b -> D k b.
  Proof.
    intros i s k O Hi E Hk I A c Hc. destruct (Z.eq_dec (cline c) i) as [Lc|Nc]; [|apply A; assumption].
    destruct (dc_dec true k c) as [|N]; [assumption|]. exfalso. destruct c as [x y]. unfold cline in Lc. cbn [snd] in Lc. assert (y = i + 1) by lia. subst y.
    (* the lowest cell of the column *)
    assert (Low : exists x', x <= x' /\ D s (x', i + 1) /\ ~ D s (x' + 1, i + 1)).
    { assert (G : forall n u, D s (u, i + 1) -> u + Z.of_nat n = i + 2 -> exists x', u <= x' /\ D s (x', i + 1) /\ ~ D s (x' + 1, i + 1)).
      { induction n as [|n IHn]; intros u Hu En.
        - apply dc_region in Hu. unfold region in Hu. cbn [fst snd] in Hu. lia.
        - destruct (dc_dec true s (u + 1, i + 1)) as [Y|Y].
          + destruct (IHn (u + 1) Y ltac:(lia)) as (x' & L' & X'). exists x'. split; [lia|assumption].
          + exists u. split; [lia|]. tauto. }
      pose proof (dc_region _ _ _ Hc) as Rc. unfold region in Rc. cbn [fst snd] in Rc. apply (G (Z.to_nat (i + 2 - x)) x Hc). lia. }
    destruct Low as (x' & Lx & Dx & Nx). pose proof (dc_region _ _ _ Hc) as Rc. pose proof (dc_region _ _ _ Dx) as Rx. unfold region in Rc, Rx. cbn [fst snd] in Rc, Rx.
    assert (Nk : ~ D k (x', i + 1)).
    { intro X. apply N. apply (dc_le true k x (i + 1) x' (i + 1)); [apply Hk|assumption|unfold region; cbn [fst snd]; lia|lia|lia]. }
    assert (Nn : ~ D s (x', i + 1 + 1)).
    { intro X. apply Nk. apply (dc_left true k (x', i + 1)); [unfold region; cbn [fst snd]; lia|]. apply A; [unfold cline, nexts; cbn [snd]; lia|exact X]. }
    destruct (cell_index _ _ _ Dx) as (m & Lm & Em & Rm). cbn [fst snd off] in Em, Rm.
    assert (Er : Z.of_nat m + row s m = i + 1).
    { assert (~ 1 <= i + 1 + 1 - off true (Z.of_nat m) <= row s m); [|cbn [off] in *; lia]. intro X. apply Nn. subst x'. unfold dc. cbn [fst snd]. apply dcell_nat. exact X. }
    unfold remove_box_column in E. destruct (find _ _) eqn:F; [discriminate|]. pose proof (find_none _ _ F (Z.of_nat m)) as X. cbv beta in X. rewrite L_Strips.nthz_row in X.
    rewrite <- in_rev, In_zrange in X. unfold zlen in X. specialize (X ltac:(lia)). apply Z.eqb_neq in X. lia.
  Qed.
  Lemma columns_queue : forall mu, ok mu -> mu <> [] -> exists l, rpp_queue remove_box_column (Z.to_nat (nthz mu 0)) [mu] = Ok l /\
    forall k, In k l <-> ok k /\ (forall b, D k b -> D mu b).
  Proof.
    intros mu O Nz. destruct (queue_all true [] cline remove_box_column) with (mu := mu) (n := Z.to_nat (nthz mu 0)) as (l & El & Hl).
    - intros [a b]. unfold cline, nexts. cbn [snd]. lia.
    - intros [a b]. unfold cline, nextd. cbn [snd]. lia.
    - apply col_some.
    - apply col_none.
    - assumption.
    - intros b Hb. apply dc_region in Hb. unfold region in Hb. unfold cline. lia.
    - intros [x y] Hb. unfold cline. cbn [snd]. pose proof (dc_region _ _ _ Hb) as R. unfold region in R. cbn [fst snd] in R.
      assert (X : dc true mu (1, y)) by (apply (dc_le true mu 1 y x y); [apply O|assumption|unfold region; cbn [fst snd]; lia|lia|lia]).
      unfold dc in X. cbn [fst snd] in X. change 1 with (Z.of_nat 0 + 1) in X at 1. apply dcell_nat in X. cbn [off] in X. change (nthz mu 0) with (row mu 0). lia.
    - exists l. split; [assumption|]. intro k. rewrite Hl. split; [tauto|]. intro X. split; [|assumption].
      assert (0 < row mu 0); [|change (nthz mu 0) with (row mu 0); lia]. apply row_pos; [apply (part_b_part true mu (proj1 O))|]. destruct mu; [contradiction|cbn; lia].
  Qed.
End Columns.

(* ---------- the three enumerators ---------- *)
(* every pair (nu, cells): nu ranges over all shapes between lam and mu, once each, cells over mu/nu *)
Definition all_strips (sh : bool) (lam mu : list Z) (r : list (list Z * list box)) : Prop :=
  NoDup (map fst r) /\ (forall k, In k (map fst r) <-> okS sh lam k /\ (forall b, dc sh k b -> dc sh mu b)) /\
  forall k d, In (k, d) r -> NoDup d /\ forall b, In b d <-> dc sh mu b /\ ~ dc sh k b.

Lemma part_b_nil : forall sh, part_b sh [].
Proof. intros [|]; cbn; [split; [constructor|intros i H; cbn in H; lia]|split; [constructor|intro i; rewrite !row_overflow by (cbn; lia); lia]]. Qed.
Lemma dc_nil : forall sh b, ~ dc sh [] b.
Proof. intros sh b H. apply cell_index in H. destruct H as (n & L & _). cbn in L. lia. Qed.
Lemma skew_cells : forall sh mu k, part_b sh k -> NoDup (skew mu k sh) /\ forall b, In b (skew mu k sh) <-> dc sh mu b /\ ~ dc sh k b.
Proof.
  intros sh mu k P. apply part_b_part in P. assert (F : Forall (fun a => 0 <= a) k) by (apply partition_weak in P; apply P). split; [rewrite skew_gshape; apply gshape_NoDup|].
  intros [a b]. unfold dc, dcell. cbn [fst snd]. destruct sh; [apply skew_shifted_In|apply skew_In]; assumption.
Qed.

Section Enumerators.
  Variable ord : list (list Z) -> list (list Z).
  Hypothesis ord_perm : forall l, Permutation (ord l) l.

  Lemma strips_of : forall sh lam mu ans, (forall k, In k ans <-> okS sh lam k /\ (forall b, dc sh k b -> dc sh mu b)) ->
    all_strips sh lam mu (map (fun nu => (nu, skew mu nu sh)) (ord (sett ans))).
  Proof.
    intros sh lam mu ans H. unfold all_strips. rewrite map_map. cbn [fst]. rewrite map_id.
    assert (I : forall k, In k (ord (sett ans)) <-> okS sh lam k /\ (forall b, dc sh k b -> dc sh mu b)).
    { intro k. rewrite <- H, <- (sett_In ans). split; apply Permutation_in; [|apply Permutation_sym]; apply ord_perm. }
    split; [apply (Permutation_NoDup (Permutation_sym (ord_perm _))), sett_NoDup|]. split; [exact I|].
    intros k d Hk. apply in_map_iff in Hk. destruct Hk as (x & E & Hx). injection E as -> <-. apply I in Hx. apply skew_cells. apply Hx.
  Qed.
  Lemma horizontal_spec : forall mu lam, partition mu -> partition lam -> exists r, rpp_horizontal_strips ord mu lam = Ok r /\
    ((forall b, dc false lam b -> dc false mu b) -> all_strips false lam mu r) /\ (~ (forall b, dc false lam b -> dc false mu b) -> r = []).
  Proof.
    intros mu lam Pm Pl. unfold rpp_horizontal_strips. destruct (zlist_eqb mu lam) eqn:E.
    - apply zlist_eqb_eq in E. subst lam. exists [(mu, [])]. split; [reflexivity|]. split; [|intro X; exfalso; apply X; tauto].
      intros _. unfold all_strips. cbn [map fst]. split; [constructor; [intros []|constructor]|]. split.
      + intro k. split; [intros [<-|[]]; split; [split; [assumption|tauto]|tauto]|]. intros [[P I] J]. left. apply (part_ext false); [assumption|assumption|]. intro c. split; [apply I|apply J].
      + intros k d [H|[]]. injection H as <- <-. split; [constructor|]. intro b. cbn [In]. tauto.
    - destruct (contains mu lam) eqn:C.
      + destruct (rows_queue false lam Pl (fun nu => contains nu lam)) with (mu := mu) as (l & El & Hl).
        * intros s Ps. apply contains_incl; assumption.
        * split; [assumption|]. apply (contains_incl false); assumption.
        * rewrite El. cbn [rbind]. exists (map (fun nu => (nu, skew mu nu false)) (ord (sett l))). split; [reflexivity|].
          assert (I0 : forall b, dc false lam b -> dc false mu b) by (apply contains_incl; assumption).
          split; [intros _|intro X; contradiction]. apply strips_of. intro k. rewrite Hl. split; [tauto|]. intro X. split; [|assumption].
          intros ->. assert (lam = []); [|subst; rewrite zlist_eqb_refl in E; discriminate]. apply (part_ext false); [assumption|apply part_b_nil|]. intro c. split; [apply I0|]. intro Y. exfalso. apply (dc_nil false c Y).
      + exists []. split; [reflexivity|]. split; [|reflexivity]. intro X. apply (contains_incl false mu lam) in X; [congruence|assumption|assumption].
  Qed.
  Lemma transpose_dc : forall mu b, partition mu -> (dc false (transpose mu) b <-> dc false mu (snd b, fst b)).
  Proof. intros mu [x y] P. unfold dc. cbn [dcell fst snd]. apply transpose_cell. apply partition_weak. assumption. Qed.
  Lemma vertical_spec : forall mu lam, partition mu -> partition lam -> exists r, rpp_vertical_strips ord mu lam = Ok r /\
    ((forall b, dc false lam b -> dc false mu b) -> all_strips false lam mu r) /\ (~ (forall b, dc false lam b -> dc false mu b) -> r = []).
  Proof.
    intros mu lam Pm Pl. pose proof (transpose_partition mu (partition_weak _ Pm)) as Pm'. pose proof (transpose_partition lam (partition_weak _ Pl)) as Pl'.
    destruct (horizontal_spec (transpose mu) (transpose lam) Pm' Pl') as (r & Er & H1 & H2). unfold rpp_vertical_strips. rewrite Er. cbn [rbind].
    assert (Inc : (forall b, dc false lam b -> dc false mu b) <-> (forall b, dc false (transpose lam) b -> dc false (transpose mu) b)).
    { split; intros H [x y] Hb.
      - apply transpose_dc; [assumption|]. apply H. apply (transpose_dc lam (x, y)); assumption.
      - apply (transpose_dc mu (y, x)); [assumption|]. apply H. apply transpose_dc; assumption. }
    exists (map (fun s => (transpose (fst s), map (fun c => (snd c, fst c)) (snd s))) r). split; [reflexivity|]. split.
    - intro I0. pose proof (proj1 Inc I0) as I. destruct (H1 I) as (N & S & C). unfold all_strips.
      assert (Q : forall k, In k (map fst r) -> partition k) by (intros k Hk; apply S in Hk; destruct Hk as [[P _] _]; exact P).
      assert (Em : map fst (map (fun s : list Z * list box => (transpose (fst s), map (fun c : box => (snd c, fst c)) (snd s))) r) = map transpose (map fst r)).
      { rewrite !map_map. reflexivity. }
      split; [|split].
      + eapply eq_ind_r; [|exact Em]. apply NoDup_map_inj_in; [|assumption]. intros x y Hx Hy E. rewrite <- (transpose_involutive x), <- (transpose_involutive y) by (apply Q; assumption). rewrite E. reflexivity.
      + intro k. pose proof (f_equal (fun l => In k l) Em) as Ek. cbv beta in Ek. eapply iff_trans; [eapply iff_trans; [|apply (in_map_iff transpose (map fst r))]; rewrite <- Ek; apply iff_refl|]. split.
        * intros (x & <- & Hx). pose proof (Q x Hx) as Px. apply S in Hx. destruct Hx as [[_ J1] J2]. split; [split; [apply transpose_partition, partition_weak; assumption|]|].
          -- intros b Hb. apply transpose_dc; [assumption|]. apply J1. apply transpose_dc; [assumption|]. cbn [fst snd]. destruct b; exact Hb.
          -- intros b Hb. apply (proj1 (transpose_dc x _ Px)) in Hb. apply J2 in Hb. apply (proj1 (transpose_dc mu _ Pm)) in Hb. cbn [fst snd] in Hb. destruct b; exact Hb.
        * intros [[P J1] J2]. cbn [part_b] in P. exists (transpose k). split; [apply transpose_involutive; assumption|]. apply S. split; [split; [apply transpose_partition, partition_weak; assumption|]|].
          -- intros b Hb. apply (proj1 (transpose_dc lam _ Pl)) in Hb. apply transpose_dc; [assumption|]. apply J1. assumption.
          -- intros b Hb. apply (proj1 (transpose_dc k _ P)) in Hb. apply transpose_dc; [assumption|]. apply J2. assumption.
      + intros k d Hk. apply in_map_iff in Hk. destruct Hk as ([k0 d0] & E & Hk). cbn [fst snd] in E. injection E as <- <-.
        destruct (C k0 d0 Hk) as [Nd Hd]. assert (P0 : partition k0) by (apply Q, in_map_iff; exists (k0, d0); split; [reflexivity|assumption]). split.
        * apply NoDup_map_inj_in; [|assumption]. intros [a b] [a' b'] _ _ E. cbn [fst snd] in E. injection E as -> ->. reflexivity.
        * intros [x y]. rewrite in_map_iff. rewrite (transpose_dc k0 (x, y) P0). cbn [fst snd]. split.
          -- intros ([a b] & E & Hb). cbn [fst snd] in E. injection E as -> ->. apply Hd in Hb. rewrite (transpose_dc mu (y, x) Pm) in Hb. exact Hb.
          -- intros Hb. exists (y, x). split; [reflexivity|]. apply Hd. rewrite (transpose_dc mu (y, x) Pm). exact Hb.
    - intro I. rewrite H2; [reflexivity|]. intro X. apply I, Inc. exact X.
  Qed.
  Lemma okS_nil : forall sh mu, part_b sh mu -> okS sh [] mu.
  Proof. intros sh mu P. split; [assumption|]. intros b H. exfalso. apply (dc_nil sh b H). Qed.
  Lemma shifted_nil_strips : all_strips true [] [] [([], [])].
  Proof.
    unfold all_strips. cbn [map fst]. split; [constructor; [intros []|constructor]|]. split.
    - intro k. split; [intros [<-|[]]; split; [apply okS_nil, part_b_nil|tauto]|]. intros [[P I] J]. left. apply (part_ext true); [apply part_b_nil|assumption|]. intro c. split; [apply I|apply J].
    - intros k d [H|[]]. injection H as <- <-. split; [constructor|]. intro b. cbn [In]. tauto.
  Qed.
  Lemma shifted_horizontal_spec : forall mu, strict_partition mu -> exists r, shifted_rpp_horizontal_strips ord mu = Ok r /\ all_strips true [] mu r.
  Proof.
    intros mu P. unfold shifted_rpp_horizontal_strips. rewrite (strict_is_strict mu) by assumption. cbn [negb]. destruct mu as [|a mu']; [exists [([], [])]; split; [reflexivity|apply shifted_nil_strips]|].
    destruct (rows_queue true [] (part_b_nil true) (fun _ => true)) with (mu := a :: mu') as (l & El & Hl).
    - intros s Ps. split; [|reflexivity]. intros _ b Hb. exfalso. apply (dc_nil true b Hb).
    - apply okS_nil. exact P.
    - rewrite El. cbn [rbind]. eexists. split; [reflexivity|]. apply (strips_of true). intro k. rewrite Hl. split; [tauto|]. intro X. split; [discriminate|assumption].
  Qed.
  Lemma shifted_vertical_spec : forall mu, strict_partition mu -> exists r, shifted_rpp_vertical_strips ord mu = Ok r /\ all_strips true [] mu r.
  Proof.
    intros mu P. unfold shifted_rpp_vertical_strips. rewrite (strict_is_strict mu) by assumption. cbn [negb]. destruct mu as [|a mu']; [exists [([], [])]; split; [reflexivity|apply shifted_nil_strips]|].
    destruct (columns_queue (a :: mu')) as (l & El & Hl).
    - apply okS_nil. exact P.
    - discriminate.
    - rewrite El. cbn [rbind]. eexists. split; [reflexivity|]. apply (strips_of true). exact Hl.
  Qed.
End Enumerators.
