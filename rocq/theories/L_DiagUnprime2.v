(* Set-valued column insertion on tableaux *)
From Coq Require Import List ZArith Bool Lia Permutation Sorted.
From Verif Require Import PyBase M_Partitions S_Tableaux M_Tableaux L_Tableaux S_Semistandard S_Standardize M_DiagUnprime L_DiagUnprime1.
From Verif Require L_Insertion3 L_Insertion4 L_PartCorners.
Import ListNotations.
Local Open Scope Z_scope.

Notation cnt := (count_occ Z.eq_dec).
Definition old (t : tab) (c : box) : list Z := match tlookup t c with Some l => l | None => [] end.

Lemma zrange_cons : forall a b, a < b -> zrange a b = a :: zrange (a + 1) b.
Proof.
  intros a b H. unfold zrange. replace (Z.to_nat (b - a)) with (S (Z.to_nat (b - (a + 1)))) by lia. cbn [seq map]. f_equal; [lia|].
  rewrite <- seq_shift, map_map. apply map_ext. intro. lia.
Qed.
Lemma zrange_none : forall a b, b <= a -> zrange a b = [].
Proof. intros a b H. unfold zrange. replace (Z.to_nat (b - a)) with 0%nat by lia. reflexivity. Qed.

Lemma tset_put : forall t i j l, well_formed t -> 0 < i -> 0 < j -> increasing l -> tset t i j (VTup l) = Ok (tput (i, j) l t).
Proof.
  intros t i j l W Hi Hj I. assert (P : positive (i, j)) by (split; assumption). unfold tset, treplace, tadd.
  assert (E : tinit (mput (i, j) (VTup l) (items t)) = Ok (tput (i, j) l t)) by (rewrite (tinit_mput_eq t (i, j) (VTup l) W P); cbn [tuplize]; rewrite sorted_id by exact I; reflexivity).
  unfold tmem. destruct (tlookup t (i, j)) as [o|] eqn:L; [exact E|]. rewrite (proj2 (Z.ltb_lt 0 i)), (proj2 (Z.ltb_lt 0 j)) by assumption. exact E.
Qed.
Lemma put_count : forall t c l z, well_formed t -> (cnt (flat_map snd (tput c l t)) z + cnt (old t c) z = cnt (flat_map snd t) z + cnt l z)%nat.
Proof.
  intros t c l z [W _]. pose proof (proj1 (Permutation_count_occ Z.eq_dec _ _) (L_Insertion4.flat_tput c l t W) z) as A. rewrite count_occ_app in A. unfold old.
  destruct (tlookup t c) as [o|] eqn:L.
  - pose proof (proj1 (Permutation_count_occ Z.eq_dec _ _) (L_Insertion4.flat_tdel c t o L) z) as B. rewrite count_occ_app in B. unfold tab, box in *. lia.
  - assert (E : tdel c t = t). { apply tab_ext; [apply tdel_sorted; exact W|exact W|]. intro d. rewrite tlookup_tdel by exact W. destruct (box_eqb c d) eqn:E; [apply box_eqb_eq in E; subst; symmetry; exact L|reflexivity]. }
    rewrite E in A. change (cnt [] z) with 0%nat. unfold tab, box in *. lia.
Qed.
Lemma decode_increasing : forall l, increasing (decode l).
Proof. intro l. apply sorted_increasing. Qed.

Lemma write_column : forall bs k t col, well_formed t -> 0 <= k -> 0 < col ->
  exists u, rfold (fun t ib => tset t (fst ib + 1) col (VTup (decode (snd ib)))) (combine (zrange k (k + zlen bs)) bs) t = Ok u /\ well_formed u /\
    (forall i j, tlookup u (i, j) = if (j =? col) && ((k <? i) && (i <=? k + zlen bs)) then option_map decode (nth_error bs (Z.to_nat (i - k - 1))) else tlookup t (i, j)) /\
    (forall z, cnt (flat_map snd u) z + cnt (flat_map (fun i : Z => old t ((i + 1)%Z, col)) (zrange k (k + zlen bs)%Z)) z = cnt (flat_map snd t) z + cnt (flat_map decode bs) z)%nat.
Proof.
  induction bs as [|b bs IH]; intros k t col W Hk Hc.
  - rewrite zrange_none by (unfold zlen; cbn; lia). exists t. split; [reflexivity|]. split; [exact W|]. split; [|reflexivity].
    intros i j. unfold zlen. cbn [length]. destruct (Z.ltb_spec k i), (Z.leb_spec i (k + Z.of_nat 0)); try lia; rewrite ?andb_false_r; reflexivity.
  - assert (ZL : zlen (b :: bs) = 1 + zlen bs) by (unfold zlen; cbn [length]; lia). assert (0 <= zlen bs) by (unfold zlen; lia).
    rewrite zrange_cons by lia. cbn [combine rfold fst snd]. rewrite tset_put; [|exact W|lia|exact Hc|apply decode_increasing]. cbn [rbind].
    assert (PK : positive (k + 1, col)) by (split; cbn [fst snd]; lia).
    pose proof (tput_wf t (k + 1, col) (decode b) W PK (decode_increasing b)) as W1.
    destruct (IH (k + 1) (tput (k + 1, col) (decode b) t) col W1 ltac:(lia) Hc) as (u & E & Wu & L & C).
    replace (k + zlen (b :: bs)) with (k + 1 + zlen bs) by lia. exists u. split; [exact E|]. split; [exact Wu|]. split.
    + intros i j. rewrite L. rewrite tlookup_tput by apply W.
      destruct (Z.eqb_spec j col) as [->|NJ]; cbn [andb].
      * destruct (Z.eq_dec i (k + 1)) as [->|NI].
        -- rewrite (proj2 (Z.ltb_ge (k + 1) (k + 1))) by lia. rewrite (proj2 (Z.ltb_lt k (k + 1))), (proj2 (Z.leb_le (k + 1) (k + 1 + zlen bs))) by lia. cbn [andb]. rewrite box_eqb_refl. replace (k + 1 - k - 1) with 0 by lia. reflexivity.
        -- rewrite (proj2 (box_eqb_neq (k + 1, col) (i, col))) by congruence. destruct (Z.ltb_spec (k + 1) i), (Z.ltb_spec k i); try lia; [|reflexivity]. destruct (i <=? k + 1 + zlen bs); cbn [andb]; [|reflexivity].
           replace (Z.to_nat (i - k - 1)) with (S (Z.to_nat (i - (k + 1) - 1))) by lia. reflexivity.
      * rewrite (proj2 (box_eqb_neq (k + 1, col) (i, j))) by congruence. reflexivity.
    + intro z. cbn [flat_map]. rewrite !count_occ_app. specialize (C z). pose proof (put_count t (k + 1, col) (decode b) z W) as D.
      assert (F : flat_map (fun i : Z => old (tput (k + 1, col) (decode b) t) (i + 1, col)) (zrange (k + 1) (k + 1 + zlen bs)) = flat_map (fun i : Z => old t ((i + 1)%Z, col)) (zrange (k + 1) (k + 1 + zlen bs))).
      { rewrite !flat_map_concat_map. f_equal. apply map_ext_in. intros i Hi. unfold zrange in Hi. apply in_map_iff in Hi. destruct Hi as (q & <- & _). unfold old. rewrite tlookup_tput by apply W. rewrite (proj2 (box_eqb_neq (k + 1, col) (k + 1 + Z.of_nat q + 1, col))); [reflexivity|intro X; injection X; lia]. }
      rewrite F in C. unfold tab, box in *. lia.
Qed.

(* a sequence of distinct cells leaves the tableau *)
Lemma run_ends : forall (t : tab) (f : nat -> box), (forall a b, f a = f b -> a = b) ->
  exists n, (n <= length t)%nat /\ tlookup t (f n) = None /\ forall m, (m < n)%nat -> tlookup t (f m) <> None.
Proof.
  intros t f INJ.
  assert (D : forall N, (exists n, (n < N)%nat /\ tlookup t (f n) = None /\ forall m, (m < n)%nat -> tlookup t (f m) <> None) \/ forall m, (m < N)%nat -> tlookup t (f m) <> None).
  { induction N as [|N [(n & A & B)|IH]]; [right; intros; lia|left; exists n; split; [lia|exact B]|]. destruct (tlookup t (f N)) eqn:E; [|left; exists N; split; [lia|]; split; assumption].
    right. intros m Hm. destruct (Nat.eq_dec m N) as [->|]; [congruence|apply IH; lia]. }
  destruct (D (S (length t))) as [(n & A & B)|H]; [exists n; split; [lia|exact B]|exfalso].
  assert (N : NoDup (map f (seq 0 (S (length t))))). { apply FinFun.Injective_map_NoDup; [intros a b; apply INJ|apply seq_NoDup]. }
  assert (I : incl (map f (seq 0 (S (length t)))) (map fst t)).
  { intros c Hc. apply in_map_iff in Hc. destruct Hc as (m & <- & Hm). apply in_seq in Hm. specialize (H m ltac:(lia)). destruct (tlookup t (f m)) as [l|] eqn:E; [|congruence]. apply tlookup_In in E. apply in_map_iff. exists (f m, l). split; [reflexivity|exact E]. }
  pose proof (NoDup_incl_length N I) as X. rewrite !map_length, seq_length in X. lia.
Qed.
Lemma count_rows_gen : forall n fuel t col k, (n < fuel)%nat -> (forall m, (m < n)%nat -> tlookup t (k + 1 + Z.of_nat m, col) <> None) -> tlookup t (k + 1 + Z.of_nat n, col) = None ->
  count_rows fuel t col k = Ok (k + Z.of_nat n).
Proof.
  induction n as [|n IH]; intros fuel t col k Hf H N.
  - replace (k + 1 + Z.of_nat 0) with (k + 1) in N by lia. destruct fuel; cbn [count_rows]; unfold tmem; rewrite N; f_equal; lia.
  - pose proof (H 0%nat ltac:(lia)) as H0. replace (k + 1 + Z.of_nat 0) with (k + 1) in H0 by lia. destruct fuel as [|fuel]; [lia|]. cbn [count_rows]. unfold tmem. destruct (tlookup t (k + 1, col)) eqn:E; [|congruence].
    rewrite (IH fuel t col (k + 1)); [f_equal; lia|lia| |].
    + intros m Hm. replace (k + 1 + 1 + Z.of_nat m) with (k + 1 + Z.of_nat (S m)) by lia. apply H. lia.
    + replace (k + 1 + 1 + Z.of_nat n) with (k + 1 + Z.of_nat (S n)) by lia. exact N.
Qed.

Lemma encode_cnt : forall l, Permutation (map uncode (encode l)) l.
Proof. intro l. unfold encode. eapply Permutation_trans; [apply Permutation_map, Permutation_sym, sorted_perm|]. rewrite map_map. erewrite map_ext; [rewrite map_id; apply Permutation_refl|]. intro. apply code_uncode. Qed.
Lemma decode_cnt : forall l, Permutation (decode l) (map uncode l).
Proof. intro l. unfold decode. apply Permutation_sym, sorted_perm. Qed.
Lemma encode_nil : forall l, encode l = [] -> l = [].
Proof. intros l H. pose proof (encode_cnt l) as P. rewrite H in P. apply Permutation_nil in P. exact P. Qed.
Lemma decode_nil : forall l, decode l = [] -> l = [].
Proof. intros l H. pose proof (decode_cnt l) as P. rewrite H in P. apply Permutation_nil in P. destruct l; [reflexivity|discriminate]. Qed.
Lemma flat_decode : forall bs, Permutation (flat_map decode bs) (map uncode (concat bs)).
Proof. induction bs as [|b bs IH]; [constructor|]. cbn [flat_map concat]. rewrite map_app. apply Permutation_app; [apply decode_cnt|exact IH]. Qed.

Definition nonempty (t : tab) : Prop := forall c l, tlookup t c = Some l -> l <> [].

(* the column of t that is changed: rows 1 to n *)
Lemma insert_shape : forall (t : tab) s col, well_formed t -> nonempty t -> s <> [] -> 0 < col -> tlookup t (1, col) <> None ->
  exists n bound boxes boxes' ans u,
    boxes = map (fun i => encode (old t (i + 1, col))) (zrange 0 (Z.of_nat n)) /\ (0 < n)%nat /\
    (forall i, 1 <= i <= Z.of_nat n -> tlookup t (i, col) <> None) /\ tlookup t (Z.of_nat n + 1, col) = None /\
    length bound = S (length boxes) /\ length boxes = n /\
    good_bumps boxes (find_bumps boxes (encode s)) /\ flat_map snd (find_bumps boxes (encode s)) = encode s /\
    rfold (apply_bump bound) (rev (find_bumps boxes (encode s))) (boxes, []) = Ok (boxes', ans) /\
    (length boxes' = n \/ length boxes' = S n) /\ Forall (fun b => b <> []) boxes' /\ Permutation (concat boxes ++ encode s) (concat boxes' ++ ans) /\
    setvalued_column_insert t s col = Ok (u, Some (decode ans)) /\ well_formed u /\ nonempty u /\
    (forall i j, tlookup u (i, j) = if (j =? col) && ((0 <? i) && (i <=? zlen boxes')) then option_map decode (nth_error boxes' (Z.to_nat (i - 1))) else tlookup t (i, j)) /\
    Permutation (flat_map snd t ++ s) (flat_map snd u ++ decode ans).
Proof.
  intros t s col W NE HS Hc H1.
  destruct (run_ends t (fun m => (1 + 1 + Z.of_nat m, col))) as (m & Hm & EN & EP). { intros a b E. apply (f_equal fst) in E. cbn [fst] in E. lia. }
  set (n := S m). assert (HN : Z.of_nat n = 1 + Z.of_nat m) by (unfold n; lia). assert (CR : count_rows (S (length t)) t col 1 = Ok (Z.of_nat n)). { rewrite (count_rows_gen m); [rewrite HN; reflexivity|exact (le_n_S _ _ Hm)|exact EP|exact EN]. }
  assert (PR : forall i, 1 <= i <= Z.of_nat n -> tlookup t (i, col) <> None).
  { intros i Hi. destruct (Z.eq_dec i 1) as [->|]; [exact H1|]. specialize (EP (Z.to_nat (i - 2)) ltac:(lia)). cbv beta in EP. replace (1 + 1 + Z.of_nat (Z.to_nat (i - 2))) with i in EP by lia. exact EP. }
  replace (1 + 1 + Z.of_nat m) with (Z.of_nat n + 1) in EN by lia.
  set (bf := fun i => match tlookup t (i + 1, col - 1) with Some l => match zmax (encode l) with Some m => m | None => 0 end | None => 0 end).
  assert (BD : rmap (fun i => match tlookup t (i + 1, col - 1) with Some l => max_code l | None => Ok 0 end) (zrange 0 (Z.of_nat n + 1)) = Ok (map bf (zrange 0 (Z.of_nat n + 1)))).
  { apply L_PartCorners.rmap_ok. intros i Hi. unfold bf. destruct (tlookup t (i + 1, col - 1)) as [l|] eqn:E; [|reflexivity]. unfold max_code. destruct (encode l) as [|a l'] eqn:EE; [apply encode_nil in EE; destruct (NE _ _ E EE)|]. reflexivity. }
  set (boxes := map (fun i => encode (old t (i + 1, col))) (zrange 0 (Z.of_nat n))).
  assert (BX : rmap (fun i => box_codes t (i + 1, col)) (zrange 0 (Z.of_nat n)) = Ok boxes).
  { apply L_PartCorners.rmap_ok. intros i Hi. unfold zrange in Hi. apply in_map_iff in Hi. destruct Hi as (q & <- & Hq). apply in_seq in Hq. unfold box_codes, old. destruct (tlookup t (0 + Z.of_nat q + 1, col)) eqn:E; [reflexivity|]. exfalso. apply (PR (0 + Z.of_nat q + 1)); [lia|exact E]. }
  assert (LB : length boxes = n) by (unfold boxes, zrange; rewrite !map_length, seq_length; lia).
  assert (LD : length (map bf (zrange 0 (Z.of_nat n + 1))) = S (length boxes)) by (rewrite LB; unfold zrange; rewrite !map_length, seq_length; lia).
  assert (NB : Forall (fun b => b <> []) boxes).
  { apply Forall_forall. intros b Hb. unfold boxes in Hb. apply in_map_iff in Hb. destruct Hb as (i & <- & Hi). unfold zrange in Hi. apply in_map_iff in Hi. destruct Hi as (q & <- & Hq). apply in_seq in Hq. intro X. apply encode_nil in X. unfold old in X.
    destruct (tlookup t (0 + Z.of_nat q + 1, col)) eqn:E; [exact (NE _ _ E X)|]. apply (PR (0 + Z.of_nat q + 1)); [lia|exact E]. }
  destruct (find_bumps_ok boxes (encode s) (sorted_increasing _)) as [GB FB].
  destruct (apply_bumps boxes (map bf (zrange 0 (Z.of_nat n + 1))) _ NB LD GB) as (boxes' & ans & EA & LE & _ & _ & PA & NB'). rewrite FB in PA. rewrite LB in LE.
  destruct (write_column boxes' 0 t col W ltac:(lia) Hc) as (u & EW & Wu & LU & CU). rewrite Z.add_0_l in EW, CU.
  exists n, (map bf (zrange 0 (Z.of_nat n + 1))), boxes, boxes', ans, u.
  split; [reflexivity|]. split; [unfold n; lia|]. split; [exact PR|]. split; [exact EN|]. split; [exact LD|]. split; [exact LB|]. split; [exact GB|]. split; [exact FB|]. split; [exact EA|].
  split; [exact LE|]. split; [exact NB'|]. split; [exact PA|].
  assert (LU' : forall i j, tlookup u (i, j) = if (j =? col) && ((0 <? i) && (i <=? zlen boxes')) then option_map decode (nth_error boxes' (Z.to_nat (i - 1))) else tlookup t (i, j)).
  { intros i j. rewrite LU. rewrite Z.add_0_l. replace (i - 0 - 1) with (i - 1) by lia. reflexivity. }
  split; [|split; [exact Wu|split; [|split; [exact LU'|]]]].
  - unfold setvalued_column_insert. assert (TM : tmem t (1, col) = true) by (unfold tmem; destruct (tlookup t (1, col)); [reflexivity|congruence]). rewrite TM. cbn [negb]. rewrite CR. cbn [rbind]. rewrite BD. cbn [rbind]. rewrite BX. cbn [rbind]. rewrite EA. cbn [rbind fst snd]. rewrite EW. reflexivity.
  - intros [i j] l E. rewrite LU' in E. destruct (j =? col); cbn [andb] in E; [|exact (NE _ _ E)]. destruct (Z.ltb_spec 0 i); cbn [andb] in E; [|exact (NE _ _ E)]. destruct (Z.leb_spec i (zlen boxes')); cbn [andb] in E; [|exact (NE _ _ E)].
    destruct (nth_error boxes' (Z.to_nat (i - 1))) as [b|] eqn:EB; [|discriminate]. injection E as <-. intro X. apply decode_nil in X. rewrite Forall_forall in NB'. exact (NB' b (nth_error_In _ _ EB) X).
  - apply perm_count. intro z. rewrite !count_occ_app. specialize (CU z).
    assert (OL : cnt (flat_map (fun i : Z => old t ((i + 1)%Z, col)) (zrange 0 (zlen boxes'))) z = cnt (map uncode (concat boxes)) z).
    { assert (P0 : Permutation (flat_map (fun i : Z => old t ((i + 1)%Z, col)) (zrange 0 (Z.of_nat n))) (map uncode (concat boxes))).
      { unfold boxes. clear. induction (zrange 0 (Z.of_nat n)) as [|i l IH]; [constructor|]. cbn [flat_map map concat]. rewrite map_app. apply Permutation_app; [apply Permutation_sym, encode_cnt|exact IH]. }
      rewrite <- (proj1 (Permutation_count_occ Z.eq_dec _ _) P0 z). unfold zlen. destruct LE as [->| ->]; [reflexivity|].
      replace (zrange 0 (Z.of_nat (S n))) with (zrange 0 (Z.of_nat n) ++ [Z.of_nat n]).
      - rewrite flat_map_app, count_occ_app. cbn [flat_map]. unfold old at 2. rewrite EN. cbn. lia.
      - unfold zrange. replace (Z.to_nat (Z.of_nat (S n) - 0)) with (S n) by lia. replace (Z.to_nat (Z.of_nat n - 0)) with n by lia. rewrite seq_S, map_app. reflexivity. }
    rewrite OL in CU. pose proof (Permutation_map uncode PA) as PB. rewrite !map_app in PB. pose proof (proj1 (Permutation_count_occ Z.eq_dec _ _) PB z) as PZ. rewrite !count_occ_app in PZ.
    pose proof (proj1 (Permutation_count_occ Z.eq_dec _ _) (flat_decode boxes') z) as Q1. pose proof (proj1 (Permutation_count_occ Z.eq_dec _ _) (encode_cnt s) z) as Q2. pose proof (proj1 (Permutation_count_occ Z.eq_dec _ _) (decode_cnt ans) z) as Q3. unfold box in *. lia.
Qed.
