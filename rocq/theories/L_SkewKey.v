(* The loop of skew_key *)
From Coq Require Import List ZArith Bool Lia Permutation.
From Verif Require Import PyBase M_PolyHash M_Partitions M_SkewKey.
Import ListNotations.
Local Open Scope Z_scope.

Definition moved (a b : Z) (s : list (Z * Z)) : list (Z * Z) := map (fun p => (fst p - a, snd p - b)) s.
Lemma moved_moved : forall a b c d s, moved c d (moved a b s) = moved (a + c) (b + d) s.
Proof. intros a b c d s. unfold moved. rewrite map_map. apply map_ext. intros [x y]. cbn [fst snd]. f_equal; lia. Qed.
Lemma moved_0 : forall s, moved 0 0 s = s.
Proof. intro s. unfold moved. rewrite <- (map_id s) at 2. apply map_ext. intros [x y]. cbn [fst snd]. f_equal; lia. Qed.
Lemma In_moved : forall a b s i j, In (i, j) (moved a b s) <-> In (i + a, j + b) s.
Proof.
  intros a b s i j. unfold moved. rewrite in_map_iff. split.
  - intros ([x y] & E & H). cbn [fst snd] in E. injection E as <- <-. replace (x - a + a) with x by lia. replace (y - b + b) with y by lia. exact H.
  - intro H. exists (i + a, j + b). split; [cbn [fst snd]; f_equal; lia|exact H].
Qed.
Definition all_pos (s : list (Z * Z)) : Prop := forall i j, In (i, j) s -> 1 <= i /\ 1 <= j.
Definition headsum (s : list (Z * Z)) : nat := match s with [] => O | p :: _ => Z.to_nat (fst p + snd p) end.

Lemma forallb_false : forall (p : Z * Z -> bool) s, forallb p s = false -> exists x, In x s /\ p x = false.
Proof. intros p. induction s as [|x s IH]; [discriminate|]. cbn [forallb]. rewrite andb_false_iff. intros [H|H]; [exists x; split; [left; reflexivity|exact H]|]. destruct (IH H) as (y & A & B). exists y. split; [right; exact A|exact B]. Qed.
Lemma first_true : forall s : list (Z * Z), all_pos s -> (forallb (fun p => 1 <? fst p) s = false <-> exists j, In (1, j) s).
Proof.
  intros s P. split.
  - intro H. apply forallb_false in H. destruct H as ([i j] & H & E). cbn [fst] in E. apply Z.ltb_ge in E. destruct (P i j H). assert (i = 1) by lia. subst. exists j. exact H.
  - intros (j & H). destruct (forallb (fun p => 1 <? fst p) s) eqn:E; [|reflexivity]. rewrite forallb_forall in E. specialize (E _ H). discriminate.
Qed.
Lemma second_true : forall s : list (Z * Z), all_pos s -> (forallb (fun p => 1 <? snd p) s = false <-> exists i, In (i, 1) s).
Proof.
  intros s P. split.
  - intro H. apply forallb_false in H. destruct H as ([i j] & H & E). cbn [snd] in E. apply Z.ltb_ge in E. destruct (P i j H). assert (j = 1) by lia. subst. exists i. exact H.
  - intros (j & H). destruct (forallb (fun p => 1 <? snd p) s) eqn:E; [|reflexivity]. rewrite forallb_forall in E. specialize (E _ H). discriminate.
Qed.
Lemma both_true : forall s : list (Z * Z), forallb (fun p => (1 <? fst p) && (1 <? snd p)) s = forallb (fun p => 1 <? fst p) s && forallb (fun p => 1 <? snd p) s.
Proof. induction s as [|[i j] s IH]; [reflexivity|]. cbn [forallb fst snd]. rewrite IH. destruct (1 <? i), (1 <? j), (forallb (fun p => 1 <? fst p) s), (forallb (fun p => 1 <? snd p) s); reflexivity. Qed.
Lemma all_first : forall s : list (Z * Z), forallb (fun p => 1 <? fst p) s = true -> forall i j, In (i, j) s -> 1 < i.
Proof. intros s H i j I. rewrite forallb_forall in H. specialize (H _ I). apply Z.ltb_lt in H. exact H. Qed.
Lemma all_second : forall s : list (Z * Z), forallb (fun p => 1 <? snd p) s = true -> forall i j, In (i, j) s -> 1 < j.
Proof. intros s H i j I. rewrite forallb_forall in H. specialize (H _ I). apply Z.ltb_lt in H. exact H. Qed.
Lemma moved_pos : forall a b s, all_pos s -> (a = 0 \/ a = 1 /\ forallb (fun p => 1 <? fst p) s = true) -> (b = 0 \/ b = 1 /\ forallb (fun p => 1 <? snd p) s = true) -> all_pos (moved a b s).
Proof.
  intros a b s P A B i j H. apply In_moved in H. destruct (P _ _ H) as [P1 P2].
  split; [destruct A as [->|[-> A]]; [lia|pose proof (all_first s A _ _ H); lia]|destruct B as [->|[-> B]]; [lia|pose proof (all_second s B _ _ H); lia]].
Qed.
Lemma headsum_moved : forall a b s, s <> [] -> all_pos (moved a b s) -> 0 <= a -> 0 <= b -> 1 <= a + b -> (headsum (moved a b s) < headsum s)%nat.
Proof.
  intros a b [|[x y] s] N P Ha Hb Hab; [congruence|]. cbn [moved map headsum fst snd]. destruct (P (x - a) (y - b)) as [A B]; [left; reflexivity|]. lia.
Qed.
Lemma moved_nonempty : forall a b s, s <> [] -> moved a b s <> [].
Proof. intros a b [|p s] H; [congruence|discriminate]. Qed.
Lemma step10 : forall s, map (fun p : Z * Z => (fst p - 1, snd p)) s = moved 1 0 s.
Proof. intro s. apply map_ext. intro p. f_equal. lia. Qed.
Lemma step01 : forall s, map (fun p : Z * Z => (fst p, snd p - 1)) s = moved 0 1 s.
Proof. intro s. apply map_ext. intro p. f_equal. lia. Qed.

(* unshifted *)
Lemma loop_plain : forall fuel s, s <> [] -> all_pos s -> (headsum s <= fuel)%nat ->
  exists a b, skew_loop fuel false s = Ok (moved a b s) /\ all_pos (moved a b s) /\ (exists j, In (1, j) (moved a b s)) /\ (exists i, In (i, 1) (moved a b s)).
Proof.
  induction fuel as [|fuel IH]; intros s N P F.
  { exfalso. destruct s as [|[x y] s]; [congruence|]. cbn [headsum fst snd] in F. destruct (P x y (or_introl eq_refl)). lia. }
  assert (STEP : forall a b, 0 <= a -> 0 <= b -> 1 <= a + b -> all_pos (moved a b s) ->
    exists c d, skew_loop fuel false (moved a b s) = Ok (moved c d s) /\ all_pos (moved c d s) /\ (exists j, In (1, j) (moved c d s)) /\ (exists i, In (i, 1) (moved c d s))).
  { intros a b Ha Hb Hab PM. pose proof (headsum_moved a b s N PM Ha Hb Hab). destruct (IH (moved a b s) (moved_nonempty a b s N) PM) as (c & d & E); [lia|]. rewrite moved_moved in E. exists (a + c), (b + d). exact E. }
  destruct s as [|p0 s0] eqn:ES; [congruence|]. rewrite <- ES in *. clear N.
  assert (EQ : skew_loop (S fuel) false s = if forallb (fun p => (1 <? fst p) && (1 <? snd p)) s then skew_loop fuel false (moved 1 1 s)
      else if forallb (fun p => 1 <? fst p) s then skew_loop fuel false (moved 1 0 s) else if forallb (fun p => 1 <? snd p) s then skew_loop fuel false (moved 0 1 s) else Ok s).
  { rewrite <- step10, <- step01. rewrite ES. cbn [skew_loop andb negb]. rewrite !andb_true_r. reflexivity. }
  rewrite EQ, both_true. destruct (forallb (fun p => 1 <? fst p) s) eqn:E1, (forallb (fun p => 1 <? snd p) s) eqn:E2; cbn [andb].
  - apply STEP; [lia|lia|lia|]. apply moved_pos; [exact P|right; split; [reflexivity|exact E1]|right; split; [reflexivity|exact E2]].
  - apply STEP; [lia|lia|lia|]. apply moved_pos; [exact P|right; split; [reflexivity|exact E1]|left; reflexivity].
  - apply STEP; [lia|lia|lia|]. apply moved_pos; [exact P|left; reflexivity|right; split; [reflexivity|exact E2]].
  - exists 0, 0. rewrite moved_0. split; [reflexivity|]. split; [exact P|]. split; [apply first_true; assumption|apply second_true; assumption].
Qed.

(* shifted: rows and columns together until row 1 is reached, then columns *)
Definition blocked (s : list (Z * Z)) (k : Z) : Prop := exists i j, In (i, j) s /\ (j = k + 1 \/ i = j - k - 1).
Lemma loop_columns : forall fuel s, all_pos s -> (exists j, In (1, j) s) -> (headsum s <= fuel)%nat ->
  exists m, 0 <= m /\ skew_loop fuel true s = Ok (moved 0 m s) /\ blocked s m /\ forall k, 0 <= k < m -> ~ blocked s k.
Proof.
  induction fuel as [|fuel IH]; intros s P R F.
  { exfalso. destruct s as [|[x y] s]; [destruct R as (j & [])|]. cbn [headsum fst snd] in F. destruct (P x y (or_introl eq_refl)). lia. }
  assert (N : s <> []) by (destruct s; [destruct R as (j & [])|discriminate]).
  pose proof (proj2 (first_true s P) R) as E1.
  assert (EQ : skew_loop (S fuel) true s = if forallb (fun p => 1 <? snd p) s && negb (existsb (fun p => fst p =? snd p - 1) s) then skew_loop fuel true (moved 0 1 s) else Ok s).
  { rewrite <- step01. destruct s as [|p0 s0] eqn:ES; [congruence|]. rewrite <- ES in *. transitivity (if forallb (fun p => (1 <? fst p) && (1 <? snd p)) s then skew_loop fuel true (map (fun p => (fst p - 1, snd p - 1)) s)
      else if forallb (fun p => 1 <? fst p) s && negb (true && existsb (fun p => fst p =? snd p) s) then skew_loop fuel true (map (fun p => (fst p - 1, snd p)) s)
      else if forallb (fun p => 1 <? snd p) s && negb (true && existsb (fun p => fst p =? snd p - 1) s) then skew_loop fuel true (map (fun p => (fst p, snd p - 1)) s) else Ok s).
    - rewrite ES. reflexivity.
    - rewrite both_true, E1. reflexivity. }
  rewrite EQ. clear EQ.
  assert (BL : forallb (fun p => 1 <? snd p) s && negb (existsb (fun p => fst p =? snd p - 1) s) = false <-> blocked s 0).
  { rewrite andb_false_iff, (second_true s P), negb_false_iff, existsb_exists. unfold blocked. split.
    - intros [(i & H)|([i j] & H & E)]; [exists i, 1; split; [exact H|left; reflexivity]|]. cbn [fst snd] in E. apply Z.eqb_eq in E. exists i, j. split; [exact H|right; lia].
    - intros (i & j & H & [E|E]); [left; exists i; replace 1 with j by lia; exact H|]. right. exists (i, j). split; [exact H|]. cbn [fst snd]. apply Z.eqb_eq. lia. }
  destruct (forallb (fun p => 1 <? snd p) s && negb (existsb (fun p => fst p =? snd p - 1) s)) eqn:EB.
  - assert (NB : ~ blocked s 0) by (intro X; apply BL in X; discriminate).
    apply andb_true_iff in EB. destruct EB as [E2 _]. assert (PM : all_pos (moved 0 1 s)) by (apply moved_pos; [exact P|left; reflexivity|right; split; [reflexivity|exact E2]]).
    pose proof (headsum_moved 0 1 s N PM ltac:(lia) ltac:(lia) ltac:(lia)).
    assert (SH : forall k, blocked (moved 0 1 s) k <-> blocked s (k + 1)).
    { intro k. unfold blocked. split.
      - intros (i & j & H0 & D). apply In_moved in H0. rewrite Z.add_0_r in H0. exists i, (j + 1). split; [exact H0|lia].
      - intros (i & j & H0 & D). exists i, (j - 1). split; [apply In_moved; rewrite Z.add_0_r, Z.sub_add; exact H0|lia]. }
    destruct (IH (moved 0 1 s) PM) as (m & Hm & E & B & L); [|lia|].
    + destruct R as (j & R). exists (j - 1). apply In_moved. rewrite Z.add_0_r, Z.sub_add. exact R.
    + exists (m + 1). split; [lia|]. rewrite moved_moved in E. rewrite (Z.add_comm m 1). split; [exact E|]. rewrite (Z.add_comm 1 m). split; [apply SH; exact B|].
      intros k Hk. destruct (Z.eq_dec k 0) as [->|]; [exact NB|]. intro X. apply (L (k - 1)); [lia|]. apply SH. rewrite Z.sub_add. exact X.
  - exists 0. rewrite moved_0. split; [lia|]. split; [reflexivity|]. split; [apply BL; reflexivity|intros; lia].
Qed.
Definition upper (s : list (Z * Z)) : Prop := forall i j, In (i, j) s -> 1 <= i /\ i <= j.
Lemma loop_shifted : forall fuel s, s <> [] -> upper s -> (headsum s <= fuel)%nat ->
  exists a m, 0 <= m /\ skew_loop fuel true s = Ok (moved 0 m (moved a a s)) /\ upper (moved a a s) /\ (exists j, In (1, j) (moved a a s)) /\
    blocked (moved a a s) m /\ forall k, 0 <= k < m -> ~ blocked (moved a a s) k.
Proof.
  induction fuel as [|fuel IH]; intros s N U F.
  { exfalso. destruct s as [|[x y] s]; [congruence|]. cbn [headsum fst snd] in F. destruct (U x y (or_introl eq_refl)). lia. }
  assert (P : all_pos s) by (intros i j H; destruct (U i j H); lia).
  destruct (forallb (fun p => 1 <? fst p) s) eqn:E1.
  - assert (E2 : forallb (fun p => 1 <? snd p) s = true). { apply forallb_forall. intros [i j] H. cbn [snd]. pose proof (all_first s E1 i j H). destruct (U i j H). apply Z.ltb_lt. lia. }
    assert (EQ : skew_loop (S fuel) true s = skew_loop fuel true (moved 1 1 s)).
    { assert (B : forallb (fun p => (1 <? fst p) && (1 <? snd p)) s = true) by (rewrite both_true, E1, E2; reflexivity). destruct s as [|p0 s0]; [congruence|]. cbn [skew_loop]. rewrite B. reflexivity. }
    assert (PM : all_pos (moved 1 1 s)) by (apply moved_pos; [exact P|right; split; [reflexivity|exact E1]|right; split; [reflexivity|exact E2]]).
    pose proof (headsum_moved 1 1 s N PM ltac:(lia) ltac:(lia) ltac:(lia)).
    destruct (IH (moved 1 1 s) (moved_nonempty 1 1 s N)) as (a & m & Hm & E & R); [|lia|].
    + intros i j H0. pose proof (proj1 (PM i j H0)). apply In_moved in H0. destruct (U _ _ H0). lia.
    + exists (1 + a), m. rewrite EQ. rewrite <- moved_moved. split; [exact Hm|]. split; [exact E|exact R].
  - apply first_true in E1; [|exact P]. destruct (loop_columns (S fuel) s P E1 F) as (m & Hm & E & B & L). exists 0, m. rewrite moved_0. split; [exact Hm|]. split; [exact E|]. split; [exact U|]. split; [exact E1|]. split; assumption.
Qed.

(* sorted() of pairs depends on the set only *)
Notation pkey := (fun p : Z * Z => [fst p; snd p]).
Lemma leb_pair : forall a b : Z * Z, lex_leb [fst a; snd a] [fst b; snd b] = true <-> fst a < fst b \/ (fst a = fst b /\ snd a <= snd b).
Proof.
  intros [a b] [c d]. cbn [fst snd lex_leb]. destruct (Z.ltb_spec a c); [split; [left; lia|reflexivity]|]. destruct (Z.ltb_spec c a); [split; [discriminate|lia]|]. destruct (Z.ltb_spec b d); [split; [right; lia|reflexivity]|]. destruct (Z.ltb_spec d b); [split; [discriminate|lia]|split; [right; lia|reflexivity]].
Qed.
Lemma leb_pair_false : forall a b : Z * Z, lex_leb [fst a; snd a] [fst b; snd b] = false <-> fst b < fst a \/ (fst a = fst b /\ snd b < snd a).
Proof. intros a b. rewrite <- not_true_iff_false, leb_pair. lia. Qed.
Lemma insert_comm : forall x y l, sort_insert pkey x (sort_insert pkey y l) = sort_insert pkey y (sort_insert pkey x l).
Proof.
  intros x y. assert (XY : forall l, lex_leb [fst x; snd x] [fst y; snd y] = true -> lex_leb [fst y; snd y] [fst x; snd x] = true -> x :: y :: l = y :: x :: l).
  { intros l A B. apply leb_pair in A. apply leb_pair in B. destruct x as [a b], y as [c d]. cbn [fst snd] in *. assert (a = c) by lia. assert (b = d) by lia. subst. reflexivity. }
  induction l as [|z l IH].
  - cbn [sort_insert]. destruct (lex_leb [fst x; snd x] [fst y; snd y]) eqn:A, (lex_leb [fst y; snd y] [fst x; snd x]) eqn:B; try reflexivity; [apply XY; reflexivity|]. apply leb_pair_false in A. apply leb_pair_false in B. lia.
  - cbn [sort_insert]. destruct (lex_leb [fst y; snd y] [fst z; snd z]) eqn:A, (lex_leb [fst x; snd x] [fst z; snd z]) eqn:B; cbn [sort_insert]; rewrite ?A, ?B.
    + destruct (lex_leb [fst x; snd x] [fst y; snd y]) eqn:C, (lex_leb [fst y; snd y] [fst x; snd x]) eqn:D; try reflexivity; [apply XY; reflexivity|]. apply leb_pair_false in C. apply leb_pair_false in D. lia.
    + destruct (lex_leb [fst x; snd x] [fst y; snd y]) eqn:C; [|reflexivity]. apply leb_pair in A. apply leb_pair in C. apply leb_pair_false in B. lia.
    + destruct (lex_leb [fst y; snd y] [fst x; snd x]) eqn:C; [|reflexivity]. apply leb_pair in B. apply leb_pair in C. apply leb_pair_false in A. lia.
    + rewrite IH. reflexivity.
Qed.
Lemma sort_perm : forall l m, Permutation l m -> sort_by pkey l = sort_by pkey m.
Proof. intros l m P. induction P as [|x l m P IH|x y l|l m n P IH Q IH2]; [reflexivity|unfold sort_by in *; cbn [fold_right]; rewrite IH; reflexivity|unfold sort_by; cbn [fold_right]; apply insert_comm|congruence]. Qed.
Lemma insert_In : forall x l z, In z (sort_insert pkey x l) <-> z = x \/ In z l.
Proof. intros x. induction l as [|y l IH]; intro z; cbn [sort_insert]; [cbn; intuition congruence|]. destruct (lex_leb [fst x; snd x] [fst y; snd y]); cbn [In]; [intuition congruence|]. rewrite IH. cbn. tauto. Qed.
Lemma sort_In : forall l z, In z (sort_by pkey l) <-> In z l.
Proof. unfold sort_by. induction l as [|x l IH]; intro z; [reflexivity|]. cbn [fold_right]. rewrite insert_In, IH. cbn [In]. intuition congruence. Qed.
Lemma sort_eq : forall l m, NoDup l -> NoDup m -> (sort_by pkey l = sort_by pkey m <-> forall i j, In (i, j) l <-> In (i, j) m).
Proof.
  intros l m N1 N2. split.
  - intros E i j. rewrite <- (sort_In l), <- (sort_In m), E. reflexivity.
  - intro H. apply sort_perm. apply NoDup_Permutation; [exact N1|exact N2|]. intros [i j]. apply H.
Qed.
Lemma moved_NoDup : forall a b s, NoDup s -> NoDup (moved a b s).
Proof. intros a b s N. apply FinFun.Injective_map_NoDup; [|exact N]. intros [x y] [z w] E. cbn [fst snd] in E. injection E as E1 E2. f_equal; lia. Qed.
