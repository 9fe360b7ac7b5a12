(* Chains of partitions, counted by the numbers of rows in which consecutive members differ, and the
   symmetry of the numbers of reverse plane partitions by weight *)
From Coq Require Import List ZArith Lia Permutation Bool.
From Verif Require Import PyBase M_Partitions M_Rref M_Tableaux M_Strips M_RPP S_Partitions S_Tableaux S_Strips S_Semistandard S_RPP
  L_Partitions L_PartBasic L_PartMore L_PartEnum L_Tableaux L_Strips2 L_Strips3 L_Shape L_Semi L_Semi2 L_Semi3 L_Semi4 L_Semi5 L_Sym8 L_Count L_Count2 L_Count3 L_Sym1 L_Sym2 L_Sym4 L_RPP1 L_RPP2 L_RPP3 L_RPP4 L_RPP5 M_Semistandard.
Import ListNotations.
Local Open Scope Z_scope.

Lemma seq_sum : forall (f : nat -> Z) n, zs f (seq 0 (S n)) = f O + zs (fun i => f (S i)) (seq 0 n).
Proof. intros f n. cbn [seq]. rewrite zs_cons. f_equal. rewrite <- seq_shift, zs_map. reflexivity. Qed.
Lemma drops_sum : forall lm ks, length ks = length lm -> drops lm ks = zs (fun i => ind (row ks i <? row (map snd lm) i)) (seq 0 (length lm)).
Proof.
  induction lm as [|[l m] lm IH]; intros [|k ks] H; try discriminate; [reflexivity|]. cbn [drops length]. rewrite seq_sum. cbn [map snd]. change (row (k :: ks) 0) with k. change (row (m :: map snd lm) 0) with m. f_equal. apply IH. cbn in H. lia.
Qed.
Lemma rises_sum : forall lm ks, length ks = length lm -> rises lm ks = zs (fun i => ind (row (map fst lm) i <? row ks i)) (seq 0 (length lm)).
Proof.
  induction lm as [|[l m] lm IH]; intros [|k ks] H; try discriminate; [reflexivity|]. cbn [rises length]. rewrite seq_sum. cbn [map fst]. change (row (k :: ks) 0) with k. change (row (l :: map fst lm) 0) with l. f_equal. apply IH. cbn in H. lia.
Qed.
Lemma In_seqs : forall lm h ks, In ks (seqs lm h) <-> length ks = length lm /\
  (forall i, (i < length lm)%nat -> row (map fst lm) i <= row ks i <= row (map snd lm) i) /\ ((0 < length lm)%nat -> row ks 0 <= h) /\ (forall i, (S i < length lm)%nat -> row ks (S i) <= row ks i).
Proof.
  induction lm as [|[l m] lm IH]; intros h ks.
  - cbn [seqs length]. split.
    + intros [<-|[]]. split; [reflexivity|]. split; [lia|]. split; lia.
    + intros (H & _). destruct ks; [left; reflexivity|discriminate].
  - cbn [seqs]. rewrite in_flat_map. split.
    + intros (k & Hk & H). apply in_map_iff in H. destruct H as (ks' & <- & H). apply IH in H. destruct H as (A & B & C & D). apply In_zrange in Hk. split; [cbn; lia|]. split; [|split].
      * intros [|i] Hi; [cbn; lia|]. cbn [map fst snd]. change (row (k :: ks') (S i)) with (row ks' i). change (row (l :: map fst lm) (S i)) with (row (map fst lm) i). change (row (m :: map snd lm) (S i)) with (row (map snd lm) i). apply B. cbn in Hi. lia.
      * intros _. cbn. lia.
      * intros [|i] Hi; [change (row ks' 0 <= k); apply C; cbn in Hi; lia|]. change (row ks' (S i) <= row ks' i). apply D. cbn in Hi. lia.
    + intros (A & B & C & D). destruct ks as [|k ks]; [discriminate|]. exists k. split.
      * specialize (B 0%nat ltac:(cbn; lia)). specialize (C ltac:(cbn; lia)). cbn in B, C. apply In_zrange. lia.
      * apply in_map. apply IH. split; [cbn in A; lia|]. split; [intros i Hi; exact (B (S i) ltac:(cbn; lia))|]. split; [intro Hi; exact (D 0%nat ltac:(cbn; lia))|]. intros i Hi. exact (D (S i) ltac:(cbn; lia)).
Qed.
Lemma seqs_NoDup : forall lm h, NoDup (seqs lm h).
Proof.
  induction lm as [|[l m] lm IH]; intro h; [repeat constructor; intros []|]. cbn [seqs]. apply NoDup_flat_map; [apply NoDup_zrange| |].
  - intros k _. apply FinFun.Injective_map_NoDup; [intros a b E; congruence|apply IH].
  - intros x y z _ _ Hx Hy. apply in_map_iff in Hx, Hy. destruct Hx as (a & <- & _). destruct Hy as (b & E & _). congruence.
Qed.

(* the partitions between p and r *)
Definition le_rows (p r : list Z) : Prop := forall i, row p i <= row r i.
Definition pairs (p r : list Z) : list (Z * Z) := combine (padz p (length r)) r.
Definition btw (p r : list Z) : list (list Z) := map trim (seqs (pairs p r) (row r 0)).
Lemma le_length : forall p r, partition p -> partition r -> le_rows p r -> (length p <= length r)%nat.
Proof.
  intros p r Hp Hr L. destruct (Nat.le_gt_cases (length p) (length r)) as [X|X]; [assumption|]. exfalso. specialize (L (length r)). unfold row at 2 in L. rewrite nth_overflow in L by lia.
  assert (0 < row p (length r)) by (apply row_pos; [apply Hp|assumption]). lia.
Qed.
Lemma pairs_facts : forall p r, partition p -> partition r -> le_rows p r -> length (pairs p r) = length r /\ map fst (pairs p r) = padz p (length r) /\ map snd (pairs p r) = r.
Proof.
  intros p r Hp Hr L. pose proof (le_length p r Hp Hr L) as Len. pose proof (padz_length p (length r) Len) as PL. unfold pairs. split; [rewrite combine_length; lia|].
  split; [|]; [clear - PL|clear - PL]; revert PL; generalize (padz p (length r)) as a; intro a; revert r; induction a as [|x a IH]; intros [|y r] H; try discriminate; try reflexivity; cbn [combine map fst snd]; f_equal; apply IH; cbn in H; lia.
Qed.
Lemma decr_char : forall lm, (forall i, 0 <= row (map fst lm) i <= row (map snd lm) i) -> (forall i, row (map fst lm) (S i) <= row (map fst lm) i) -> (forall i, row (map snd lm) (S i) <= row (map snd lm) i) -> decr lm.
Proof.
  induction lm as [|[l m] lm IH]; intros A B C; [exact I|]. cbn [decr]. split; [exact (A O)|]. specialize (B O) as B0. specialize (C O) as C0. split; [destruct lm as [|[l' m'] lm]; cbn in *; lia|]. split; [destruct lm as [|[l' m'] lm]; cbn in *; lia|].
  apply IH; intro i; [exact (A (S i))|exact (B (S i))|exact (C (S i))].
Qed.
Lemma pairs_decr : forall p r, partition p -> partition r -> le_rows p r -> decr (pairs p r) /\ hm (pairs p r) <= row r 0.
Proof.
  intros p r Hp Hr L. destruct (pairs_facts p r Hp Hr L) as (E0 & E1 & E2). split.
  - apply decr_char; rewrite ?E1, ?E2; intro i; rewrite ?padz_row; [split; [apply partition_nonneg; assumption|apply L]|apply Hp|apply Hr].
  - destruct (pairs p r) as [|[l m] lm]; cbn [hm]; [apply partition_nonneg; assumption|]. cbn [map snd] in E2. rewrite <- E2. cbn. lia.
Qed.
Lemma In_btw : forall p r q, partition p -> partition r -> le_rows p r -> (In q (btw p r) <-> partition q /\ le_rows p q /\ le_rows q r).
Proof.
  intros p r q Hp Hr L. destruct (pairs_facts p r Hp Hr L) as (E0 & E1 & E2). unfold btw. rewrite in_map_iff. split.
  - intros (ks & <- & H). apply In_seqs in H. rewrite E0, E1, E2 in H. destruct H as (Lk & B & C & D).
    assert (R : forall i, row p i <= row ks i <= row r i).
    { intro i. destruct (Nat.lt_ge_cases i (length r)) as [X|X]; [specialize (B i X); rewrite padz_row in B; assumption|].
      pose proof (partition_nonneg p i Hp) as N. specialize (L i). unfold row in *. rewrite (nth_overflow r), (nth_overflow ks) in * by lia. lia. }
    assert (W : weak_partition ks).
    { split.
      - apply Forall_forall. intros x Hx. destruct (In_nth ks x 0 Hx) as (i & _ & <-). pose proof (partition_nonneg p i Hp). specialize (R i). unfold row in *. lia.
      - intro i. destruct (Nat.lt_ge_cases (S i) (length r)) as [X|X]; [apply D; assumption|]. assert (row ks (S i) = 0) by (apply nth_overflow; lia). pose proof (partition_nonneg p i Hp). specialize (R i). lia. }
    split; [apply weak_trim_partition; assumption|]. split; intro i; rewrite trim_row; apply R.
  - intros (Hq & L1 & L2). pose proof (le_length q r Hq Hr L2) as Lq. exists (padz q (length r)). split; [apply trim_padz; apply partition_trimmed; assumption|].
    apply In_seqs. rewrite E0, E1, E2. split; [apply padz_length; assumption|]. split; [intros i _; rewrite !padz_row; split; [apply L1|apply L2]|]. split; [intros _; rewrite padz_row; apply L2|]. intros i _. rewrite !padz_row. apply Hq.
Qed.
Lemma btw_NoDup : forall p r, partition p -> partition r -> le_rows p r -> NoDup (btw p r).
Proof.
  intros p r Hp Hr L. destruct (pairs_facts p r Hp Hr L) as (E0 & E1 & E2). unfold btw. apply NoDup_map_inj_in; [|apply seqs_NoDup].
  intros a b Ha Hb E. apply In_seqs in Ha, Hb. apply row_ext_len; [destruct Ha, Hb; congruence|]. intro i. rewrite <- (trim_row a), <- (trim_row b), E. reflexivity.
Qed.

(* number of rows in which q and r differ *)
Definition rd (r q : list Z) : Z := zs (fun i => ind (row q i <? row r i)) (seq 0 (length r)).
Lemma rd_bound : forall r q n, partition q -> (length r <= n)%nat -> rd r q = zs (fun i => ind (row q i <? row r i)) (seq 0 n).
Proof.
  intros r q n Hq H. unfold rd. replace n with (length r + (n - length r))%nat by lia. rewrite seq_app, zs_app. rewrite (zs_zero _ _ (seq (0 + length r) (n - length r))); [lia|].
  intros i Hi. apply in_seq in Hi. replace (row r i) with 0 by (symmetry; apply nth_overflow; lia). pose proof (partition_nonneg q i Hq). replace (row q i <? 0) with false by (symmetry; apply Z.ltb_ge; lia). reflexivity.
Qed.
Lemma two_sum : forall p r F, partition p -> partition r -> le_rows p r -> zs (fun q => F (rd r q) (rd q p)) (btw p r) = S2 (pairs p r) (row r 0) F.
Proof.
  intros p r F Hp Hr L. destruct (pairs_facts p r Hp Hr L) as (E0 & E1 & E2). unfold btw, S2. rewrite zs_map. apply zs_ext. intros ks Hk.
  assert (Hq : In (trim ks) (btw p r)) by (apply in_map; assumption). apply In_btw in Hq; [|assumption|assumption|assumption]. destruct Hq as (Hq & _ & L2). apply In_seqs in Hk. destruct Hk as (Lk & _).
  rewrite drops_sum, rises_sum by assumption. rewrite E0, E1, E2. f_equal.
  - unfold rd. apply zs_ext. intros i _. rewrite trim_row. reflexivity.
  - rewrite (rd_bound (trim ks) p (length r) Hp (le_length _ _ Hq Hr L2)). apply zs_ext. intros i _. rewrite trim_row, padz_row. reflexivity.
Qed.
Lemma two_swap : forall p r F, partition p -> partition r -> le_rows p r -> zs (fun q => F (rd r q) (rd q p)) (btw p r) = zs (fun q => F (rd q p) (rd r q)) (btw p r).
Proof.
  intros p r F Hp Hr L. destruct (pairs_decr p r Hp Hr L) as [D H]. rewrite (two_sum p r F Hp Hr L), (two_sum p r (fun a b => F b a) Hp Hr L). apply two_step; assumption.
Qed.

(* chains *)
Section Chains.
  Variable p : list Z.
  Hypothesis Hp : partition p.
  Fixpoint rc (l : list Z) (r : list Z) : Z :=
    match l with
    | [] => ind (zlist_eqb r p)
    | a :: l' => zs (fun q => if rd r q =? a then rc l' q else 0) (btw p r)
    end.
  Lemma le_trans_rows : forall a b c, le_rows a b -> le_rows b c -> le_rows a c.
  Proof. intros a b c H1 H2 i. specialize (H1 i). specialize (H2 i). lia. Qed.
  Lemma rc_swap : forall a b l r, partition r -> le_rows p r -> rc (a :: b :: l) r = rc (b :: a :: l) r.
  Proof.
    assert (E : forall a b l r, partition r -> le_rows p r -> rc (a :: b :: l) r = zs (fun k => zs (fun q => (if (rd r q =? a) && (rd q k =? b) then 1 else 0) * rc l k) (btw k r)) (btw p r)).
    { intros a b l r Hr L. cbn [rc].
      transitivity (zs (fun q => zs (fun k => (if (rd r q =? a) && (rd q k =? b) then 1 else 0) * rc l k) (btw p q)) (btw p r)).
      - apply zs_ext. intros q Hq. destruct (rd r q =? a) eqn:E.
        + apply zs_ext. intros k _. cbn [andb]. destruct (rd q k =? b); lia.
        + symmetry. apply zs_zero. intros k _. cbn [andb]. lia.
      - apply zs_exchange.
        + apply btw_NoDup; assumption.
        + intros q Hq. apply In_btw in Hq; [|assumption|assumption|assumption]. apply btw_NoDup; tauto.
        + apply btw_NoDup; assumption.
        + intros q Hq. apply In_btw in Hq; [|assumption|assumption|assumption]. apply btw_NoDup; tauto.
        + intros q k. split.
          * intros [H1 H2]. apply In_btw in H1; [|assumption|assumption|assumption]. destruct H1 as (P1 & L1 & M1). apply In_btw in H2; [|assumption|assumption|assumption]. destruct H2 as (P2 & L2 & M2).
            split; apply In_btw; try assumption; try (split; [assumption|]; split; try assumption); apply (le_trans_rows k q r); assumption.
          * intros [H1 H2]. apply In_btw in H1; [|assumption|assumption|assumption]. destruct H1 as (P1 & L1 & M1). apply In_btw in H2; [|assumption|assumption|assumption]. destruct H2 as (P2 & L2 & M2).
            assert (le_rows p q) by (apply (le_trans_rows p k q); assumption). split; apply In_btw; try assumption; (split; [assumption|]; split; assumption). }
    intros a b l r Hr L. rewrite !E by assumption. apply zs_ext. intros k Hk. apply In_btw in Hk; [|assumption|assumption|assumption]. destruct Hk as (Pk & _ & Lk).
    rewrite (two_swap k r (fun x y => (if (x =? a) && (y =? b) then 1 else 0) * rc l k) Pk Hr Lk). apply zs_ext. intros q _. rewrite andb_comm. reflexivity.
  Qed.
  Lemma rc_perm : forall l m, Permutation l m -> forall r, partition r -> le_rows p r -> rc l r = rc m r.
  Proof.
    intros l m P. induction P as [|a l m P IH|a b l|l m n P1 IH1 P2 IH2]; intros r Hr L; [reflexivity| | |].
    - cbn [rc]. apply zs_ext. intros q Hq. apply In_btw in Hq; [|assumption|assumption|assumption]. destruct (rd r q =? a); [|reflexivity]. apply IH; tauto.
    - apply rc_swap; assumption.
    - rewrite IH1 by assumption. apply IH2; assumption.
  Qed.
End Chains.

(* columns of a skew shape *)
Lemma incl_rows : forall a b, partition a -> partition b -> ((forall c, dc false a c -> dc false b c) <-> le_rows (transpose a) (transpose b)).
Proof.
  intros a b Ha Hb. pose proof (transpose_partition a (partition_weak _ Ha)) as Ta. pose proof (transpose_partition b (partition_weak _ Hb)) as Tb.
  unfold le_rows. rewrite <- (part_incl false (transpose a) (transpose b) Ta Tb). split; intros H [i j] Hc.
  - apply transpose_dc; [assumption|]. apply H. apply transpose_dc in Hc; [|assumption]. exact Hc.
  - specialize (H (j, i)). rewrite !transpose_dc in H by assumption. apply H. exact Hc.
Qed.
Lemma cols_rd : forall mu nu d, partition mu -> partition nu -> (forall b, In b d <-> dc false mu b /\ ~ dc false nu b) -> distinct (map snd d) = rd (transpose mu) (transpose nu).
Proof.
  intros mu nu d Hm Hn H. pose proof (transpose_partition mu (partition_weak _ Hm)) as Tm. pose proof (transpose_partition nu (partition_weak _ Hn)) as Tn.
  set (P := fun j => exists i, dc false mu (i, j) /\ ~ dc false nu (i, j)).
  apply (counts_unique _ P).
  - apply distinct_counts. intro j. rewrite in_map_iff. split.
    + intros ([i j'] & E & Hb). cbn [snd] in E. subst j'. apply H in Hb. exists i. exact Hb.
    + intros [i Hb]. exists (i, j). split; [reflexivity|]. apply H. exact Hb.
  - unfold rd. set (f := fun i => row (transpose nu) i <? row (transpose mu) i).
    exists (map (fun i => Z.of_nat i + 1) (filter f (seq 0 (length (transpose mu))))). split; [|split].
    + apply FinFun.Injective_map_NoDup; [intros x y E; lia|]. apply NoDup_filter, seq_NoDup.
    + intro j. rewrite in_map_iff. unfold P. split.
      * intros (i & <- & Hi). apply filter_In in Hi. destruct Hi as [_ Hi]. unfold f in Hi. apply Z.ltb_lt in Hi. exists (row (transpose mu) i).
        assert (A : dc false (transpose mu) (Z.of_nat i + 1, row (transpose mu) i)).
        { unfold dc. cbn. unfold cell. replace (Z.to_nat (Z.of_nat i + 1 - 1)) with i by lia. pose proof (partition_nonneg _ i Tn). cbn [fst snd]. lia. }
        assert (B : ~ dc false (transpose nu) (Z.of_nat i + 1, row (transpose mu) i)).
        { unfold dc. cbn. unfold cell. replace (Z.to_nat (Z.of_nat i + 1 - 1)) with i by lia. cbn [fst snd]. lia. }
        rewrite transpose_dc in A, B by assumption. split; assumption.
      * intros (i & A & B). change (i, j) with (snd (j, i), fst (j, i)) in A, B. rewrite <- transpose_dc in A, B by assumption.
        assert (A' : 1 <= j /\ 1 <= i <= row (transpose mu) (Z.to_nat (j - 1))) by exact A. assert (B' : ~ (1 <= j /\ 1 <= i <= row (transpose nu) (Z.to_nat (j - 1)))) by exact B.
        exists (Z.to_nat (j - 1)). split; [lia|]. apply filter_In. split; [|unfold f; apply Z.ltb_lt; lia]. apply in_seq. split; [lia|]. cbn. destruct (Nat.lt_ge_cases (Z.to_nat (j - 1)) (length (transpose mu))) as [X|X]; [assumption|].
        unfold row in A'. rewrite nth_overflow in A' by assumption. lia.
    + rewrite map_length. symmetry. apply (zs_indicator _ f).
Qed.

(* weights *)
Section Weights.
  Variable ord : list (list Z) -> list (list Z).
  Hypothesis ord_perm : forall l, Permutation (ord l) l.
  Variable lam : list Z.
  Hypothesis Hl : partition lam.
  Lemma chain_counts : forall alpha mu w, okS false lam mu -> (forall m, 1 <= m -> w m = wt alpha m) ->
    counts (pweighted false al_plain lam (2 * Z.of_nat (length alpha)) mu w) (rc (transpose lam) (rev alpha) (transpose mu)).
  Proof.
    pose proof (transpose_partition lam (partition_weak _ Hl)) as Tl.
    intro alpha. induction alpha as [|a alpha IH] using rev_ind; intros mu w Om W.
    - cbn [rev rc length]. destruct (zlist_eqb (transpose mu) (transpose lam)) eqn:E.
      + apply zlist_eqb_eq in E. assert (mu = lam) by (rewrite <- (transpose_involutive mu), <- (transpose_involutive lam), E by (try apply Om; assumption); reflexivity). subst mu.
        exists [[]]. split; [repeat constructor; intros []|]. split; [|reflexivity]. intro T. split.
        * intros [<-|[]]. split; [apply (pf_equal false al_plain lam Hl); reflexivity|]. intros m Hm. rewrite W, wt_nil by assumption. reflexivity.
        * intros [F _]. apply (pf_equal false al_plain lam Hl) in F. left. auto.
      + apply counts_empty. intros T [F _]. apply pf_zero in F; [|assumption]. subst mu. rewrite zlist_eqb_refl in E. discriminate.
    - rewrite rev_app_distr. cbn [rev app rc]. set (k := 2 * Z.of_nat (length (alpha ++ [a]))). assert (Lk : length (alpha ++ [a]) = S (length alpha)) by (rewrite app_length; cbn; lia).
      assert (Hk : 1 <= k) by (subst k; lia). pose proof Om as [Pm Inc]. cbn in Pm. pose proof (transpose_partition mu (partition_weak _ Pm)) as Tm.
      destruct (vertical_spec ord ord_perm mu lam Pm Hl) as (r & _ & Hs & _). specialize (Hs Inc). pose proof (strips_layers false lam lam mu r (fun b H => H) Hs) as L.
      destruct Hs as (Nk & Keys & _). pose proof (proj1 (incl_rows lam mu Hl Pm) Inc) as Lr.
      set (g := fun nu => if rd (transpose mu) (transpose nu) =? a then rc (transpose lam) (rev alpha) (transpose nu) else 0).
      assert (Hok : forall s : list Z * list box, okdb alb_plain k (snd s) = true) by (intro s; apply (okdb_spec al_plain alb_plain alb_plain_spec); subst k; apply okd_plain; lia).
      refine (counts_ext _ _ _ _ _ (fun T => iff_refl _) _ (half_pcount false al_plain lam Hl alb_plain alb_plain_spec k mu r w (fun s => g (fst s)) Hk Om L _)).
      { transitivity (zs g (map fst r)); [rewrite zs_map; apply zs_ext; intros s _; rewrite Hok; reflexivity|].
        transitivity (zs (fun q => if rd (transpose mu) q =? a then rc (transpose lam) (rev alpha) q else 0) (map transpose (map fst r))); [symmetry; exact (zs_map _ _ transpose (fun q => if rd (transpose mu) q =? a then rc (transpose lam) (rev alpha) q else 0) (map fst r))|].
        apply zs_same.
        - apply NoDup_map_inj_in; [|assumption]. intros x y Hx Hy E. apply Keys in Hx, Hy. rewrite <- (transpose_involutive x), <- (transpose_involutive y), E by (first [apply (proj1 (proj1 Hx))|apply (proj1 (proj1 Hy))]). reflexivity.
        - apply btw_NoDup; assumption.
        - intro q. rewrite (In_btw _ _ q Tl Tm Lr), in_map_iff. split.
          + intros (x & <- & Hx). apply Keys in Hx. destruct Hx as [[Px Ix] Jx]. cbn in Px. split; [apply transpose_partition, partition_weak; assumption|]. split; apply incl_rows; assumption.
          + intros (Pq & L1 & L2). pose proof (transpose_partition q (partition_weak _ Pq)) as Tq. exists (transpose q). split; [apply transpose_involutive; assumption|]. apply Keys.
            rewrite <- (transpose_involutive q Pq) in L1, L2. pose proof (proj2 (incl_rows lam (transpose q) Hl Tq) L1) as I1. pose proof (proj2 (incl_rows (transpose q) mu Tq Pm) L2) as I2. split; [split; assumption|assumption]. }
      intros nu d Hs _. cbn [fst]. destruct (proj1 (proj2 L) nu d Hs) as (Pn & In1 & Nd & Cd). cbn in Pn.
      assert (On : okS false lam nu) by (apply Keys; apply (in_map fst) in Hs; exact Hs).
      unfold g. rewrite <- (cols_rd mu nu d Pm Pn Cd).
      apply (counts_ext _ (pweighted false al_plain lam (2 * Z.of_nat (length alpha)) nu (fun m => w m - ind (Z.abs (letter k) =? m) * lines k d)) _ (if distinct (map snd d) =? a then rc (transpose lam) (rev alpha) (transpose nu) else 0)); [|reflexivity|].
      + intro T. unfold pweighted. rewrite (pf_skip false al_plain lam (k - 1) nu T); [replace (k - 1 - 1) with (2 * Z.of_nat (length alpha)) by lia; reflexivity|subst k; lia|].
        intros b X. unfold al_plain in X. subst k. rewrite letter_odd in X. lia.
      + assert (Lw : forall m, 1 <= m -> w m - ind (Z.abs (letter k) =? m) * lines k d = wt (alpha ++ [a]) m - ind (Z.of_nat (S (length alpha)) =? m) * distinct (map snd d)).
        { intros m Hm1. rewrite W by assumption. subst k. rewrite letter_even, Lk. replace (Z.abs (Z.of_nat (S (length alpha)))) with (Z.of_nat (S (length alpha))) by lia. unfold lines. rewrite even_2n'. reflexivity. }
        destruct (distinct (map snd d) =? a) eqn:E.
        * apply Z.eqb_eq in E. apply IH; [assumption|]. intros m Hm1. rewrite Lw by assumption. unfold wt. replace (1 <=? m) with true by (symmetry; apply Z.leb_le; lia). rewrite row_snoc.
          destruct (Z.to_nat (m - 1) <? length alpha)%nat eqn:E1.
          -- apply Nat.ltb_lt in E1. replace (Z.of_nat (S (length alpha)) =? m) with false by (symmetry; apply Z.eqb_neq; lia). cbn [ind]. lia.
          -- apply Nat.ltb_ge in E1. replace (row alpha (Z.to_nat (m - 1))) with 0 by (symmetry; apply nth_overflow; assumption).
             destruct (Z.to_nat (m - 1) =? length alpha)%nat eqn:E2.
             ++ apply Nat.eqb_eq in E2. replace (Z.of_nat (S (length alpha)) =? m) with true by (symmetry; apply Z.eqb_eq; lia). cbn [ind]. lia.
             ++ apply Nat.eqb_neq in E2. replace (Z.of_nat (S (length alpha)) =? m) with false by (symmetry; apply Z.eqb_neq; lia). cbn [ind]. lia.
        * apply Z.eqb_neq in E. apply counts_empty. intros T [F O]. specialize (O (Z.of_nat (S (length alpha))) ltac:(lia)). rewrite Lw in O by lia. rewrite Z.eqb_refl in O. cbn [ind] in O.
          rewrite (pweight_above false al_plain lam (2 * Z.of_nat (length alpha)) nu T (Z.of_nat (S (length alpha))) F) in O by lia.
          unfold wt in O. replace (1 <=? Z.of_nat (S (length alpha))) with true in O by (symmetry; apply Z.leb_le; lia). rewrite row_snoc in O. replace (Z.to_nat (Z.of_nat (S (length alpha)) - 1)) with (length alpha) in O by lia.
          rewrite Nat.ltb_irrefl, Nat.eqb_refl in O. lia.
  Qed.
  Lemma rpp_symmetric : forall alpha beta mu, partition mu -> Permutation alpha beta ->
    exists N, counts (pweighted false al_plain lam (2 * Z.of_nat (length alpha)) mu (wt alpha)) N /\ counts (pweighted false al_plain lam (2 * Z.of_nat (length alpha)) mu (wt beta)) N.
  Proof.
    intros alpha beta mu Pm P. destruct (okS_dec false lam Hl mu Pm) as [O|O].
    - exists (rc (transpose lam) (rev alpha) (transpose mu)). split; [apply chain_counts; [assumption|reflexivity]|].
      rewrite (Permutation_length P). rewrite (rc_perm (transpose lam) (transpose_partition lam (partition_weak _ Hl)) (rev alpha) (rev beta)).
      + apply chain_counts; [assumption|reflexivity].
      + rewrite <- !Permutation_rev. assumption.
      + apply transpose_partition, partition_weak. assumption.
      + apply incl_rows; [assumption|assumption|apply O].
    - exists 0. split; apply counts_empty; intros T [F _]; apply O, F.
  Qed.
End Weights.
