(* The word generators run to the end: which words they give. *)
From Coq Require Import List ZArith Lia Bool Permutation Arith.
From Verif Require Import PyBase M_Partitions M_Words S_Words M_Perm S_Perm M_Levels S_Levels L_Perm L_PermWord L_Levels L_LevelsInst P_Levels L_FominZeta L_PermActs M_PermGroth.
Import ListNotations.
Local Open Scope Z_scope.

Section DrainF.
Variables K L : Type.
Variable keqb : K -> K -> bool.
Hypothesis keqb_eq : forall a b, keqb a b = true <-> a = b.
Variable start : K -> res L.
Variable expand : K -> L -> res L.
Variable emptyb : L -> bool.
Variable Kok : K -> Prop.
Variable T : K -> nat -> L.
Hypothesis T_start : forall k, Kok k -> start k = Ok (T k 0%nat).
Hypothesis T_expand : forall k n, Kok k -> expand k (T k n) = Ok (T k (S n)).
Notation hget := (hget K L keqb).
Notation hnext := (hnext K L keqb start expand emptyb).
Notation hrun := (hrun K L keqb start expand emptyb).
Notation cok := (cok K L keqb emptyb T).
Notation xout := (xout K L emptyb T).
Notation xcur := (xcur K L T).
Definition good_cache (c : hcache K L) : Prop := forall k, Kok k -> exists n, cok c k n.
Lemma history_good : forall h, seqok K keqb [] [] h -> good_cache (h_cache (hrun h)).
Proof.
  intros h Hq k Hk. destruct (run_ok K L keqb keqb_eq start expand emptyb Kok T T_start T_expand h _ _ _ (empty_ok K L keqb emptyb Kok T) Hq) as (adv & _ & _ & _ & Hg & _).
  apply Hg. assumption.
Qed.
Lemma hnext_out : forall c x, h_status (snd (hnext c x)) = HRunning -> h_status x = HRunning -> length (h_out (snd (hnext c x))) = S (length (h_out x)) \/ False.
Proof.
  intros c x H Hx. left. unfold M_Levels.hnext in *.
  destruct (_ && _); [discriminate|]. destruct (hinner K L keqb start expand emptyb c (h_key x) (h_state x)) as [[[l s]|]|e]; cbn [snd h_status h_out] in *; try discriminate.
  rewrite app_length. cbn. lia.
Qed.
Lemma hdrain_ok : forall k b0 M, Kok k -> emptyb (T k M) = true -> forall fuel c x n m, (forall k', Kok k' -> exists n, cok c k' n) ->
  cok c k n -> xout k b0 x m -> xcur k x m n -> h_status x = HRunning -> (M < m + fuel)%nat ->
  exists c' m', hdrain K L hnext fuel c x = Ok (c', map (T k) (seq 0 m')) /\ good_cache c' /\
    (forall j, (j < m')%nat -> emptyb (T k j) = false) /\ (0 <= b0 -> Z.of_nat m' <= b0 + 1) /\ ((0 <= b0 /\ Z.of_nat m' = b0 + 1) \/ emptyb (T k m') = true).
Proof.
  intros k b0 M Hk HM. induction fuel as [|fuel IH]; intros c x n m Hall Hc Hx Hcur Hr Hf.
  - exfalso. destruct Hx as (_ & _ & Hne & _). rewrite Hne in HM by lia. discriminate.
  - cbn [hdrain]. destruct (hnext_ok K L keqb keqb_eq start expand emptyb Kok T T_start T_expand c k n b0 x m Hk Hc Hx Hcur Hr) as (n' & m' & C' & O' & X' & U').
    pose proof (hnext_out c x) as Ho. destruct (hnext c x) as [c' x']. cbn [fst snd] in *.
    assert (Hall' : good_cache c').
    { intros k' Hk'. destruct (keqb k' k) eqn:E.
      - apply keqb_eq in E. subst k'. exists n'. assumption.
      - assert (N : k' <> k) by (intro Q; apply keqb_eq in Q; congruence). destruct (Hall k' Hk') as (q & Q1 & Q2). exists q. split; [rewrite O' by assumption; assumption|assumption]. }
    destruct (h_status x') as [| |e] eqn:Es.
    + destruct (Ho eq_refl Hr) as [E|[]].
      assert (Em : m' = S m).
      { destruct X' as (_ & Eo' & _). destruct Hx as (_ & Eo & _). rewrite Eo', Eo, !length_lv in E. exact E. }
      subst m'. apply (IH c' x' n' (S m)); try assumption. lia.
    + exists c', m'. destruct X' as (_ & Eo' & Hne & _ & He & Hb & _). rewrite Eo'. split; [reflexivity|]. split; [exact Hall'|]. split; [exact Hne|]. split; [exact Hb|]. apply He. exact Es.
    + exfalso. destruct X' as (_ & _ & _ & Hfl & _). apply (Hfl e). assumption.
Qed.
Lemma fresh_ok : forall k length_bound M c, Kok k -> emptyb (T k M) = true -> good_cache c ->
  let b0 := match length_bound with None => -1 | Some b => b end in
  forall fuel, (M < fuel)%nat -> exists c' m', hdrain K L hnext fuel c (hfresh k length_bound) = Ok (c', map (T k) (seq 0 m')) /\ good_cache c' /\
    (forall j, (j < m')%nat -> emptyb (T k j) = false) /\ (0 <= b0 -> Z.of_nat m' <= b0 + 1) /\ ((0 <= b0 /\ Z.of_nat m' = b0 + 1) \/ emptyb (T k m') = true).
Proof.
  intros k lb M c Hk HM Hc b0 fuel Hf. destruct (Hc k Hk) as (n & Hn).
  apply (hdrain_ok k b0 M Hk HM fuel c (hfresh k lb) n 0%nat); try assumption; [|reflexivity|reflexivity].
  unfold L_Levels.xout, hfresh. cbn. repeat split; try reflexivity; try discriminate; intros; lia.
Qed.
End DrainF.

Section LevelWords.
  Variable ord : wlevel -> wlevel.
  Hypothesis ord_perm : forall l, Permutation (ord l) l.
  Variable T : nat -> wlevel.
  Variable R : list Z -> list Z -> Prop.
  Hypothesis T_in : forall n pi v, In (pi, v) (T n) <-> length v = n /\ R pi v.
  Hypothesis T_nodup : forall n, NoDup (T n).
  Hypothesis T_closed : forall n, T n = [] -> T (S n) = [].
  Lemma T_later : forall n m, T n = [] -> (n <= m)%nat -> T m = [].
  Proof. intros n m H L. induction L; [assumption|]. apply T_closed. assumption. Qed.
  Lemma level_words_ok : forall w m b0, (0 <= b0 -> Z.of_nat m <= b0 + 1) -> ((0 <= b0 /\ Z.of_nat m = b0 + 1) \/ wempty (T m) = true) ->
    NoDup (level_words ord w (map T (seq 0 m))) /\
    forall v, In v (level_words ord w (map T (seq 0 m))) <-> R w v /\ (0 <= b0 -> zlen v <= b0).
  Proof.
    intros w m b0 Hb He.
    assert (I : forall v j, In v (map snd (filter (fun x => peq w (fst x)) (ord (T j)))) <-> length v = j /\ R w v).
    { intros v j. rewrite in_map_iff. split.
      - intros ([pi u] & <- & Hx). apply filter_In in Hx. destruct Hx as [Hx E]. apply zlist_eqb_eq in E. cbn [fst snd] in *. subst pi.
        apply T_in. eapply Permutation_in; [apply ord_perm|exact Hx].
      - intros H. exists (w, v). split; [reflexivity|]. apply filter_In. split; [|apply zlist_eqb_eq; reflexivity]. eapply Permutation_in; [apply Permutation_sym, ord_perm|]. apply T_in. assumption. }
    assert (In1 : forall v a q, In v (level_words ord w (map T (seq a q))) <-> R w v /\ (a <= length v < a + q)%nat).
    { intros v a q. unfold level_words. rewrite in_flat_map. split.
      - intros (l & Hl & Hv). apply in_map_iff in Hl. destruct Hl as (j & <- & Hj). apply in_seq in Hj. apply I in Hv. destruct Hv as [<- Hv]. split; [exact Hv|lia].
      - intros [Hv Hj]. exists (T (length v)). split; [apply in_map, in_seq; lia|]. apply I. auto. }
    split.
    - generalize 0%nat. induction m as [|q IH] using (fun P H0 HS => nat_ind P H0 HS); [intros; constructor|].
      clear IH. clear Hb He. revert q. assert (G : forall q a, NoDup (level_words ord w (map T (seq a q)))).
      { induction q as [|q IH]; intro a; [constructor|]. cbn [seq map]. unfold level_words. cbn [flat_map]. apply NoDup_app_intro.
        - assert (N : NoDup (filter (fun x => peq w (fst x)) (ord (T a)))) by (apply NoDup_filter; eapply Permutation_NoDup; [apply Permutation_sym, ord_perm|apply T_nodup]).
          apply NoDup_map_inj_in; [|exact N]. intros [p1 u1] [p2 u2] H1 H2 E. apply filter_In in H1, H2. destruct H1 as [_ H1]. destruct H2 as [_ H2]. apply zlist_eqb_eq in H1, H2. cbn [fst snd] in *. congruence.
        - apply IH.
        - intros v H1 H2. apply I in H1. apply (In1 v (S a) q) in H2. lia. }
      intros q a. apply (G (S q) a).
    - intro v. rewrite In1. unfold zlen. destruct He as [[H1 H2]|H2].
      + split; intros [A B]; (split; [exact A|]); [intros _; lia|]. specialize (B H1). lia.
      + split; intros [A B]; (split; [exact A|]).
        * intro H0. specialize (Hb H0). lia.
        * split; [lia|]. destruct (Nat.lt_ge_cases (length v) (0 + m)) as [Hlt|Hge]; [exact Hlt|exfalso].
          assert (E : T (length v) = []) by (apply (T_later m); [destruct (T m); [reflexivity|discriminate]|lia]).
          assert (Q : In (w, v) (T (length v))) by (apply T_in; auto). rewrite E in Q. destruct Q.
  Qed.
End LevelWords.

(* ---- lengths of bounded words ---- *)
Lemma ascents_length : forall N v a, Forall (fun i => 1 <= i < N) (a :: v) -> zlen (a :: v) <= weak_ascents (a :: v) * (N - 1) + a.
Proof.
  intros N. induction v as [|b v IH]; intros a H.
  - apply Forall_inv in H. change (zlen [a]) with 1. cbn [weak_ascents]. lia.
  - pose proof (Forall_inv H) as Ha. apply Forall_inv_tail in H. pose proof (Forall_inv H) as Hb. specialize (IH b H).
    change (weak_ascents (a :: b :: v)) with ((if a <=? b then 1 else 0) + weak_ascents (b :: v)).
    replace (zlen (a :: b :: v)) with (1 + zlen (b :: v)) by (unfold zlen; cbn [length]; lia).
    destruct (a <=? b) eqn:E; [apply Z.leb_le in E|apply Z.leb_gt in E]; set (q := weak_ascents (b :: v)) in *; replace ((1 + q) * (N - 1)) with (q * (N - 1) + (N - 1)) by ring; replace ((0 + q) * (N - 1)) with (q * (N - 1)) by ring; set (r := q * (N - 1)) in *; clearbody r; cbv beta in *; lia.
Qed.
Lemma weak_ascents_nonneg : forall v, 0 <= weak_ascents v.
Proof. induction v as [|a v IH]; [cbn; lia|]. destruct v as [|b v]; [cbn; lia|]. change (weak_ascents (a :: b :: v)) with ((if a <=? b then 1 else 0) + weak_ascents (b :: v)). destruct (a <=? b); lia. Qed.
Lemma few_ascents_short : forall N n v, 0 <= n -> Forall (fun i => 1 <= i < N) v -> bounded few_ascents (Some n) v -> zlen v <= n * Z.max N 0.
Proof.
  intros N n v Hn Hv [->|H]; [unfold zlen; cbn [length]; nia|]. destruct v as [|a v]; [unfold zlen; cbn [length]; nia|].
  pose proof (ascents_length N v a Hv). pose proof (Forall_inv Hv). unfold few_ascents in H. pose proof (weak_ascents_nonneg (a :: v)).
  assert (weak_ascents (a :: v) * (N - 1) <= (n - 1) * (N - 1)) by (cbv beta in *; nia). cbv beta in *. replace (Z.max N 0) with N by lia. replace (n * N) with ((n - 1) * (N - 1) + (n - 1) + N) by ring. lia.
Qed.
Lemma no_peak_tail : forall a v, no_peak (a :: v) -> no_peak v.
Proof. intros a v H p x y z q E. apply (H (a :: p) x y z q). rewrite E. reflexivity. Qed.
Lemma up_length : forall N v x b, no_peak (x :: b :: v) -> x <= b -> Forall (fun i => 0 <= i < N) (b :: v) -> zlen (b :: v) <= N - b.
Proof.
  intros N. induction v as [|c v IH]; intros x b H Hx Hl.
  - apply Forall_inv in Hl. cbv beta in *. change (zlen [b]) with 1. lia.
  - assert (b < c) by (destruct (Z_le_gt_dec c b) as [Hc|Hc]; [exfalso; apply (H [] x b c v eq_refl); lia|lia]).
    apply no_peak_tail in H. specialize (IH b c H ltac:(lia) (Forall_inv_tail Hl)).
    replace (zlen (b :: c :: v)) with (1 + zlen (c :: v)) by (unfold zlen; cbn [length]; lia). lia.
Qed.
Lemma no_peak_length : forall N v a, no_peak (a :: v) -> Forall (fun i => 0 <= i < N) (a :: v) -> zlen (a :: v) <= a + 1 + N.
Proof.
  intros N. induction v as [|b v IH]; intros a H Hl.
  - apply Forall_inv in Hl. cbv beta in *. change (zlen [a]) with 1. lia.
  - replace (zlen (a :: b :: v)) with (1 + zlen (b :: v)) by (unfold zlen; cbn [length]; lia). pose proof (Forall_inv Hl) as Ha. pose proof (Forall_inv (Forall_inv_tail Hl)) as Hb. cbv beta in *.
    destruct (Z_le_gt_dec a b) as [C|C].
    + pose proof (up_length N v a b H C (Forall_inv_tail Hl)). lia.
    + specialize (IH b (no_peak_tail _ _ H) (Forall_inv_tail Hl)). lia.
Qed.
Lemma few_peaks_short : forall N n v, 0 <= n -> Forall (fun i => 0 <= i < N) v -> bounded few_peaks (Some n) v -> zlen v <= n * (2 * Z.max N 0).
Proof.
  intros N n v Hn Hv [->|H]; [unfold zlen; cbn [length]; nia|]. destruct H as (m & Hm & fs & <- & Hf & Hz).
  assert (G : zlen (concat fs) <= zlen fs * (2 * Z.max N 0)).
  { clear Hz Hm. induction fs as [|u fs IH]; [cbn; lia|]. cbn [concat] in *. apply Forall_app in Hv. destruct Hv as [Hu Hv]. specialize (IH Hv (Forall_inv_tail Hf)).
    rewrite zlen_app. replace (zlen (u :: fs)) with (1 + zlen fs) by (unfold zlen; cbn [length]; lia).
    assert (zlen u <= 2 * Z.max N 0); [|lia]. destruct u as [|a u]; [unfold zlen; cbn [length]; lia|]. pose proof (no_peak_length N u a (Forall_inv Hf) Hu). pose proof (Forall_inv Hu). cbv beta in *. lia. }
  nia.
Qed.
