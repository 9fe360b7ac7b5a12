From Coq Require Import List ZArith Bool Lia Permutation Sorted.
From Verif Require Import PyBase M_Partitions S_Partitions L_PartMore M_Perm M_Bruhat S_Perm L_Words2 L_Perm L_PermLen L_PermWord L_PermMisc M_Grass S_Grass L_Grass1.
From Verif Require L_PartBasic L_Partitions L_Tableaux P_Partitions.
Import ListNotations.
Local Open Scope Z_scope.

Definition positive (w : list Z) : Prop := Forall (fun x => 0 < x) w.
Lemma pos_call : forall w i, positive w -> 0 < i -> 0 < pcall w i.
Proof. intros w i Pw Hi. destruct (Z_le_gt_dec i (zlen w)) as [h|h]; [|rewrite pcall_out by lia; exact Hi]. rewrite pcall_pos by lia. unfold positive in Pw. rewrite Forall_forall in Pw. apply Pw. apply nthz_In. lia. Qed.
Lemma pos_word : forall w, (forall i, 1 <= i <= zlen w -> 0 < pcall w i) -> positive w.
Proof. intros w H. apply Forall_forall. intros x Hx. apply In_nthz in Hx. destruct Hx as (i & Hi & <-). specialize (H (i + 1) ltac:(lia)). rewrite pcall_pos in H by lia. replace (i + 1 - 1) with i in H by lia. exact H. Qed.
Lemma pos_back : forall w i, positive w -> 0 < pcall w i -> 0 < i.
Proof. intros w i Pw H. destruct (Z.lt_total i 0) as [L|[->|L]]; [|rewrite pcall_zero in H; lia|exact L]. pose proof (pos_call w (- i) Pw ltac:(lia)) as K. rewrite pcall_odd in K. lia. Qed.
Lemma pos_inv : forall w, canonical w -> positive w -> positive (invp w).
Proof. intros w Hw Pw. apply pos_word. intros i Hi. apply (pos_back w _ Pw). rewrite invp_call2 by apply Hw. lia. Qed.

Lemma get_grass : forall mu, Forall (fun x => 0 <= x) mu -> exists w, get_grassmannian mu = Ok w /\ canonical w /\ positive w /\ invp w = gperm mu /\ perm_shape w = Ok (psort mu true).
Proof.
  intros mu F. destruct (gperm_ok mu F) as (C & P & E). exists (invp (gperm mu)). pose proof (invp_canonical _ (proj1 C)) as Ci. assert (II : invp (invp (gperm mu)) = gperm mu) by (apply invp_invp; exact C).
  split; [exact E|]. split; [exact Ci|]. split; [apply pos_inv; assumption|]. split; [exact II|]. rewrite perm_shape_ok; [rewrite II, gperm_shape by exact F; reflexivity|exact Ci|rewrite II; exact P].
Qed.
Lemma sorted_rev_partition : forall mu, partition mu -> sorted mu = rev mu.
Proof.
  intros mu M. assert (E : psort mu false = mu). { apply sorted_unique; [apply L_PartBasic.psort_sorted|apply partition_ge; exact M|apply L_PartBasic.psort_perm]. } unfold psort in E. rewrite <- E at 2. rewrite rev_involutive. reflexivity.
Qed.
Lemma psort_id : forall mu, partition mu -> psort mu true = mu.
Proof.
  intros mu M. apply psort_char; [|exact M|].
  - destruct M as [F _]. eapply Forall_impl; [|exact F]. cbv beta. intros; lia.
  - rewrite L_PartBasic.filter_all; [apply Permutation_refl|]. intros x Hx. destruct M as [F _]. rewrite Forall_forall in F. specialize (F x Hx). lia.
Qed.
Lemma partition_nonneg : forall mu, partition mu -> Forall (fun x => 0 <= x) mu.
Proof. intros mu [F _]. eapply Forall_impl; [|exact F]. cbv beta. intros; lia. Qed.

(* every v with at most one descent, not fixing 1 unless trivial, arises *)
Lemma grass_onto : forall w, canonical w -> positive w -> (forall i, 1 <= i -> pcall (invp w) i < pcall (invp w) (i + 1)) \/ (exists k, 1 <= k /\ pcall (invp w) 1 <> 1 /\ ascents_except k (pcall (invp w))) ->
  exists mu, partition mu /\ get_grassmannian mu = Ok w.
Proof.
  intros w Hw Pw H. pose proof (invp_canonical w (proj1 Hw)) as Hv. pose proof (pos_inv w Hw Pw) as Pv. set (v := invp w) in *.
  assert (G : exists mu, partition mu /\ v = gperm mu).
  { destruct H as [H|(k & Hk & H1 & H)].
    - exists []. split; [split; [constructor|intros [|i]; unfold row; cbn; lia]|]. destruct (gperm_ok [] (Forall_nil _)) as (C0 & P0 & _). apply (increasing_unique v (gperm []) 0 Hv C0 Pv P0); [lia| | |].
      + intros i Hi. lia.
      + intros i Hi. apply H. lia.
      + intros i Hi. apply gperm_ascents; [constructor|lia|unfold zlen; cbn; lia].
    - set (s := map (fun i => pcall v i - i) (zrange 1 (k + 1))). assert (Ls : zlen s = k) by (unfold s; rewrite zlen_map, zlen_zrange; lia).
      assert (Ns : forall i, 0 <= i < k -> nthz s i = pcall v (i + 1) - (i + 1)). { intros i Hi. unfold s. rewrite (nthz_map (fun i => pcall v i - i)) by (rewrite zlen_zrange; lia). rewrite nthz_zrange by lia. replace (1 + i) with (i + 1) by lia. reflexivity. }
      assert (Ss : StronglySorted Z.le s).
      { assert (A : forall m a : Z, 0 <= m -> 1 <= a -> a + m = k + 1 -> StronglySorted Z.le (map (fun i => pcall v i - i) (zrange a (k + 1))) /\ forall x, In x (map (fun i => pcall v i - i) (zrange a (k + 1))) -> pcall v a - a <= x).
        { intros m a Hm. revert a. apply (natlike_ind (fun m => forall a, 1 <= a -> a + m = k + 1 -> StronglySorted Z.le (map (fun i => pcall v i - i) (zrange a (k + 1))) /\ forall x, In x (map (fun i => pcall v i - i) (zrange a (k + 1))) -> pcall v a - a <= x)); [| |exact Hm].
          - intros a Ha E. rewrite zrange_nil by lia. split; [constructor|intros x []].
          - intros d Hd IH a Ha E. rewrite zrange_cons by lia. cbn [map]. destruct (IH (a + 1) ltac:(lia) ltac:(lia)) as [S1 L1]. assert (L2 : forall x, In x (map (fun i => pcall v i - i) (zrange (a + 1) (k + 1))) -> pcall v a - a <= x).
            { intros x Hx. specialize (L1 x Hx). destruct (Z.eq_dec a k) as [->|n]; [rewrite zrange_nil in Hx by lia; destruct Hx|]. specialize (H a Ha n). lia. }
            split; [constructor; [exact S1|apply Forall_forall; exact L2]|]. intros x [<-|Hx]; [lia|apply L2; exact Hx]. }
        apply (A k 1); lia. }
      assert (Ps : Forall (fun x => 0 < x) s).
      { apply Forall_forall. intros x Hx. apply In_nthz in Hx. destruct Hx as (i & Hi & <-). rewrite Ls in Hi. pose proof (le_sorted_nth s 0 i Ss ltac:(lia) ltac:(lia)) as K. rewrite (Ns 0) in K by lia. replace (0 + 1) with 1 in K by lia. pose proof (pos_call v 1 Pv ltac:(lia)). lia. }
      assert (M : partition (rev s)).
      { apply ge_partition; [|apply Forall_rev; exact Ps]. clear - Ss. induction Ss as [|a s Ss IH F]; [constructor|]. cbn [rev].
        assert (B : forall l a, StronglySorted Z.ge l -> Forall (fun x => a <= x) l -> StronglySorted Z.ge (l ++ [a])).
        { clear. induction l as [|b l IH]; intros a S F; [repeat constructor|]. inversion S as [|? ? S1 S2]; subst. inversion F as [|? ? F1 F2]; subst. cbn [app]. constructor; [apply IH; assumption|]. apply Forall_app. split; [exact S2|constructor; [lia|constructor]]. }
        apply B; [exact IH|apply Forall_rev; exact F]. }
      exists (rev s). split; [exact M|]. pose proof (partition_nonneg _ M) as NN. assert (Lr : zlen (rev s) = k) by (unfold zlen in *; rewrite rev_length; exact Ls).
      assert (So : sorted (rev s) = s) by (rewrite sorted_rev_partition by exact M; apply rev_involutive).
      destruct (gperm_ok (rev s) NN) as (C0 & P0 & _). apply (increasing_unique v (gperm (rev s)) k Hv C0 Pv P0); [lia| | |].
      + intros i Hi. rewrite gperm_front by (try exact NN; lia). rewrite So, Ns by lia. replace (i - 1 + 1) with i by lia. lia.
      + intros i Hi. apply H; lia.
      + intros i Hi. apply gperm_ascents; [exact NN|lia|lia]. }
  destruct G as (mu & M & E). exists mu. split; [exact M|]. destruct (gperm_ok mu (partition_nonneg mu M)) as (_ & _ & E2). rewrite E2, <- E. unfold v. rewrite invp_invp by exact Hw. reflexivity.
Qed.
Lemma grass_form : forall mu w, partition mu -> get_grassmannian mu = Ok w ->
  (forall i, 1 <= i -> pcall (invp w) i < pcall (invp w) (i + 1)) \/ (exists k, 1 <= k /\ pcall (invp w) 1 <> 1 /\ ascents_except k (pcall (invp w))).
Proof.
  intros mu w M E. pose proof (partition_nonneg mu M) as NN. destruct (get_grass mu NN) as (w' & E' & C & P & I & S). rewrite E in E'. injection E' as <-. rewrite I. destruct mu as [|a m0] eqn:Em.
  - left. intros i Hi. apply gperm_ascents; [exact NN|exact Hi|unfold zlen; cbn; lia].
  - right. rewrite <- Em in *. exists (zlen mu). assert (L : 1 <= zlen mu) by (rewrite Em, zlen_cons; pose proof (zlen_nonneg _ m0); lia).
    split; [exact L|]. split; [|intros i Hi Hn; apply gperm_ascents; assumption]. rewrite gperm_front by (try exact NN; lia).
    assert (K : In (nthz (sorted mu) (1 - 1)) mu). { apply (Permutation_in _ (Permutation_sym (L_Tableaux.sorted_perm mu))). apply nthz_In. unfold zlen in *. rewrite <- (Permutation_length (L_Tableaux.sorted_perm mu)). lia. }
    destruct M as [F _]. rewrite Forall_forall in F. specialize (F _ K). lia.
Qed.
Lemma is_grass_ok : forall w, canonical w -> positive w -> exists mu v, partition mu /\ get_grassmannian mu = Ok v /\ canonical v /\ is_grassmannian w = Ok (peq v w).
Proof.
  intros w Hw Pw. unfold is_grassmannian. rewrite perm_shape_ok by (try exact Hw; apply pos_inv; assumption). cbn [rbind]. set (mu := psort (codel (invp w)) true). destruct (psort_partition_of _ (codel_nonneg (invp w))) as [M _]. fold mu in M.
  destruct (get_grass mu (partition_nonneg _ M)) as (v & E & C & _). exists mu, v. rewrite E. cbn [rbind]. split; [exact M|]. split; [reflexivity|]. split; [exact C|]. reflexivity.
Qed.
Lemma is_grass_get : forall mu w, partition mu -> get_grassmannian mu = Ok w -> is_grassmannian w = Ok true /\ perm_shape w = Ok mu /\ canonical w /\ positive w.
Proof.
  intros mu w M E. pose proof (partition_nonneg mu M) as NN. destruct (get_grass mu NN) as (w' & E' & C & P & I & S). rewrite E in E'. injection E' as <-. rewrite psort_id in S by exact M. split; [|split; [exact S|split; assumption]].
  unfold is_grassmannian. rewrite S. cbn [rbind]. rewrite E. cbn [rbind]. f_equal. unfold peq. apply zlist_eqb_eq. reflexivity.
Qed.
Lemma rmap_ok2 : forall (A B : Type) (f : A -> res B) (l : list A), (forall a, In a l -> exists b, f a = Ok b) -> exists m, rmap f l = Ok m /\ (forall b, In b m <-> exists a, In a l /\ f a = Ok b).
Proof.
  induction l as [|a l IH]; intro H; [exists []; split; [reflexivity|]; intro b; split; [intros []|intros (a & [] & _)]|]. destruct (H a (or_introl eq_refl)) as [b Eb]. destruct IH as (m & Em & Hm); [intros; apply H; right; assumption|].
  exists (b :: m). split; [cbn [rmap]; rewrite Eb; cbn [rbind]; rewrite Em; reflexivity|]. intro c. split.
  - intros [<-|Hc]; [exists a; split; [left; reflexivity|exact Eb]|]. apply Hm in Hc. destruct Hc as (x & Hx & Ex). exists x. split; [right; exact Hx|exact Ex].
  - intros (x & [<-|Hx] & Ex); [left; congruence|]. right. apply Hm. exists x. split; assumption.
Qed.
Lemma rmap_NoDup : forall (A B : Type) (f : A -> res B) (l : list A) m, NoDup l -> (forall a a' b, In a l -> In a' l -> f a = Ok b -> f a' = Ok b -> a = a') -> rmap f l = Ok m -> NoDup m.
Proof.
  induction l as [|a l IH]; intros m N H E; [cbn in E; injection E as <-; constructor|]. cbn [rmap] in E. destruct (f a) as [b|] eqn:Eb; [|discriminate]. cbn [rbind] in E. destruct (rmap f l) as [m'|] eqn:Em; [|discriminate]. cbn [rbind] in E. injection E as <-. inversion N as [|? ? N1 N2]; subst.
  constructor; [|apply IH; [exact N2| |reflexivity]; intros x y c Hx Hy; apply H; right; assumption].
  intro K. apply N1. assert (G : exists a', In a' l /\ f a' = Ok b).
  { clear - Em K. revert m' Em K. induction l as [|x l IH]; intros m' Em K; [cbn in Em; injection Em as <-; destruct K|]. cbn [rmap] in Em. destruct (f x) as [y|] eqn:Ey; [|discriminate]. cbn [rbind] in Em. destruct (rmap f l) as [m2|] eqn:E2; [|discriminate]. cbn [rbind] in Em. injection Em as <-.
    destruct K as [->|K]; [exists x; split; [left; reflexivity|exact Ey]|]. destruct (IH m2 eq_refl K) as (a' & Ha & Ea). exists a'. split; [right; exact Ha|exact Ea]. }
  destruct G as (a' & Ha & Ea). rewrite (H a a' b (or_introl eq_refl) (or_intror Ha) Eb Ea). exact Ha.
Qed.
Lemma rev_zrange_row : forall n i, row (rev (zrange 1 n)) i = Z.max 0 (n - 1 - Z.of_nat i) .
Proof.
  intros n i. unfold row. destruct (Nat.lt_ge_cases i (length (rev (zrange 1 n)))) as [h|h].
  - rewrite rev_length, length_zrange in h. rewrite rev_nth by (rewrite length_zrange; lia). rewrite length_zrange. replace (nth (Z.to_nat (n - 1) - S i) (zrange 1 n) 0) with (nthz (zrange 1 n) (n - 1 - 1 - Z.of_nat i)) by (unfold nthz; f_equal; lia). rewrite nthz_zrange by lia. lia.
  - rewrite nth_overflow by exact h. rewrite rev_length, length_zrange in h. lia.
Qed.
Lemma included_staircase : forall n mu, partition mu -> (included mu (rev (zrange 1 n)) <-> below_staircase n mu).
Proof.
  intros n mu M. unfold included, below_staircase, cell. split.
  - intros H i Hi. destruct M as [F _]. assert (P : 0 < row mu i) by (rewrite Forall_forall in F; apply F; unfold row; apply nth_In; exact Hi). specialize (H (Z.of_nat i + 1) (row mu i)). replace (Z.to_nat (Z.of_nat i + 1 - 1)) with i in H by lia. rewrite rev_zrange_row in H. destruct H as [_ H]; lia.
  - intros H i j [Hi Hj]. split; [exact Hi|]. rewrite rev_zrange_row. destruct (Nat.lt_ge_cases (Z.to_nat (i - 1)) (length mu)) as [h|h]; [specialize (H _ h); lia|]. unfold row in Hj. rewrite nth_overflow in Hj by exact h. lia.
Qed.

Lemma partition_row_le : forall mu i, partition mu -> row mu i <= row mu 0.
Proof. intros mu i [_ M]. induction i as [|i IH]; [lia|]. specialize (M i). lia. Qed.
Lemma grass_fit : forall n mu w, partition mu -> get_grassmannian mu = Ok w -> zlen w <= n -> below_staircase n mu.
Proof.
  intros n mu w M E L i Hi. pose proof (partition_nonneg mu M) as NN. destruct (get_grass mu NN) as (w' & E' & C & P & I & S). rewrite E in E'. injection E' as <-.
  pose proof (partition_row_le mu i M) as R. assert (K : row mu 0 + zlen mu <= n); [|unfold zlen in K; lia].
  assert (L0 : 1 <= zlen mu) by (unfold zlen; lia).
  assert (Hv : pcall (invp w) (zlen mu) = zlen mu + row mu 0).
  { rewrite I, gperm_front by (try exact NN; lia). f_equal. rewrite sorted_rev_partition by exact M. unfold nthz, row. rewrite rev_nth by (unfold zlen in *; lia). f_equal. unfold zlen. lia. }
  assert (P0 : 0 < row mu 0). { destruct M as [F _]. rewrite Forall_forall in F. apply F. unfold row. apply nth_In. lia. }
  destruct (Z_le_gt_dec (row mu 0 + zlen mu) n) as [h|h]; [exact h|exfalso].
  pose proof (invp_call2 w (zlen mu) (proj1 C)) as Q. rewrite Hv in Q. rewrite pcall_out in Q by lia. lia.
Qed.
