(* C87: codes and shapes of involutions, and I-Grassmannian involutions *)
From Coq Require Import List ZArith Lia Bool Permutation Sorted.
From Verif Require Import PyBase M_Partitions S_Partitions M_Perm M_PermGroth S_Perm S_Bruhat L_Perm L_PermLen L_PermMisc L_LevelsInst L_InvLen2 L_InvLen6 M_Grass S_Grass L_Grass2 L_Grass3 L_Grass4 L_Grass5.
From Verif Require P_Partitions.
Import ListNotations.
Local Open Scope Z_scope.

(* involution_code() has in place i the number of j > i with w(j) <= i and w(j) < w(i); its sum is involution_length() *)
Theorem C87_involution_code : forall w, canonical w -> Forall (fun x => 0 < x) w -> (forall x, pcall w (pcall w x) = x) ->
  exists c, involution_code w = Ok c /\ zlen c = zlen w /\
  (forall i, 1 <= i <= zlen w -> nthz c (i - 1) = zlen (filter (fun j => (pcall w j <=? i) && (pcall w j <? pcall w i)) (zrange (i + 1) (zlen w + 1)))) /\
  involution_length w = Ok (zsum c).
Proof.
  intros w C P V. pose proof (conj C V : invol w) as Hw. exists (map (icode w) (zrange 1 (zlen w + 1))). pose proof (zlen_nonneg _ w). split; [apply icode_ok; assumption|]. split; [rewrite zlen_map, zlen_zrange; lia|]. split.
  - intros i Hi. rewrite nthz_map by (rewrite zlen_zrange; lia). rewrite nthz_zrange by lia. replace (1 + (i - 1)) with i by lia. unfold icode. rewrite (zrange_app 1 (i + 1) (zlen w + 1)) by lia. rewrite cnt_app, cnt_zero by (intros j Hj; apply In_zrange in Hj; lia). cbn [Z.add]. apply cnt_ext. intros j Hj. apply In_zrange in Hj. replace (i <? j) with true by lia. reflexivity.
  - destruct (involution_length_ok w Hw) as (n & E & L & _). rewrite E. f_equal. pose proof (icode_sum w Hw P) as S. unfold il2 in L. lia.
Qed.
Print Assumptions C87_involution_code.

(* involution_shape() is a strict partition of involution_length() *)
Theorem C87_involution_shape : forall w, canonical w -> Forall (fun x => 0 < x) w -> (forall x, pcall w (pcall w x) = x) ->
  exists la, involution_shape w = Ok la /\ strict_partition la /\ involution_length w = Ok (size la).
Proof.
  intros w C P V. pose proof (conj C V : invol w) as Hw. destruct (C87_involution_code w C P V) as (c & E & _ & _ & L). rewrite icode_ok in E by assumption. assert (Ec : map (icode w) (zrange 1 (zlen w + 1)) = c) by congruence.
  destruct (shape_strict c) as [S Sz]; [rewrite <- Ec; apply icode_nonneg|rewrite <- Ec; intros x v; apply icode_values; assumption|]. exists (transpose (psort c true)). split; [rewrite involution_shape_ok by assumption; rewrite Ec; reflexivity|]. split; [exact S|]. rewrite Sz. exact L.
Qed.
Print Assumptions C87_involution_shape.
Lemma not_involution : forall w, canonical w -> ~ (forall x, pcall w (pcall w x) = x) -> is_involution w = Ok false.
Proof.
  intros w C N. unfold is_involution. rewrite pinv_ok by apply C. cbn [rbind]. f_equal. destruct (peq w (invp w)) eqn:E; [|reflexivity]. exfalso. apply N. intro x. unfold peq in E. apply zlist_eqb_eq in E. rewrite E at 1. apply invp_call. apply C.
Qed.
(* both, and is_inv_grassmannian(), fail an assertion on other permutations *)
Theorem C87_not_involution : forall w, canonical w -> ~ (forall x, pcall w (pcall w x) = x) ->
  involution_code w = Err AssertionError /\ involution_shape w = Err AssertionError /\ is_inv_grassmannian w = Err AssertionError.
Proof.
  intros w C N. pose proof (not_involution w C N) as E. split; [|split].
  - unfold involution_code. rewrite E. destruct (is_unsigned w); reflexivity.
  - unfold involution_shape. rewrite E. reflexivity.
  - unfold is_inv_grassmannian, involution_shape. rewrite E. reflexivity.
Qed.
Print Assumptions C87_not_involution.
Example C87_code_ex : involution_code [4; 6; 7; 1; 5; 2; 3] = Ok [1; 2; 3; 0; 2; 0; 0] /\ involution_shape [4; 6; 7; 1; 5; 2; 3] = Ok [4; 3; 1] /\ involution_length [4; 6; 7; 1; 5; 2; 3] = Ok 8.
Proof. vm_compute. auto. Qed.

(* get_inv_grassmannian( *mu) exchanges r + 1 - t with r + mu_t for each of the r parts and fixes the other points;
   involution_shape() reads mu back *)
Theorem C87_get_inv_grassmannian : forall mu, strict_partition mu -> exists z, get_inv_grassmannian mu = Ok z /\ canonical z /\ Forall (fun x => 0 < x) z /\
  main_arcs 0 mu (pcall z) /\ (forall x, zlen mu < x -> ~ In (x - zlen mu) mu -> pcall z x = x) /\ (forall x, pcall z (pcall z x) = x) /\
  zlen z = zlen mu + row mu 0 /\ involution_shape z = Ok mu /\ is_inv_grassmannian z = Ok true.
Proof.
  intros mu M. destruct (get_inv_ok mu M) as (z & E & H). exists z. split; [exact E|]. pose proof (iarcs_invol mu z H) as V. pose proof (iarcs_shape mu z M H) as S. pose proof (is_inv_true mu z M H) as T. pose proof (iarcs_rank mu z M H) as L. destruct H as (C & P & A & B).
  split; [exact C|]. split; [exact P|]. split; [exact A|]. split; [exact B|]. split; [apply V|]. split; [exact L|]. split; assumption.
Qed.
Print Assumptions C87_get_inv_grassmannian.
Example C87_get_ex : strict_partition [4; 3; 1] /\ get_inv_grassmannian [4; 3; 1] = Ok [4; 6; 7; 1; 5; 2; 3].
Proof. split; [|reflexivity]. split; [repeat constructor|]. intros [|[|i]] H; unfold row; cbn in *; lia. Qed.

(* a trailing zero passes the assertion, and then the result is no involution *)
Theorem C87_zero_part_refuted : exists z, get_inv_grassmannian [2; 0] = Ok z /\ pcall z (pcall z 1) <> 1.
Proof. eexists. split; [reflexivity|]. vm_compute. discriminate. Qed.
Print Assumptions C87_zero_part_refuted.

(* is_inv_grassmannian() says True exactly when the left ends of the 2-cycles are an initial segment 1, ..., r whose
   right ends increase *)
Theorem C87_is_inv_grassmannian : forall z, canonical z -> Forall (fun x => 0 < x) z -> (forall x, pcall z (pcall z x) = x) ->
  exists b, is_inv_grassmannian z = Ok b /\ (b = true <-> exists r, initial_arcs r (pcall z)) /\
  (b = true <-> exists mu, strict_partition mu /\ involution_shape z = Ok mu /\ get_inv_grassmannian mu = Ok z).
Proof.
  intros z C P V. pose proof (conj C V : invol z) as Hz. destruct (is_inv_ok z Hz P) as (mu & y & M & A & Sh & B). exists (peq y z). split; [exact B|].
  assert (K : peq y z = true -> y = z) by (intro T; unfold peq in T; apply zlist_eqb_eq in T; exact T). split; split.
  - intro T. specialize (K T). subst y. exists (zlen mu). apply iarcs_initial; assumption.
  - intros (r & H). destruct (initial_iarcs r z Hz P H) as (nu & N & _ & A2). pose proof (is_inv_true nu z N A2) as T. congruence.
  - intro T. specialize (K T). subst y. exists mu. split; [exact M|]. split; [exact Sh|]. destruct (get_inv_ok mu M) as (x & Ex & Hx). rewrite (iarcs_unique mu x z Hx A) in Ex. exact Ex.
  - intros (nu & N & _ & E). destruct (get_inv_ok nu N) as (x & Ex & Hx). rewrite E in Ex. injection Ex as <-. pose proof (is_inv_true nu z N Hx) as T. congruence.
Qed.
Print Assumptions C87_is_inv_grassmannian.
Example C87_is_ex : is_inv_grassmannian [3; 4; 1; 2] = Ok true /\ is_inv_grassmannian [4; 3; 2; 1] = Ok false /\ is_inv_grassmannian [1; 3; 2] = Ok false /\ is_inv_grassmannian [2; 3; 1] = Err AssertionError.
Proof. vm_compute. auto. Qed.

(* inv_grassmannians(n) yields without repetition the involutions of the strict partitions below (n - 1, n - 3, ...), among
   them every accepted involution of 1, ..., n *)
Theorem C87_inv_grassmannians : forall n, exists l, inv_grassmannians n = Ok l /\ NoDup l /\
  (forall z, In z l <-> exists mu, strict_partition mu /\ below_double_staircase n mu /\ get_inv_grassmannian mu = Ok z) /\
  (forall z, canonical z -> Forall (fun x => 0 < x) z -> (forall x, pcall z (pcall z x) = x) -> zlen z <= n -> is_inv_grassmannian z = Ok true -> In z l).
Proof.
  intro n. set (d := range_down2 (n - 1)).
  destruct (P_Partitions.C16_subpartitions d [] true (range_down2_weak _)) as [Ns Hs]; [split; [constructor|intros [|i]; unfold row; cbn; lia]|cbn; lia|].
  assert (Hs' : forall mu, In mu (subpartitions d [] true) <-> strict_partition mu /\ below_double_staircase n mu).
  { intro mu. rewrite Hs. cbn [part_b]. split.
    - intros (A & _ & B). split; [exact A|]. exact (proj1 (included_down2 (n - 1) mu A) B).
    - intros (A & B). split; [exact A|]. split; [|exact (proj2 (included_down2 (n - 1) mu A) B)]. intros i j [Hi Hj]. unfold row in Hj. destruct (Z.to_nat (i - 1)); cbn in Hj; lia. }
  destruct (rmap_ok2 _ _ get_inv_grassmannian (subpartitions d [] true)) as (l & El & Hl).
  { intros mu Hm. apply Hs' in Hm. destruct (get_inv_ok mu (proj1 Hm)) as (w & E & _). exists w. exact E. }
  assert (Hl' : forall z, In z l <-> exists mu, strict_partition mu /\ below_double_staircase n mu /\ get_inv_grassmannian mu = Ok z).
  { intro w. rewrite Hl. split; [intros (mu & Hm & E); apply Hs' in Hm; exists mu; tauto|intros (mu & A & B & E); exists mu; split; [apply Hs'; tauto|exact E]]. }
  exists l. split; [exact El|]. split; [|split; [exact Hl'|]].
  - apply (rmap_NoDup _ _ get_inv_grassmannian _ _ Ns) in El; [exact El|]. intros a b w Ha Hb Ea Eb. apply Hs' in Ha. apply Hs' in Hb. destruct (C87_get_inv_grassmannian a (proj1 Ha)) as (w1 & E1 & _ & _ & _ & _ & _ & _ & S1 & _). destruct (C87_get_inv_grassmannian b (proj1 Hb)) as (w2 & E2 & _ & _ & _ & _ & _ & _ & S2 & _). congruence.
  - intros z C P V L T. destruct (C87_is_inv_grassmannian z C P V) as (b & Eb & _ & [Hb _]). rewrite T in Eb. injection Eb as <-. destruct (Hb eq_refl) as (mu & M & _ & E). apply Hl'. exists mu. split; [exact M|]. split; [|exact E].
    destruct (C87_get_inv_grassmannian mu M) as (z' & E' & _ & _ & _ & _ & _ & R & _). rewrite E in E'. injection E' as <-. intros i Hi. pose proof (strict_gap mu i M Hi). unfold zlen in *. lia.
Qed.
Print Assumptions C87_inv_grassmannians.
Example C87_inv_grassmannians_ex : inv_grassmannians 3 = Ok [[]; [2; 1]; [3; 2; 1]].
Proof. reflexivity. Qed.
(* not all of them permute 1, ..., n *)
Theorem C87_inv_grassmannians_rank_refuted : exists l, inv_grassmannians 4 = Ok l /\ In [3; 5; 1; 4; 2] l /\ canonical [3; 5; 1; 4; 2] /\ 4 < zlen [3; 5; 1; 4; 2].
Proof.
  eexists. split; [reflexivity|]. split; [cbn; tauto|]. split; [|vm_compute; reflexivity]. split; [|cbn; discriminate].
  unfold signed_word. change (Permutation [3; 5; 1; 4; 2] [1; 2; 3; 4; 5]). apply NoDup_Permutation_bis; [repeat constructor; cbn; intuition lia|cbn; lia|]. intros x; cbn; intuition lia.
Qed.
Print Assumptions C87_inv_grassmannians_rank_refuted.
