(* C86: Grassmannian permutations *)
From Coq Require Import List ZArith Lia Bool Permutation Sorted.
From Verif Require Import PyBase M_Partitions S_Partitions M_Perm S_Perm L_Perm L_PermLen M_Grass S_Grass L_Grass1 L_Grass2.
From Verif Require P_Partitions L_PartBasic L_Tableaux.
Import ListNotations.
Local Open Scope Z_scope.

(* get_grassmannian( *mu) on non-negative parts in any order: the inverse of the permutation is i plus the i-th
   smallest part for i up to the number of parts and increases from there on; shape() reads the parts back *)
Theorem C86_get_grassmannian : forall mu, Forall (fun x => 0 <= x) mu -> exists w v s la, get_grassmannian mu = Ok w /\ canonical w /\ Forall (fun x => 0 < x) w /\
  (canonical v /\ forall i, pcall v (pcall w i) = i) /\
  StronglySorted Z.le s /\ Permutation s mu /\ (forall i, 1 <= i <= zlen mu -> pcall v i = i + nthz s (i - 1)) /\ ascents_except (zlen mu) (pcall v) /\
  perm_shape w = Ok la /\ partition la /\ Permutation la (filter (fun x => 0 <? x) mu).
Proof.
  intros mu F. destruct (get_grass mu F) as (w & E & C & P & I & S). exists w, (gperm mu), (sorted mu), (psort mu true). split; [exact E|]. split; [exact C|]. split; [exact P|]. split; [split; [apply (gperm_ok mu F)|]; intro i; rewrite <- I; apply invp_call; apply C|].
  split; [apply sorted_increasing'|]. split; [apply Permutation_sym, L_Tableaux.sorted_perm|]. split; [intros i Hi; apply gperm_front; assumption|]. split; [intros i Hi Hn; apply gperm_ascents; assumption|]. split; [exact S|]. apply psort_partition_of. exact F.
Qed.
Print Assumptions C86_get_grassmannian.
Example C86_get_grassmannian_ex : get_grassmannian [2; 0; 3; 1] = Ok [1; 5; 2; 6; 3; 7; 4] /\ perm_shape [1; 5; 2; 6; 3; 7; 4] = Ok [3; 2; 1].
Proof. vm_compute. auto. Qed.

(* partitions and the permutations that is_grassmannian() accepts correspond one to one *)
Theorem C86_shape_bijection : (forall mu, partition mu -> exists w, get_grassmannian mu = Ok w /\ perm_shape w = Ok mu /\ is_grassmannian w = Ok true /\ canonical w /\ Forall (fun x => 0 < x) w) /\
  (forall w, canonical w -> Forall (fun x => 0 < x) w -> is_grassmannian w = Ok true -> exists mu, partition mu /\ perm_shape w = Ok mu /\ get_grassmannian mu = Ok w).
Proof.
  split.
  - intros mu M. destruct (get_grass mu (partition_nonneg mu M)) as (w & E & _). destruct (is_grass_get mu w M E) as (T & S & C & P). exists w. split; [exact E|]. split; [exact S|]. split; [exact T|]. split; assumption.
  - intros w C P T. destruct (is_grass_ok w C P) as (mu & v & M & E & _ & B). rewrite T in B. injection B as B. symmetry in B. unfold peq in B. apply zlist_eqb_eq in B. subst v. exists mu. split; [exact M|]. split; [|exact E]. apply (is_grass_get mu w M E).
Qed.
Print Assumptions C86_shape_bijection.

(* is_grassmannian() answers on every unsigned permutation, and says True exactly when the inverse is the identity or
   moves 1 and has no descent but one *)
Theorem C86_is_grassmannian : forall w, canonical w -> Forall (fun x => 0 < x) w -> exists b v, is_grassmannian w = Ok b /\ (canonical v /\ forall i, pcall v (pcall w i) = i) /\
  (b = true <-> (forall i, pcall v i = i) \/ exists k, 1 <= k /\ pcall v 1 <> 1 /\ ascents_except k (pcall v)).
Proof.
  intros w C P. destruct (is_grass_ok w C P) as (mu & u & M & E & _ & B). exists (peq u w), (invp w). split; [exact B|]. split; [split; [apply invp_canonical, C|intro i; apply invp_call, C]|].
  assert (Id : (forall i, 1 <= i -> pcall (invp w) i < pcall (invp w) (i + 1)) -> forall i, pcall (invp w) i = i).
  { intros H i. replace (invp w) with (gperm []).
    - change (pcall [] i = i). apply pcall_nil.
    - destruct (gperm_ok [] (Forall_nil _)) as (C0 & P0 & _). symmetry. apply (increasing_unique _ _ 0 (invp_canonical w (proj1 C)) C0 (pos_inv w C P) P0); [lia| | |]; intros j Hj; [lia|apply H; lia|change (pcall [] j < pcall [] (j + 1)); rewrite !pcall_nil; lia]. }
  split.
  - intro T. unfold peq in T. apply zlist_eqb_eq in T. subst u. destruct (grass_form mu w M E) as [H|H]; [left; apply Id; exact H|right; exact H].
  - intro H. destruct (grass_onto w C P) as (nu & N & E2); [destruct H as [H|H]; [left; intros i Hi; rewrite !H; lia|right; exact H]|]. destruct (is_grass_get nu w N E2) as (T & _). rewrite B in T. injection T as T. exact T.
Qed.
Print Assumptions C86_is_grassmannian.
Example C86_is_grassmannian_ex : is_grassmannian [1; 4; 2; 5; 3] = Ok false /\ is_grassmannian [4; 1; 5; 2; 3] = Ok true /\ is_grassmannian [2; 4; 1; 3] = Ok false.
Proof. vm_compute. auto. Qed.
(* so the answer is not "at most one descent": s_2 has one descent and so has its inverse, and on a permutation that is
   not unsigned there is no answer at all *)
Theorem C86_one_descent_refuted : exists w, canonical w /\ Forall (fun x => 0 < x) w /\ ascents_except 2 (pcall w) /\ pinv w = Ok w /\ is_grassmannian w = Ok false.
Proof.
  exists [1; 3; 2]. split; [split; [apply (Permutation_trans (l' := [1; 2; 3])); [constructor; apply perm_swap|apply Permutation_refl]|cbn; discriminate]|]. split; [repeat constructor|]. split; [|split; reflexivity].
  intros i Hi Hn. assert (K : i = 1 \/ i = 3 \/ 4 <= i) by lia. destruct K as [->|[->|K]]; [vm_compute; reflexivity|vm_compute; reflexivity|]. rewrite !pcall_out by (unfold zlen; cbn; lia). lia.
Qed.
Print Assumptions C86_one_descent_refuted.
Theorem C86_signed_refuted : is_grassmannian [-1] = Err AssertionError.
Proof. reflexivity. Qed.
Print Assumptions C86_signed_refuted.

(* grassmannians(n) yields without repetition the permutations of the partitions below the staircase, among them every
   accepted permutation of 1, ..., n *)
Theorem C86_grassmannians : forall n, exists l, grassmannians n = Ok l /\ NoDup l /\
  (forall w, In w l <-> exists mu, partition mu /\ below_staircase n mu /\ get_grassmannian mu = Ok w) /\
  (forall w, canonical w -> Forall (fun x => 0 < x) w -> zlen w <= n -> is_grassmannian w = Ok true -> In w l).
Proof.
  intro n. set (d := rev (zrange 1 n)).
  assert (Wd : weak_partition d).
  { split; [apply Forall_forall; intros x Hx; apply in_rev in Hx; apply In_zrange in Hx; lia|]. intro i. unfold d. rewrite !rev_zrange_row. lia. }
  destruct (P_Partitions.C16_subpartitions d [] false Wd) as [Ns Hs]; [split; [constructor|intros [|i]; unfold row; cbn; lia]|cbn; lia|].
  assert (Hs' : forall mu, In mu (subpartitions d [] false) <-> partition mu /\ below_staircase n mu).
  { intro mu. rewrite Hs. cbn [part_b]. split.
    - intros (A & _ & B). split; [exact A|]. apply included_staircase; assumption.
    - intros (A & B). split; [exact A|]. split; [|apply included_staircase; assumption]. intros i j [Hi Hj]. unfold row in Hj. destruct (Z.to_nat (i - 1)); cbn in Hj; lia. }
  destruct (rmap_ok2 _ _ get_grassmannian (subpartitions d [] false)) as (l & El & Hl).
  { intros mu Hm. apply Hs' in Hm. destruct (get_grass mu (partition_nonneg mu (proj1 Hm))) as (w & E & _). exists w. exact E. }
  assert (Hl' : forall w, In w l <-> exists mu, partition mu /\ below_staircase n mu /\ get_grassmannian mu = Ok w).
  { intro w. rewrite Hl. split; [intros (mu & Hm & E); apply Hs' in Hm; exists mu; tauto|intros (mu & A & B & E); exists mu; split; [apply Hs'; tauto|exact E]]. }
  exists l. split; [exact El|]. split; [|split; [exact Hl'|]].
  - apply (rmap_NoDup _ _ get_grassmannian _ _ Ns) in El; [exact El|]. intros a b w Ha Hb Ea Eb. apply Hs' in Ha. apply Hs' in Hb. destruct (is_grass_get a w (proj1 Ha) Ea) as (_ & Sa & _). destruct (is_grass_get b w (proj1 Hb) Eb) as (_ & Sb & _). congruence.
  - intros w C P L T. destruct (proj2 C86_shape_bijection w C P T) as (mu & M & _ & E). apply Hl'. exists mu. split; [exact M|]. split; [|exact E]. apply (grass_fit n mu w M E L).
Qed.
Print Assumptions C86_grassmannians.
Example C86_grassmannians_ex : grassmannians 3 = Ok [[]; [2; 1]; [2; 3; 1]; [3; 1; 2]; [3; 1; 4; 2]].
Proof. reflexivity. Qed.
(* not all of them permute 1, ..., n *)
Theorem C86_grassmannians_rank_refuted : exists l, grassmannians 3 = Ok l /\ In [3; 1; 4; 2] l /\ canonical [3; 1; 4; 2] /\ 3 < zlen [3; 1; 4; 2].
Proof.
  eexists. split; [reflexivity|]. split; [cbn; tauto|]. split; [|vm_compute; reflexivity]. split; [|cbn; discriminate].
  unfold signed_word. change (Permutation [3; 1; 4; 2] [1; 2; 3; 4]). apply NoDup_Permutation_bis; [repeat constructor; cbn; intuition lia|cbn; lia|]. intros x; cbn; intuition lia.
Qed.
Print Assumptions C86_grassmannians_rank_refuted.
