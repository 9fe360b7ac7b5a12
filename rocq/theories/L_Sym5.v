(* The numbers of (set-valued) semistandard tableaux of a given shape by weight are symmetric. *)
From Coq Require Import List ZArith Lia Bool Permutation Arith.
From Verif Require Import PyBase M_Partitions S_Partitions L_Partitions L_PartBasic L_PartEnum M_Tableaux S_Tableaux M_Semistandard S_Semistandard L_Strips2 L_Shape L_Semi L_Semi3 L_Semi4
  L_Count L_Count2 L_Count3 L_Kostka L_Sym1 L_Sym2 L_Sym3 L_Sym4.
Import ListNotations.
Local Open Scope Z_scope.

(* number of tableaux in R of weight alpha *)
Definition wcount (n : nat) (R : list tab) (alpha : list Z) : Z := zs (fun t => if zlist_eqb (wts n t) (rev alpha) then 1 else 0) R.

Lemma full_symmetric : forall sv lam n mu R, partition lam -> partition mu -> (forall b, dc false lam b -> dc false mu b) -> NoDup R ->
  (forall T, In T R <-> full false noprime sv lam (2 * Z.of_nat n) mu T) ->
  forall alpha beta, length alpha = n -> Permutation alpha beta ->
  wcount n R alpha = wcount n R beta.
Proof.
  intros sv lam n mu R Pl Pm Hi NR HR alpha beta La Pab. set (L := length mu).
  assert (Lb : length beta = n) by (rewrite <- La; symmetry; apply Permutation_length; assumption).
  assert (NN : Forall (fun x => 0 <= x) (padz lam L)).
  { apply Forall_forall. intros x Hx. unfold padz in Hx. apply in_app_iff in Hx. destruct Hx as [Hx|Hx]; [|apply repeat_spec in Hx; lia].
    apply (In_nth _ _ 0) in Hx. destruct Hx as (k & _ & <-). exact (partition_nonneg lam k Pl). }
  assert (V : forall xs, length xs = n -> zs (fun T => mon xs (wts n T)) R = chains (ind sv) (padz lam L) xs (padz mu L)).
  { intros xs Lx. rewrite <- (gen_chains sv lam Pl L xs mu R Pm Hi (Nat.le_refl _) NR).
    - apply zs_ext. intros T _. rewrite monr_mon, Lx. reflexivity.
    - intro T. rewrite HR. unfold zlen. rewrite Lx. reflexivity. }
  assert (LL : length (padz mu L) = length (padz lam L)).
  { assert (length lam <= length mu)%nat. { apply strip_length; [assumption|assumption|]. apply (proj1 (part_incl false lam mu Pl Pm)). assumption. }
    rewrite !padz_length; unfold L; lia. }
  apply (symmetric_coefficients _ n R (wts n)).
    - intros T _. split; [apply wts_length|apply wts_nonneg].
    - intros xs ys Pxy Lx _. rewrite (V xs Lx), (V ys); [|rewrite <- Lx; symmetry; apply Permutation_length; assumption]. apply chains_perm; assumption.
    - transitivity alpha; [apply Permutation_sym, Permutation_rev|]. transitivity beta; [assumption|apply Permutation_rev].
    - rewrite rev_length. assumption.
Qed.

Lemma wcount_cardinality : forall n R alpha, NoDup R -> length alpha = n -> (forall T m, In T R -> Z.of_nat n < m -> occurrences m T = 0) ->
  cardinality (fun T => In T R /\ has_weight alpha T) (wcount n R alpha).
Proof.
  intros n R alpha N L H. apply cardinality_indicator; [assumption|]. intros T HT. apply has_weight_wts; [assumption|]. intros m Hm. apply H; assumption.
Qed.
