(* The numbers of marked and of shifted marked (set-valued) tableaux of a given shape by weight are symmetric *)
From Coq Require Import List ZArith Lia Bool Permutation Arith.
From Verif Require Import PyBase M_Partitions S_Partitions L_Partitions L_PartBasic L_PartMore L_PartEnum M_Tableaux S_Tableaux L_Tableaux M_Strips S_Strips L_Strips L_Strips2 L_Fill L_Shape
  M_Semistandard S_Semistandard L_Semi L_Semi2 L_Semi3 L_Semi4 L_Semi5 L_Count L_Count2 L_Count3 L_Standard L_Sym1 L_Sym3 L_Sym4 L_Sym5 L_Sym7 L_Sym8 L_Sym9 L_Sym10.
Import ListNotations.
Local Open Scope Z_scope.

Lemma word_A : forall y n, word y (rev (seq 1 n)) = A n 1 y.
Proof. intros y n. induction n as [|n IH]; [reflexivity|]. rewrite seq_S, rev_app_distr. cbn [rev app A]. rewrite <- IH. reflexivity. Qed.
Lemma word_B : forall y n, word y (seq 1 n) = B n 1 y.
Proof. intros y n. induction n as [|n IH]; [reflexivity|]. rewrite seq_S. unfold word. rewrite map_app. cbn [B]. rewrite <- IH. reflexivity. Qed.

Lemma dc_first : forall sh mu b, part_b sh mu -> dc sh mu b -> snd b <= row mu 0 + off sh (Z.of_nat (length mu)) /\ 1 <= fst b <= Z.of_nat (length mu).
Proof.
  intros sh mu [a b] P D. unfold dc in D. cbn [fst snd] in *. destruct (dcell_row _ _ _ _ D) as (i & ->). apply dcell_nat in D.
  assert (L : (i < length mu)%nat) by (destruct (Nat.lt_ge_cases i (length mu)) as [C|C]; [assumption|]; rewrite row_overflow in D by lia; lia).
  assert (M : forall i, row mu i <= row mu 0). { intro m. induction m as [|m IH]; [lia|]. pose proof (proj2 (part_b_part _ _ P) m). lia. }
  specialize (M i). split; [|lia]. destruct sh; cbn [off] in *; lia.
Qed.

Definition mtabs (sv : bool) (lam : list Z) (n : nat) (nu : list Z) : list tab := match semistandard_marked (fun l => l) (fun l => l) (fun l => l) n nu lam sv with Ok r => r | Err _ => [] end.
Definition stabs (dp sv : bool) (lam : list Z) (n : nat) (nu : list Z) : list tab := match semistandard_shifted_marked (fun l => l) (fun l => l) (fun l => l) n nu lam dp sv with Ok r => r | Err _ => [] end.

Theorem marked_symmetric : forall sv lam n mu R, partition lam -> partition mu -> (forall b, dc false lam b -> dc false mu b) -> NoDup R ->
  (forall T, In T R <-> full false (fun _ => true = true) sv lam (2 * Z.of_nat n) mu T) ->
  forall alpha beta, length alpha = n -> Permutation alpha beta -> wcount n R alpha = wcount n R beta.
Proof.
  intros sv lam n mu R Pl Pm Hi NR HR. set (K := Z.of_nat (length mu)). set (N := (Z.to_nat (row mu 0) + length mu)%nat).
  assert (KS : false = true -> K = 0) by discriminate. assert (IP : 0 <= ind sv) by (destruct sv; cbn; lia).
  apply (words_symmetric false (fun _ => true) sv lam K KS Pl (mtabs sv lam)) with (lowd := 1%nat) (topd := 1%nat) (N := N) (mu := mu).
  - intros m nu [Pn In']. destruct (semistandard_marked_full (fun l => l) (fun l => l) (fun l => l) (fun l => Permutation_refl l) (fun l => Permutation_refl l) (fun l => Permutation_refl l) sv lam Pl m nu Pn In') as (r & E & Nr & H).
    unfold mtabs. rewrite E. split; assumption.
  - lia.
  - assert (E : forall y, L_Sym10.T 1 1 N y = TS N y).
    { intro y. unfold L_Sym10.T, hds, vds, TS. replace (N + 1 - 1)%nat with N by lia. rewrite word_A, word_B. reflexivity. }
    intros x y Hx Hy. rewrite !E. apply half_comm; assumption.
  - split; assumption.
  - intros b D. destruct (dc_first false mu b Pm D) as [D1 D2]. pose proof (dc_region _ _ _ D) as [_ R2]. cbn [off] in D1. unfold diag. pose proof (partition_nonneg mu 0 Pm). unfold N, K. split; [lia|]. split; [lia|reflexivity].
  - assumption.
  - assumption.
Qed.

Theorem shifted_symmetric : forall dp sv lam n mu R, strict_partition lam -> strict_partition mu -> (forall b, dc true lam b -> dc true mu b) -> NoDup R ->
  (forall T, In T R <-> full true (fun b => diag_ok dp b = true) sv lam (2 * Z.of_nat n) mu T) ->
  forall alpha beta, length alpha = n -> Permutation alpha beta -> wcount n R alpha = wcount n R beta.
Proof.
  intros dp sv lam n mu R Pl Pm Hi NR HR. set (N := (Z.to_nat (row mu 0) + length mu)%nat).
  assert (IP : 0 <= ind sv) by (destruct sv; cbn; lia). assert (K0 : true = true -> 0 = 0) by reflexivity.
  apply (words_symmetric true (diag_ok dp) sv lam 0 K0 Pl (stabs dp sv lam)) with (lowd := 0%nat) (topd := if dp then 0%nat else 1%nat) (N := N) (mu := mu).
  - intros m nu [Pn In']. destruct (semistandard_shifted_marked_full (fun l => l) (fun l => l) (fun l => l) (fun l => Permutation_refl l) (fun l => Permutation_refl l) (fun l => Permutation_refl l) dp sv lam Pl m nu Pn In') as (r & E & Nr & H).
    unfold stabs. rewrite E. split; assumption.
  - destruct dp; lia.
  - intros x y Hx Hy. assert (S0 : forall m, seq 0 (m + 1 - 0) = 0%nat :: seq 1 m) by (intro m; replace (m + 1 - 0)%nat with (S m) by lia; reflexivity).
    assert (WH : forall z, word z (hds 0 N) = A N 1 z ++ [(0%nat, 1, z)]).
    { intro z. unfold hds. rewrite S0. cbn [rev]. unfold word. rewrite map_app. fold (word z (rev (seq 1 N))). rewrite word_A. reflexivity. }
    destruct dp.
    + assert (E : forall z, oweq true lam 0 (ind sv) (L_Sym10.T 0 0 N z) (TQ (fun u => 2 * u + ind sv * u * u) N z)).
      { intro z. unfold L_Sym10.T. rewrite WH. unfold vds. rewrite S0. unfold word. cbn [map]. fold (word z (seq 1 N)). rewrite word_B. rewrite <- app_assoc. cbn [app]. unfold TQ, kk.
        intros F s Hs. unfold oweq, oev. rewrite !ev_app. apply (ev_feq _ _ _ _ _ (rr_ok true lam 0 K0 Pl)); [|assumption].
        change ((0%nat, 1, z) :: (0%nat, 1, z) :: B N 1 z) with ([(0%nat, 1, z); (0%nat, 1, z)] ++ B N 1 z). change ((0%nat, 1, 2 * z + ind sv * z * z) :: B N 1 z) with ([(0%nat, 1, 2 * z + ind sv * z * z)] ++ B N 1 z).
        intros t Ht. rewrite !ev_app. rewrite (fuse _ _ _ _ _ (K1 true lam 0 K0 Pl) 0%nat 1 z 1 z _ t Ht).
        replace (1 * z + z * 1 + ind sv * z * z) with (2 * z + ind sv * z * z) by ring. reflexivity. }
      pose proof (full_comm true lam 0 K0 Pl (ind sv) (fun u => 2 * u + ind sv * u * u) N x y IP (or_intror eq_refl) Hx Hy) as C.
      intros F s Hs. unfold oweq, weq, feq in C, E. unfold oev in *. rewrite ev_app.
      transitivity (ev (list Z) (cc true lam 0) (rr true lam 0) (ind sv) (TQ (fun u => 2 * u + ind sv * u * u) N x ++ TQ (fun u => 2 * u + ind sv * u * u) N y) F s).
      { rewrite ev_app. rewrite (E x _ s Hs). apply (ev_feq _ _ _ _ _ (rr_ok true lam 0 K0 Pl)); [|assumption]. intros t Ht. apply E. assumption. }
      rewrite (C F s Hs). rewrite !ev_app. rewrite (E y _ s Hs). apply (ev_feq _ _ _ _ _ (rr_ok true lam 0 K0 Pl)); [|assumption]. intros t Ht. symmetry. apply E. assumption.
    + assert (E : forall z, L_Sym10.T 0 1 N z = TQ (fun u => u) N z).
      { intro z. unfold L_Sym10.T. rewrite WH. unfold vds. replace (N + 1 - 1)%nat with N by lia. rewrite word_B. rewrite <- app_assoc. reflexivity. }
      rewrite !E. apply full_comm; [exact K0|assumption|assumption|left; reflexivity|assumption|assumption].
  - split; assumption.
  - intros b D. destruct (dc_first true mu b Pm D) as [D1 D2]. pose proof (dc_region _ _ _ D) as [_ R2]. cbn [off] in D1. unfold diag, diag_ok. pose proof (partition_nonneg mu 0 (strict_is_partition _ Pm)). unfold N. split; [lia|].
    destruct dp; cbn [orb]; [split; [lia|reflexivity]|]. rewrite negb_true_iff, Z.eqb_neq. lia.
  - assumption.
  - assumption.
Qed.
