(* C54: the standard tableau enumerators are exact.  The parameter tord is the unspecified iteration
   order of a Python set of tableaux: the theorems hold for every choice. *)
From Coq Require Import List ZArith Lia Bool Permutation.
From Verif Require Import PyBase M_Partitions S_Partitions L_Partitions L_PartBasic L_PartEnum M_Tableaux S_Tableaux M_Strips S_Strips L_Strips2
  M_Semistandard S_Semistandard S_Standard L_Shape L_Semi L_Semi3 L_Semi4 L_Standard.
Import ListNotations.
Local Open Scope Z_scope.

Section Statements.
  Variable tord : list (list ((Z * Z) * list Z)) -> list (list ((Z * Z) * list Z)).
  Hypothesis tord_perm : forall l, Permutation (tord l) l.

  Theorem C54_standard : forall mu nu, partition mu -> partition nu -> (forall i j, cell nu i j -> cell mu i j) ->
    exists r, standard tord mu nu = Ok r /\ NoDup r /\
      forall T, In T r <-> standard_filling cell (fun _ _ => False) nu mu T.
  Proof.
    intros mu nu Hm Hn Hi. unfold standard.
    destruct (standard_ok tord tord_perm nu Hn (S (Z.to_nat (zsum mu))) mu Hm) as (r & E & N & H); [intros [i j]; apply Hi| |].
    - pose proof (zsum_pos_nonneg nu (proj1 Hn)). pose proof (zsum_pos_nonneg mu (proj1 Hm)). lia.
    - exists r. split; [assumption|]. split; [assumption|]. intro T. rewrite H. apply (std_spec false).
  Qed.

  Theorem C54_not_contained : forall mu nu, partition mu -> partition nu -> ~ (forall i j, cell nu i j -> cell mu i j) ->
    standard tord mu nu = Ok [].
  Proof.
    intros mu nu Hm Hn Hi. assert (C : contains mu nu = false).
    { destruct (contains mu nu) eqn:E; [|reflexivity]. exfalso. apply Hi. intros i j. apply (proj1 (contains_incl false mu nu Hm Hn) E (i, j)). }
    assert (E : zlist_eqb mu nu = false) by (destruct (zlist_eqb mu nu) eqn:E; [|reflexivity]; apply zlist_eqb_eq in E; subst; exfalso; apply Hi; auto).
    unfold standard. cbn [standard_fuel]. rewrite E, C. reflexivity.
  Qed.

  Theorem C54_shifted_marked : forall mu nu diagonal_primes, strict_partition mu -> strict_partition nu ->
    (forall i j, shifted_cell nu i j -> shifted_cell mu i j) ->
    exists r, standard_shifted_marked tord mu nu diagonal_primes = Ok r /\ NoDup r /\
      forall T, In T r <-> standard_filling shifted_cell (fun i j => diagonal_primes = true \/ i <> j) nu mu T.
  Proof.
    intros mu nu dp Hm Hn Hi. unfold standard_shifted_marked.
    destruct (standard_shifted_ok tord tord_perm dp nu Hn (S (Z.to_nat (zsum mu))) mu Hm) as (r & E & N & H); [intros [i j]; apply Hi| |].
    - pose proof (zsum_pos_nonneg nu (proj1 Hn)). pose proof (zsum_pos_nonneg mu (proj1 Hm)). lia.
    - exists r. split; [assumption|]. split; [assumption|]. intro T. rewrite H. apply (std_spec true).
  Qed.

  Theorem C54_shifted_not_contained : forall mu nu diagonal_primes, strict_partition mu -> strict_partition nu ->
    ~ (forall i j, shifted_cell nu i j -> shifted_cell mu i j) ->
    standard_shifted_marked tord mu nu diagonal_primes = Ok [].
  Proof.
    intros mu nu dp Hm Hn Hi. assert (C : contains mu nu = false).
    { destruct (contains mu nu) eqn:E; [|reflexivity]. exfalso. apply Hi. intros i j. apply (proj1 (contains_incl true mu nu Hm Hn) E (i, j)). }
    assert (E : zlist_eqb mu nu = false) by (destruct (zlist_eqb mu nu) eqn:E; [|reflexivity]; apply zlist_eqb_eq in E; subst; exfalso; apply Hi; auto).
    unfold standard_shifted_marked. cbn [standard_shifted_marked_fuel]. rewrite L_Strips3.strict_is_strict by assumption. cbn [negb]. rewrite E, C. reflexivity.
  Qed.

  Theorem C54_shifted_not_strict : forall mu nu diagonal_primes, partition mu -> ~ strict_partition mu ->
    standard_shifted_marked tord mu nu diagonal_primes = Err AssertionError.
  Proof.
    intros mu nu dp Hm Hs. unfold standard_shifted_marked. cbn [standard_shifted_marked_fuel].
    destruct (is_strict_partition mu) eqn:E; [|reflexivity]. exfalso. apply Hs. apply L_Generate.is_strict_partition_spec; [apply Hm|assumption].
  Qed.
End Statements.
Print Assumptions C54_standard.
Print Assumptions C54_not_contained.
Print Assumptions C54_shifted_marked.
Print Assumptions C54_shifted_not_contained.
Print Assumptions C54_shifted_not_strict.

Definition idl {A} (l : list A) : list A := l.
Example C54_example :
  standard idl [2; 1] [] = Ok [[((1, 1), [1]); ((1, 2), [3]); ((2, 1), [2])]; [((1, 1), [1]); ((1, 2), [2]); ((2, 1), [3])]] /\
  (exists r, standard idl [3; 2] [1] = Ok r /\ length r = 5%nat) /\
  (exists r, standard_shifted_marked idl [2; 1] [] false = Ok r /\ length r = 2%nat /\ In [((1, 1), [1]); ((1, 2), [-2]); ((2, 2), [3])] r) /\
  (exists r, standard_shifted_marked idl [2; 1] [] true = Ok r /\ length r = 8%nat) /\
  standard_shifted_marked idl [2; 2] [] true = Err AssertionError /\
  standard idl [2; 1] [1; 1; 1] = Ok [].
Proof. 
  split; [vm_compute; reflexivity|]. split; [eexists; split; [vm_compute; reflexivity|reflexivity]|].
  split; [eexists; split; [vm_compute; reflexivity|]; split; [reflexivity|cbn; tauto]|]. split; [eexists; split; [vm_compute; reflexivity|reflexivity]|].
  split; vm_compute; reflexivity.
Qed.
