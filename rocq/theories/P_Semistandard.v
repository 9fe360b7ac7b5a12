(* C34, C51: the tableau enumerators list exactly the (set-valued, marked, shifted) semistandard
   tableaux.  The parameters ord, bord, tord are the unspecified iteration orders of Python sets of
   tuples, of cells and of tableaux: the theorems hold for every choice. *)
From Coq Require Import List ZArith Lia Bool Permutation.
From Verif Require Import PyBase M_Partitions S_Partitions L_Partitions L_PartBasic M_Tableaux S_Tableaux M_Strips S_Strips L_Strips2
  M_Semistandard S_Semistandard L_Shape L_Semi L_Semi3 L_Semi4 L_Semi5.
Import ListNotations.
Local Open Scope Z_scope.

Lemma filling_ext : forall c (p q : Z -> Z -> Prop) sv n lam mu T, (forall i j, p i j <-> q i j) ->
  semistandard_filling c p sv n lam mu T <-> semistandard_filling c q sv n lam mu T.
Proof.
  intros c p q sv n lam mu T E. unfold semistandard_filling.
  assert (X : (forall i j x, holds T i j x -> 1 <= Z.abs x <= n /\ (x < 0 -> p i j)) <-> (forall i j x, holds T i j x -> 1 <= Z.abs x <= n /\ (x < 0 -> q i j))).
  { split; intros H i j x Hx; destruct (H i j x Hx) as [A B]; (split; [assumption|]); intro L; apply E; auto. }
  rewrite X. reflexivity.
Qed.

Section Statements.
  Variable ord : list (list Z) -> list (list Z).
  Variable bord : list (Z * Z) -> list (Z * Z).
  Variable tord : list (list ((Z * Z) * list Z)) -> list (list ((Z * Z) * list Z)).
  Hypothesis ord_perm : forall l, Permutation (ord l) l.
  Hypothesis bord_perm : forall l, Permutation (bord l) l.
  Hypothesis tord_perm : forall l, Permutation (tord l) l.

  Theorem C34_semistandard : forall n mu nu setvalued, partition mu -> partition nu -> (forall i j, cell nu i j -> cell mu i j) ->
    exists r, semistandard ord bord tord n mu nu setvalued = Ok r /\ NoDup r /\
      forall T, In T r <-> semistandard_filling cell (fun _ _ => False) setvalued (Z.of_nat n) nu mu T.
  Proof.
    intros n mu nu sv Hm Hn Hi.
    destruct (semistandard_full ord bord tord ord_perm bord_perm tord_perm sv nu Hn n mu Hm) as (r & E & N & H); [intros [i j]; apply Hi|].
    exists r. split; [assumption|]. split; [assumption|]. intro T. rewrite H. unfold noprime. rewrite <- (full_semistandard false (fun _ => false = true) sv (Z.of_nat n) nu mu T).
    apply filling_ext. intros. split; [discriminate|intros []].
  Qed.

  Theorem C34_not_contained : forall n mu nu setvalued, partition mu -> partition nu -> ~ (forall i j, cell nu i j -> cell mu i j) ->
    semistandard ord bord tord n mu nu setvalued = Ok [] /\ semistandard_marked ord bord tord n mu nu setvalued = Ok [].
  Proof.
    intros n mu nu sv Hm Hn Hi. assert (C : contains mu nu = false).
    { destruct (contains mu nu) eqn:E; [|reflexivity]. exfalso. apply Hi. intros i j. apply (proj1 (contains_incl false mu nu Hm Hn) E (i, j)). }
    assert (E : zlist_eqb mu nu = false) by (destruct (zlist_eqb mu nu) eqn:E; [|reflexivity]; apply zlist_eqb_eq in E; subst; exfalso; apply Hi; auto).
    destruct n as [|n]; cbn [semistandard semistandard_marked]; rewrite E; [split; reflexivity|]. rewrite C. split; reflexivity.
  Qed.

  Theorem C51_marked : forall n mu nu setvalued, partition mu -> partition nu -> (forall i j, cell nu i j -> cell mu i j) ->
    exists r, semistandard_marked ord bord tord n mu nu setvalued = Ok r /\ NoDup r /\
      forall T, In T r <-> semistandard_filling cell (fun _ _ => True) setvalued (Z.of_nat n) nu mu T.
  Proof.
    intros n mu nu sv Hm Hn Hi.
    destruct (semistandard_marked_full ord bord tord ord_perm bord_perm tord_perm sv nu Hn n mu Hm) as (r & E & N & H); [intros [i j]; apply Hi|].
    exists r. split; [assumption|]. split; [assumption|]. intro T. rewrite H. rewrite <- (full_semistandard false (fun _ => true = true) sv (Z.of_nat n) nu mu T).
    apply filling_ext. intros. split; [intros; exact I|intros; reflexivity].
  Qed.

  Theorem C51_shifted_marked : forall n mu nu diagonal_primes setvalued, strict_partition mu -> strict_partition nu ->
    (forall i j, shifted_cell nu i j -> shifted_cell mu i j) ->
    exists r, semistandard_shifted_marked ord bord tord n mu nu diagonal_primes setvalued = Ok r /\ NoDup r /\
      forall T, In T r <-> semistandard_filling shifted_cell (fun i j => diagonal_primes = true \/ i <> j) setvalued (Z.of_nat n) nu mu T.
  Proof.
    intros n mu nu dp sv Hm Hn Hi.
    destruct (semistandard_shifted_marked_full ord bord tord ord_perm bord_perm tord_perm dp sv nu Hn n mu Hm) as (r & E & N & H); [intros [i j]; apply Hi|].
    exists r. split; [assumption|]. split; [assumption|]. intro T. rewrite H. rewrite <- (full_semistandard true (fun b => diag_ok dp b = true) sv (Z.of_nat n) nu mu T).
    apply filling_ext. intros i j. unfold diag_ok. cbn [fst snd]. rewrite orb_true_iff, negb_true_iff, Z.eqb_neq. reflexivity.
  Qed.

  Theorem C51_shifted_not_contained : forall n mu nu diagonal_primes setvalued, strict_partition mu -> strict_partition nu ->
    ~ (forall i j, shifted_cell nu i j -> shifted_cell mu i j) ->
    semistandard_shifted_marked ord bord tord n mu nu diagonal_primes setvalued = Ok [].
  Proof.
    intros n mu nu dp sv Hm Hn Hi. assert (C : contains mu nu = false).
    { destruct (contains mu nu) eqn:E; [|reflexivity]. exfalso. apply Hi. intros i j. apply (proj1 (contains_incl true mu nu Hm Hn) E (i, j)). }
    assert (E : zlist_eqb mu nu = false) by (destruct (zlist_eqb mu nu) eqn:E; [|reflexivity]; apply zlist_eqb_eq in E; subst; exfalso; apply Hi; auto).
    destruct n as [|n]; cbn [semistandard_shifted_marked]; rewrite L_Strips3.strict_is_strict by assumption; cbn [negb]; rewrite E; [reflexivity|]. rewrite C. reflexivity.
  Qed.
End Statements.
Print Assumptions C34_semistandard.
Print Assumptions C34_not_contained.
Print Assumptions C51_marked.
Print Assumptions C51_shifted_marked.
Print Assumptions C51_shifted_not_contained.

Definition idl {A} (l : list A) : list A := l.
Example C34_example :
  semistandard idl idl idl 2 [2; 1] [] false =
    Ok [[((1, 1), [1]); ((1, 2), [2]); ((2, 1), [2])]; [((1, 1), [1]); ((1, 2), [1]); ((2, 1), [2])]] /\
  (exists r, semistandard idl idl idl 2 [2; 1] [] true = Ok r /\ length r = 3%nat /\
     In [((1, 1), [1]); ((1, 2), [1; 2]); ((2, 1), [2])] r) /\
  (exists r, semistandard_shifted_marked idl idl idl 2 [2; 1] [] false false = Ok r /\ length r = 2%nat /\
     In [((1, 1), [1]); ((1, 2), [-2]); ((2, 2), [2])] r).
Proof.
  split; [vm_compute; reflexivity|]. split; eexists; (split; [vm_compute; reflexivity|]); split; try reflexivity; cbn; tauto.
Qed.
