(* C83: the enumerators of permutations and involutions *)
From Coq Require Import List ZArith Lia Bool Permutation Arith.
From Verif Require Import PyBase M_Partitions M_Symmetric M_Perm S_Perm S_Bruhat S_InvWords M_Bruhat M_PermEnum L_PermEnum1 L_PermEnum3 L_PermEnum4 L_PermEnum5 L_PermEnum6.
Import ListNotations.
Local Open Scope Z_scope.

(* Permutation.all(n) yields the permutations of 1, ..., n, each once; with signed=True the signed permutations *)
Theorem C83_all : forall n, 0 <= n -> exists l, perm_all n false = Ok l /\ NoDup l /\
  forall w, In w l <-> canonical w /\ zlen w <= n /\ Forall (fun a => 0 < a) w.
Proof. exact perm_all_unsigned. Qed.
Print Assumptions C83_all.
Theorem C83_all_signed : forall n, 0 <= n -> exists l, perm_all n true = Ok l /\ NoDup l /\ forall w, In w l <-> canonical w /\ zlen w <= n.
Proof. exact perm_all_signed. Qed.
Print Assumptions C83_all_signed.

(* Permutation.involutions(n) terminates and yields the involutions of 1, ..., n, each once *)
Theorem C83_involutions : forall n, 0 <= n -> exists l bound, (forall fuel, (bound <= fuel)%nat -> involutions fuel n false false = Ok l) /\ NoDup l /\
  forall w, In w l <-> canonical w /\ involution_map (pcall w) /\ zlen w <= n.
Proof.
  intros n Hn. destruct (unsigned_ok n Hn) as (R & N & C & F). exists R, (length (boxl (Z.to_nat n))). split; [exact F|]. split; assumption.
Qed.
Print Assumptions C83_involutions.
(* involutions(n, fpf=True) yields those without fixed points, each once *)
Theorem C83_involutions_fpf : forall n, 0 <= n -> exists l bound, (forall fuel, (bound <= fuel)%nat -> involutions fuel n false true = Ok l) /\ NoDup l /\
  forall w, In w l <-> canonical w /\ fpf_on n (pcall w) /\ zlen w <= n.
Proof.
  intros n Hn. destruct (unsigned_fpf_ok n Hn) as (R & N & C & F). exists R, (length (boxl (Z.to_nat n))). split; [exact F|]. split; assumption.
Qed.
Print Assumptions C83_involutions_fpf.
(* involutions(n, signed=True) yields the signed involutions, each once *)
Theorem C83_involutions_signed : forall n, 0 <= n -> exists l bound, (forall fuel, (bound <= fuel)%nat -> involutions fuel n true false = Ok l) /\ NoDup l /\
  forall v, In v l <-> canonical v /\ (forall x, pcall v (pcall v x) = x) /\ zlen v <= n.
Proof.
  intros n Hn. destruct (signed_ok n Hn) as (R & N & C & F). exists R, (length (boxl (Z.to_nat n))). split; [exact F|]. split; [exact N|].
  intro v. rewrite C. unfold signed_inv. tauto.
Qed.
Print Assumptions C83_involutions_signed.
(* with signed=True the argument fpf=True does not remove the involutions with fixed points: for every even n the identity,
   and every other signed involution, is yielded *)
Theorem C83_involutions_signed_fpf_refuted : forall n, 0 <= n -> n mod 2 = 0 -> exists l bound,
  (forall fuel, (bound <= fuel)%nat -> involutions fuel n true true = Ok l) /\ In [] l /\ forall x, pcall [] x = x.
Proof.
  intros n Hn Ev. destruct (signed_ok n Hn) as (R & N & C & F). exists R, (length (boxl (Z.to_nat n))).
  assert (P : forall x, pcall [] x = x) by (intro x; apply L_PermLen.pcall_nil). split; [|split; [|exact P]].
  - intros fuel Hf. rewrite <- (F fuel Hf). unfold involutions. rewrite Ev. reflexivity.
  - apply C. split; [|exact Hn]. split; [apply L_PermLen.nil_canonical|]. intro x. rewrite !P. reflexivity.
Qed.
Print Assumptions C83_involutions_signed_fpf_refuted.
(* Permutation.fpf_involutions(n) yields the fixed-point-free involutions of 1, ..., n, each once, for every iteration order of its sets *)
Theorem C83_fpf_involutions : forall ord n, (forall l, Permutation (ord l) l) -> 0 <= n -> exists l bound,
  (forall fuel, (bound <= fuel)%nat -> fpf_involutions ord fuel n = Ok l) /\ NoDup l /\
  forall w, In w l <-> canonical w /\ fpf_on n (pcall w) /\ zlen w <= n.
Proof.
  intros ord n Hord Hn. destruct (fpf_involutions_ok ord n Hord Hn) as (R & B & N & C & F). exists R, B. split; [exact F|]. split; assumption.
Qed.
Print Assumptions C83_fpf_involutions.

Example C83_example :
  perm_all 2 false = Ok [[]; [2; 1]] /\
  perm_all 1 true = Ok [[]; [-1]] /\
  involutions 10 3 false false = Ok [[]; [1; 3; 2]; [3; 2; 1]; [2; 1]] /\
  involutions 10 4 false true = Ok [[4; 3; 2; 1]; [3; 4; 1; 2]; [2; 1; 4; 3]] /\
  involutions 10 2 true false = Ok [[]; [-1]; [1; -2]; [-1; -2]; [2; 1]; [-2; -1]] /\
  involutions 10 2 true true = involutions 10 2 true false /\
  fpf_involutions (@rev (list Z)) 10 4 = Ok [[2; 1; 4; 3]; [3; 4; 1; 2]; [4; 3; 2; 1]] /\
  (fpf_on 4 (pcall [3; 4; 1; 2]) /\ zlen [3; 4; 1; 2] <= 4).
Proof.
  repeat split; try (vm_compute; reflexivity).
  - intro x. destruct (Z_le_gt_dec (Z.abs x) 4) as [L|L]; [|rewrite !(L_Perm.pcall_out [3; 4; 1; 2] x) by (change (zlen [3; 4; 1; 2]) with 4; lia); reflexivity].
    assert (H : x = -4 \/ x = -3 \/ x = -2 \/ x = -1 \/ x = 0 \/ x = 1 \/ x = 2 \/ x = 3 \/ x = 4) by lia. repeat (destruct H as [->|H]; [reflexivity|]). subst. reflexivity.
  - assert (K : x = 1 \/ x = 2 \/ x = 3 \/ x = 4) by lia. destruct K as [->|[->|[->| ->]]]; reflexivity.
  - assert (K : x = 1 \/ x = 2 \/ x = 3 \/ x = 4) by lia. destruct K as [->|[->|[->| ->]]]; discriminate.
  - change (zlen [3; 4; 1; 2]) with 4. lia.
Qed.
