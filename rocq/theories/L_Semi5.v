(* The marked enumerators *)
From Coq Require Import List ZArith Lia Bool Permutation Sorted.
From Verif Require Import PyBase M_Partitions S_Partitions L_Partitions L_PartBasic M_Tableaux S_Tableaux L_Tableaux M_Strips S_Strips L_Strips L_Strips2 L_Strips3
  M_Semistandard S_Semistandard L_Fill L_Shape L_Semi L_Semi2 L_Semi3 L_Semi4.
Import ListNotations.
Local Open Scope Z_scope.

Lemma rmap_ext : forall A B (f g : A -> res B) l, (forall x, In x l -> f x = g x) -> rmap f l = rmap g l.
Proof.
  induction l as [|a l IH]; intro H; [reflexivity|]. cbn [rmap]. rewrite (H a (or_introl eq_refl)), IH; [reflexivity|]. intros x Hx. apply H. right. assumption.
Qed.
Lemma rconcat_ext : forall A B (f g : A -> res (list B)) l, (forall x, In x l -> f x = g x) -> rconcat f l = rconcat g l.
Proof. intros. unfold rconcat. rewrite (rmap_ext _ _ f g); [reflexivity|assumption]. Qed.
Lemma filter_true : forall A (p : A -> bool) l, (forall x, p x = true) -> filter p l = l.
Proof. induction l as [|a l IH]; intro H; [reflexivity|]. cbn [filter]. rewrite H, IH by assumption. reflexivity. Qed.
Lemma forallb_true : forall A (p : A -> bool) l, (forall x, p x = true) -> forallb p l = true.
Proof. induction l as [|a l IH]; intro H; [reflexivity|]. cbn [forallb]. rewrite H, IH by assumption. reflexivity. Qed.
Lemma existsb_forallb : forall A (p : A -> bool) l, existsb p l = negb (forallb (fun x => negb (p x)) l).
Proof. induction l as [|a l IH]; [reflexivity|]. cbn [existsb forallb]. rewrite IH. destruct (p a); reflexivity. Qed.

Section Marked.
  Variable ord : list (list Z) -> list (list Z).
  Variable bord : list box -> list box.
  Variable tord : list tab -> list tab.
  Hypothesis ord_perm : forall l, Permutation (ord l) l.
  Hypothesis bord_perm : forall l, Permutation (bord l) l.
  Hypothesis tord_perm : forall l, Permutation (tord l) l.

  Lemma base_case : forall sh pr sv lam mu k, part_b sh lam -> part_b sh mu -> mu = lam ->
    exists r, Ok [[]] = Ok r /\ NoDup r /\ forall T, In T r <-> full sh pr sv lam k mu T.
  Proof.
    intros sh pr sv lam mu k Hl Hm E. exists [[]]. split; [reflexivity|]. split; [repeat constructor; intros []|]. intro T.
    rewrite (full_equal sh pr sv lam _ mu T Hl Hm E). cbn. intuition congruence.
  Qed.
  Lemma zero_case : forall sh pr sv lam mu, part_b sh lam -> part_b sh mu -> (forall b, dc sh lam b -> dc sh mu b) -> mu <> lam ->
    exists r, Ok [] = Ok r /\ NoDup r /\ forall T, In T r <-> full sh pr sv lam 0 mu T.
  Proof.
    intros sh pr sv lam mu Hl Hm Hi N. exists []. split; [reflexivity|]. split; [constructor|]. intro T. split; [intros []|].
    intro F. apply full_zero in F; [contradiction|assumption|assumption|assumption].
  Qed.
  Lemma zlist_neq : forall a b, zlist_eqb a b = false -> a <> b.
  Proof. intros a b E H. apply zlist_eqb_eq in H. congruence. Qed.

  Lemma semistandard_marked_full : forall sv lam, partition lam -> forall n mu, partition mu -> (forall b, dc false lam b -> dc false mu b) ->
    exists r, semistandard_marked ord bord tord n mu lam sv = Ok r /\ NoDup r /\
      forall T, In T r <-> full false (fun _ => true = true) sv lam (2 * Z.of_nat n) mu T.
  Proof.
    intros sv lam Hl. induction n as [|n IH]; intros mu Hm Hi; cbn [semistandard_marked]; (destruct (zlist_eqb mu lam) eqn:E; [apply zlist_eqb_eq in E|apply zlist_neq in E]).
    - apply base_case; assumption.
    - apply (zero_case false); assumption.
    - apply base_case; assumption.
    - rewrite (proj2 (contains_incl false mu lam Hm Hl) Hi).
      destruct (marked_body_ok ord bord tord ord_perm bord_perm tord_perm false (fun _ => true) n sv lam mu (fun nu => semistandard_marked ord bord tord n nu lam sv) Hl Hm Hi) as (r & Er & Hr).
      { intros nu Hn Hin. destruct (IH nu Hn Hin) as (r & Er & _ & Hr). exists r. split; assumption. }
      exists r. split; [|assumption]. rewrite <- Er. unfold marked_body. cbn [hstrips].
      destruct (horizontal_strips ord mu lam) as [strips1|]; [|reflexivity]. cbn [rbind].
      apply f_equal2; [|reflexivity]. apply rconcat_ext. intros [[nu1 d1] c1] _. cbn [vstrips].
      destruct (vertical_strips ord nu1 lam) as [strips2|]; [|reflexivity]. cbn [rbind]. apply rconcat_ext. intros [[nu2 d2] c2] _.
      rewrite forallb_true, filter_true by reflexivity. reflexivity.
  Qed.

  Definition diag_ok (dp : bool) (b : box) : bool := dp || negb (fst b =? snd b).

  Lemma semistandard_shifted_marked_full : forall dp sv lam, strict_partition lam -> forall n mu, strict_partition mu -> (forall b, dc true lam b -> dc true mu b) ->
    exists r, semistandard_shifted_marked ord bord tord n mu lam dp sv = Ok r /\ NoDup r /\
      forall T, In T r <-> full true (fun b => diag_ok dp b = true) sv lam (2 * Z.of_nat n) mu T.
  Proof.
    intros dp sv lam Hl. induction n as [|n IH]; intros mu Hm Hi; cbn [semistandard_shifted_marked]; rewrite strict_is_strict by assumption; cbn [negb];
      (destruct (zlist_eqb mu lam) eqn:E; [apply zlist_eqb_eq in E|apply zlist_neq in E]).
    - apply base_case; assumption.
    - apply (zero_case true); assumption.
    - apply base_case; assumption.
    - rewrite (proj2 (contains_incl true mu lam Hm Hl) Hi).
      destruct (marked_body_ok ord bord tord ord_perm bord_perm tord_perm true (diag_ok dp) n sv lam mu (fun nu => semistandard_shifted_marked ord bord tord n nu lam dp sv) Hl Hm Hi) as (r & Er & Hr).
      { intros nu Hn Hin. destruct (IH nu Hn Hin) as (r & Er & _ & Hr). exists r. split; assumption. }
      exists r. split; [|assumption]. rewrite <- Er. unfold marked_body. cbn [hstrips].
      destruct (shifted_horizontal_strips ord mu lam) as [strips1|]; [|reflexivity]. cbn [rbind].
      apply f_equal2; [|reflexivity]. apply rconcat_ext. intros [[nu1 d1] c1] _. cbn [vstrips].
      destruct (shifted_vertical_strips ord nu1 lam) as [strips2|]; [|reflexivity]. cbn [rbind]. apply rconcat_ext. intros [[nu2 d2] c2] _.
      destruct dp; cbn [negb andb].
      + rewrite forallb_true, filter_true by reflexivity. reflexivity.
      + rewrite existsb_forallb. change (forallb (fun x : Z * Z => negb (fst x =? snd x)) d2) with (forallb (diag_ok false) d2).
        destruct (forallb (diag_ok false) d2); reflexivity.
  Qed.
End Marked.
