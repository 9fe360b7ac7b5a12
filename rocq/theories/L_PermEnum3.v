(* involutions: the search over deltas visits the whole box once *)
From Coq Require Import List ZArith Lia Bool Permutation Arith.
From Verif Require Import PyBase M_Partitions M_Symmetric L_PartEnum M_Perm S_Perm L_Perm L_PermLen L_PermWord L_PermMisc S_Bruhat S_InvWords M_Bruhat L_Bruhat L_Bruhat2 M_PermEnum L_PermEnum1 L_PermEnum2.
Import ListNotations.
Local Open Scope Z_scope.

Lemma existsb_zlist : forall x l, existsb (zlist_eqb x) l = true <-> In x l.
Proof.
  intros x l. rewrite existsb_exists. split; [intros (y & Hy & E); apply zlist_eqb_eq in E; subst; exact Hy|]. intro H. exists x. split; [exact H|]. apply zlist_eqb_eq. reflexivity.
Qed.
Lemma enqueue_ok : forall l queue seen, exists new, enqueue l (queue, seen) = (queue ++ new, seen ++ new) /\ NoDup new /\ incl new l /\ (forall x, In x new -> ~ In x seen) /\ (forall x, In x l -> In x (seen ++ new)).
Proof.
  induction l as [|x l IH]; intros queue seen.
  - exists []. unfold enqueue. cbn [fold_left]. rewrite !app_nil_r. split; [reflexivity|]. split; [constructor|]. split; [intros y []|]. split; [intros y []|intros y []].
  - unfold enqueue in *. cbn [fold_left]. destruct (existsb (zlist_eqb x) seen) eqn:E.
    + apply existsb_zlist in E. destruct (IH queue seen) as (new & Q & N & I & D & C). exists new. split; [exact Q|]. split; [exact N|]. split; [apply incl_tl; exact I|]. split; [exact D|]. intros y [<-|Hy]; [apply in_app_iff; left; exact E|apply C; exact Hy].
    + assert (E' : ~ In x seen) by (rewrite <- existsb_zlist; congruence). destruct (IH (queue ++ [x]) (seen ++ [x])) as (new & Q & N & I & D & C). exists (x :: new). rewrite <- !app_assoc in Q. split; [exact Q|].
      split; [constructor; [|exact N]; intro H; apply (D x H); apply in_app_iff; right; left; reflexivity|]. split; [intros y [<-|Hy]; [left; reflexivity|right; apply I; exact Hy]|].
      split; [intros y [<-|Hy]; [exact E'|]; intro H; apply (D y Hy); apply in_app_iff; left; exact H|]. intros y [<-|Hy]; [apply in_app_iff; right; left; reflexivity|]. specialize (C y Hy). rewrite <- app_assoc in C. exact C.
Qed.

(* the box and its top *)
Fixpoint top (m : nat) : list Z := match m with O => [] | S m' => 2 * Z.of_nat m' + 1 :: top m' end.
Lemma zrange_shift : forall a b, zrange (a + 1) (b + 1) = map (fun x => x + 1) (zrange a b).
Proof. intros a b. unfold zrange. rewrite map_map. replace (b + 1 - (a + 1)) with (b - a) by lia. apply map_ext. intro k. lia. Qed.
Lemma down_two_top : forall m, down_two (2 * Z.of_nat m - 1) 0 = top m.
Proof.
  intro m. unfold down_two. replace ((2 * Z.of_nat m - 1 - 0 + 1) / 2) with (Z.of_nat m) by (apply Z.div_unique with 0; lia).
  induction m as [|m IH]; [reflexivity|]. cbn [top]. rewrite zrange_cons by lia. replace (Z.of_nat (S m)) with (Z.of_nat m + 1) by lia. rewrite zrange_shift. cbn [map]. f_equal; [lia|]. rewrite <- IH, map_map. apply map_ext. intro x. lia.
Qed.
Lemma top_len : forall m, length (top m) = m.
Proof. induction m as [|m IH]; [reflexivity|]. cbn [top length]. lia. Qed.
Lemma top_box : forall m, inbox (top m).
Proof. induction m as [|m IH]; [exact I|]. cbn [top inbox]. split; [unfold zlen; rewrite top_len; lia|exact IH]. Qed.
Definition zsum (l : list Z) : Z := fold_right Z.add 0 l.
Lemma lowered_ok : forall delta x, inbox delta -> In x (lowered delta) -> inbox x /\ length x = length delta /\ zsum x = zsum delta - 1.
Proof.
  induction delta as [|d delta IH]; intros x B H; [destruct H|]. cbn [lowered] in H. destruct B as [Bd B]. apply in_app_iff in H. destruct H as [H|H].
  - destruct (Z.ltb_spec 1 d); [|destruct H]. destruct H as [<-|[]]. cbn [inbox length zsum fold_right]. split; [split; [lia|exact B]|]. split; [reflexivity|]. unfold zsum. lia.
  - apply in_map_iff in H. destruct H as (y & <- & Hy). destruct (IH y B Hy) as (By & Ly & Sy). cbn [inbox length zsum fold_right]. split; [split; [unfold zlen in *; rewrite Ly; exact Bd|exact By]|]. split; [lia|]. fold (zsum y) (zsum delta). lia.
Qed.
Lemma box_sum : forall delta, inbox delta -> zsum delta <= zsum (top (length delta)).
Proof.
  induction delta as [|d delta IH]; intro B; [cbn; lia|]. destruct B as [Bd B]. cbn [length top zsum fold_right]. fold (zsum delta) (zsum (top (length delta))). specialize (IH B). unfold zlen in Bd. lia.
Qed.
Lemma box_raise : forall delta, inbox delta -> delta <> top (length delta) -> exists delta', inbox delta' /\ length delta' = length delta /\ In delta (lowered delta').
Proof.
  induction delta as [|d delta IH]; intros B N; [contradiction N; reflexivity|]. destruct B as [Bd B].
  destruct (Z.eq_dec d (2 * zlen delta + 1)) as [->|Nd].
  - destruct IH as (x & Bx & Lx & Ix); [exact B|intro E; apply N; cbn [length top]; unfold zlen; rewrite <- E; reflexivity|]. exists (2 * zlen delta + 1 :: x). cbn [inbox length lowered]. split; [split; [unfold zlen in *; rewrite Lx; lia|exact Bx]|]. split; [lia|].
    apply in_app_iff. right. apply in_map. exact Ix.
  - exists (d + 1 :: delta). cbn [inbox length lowered]. split; [split; [lia|exact B]|]. split; [reflexivity|]. apply in_app_iff. left. destruct (Z.ltb_spec 1 (d + 1)); [|lia]. left. f_equal. lia.
Qed.
(* a finite list containing the box *)
Fixpoint boxl (m : nat) : list (list Z) := match m with O => [[]] | S m' => flat_map (fun d => map (cons d) (boxl m')) (zrange 1 (2 * Z.of_nat m' + 2)) end.
Lemma boxl_all : forall delta, inbox delta -> In delta (boxl (length delta)).
Proof.
  induction delta as [|d delta IH]; intro B; [left; reflexivity|]. destruct B as [Bd B]. cbn [length boxl]. apply in_flat_map. exists d. split; [apply In_zrange; unfold zlen in Bd; lia|]. apply in_map. apply IH. exact B.
Qed.

Section Loop.
  Variable numbers : list Z.
  Variable m : nat.
  Hypothesis HL : length numbers = (2 * m)%nat.
  Hypothesis HN : NoDup numbers.
  Hypothesis HF : Forall (fun x => 0 < x) numbers.
  Definition inb (delta : list Z) : Prop := inbox delta /\ length delta = m.
  Definition val (delta : list Z) : list Z := match create delta numbers pid with Ok w => w | Err _ => [] end.
  Lemma val_ok : forall delta, inb delta -> create delta numbers pid = Ok (val delta) /\ supp_inv numbers (val delta).
  Proof.
    intros delta [B L]. destruct (create_pid delta numbers) as (v & C & S); [unfold zlen; rewrite HL, L; lia|exact HN|exact HF|exact B|]. unfold val. rewrite C. split; [reflexivity|exact S].
  Qed.
  Lemma val_inj : forall d d', inb d -> inb d' -> val d = val d' -> d = d'.
  Proof.
    intros d d' Hd Hd' E. destruct (val_ok d Hd) as [C _]. destruct (val_ok d' Hd') as [C' _]. rewrite <- E in C'. destruct Hd as [B L], Hd' as [B' L'].
    apply (create_inj d d' numbers (val d)); try assumption; unfold zlen; rewrite HL; lia.
  Qed.
  Lemma closed_all : forall P, In (top m) P -> (forall x y, In x P -> In y (lowered x) -> In y P) -> forall y, inb y -> In y P.
  Proof.
    intros P Ht Cl. assert (T : forall k y, Z.to_nat (zsum (top m) - zsum y) = k -> inb y -> In y P); [|intros y; eapply T; reflexivity].
    induction k as [|k IHk]; intros y Ek By; pose proof By as [By1 By2]; pose proof (box_sum y By1) as Bs; rewrite By2 in Bs;
      (destruct (list_eq_dec Z.eq_dec y (top m)) as [->|Ny]; [exact Ht|]; destruct (box_raise y By1) as (z & Bz & Lz & Iz); [rewrite By2; exact Ny|];
       destruct (lowered_ok z y Bz Iz) as (_ & _ & Sz); pose proof (box_sum z Bz) as Bsz; rewrite Lz, By2 in Bsz).
    - exfalso. lia.
    - apply (Cl z y); [|exact Iz]. apply IHk; [lia|]. split; [exact Bz|lia].
  Qed.
  Lemma loop_ok : forall fuel P Q seen,
    NoDup (P ++ Q) -> (forall x, In x (P ++ Q) -> inb x) -> (forall x, In x (P ++ Q) <-> x = top m \/ In x seen) ->
    (forall x y, In x P -> In y (lowered x) -> In y (P ++ Q)) -> (length (boxl m) <= fuel + length P)%nat ->
    exists R, (forall fuel' ans, (fuel <= fuel')%nat -> delta_loop fuel' Q seen numbers ans = Ok (ans ++ map val R)) /\ NoDup (P ++ R) /\ (forall x, In x (P ++ R) <-> inb x).
  Proof.
    induction fuel as [|fuel IH]; intros P Q seen N B Sn Cl Fu; (destruct Q as [|delta Q];
      [exists []; cbn [map]; rewrite !app_nil_r in *; (split; [intros [|fuel'] ans _; cbn [delta_loop]; rewrite app_nil_r; reflexivity|]; split; [exact N|]; intro x; split; [apply B|apply closed_all; [apply Sn; left; reflexivity|exact Cl]])|]).
    - exfalso. assert (L : (length (P ++ delta :: Q) <= length (boxl m))%nat). { apply NoDup_incl_length; [exact N|]. intros x Hx. destruct (B x Hx) as [Bx <-]. apply boxl_all. exact Bx. } rewrite app_length in L. cbn [length] in L. lia.
    - assert (Bd : inb delta) by (apply B; apply in_app_iff; right; left; reflexivity). destruct (val_ok delta Bd) as [C _].
      destruct (enqueue_ok (lowered delta) Q seen) as (new & E & Nn & In_ & Dn & Cn).
        assert (Low : forall y, In y (lowered delta) -> inb y /\ y <> top m).
        { intros y Hy. destruct Bd as [Bd Ld]. destruct (lowered_ok delta y Bd Hy) as (By & Ly & Sy). split; [split; [exact By|lia]|]. intros ->. pose proof (box_sum delta Bd) as Bs. rewrite Ld in Bs. lia. }
        assert (EQ : (P ++ [delta]) ++ Q ++ new = (P ++ delta :: Q) ++ new) by (rewrite <- !app_assoc; reflexivity).
        destruct (IH (P ++ [delta]) (Q ++ new) (seen ++ new)) as (R & ER & NR & CR).
        * rewrite EQ. apply NoDup_app_intro; [exact N|exact Nn|]. intros x H1 H2. apply Sn in H1. destruct H1 as [->|H1]; [apply (proj2 (Low _ (In_ _ H2))); reflexivity|exact (Dn x H2 H1)].
        * rewrite EQ. intros x Hx. apply in_app_iff in Hx. destruct Hx as [Hx|Hx]; [apply B; exact Hx|]. apply Low. apply In_. exact Hx.
        * rewrite EQ. intro x. rewrite in_app_iff, (Sn x), in_app_iff. tauto.
        * rewrite EQ. intros x y Hx Hy. apply in_app_iff. apply in_app_iff in Hx. destruct Hx as [Hx|[<-|[]]]; [left; exact (Cl x y Hx Hy)|]. specialize (Cn y Hy). apply in_app_iff in Cn. destruct Cn as [Cn|Cn]; [left; apply Sn; right; exact Cn|right; exact Cn].
        * rewrite app_length. cbn [length]. lia.
        * exists (delta :: R). split; [intros [|fuel'] ans Hf; [lia|]; cbn [delta_loop]; rewrite C; cbn [rbind map]; rewrite E, ER by lia; rewrite <- app_assoc; reflexivity|]. rewrite <- app_assoc in NR, CR. split; assumption.
  Qed.
  Lemma delta_loop_ok : exists R, (forall fuel ans, (length (boxl m) <= fuel)%nat -> delta_loop fuel [top m] [] numbers ans = Ok (ans ++ R)) /\ NoDup R /\ forall w, In w R <-> supp_inv numbers w.
  Proof.
    destruct (loop_ok (length (boxl m)) [] [top m] []) as (R & E & N & C).
    - repeat constructor. intros [].
    - intros x [<-|[]]. split; [apply top_box|apply top_len].
    - intro x. cbn [app In]. intuition congruence.
    - intros x y [].
    - cbn [length]. lia.
    - exists (map val R). split; [exact E|]. cbn [app] in N, C. split; [apply NoDup_map_inj_in; [|exact N]; intros x y Hx Hy; apply val_inj; apply C; assumption|].
      intro w. rewrite in_map_iff. split; [intros (d & <- & Hd); apply val_ok; apply C; exact Hd|]. intro Sw. destruct (create_onto m numbers w HL HN HF Sw) as (d & Ld & Bd & Cd). exists d. split; [unfold val; rewrite Cd; reflexivity|]. apply C. split; assumption.
  Qed.
End Loop.
