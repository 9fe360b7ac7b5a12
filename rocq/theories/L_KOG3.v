(* Fillings of a rim as words along it, generated from the last letter; the numbers of words. *)
From Coq Require Import List ZArith Lia Bool Permutation Sorted.
From Verif Require Import PyBase L_PartEnum M_Tableaux L_Tableaux M_Rims L_Rims2 M_KOG S_KOG L_KOG1 L_KOG2.
Import ListNotations.
Local Open Scope Z_scope.

(* cells listed from the north-east end: each next cell is left of, below, or apart from the previous one *)
Fixpoint rpath (R : list box) : Prop :=
  match R with
  | [] => True
  | x :: R' => rpath R' /\ match R' with
               | [] => True
               | y :: _ => (fst x = fst y /\ snd x = snd y + 1) \/ (fst x = fst y - 1 /\ snd x = snd y) \/ (fst x < fst y /\ snd y < snd x)
               end
  end.
Lemma rpath_mono : forall R x z, rpath (x :: R) -> In z R -> fst x <= fst z /\ snd z <= snd x /\ (fst x < fst z \/ snd z < snd x).
Proof.
  induction R as [|y R IH]; intros x z [P S] H; [destruct H|]. destruct H as [<-|H]; [lia|]. destruct (IH y z P H) as (A & B & C). lia.
Qed.
Lemma rpath_NoDup : forall R, rpath R -> NoDup R.
Proof. induction R as [|x R IH]; intro P; [constructor|]. constructor; [|apply IH; apply P]. intro H. pose proof (rpath_mono R x x P H). lia. Qed.

Lemma len_filter_map : forall A B (f : B -> bool) (g : A -> B) l, length (filter f (map g l)) = length (filter (fun x => f (g x)) l).
Proof. intros A B f g. induction l as [|x l IH]; [reflexivity|]. cbn [map filter]. destruct (f (g x)); cbn [length]; rewrite IH; reflexivity. Qed.
Lemma len_all : forall A (f : A -> bool) l, (forall x, In x l -> f x = true) -> length (filter f l) = length l.
Proof. intros A f. induction l as [|x l IH]; intro H; [reflexivity|]. cbn [filter]. rewrite (H x (or_introl eq_refl)). cbn [length]. rewrite IH; [reflexivity|]. intros y Hy. apply H. right. exact Hy. Qed.
Lemma len_none : forall A (f : A -> bool) l, (forall x, In x l -> f x = false) -> length (filter f l) = 0%nat.
Proof. intros A f. induction l as [|x l IH]; intro H; [reflexivity|]. cbn [filter]. rewrite (H x (or_introl eq_refl)). apply IH. intros y Hy. apply H. right. exact Hy. Qed.
Lemma len_ext : forall A (f g : A -> bool) l, (forall x, In x l -> f x = g x) -> length (filter f l) = length (filter g l).
Proof. intros A f g l H. f_equal. apply filter_ext_In. exact H. Qed.

Definition row_eq (x y : box) : bool := fst x =? fst y.
Definition col_eq (x y : box) : bool := snd x =? snd y.
Definition okw (r : Z -> Z) (x : box) (R : list box) (w : list Z) : bool :=
  match R, w with
  | y :: _, v :: u :: _ => if row_eq x y then r u <? r v else if col_eq x y then r v <? r u else true
  | _, _ => true
  end.

Section Gen.
  Variables (r sh : Z -> Z) (low : Z) (lowok : nat -> box -> bool).
  Fixpoint gen (R : list box) (p : nat) : list (list Z) :=
    match R, p with
    | [], O => [[]]
    | [], S _ => []
    | _ :: _, O => []
    | x :: R', S q =>
        filter (okw r x R') (map (cons (Z.of_nat p)) (gen R' p ++ gen R' q))
        ++ if lowok p x then filter (okw r x R') (map (cons low) (gen R' p ++ map (map sh) (gen R' q))) else []
    end.
  Definition N (p : nat) (R : list box) : nat := length (gen R p).
  Definition headlt (b : Z) (w : list Z) : bool := match w with h :: _ => r h <? b | [] => true end.
  Definition headgt (b : Z) (w : list Z) : bool := match w with h :: _ => b <? r h | [] => true end.
  Definition Lo (p : nat) (R : list box) : nat := length (filter (headlt (r (Z.of_nat p))) (gen R p)).
  Definition Hi (p : nat) (R : list box) : nat := length (filter (headgt (r low)) (gen R p)).

  Hypothesis r_step : forall p, (1 <= p)%nat -> r (Z.of_nat p) < r (Z.of_nat (S p)).
  Hypothesis r_low : forall p x, (1 <= p)%nat -> lowok p x = true -> r low < r (Z.of_nat p).
  Hypothesis sh_low : r low < r (sh low).
  Hypothesis sh_p : forall p, (1 <= p)%nat -> r low < r (sh (Z.of_nat p)).

  Lemma gen_head : forall p x R w, In w (gen (x :: R) p) -> (1 <= p)%nat /\ exists w', w = Z.of_nat p :: w' \/ (w = low :: w' /\ lowok p x = true).
  Proof.
    intros [|q] x R w H; cbn [gen] in H; [destruct H|]. split; [lia|]. apply in_app_iff in H. destruct H as [H|H].
    - apply filter_In in H. destruct H as [H _]. apply in_map_iff in H. destruct H as (w' & <- & _). exists w'. left. reflexivity.
    - destruct (lowok (S q) x); [|destruct H]. apply filter_In in H. destruct H as [H _]. apply in_map_iff in H. destruct H as (w' & <- & _). exists w'. right. split; reflexivity.
  Qed.

  Definition T (q : nat) (R : list box) : nat := (N (S q) R + N q R)%nat.
  Lemma N_apart : forall q x R, (match R with [] => True | y :: _ => row_eq x y = false /\ col_eq x y = false end) ->
    N (S q) (x :: R) = ((if lowok (S q) x then 2 else 1) * T q R)%nat.
  Proof.
    intros q x R H. unfold N, T, N. cbn [gen].
    assert (E : forall v l, length (filter (okw r x R) (map (cons v) l)) = length l).
    { intros v l. rewrite len_filter_map. apply len_all. intros w _. unfold okw. destruct R as [|y R]; [reflexivity|]. destruct H as [H1 H2]. rewrite H1, H2. destruct w; reflexivity. }
    rewrite app_length, E. destruct (lowok (S q) x); [rewrite E|cbn [length]]; rewrite ?app_length, ?map_length; lia.
  Qed.
  Lemma Lo_apart : forall q x R, (match R with [] => True | y :: _ => row_eq x y = false /\ col_eq x y = false end) ->
    Lo (S q) (x :: R) = if lowok (S q) x then T q R else 0%nat.
  Proof.
    intros q x R H. unfold Lo, T, N. cbn [gen].
    assert (E : forall v l, filter (okw r x R) (map (cons v) l) = map (cons v) l).
    { intros v l. induction l as [|w l IH]; [reflexivity|]. cbn [map filter]. replace (okw r x R (v :: w)) with true; [rewrite IH; reflexivity|]. symmetry. unfold okw. destruct R as [|y R]; [reflexivity|]. destruct H as [H1 H2]. rewrite H1, H2. destruct w; reflexivity. }
    rewrite filter_app, app_length, E, len_filter_map, len_none by (intros w _; cbn [headlt]; apply Z.ltb_irrefl). destruct (lowok (S q) x) eqn:L; [|reflexivity]. rewrite E, len_filter_map, len_all; [rewrite app_length, map_length; reflexivity|]. intros w _. cbn [headlt]. apply Z.ltb_lt. apply (r_low (S q) x); [lia|exact L].
  Qed.
  Lemma Hi_apart : forall q x R, lowok (S q) x = true \/ r low < r (Z.of_nat (S q)) -> (match R with [] => True | y :: _ => row_eq x y = false /\ col_eq x y = false end) -> Hi (S q) (x :: R) = T q R.
  Proof.
    intros q x R HL H. unfold Hi, T, N. cbn [gen].
    assert (E : forall v l, filter (okw r x R) (map (cons v) l) = map (cons v) l).
    { intros v l. induction l as [|w l IH]; [reflexivity|]. cbn [map filter]. replace (okw r x R (v :: w)) with true; [rewrite IH; reflexivity|]. symmetry. unfold okw. destruct R as [|y R]; [reflexivity|]. destruct H as [H1 H2]. rewrite H1, H2. destruct w; reflexivity. }
    rewrite filter_app, app_length, E, len_filter_map, len_all.
    - destruct (lowok (S q) x); [|rewrite app_length; cbn; lia]. rewrite E, len_filter_map, len_none; [rewrite app_length; lia|]. intros w _. cbn [headgt]. apply Z.ltb_irrefl.
    - intros w _. cbn [headgt]. apply Z.ltb_lt. destruct HL as [HL|HL]; [apply (r_low (S q) x); [lia|exact HL]|exact HL].
  Qed.

  Lemma N_right : forall q x y L, row_eq x y = true -> N (S q) (x :: y :: L) = (Lo (S q) (y :: L) + N q (y :: L))%nat.
  Proof.
    intros q x y L H. unfold N at 1. change (gen (x :: y :: L) (S q)) with (filter (okw r x (y :: L)) (map (cons (Z.of_nat (S q))) (gen (y :: L) (S q) ++ gen (y :: L) q)) ++ if lowok (S q) x then filter (okw r x (y :: L)) (map (cons low) (gen (y :: L) (S q) ++ map (map sh) (gen (y :: L) q))) else []).
    rewrite app_length, map_app, filter_app, app_length, !len_filter_map.
    replace (length (filter (fun w => okw r x (y :: L) (Z.of_nat (S q) :: w)) (gen (y :: L) (S q)))) with (Lo (S q) (y :: L)).
    2: { apply len_ext. intros w Hw. apply gen_head in Hw. destruct Hw as [_ [w' [->|[-> _]]]]; cbn [okw headlt]; rewrite H; reflexivity. }
    rewrite (len_all _ _ (gen (y :: L) q)). 2: { intros w Hw. apply gen_head in Hw. destruct Hw as [Q (w' & [->|[-> K]])]; cbn [okw]; rewrite H; apply Z.ltb_lt; [apply r_step; exact Q|]. pose proof (r_low q y Q K). pose proof (r_step q Q). lia. }
    assert (Z0 : length (if lowok (S q) x then filter (okw r x (y :: L)) (map (cons low) (gen (y :: L) (S q) ++ map (map sh) (gen (y :: L) q))) else []) = 0%nat).
    { destruct (lowok (S q) x) eqn:K; [|reflexivity]. rewrite len_filter_map. apply len_none. intros w Hw. apply in_app_iff in Hw. destruct Hw as [Hw|Hw].
      - apply gen_head in Hw. destruct Hw as [Q (w' & [->|[-> _]])]; cbn [okw]; rewrite H; apply Z.ltb_ge; [|lia]. pose proof (r_low (S q) x Q K). lia.
      - apply in_map_iff in Hw. destruct Hw as (w0 & <- & Hw). apply gen_head in Hw. destruct Hw as [Q (w' & [->|[-> _]])]; cbn [okw map]; rewrite H; apply Z.ltb_ge; [pose proof (sh_p q Q)|pose proof sh_low]; lia. }
    rewrite Z0. unfold N. lia.
  Qed.
  Lemma N_above : forall q x y L, row_eq x y = false -> col_eq x y = true -> N (S q) (x :: y :: L) = if lowok (S q) x then (Hi (S q) (y :: L) + N q (y :: L))%nat else 0%nat.
  Proof.
    intros q x y L H H'. unfold N at 1. change (gen (x :: y :: L) (S q)) with (filter (okw r x (y :: L)) (map (cons (Z.of_nat (S q))) (gen (y :: L) (S q) ++ gen (y :: L) q)) ++ if lowok (S q) x then filter (okw r x (y :: L)) (map (cons low) (gen (y :: L) (S q) ++ map (map sh) (gen (y :: L) q))) else []).
    rewrite app_length. assert (Z0 : length (filter (okw r x (y :: L)) (map (cons (Z.of_nat (S q))) (gen (y :: L) (S q) ++ gen (y :: L) q))) = 0%nat).
    { rewrite len_filter_map. apply len_none. intros w Hw. apply in_app_iff in Hw. destruct Hw as [Hw|Hw]; apply gen_head in Hw; destruct Hw as [Q (w' & [->|[-> K]])]; cbn [okw]; rewrite H, H'; apply Z.ltb_ge.
      - lia.
      - pose proof (r_low (S q) y Q K). lia.
      - pose proof (r_step q Q). lia.
      - pose proof (r_low q y Q K). pose proof (r_step q Q). lia. }
    rewrite Z0. cbn [Nat.add]. destruct (lowok (S q) x) eqn:K; [|reflexivity]. rewrite len_filter_map, filter_app, app_length, len_filter_map. f_equal.
    - unfold Hi. apply len_ext. intros w Hw. apply gen_head in Hw. destruct Hw as [_ [w' [->|[-> _]]]]; cbn [okw headgt]; rewrite H, H'; reflexivity.
    - apply len_all. intros w Hw. apply gen_head in Hw. destruct Hw as [Q (w' & [->|[-> _]])]; cbn [okw map]; rewrite H, H'; apply Z.ltb_lt; [apply sh_p; exact Q|exact sh_low].
  Qed.
  (* heads of words over a corner *)
  Lemma heads_right : forall p x y L w, row_eq x y = true -> In w (gen (x :: y :: L) p) -> exists w', w = Z.of_nat p :: w'.
  Proof.
    intros [|q] x y L w H Hw; [destruct Hw|]. change (gen (x :: y :: L) (S q)) with (filter (okw r x (y :: L)) (map (cons (Z.of_nat (S q))) (gen (y :: L) (S q) ++ gen (y :: L) q)) ++ if lowok (S q) x then filter (okw r x (y :: L)) (map (cons low) (gen (y :: L) (S q) ++ map (map sh) (gen (y :: L) q))) else []) in Hw. apply in_app_iff in Hw. destruct Hw as [Hw|Hw].
    - apply filter_In in Hw. destruct Hw as [Hw _]. apply in_map_iff in Hw. destruct Hw as (w' & <- & _). exists w'. reflexivity.
    - exfalso. destruct (lowok (S q) x) eqn:K; [|destruct Hw]. apply filter_In in Hw. destruct Hw as [Hw O]. apply in_map_iff in Hw. destruct Hw as (w' & <- & Hw). apply in_app_iff in Hw. destruct Hw as [Hw|Hw].
      + apply gen_head in Hw. destruct Hw as [Q (w0 & [->|[-> _]])]; cbn [okw] in O; rewrite H in O; apply Z.ltb_lt in O; [|lia]. pose proof (r_low (S q) x Q K). lia.
      + apply in_map_iff in Hw. destruct Hw as (w1 & <- & Hw). apply gen_head in Hw. destruct Hw as [Q (w0 & [->|[-> _]])]; cbn [okw map] in O; rewrite H in O; apply Z.ltb_lt in O; [pose proof (sh_p q Q)|pose proof sh_low]; lia.
  Qed.
  Lemma heads_above : forall p x y L w, row_eq x y = false -> col_eq x y = true -> In w (gen (x :: y :: L) p) -> lowok p x = true /\ exists w', w = low :: w'.
  Proof.
    intros [|q] x y L w H H' Hw; [destruct Hw|]. change (gen (x :: y :: L) (S q)) with (filter (okw r x (y :: L)) (map (cons (Z.of_nat (S q))) (gen (y :: L) (S q) ++ gen (y :: L) q)) ++ if lowok (S q) x then filter (okw r x (y :: L)) (map (cons low) (gen (y :: L) (S q) ++ map (map sh) (gen (y :: L) q))) else []) in Hw. apply in_app_iff in Hw. destruct Hw as [Hw|Hw].
    - exfalso. apply filter_In in Hw. destruct Hw as [Hw O]. apply in_map_iff in Hw. destruct Hw as (w' & <- & Hw). apply in_app_iff in Hw. destruct Hw as [Hw|Hw]; apply gen_head in Hw; destruct Hw as [Q (w0 & [->|[-> K]])]; cbn [okw] in O; rewrite H, H' in O; apply Z.ltb_lt in O.
      + lia.
      + pose proof (r_low (S q) y Q K). lia.
      + pose proof (r_step q Q). lia.
      + pose proof (r_low q y Q K). pose proof (r_step q Q). lia.
    - destruct (lowok (S q) x) eqn:K; [|destruct Hw]. split; [reflexivity|]. apply filter_In in Hw. destruct Hw as [Hw _]. apply in_map_iff in Hw. destruct Hw as (w' & <- & _). exists w'. reflexivity.
  Qed.
  Lemma Lo_right : forall p x y L, row_eq x y = true -> Lo p (x :: y :: L) = 0%nat.
  Proof. intros p x y L H. apply len_none. intros w Hw. apply heads_right in Hw; [|exact H]. destruct Hw as [w' ->]. cbn [headlt]. apply Z.ltb_irrefl. Qed.
  Lemma Lo_above : forall p x y L, row_eq x y = false -> col_eq x y = true -> Lo p (x :: y :: L) = N p (x :: y :: L).
  Proof.
    intros p x y L H H'. apply len_all. intros w Hw. pose proof (gen_head _ _ _ _ Hw) as [Q _]. apply heads_above in Hw; [|exact H|exact H']. destruct Hw as [K [w' ->]]. cbn [headlt]. apply Z.ltb_lt. apply (r_low p x Q K).
  Qed.
  Lemma Hi_right : forall p x y L, r low < r (Z.of_nat p) -> row_eq x y = true -> Hi p (x :: y :: L) = N p (x :: y :: L).
  Proof. intros p x y L K H. apply len_all. intros w Hw. apply heads_right in Hw; [|exact H]. destruct Hw as [w' ->]. cbn [headgt]. apply Z.ltb_lt. exact K. Qed.
  Lemma Hi_above : forall p x y L, row_eq x y = false -> col_eq x y = true -> Hi p (x :: y :: L) = 0%nat.
  Proof. intros p x y L H H'. apply len_none. intros w Hw. apply heads_above in Hw; [|exact H|exact H']. destruct Hw as [_ [w' ->]]. cbn [headgt]. apply Z.ltb_irrefl. Qed.
End Gen.
