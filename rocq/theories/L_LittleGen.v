(* pushes of marked words, for any notion of product and of reduced word with the exchange property *)
From Coq Require Import List ZArith Bool Lia.
From Verif Require Import PyBase FinSum M_Partitions M_Perm S_Perm S_Bruhat L_Perm L_PermLen L_PermWord M_Bruhat L_Bruhat M_Little L_Little1 L_Little2.
Import ListNotations.
Local Open Scope Z_scope.

Definition ok1 (v : list Z) : Prop := Forall (fun i => 1 <= i) v.
Lemma ok1_mid : forall A c B, ok1 (A ++ c :: B) <-> ok1 A /\ 1 <= c /\ ok1 B.
Proof. intros. unfold ok1. rewrite Forall_app. split; [intros [H1 H2]; inversion H2; subst; auto|intros (H1 & H2 & H3); auto]. Qed.
Lemma ok1_app : forall A B, ok1 (A ++ B) <-> ok1 A /\ ok1 B.
Proof. intros. apply Forall_app. Qed.
Lemma ok1_gens : forall v, ok1 v -> gens v.
Proof. intros v H. unfold gens. apply (Forall_impl _ (P := fun i => 1 <= i)); [intros; lia|exact H]. Qed.
Lemma ok1_raise : forall w i, ok1 w -> 0 <= i < zlen w -> ok1 (raise_at i w).
Proof. intros w i G Hi. destruct (cut_at w i Hi) as (A & c & B & -> & <-). rewrite raise_split. apply ok1_mid in G. apply ok1_mid. split; [tauto|]. split; [lia|tauto]. Qed.
Lemma ok1_delete : forall w i, ok1 w -> 0 <= i < zlen w -> ok1 (delete_at i w).
Proof. intros w i G Hi. destruct (delete_cases w i Hi) as (p & s & q & -> & _ & ->). apply ok1_mid in G. apply ok1_app. tauto. Qed.

Section Bumps.
Variable val : list Z -> list Z.
Variable red : list Z -> Prop.
Variable bd : list Z -> Z.
Variable push : list Z -> Z -> res (list Z * option Z).
Hypothesis red_ok1 : forall v, red v -> ok1 v.
Hypothesis red_val : forall u v, red u -> ok1 v -> val v = val u -> zlen v = zlen u -> red v.
Hypothesis red_bd : forall v x, red v -> In x v -> x < bd (val v).
Hypothesis bd_nonneg : forall y, 0 <= bd y.
Hypothesis defect_two : forall w i j, ok1 w -> 0 <= i < zlen w -> 0 <= j < zlen w -> i <> j -> val (delete_at i w) = val (delete_at j w) -> ~ red w.
Hypothesis defect_three : forall w i j k, ok1 w -> 0 <= i < zlen w -> 0 <= j < zlen w -> 0 <= k < zlen w -> i <> j -> i <> k -> red (delete_at i w) ->
  val (delete_at j w) = val (delete_at i w) -> val (delete_at k w) = val (delete_at i w) -> j = k.

Definition gst (y w : list Z) (i : Z) : Prop := ok1 w /\ 0 <= i < zlen w /\ red (delete_at i w) /\ val (delete_at i w) = y.
Definition gother (y v : list Z) (p q : Z) : Prop := 0 <= q < zlen v /\ q <> p /\ val (delete_at q v) = y.
Hypothesis push_ok : forall y w i, gst y w i ->
  (red (raise_at i w) /\ push w i = Ok (raise_at i w, None)) \/
  (~ red (raise_at i w) /\ exists j, push w i = Ok (raise_at i w, Some j) /\ gother y (raise_at i w) i j).
Fixpoint gloop (fuel : nat) (word : list Z) (i : option Z) : res (list Z) :=
  match i with
  | None => Ok word
  | Some i =>
      match fuel with
      | O => Err OutOfFuel
      | S fuel' => do r <- push word i; gloop fuel' (fst r) (snd r)
      end
  end.
Lemma st_other : forall y w i j, gst y w i -> gother y (raise_at i w) i j -> gst y (raise_at i w) j.
Proof.
  intros y w i j (G & Hi & R & E) (Hj & N & Ej). pose proof (ok1_raise w i G Hi) as G'. split; [exact G'|]. split; [exact Hj|]. split; [|exact Ej].
  apply (red_val _ _ R); [apply ok1_delete; assumption|congruence|]. rewrite !delete_len by assumption. rewrite raise_len by assumption. reflexivity.
Qed.
(* the run of a bump, first push first *)
Inductive gbumps (y : list Z) : list Z -> Z -> list Z -> Z -> Prop :=
| gbumps_last : forall w i, gst y w i -> red (raise_at i w) -> gbumps y w i (raise_at i w) i
| gbumps_step : forall w i j r k, gst y w i -> ~ red (raise_at i w) -> gother y (raise_at i w) i j -> gbumps y (raise_at i w) j r k -> gbumps y w i r k.

Lemma small_next : forall y w i j, gst y w i -> gother y (raise_at i w) i j -> (forall k, 0 <= k < zlen w -> k <> i -> nthz w k < bd y) /\ Forall (fun x => x < bd y) (raise_at i w).
Proof.
  intros y w i j S O. pose proof (st_other _ _ _ _ S O) as S'. destruct S as (G & Hi & R & E), S' as (G' & Hj & R' & E').
  assert (K : forall k, 0 <= k < zlen w -> k <> i -> nthz w k < bd y).
  { intros k Hk N. pose proof (red_bd _ _ R (delete_in_other w i k Hi Hk N)) as X. rewrite E in X. lia. }
  split; [exact K|]. apply Forall_forall. intros x Hx. destruct (in_delete _ j x Hj Hx) as [->|Hd].
  - destruct O as (_ & N & _). rewrite raise_other by (try assumption; lia). apply K; [rewrite <- (raise_len w i Hi); exact Hj|exact N].
  - pose proof (red_bd _ _ R' Hd) as X. rewrite E' in X. lia.
Qed.
Lemma loop_small : forall fuel y w i, gst y w i -> Forall (fun x => x < bd y) w -> zlen w * bd y - zsum w < Z.of_nat fuel ->
  exists r k, gloop fuel w (Some i) = Ok r /\ gbumps y w i r k.
Proof.
  induction fuel as [|fuel IH]; intros y w i S F L; [pose proof (zsum_bound _ _ F); pose proof S as (_ & Hi & _); lia|]. cbn [gloop]. destruct (push_ok y w i S) as [[R P]|(N & j & P & O)]; rewrite P; cbn [rbind fst snd].
  - exists (raise_at i w), i. split; [destruct fuel; reflexivity|]. constructor; assumption.
  - destruct (small_next y w i j S O) as [_ F']. pose proof S as (_ & Hi & _). destruct (IH y (raise_at i w) j (st_other _ _ _ _ S O) F') as (r & k & E & B); [rewrite raise_len, raise_sum by exact Hi; lia|].
    exists r, k. split; [exact E|]. apply (gbumps_step y w i j r k); assumption.
Qed.
Lemma loop_ok : forall fuel y w i, gst y w i -> zlen w * bd y + 1 < Z.of_nat fuel -> exists r k, gloop fuel w (Some i) = Ok r /\ gbumps y w i r k.
Proof.
  intros [|fuel] y w i S L; [pose proof (zlen_nonneg _ w); pose proof (bd_nonneg y); lia|]. cbn [gloop]. destruct (push_ok y w i S) as [[R P]|(N & j & P & O)]; rewrite P; cbn [rbind fst snd].
  - exists (raise_at i w), i. split; [destruct fuel; reflexivity|]. constructor; assumption.
  - destruct (small_next y w i j S O) as [_ F']. pose proof S as (G & Hi & _). pose proof (st_other _ _ _ _ S O) as S'. destruct (loop_small fuel y (raise_at i w) j S' F') as (r & k & E & B).
    + rewrite raise_len by exact Hi. assert (0 <= zsum (raise_at i w)); [|lia]. destruct S' as (G' & _). clear -G'. induction G' as [|x l Hx F IH]; cbn [zsum]; lia.
    + exists r, k. split; [exact E|]. apply (gbumps_step y w i j r k); assumption.
Qed.
Lemma gbumps_facts : forall y w i r k, gbumps y w i r k -> red r /\ zlen r = zlen w /\ 0 <= k < zlen r /\ red (delete_at k r) /\ val (delete_at k r) = y /\
  (forall x, 0 <= x -> nthz w x <= nthz r x) /\ nthz w i < nthz r i.
Proof.
  intros y w i r k B. induction B as [w i (G & Hi & R & E) Rr|w i j r k S N O B IH].
  - split; [exact Rr|]. split; [apply raise_len; exact Hi|]. split; [rewrite raise_len; exact Hi|]. rewrite raise_delete by exact Hi. split; [exact R|]. split; [exact E|]. rewrite raise_nth by exact Hi.
    split; [|lia]. intros x Hx. destruct (Z.eq_dec x i) as [->|Nx]; [rewrite raise_nth by exact Hi; lia|rewrite raise_other by assumption; lia].
  - pose proof S as (_ & Hi & _). destruct IH as (R1 & R2 & R3 & R4 & R5 & R6 & R7). split; [exact R1|]. split; [rewrite R2; apply raise_len; exact Hi|]. split; [exact R3|]. split; [exact R4|]. split; [exact R5|].
    assert (K : forall x, 0 <= x -> nthz w x <= nthz (raise_at i w) x) by (intros x Hx; destruct (Z.eq_dec x i) as [->|Nx]; [rewrite raise_nth by exact Hi; lia|rewrite raise_other by assumption; lia]).
    split; [intros x Hx; specialize (K x Hx); specialize (R6 x Hx); lia|]. specialize (R6 i ltac:(lia)). rewrite raise_nth in R6 by exact Hi. lia.
Qed.
Definition gstep (y u : list Z) (p : Z) (v : list Z) (q : Z) : Prop := gst y u p /\ v = raise_at p u /\ ~ red v /\ gother y v p q.
Inductive greach (y w : list Z) (i : Z) : list Z -> Z -> Prop :=
| greach_refl : greach y w i w i
| greach_snoc : forall u p v q, greach y w i u p -> gstep y u p v q -> greach y w i v q.
Lemma greach_cons : forall y w i v q u p, gstep y w i v q -> greach y v q u p -> greach y w i u p.
Proof. intros y w i v q u p H R. induction R as [|a b c d R IH T]; [eapply greach_snoc; [constructor|exact H]|eapply greach_snoc; [exact IH|exact T]]. Qed.
Lemma gbumps_reach : forall y w i r k, gbumps y w i r k -> exists u, greach y w i u k /\ gst y u k /\ r = raise_at k u /\ red r.
Proof.
  intros y w i r k B. induction B as [w i S R|w i j r k S N O B IH]; [exists w; split; [constructor|auto]|]. destruct IH as (u & R & T & E & Rr). exists u. split; [|auto].
  apply (greach_cons y w i (raise_at i w) j); [|exact R]. split; [exact S|]. split; [reflexivity|]. split; assumption.
Qed.
Lemma other_unique : forall y w p q q', gst y w p -> 0 <= q < zlen w -> 0 <= q' < zlen w -> q <> p -> q' <> p -> val (delete_at q w) = y -> val (delete_at q' w) = y -> q = q'.
Proof.
  intros y w p q q' (G & Hp & R & E) Hq Hq' N N' E1 E2. apply (defect_three w p q q'); try assumption; congruence.
Qed.
Lemma step_back : forall y u p u' p' v q, gstep y u p v q -> gstep y u' p' v q -> u = u' /\ p = p'.
Proof.
  intros y u p u' p' v q (S & E & N & O) (S' & E' & N' & O'). assert (Q : p = p').
  { pose proof S as (G & Hp & R & Y). pose proof S' as (G' & Hp' & R' & Y'). assert (Sq : gst y v q) by (rewrite E; apply st_other; [exact S|rewrite <- E; exact O]).
    apply (other_unique y v q p p' Sq).
    - rewrite E, raise_len by exact Hp. exact Hp.
    - rewrite E', raise_len by exact Hp'. exact Hp'.
    - intro X. destruct O as (_ & X' & _). congruence.
    - intro X. destruct O' as (_ & X' & _). congruence.
    - rewrite E, raise_delete by exact Hp. exact Y.
    - rewrite E', raise_delete by exact Hp'. exact Y'. }
  split; [|exact Q]. subst p'. destruct S as (_ & Hp & _), S' as (_ & Hp' & _). apply (raise_inj u u' p Hp Hp'). congruence.
Qed.
Lemma greach_back : forall y w i u p, greach y w i u p -> red w -> forall w' i', greach y w' i' u p -> red w' -> w = w' /\ i = i'.
Proof.
  intros y w i u p R Hw. induction R as [|u p v q R IH T]; intros w' i' R' Hw'.
  - destruct R' as [|u p v q R' T]; [auto|]. destruct T as (_ & _ & N & _). contradiction.
  - inversion R' as [|u' p' v' q' R2 T2]; subst; [destruct T as (_ & _ & N & _); contradiction|]. destruct (step_back _ _ _ _ _ _ _ T T2) as [-> ->]. apply IH; assumption.
Qed.
Lemma gbumps_inj : forall y w i w' i' r k k', red w -> red w' -> gbumps y w i r k -> gbumps y w' i' r k' -> w = w'.
Proof.
  intros y w i w' i' r k k' Hw Hw' B B'. destruct (gbumps_reach _ _ _ _ _ B) as (u & R & S & E & Rr). destruct (gbumps_reach _ _ _ _ _ B') as (u' & R' & S' & E' & _).
  pose proof S as (G & Hk & R1 & Y). pose proof S' as (G' & Hk' & R1' & Y').
  assert (Q : k = k').
  { destruct (Z.eq_dec k k') as [|N]; [assumption|exfalso]. apply (defect_two r k k'); try assumption; [apply red_ok1; exact Rr| | |].
    - rewrite E, raise_len by exact Hk. exact Hk.
    - rewrite E', raise_len by exact Hk'. exact Hk'.
    - rewrite E at 1. rewrite E'. rewrite !raise_delete by assumption. congruence. }
  subst k'. assert (u = u') by (apply (raise_inj u u' k Hk Hk'); congruence). subst u'. destruct (greach_back y w i u k R Hw w' i' R' Hw') as [? _]. assumption.
Qed.
Lemma red_adj : forall w k, red w -> 0 <= k -> k + 1 < zlen w -> nthz w k <> nthz w (k + 1).
Proof. intros w k R Hk Hk1 E. apply (defect_two w k (k + 1)); try lia; [apply red_ok1; exact R| |exact R]. rewrite (adj_delete w k Hk Hk1 E). reflexivity. Qed.
Lemma st_adj : forall y w i k, gst y w i -> 0 <= k -> k + 1 < zlen w -> k <> i -> k + 1 <> i -> nthz w k <> nthz w (k + 1).
Proof.
  intros y w i k (G & Hi & R & E) Hk Hk1 N1 N2. pose proof (delete_len w i Hi) as L. destruct (Z_lt_ge_dec k i) as [A|A].
  - pose proof (red_adj _ k R Hk ltac:(lia)) as X. rewrite !delete_nth in X by lia. replace (k <? i) with true in X by lia. replace (k + 1 <? i) with true in X by lia. exact X.
  - pose proof (red_adj _ (k - 1) R ltac:(lia) ltac:(lia)) as X. rewrite !delete_nth in X by lia. replace (k - 1 <? i) with false in X by lia. replace (k - 1 + 1 <? i) with false in X by lia. replace (k - 1 + 1) with k in X by lia. exact X.
Qed.
Lemma tie_other : forall y w i j k, gst y w i -> gother y (raise_at i w) i j -> 0 <= k -> k + 1 < zlen w -> nthz (raise_at i w) k = nthz (raise_at i w) (k + 1) -> (k = i -> j = k + 1) /\ (k + 1 = i -> j = k).
Proof.
  intros y w i j k S O Hk Hk1 E. pose proof S as (G & Hi & R & Y). pose proof (raise_len w i Hi) as L. pose proof (raise_delete w i Hi) as D. pose proof (adj_delete (raise_at i w) k Hk ltac:(lia) E) as A.
  assert (Si : gst y (raise_at i w) i) by (split; [apply ok1_raise; assumption|rewrite L, D; auto]). destruct O as (Oj & On & Oe).
  split; intro Q; subst i.
  - apply (other_unique y (raise_at k w) k j (k + 1) Si); try assumption; try lia. rewrite <- A, D. exact Y.
  - apply (other_unique y (raise_at (k + 1) w) (k + 1) j k Si); try assumption; try lia. rewrite A, D. exact Y.
Qed.
Lemma gbumps_keys : forall y w i r k, gbumps y w i r k -> forall x, 0 <= x -> x + 1 < zlen w -> (key w i x < key w i (x + 1) <-> nthz r x < nthz r (x + 1)).
Proof.
  intros y w i r k B. induction B as [w i S R|w i j r k S N O B IH]; intros x Hx Hx1; pose proof S as (_ & Hi & _); pose proof (raise_len w i Hi) as L.
  - pose proof (red_adj _ x R Hx ltac:(lia)) as T. pose proof (st_adj y w i x S Hx Hx1) as T2. unfold key. destruct (Z.eqb_spec x i) as [Q|Q]; destruct (Z.eqb_spec (x + 1) i) as [Q'|Q']; try lia.
    + subst x. rewrite raise_nth, raise_other in * by lia. lia.
    + subst i. rewrite raise_nth, raise_other in * by lia. lia.
    + rewrite !raise_other by lia. lia.
  - rewrite <- (IH x Hx ltac:(lia)). pose proof (tie_other y w i j x S O Hx Hx1) as X. pose proof (st_adj y w i x S Hx Hx1) as T2. destruct O as (_ & On & _). unfold key.
    destruct (Z.eqb_spec x i) as [Q|Q]; destruct (Z.eqb_spec (x + 1) i) as [Q'|Q']; try lia.
    + subst x. rewrite raise_nth, raise_other in * by lia. destruct (Z.eqb_spec i j); destruct (Z.eqb_spec (i + 1) j); lia.
    + subst i. rewrite raise_nth, raise_other in * by lia. destruct (Z.eqb_spec x j); destruct (Z.eqb_spec (x + 1) j); lia.
    + rewrite !raise_other in * by lia. destruct (Z.eqb_spec x j); destruct (Z.eqb_spec (x + 1) j); lia.
Qed.
Lemma gbumps_descents : forall y w i r k, red w -> gbumps y w i r k -> forall x, 0 <= x -> x + 1 < zlen w -> (nthz w x < nthz w (x + 1) <-> nthz r x < nthz r (x + 1)).
Proof.
  intros y w i r k R B x Hx Hx1. rewrite <- (gbumps_keys y w i r k B x Hx Hx1). pose proof (red_adj w x R Hx Hx1). unfold key. destruct (x =? i); destruct (x + 1 =? i); lia.
Qed.

Lemma loop_gbumps : forall fuel y w i r, gst y w i -> gloop fuel w (Some i) = Ok r -> exists k, gbumps y w i r k.
Proof.
  induction fuel as [|fuel IH]; intros y w i r S E; [discriminate|]. cbn [gloop] in E. destruct (push_ok y w i S) as [[R P]|(N & j & P & O)]; rewrite P in E; cbn [rbind fst snd] in E.
  - exists i. assert (r = raise_at i w) by (destruct fuel; injection E as <-; reflexivity). subst r. constructor; assumption.
  - destruct (IH y _ j r (st_other _ _ _ _ S O) E) as (k & B). exists k. apply (gbumps_step y w i j r k); assumption.
Qed.
Lemma gst_unique : forall y w i j, red w -> gst y w i -> 0 <= j < zlen w -> val (delete_at j w) = y -> i = j.
Proof.
  intros y w i j R (G & Hi & Rd & Y) Hj E. destruct (Z.eq_dec i j) as [|N]; [assumption|exfalso]. apply (defect_two w i j); try assumption. congruence.
Qed.
End Bumps.
