(* pushes of marked words *)
From Coq Require Import List ZArith Bool Lia.
From Verif Require Import PyBase FinSum M_Partitions M_Perm S_Perm S_Bruhat L_Perm L_PermLen L_PermWord M_Bruhat L_Bruhat M_Little L_Little1.
Import ListNotations.
Local Open Scope Z_scope.

Lemma raise_split : forall A c B, raise_at (zlen A) (A ++ c :: B) = A ++ (c + 1) :: B.
Proof.
  intros A c B. unfold raise_at, zlen. rewrite Nat2Z.id. replace (Z.to_nat (Z.of_nat (length A) + 1)) with (length A + 1)%nat by lia.
  rewrite firstn_app, firstn_all, Nat.sub_diag. cbn [firstn]. rewrite app_nil_r. rewrite skipn_app, (skipn_all2 A) by lia. replace (length A + 1 - length A)%nat with 1%nat by lia. cbn [skipn app]. repeat f_equal.
  unfold nthz. rewrite Nat2Z.id. rewrite app_nth2 by lia. rewrite Nat.sub_diag. reflexivity.
Qed.
Lemma cut_at : forall (w : list Z) i, 0 <= i < zlen w -> exists A c B, w = A ++ c :: B /\ zlen A = i.
Proof. intros w i Hi. destruct (delete_cases w i Hi) as (A & c & B & E & L & _). exists A, c, B. auto. Qed.
Lemma nthz_mid : forall (A : list Z) c B, nthz (A ++ c :: B) (zlen A) = c.
Proof. intros. unfold nthz, zlen. rewrite Nat2Z.id, app_nth2, Nat.sub_diag by lia. reflexivity. Qed.
Lemma nthz_other : forall (A : list Z) c d B k, 0 <= k -> k <> zlen A -> nthz (A ++ c :: B) k = nthz (A ++ d :: B) k.
Proof.
  intros A c d B k Hk N. unfold nthz. destruct (Nat.lt_ge_cases (Z.to_nat k) (length A)) as [L|L]; [rewrite !app_nth1 by exact L; reflexivity|]. rewrite !app_nth2 by exact L.
  destruct (Z.to_nat k - length A)%nat eqn:Q; [unfold zlen in N; lia|]. reflexivity.
Qed.
Lemma raise_len : forall w i, 0 <= i < zlen w -> zlen (raise_at i w) = zlen w.
Proof. intros w i Hi. destruct (cut_at w i Hi) as (A & c & B & -> & <-). rewrite raise_split, !zlen_mid. reflexivity. Qed.
Lemma raise_nth : forall w i, 0 <= i < zlen w -> nthz (raise_at i w) i = nthz w i + 1.
Proof. intros w i Hi. destruct (cut_at w i Hi) as (A & c & B & -> & <-). rewrite raise_split, !nthz_mid. reflexivity. Qed.
Lemma raise_other : forall w i k, 0 <= i < zlen w -> 0 <= k -> k <> i -> nthz (raise_at i w) k = nthz w k.
Proof. intros w i k Hi Hk N. destruct (cut_at w i Hi) as (A & c & B & -> & <-). rewrite raise_split. apply nthz_other; assumption. Qed.
Lemma raise_gens : forall w i, gens w -> 0 <= i < zlen w -> gens (raise_at i w).
Proof. intros w i G Hi. destruct (cut_at w i Hi) as (A & c & B & -> & <-). rewrite raise_split. apply gens_mid in G. apply gens_mid. split; [tauto|]. split; [lia|tauto]. Qed.
Lemma raise_delete : forall w i, 0 <= i < zlen w -> delete_at i (raise_at i w) = delete_at i w.
Proof. intros w i Hi. destruct (cut_at w i Hi) as (A & c & B & -> & <-). rewrite raise_split, !delete_split. reflexivity. Qed.
Lemma raise_inj : forall w w' i, 0 <= i < zlen w -> 0 <= i < zlen w' -> raise_at i w = raise_at i w' -> w = w'.
Proof.
  intros w w' i Hi Hi' E. apply nthz_ext; [rewrite <- (raise_len w i Hi), <- (raise_len w' i Hi'), E; reflexivity|].
  intros k Hk. destruct (Z.eq_dec k i) as [->|N]; [pose proof (raise_nth w i Hi); pose proof (raise_nth w' i Hi'); rewrite E in *; lia|].
  rewrite <- (raise_other w i k), <- (raise_other w' i k), E by (assumption || lia). reflexivity.
Qed.
Lemma zsum_mid : forall A c B, zsum (A ++ c :: B) = zsum (A ++ B) + c.
Proof. intros. rewrite !zsum_app. cbn [zsum]. lia. Qed.
Lemma raise_sum : forall w i, 0 <= i < zlen w -> zsum (raise_at i w) = zsum w + 1.
Proof. intros w i Hi. destruct (cut_at w i Hi) as (A & c & B & -> & <-). rewrite raise_split, !zsum_mid. lia. Qed.

(* a marked word: the word without the marked letter is a reduced word of y *)
Definition st (y w : list Z) (i : Z) : Prop := gens w /\ 0 <= i < zlen w /\ red (delete_at i w) /\ wordp (delete_at i w) = y.
Definition other (y v : list Z) (p q : Z) : Prop := 0 <= q < zlen v /\ q <> p /\ wordp (delete_at q v) = y.

Lemma other_found : forall v new i js, gens new -> (forall j, In j js -> 0 <= j < zlen new) -> (exists j, In j js /\ j <> i /\ wordp (delete_at j new) = v) ->
  exists j, other_defect v new i js = Ok j /\ other v new i j.
Proof.
  intros v new i js G. induction js as [|j js IH]; intros Hb (k & Hk & Nk & Ek); [destruct Hk|]. cbn [other_defect]. pose proof (Hb j (or_introl eq_refl)) as Hj.
  assert (T : (exists k, In k js /\ k <> i /\ wordp (delete_at k new) = v) -> exists j', other_defect v new i js = Ok j' /\ other v new i j') by (intro X; apply IH; [intros; apply Hb; right; assumption|exact X]).
  destruct (Z.eqb_spec i j) as [<-|N]; [apply T; destruct Hk as [<-|Hk]; [congruence|exists k; auto]|].
  rewrite from_word_ok by (apply delete_gens; assumption). cbn [rbind]. destruct (peq v (wordp (delete_at j new))) eqn:Q.
  - unfold peq in Q. apply zlist_eqb_eq in Q. exists j. split; [reflexivity|]. split; [exact Hj|]. split; [congruence|]. symmetry. exact Q.
  - apply T. destruct Hk as [<-|Hk]; [|exists k; auto]. exfalso. rewrite Ek in Q. unfold peq in Q. assert (zlist_eqb v v = true) by (apply zlist_eqb_eq; reflexivity). congruence.
Qed.

Lemma st_other : forall y w i j, st y w i -> other y (raise_at i w) i j -> st y (raise_at i w) j.
Proof.
  intros y w i j (G & Hi & R & E) (Hj & N & Ej). pose proof (raise_gens w i G Hi) as G'. split; [exact G'|]. split; [exact Hj|]. split; [|exact Ej].
  apply (red_meq _ _ R); [apply delete_gens; assumption| |rewrite !delete_len by assumption; rewrite raise_len by assumption; reflexivity].
  apply meq_wordp; [apply delete_gens; assumption|apply delete_gens; assumption|congruence].
Qed.
Lemma push_ok : forall y w i, st y w i ->
  (red (raise_at i w) /\ little_push w i = Ok (raise_at i w, None)) \/
  (~ red (raise_at i w) /\ exists j, little_push w i = Ok (raise_at i w, Some j) /\ other y (raise_at i w) i j).
Proof.
  intros y w i (G & Hi & R & E). pose proof (raise_gens w i G Hi) as G'. pose proof (raise_len w i Hi) as L. unfold little_push.
  replace (negb ((0 <=? i) && (i <? zlen w))) with false by (replace (0 <=? i) with true by lia; replace (i <? zlen w) with true by lia; reflexivity).
  rewrite from_word_ok by (apply delete_gens; assumption). cbn [rbind]. rewrite from_word_ok by exact G'. cbn [rbind]. rewrite plen_ok. cbn [rbind].
  destruct (Z.eqb_spec (ell (wordp (raise_at i w))) (zlen (raise_at i w))) as [Q|Q]; [left; split; [split; assumption|reflexivity]|]. right. assert (N : ~ red (raise_at i w)) by (intros [_ X]; contradiction).
  split; [exact N|]. destruct (other_found (wordp (delete_at i w)) (raise_at i w) i (zrange 0 (zlen (raise_at i w)))) as (j & F & O).
  - exact G'.
  - intros j Hj. apply In_zrange in Hj. exact Hj.
  - pose proof (raise_delete w i Hi) as D. destruct (cut_at w i Hi) as (A & c & B & -> & <-). rewrite raise_split in *. rewrite delete_split in *.
    destruct (defect_exists A (c + 1) B G' R N) as (j & Hj & Nj & M). exists j. split; [apply In_zrange; exact Hj|]. split; [exact Nj|]. apply meq_wordp; [apply delete_gens; assumption|apply R|exact M].
  - rewrite F. cbn [rbind]. exists j. split; [reflexivity|]. rewrite E in O. exact O.
Qed.

(* the run of a bump, first push first *)
Inductive bumps (y : list Z) : list Z -> Z -> list Z -> Z -> Prop :=
| bumps_last : forall w i, st y w i -> red (raise_at i w) -> bumps y w i (raise_at i w) i
| bumps_step : forall w i j r k, st y w i -> ~ red (raise_at i w) -> other y (raise_at i w) i j -> bumps y (raise_at i w) j r k -> bumps y w i r k.

Lemma in_cut : forall (p : list Z) s q x, In x (p ++ s :: q) -> x = s \/ In x (p ++ q).
Proof. intros p s q x H. apply in_app_or in H. destruct H as [H|[H|H]]; [right; apply in_or_app; auto|left; auto|right; apply in_or_app; auto]. Qed.
Lemma in_delete : forall w i x, 0 <= i < zlen w -> In x w -> x = nthz w i \/ In x (delete_at i w).
Proof. intros w i x Hi H. destruct (cut_at w i Hi) as (A & c & B & -> & <-). rewrite nthz_mid, delete_split. apply in_cut. exact H. Qed.
Lemma delete_in_other : forall w i k, 0 <= i < zlen w -> 0 <= k < zlen w -> k <> i -> In (nthz w k) (delete_at i w).
Proof.
  intros w i k Hi Hk N. destruct (cut_at w i Hi) as (A & c & B & -> & <-). rewrite delete_split. unfold nthz. destruct (Z_lt_ge_dec k (zlen A)) as [L|L].
  - rewrite app_nth1 by (unfold zlen in *; lia). apply in_or_app. left. apply nth_In. unfold zlen in *. lia.
  - rewrite app_nth2 by (unfold zlen in *; lia). destruct (Z.to_nat k - length A)%nat as [|m] eqn:Q; [unfold zlen in *; lia|]. cbn [nth]. apply in_or_app. right. apply nth_In. unfold zlen in *. rewrite app_length in Hk. cbn [length] in Hk. lia.
Qed.
Lemma zsum_bound : forall M l, Forall (fun x => x < M) l -> zsum l <= zlen l * (M - 1).
Proof. intros M l F. induction F as [|x l Hx F IH]; [unfold zlen; cbn; lia|]. cbn [zsum]. unfold zlen in *. cbn [length]. lia. Qed.
Lemma small_next : forall y w i j, st y w i -> other y (raise_at i w) i j -> (forall k, 0 <= k < zlen w -> k <> i -> nthz w k < zlen y) /\ Forall (fun x => x < zlen y) (raise_at i w).
Proof.
  intros y w i j S O. pose proof (st_other _ _ _ _ S O) as S'. destruct S as (G & Hi & R & E), S' as (G' & Hj & R' & E').
  assert (K : forall k, 0 <= k < zlen w -> k <> i -> nthz w k < zlen y).
  { intros k Hk N. pose proof (red_letters _ _ R (delete_in_other w i k Hi Hk N)) as X. rewrite E in X. lia. }
  split; [exact K|]. apply Forall_forall. intros x Hx. destruct (in_delete _ j x Hj Hx) as [->|Hd].
  - destruct O as (_ & N & _). rewrite raise_other by (try assumption; lia). apply K; [rewrite <- (raise_len w i Hi); exact Hj|exact N].
  - pose proof (red_letters _ _ R' Hd) as X. rewrite E' in X. lia.
Qed.
Lemma loop_small : forall fuel y w i, st y w i -> Forall (fun x => x < zlen y) w -> zlen w * zlen y - zsum w < Z.of_nat fuel ->
  exists r k, push_loop fuel w (Some i) = Ok r /\ bumps y w i r k.
Proof.
  induction fuel as [|fuel IH]; intros y w i S F L; [pose proof (zsum_bound _ _ F); pose proof S as (_ & Hi & _); lia|]. cbn [push_loop]. destruct (push_ok y w i S) as [[R P]|(N & j & P & O)]; rewrite P; cbn [rbind fst snd].
  - exists (raise_at i w), i. split; [destruct fuel; reflexivity|]. constructor; assumption.
  - destruct (small_next y w i j S O) as [_ F']. pose proof S as (_ & Hi & _). destruct (IH y (raise_at i w) j (st_other _ _ _ _ S O) F') as (r & k & E & B); [rewrite raise_len, raise_sum by exact Hi; lia|].
    exists r, k. split; [exact E|]. apply (bumps_step y w i j r k); assumption.
Qed.
Lemma loop_ok : forall fuel y w i, st y w i -> zlen w * zlen y + 1 < Z.of_nat fuel -> exists r k, push_loop fuel w (Some i) = Ok r /\ bumps y w i r k.
Proof.
  intros [|fuel] y w i S L; [pose proof (zlen_nonneg _ w); pose proof (zlen_nonneg _ y); lia|]. cbn [push_loop]. destruct (push_ok y w i S) as [[R P]|(N & j & P & O)]; rewrite P; cbn [rbind fst snd].
  - exists (raise_at i w), i. split; [destruct fuel; reflexivity|]. constructor; assumption.
  - destruct (small_next y w i j S O) as [_ F']. pose proof S as (G & Hi & _). pose proof (st_other _ _ _ _ S O) as S'. destruct (loop_small fuel y (raise_at i w) j S' F') as (r & k & E & B).
    + rewrite raise_len by exact Hi. assert (0 <= zsum (raise_at i w)); [|lia]. destruct S' as (G' & _). clear -G'. induction G' as [|x l Hx F IH]; cbn [zsum]; lia.
    + exists r, k. split; [exact E|]. apply (bumps_step y w i j r k); assumption.
Qed.

(* what a run gives *)
Lemma bumps_facts : forall y w i r k, bumps y w i r k -> red r /\ zlen r = zlen w /\ 0 <= k < zlen r /\ red (delete_at k r) /\ wordp (delete_at k r) = y /\
  (forall x, 0 <= x -> nthz w x <= nthz r x) /\ nthz w i < nthz r i.
Proof.
  intros y w i r k B. induction B as [w i (G & Hi & R & E) Rr|w i j r k S N O B IH].
  - split; [exact Rr|]. split; [apply raise_len; exact Hi|]. split; [rewrite raise_len; exact Hi|]. rewrite raise_delete by exact Hi. split; [exact R|]. split; [exact E|]. rewrite raise_nth by exact Hi.
    split; [|lia]. intros x Hx. destruct (Z.eq_dec x i) as [->|Nx]; [rewrite raise_nth by exact Hi; lia|rewrite raise_other by assumption; lia].
  - pose proof S as (_ & Hi & _). destruct IH as (R1 & R2 & R3 & R4 & R5 & R6 & R7). split; [exact R1|]. split; [rewrite R2; apply raise_len; exact Hi|]. split; [exact R3|]. split; [exact R4|]. split; [exact R5|].
    assert (K : forall x, 0 <= x -> nthz w x <= nthz (raise_at i w) x) by (intros x Hx; destruct (Z.eq_dec x i) as [->|Nx]; [rewrite raise_nth by exact Hi; lia|rewrite raise_other by assumption; lia]).
    split; [intros x Hx; specialize (K x Hx); specialize (R6 x Hx); lia|]. specialize (R6 i ltac:(lia)). rewrite raise_nth in R6 by exact Hi. lia.
Qed.

(* ---- runs with the same result ---- *)
Definition step (y u : list Z) (p : Z) (v : list Z) (q : Z) : Prop := st y u p /\ v = raise_at p u /\ ~ red v /\ other y v p q.
Inductive reach (y w : list Z) (i : Z) : list Z -> Z -> Prop :=
| reach_refl : reach y w i w i
| reach_snoc : forall u p v q, reach y w i u p -> step y u p v q -> reach y w i v q.
Lemma reach_cons : forall y w i v q u p, step y w i v q -> reach y v q u p -> reach y w i u p.
Proof. intros y w i v q u p H R. induction R as [|a b c d R IH T]; [eapply reach_snoc; [constructor|exact H]|eapply reach_snoc; [exact IH|exact T]]. Qed.
Lemma bumps_reach : forall y w i r k, bumps y w i r k -> exists u, reach y w i u k /\ st y u k /\ r = raise_at k u /\ red r.
Proof.
  intros y w i r k B. induction B as [w i S R|w i j r k S N O B IH]; [exists w; split; [constructor|auto]|]. destruct IH as (u & R & T & E & Rr). exists u. split; [|auto].
  apply (reach_cons y w i (raise_at i w) j); [|exact R]. split; [exact S|]. split; [reflexivity|]. split; assumption.
Qed.
Lemma other_unique : forall y w p q q', st y w p -> 0 <= q < zlen w -> 0 <= q' < zlen w -> q <> p -> q' <> p -> wordp (delete_at q w) = y -> wordp (delete_at q' w) = y -> q = q'.
Proof.
  intros y w p q q' (G & Hp & R & E) Hq Hq' N N' E1 E2. apply (defect_three w p q q'); try assumption; try congruence; apply meq_wordp; try (apply delete_gens; assumption); congruence.
Qed.
Lemma step_back : forall y u p u' p' v q, step y u p v q -> step y u' p' v q -> u = u' /\ p = p'.
Proof.
  intros y u p u' p' v q (S & E & N & O) (S' & E' & N' & O'). assert (Q : p = p').
  { pose proof S as (G & Hp & R & Y). pose proof S' as (G' & Hp' & R' & Y'). assert (Sq : st y v q) by (rewrite E; apply st_other; [exact S|rewrite <- E; exact O]).
    apply (other_unique y v q p p' Sq).
    - rewrite E, raise_len by exact Hp. exact Hp.
    - rewrite E', raise_len by exact Hp'. exact Hp'.
    - intro X. destruct O as (_ & X' & _). congruence.
    - intro X. destruct O' as (_ & X' & _). congruence.
    - rewrite E, raise_delete by exact Hp. exact Y.
    - rewrite E', raise_delete by exact Hp'. exact Y'. }
  split; [|exact Q]. subst p'. destruct S as (_ & Hp & _), S' as (_ & Hp' & _). apply (raise_inj u u' p Hp Hp'). congruence.
Qed.
Lemma reach_back : forall y w i u p, reach y w i u p -> red w -> forall w' i', reach y w' i' u p -> red w' -> w = w' /\ i = i'.
Proof.
  intros y w i u p R Hw. induction R as [|u p v q R IH T]; intros w' i' R' Hw'.
  - destruct R' as [|u p v q R' T]; [auto|]. destruct T as (_ & _ & N & _). contradiction.
  - inversion R' as [|u' p' v' q' R2 T2]; subst; [destruct T as (_ & _ & N & _); contradiction|]. destruct (step_back _ _ _ _ _ _ _ T T2) as [-> ->]. apply IH; assumption.
Qed.
Lemma bumps_inj : forall y w i w' i' r k k', red w -> red w' -> bumps y w i r k -> bumps y w' i' r k' -> w = w'.
Proof.
  intros y w i w' i' r k k' Hw Hw' B B'. destruct (bumps_reach _ _ _ _ _ B) as (u & R & S & E & Rr). destruct (bumps_reach _ _ _ _ _ B') as (u' & R' & S' & E' & _).
  pose proof S as (G & Hk & R1 & Y). pose proof S' as (G' & Hk' & R1' & Y').
  assert (Q : k = k').
  { destruct (Z.eq_dec k k') as [|N]; [assumption|exfalso]. apply (defect_two r k k'); try assumption; [apply Rr| | |].
    - rewrite E, raise_len by exact Hk. exact Hk.
    - rewrite E', raise_len by exact Hk'. exact Hk'.
    - apply meq_wordp.
      + rewrite E, raise_delete by exact Hk. apply R1.
      + rewrite E', raise_delete by exact Hk'. apply R1'.
      + rewrite E at 1. rewrite E'. rewrite !raise_delete by assumption. congruence. }
  subst k'. assert (u = u') by (apply (raise_inj u u' k Hk Hk'); congruence). subst u'. destruct (reach_back y w i u k R Hw w' i' R' Hw') as [? _]. assumption.
Qed.

(* ---- adjacent letters ---- *)
Lemma zrefl_adj : forall (P : list Z) a b R, delete_at (zlen P) (P ++ a :: b :: R) = P ++ b :: R /\ delete_at (zlen P + 1) (P ++ a :: b :: R) = P ++ a :: R.
Proof.
  intros P a b R. split; [apply delete_split|]. replace (P ++ a :: b :: R) with ((P ++ [a]) ++ b :: R) by (rewrite <- app_assoc; reflexivity). replace (zlen P + 1) with (zlen (P ++ [a])) by (rewrite zlen_app; reflexivity).
  rewrite delete_split, <- app_assoc. reflexivity.
Qed.
Lemma cut_adj : forall (w : list Z) k, 0 <= k -> k + 1 < zlen w -> exists P R, w = P ++ nthz w k :: nthz w (k + 1) :: R /\ zlen P = k.
Proof.
  intros w k Hk Hk1. destruct (cut_at w k ltac:(lia)) as (P & a & Q & E & L). destruct Q as [|b R]; [subst w; unfold zlen in *; rewrite app_length in Hk1; cbn [length] in Hk1; lia|].
  exists P, R. split; [|exact L]. rewrite E at 1. rewrite <- L. rewrite E. rewrite nthz_mid. repeat f_equal. replace (P ++ a :: b :: R) with ((P ++ [a]) ++ b :: R) by (rewrite <- app_assoc; reflexivity).
  replace (zlen P + 1) with (zlen (P ++ [a])) by (rewrite zlen_app; reflexivity). rewrite nthz_mid. reflexivity.
Qed.
Lemma adj_delete : forall w k, 0 <= k -> k + 1 < zlen w -> nthz w k = nthz w (k + 1) -> delete_at k w = delete_at (k + 1) w.
Proof.
  intros w k Hk Hk1 E. destruct (cut_adj w k Hk Hk1) as (P & Q & Ew & L). rewrite E in Ew. clear E Hk1. revert Ew. generalize (nthz w (k + 1)) as b. intros b ->. destruct (zrefl_adj P b b Q) as [D1 D2]. rewrite <- L. rewrite D1, D2. reflexivity.
Qed.
Lemma red_adj : forall w k, red w -> 0 <= k -> k + 1 < zlen w -> nthz w k <> nthz w (k + 1).
Proof. intros w k R Hk Hk1 E. apply (defect_two w k (k + 1)); try lia; [apply R| |exact R]. rewrite (adj_delete w k Hk Hk1 E). intro x. reflexivity. Qed.
Lemma delete_nth : forall w i k, 0 <= i < zlen w -> 0 <= k -> nthz (delete_at i w) k = if k <? i then nthz w k else nthz w (k + 1).
Proof.
  intros w i k Hi Hk. destruct (cut_at w i Hi) as (A & c & B & -> & <-). rewrite delete_split. unfold nthz. destruct (Z.ltb_spec k (zlen A)) as [L|L].
  - rewrite !app_nth1 by (unfold zlen in *; lia). reflexivity.
  - rewrite !app_nth2 by (unfold zlen in *; lia). replace (Z.to_nat (k + 1) - length A)%nat with (S (Z.to_nat k - length A)) by (unfold zlen in *; lia). reflexivity.
Qed.
Lemma st_adj : forall y w i k, st y w i -> 0 <= k -> k + 1 < zlen w -> k <> i -> k + 1 <> i -> nthz w k <> nthz w (k + 1).
Proof.
  intros y w i k (G & Hi & R & E) Hk Hk1 N1 N2. pose proof (delete_len w i Hi) as L. destruct (Z_lt_ge_dec k i) as [A|A].
  - pose proof (red_adj _ k R Hk ltac:(lia)) as X. rewrite !delete_nth in X by lia. replace (k <? i) with true in X by lia. replace (k + 1 <? i) with true in X by lia. exact X.
  - pose proof (red_adj _ (k - 1) R ltac:(lia) ltac:(lia)) as X. rewrite !delete_nth in X by lia. replace (k - 1 <? i) with false in X by lia. replace (k - 1 + 1 <? i) with false in X by lia. replace (k - 1 + 1) with k in X by lia. exact X.
Qed.
Lemma tie_other : forall y w i j k, st y w i -> other y (raise_at i w) i j -> 0 <= k -> k + 1 < zlen w -> nthz (raise_at i w) k = nthz (raise_at i w) (k + 1) -> (k = i -> j = k + 1) /\ (k + 1 = i -> j = k).
Proof.
  intros y w i j k S O Hk Hk1 E. pose proof S as (G & Hi & R & Y). pose proof (raise_len w i Hi) as L. pose proof (raise_delete w i Hi) as D. pose proof (adj_delete (raise_at i w) k Hk ltac:(lia) E) as A.
  assert (Si : st y (raise_at i w) i) by (split; [apply raise_gens; assumption|rewrite L, D; auto]). destruct O as (Oj & On & Oe).
  split; intro Q; subst i.
  - apply (other_unique y (raise_at k w) k j (k + 1) Si); try assumption; try lia. rewrite <- A, D. exact Y.
  - apply (other_unique y (raise_at (k + 1) w) (k + 1) j k Si); try assumption; try lia. rewrite A, D. exact Y.
Qed.
Definition key (w : list Z) (i k : Z) : Z := 2 * nthz w k + if k =? i then 1 else 0.
Lemma bumps_keys : forall y w i r k, bumps y w i r k -> forall x, 0 <= x -> x + 1 < zlen w -> (key w i x < key w i (x + 1) <-> nthz r x < nthz r (x + 1)).
Proof.
  intros y w i r k B. induction B as [w i S R|w i j r k S N O B IH]; intros x Hx Hx1; pose proof S as (_ & Hi & _); pose proof (raise_len w i Hi) as L.
  - pose proof (red_adj _ x R Hx ltac:(lia)) as T. pose proof (st_adj y w i x S Hx Hx1) as T2. unfold key. destruct (Z.eqb_spec x i) as [Q|Q]; destruct (Z.eqb_spec (x + 1) i) as [Q'|Q']; try lia.
    + subst x. rewrite raise_nth, raise_other in * by lia. lia.
    + subst i. rewrite raise_nth, raise_other in * by lia. lia.
    + rewrite !raise_other by lia. lia.
  - rewrite <- (IH x Hx ltac:(lia)). pose proof (tie_other y w i j x S O Hx Hx1) as X. pose proof (st_adj y w i x S Hx Hx1) as T2. destruct O as (_ & On & _). unfold key.
    destruct (Z.eqb_spec x i) as [Q|Q]; destruct (Z.eqb_spec (x + 1) i) as [Q'|Q']; try lia.
    + subst x. rewrite raise_nth, raise_other in * by lia. destruct (Z.eqb_spec i j); destruct (Z.eqb_spec (i + 1) j); lia.
    + subst i. rewrite raise_nth, raise_other in * by lia. destruct (Z.eqb_spec x j); destruct (Z.eqb_spec (x + 1) j); lia.
    + rewrite !raise_other in * by lia. destruct (Z.eqb_spec x j); destruct (Z.eqb_spec (x + 1) j); lia.
Qed.
Lemma bumps_descents : forall y w i r k, red w -> bumps y w i r k -> forall x, 0 <= x -> x + 1 < zlen w -> (nthz w x < nthz w (x + 1) <-> nthz r x < nthz r (x + 1)).
Proof.
  intros y w i r k R B x Hx Hx1. rewrite <- (bumps_keys y w i r k B x Hx Hx1). pose proof (red_adj w x R Hx Hx1). unfold key. destruct (x =? i); destruct (x + 1 =? i); lia.
Qed.
