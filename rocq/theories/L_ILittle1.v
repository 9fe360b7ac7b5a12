(* deletions of letters of involution words *)
From Coq Require Import List ZArith Bool Lia.
From Verif Require Import PyBase FinSum M_Partitions M_Perm S_Perm S_Bruhat L_Perm L_PermLen L_PermWord M_Bruhat L_Bruhat L_LevelsInst L_PermActs L_PermGroth2 L_InvLen L_InvLen2 L_Atoms1 L_Atoms2 M_Little L_Little1 L_Little2 L_LittleGen L_IBruhat.
Import ListNotations.
Local Open Scope Z_scope.

Definition ivp (v : list Z) : list Z := fold_left tw v [].
Definition ired (v : list Z) : Prop := ok1 v /\ il2 (ivp v) = 2 * zlen v.

Lemma fold_upos : forall v u, upos u -> ok1 v -> upos (fold_left tw v u).
Proof. induction v as [|i v IH]; intros u Hu G; [exact Hu|]. inversion G; subst. cbn [fold_left]. apply IH; [apply tw_upos; assumption|assumption]. Qed.
Lemma ivp_upos : forall v, ok1 v -> upos (ivp v). Proof. intros v G. apply fold_upos; [apply upos_nil|exact G]. Qed.
Lemma ivp_app : forall u v, ivp (u ++ v) = fold_left tw v (ivp u). Proof. intros. unfold ivp. apply fold_left_app. Qed.
Lemma ivp_snoc : forall u i, ivp (u ++ [i]) = tw (ivp u) i. Proof. intros. rewrite ivp_app. reflexivity. Qed.
Lemma il2_tw : forall z i, upos z -> 1 <= i -> il2 (tw z i) <= il2 z + 2.
Proof. intros z i Hz Hi. destruct (desc_dec (pcall z) i) as [D|D]; [pose proof (tw_down z i Hz Hi D)|pose proof (tw_up z i Hz Hi D)]; lia. Qed.
Lemma il2_fold : forall v u, upos u -> ok1 v -> il2 (fold_left tw v u) <= il2 u + 2 * zlen v.
Proof.
  induction v as [|i v IH]; intros u Hu G; [cbn; lia|]. inversion G; subst. cbn [fold_left]. pose proof (IH (tw u i) (tw_upos u i Hu ltac:(assumption)) ltac:(assumption)). pose proof (il2_tw u i Hu ltac:(assumption)). rewrite zlen_cons. lia.
Qed.
Lemma fold_inj : forall v u u', upos u -> upos u' -> ok1 v -> fold_left tw v u = fold_left tw v u' -> u = u'.
Proof.
  induction v as [|i v IH]; intros u u' Hu Hu' G E; [exact E|]. inversion G; subst. cbn [fold_left] in E. apply (tw_inj u u' i); try assumption. apply IH; try assumption; apply tw_upos; assumption.
Qed.
Lemma ired_prefix : forall u v, ired (u ++ v) -> ired u.
Proof.
  intros u v [G L]. apply ok1_app in G. destruct G as [Gu Gv]. split; [exact Gu|]. rewrite ivp_app in L. pose proof (il2_fold v (ivp u) (ivp_upos u Gu) Gv). pose proof (il2_fold u [] upos_nil Gu) as X. rewrite il2_nil in X. fold (ivp u) in X. rewrite zlen_app in L. lia.
Qed.
Lemma ired_ascent : forall u s v, ired (u ++ s :: v) -> ~ descent (pcall (ivp u)) s.
Proof.
  intros u s v H D. replace (u ++ s :: v) with ((u ++ [s]) ++ v) in H by (rewrite <- app_assoc; reflexivity). apply ired_prefix in H. pose proof (ired_prefix u [s] H) as [_ Lu]. destruct H as [G L]. apply ok1_mid in G. destruct G as (Gu & Hs & _).
  rewrite ivp_snoc in L. destruct (tw_down (ivp u) s (ivp_upos u Gu) Hs D) as (_ & _ & X & _). rewrite zlen_app in L. change (zlen [s]) with 1 in L. lia.
Qed.
Lemma ired_snoc : forall u s, ired u -> 1 <= s -> ~ descent (pcall (ivp u)) s -> ired (u ++ [s]).
Proof.
  intros u s [G L] Hs D. split; [apply ok1_app; split; [exact G|repeat constructor; exact Hs]|]. rewrite ivp_snoc. destruct (tw_up (ivp u) s (ivp_upos u G) Hs D) as (_ & _ & X & _). rewrite zlen_app. change (zlen [s]) with 1. lia.
Qed.
Lemma ired_val : forall u v, ired u -> ok1 v -> ivp v = ivp u -> zlen v = zlen u -> ired v.
Proof. intros u v [_ L] G E Lv. split; [exact G|]. rewrite E, Lv. exact L. Qed.
Lemma ired_last : forall u s, ired (u ++ [s]) -> descent (pcall (ivp (u ++ [s]))) s.
Proof.
  intros u s H. pose proof (ired_ascent u s [] H) as D. destruct H as [G _]. apply ok1_mid in G. destruct G as (Gu & Hs & _). rewrite ivp_snoc. apply tw_up; try assumption. apply ivp_upos. exact Gu.
Qed.
Lemma ivp_cjs : forall v, ired v -> ivp v = cjs [] v.
Proof.
  intro v. induction v as [|i v IH] using rev_ind; intro H; [reflexivity|]. pose proof (ired_ascent v i [] H) as D. pose proof (ired_prefix v [i] H) as Hv. destruct H as [G _]. apply ok1_mid in G. destruct G as (Gu & Hs & _).
  rewrite ivp_snoc. rewrite (tw_cj (ivp v) i) by (first [apply ivp_upos; exact Gu|lia|exact D]). rewrite IH by exact Hv. unfold cjs. rewrite fold_left_app. reflexivity.
Qed.
Lemma ired_letters : forall v x, ired v -> In x v -> x < zlen (ivp v).
Proof.
  intros v x H Hx. rewrite (ivp_cjs v H). destruct H as [G _]. apply ok1_gens in G. rewrite (cjs_nil_word v G). apply (support_range (rev v ++ v) x); [apply gens_rev_app; exact G|reflexivity|apply in_or_app; right; exact Hx].
Qed.

(* equal deletions *)
Lemma itwo : forall P a Q b R, ok1 (P ++ a :: Q ++ b :: R) -> ivp (P ++ Q ++ b :: R) = ivp (P ++ a :: Q ++ R) -> ivp ((P ++ Q) ++ [b]) = ivp (P ++ a :: Q).
Proof.
  intros P a Q b R G E. pose proof (proj1 (ok1_mid _ _ _) G) as (GP & Ha & G2). pose proof (proj1 (ok1_mid _ _ _) G2) as (GQ & Hb & GR).
  replace (P ++ Q ++ b :: R) with (((P ++ Q) ++ [b]) ++ R) in E by (rewrite <- !app_assoc; reflexivity). replace (P ++ a :: Q ++ R) with ((P ++ a :: Q) ++ R) in E by (rewrite <- app_assoc; reflexivity). rewrite !(ivp_app _ R) in E.
  apply fold_inj in E; [exact E| | |exact GR]; apply ivp_upos; [apply ok1_mid; split; [apply ok1_app; auto|split; [exact Hb|constructor]]|apply ok1_mid; auto].
Qed.
Lemma idefect_two : forall w i j, ok1 w -> 0 <= i < zlen w -> 0 <= j < zlen w -> i <> j -> ivp (delete_at i w) = ivp (delete_at j w) -> ~ ired w.
Proof.
  assert (K : forall w i j, ok1 w -> 0 <= i -> i < j -> j < zlen w -> ivp (delete_at i w) = ivp (delete_at j w) -> ~ ired w).
  { intros w i j G Hi Hij Hj E H. destruct (split2 w i j Hi Hij Hj) as (P & a & Q & b & R & -> & _ & _ & D1 & D2). rewrite D1, D2 in E. pose proof (itwo P a Q b R G E) as F.
    replace (P ++ a :: Q ++ b :: R) with ((P ++ a :: Q) ++ b :: R) in H by (rewrite <- app_assoc; reflexivity). pose proof (ired_ascent _ _ _ H) as A. apply ired_prefix in H.
    apply A. rewrite <- F. pose proof (proj1 (ok1_mid _ _ _) G) as (GP & Ha & G2). pose proof (proj1 (ok1_mid _ _ _) G2) as (GQ & Hb & GR).
    apply ired_last. apply (ired_val (P ++ a :: Q)); [exact H|apply ok1_mid; split; [apply ok1_app; auto|split; [exact Hb|constructor]]|exact F|]. rewrite !zlen_mid, !zlen_app. cbn. lia. }
  intros w i j G Hi Hj N E. destruct (Z_lt_ge_dec i j); [apply (K w i j); try assumption; lia|]. apply (K w j i); try assumption; try lia. symmetry. exact E.
Qed.
Lemma idefect_three : forall w i j k, ok1 w -> 0 <= i < zlen w -> 0 <= j < zlen w -> 0 <= k < zlen w -> i <> j -> i <> k -> ired (delete_at i w) ->
  ivp (delete_at j w) = ivp (delete_at i w) -> ivp (delete_at k w) = ivp (delete_at i w) -> j = k.
Proof.
  assert (K : forall w i j k, ok1 w -> 0 <= i -> i < j -> j < k -> k < zlen w -> ivp (delete_at i w) = ivp (delete_at j w) -> ired (delete_at i w) -> ired (delete_at k w) -> False).
  { intros w i j k G Hi Hij Hjk Hk E H1 H3. destruct (split3 w i j k Hi Hij Hjk Hk) as (P & a & Q & b & R & c & T & -> & D1 & D2 & D3). rewrite D1 in *. rewrite D2 in *. rewrite D3 in *. clear D1 D2 D3.
    pose proof (itwo P a Q b (R ++ c :: T) G E) as F. replace (P ++ a :: Q ++ b :: R ++ T) with ((P ++ a :: Q) ++ b :: R ++ T) in H3 by (rewrite <- app_assoc; reflexivity). apply ired_ascent in H3. apply H3. rewrite <- F.
    apply ired_last. apply (ired_prefix _ (R ++ c :: T)). rewrite <- !app_assoc. exact H1. }
  assert (K2 : forall w i j k, ok1 w -> 0 <= i < zlen w -> 0 <= j < zlen w -> 0 <= k < zlen w -> i <> j -> i <> k -> j < k -> ired (delete_at i w) ->
    ivp (delete_at j w) = ivp (delete_at i w) -> ivp (delete_at k w) = ivp (delete_at i w) -> False).
  { intros w i j k G Hi Hj Hk N1 N2 L R E1 E2.
    assert (Rj : ired (delete_at j w)) by (apply (ired_val _ _ R); [apply ok1_delete; assumption|exact E1|rewrite !delete_len by assumption; reflexivity]).
    assert (Rk : ired (delete_at k w)) by (apply (ired_val _ _ R); [apply ok1_delete; assumption|exact E2|rewrite !delete_len by assumption; reflexivity]).
    destruct (Z_lt_ge_dec i j) as [A|A]; [apply (K w i j k); try assumption; try lia; congruence|].
    destruct (Z_lt_ge_dec i k) as [B|B]; [apply (K w j i k); try assumption; try lia; congruence|]. apply (K w j k i); try assumption; try lia; congruence. }
  intros w i j k G Hi Hj Hk N1 N2 R E1 E2. destruct (Z.lt_trichotomy j k) as [L|[L|L]]; [exfalso; apply (K2 w i j k); assumption|exact L|exfalso; apply (K2 w i k j); assumption].
Qed.

(* every element just below is a deletion *)
Lemma below_delete : forall A x, ired A -> upos x -> ible x (ivp A) -> il2 x = il2 (ivp A) - 2 -> exists p s q, A = p ++ s :: q /\ ivp (p ++ q) = x.
Proof.
  intro A. induction A as [|a A IH] using rev_ind; intros x H Hx L E; [change (ivp []) with (@nil Z) in E; rewrite il2_nil in E; pose proof (il2_nonneg x); lia|].
  pose proof (ired_ascent A a [] H) as D. pose proof (ired_prefix A [a] H) as HA. destruct H as [G _]. apply ok1_mid in G. destruct G as (GA & Ha & _). pose proof (ivp_upos A GA) as UA. rewrite ivp_snoc in *.
  destruct (tw_up (ivp A) a UA Ha D) as (U1 & D1 & L1 & _). pose proof (tw_tw (ivp A) a UA Ha) as T.
  destruct (desc_dec (pcall x) a) as [Dx|Dx].
  - destruct (tw_down x a Hx Ha Dx) as (Ux & _ & Lx & _). destruct (IH (tw x a) HA Ux) as (p & s & q & EA & Ep).
    + rewrite <- T. apply ible_down; assumption.
    + lia.
    + exists p, s, (q ++ [a]). split; [rewrite EA, <- app_assoc; reflexivity|]. rewrite app_assoc, ivp_snoc, Ep. apply tw_tw; assumption.
  - exists A, a, []. split; [reflexivity|]. rewrite app_nil_r. symmetry. apply ible_eq; try assumption; [|lia]. rewrite <- T. apply ible_lift; assumption.
Qed.
Lemma above_delete : forall B A X, ired (A ++ B) -> upos X -> ible (ivp A) X -> il2 X = il2 (ivp A) + 2 -> il2 (fold_left tw B X) < il2 X + 2 * zlen B ->
  exists B1 s B2, B = B1 ++ s :: B2 /\ fold_left tw (B1 ++ B2) X = ivp (A ++ B).
Proof.
  induction B as [|s B IH]; intros A X H UX L E F; [change (zlen []) with 0 in F; cbn [fold_left] in F; lia|].
  pose proof (ired_ascent A s B H) as D. pose proof H as [G _]. apply ok1_mid in G. destruct G as (GA & Hs & GB). pose proof (ivp_upos A GA) as UA. destruct (tw_up (ivp A) s UA Hs D) as (U1 & D1 & L1 & _).
  replace (A ++ s :: B) with ((A ++ [s]) ++ B) in * by (rewrite <- app_assoc; reflexivity).
  destruct (desc_dec (pcall X) s) as [DX|DX].
  - destruct (tw_down X s UX Hs DX) as (UX' & _ & LX & _). assert (Q : ivp A = tw X s) by (apply ible_eq; try assumption; [apply ible_lift; assumption|lia]).
    exists [], s, B. split; [reflexivity|]. cbn [app]. rewrite ivp_app, ivp_snoc, Q, tw_tw by assumption. reflexivity.
  - destruct (tw_up X s UX Hs DX) as (UX' & _ & LX & _). cbn [fold_left] in F. rewrite zlen_cons in F. destruct (IH (A ++ [s]) (tw X s) H UX') as (B1 & t & B2 & EB & EF).
    + rewrite ivp_snoc. apply ible_up; assumption.
    + rewrite ivp_snoc. lia.
    + lia.
    + exists (s :: B1), t, B2. split; [rewrite EB; reflexivity|]. exact EF.
Qed.
Lemma idefect_exists : forall A c B, ok1 (A ++ c :: B) -> ired (A ++ B) -> ~ ired (A ++ c :: B) ->
  exists j, 0 <= j < zlen (A ++ c :: B) /\ j <> zlen A /\ ivp (delete_at j (A ++ c :: B)) = ivp (A ++ B).
Proof.
  intros A c B G H N. pose proof (proj1 (ok1_mid _ _ _) G) as (GA & Hc & GB). pose proof (ivp_upos A GA) as UA. pose proof (ired_prefix A B H) as HA. destruct (desc_dec (pcall (ivp A)) c) as [D|D].
  - destruct (tw_down (ivp A) c UA Hc D) as (Ux & Dx & Lx & _). pose proof (tw_tw (ivp A) c UA Hc) as T. destruct (below_delete A (tw (ivp A) c) HA Ux) as (p & s & q & EA & Ep); [|lia|].
    + rewrite <- T at 2. apply ible_step; assumption.
    + exists (zlen p). split; [rewrite EA; unfold zlen; rewrite !app_length; cbn [length]; lia|]. split; [rewrite EA; unfold zlen; rewrite app_length; cbn [length]; lia|].
      rewrite EA. rewrite <- app_assoc. cbn [app]. rewrite delete_split. replace (p ++ q ++ c :: B) with (((p ++ q) ++ [c]) ++ B) by (rewrite <- !app_assoc; reflexivity). rewrite ivp_app, ivp_snoc, Ep, T, <- ivp_app, EA, <- app_assoc. reflexivity.
  - destruct (tw_up (ivp A) c UA Hc D) as (Ux & Dx & Lx & _). assert (Gn : il2 (ivp (A ++ c :: B)) < 2 * zlen (A ++ c :: B)).
    { pose proof (il2_fold (A ++ c :: B) [] upos_nil G) as X. rewrite il2_nil in X. fold (ivp (A ++ c :: B)) in X. destruct (Z.eq_dec (il2 (ivp (A ++ c :: B))) (2 * zlen (A ++ c :: B))) as [Q|Q]; [exfalso; apply N; split; assumption|lia]. }
    destruct (above_delete B A (tw (ivp A) c) H Ux) as (B1 & s & B2 & EB & EF); [apply ible_step; assumption|lia| |].
    + rewrite ivp_app in Gn. cbn [fold_left] in Gn. rewrite zlen_mid, zlen_app in Gn. destruct HA as [_ HA]. lia.
    + exists (zlen (A ++ c :: B1)). rewrite EB at 1. split; [unfold zlen; rewrite !app_length; cbn [length]; rewrite app_length; cbn [length]; lia|]. split; [unfold zlen; rewrite app_length; cbn [length]; lia|].
      rewrite EB at 1. replace (A ++ c :: B1 ++ s :: B2) with ((A ++ c :: B1) ++ s :: B2) by (rewrite <- app_assoc; reflexivity). rewrite delete_split. rewrite <- app_assoc. cbn [app]. rewrite ivp_app. cbn [fold_left]. exact EF.
Qed.
