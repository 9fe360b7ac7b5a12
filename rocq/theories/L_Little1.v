(* deletions of letters of words in the simple reflections *)
From Coq Require Import List ZArith Bool Lia.
From Verif Require Import PyBase M_Partitions M_Perm S_Perm S_Bruhat L_Perm L_PermLen L_PermWord M_Bruhat L_Bruhat L_LevelsInst L_PermGroth2.
Import ListNotations.
Local Open Scope Z_scope.

Definition meq (u v : list Z) : Prop := forall x, word_map u x = word_map v x.
Definition red (v : list Z) : Prop := gens v /\ ell (wordp v) = zlen v.

Lemma meq_wordp : forall u v, gens u -> gens v -> (meq u v <-> wordp u = wordp v).
Proof.
  intros u v Gu Gv. split; intro E.
  - apply canonical_ext; [apply wordp_canonical; exact Gu|apply wordp_canonical; exact Gv|]. intro x. rewrite !wordp_map by assumption. apply E.
  - intro x. rewrite <- !wordp_map by assumption. rewrite E. reflexivity.
Qed.
Lemma meq_sym : forall u v, meq u v -> meq v u. Proof. intros u v E x. symmetry. apply E. Qed.
Lemma meq_trans : forall u v w, meq u v -> meq v w -> meq u w. Proof. intros u v w E F x. rewrite E. apply F. Qed.
Lemma meq_app : forall p u v q, meq u v -> meq (p ++ u ++ q) (p ++ v ++ q).
Proof. intros p u v q E x. rewrite !word_map_app, E. reflexivity. Qed.
Lemma meq_l : forall p u v, meq u v -> meq (p ++ u) (p ++ v).
Proof. intros p u v E x. rewrite !word_map_app, E. reflexivity. Qed.
Lemma meq_r : forall u v q, meq u v -> meq (u ++ q) (v ++ q).
Proof. intros u v q E x. rewrite !word_map_app, E. reflexivity. Qed.
Lemma meq_cancel_l : forall p u v, gens p -> meq (p ++ u) (p ++ v) -> meq u v.
Proof. intros p u v G E x. specialize (E x). rewrite !word_map_app in E. exact (word_map_inj _ _ _ G E). Qed.
Lemma meq_cancel_r : forall u v q, gens q -> meq (u ++ q) (v ++ q) -> meq u v.
Proof. intros u v q G E x. specialize (E (word_map (rev q) x)). rewrite !word_map_app, word_map_rev2 in E by exact G. exact E. Qed.
Lemma meq_ss : forall s u, 0 <= s -> meq (s :: s :: u) u.
Proof. intros s u Hs x. cbn [word_map]. apply simple_invol. exact Hs. Qed.
Lemma meq_move : forall s u v, 0 <= s -> meq (s :: u) v -> meq u (s :: v).
Proof. intros s u v Hs E x. cbn [word_map]. rewrite <- E. cbn [word_map]. symmetry. apply simple_invol. exact Hs. Qed.

Lemma red_short : forall v u, red v -> gens u -> meq u v -> zlen v <= zlen u.
Proof. intros v u [Gv L] Gu E. apply meq_wordp in E; [|assumption|assumption]. rewrite <- L, <- E. apply ell_word_le. exact Gu. Qed.
Lemma short_red : forall v, gens v -> (forall u, gens u -> meq u v -> zlen v <= zlen u) -> red v.
Proof.
  intros v Gv H. split; [exact Gv|]. pose proof (ell_word_le v Gv). destruct (reduced_exists _ (wordp v) (wordp_canonical v Gv) eq_refl) as (u & Gu & E & L).
  assert (zlen v <= zlen u) by (apply H; [exact Gu|apply meq_wordp; assumption]). lia.
Qed.
Lemma red_meq : forall u v, red v -> gens u -> meq u v -> zlen u = zlen v -> red u.
Proof. intros u v [Gv L] Gu E Lu. split; [exact Gu|]. apply meq_wordp in E; [|assumption|assumption]. rewrite E, Lu. exact L. Qed.
Lemma red_letters : forall v i, red v -> In i v -> 0 <= i < zlen (wordp v).
Proof.
  intros v i [G L] Hi. split; [unfold gens in G; rewrite Forall_forall in G; apply G; exact Hi|]. apply (support_range v i (wordp v) G); [|exact Hi].
  apply dw_reduced; [apply wordp_canonical; exact G|]. split; [exact G|]. split; [reflexivity|]. symmetry. exact L.
Qed.
Lemma not_red_dec : forall v, gens v -> red v \/ ell (wordp v) < zlen v.
Proof. intros v G. pose proof (ell_word_le v G). destruct (Z.eq_dec (ell (wordp v)) (zlen v)); [left; split; assumption|right; lia]. Qed.

Lemma zlen_mid : forall (p : list Z) s q, zlen (p ++ s :: q) = zlen (p ++ q) + 1.
Proof. intros. unfold zlen. rewrite !app_length. cbn [length]. lia. Qed.

(* two equal deletions *)
Lemma two_equal : forall P a Q b R, gens P -> gens R -> 0 <= a -> meq (P ++ Q ++ b :: R) (P ++ a :: Q ++ R) -> meq (a :: Q ++ [b]) Q.
Proof.
  intros P a Q b R GP GR Ha E. apply meq_cancel_l in E; [|exact GP]. replace (Q ++ b :: R) with ((Q ++ [b]) ++ R) in E by (rewrite <- app_assoc; reflexivity).
  change (a :: Q ++ R) with ((a :: Q) ++ R) in E. apply meq_cancel_r in E; [|exact GR]. apply meq_sym, meq_move; [exact Ha|]. apply meq_sym. exact E.
Qed.
Lemma two_not_red : forall P a Q b R, gens (P ++ a :: Q ++ b :: R) -> meq (P ++ Q ++ b :: R) (P ++ a :: Q ++ R) -> ~ red (P ++ a :: Q ++ b :: R).
Proof.
  intros P a Q b R G E Hr. pose proof (proj1 (gens_mid _ _ _) G) as (GP & Ha & G2). pose proof (proj1 (gens_mid _ _ _) G2) as (GQ & Hb & GR).
  pose proof (two_equal P a Q b R GP GR Ha E) as F. assert (S : zlen (P ++ a :: Q ++ b :: R) <= zlen (P ++ Q ++ R)).
  { apply red_short; [exact Hr|apply gens_app; split; [exact GP|apply gens_app; split; assumption]|]. apply meq_l. intro x. specialize (F (word_map R x)). cbn [word_map] in F. rewrite word_map_app in F. cbn [word_map] in *. rewrite !word_map_app. cbn [word_map]. symmetry. exact F. }
  unfold zlen in S. rewrite !app_length in S. cbn [length] in S. rewrite !app_length in S. cbn [length] in S. lia.
Qed.
Lemma three_not_red : forall P a Q b R c T, gens (P ++ a :: Q ++ b :: R ++ c :: T) ->
  meq (P ++ Q ++ b :: R ++ c :: T) (P ++ a :: Q ++ R ++ c :: T) -> meq (P ++ a :: Q ++ R ++ c :: T) (P ++ a :: Q ++ b :: R ++ T) ->
  ~ red (P ++ Q ++ b :: R ++ c :: T).
Proof.
  intros P a Q b R c T G E1 E2. pose proof (proj1 (gens_mid _ _ _) G) as (GP & Ha & G2). pose proof (proj1 (gens_mid _ _ _) G2) as (GQ & Hb & G3).
  assert (G' : gens ((P ++ Q) ++ b :: R ++ c :: T)) by (apply gens_app; split; [apply gens_app; split; assumption|constructor; assumption]).
  intro Hr. apply (two_not_red (P ++ Q) b R c T G'); [|rewrite <- app_assoc; exact Hr]. rewrite <- !app_assoc.
  assert (E3 : meq (R ++ c :: T) (b :: R ++ T)) by (change (P ++ a :: Q ++ R ++ c :: T) with (P ++ (a :: Q) ++ R ++ c :: T) in E2; change (P ++ a :: Q ++ b :: R ++ T) with (P ++ (a :: Q) ++ b :: R ++ T) in E2; apply meq_cancel_l in E2; [|exact GP]; apply meq_cancel_l in E2; [exact E2|constructor; assumption]).
  apply meq_l, meq_l. exact E3.
Qed.

(* in terms of positions *)
Lemma split2 : forall w i j, 0 <= i -> i < j -> j < zlen w -> exists P a Q b R, w = P ++ a :: Q ++ b :: R /\ zlen P = i /\ zlen P + 1 + zlen Q = j /\
  delete_at i w = P ++ Q ++ b :: R /\ delete_at j w = P ++ a :: Q ++ R.
Proof.
  intros w i j Hi Hij Hj. destruct (delete_cases w i ltac:(lia)) as (P & a & q & Ew & LP & D1). destruct (delete_cases q (j - i - 1)) as (Q & b & R & Eq & LQ & _).
  { subst w. unfold zlen in *. rewrite app_length in Hj. cbn [length] in Hj. lia. }
  exists P, a, Q, b, R. subst q. split; [exact Ew|]. split; [exact LP|]. split; [lia|]. split; [exact D1|].
  replace w with ((P ++ a :: Q) ++ b :: R) by (rewrite Ew, <- app_assoc; reflexivity). replace j with (zlen (P ++ a :: Q)) by (unfold zlen in *; rewrite app_length; cbn [length]; lia).
  rewrite delete_split, <- app_assoc. reflexivity.
Qed.
Lemma split3 : forall w i j k, 0 <= i -> i < j -> j < k -> k < zlen w -> exists P a Q b R c T, w = P ++ a :: Q ++ b :: R ++ c :: T /\
  delete_at i w = P ++ Q ++ b :: R ++ c :: T /\ delete_at j w = P ++ a :: Q ++ R ++ c :: T /\ delete_at k w = P ++ a :: Q ++ b :: R ++ T.
Proof.
  intros w i j k Hi Hij Hjk Hk. destruct (split2 w i j Hi Hij ltac:(lia)) as (P & a & Q & b & q & Ew & LP & LQ & D1 & D2). destruct (delete_cases q (k - j - 1)) as (R & c & T & Eq & LR & _).
  { subst w. unfold zlen in *. rewrite !app_length in Hk. cbn [length] in Hk. rewrite !app_length in Hk. cbn [length] in Hk. lia. }
  exists P, a, Q, b, R, c, T. subst q. split; [exact Ew|]. split; [exact D1|]. split; [exact D2|].
  replace w with ((P ++ a :: Q ++ b :: R) ++ c :: T) by (rewrite Ew; repeat (rewrite <- app_assoc; cbn [app]); reflexivity).
  replace k with (zlen (P ++ a :: Q ++ b :: R)) by (unfold zlen in *; rewrite app_length; cbn [length]; rewrite app_length; cbn [length]; lia).
  rewrite delete_split. repeat (rewrite <- app_assoc; cbn [app]). reflexivity.
Qed.
Lemma delete_gens : forall w i, gens w -> 0 <= i < zlen w -> gens (delete_at i w).
Proof. intros w i G Hi. destruct (delete_cases w i Hi) as (p & s & q & -> & _ & ->). apply gens_mid in G. apply gens_app. tauto. Qed.
Lemma delete_len : forall w i, 0 <= i < zlen w -> zlen (delete_at i w) = zlen w - 1.
Proof. intros w i Hi. destruct (delete_cases w i Hi) as (p & s & q & -> & _ & ->). rewrite zlen_mid. lia. Qed.

Lemma defect_two : forall w i j, gens w -> 0 <= i < zlen w -> 0 <= j < zlen w -> i <> j -> meq (delete_at i w) (delete_at j w) -> ~ red w.
Proof.
  assert (K : forall w i j, gens w -> 0 <= i -> i < j -> j < zlen w -> meq (delete_at i w) (delete_at j w) -> ~ red w).
  { intros w i j G Hi Hij Hj E. destruct (split2 w i j Hi Hij Hj) as (P & a & Q & b & R & -> & _ & _ & D1 & D2). rewrite D1, D2 in E. apply two_not_red; assumption. }
  intros w i j G Hi Hj N E. destruct (Z_lt_ge_dec i j); [apply (K w i j); try assumption; lia|]. apply (K w j i); try assumption; try lia. apply meq_sym. exact E.
Qed.
Lemma defect_three : forall w i j k, gens w -> 0 <= i < zlen w -> 0 <= j < zlen w -> 0 <= k < zlen w -> i <> j -> i <> k -> red (delete_at i w) ->
  meq (delete_at j w) (delete_at i w) -> meq (delete_at k w) (delete_at i w) -> j = k.
Proof.
  assert (K : forall w i j k, gens w -> 0 <= i -> i < j -> j < k -> k < zlen w -> meq (delete_at i w) (delete_at j w) -> meq (delete_at j w) (delete_at k w) -> red (delete_at i w) -> False).
  { intros w i j k G Hi Hij Hjk Hk E1 E2 R. destruct (split3 w i j k Hi Hij Hjk Hk) as (P & a & Q & b & R0 & c & T & -> & D1 & D2 & D3). rewrite D1 in *. rewrite D2 in *. rewrite D3 in *. exact (three_not_red _ _ _ _ _ _ _ G E1 E2 R). }
  assert (K2 : forall w i j k, gens w -> 0 <= i < zlen w -> 0 <= j < zlen w -> 0 <= k < zlen w -> i <> j -> i <> k -> j < k -> red (delete_at i w) ->
    meq (delete_at j w) (delete_at i w) -> meq (delete_at k w) (delete_at i w) -> False).
  { intros w i j k G Hi Hj Hk N1 N2 L R E1 E2.
    assert (Rj : red (delete_at j w)) by (apply (red_meq _ _ R); [apply delete_gens; assumption|exact E1|rewrite !delete_len by assumption; reflexivity]).
    assert (E3 : meq (delete_at j w) (delete_at k w)) by (eapply meq_trans; [exact E1|apply meq_sym; exact E2]).
    destruct (Z_lt_ge_dec i j) as [A|A]; [apply (K w i j k); try assumption; try lia; apply meq_sym; exact E1|].
    destruct (Z_lt_ge_dec i k) as [B|B]; [apply (K w j i k); try assumption; try lia; apply meq_sym; exact E2|]. apply (K w j k i); try assumption; lia. }
  intros w i j k G Hi Hj Hk N1 N2 R E1 E2. destruct (Z.lt_trichotomy j k) as [L|[L|L]]; [exfalso; apply (K2 w i j k); assumption|exact L|exfalso; apply (K2 w i k j); assumption].
Qed.

(* a letter put into a reduced word either gives a reduced word or there is a second letter whose deletion gives the same product *)
Lemma defect_exists : forall A c B, gens (A ++ c :: B) -> red (A ++ B) -> ~ red (A ++ c :: B) ->
  exists j, 0 <= j < zlen (A ++ c :: B) /\ j <> zlen A /\ meq (delete_at j (A ++ c :: B)) (A ++ B).
Proof.
  intros A c B G R N. pose proof (proj1 (gens_mid _ _ _) G) as (GA & Hc & GB). pose proof R as [GAB LAB]. destruct (delete_refl A c B GB Hc) as (a0 & b0 & Ha0 & Hb0 & N0 & E0).
  assert (exists a b, a <> 0 /\ b <> 0 /\ a < b /\ forall x, word_map (A ++ B) x = word_map (A ++ c :: B) (refl a b x)) as (a & b & Ha & Hb & Lab & E).
  { destruct (Z_lt_ge_dec a0 b0); [exists a0, b0; auto|]. exists b0, a0. split; [assumption|]. split; [assumption|]. split; [lia|]. intro x. rewrite E0, refl_sym. reflexivity. }
  clear a0 b0 Ha0 Hb0 N0 E0. destruct (not_red_dec _ G) as [?|S]; [contradiction|].
  assert (X : pcall (wordp (A ++ B)) b < pcall (wordp (A ++ B)) a).
  { destruct (Z.lt_trichotomy (pcall (wordp (A ++ B)) a) (pcall (wordp (A ++ B)) b)) as [L|[L|L]]; [|apply pcall_inj in L; [lia|apply wordp_canonical; exact GAB]|exact L].
    assert (ell (wordp (A ++ B)) < ell (wordp (A ++ c :: B))).
    { apply (ell_refl _ _ a b); try assumption; [apply wordp_canonical; exact G|apply wordp_canonical; exact GAB| |].
      - intro x. rewrite !wordp_map by assumption. apply E.
      - rewrite !wordp_map in * by assumption. rewrite !E, refl_a, refl_b in L. exact L. }
    rewrite zlen_mid in S. lia. }
  rewrite !wordp_map in X by exact GAB. destruct (exchange _ a b GAB Ha Hb Lab X) as (p & s & q & Es & F).
  assert (F' : meq (p ++ q) (A ++ c :: B)) by (intro x; rewrite F, E, refl_invol by assumption; reflexivity). clear F E X.
  assert (Gs : 0 <= s) by (rewrite Es in GAB; apply gens_mid in GAB; tauto).
  destruct (Z_lt_ge_dec (zlen p) (zlen A)) as [L|L].
  - assert (exists A2, A = p ++ s :: A2 /\ q = A2 ++ B) as (A2 & EA & Eq).
    { clear -Es L. revert A Es L. induction p as [|x p IH]; intros A Es L; destruct A as [|y A]; try (unfold zlen in L; cbn [length] in L; lia).
      - injection Es as E1 E2. subst. exists A. auto.
      - cbn [app] in Es. injection Es as E1 Es. subst y. destruct (IH A Es ltac:(unfold zlen in *; cbn [length] in L; lia)) as (A2 & -> & ->). exists A2. auto. }
    subst A q. exists (zlen p). repeat rewrite <- app_assoc. cbn [app]. split; [unfold zlen; rewrite !app_length; cbn [length]; lia|]. split; [unfold zlen; rewrite !app_length; cbn [length]; lia|].
    rewrite delete_split. rewrite <- app_assoc in F'. cbn [app] in F'. apply meq_l. apply gens_app in GA. destruct GA as [Gp _]. apply meq_cancel_l in F'; [|exact Gp]. apply meq_move; [exact Gs|]. apply meq_sym. exact F'.
  - assert (exists B1, B = B1 ++ s :: q /\ p = A ++ B1) as (B1 & EB & Ep).
    { clear -Es L. revert p Es L. induction A as [|y A IH]; intros p Es L; [exists p; auto|]. destruct p as [|x p]; [unfold zlen in L; cbn [length] in L; lia|].
      cbn [app] in Es. injection Es as E1 Es. subst y. destruct (IH p Es ltac:(unfold zlen in *; cbn [length] in L; lia)) as (B1 & -> & ->). exists B1. auto. }
    subst B p. exists (zlen (A ++ c :: B1)). split; [unfold zlen; rewrite !app_length; cbn [length]; rewrite app_length; cbn [length]; lia|]. split; [unfold zlen; rewrite !app_length; cbn [length]; lia|].
    replace (A ++ c :: B1 ++ s :: q) with ((A ++ c :: B1) ++ s :: q) by (rewrite <- app_assoc; reflexivity). rewrite delete_split, <- app_assoc. cbn [app]. apply meq_l.
    rewrite <- app_assoc in F'. apply meq_cancel_l in F'; [|exact GA]. apply meq_sym, meq_move; [exact Hc|]. apply meq_sym. exact F'.
Qed.
