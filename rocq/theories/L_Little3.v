(* the reflections of the pushes *)
From Coq Require Import List ZArith Bool Lia.
From Verif Require Import PyBase FinSum M_Partitions M_Perm S_Perm S_Bruhat L_Perm L_PermLen L_PermWord M_Bruhat L_Bruhat M_Little L_Little1 L_Little2.
Import ListNotations.
Local Open Scope Z_scope.

Lemma ge1_gens : forall v, Forall (fun i => 1 <= i) v -> gens v.
Proof. intros v F. eapply Forall_impl; [|exact F]. intros a H. cbv beta in *. lia. Qed.
Lemma simple_pos : forall i x, 1 <= i -> 1 <= x -> 1 <= simple i x.
Proof. intros i x Hi Hx. unfold simple. replace (i =? 0) with false by lia. repeat match goal with |- context [?a =? ?b] => destruct (Z.eqb_spec a b) end; lia. Qed.
Lemma word_map_pos : forall v x, Forall (fun i => 1 <= i) v -> 1 <= x -> 1 <= word_map v x.
Proof. intros v x F Hx. induction F as [|i v Hi F IH]; [exact Hx|]. cbn [word_map]. apply simple_pos; assumption. Qed.
Lemma preimage : forall v z, Forall (fun i => 1 <= i) v -> 1 <= z -> exists x, 1 <= x /\ word_map v x = z.
Proof. intros v z F Hz. exists (word_map (rev v) z). split; [apply word_map_pos; [apply Forall_rev; exact F|exact Hz]|]. apply word_map_rev2. apply ge1_gens. exact F. Qed.

Lemma cross_refl : forall A c B a b, gens B -> 1 <= c -> word_map B a = c -> word_map B b = c + 1 ->
  forall x, word_map (A ++ c :: B) x = word_map (A ++ B) (refl a b x).
Proof.
  intros A c B a b G Hc Ea Eb x. rewrite !word_map_app. f_equal. cbn [word_map]. rewrite simple_refl by lia. rewrite <- Ea at 1. rewrite <- Eb.
  rewrite <- (refl_conj (word_map B) (word_map (rev B))); [rewrite word_map_rev by exact G; reflexivity|..]; intro z; [apply word_map_odd|apply word_map_rev2|apply word_map_rev]; exact G.
Qed.
Lemma exchange_short : forall B a b, gens B -> a <> 0 -> b <> 0 -> a < b -> word_map B b < word_map B a ->
  exists v, gens v /\ zlen v = zlen B - 1 /\ forall x, word_map v x = word_map B (refl a b x).
Proof.
  intros B a b G Ha Hb L H. destruct (exchange B a b G Ha Hb L H) as (p & s & q & E & F). exists (p ++ q). split; [|split; [rewrite E, zlen_mid; lia|exact F]].
  rewrite E in G. apply gens_mid in G. apply gens_app. tauto.
Qed.
Lemma red_order : forall A c B a b, red (A ++ c :: B) -> 1 <= c -> 1 <= a -> 1 <= b -> word_map B a = c -> word_map B b = c + 1 -> a < b.
Proof.
  intros A c B a b R Hc Ha Hb Ea Eb. pose proof (proj1 R) as G. apply gens_mid in G. destruct G as (GA & _ & GB). destruct (Z.lt_trichotomy a b) as [L|[L|L]]; [exact L|subst; lia|exfalso].
  destruct (exchange_short B b a GB ltac:(lia) ltac:(lia) L ltac:(lia)) as (v & Gv & Lv & F).
  assert (X : zlen (A ++ c :: B) <= zlen (A ++ v)).
  { apply red_short; [exact R|apply gens_app; split; assumption|]. intro x. rewrite (cross_refl A c B a b GB Hc Ea Eb). rewrite !word_map_app, F, refl_sym. reflexivity. }
  rewrite zlen_mid, !zlen_app in X. lia.
Qed.
Lemma no_third : forall P d Q c R b q, gens Q -> gens R -> gens P -> 1 <= c -> word_map R b = c -> word_map R q = c + 1 -> word_map (Q ++ c :: R) b = d -> word_map (Q ++ c :: R) q = d + 1 ->
  ~ red (P ++ Q ++ c :: R).
Proof.
  intros P d Q c R b q GQ GR GP Hc E1 E2 E3 E4 H. rewrite word_map_app in E3, E4. cbn [word_map] in E3, E4. rewrite E1 in E3. rewrite E2 in E4. rewrite simple_refl in E3, E4 by lia. rewrite refl_a in E3. rewrite refl_b in E4.
  destruct (exchange_short Q c (c + 1) GQ ltac:(lia) ltac:(lia) ltac:(lia) ltac:(lia)) as (v & Gv & Lv & F).
  assert (X : zlen (P ++ Q ++ c :: R) <= zlen (P ++ v ++ R)).
  { apply red_short; [exact H|apply gens_app; split; [exact GP|apply gens_app; split; assumption]|]. intro x. rewrite !word_map_app. f_equal. cbn [word_map]. rewrite F, simple_refl by lia. reflexivity. }
  rewrite !zlen_app, zlen_cons in X. lia.
Qed.
Lemma refl_pair : forall a b a' b', 1 <= a -> 1 <= b -> a <> b -> 1 <= a' -> 1 <= b' -> a' <> b' -> (forall x, refl a b x = refl a' b' x) -> (a = a' /\ b = b') \/ (a = b' /\ b = a').
Proof.
  intros a b a' b' Ha Hb N Ha' Hb' N' E. specialize (E a). rewrite refl_a in E. unfold refl in E. repeat match type of E with context [?x =? ?y] => destruct (Z.eqb_spec x y) end; lia.
Qed.
Lemma raise_pos : forall w i, Forall (fun i => 1 <= i) w -> 0 <= i < zlen w -> Forall (fun i => 1 <= i) (raise_at i w).
Proof.
  intros w i F Hi. destruct (cut_at w i Hi) as (A & c & B & -> & <-). rewrite raise_split. apply Forall_app in F. destruct F as [F1 F2]. inversion F2; subst. apply Forall_app. split; [exact F1|]. constructor; [lia|assumption].
Qed.

(* the wire that stays: after the push of position i it is crossed again at the other position *)
Lemma wire_stays : forall y A c B j b, Forall (fun i => 1 <= i) (A ++ (c + 1) :: B) -> red (A ++ B) -> wordp (A ++ B) = y -> 1 <= c -> 1 <= b -> word_map B b = c + 1 -> other y (A ++ (c + 1) :: B) (zlen A) j ->
  forall A' d B', A ++ (c + 1) :: B = A' ++ d :: B' -> zlen A' = j -> word_map B' b = d + 1.
Proof.
  intros y A c B j b F R Y Hc Hb Eb (Hj & N & Ej) A' d B' E Lj. pose proof (ge1_gens _ F) as G. set (new := A ++ (c + 1) :: B) in *.
  assert (FB : Forall (fun i => 1 <= i) B) by (apply Forall_app in F; destruct F as [_ F]; inversion F; assumption).
  assert (F' : Forall (fun i => 1 <= i) A' /\ 1 <= d /\ Forall (fun i => 1 <= i) B') by (rewrite E in F; apply Forall_app in F; destruct F as [F1 F]; inversion F; auto). destruct F' as (FA' & Hd & FB').
  destruct (preimage B (c + 2) FB ltac:(lia)) as (q & Hq & Eq). destruct (preimage B' d FB' Hd) as (q1 & Hq1 & E1). destruct (preimage B' (d + 1) FB' ltac:(lia)) as (q2 & Hq2 & E2).
  pose proof (cross_refl A (c + 1) B b q (ge1_gens _ FB) ltac:(lia) Eb ltac:(rewrite Eq; lia)) as X. fold new in X. pose proof (cross_refl A' d B' q1 q2 (ge1_gens _ FB') Hd E1 E2) as X'. rewrite <- E in X'.
  assert (D' : delete_at j new = A' ++ B') by (rewrite E, <- Lj; apply delete_split). rewrite D' in Ej.
  assert (GAB' : gens (A' ++ B')) by (apply gens_app; split; apply ge1_gens; assumption).
  assert (M : meq (A' ++ B') (A ++ B)) by (apply meq_wordp; [exact GAB'|apply R|congruence]).
  assert (P : forall x, refl q1 q2 x = refl b q x) by (intro x; apply (word_map_inj (A ++ B)); [apply R|]; rewrite <- X, <- M; symmetry; apply X').
  destruct (refl_pair q1 q2 b q Hq1 Hq2) as [[Q1 Q2]|[Q1 Q2]]; try assumption; [intros ->; lia|intros ->; lia| |subst; exact E2]. exfalso. subst q1 q2.
  assert (RAB' : red (A' ++ B')).
  { apply (red_meq _ _ R); [exact GAB'|exact M|]. rewrite <- D', delete_len by exact Hj. unfold new. rewrite zlen_mid. lia. }
  destruct (Z_lt_ge_dec j (zlen A)) as [L|L].
  - assert (exists Q, A = A' ++ d :: Q /\ B' = Q ++ (c + 1) :: B) as (Q & EA & EB).
    { unfold new in E. clear -E L Lj. subst j. revert A' E L. induction A as [|x A IH]; intros A' E L; destruct A' as [|z A']; try (unfold zlen in L; cbn [length] in L; lia); cbn [app] in E.
      - injection E as E1 E2. subst. exists A. auto.
      - injection E as E1 E2. subst z. destruct (IH A' E2 ltac:(unfold zlen in *; cbn [length] in L; lia)) as (Q & -> & ->). exists Q. auto. }
    subst B'. apply (no_third A' d Q (c + 1) B b q); try assumption; try lia; try (apply ge1_gens; assumption).
    apply ge1_gens. apply Forall_app in FB'. tauto.
  - assert (exists Q, A' = A ++ (c + 1) :: Q /\ B = Q ++ d :: B') as (Q & EA & EB).
    { unfold new in E. assert (L' : zlen A < zlen A') by lia. clear -E L'. revert A E L'. induction A' as [|x A' IH]; intros A E L; destruct A as [|z A]; try (unfold zlen in L; cbn [length] in L; lia); cbn [app] in E.
      - injection E as E1 E2. subst. exists A'. auto.
      - injection E as E1 E2. subst z. destruct (IH A E2 ltac:(unfold zlen in *; cbn [length] in L; lia)) as (Q & -> & ->). exists Q. auto. }
    apply (no_third A (c + 1) Q d B' b q).
    + apply ge1_gens. rewrite EB in FB. apply Forall_app in FB. tauto.
    + apply ge1_gens. exact FB'.
    + apply ge1_gens. apply Forall_app in F. tauto.
    + exact Hd.
    + exact E1.
    + exact E2.
    + rewrite <- EB. exact Eb.
    + rewrite <- EB, Eq. lia.
    + rewrite <- EB. exact R.
Qed.
Lemma bumps_wire : forall y w i r k, bumps y w i r k -> Forall (fun i => 1 <= i) w -> forall A c B b, w = A ++ c :: B -> zlen A = i -> 1 <= b -> word_map B b = c + 1 ->
  exists q, b < q /\ forall x, word_map r x = pcall y (refl b q x).
Proof.
  intros y w i r k H. induction H as [w i S R|w i j r k S N O H IH]; intros F A c B b Ew Li Hb Eb; pose proof S as (_ & Hi & Rd & Y); subst w i; rewrite raise_split in *; rewrite delete_split in *; pose proof F as F0; apply Forall_app in F0; destruct F0 as [FA F0]; inversion F0 as [|? ? Hc FB]; subst.
  - destruct (preimage B (c + 2) FB ltac:(lia)) as (q & Hq & Eq). exists q. split; [apply (red_order A (c + 1) B b q); try assumption; try lia|]. intro x. rewrite wordp_map by apply Rd. apply cross_refl; [apply ge1_gens; exact FB|lia|exact Eb|rewrite Eq; lia].
  - assert (F' : Forall (fun i => 1 <= i) (A ++ (c + 1) :: B)) by (apply Forall_app; split; [exact FA|constructor; [lia|exact FB]]). destruct (cut_at (A ++ (c + 1) :: B) j (proj1 O)) as (A' & d & B' & E & L).
    apply (IH F' A' d B' b E L Hb). eapply (wire_stays (wordp (A ++ B)) A c B j b); try eassumption. reflexivity.
Qed.
(* the wires crossing at the marked letter of a reduced word *)
Lemma start_wire : forall A c B a b, red (A ++ c :: B) -> Forall (fun i => 1 <= i) (A ++ c :: B) -> 1 <= a -> a < b -> (forall x, word_map (A ++ c :: B) x = word_map (A ++ B) (refl a b x)) -> word_map B b = c + 1.
Proof.
  intros A c B a b R F Ha Hab E. pose proof F as F0. apply Forall_app in F0. destruct F0 as [FA F0]. inversion F0 as [|? ? Hc FB]; subst.
  destruct (preimage B c FB Hc) as (q1 & Hq1 & E1). destruct (preimage B (c + 1) FB ltac:(lia)) as (q2 & Hq2 & E2). pose proof (red_order A c B q1 q2 R Hc Hq1 Hq2 E1 E2) as L.
  pose proof (cross_refl A c B q1 q2 (ge1_gens _ FB) Hc E1 E2) as X. assert (P : forall x, refl q1 q2 x = refl a b x) by (intro x; apply (word_map_inj (A ++ B)); [apply ge1_gens, Forall_app; auto|]; rewrite <- X; apply E).
  destruct (refl_pair q1 q2 a b Hq1 Hq2) as [[Q1 Q2]|[Q1 Q2]]; try assumption; try lia. subst. exact E2.
Qed.
