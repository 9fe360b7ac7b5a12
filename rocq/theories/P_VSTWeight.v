(* C112: the transitions keep the weight *)
From Coq Require Import List ZArith Lia Bool Permutation.
From Verif Require Import PyBase M_Tableaux S_Tableaux L_Tableaux S_Semistandard M_Transposed S_Transposed M_VST S_VST L_VST P_VST M_VSTMoves S_VSTMoves P_VSTMoves.
Import ListNotations.
Local Open Scope Z_scope.

Lemma entry_iff : forall (T G : tab) i j x, grouped T G -> (holds T i j x <-> In ((i, j), [x]) T).
Proof. intros T G i j x TG. rewrite (holds_single T G TG). apply (lookup_iff T G TG). Qed.
Lemma nodup_app : forall (a b : list box), NoDup a -> NoDup b -> (forall x, In x a -> ~ In x b) -> NoDup (a ++ b).
Proof.
  induction a as [|y a IH]; intros b A B D; [exact B|]. inversion A as [|? ? A1 A2]; subst. cbn [app]. constructor; [|apply IH; [exact A2|exact B|intros x Hx; apply D; right; exact Hx]]. intro I. apply in_app_or in I. destruct I as [I|I]; [contradiction|]. exact (D y (or_introl eq_refl) I).
Qed.
Lemma regrouped_weight : forall (T G T' G' : tab) k alpha, grouped T G -> regrouped k T G T' G' -> group_weight alpha (T, G) -> group_weight alpha (T', G').
Proof.
  intros T G T' G' k alpha TG (TG' & _ & _ & _ & CARD) W n. specialize (W n). cbn [fst snd] in *. set (m := Z.of_nat n + 1) in *. destruct W as (l & N & L & E).
  assert (SPLIT : forall (U H : tab), grouped U H -> forall b, (In (b, [0]) H /\ exists x, holds U (fst b) (snd b) x /\ Z.abs x = m) <-> ((In (b, [m]) U /\ In (b, [0]) H) \/ (In (b, [- m]) U /\ In (b, [0]) H))).
  { intros U H UH [i j]. cbn [fst snd]. split.
    - intros (B & x & X & Y). apply (entry_iff U H i j x UH) in X. assert (x = m \/ x = - m) as [-> | ->] by lia; [left|right]; split; assumption.
    - intros [[X B]|[X B]]; (split; [exact B|]); [exists m|exists (- m)]; (split; [apply (entry_iff U H); assumption|lia]). }
  assert (DIS : forall (U H : tab), grouped U H -> forall b, In (b, [m]) U -> ~ In (b, [- m]) U) by (intros U H UH b A B; apply (lookup_iff U H UH) in A; apply (lookup_iff U H UH) in B; assert (m = - m) by congruence; lia).
  set (f := fun b : box => same_entry T b m).
  assert (F : forall b, f b = true <-> In (b, [m]) T) by (intro b; unfold f; rewrite (same_ok T G TG); apply (lookup_iff T G TG)).
  destruct (CARD m (Z.of_nat (length (filter f l)))) as (l1 & N1 & L1 & E1).
  { exists (filter f l). split; [apply NoDup_filter; exact N|]. split; [|reflexivity]. intro b. rewrite filter_In, L, F, (SPLIT T G TG). tauto. }
  destruct (CARD (- m) (Z.of_nat (length (filter (fun b => negb (f b)) l)))) as (l2 & N2 & L2 & E2).
  { exists (filter (fun b => negb (f b)) l). split; [apply NoDup_filter; exact N|]. split; [|reflexivity]. intro b. rewrite filter_In, L, negb_true_iff, (SPLIT T G TG). split.
    - intros [[[A B]|[A B]] D]; [apply F in A; congruence|split; assumption].
    - intros [A B]. split; [right; split; assumption|]. destruct (f b) eqn:D; [|reflexivity]. apply F in D. destruct (DIS T G TG b D A). }
  exists (l1 ++ l2). split; [apply nodup_app; [exact N1|exact N2|]; intros b A B; apply L1 in A; apply L2 in B; exact (DIS T' G' TG' b (proj1 A) (proj1 B))|]. split.
  - intro b. rewrite in_app_iff, L1, L2, (SPLIT T' G' TG'). reflexivity.
  - rewrite app_length, <- E. assert (S : length l = (length (filter f l) + length (filter (fun b => negb (f b)) l))%nat) by (clear; induction l as [|b l IH]; [reflexivity|]; cbn [filter length]; destruct (f b); cbn [negb length]; lia). lia.
Qed.
Theorem C112_weight : forall (T G T' G' : tab) k fuel alpha, grouped T G -> 0 < k -> (length T <= fuel)%nat ->
  backward_transition fuel (T, G) k = Ok (T', G') \/ forward_transition fuel (T, G) k = Ok (T', G') ->
  group_weight alpha (T, G) -> group_weight alpha (T', G').
Proof.
  intros T G T' G' k fuel alpha TG Hk LF E. apply (regrouped_weight T G T' G' k alpha TG). destruct E as [E|E].
  - destruct (C112_backward T G k fuel TG Hk LF) as (T1 & G1 & E1 & R). rewrite E1 in E. injection E as <- <-. exact R.
  - destruct (C112_forward T G k fuel TG Hk LF) as [E1|(T1 & G1 & E1 & R)]; rewrite E1 in E; [discriminate|]. injection E as <- <-. exact R.
Qed.
Print Assumptions C112_weight.
(* the tableau of C112_example has weight 1, 3, 1: one group of entries 1, three of entries 2 or 2', one of entry 3 *)
Example C112_weight_example : group_weight [1; 3; 1] (ex_T, ex_G) /\ vst_weight (ex_T, ex_G) 3 = Ok [1; 3; 1].
Proof.
  split; [|vm_compute; reflexivity]. intro n. cbn [fst snd].
  assert (K : forall b : box, In (b, [0]) ex_G <-> In b [(1, 3); (1, 4); (2, 2); (2, 3); (3, 3)]).
  { intro b. unfold ex_G. cbn [In]. split; intro H; decompose [or] H; try contradiction; try discriminate; try (match goal with Q : (_, _) = (b, _) |- _ => injection Q as Q; try discriminate end); subst; tauto. }
  assert (V : forall b : box, In b [(1, 3); (1, 4); (2, 2); (2, 3); (3, 3)] -> forall x, holds ex_T (fst b) (snd b) x <-> tlookup ex_T b = Some [x]) by (intros [i j] _ x; apply (holds_single ex_T ex_G ex_grouped)).
  assert (Q : forall l : list box, NoDup l -> (forall b, In b l <-> In b [(1, 3); (1, 4); (2, 2); (2, 3); (3, 3)] /\ exists x, tlookup ex_T b = Some [x] /\ Z.abs x = Z.of_nat n + 1) -> cardinality (fun b => In (b, [0]) ex_G /\ exists x, holds ex_T (fst b) (snd b) x /\ Z.abs x = Z.of_nat n + 1) (Z.of_nat (length l))).
  { intros l N H. exists l. split; [exact N|]. split; [|reflexivity]. intro b. rewrite H, K. split; intros [A (x & X & Y)]; (split; [exact A|]); exists x; (split; [apply (V b A); exact X|exact Y]). }
  assert (P : forall l : list box, NoDup l -> l = filter (fun b => match tlookup ex_T b with Some [x] => Z.abs x =? Z.of_nat n + 1 | _ => false end) [(1, 3); (1, 4); (2, 2); (2, 3); (3, 3)] -> cardinality (fun b => In (b, [0]) ex_G /\ exists x, holds ex_T (fst b) (snd b) x /\ Z.abs x = Z.of_nat n + 1) (Z.of_nat (length l))).
  { intros l N ->. apply Q; [exact N|]. intro b. rewrite filter_In. split; intros [A B]; (split; [exact A|]).
    - destruct (tlookup ex_T b) as [[|x [|y r]]|]; try discriminate. exists x. split; [reflexivity|]. apply Z.eqb_eq. exact B.
    - destruct B as (x & -> & B). apply Z.eqb_eq. exact B. }
  destruct n as [|[|[|n]]].
  - apply (P [(1, 3)]); [repeat constructor; intros []|reflexivity].
  - apply (P [(1, 4); (2, 2); (2, 3)]); [repeat constructor; cbn; intuition congruence|reflexivity].
  - apply (P [(3, 3)]); [repeat constructor; intros []|reflexivity].
  - replace (nth (S (S (S n))) [1; 3; 1] 0) with 0 by (cbn [nth]; destruct n; reflexivity). apply (Q []); [constructor|]. intro b. split; [intros []|]. intros [I (x & X & Y)]. assert (4 <= Z.abs x) by lia. cbn [In] in I. decompose [or] I; try contradiction; subst b; vm_compute in X; injection X as <-; lia.
Qed.
