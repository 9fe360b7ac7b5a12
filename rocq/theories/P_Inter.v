(* C100: interstandard valued-set tableaux; in_same_group *)
From Coq Require Import List ZArith Lia Bool Permutation Sorted.
From Verif Require Import PyBase M_Partitions S_Partitions M_Tableaux S_Tableaux L_Tableaux S_Strips M_Semistandard S_Semistandard L_Semi3 L_Families P_Families S_Standardize P_Standardize M_Transposed S_Transposed L_Trans6 M_VST S_VST L_VST P_VST S_Unprime P_Unprime M_Inter S_Inter.
Import ListNotations.
Local Open Scope Z_scope.

(* ---------- in_same_group ---------- *)
Section Same.
  Variables T G : tab.
  Hypothesis TG : grouped T G.
  Lemma linked_row_iff : forall i j, linked_row T G i j <-> exists x, 0 < x /\ In ((i, j), [x]) T /\ In ((i, j), [1]) G.
  Proof.
    intros i j. split.
    - intros (x & a & b & P & (L & A & B & _) & H1 & H2). exists x. split; [exact P|]. split; [apply A; lia|apply B; lia].
    - intros (x & P & H & L1). destruct (C98_row_groups T G TG x i j P H) as (a & b & B & R & _). exists x, a, b. split; [exact P|]. split; [exact R|]. split; [lia|]. destruct R as (_ & _ & _ & Z0 & _). assert (j <> b) by (intros ->; exact (NL T G TG _ Z0 L1)). lia.
  Qed.
  Lemma right_ok : forall i j, exists b, same_group_right (T, G) (i, j) = Ok b /\ (b = true <-> linked_row T G i j).
  Proof.
    intros i j. unfold same_group_right. cbn [fst snd]. destruct (truthy G (i, j)) eqn:F.
    - destruct (truthy_cell T G TG _ F) as (x & E & _). rewrite (entry_ok T _ _ E). cbn [rbind]. eexists. split; [reflexivity|]. rewrite Z.ltb_lt, linked_row_iff. apply (truthy_ok T G TG) in F. apply (lookup_iff T G TG) in E. split.
      + intro P. exists x. split; [exact P|]. split; assumption.
      + intros (y & P & H & _). rewrite (one_entry T G TG _ _ _ E H). exact P.
    - exists false. split; [reflexivity|]. split; [discriminate|]. rewrite linked_row_iff. intros (x & _ & _ & L1). apply (truthy_ok T G TG) in L1. congruence.
  Qed.
  Theorem C100_same_row : forall i j, exists b, in_same_group (T, G) i j i (j + 1) = Ok b /\ in_same_group (T, G) i (j + 1) i j = Ok b /\ (b = true <-> linked_row T G i j).
  Proof.
    intros i j. destruct (right_ok i j) as (b & E & H). exists b. unfold in_same_group. rewrite !Z.eqb_refl. cbn [andb]. rewrite (proj2 (Z.eqb_neq j (j + 1 + 1)) ltac:(lia)). split; [exact E|]. split; [exact E|exact H].
  Qed.
  (* for neighbours in a column the label of the wrong one of the two cells is read *)
  Theorem C100_same_column : forall i j, exists b, in_same_group (T, G) i j (i + 1) j = Ok b /\ in_same_group (T, G) (i + 1) j i j = Ok b /\ (b = true <-> linked_column T G (i - 1) j).
  Proof.
    intros i j. assert (Q : exists b, same_group_up (T, G) (i, j) = Ok b /\ (b = true <-> linked_column T G (i - 1) j)).
    { assert (LC : linked_column T G (i - 1) j <-> exists x, x < 0 /\ In ((i, j), [x]) T /\ In ((i, j), [1]) G).
      { split.
        - intros (x & a & b & P & (L & A & B & _) & H1 & H2). exists x. split; [exact P|]. split; [apply A; lia|apply B; lia].
        - intros (x & P & H & L1). destruct (C98_column_groups T G TG x i j P H) as (a & b & B & R & _). exists x, a, b. split; [exact P|]. split; [exact R|]. destruct R as (_ & _ & _ & Z0 & _). assert (i <> a) by (intros ->; exact (NL T G TG _ Z0 L1)). lia. }
      unfold same_group_up. cbn [fst snd]. destruct (truthy G (i, j)) eqn:F.
      - destruct (truthy_cell T G TG _ F) as (x & E & _). rewrite (entry_ok T _ _ E). cbn [rbind]. eexists. split; [reflexivity|]. rewrite Z.ltb_lt, LC. apply (truthy_ok T G TG) in F. apply (lookup_iff T G TG) in E. split.
        + intro P. exists x. split; [exact P|]. split; assumption.
        + intros (y & P & H & _). rewrite (one_entry T G TG _ _ _ E H). exact P.
      - exists false. split; [reflexivity|]. split; [discriminate|]. rewrite LC. intros (x & _ & _ & L1). apply (truthy_ok T G TG) in L1. congruence. }
    destruct Q as (b & E & H). exists b. unfold in_same_group. rewrite (proj2 (Z.eqb_neq i (i + 1)) ltac:(lia)), (proj2 (Z.eqb_neq (i + 1) i) ltac:(lia)), (proj2 (Z.eqb_neq (i + 1 + 1) i) ltac:(lia)), !Z.eqb_refl. cbn [andb]. split; [exact E|]. split; [exact E|exact H].
  Qed.
End Same.

(* ---------- shapes ---------- *)
Section Shape.
  Variables mu nu : list Z.
  Hypothesis SM : strict_partition mu.
  Hypothesis SN : strict_partition nu.
  Local Notation sk := (in_skew shifted_cell mu nu).
  Lemma sk_up : forall i j, sk i j -> sk (i + 1) (j + 1) -> sk i (j + 1).
  Proof.
    intros i j [C1 C2] [C3 C4]. unfold in_skew, shifted_cell in *. destruct SM as [_ S1]. split.
    - assert (Z.to_nat (i + 1 - 1) = S (Z.to_nat (i - 1))) as W by lia. rewrite W in *. assert (K : (S (Z.to_nat (i - 1)) < length mu)%nat). { destruct (Nat.lt_ge_cases (S (Z.to_nat (i - 1))) (length mu)); [assumption|]. unfold row in C3. rewrite nth_overflow in C3 by lia. lia. } specialize (S1 _ K). lia.
    - intros [C5 C6]. apply C2. lia.
  Qed.
  Lemma sk_diag : forall r s t, sk r r -> sk s s -> r <= t <= s -> sk t t.
  Proof.
    intros r s t Cx Cy Ht. unfold in_skew, shifted_cell in *. split.
    - destruct Cx as [Cx _]. split; [lia|]. destruct SM as [S0 _]. destruct Cy as [Cy _]. destruct (Nat.lt_ge_cases (Z.to_nat (s - 1)) (length mu)) as [K|K]; [|unfold row in Cy; rewrite nth_overflow in Cy by lia; lia]. rewrite Forall_forall in S0. assert (0 < row mu (Z.to_nat (t - 1))). { apply S0. unfold row. apply nth_In. lia. } lia.
    - intros [_ K]. destruct Cx as [Cx0 Cx]. apply Cx. split; [lia|]. destruct SN as [S0 _]. destruct (Nat.lt_ge_cases (Z.to_nat (t - 1)) (length nu)) as [K2|K2]; [|unfold row in K; rewrite nth_overflow in K by lia; lia]. rewrite Forall_forall in S0. assert (0 < row nu (Z.to_nat (r - 1))). { apply S0. unfold row. apply nth_In. lia. } lia.
  Qed.
  Lemma sk_upper : forall i j, sk i j -> 1 <= i <= j.
  Proof. intros i j [[A B] _]. lia. Qed.

  Local Notation inter := (interstandard_of mu nu).
  Lemma inter_grouped : forall T G, inter (T, G) -> grouped T G.
  Proof. intros T G (_ & W & _ & L & H & _). cbn [fst snd] in *. split; [exact W|]. split; [|exact H]. intros c l Hc. destruct (L c l Hc) as (x & -> & K). exists x. split; [reflexivity|]. unfold letter in K. lia. Qed.
  Section One.
    Variables T G : tab.
    Hypothesis V : inter (T, G).
    Lemma TG1 : grouped T G. Proof. exact (inter_grouped T G V). Qed.
    Lemma cell_of : forall i j, sk i j -> exists x, In ((i, j), [x]) T /\ letter x.
    Proof. intros i j H. pose proof V as V0; destruct V0 as (_ & _ & C & L & _). cbn [fst] in *. apply C in H. destruct H as (l & H). destruct (L _ _ H) as (x & -> & K). exists x. split; assumption. Qed.
    Lemma of_cell : forall i j x, In ((i, j), [x]) T -> sk i j /\ letter x.
    Proof. intros i j x H. pose proof V as V0; destruct V0 as (_ & _ & C & L & _). cbn [fst] in *. split; [apply C; exists [x]; exact H|]. destruct (L _ _ H) as (y & E & K). injection E as <-. exact K. Qed.
    Lemma row_rule : forall i j x y, In ((i, j), [x]) T -> In ((i, j + 1), [y]) T -> inter_row x y \/ (i = j /\ x = 1 /\ y = -2).
    Proof. intros i j x y Hx Hy. pose proof V as V0; destruct V0 as (_ & _ & _ & _ & _ & R & _). cbn [fst snd] in R. destruct (R i j x y (proj2 (holds_In T G TG1 _ _ _) Hx) (proj2 (holds_In T G TG1 _ _ _) Hy)) as [K|K]; [left; exact K|right; tauto]. Qed.
    Lemma col_rule : forall i j x y, In ((i, j), [x]) T -> In ((i + 1, j), [y]) T -> inter_column x y \/ (i + 1 = j /\ x = 1 /\ y = -2).
    Proof. intros i j x y Hx Hy. pose proof V as V0; destruct V0 as (_ & _ & _ & _ & _ & _ & R). cbn [fst snd] in R. destruct (R i j x y (proj2 (holds_In T G TG1 _ _ _) Hx) (proj2 (holds_In T G TG1 _ _ _) Hy)) as [K|K]; [left; exact K|right; tauto]. Qed.
    (* at most two diagonal cells *)
    Lemma no_three : forall r s, sk r r -> sk s s -> s <= r + 1.
    Proof.
      intros r s Hr Hs. destruct (Z.le_gt_cases s (r + 1)) as [K|K]; [exact K|]. exfalso.
      pose proof (sk_diag r s (r + 1) Hr Hs ltac:(lia)) as H1. pose proof (sk_diag r s (r + 2) Hr Hs ltac:(lia)) as H2. pose proof (sk_up r r Hr H1) as B. replace (r + 2) with (r + 1 + 1) in H2 by lia. pose proof (sk_up (r + 1) (r + 1) H1 H2) as E. pose proof (sk_up r (r + 1) B E) as D.
      destruct (cell_of _ _ Hr) as (a & Ha & La). destruct (cell_of _ _ B) as (b & Hb & Lb). destruct (cell_of _ _ D) as (d & Hd & Ld). destruct (cell_of _ _ E) as (e & He & Le). destruct (cell_of _ _ H2) as (f & Hf & Lf).
      pose proof (row_rule _ _ _ _ Ha Hb) as R1. pose proof (row_rule _ _ _ _ Hb Hd) as R2. pose proof (col_rule _ _ _ _ Hd He) as C1. pose proof (col_rule _ _ _ _ He Hf) as C2. clear - La Lb Ld Le Lf R1 R2 C1 C2. unfold inter_row, inter_column, earlier, letter in *.
      assert (d < 0 \/ 0 < d) as [P|P] by (clear - Ld; lia).
      - assert (Q : b = -1) by (clear - Lb Ld R2 P; lia). clear - La R1 Q. lia.
      - assert (Q : e = 2) by (clear - Le Ld C1 P; lia). clear - Lf C2 Q. lia.
    Qed.
    Lemma two_diagonal : forall r i x, sk r r -> sk (r + 1) (r + 1) -> In ((i, i), [x]) T -> i = r \/ i = r + 1.
    Proof. intros r i x H1 H2 Hx. apply of_cell in Hx. destruct Hx as [Hx _]. pose proof (no_three i (r + 1) Hx H2). pose proof (no_three r i H1 Hx). lia. Qed.
    Lemma inter_hinge : exists o, hinge (T, G) 1 = Ok o /\ forall r, o = Some r <-> hinge_at T 1 r.
    Proof.
      apply hinge_ok; [exact TG1|lia|]. intros r s Hr Hs L. destruct (Hr (r, r)) as (x & Hx & _); [left; reflexivity|]. destruct (Hs (s + 1, s + 1)) as (y & Hy & _); [right; right; left; reflexivity|]. apply of_cell in Hx, Hy. pose proof (no_three r (s + 1) (proj1 Hx) (proj1 Hy)). lia.
    Qed.
    Lemma inter_hinge_at : forall r, sk r r -> sk (r + 1) (r + 1) -> hinge_at T 1 r.
    Proof.
      intros r H1 H2 c Hc. assert (K : forall i j, sk i j -> exists x, In ((i, j), [x]) T /\ (Z.abs x = 1 \/ Z.abs x = 1 + 1)). { intros i j H. destruct (cell_of i j H) as (x & Hx & L). exists x. split; [exact Hx|]. unfold letter in L. lia. }
      cbn [In] in Hc. destruct Hc as [<-|[<-|[<-|[]]]]; apply K; [exact H1|apply sk_up; assumption|exact H2].
    Qed.
  End One.
End Shape.

(* ---------- is_interstandard ---------- *)
Definition rankz (x : Z) : Z := if x =? -1 then 0 else if x =? -2 then 2 else if x =? 1 then 3 else 5.
Lemma col_test : forall x y, letter x -> letter y -> (negb ((rankz y <? rankz x) || ((rankz y =? rankz x) && negb (rankz y mod 2 =? 0))) = true <-> inter_column x y).
Proof. intros x y Lx Ly. destruct Lx as [->|[->|[->| ->]]], Ly as [->|[->|[->| ->]]]; vm_compute (negb _); unfold inter_column, earlier; split; intro H; try discriminate H; try reflexivity; lia. Qed.
Lemma row_test : forall x y, letter x -> letter y -> (negb ((rankz y <? rankz x) || ((rankz x =? rankz y) && (rankz x mod 2 =? 0))) = true <-> inter_row x y).
Proof. intros x y Lx Ly. destruct Lx as [->|[->|[->| ->]]], Ly as [->|[->|[->| ->]]]; vm_compute (negb _); unfold inter_row, earlier; split; intro H; try discriminate H; try reflexivity; lia. Qed.
Section Test.
  Variables T G : tab.
  Hypothesis TG : grouped T G.
  Hypothesis LE : forall c x, In (c, [x]) T -> letter x.
  Lemma iofn_ok : forall c x, In (c, [x]) T -> iofn T c = Ok (rankz x).
  Proof.
    intros c x H. pose proof (LE c x H) as L. apply (lookup_iff T G TG) in H. unfold iofn, tget. rewrite H. destruct L as [->|[->|[->| ->]]]; reflexivity.
  Qed.
  Lemma same_In : forall c x, same_entry T c x = true <-> In (c, [x]) T.
  Proof. intros c x. rewrite (same_ok T G TG). apply (lookup_iff T G TG). Qed.
  Theorem C100_is_interstandard : exists b, is_interstandard (T, G) = Ok b /\ (b = true <-> interstandard T G).
  Proof.
    unfold is_interstandard. cbv zeta. cbn [fst snd].
    set (EC := fun i j x y => i + 1 = j /\ x = 1 /\ y = -2 /\ (holds T i i (-2) \/ (holds T i i 1 /\ In ((i, i), [1]) G))).
    set (ER := fun i j x y => i = j /\ x = 1 /\ y = -2 /\ (holds T (i + 1) (i + 1) 1 \/ (holds T (i + 1) (i + 1) (-2) /\ In ((i + 1, i + 1), [1]) G))).
    match goal with |- context [allr ?p (map fst T)] => destruct (allr_ok p (fun c => forall x y, In (c, [y]) T -> In ((fst c - 1, snd c), [x]) T -> inter_column x y \/ EC (fst c - 1) (snd c) x y) (map fst T)) as (b1 & E1 & H1) end.
    { intros [i j] Hc. apply (cell_iff T G TG) in Hc. destruct Hc as (y & Hy). cbn [fst snd]. destruct (lookup_cases T G TG (i - 1, j)) as [F|(x & F & _)].
      - unfold tmem at 1. rewrite F. exists true. split; [reflexivity|]. split; [intros _ x1 y1 _ K; apply (lookup_iff T G TG) in K; congruence|reflexivity].
      - pose proof (tlookup_In _ _ _ F) as Hx. rewrite (proj2 (mem_ok T G TG (i - 1, j)) (ex_intro _ x F)).
        assert (W : forall P : Prop, P <-> (inter_column x y \/ EC (i - 1) j x y) -> (P <-> forall x0 y0, In ((i, j), [y0]) T -> In ((i - 1, j), [x0]) T -> inter_column x0 y0 \/ EC (i - 1) j x0 y0)).
        { intros P HP. rewrite HP. split; [intros K x0 y0 A B; rewrite (one_entry T G TG _ _ _ A Hy), (one_entry T G TG _ _ _ B Hx); exact K|intro K; exact (K x y Hy Hx)]. }
        destruct ((i =? j) && tmem T (i - 1, i - 1) && same_entry T (i, j) (-2) && same_entry T (i - 1, j) 1 && (same_entry T (i - 1, i - 1) (-2) || same_entry T (i - 1, i - 1) 1 && truthy G (i - 1, i - 1))) eqn:Q.
        + exists true. split; [reflexivity|]. apply W. split; [intros _; right|reflexivity]. rewrite !andb_true_iff, orb_true_iff, andb_true_iff, !same_In, Z.eqb_eq, (truthy_ok T G TG) in Q. destruct Q as ((((Q1 & _) & Q2) & Q3) & Q4). unfold EC. rewrite !(holds_In T G TG). split; [lia|]. split; [exact (one_entry T G TG _ _ _ Hx Q3)|]. split; [exact (one_entry T G TG _ _ _ Hy Q2)|exact Q4].
        + rewrite (iofn_ok _ _ Hy), (iofn_ok _ _ Hx). cbn [rbind]. eexists. split; [reflexivity|]. apply W. rewrite (col_test x y (LE _ _ Hx) (LE _ _ Hy)). split; [intro K; left; exact K|]. intros [K|K]; [exact K|]. exfalso. apply Bool.not_true_iff_false in Q. apply Q.
          destruct K as (K1 & -> & -> & K4). rewrite !(holds_In T G TG) in K4. rewrite !andb_true_iff, orb_true_iff, andb_true_iff, !same_In, Z.eqb_eq, (truthy_ok T G TG), (mem_ok T G TG). split; [split; [split; [split; [lia|]|exact Hy]|exact Hx]|exact K4]. destruct K4 as [K4|[K4 _]]; eexists; apply (lookup_iff T G TG); exact K4. }
    rewrite E1. cbn [rbind]. destruct b1.
    - match goal with |- context [allr ?p (map fst T)] => destruct (allr_ok p (fun c => forall x y, In (c, [x]) T -> In ((fst c, snd c + 1), [y]) T -> inter_row x y \/ ER (fst c) (snd c) x y) (map fst T)) as (b2 & E2 & H2) end.
      { intros [i j] Hc. apply (cell_iff T G TG) in Hc. destruct Hc as (x & Hx). cbn [fst snd]. destruct (lookup_cases T G TG (i, j + 1)) as [F|(y & F & _)].
        - unfold tmem at 1. rewrite F. exists true. split; [reflexivity|]. split; [intros _ x1 y1 _ K; apply (lookup_iff T G TG) in K; congruence|reflexivity].
        - pose proof (tlookup_In _ _ _ F) as Hy. rewrite (proj2 (mem_ok T G TG (i, j + 1)) (ex_intro _ y F)).
          assert (W : forall P : Prop, P <-> (inter_row x y \/ ER i j x y) -> (P <-> forall x0 y0, In ((i, j), [x0]) T -> In ((i, j + 1), [y0]) T -> inter_row x0 y0 \/ ER i j x0 y0)).
          { intros P HP. rewrite HP. split; [intros K x0 y0 A B; rewrite (one_entry T G TG _ _ _ A Hx), (one_entry T G TG _ _ _ B Hy); exact K|intro K; exact (K x y Hx Hy)]. }
          destruct ((i =? j) && tmem T (i + 1, i + 1) && same_entry T (i, j) 1 && same_entry T (i, j + 1) (-2) && (same_entry T (i + 1, i + 1) 1 || same_entry T (i + 1, i + 1) (-2) && truthy G (i + 1, i + 1))) eqn:Q.
          + exists true. split; [reflexivity|]. apply W. split; [intros _; right|reflexivity]. rewrite !andb_true_iff, orb_true_iff, andb_true_iff, !same_In, Z.eqb_eq, (truthy_ok T G TG) in Q. destruct Q as ((((Q1 & _) & Q2) & Q3) & Q4). unfold ER. rewrite !(holds_In T G TG). split; [lia|]. split; [exact (one_entry T G TG _ _ _ Hx Q2)|]. split; [exact (one_entry T G TG _ _ _ Hy Q3)|exact Q4].
          + rewrite (iofn_ok _ _ Hy), (iofn_ok _ _ Hx). cbn [rbind]. eexists. split; [reflexivity|]. apply W. rewrite (row_test x y (LE _ _ Hx) (LE _ _ Hy)). split; [intro K; left; exact K|]. intros [K|K]; [exact K|]. exfalso. apply Bool.not_true_iff_false in Q. apply Q.
            destruct K as (K1 & -> & -> & K4). rewrite !(holds_In T G TG) in K4. rewrite !andb_true_iff, orb_true_iff, andb_true_iff, !same_In, Z.eqb_eq, (truthy_ok T G TG), (mem_ok T G TG). split; [split; [split; [split; [lia|]|exact Hx]|exact Hy]|exact K4]. destruct K4 as [K4|[K4 _]]; eexists; apply (lookup_iff T G TG); exact K4. }
      exists b2. split; [exact E2|]. rewrite H2. split.
      + intro K. split.
        * intros i j x y Hx Hy. apply (holds_In T G TG) in Hx, Hy. apply (K (i, j)); [apply (cell_iff T G TG); exists x| |]; assumption.
        * intros i j x y Hx Hy. apply (holds_In T G TG) in Hx, Hy. pose proof (proj1 H1 eq_refl (i + 1, j) ltac:(apply (cell_iff T G TG); exists y; exact Hy) x y Hy) as Q. cbn [fst snd] in Q. replace (i + 1 - 1) with i in Q by lia. exact (Q Hx).
      + intros (O1 & _) [i j] _ x y Hx Hy. cbn [fst snd] in *. apply (O1 i j); apply (holds_In T G TG); assumption.
    - exists false. split; [reflexivity|]. split; [discriminate|]. intros (_ & O2). apply H1. intros [i j] _ x y Hx Hy. cbn [fst snd] in *. apply (O2 (i - 1) j); apply (holds_In T G TG); [exact Hy|]. replace (i - 1 + 1) with i by lia. exact Hx.
  Qed.
End Test.

(* ---------- all_interstandard ---------- *)
Definition zeros (T : tab) : tab := map (fun cv => (fst cv, [0])) T.
Lemma zeros_grouped : forall T : tab, well_formed T -> (forall c l, In (c, l) T -> exists x, l = [x] /\ x <> 0) -> grouped T (zeros T).
Proof.
  intros T W S. split; [exact W|]. split; [exact S|]. assert (I0 : forall c l, In (c, l) (zeros T) <-> l = [0] /\ exists w, In (c, w) T).
  { intros c l. unfold zeros. rewrite in_map_iff. split; [intros ([d w] & E & H); cbn [fst] in E; injection E as <- <-; split; [reflexivity|exists w; exact H]|intros [-> (w & H)]; exists (c, w); split; [reflexivity|exact H]]. }
  split; [|split].
  - destruct W as [W1 W2]. split; [unfold zeros; rewrite map_map; exact W1|]. intros c l H. apply I0 in H. destruct H as [-> (w & H)]. destruct (W2 c w H) as (A & B & _). split; [exact A|]. split; [exact B|]. repeat constructor.
  - intros i j. split; intros (l & H); [apply I0 in H; apply H|exists [0]; apply I0; split; [reflexivity|exists l; exact H]].
  - intros i j l H. left. apply I0 in H. apply H.
Qed.
Definition adjz (x : Z) : Z := if x =? 2 then 1 else if x =? 3 then 2 else x.
Definition unadj (x : Z) : Z := if x =? 1 then 2 else if x =? 2 then 3 else x.
Definition letter0 (x : Z) : Prop := x = -1 \/ x = -2 \/ x = 2 \/ x = 3.
Lemma adj_letter : forall x, letter0 x -> adj x = Ok (adjz x) /\ letter (adjz x) /\ unadj (adjz x) = x.
Proof. intros x [->|[->|[->| ->]]]; repeat split; unfold letter; cbn; lia. Qed.
Lemma unadj_letter : forall x, letter x -> letter0 (unadj x) /\ adjz (unadj x) = x.
Proof. intros x [->|[->|[->| ->]]]; (split; [|reflexivity]); unfold letter0; cbn; lia. Qed.
Lemma adj_row : forall x y, letter0 x -> letter0 y -> (row_ok x y <-> inter_row (adjz x) (adjz y)).
Proof. intros x y [->|[->|[->| ->]]] [->|[->|[->| ->]]]; cbv [adjz Z.eqb Pos.eqb]; unfold row_ok, inter_row, earlier; lia. Qed.
Lemma adj_col : forall x y, letter0 x -> letter0 y -> (column_ok x y <-> inter_column (adjz x) (adjz y)).
Proof. intros x y [->|[->|[->| ->]]] [->|[->|[->| ->]]]; cbv [adjz Z.eqb Pos.eqb]; unfold column_ok, inter_column, earlier; lia. Qed.
Lemma adj_sign : forall x, letter0 x -> (0 <? adjz x) = (0 <? x).
Proof. intros x [->|[->|[->| ->]]]; reflexivity. Qed.
Lemma adj_eqb : forall x y, letter0 x -> letter0 y -> (adjz x =? adjz y) = (x =? y).
Proof. intros x y [->|[->|[->| ->]]] [->|[->|[->| ->]]]; reflexivity. Qed.

Definition setat (c : box) (y : Z) (d : box) (x : Z) : Z := if box_eqb d c then y else x.
Lemma setat_same : forall c y x, setat c y c x = y.
Proof. intros c y x. unfold setat. rewrite box_eqb_refl. reflexivity. Qed.
Lemma setat_other : forall c y d x, d <> c -> setat c y d x = x.
Proof. intros c y d x H. unfold setat. destruct (box_eqb d c) eqn:E; [apply box_eqb_eq in E; contradiction|reflexivity]. Qed.
Lemma rec_rec : forall f g t, rec f (rec g t) = rec (fun c x => f c (g c x)) t.
Proof. intros f g t. unfold rec. rewrite map_map. apply map_ext. intros [c l]. cbn [fst snd]. rewrite map_map. reflexivity. Qed.

Section All.
  Variables mu nu : list Z.
  Hypothesis SM : strict_partition mu.
  Hypothesis SN : strict_partition nu.
  Local Notation sk := (in_skew shifted_cell mu nu).
  Local Notation inter := (interstandard_of mu nu).
  Definition frame (T : tab) : Prop :=
    (forall i j, shifted_cell nu i j -> shifted_cell mu i j) /\ well_formed T /\ (forall i j, (exists l, In ((i, j), l) T) <-> sk i j) /\ (forall c l, In (c, l) T -> exists x, l = [x] /\ letter x).
  Definition base (T : tab) : Prop :=
    frame T /\ (forall i j x y, In ((i, j), [x]) T -> In ((i, j + 1), [y]) T -> inter_row x y) /\ (forall i j x y, In ((i, j), [x]) T -> In ((i + 1, j), [y]) T -> inter_column x y).
  Lemma frame_zeros : forall T, frame T -> grouped T (zeros T).
  Proof. intros T (_ & W & _ & L). apply zeros_grouped; [exact W|]. intros c l H. destruct (L c l H) as (x & -> & K). exists x. split; [reflexivity|]. unfold letter in K. lia. Qed.
  Lemma frame_grouped : forall T G, frame T -> grouping_of T G -> grouped T G.
  Proof. intros T G F H. destruct (frame_zeros T F) as (W & S & _). split; [exact W|]. split; [exact S|exact H]. Qed.
  Lemma frame_upper : forall T i j x, frame T -> In ((i, j), [x]) T -> 1 <= i <= j.
  Proof. intros T i j x (_ & _ & C & _) H. apply (sk_upper mu nu). apply C. exists [x]. exact H. Qed.
  Lemma frame_rec : forall T f, frame T -> (forall c x, In (c, [x]) T -> letter (f c x)) -> frame (rec f T).
  Proof.
    intros T f F H. pose proof (frame_zeros T F) as TG. destruct F as (I0 & W & C & L). split; [exact I0|]. split; [apply (rec_wf T _ TG)|]. split.
    - intros i j. rewrite <- C. split; intros (l & K).
      + destruct (rec_cells T _ TG f _ _ K) as (x & Hx & _). exists [x]. exact Hx.
      + destruct (single T _ TG _ _ K) as (x & ->). exists [f (i, j) x]. apply (rec_In T _ TG). exists x. split; [exact K|reflexivity].
    - intros c l K. destruct (rec_cells T _ TG f _ _ K) as (x & Hx & ->). exists (f c x). split; [reflexivity|]. apply H. exact Hx.
  Qed.
  Lemma inter_iff : forall T G, inter (T, G) <-> frame T /\ grouping_of T G /\ interstandard T G.
  Proof. intros T G. unfold interstandard_of, frame. cbn [fst snd]. tauto. Qed.
  Lemma base_inter : forall T G, base T -> grouping_of T G -> inter (T, G).
  Proof.
    intros T G (F & R & C) H. apply inter_iff. split; [exact F|]. split; [exact H|]. pose proof (frame_grouped T G F H) as TG. split; intros i j x y Hx Hy; apply (holds_In T G TG) in Hx, Hy; left; [apply (R i j)|apply (C i j)]; assumption.
  Qed.
  Lemma setat_keeps : forall T G d y, frame T -> grouping_of T G -> In ((d, d), [0]) G -> y <> 0 -> keeps T G (setat (d, d) y).
  Proof.
    intros T G d y F H Z0 Ny. pose proof (frame_grouped T G F H) as TG. split; [intros c x Hx; pose proof (nz T G TG c x Hx); unfold setat; destruct (box_eqb c (d, d)); assumption|].
    intros i j x Hx L1. pose proof (frame_upper T i j x F Hx) as U. split; [apply setat_other; intros E; injection E as -> ->; exact (NL T G TG _ Z0 L1)|]. split; intro P; apply setat_other; intro E; injection E as E1 E2; lia.
  Qed.
  Definition cond1 (T G : tab) (h : Z) : Prop :=
    In ((h, h + 1), [1]) T /\ In ((h + 1, h + 1), [2]) T /\ In ((h + 1, h + 1), [0]) G /\ (In ((h, h), [-2]) T \/ (In ((h, h), [1]) T /\ In ((h, h), [1]) G)).
  Definition cond2 (T G : tab) (h : Z) : Prop :=
    In ((h, h + 1), [-2]) T /\ In ((h, h), [-1]) T /\ In ((h, h), [0]) G /\ (In ((h + 1, h + 1), [1]) T \/ (In ((h + 1, h + 1), [-2]) T /\ In ((h + 1, h + 1), [1]) G)).
  Lemma setat_letter : forall (T : tab) c y, frame T -> letter y -> frame (rec (setat c y) T).
  Proof. intros T c y F L. apply frame_rec; [exact F|]. intros d x Hx. unfold setat. destruct (box_eqb d c); [exact L|]. destruct F as (_ & _ & _ & K). destruct (K d [x] Hx) as (x' & E & Q). injection E as <-. exact Q. Qed.
  Lemma extra1 : forall T G h, base T -> grouping_of T G -> cond1 T G h -> inter (rec (setat (h + 1, h + 1) (-2)) T, G).
  Proof.
    intros T G h B H (C1 & C2 & C3 & C4). pose proof B as (F & R & C). pose proof (frame_grouped T G F H) as TG. apply inter_iff. split; [apply setat_letter; [exact F|unfold letter; lia]|]. pose proof (setat_keeps T G (h + 1) (-2) F H C3 ltac:(lia)) as K. pose proof (rec_grouped T G TG _ K) as TG1. split; [apply (rec_grouping T G TG _ K)|].
    split; intros i j x y Hx Hy; apply (rec_holds T G TG) in Hx, Hy; destruct Hx as (x' & Hx & ->), Hy as (y' & Hy & ->); apply (holds_In T G TG) in Hx, Hy.
    - left. pose proof (frame_upper T _ _ _ F Hx) as U. rewrite (setat_other _ _ (i, j + 1)) by (intro E; injection E as E1 E2; lia). pose proof (R i j x' y' Hx Hy) as Q. unfold setat. destruct (box_eqb (i, j) (h + 1, h + 1)) eqn:E; [|exact Q]. apply box_eqb_eq in E. injection E as -> ->. rewrite (one_entry T G TG _ _ _ Hx C2) in Q. unfold inter_row, earlier in *. lia.
    - pose proof (frame_upper T _ _ _ F Hy) as U. rewrite (setat_other _ _ (i, j)) by (intro E; injection E as E1 E2; lia). pose proof (C i j x' y' Hx Hy) as Q. unfold setat. destruct (box_eqb (i + 1, j) (h + 1, h + 1)) eqn:E; [|left; exact Q]. apply box_eqb_eq in E. injection E as E ->. assert (i = h) by lia. subst i. rewrite (one_entry T G TG _ _ _ Hx C1). right. split; [reflexivity|]. split; [reflexivity|]. split; [reflexivity|].
      assert (O : forall z, In ((h, h), [z]) T -> holds (rec (setat (h + 1, h + 1) (-2)) T) h h z). { intros z Hz. apply (rec_holds T G TG). exists z. split; [apply (holds_In T G TG); exact Hz|]. symmetry. apply setat_other. intro E2. injection E2 as E2. lia. }
      destruct C4 as [C4|[C4 C5]]; [left; apply O; exact C4|right; split; [apply O; exact C4|exact C5]].
  Qed.
  Lemma extra2 : forall T G h, base T -> grouping_of T G -> cond2 T G h -> inter (rec (setat (h, h) 1) T, G).
  Proof.
    intros T G h B H (C1 & C2 & C3 & C4). pose proof B as (F & R & C). pose proof (frame_grouped T G F H) as TG. apply inter_iff. split; [apply setat_letter; [exact F|unfold letter; lia]|]. pose proof (setat_keeps T G h 1 F H C3 ltac:(lia)) as K. pose proof (rec_grouped T G TG _ K) as TG1. split; [apply (rec_grouping T G TG _ K)|].
    split; intros i j x y Hx Hy; apply (rec_holds T G TG) in Hx, Hy; destruct Hx as (x' & Hx & ->), Hy as (y' & Hy & ->); apply (holds_In T G TG) in Hx, Hy.
    - pose proof (frame_upper T _ _ _ F Hx) as U. rewrite (setat_other _ _ (i, j + 1)) by (intro E; injection E as E1 E2; lia). pose proof (R i j x' y' Hx Hy) as Q. unfold setat. destruct (box_eqb (i, j) (h, h)) eqn:E; [|left; exact Q]. apply box_eqb_eq in E. injection E as -> ->. rewrite (one_entry T G TG _ _ _ Hy C1). right. split; [reflexivity|]. split; [reflexivity|]. split; [reflexivity|].
      assert (O : forall z, In ((h + 1, h + 1), [z]) T -> holds (rec (setat (h, h) 1) T) (h + 1) (h + 1) z). { intros z Hz. apply (rec_holds T G TG). exists z. split; [apply (holds_In T G TG); exact Hz|]. symmetry. apply setat_other. intro E2. injection E2 as E2. lia. }
      destruct C4 as [C4|[C4 C5]]; [left; apply O; exact C4|right; split; [apply O; exact C4|exact C5]].
    - left. pose proof (frame_upper T _ _ _ F Hy) as U. rewrite (setat_other _ _ (i, j)) by (intro E; injection E as E1 E2; lia). pose proof (C i j x' y' Hx Hy) as Q. unfold setat. destruct (box_eqb (i + 1, j) (h, h)) eqn:E; [|exact Q]. apply box_eqb_eq in E. rewrite E in Hy. rewrite (one_entry T G TG _ _ _ Hy C2) in Q. destruct F as (_ & _ & _ & L). destruct (L _ _ Hx) as (x2 & E2 & Lx). injection E2 as <-. unfold inter_column, earlier, letter in *. lia.
  Qed.
  (* every interstandard tableau arises *)
  Lemma complete : forall T G, inter (T, G) -> base T \/ exists T0 h, base T0 /\ grouping_of T0 G /\ ((cond1 T0 G h /\ T = rec (setat (h + 1, h + 1) (-2)) T0) \/ (cond2 T0 G h /\ T = rec (setat (h, h) 1) T0)).
  Proof.
    intros T G V. pose proof (proj1 (inter_iff T G) V) as (F & H & (IR & IC)). pose proof (frame_grouped T G F H) as TG.
    assert (SI : forall c x, same_entry T c x = true <-> In (c, [x]) T) by (intros c x; apply (same_In T G TG)).
    destruct (existsb (fun c => (fst c =? snd c) && same_entry T c (-2) && same_entry T (fst c - 1, snd c) 1) (map fst T)) eqn:X1.
    { (* an exceptional column *)
      right. apply existsb_exists in X1. destruct X1 as ([s s'] & Hs & X). cbn [fst snd] in X. rewrite !andb_true_iff, Z.eqb_eq, !SI in X. destruct X as [[<- X1] X2]. clear Hs. set (r := s - 1) in *. assert (Es : s = r + 1) by (unfold r; lia). clearbody r. subst s.
      destruct (IC r (r + 1) 1 (-2)) as [Q|(_ & _ & _ & Q)]; [apply (holds_In T G TG); exact X2|apply (holds_In T G TG); exact X1|unfold inter_column, earlier in Q; lia|]. rewrite !(holds_In T G TG) in Q.
      assert (D : exists z, In ((r, r), [z]) T) by (destruct Q as [Q|[Q _]]; eexists; exact Q). destruct D as (z & Dz). pose proof (of_cell mu nu T G V _ _ _ Dz) as [K1 _]. pose proof (of_cell mu nu T G V _ _ _ X1) as [K2 _].
      assert (L0 : In ((r + 1, r + 1), [0]) G).
      { apply (label_zero T G TG _ (-2) (proj2 (lookup_iff T G TG _ _) X1)). destruct (truthy G (r + 1, r + 1)) eqn:W; [|reflexivity]. exfalso. destruct (truthy_cell T G TG _ W) as (w & Ew & _ & _ & B). apply (lookup_iff T G TG) in Ew. pose proof (one_entry T G TG _ _ _ Ew X1). subst w. specialize (B ltac:(lia)). cbn [fst snd] in B. replace (r + 1 - 1) with r in B by lia. apply (lookup_iff T G TG) in B. pose proof (one_entry T G TG _ _ _ B X2). lia. }
      exists (rec (setat (r + 1, r + 1) 2) T), r. pose proof (setat_keeps T G (r + 1) 2 F H L0 ltac:(lia)) as KE. split; [|split; [apply (rec_grouping T G TG _ KE)|left; split]].
      - split; [apply setat_letter; [exact F|unfold letter; lia]|]. split; intros i j x y Hx Hy; apply (rec_In T G TG) in Hx, Hy; destruct Hx as (x' & Hx & ->), Hy as (y' & Hy & ->).
        + pose proof (frame_upper T _ _ _ F Hx) as U. rewrite (setat_other _ _ (i, j + 1)) by (intro E; injection E as E1 E2; lia). unfold setat. destruct (box_eqb (i, j) (r + 1, r + 1)) eqn:E.
          * apply box_eqb_eq in E. injection E as -> ->. pose proof (of_cell mu nu T G V _ _ _ Hy) as [K3 Ly]. pose proof (of_cell mu nu T G V _ _ _ X2) as [K4 _]. pose proof (sk_up mu nu SM r (r + 1) K4 K3) as K5. destruct (cell_of mu nu T G V _ _ K5) as (d & Hd & Ld). pose proof (row_rule mu nu T G V _ _ _ _ X2 Hd) as R1. pose proof (col_rule mu nu T G V _ _ _ _ Hd Hy) as R2. clear - R1 R2 Ly Ld. unfold inter_row, inter_column, earlier, letter in *. lia.
          * destruct (row_rule mu nu T G V _ _ _ _ Hx Hy) as [K|(<- & -> & ->)]; [exact K|]. exfalso. destruct (two_diagonal mu nu SM SN T G V r i 1 K1 K2 Hx) as [->| ->]; [pose proof (one_entry T G TG _ _ _ Hy X2); lia|pose proof (one_entry T G TG _ _ _ Hx X1); lia].
        + pose proof (frame_upper T _ _ _ F Hy) as U. rewrite (setat_other _ _ (i, j)) by (intro E; injection E as E1 E2; lia). unfold setat. destruct (box_eqb (i + 1, j) (r + 1, r + 1)) eqn:E.
          * apply box_eqb_eq in E. injection E as E ->. assert (i = r) by lia. subst i. rewrite (one_entry T G TG _ _ _ Hx X2). unfold inter_column, earlier. lia.
          * destruct (IC i j x' y') as [K|(<- & -> & -> & K)]; [apply (holds_In T G TG); exact Hx|apply (holds_In T G TG); exact Hy|exact K|]. exfalso. rewrite !(holds_In T G TG) in K. assert (D : exists z, In ((i, i), [z]) T) by (destruct K as [K|[K _]]; eexists; exact K). destruct D as (w & Dw).
            assert (NE : i <> r) by (intros ->; rewrite box_eqb_refl in E; discriminate). destruct (two_diagonal mu nu SM SN T G V r i w K1 K2 Dw) as [->| ->]; [contradiction|]. destruct (two_diagonal mu nu SM SN T G V r (r + 1 + 1) (-2) K1 K2 Hy); lia.
      - assert (O : forall i j w, (i, j) <> (r + 1, r + 1) -> In ((i, j), [w]) T -> In ((i, j), [w]) (rec (setat (r + 1, r + 1) 2) T)) by (intros i j w N Hw; apply (rec_In T G TG); exists w; split; [exact Hw|symmetry; apply setat_other; exact N]).
        split; [apply O; [intro E; injection E as E; lia|exact X2]|]. split; [apply (rec_In T G TG); exists (-2); split; [exact X1|symmetry; apply setat_same]|]. split; [exact L0|]. destruct Q as [Q|[Q1 Q2]]; [left|right; split; [|exact Q2]]; (apply O; [intro E; injection E as E; lia|assumption]).
      - rewrite rec_rec. symmetry. apply (rec_id T G _ TG). intros c x Hx. unfold setat. destruct (box_eqb c (r + 1, r + 1)) eqn:E; [|reflexivity]. apply box_eqb_eq in E. subst c. exact (one_entry T G TG _ _ _ X1 Hx). }
    destruct (existsb (fun c => (fst c =? snd c) && same_entry T c 1 && same_entry T (fst c, snd c + 1) (-2)) (map fst T)) eqn:X2.
    { (* an exceptional row *)
      right. apply existsb_exists in X2. destruct X2 as ([r r'] & Hs & X). cbn [fst snd] in X. rewrite !andb_true_iff, Z.eqb_eq, !SI in X. destruct X as [[<- X2] X3]. clear Hs.
      destruct (IR r r 1 (-2)) as [Q|(_ & _ & _ & Q)]; [apply (holds_In T G TG); exact X2|apply (holds_In T G TG); exact X3|unfold inter_row, earlier in Q; lia|]. rewrite !(holds_In T G TG) in Q.
      assert (D : exists z, In ((r + 1, r + 1), [z]) T) by (destruct Q as [Q|[Q _]]; eexists; exact Q). destruct D as (z & Dz). pose proof (of_cell mu nu T G V _ _ _ Dz) as [K2 _]. pose proof (of_cell mu nu T G V _ _ _ X2) as [K1 _].
      assert (L0 : In ((r, r), [0]) G).
      { apply (label_zero T G TG _ 1 (proj2 (lookup_iff T G TG _ _) X2)). destruct (truthy G (r, r)) eqn:W; [|reflexivity]. exfalso. destruct (truthy_cell T G TG _ W) as (w & Ew & _ & B & _). apply (lookup_iff T G TG) in Ew. pose proof (one_entry T G TG _ _ _ Ew X2). subst w. specialize (B ltac:(lia)). cbn [fst snd] in B. apply (lookup_iff T G TG) in B. pose proof (one_entry T G TG _ _ _ B X3). lia. }
      exists (rec (setat (r, r) (-1)) T), r. pose proof (setat_keeps T G r (-1) F H L0 ltac:(lia)) as KE. split; [|split; [apply (rec_grouping T G TG _ KE)|right; split]].
      - split; [apply setat_letter; [exact F|unfold letter; lia]|]. split; intros i j x y Hx Hy; apply (rec_In T G TG) in Hx, Hy; destruct Hx as (x' & Hx & ->), Hy as (y' & Hy & ->).
        + pose proof (frame_upper T _ _ _ F Hx) as U. rewrite (setat_other _ _ (i, j + 1)) by (intro E; injection E as E1 E2; lia). unfold setat. destruct (box_eqb (i, j) (r, r)) eqn:E.
          * apply box_eqb_eq in E. injection E as -> ->. rewrite (one_entry T G TG _ _ _ Hy X3). unfold inter_row, earlier. lia.
          * destruct (IR i j x' y') as [K|(<- & -> & -> & K)]; [apply (holds_In T G TG); exact Hx|apply (holds_In T G TG); exact Hy|exact K|]. exfalso. rewrite !(holds_In T G TG) in K. assert (D : exists z, In ((i + 1, i + 1), [z]) T) by (destruct K as [K|[K _]]; eexists; exact K). destruct D as (w & Dw).
            assert (NE : i <> r) by (intros ->; rewrite box_eqb_refl in E; discriminate). destruct (two_diagonal mu nu SM SN T G V r i _ K1 K2 Hx) as [->| ->]; [contradiction|]. destruct (two_diagonal mu nu SM SN T G V r (r + 1 + 1) w K1 K2 Dw); lia.
        + pose proof (frame_upper T _ _ _ F Hy) as U. rewrite (setat_other _ _ (i, j)) by (intro E; injection E as E1 E2; lia). unfold setat. destruct (box_eqb (i + 1, j) (r, r)) eqn:E.
          * apply box_eqb_eq in E. injection E as E ->. assert (r = i + 1) by lia. subst r. pose proof (of_cell mu nu T G V _ _ _ Hx) as [K3 Lx]. pose proof (of_cell mu nu T G V _ _ _ X3) as [K4 _]. pose proof (sk_up mu nu SM i (i + 1) K3 K4) as K5. destruct (cell_of mu nu T G V _ _ K5) as (d & Hd & Ld). pose proof (row_rule mu nu T G V _ _ _ _ Hx Hd) as R1. pose proof (col_rule mu nu T G V _ _ _ _ Hd X3) as R2. pose proof (col_rule mu nu T G V _ _ _ _ Hx X2) as R3. clear - R1 R2 R3 Lx Ld. unfold inter_row, inter_column, earlier, letter in *. lia.
          * destruct (IC i j x' y') as [K|(<- & -> & -> & K)]; [apply (holds_In T G TG); exact Hx|apply (holds_In T G TG); exact Hy|exact K|]. exfalso.
            assert (W : existsb (fun c => (fst c =? snd c) && same_entry T c (-2) && same_entry T (fst c - 1, snd c) 1) (map fst T) = true); [|congruence]. apply existsb_exists. exists (i + 1, i + 1). split; [apply (cell_iff T G TG); eexists; exact Hy|]. cbn [fst snd]. rewrite Z.eqb_refl, (proj2 (SI _ _) Hy). replace (i + 1 - 1) with i by lia. rewrite (proj2 (SI _ _) Hx). reflexivity.
      - assert (O : forall i j w, (i, j) <> (r, r) -> In ((i, j), [w]) T -> In ((i, j), [w]) (rec (setat (r, r) (-1)) T)) by (intros i j w N Hw; apply (rec_In T G TG); exists w; split; [exact Hw|symmetry; apply setat_other; exact N]).
        split; [apply O; [intro E; injection E as E; lia|exact X3]|]. split; [apply (rec_In T G TG); exists 1; split; [exact X2|symmetry; apply setat_same]|]. split; [exact L0|]. destruct Q as [Q|[Q1 Q2]]; [left|right; split; [|exact Q2]]; (apply O; [intro E; injection E as E; lia|assumption]).
      - rewrite rec_rec. symmetry. apply (rec_id T G _ TG). intros c x Hx. unfold setat. destruct (box_eqb c (r, r)) eqn:E; [|reflexivity]. apply box_eqb_eq in E. subst c. exact (one_entry T G TG _ _ _ X2 Hx). }
    left. split; [exact F|]. split; intros i j x y Hx Hy.
    - destruct (row_rule mu nu T G V _ _ _ _ Hx Hy) as [K|(<- & -> & ->)]; [exact K|]. exfalso. apply not_true_iff_false in X2. apply X2. apply existsb_exists. exists (i, i). split; [apply (cell_iff T G TG); eexists; exact Hx|]. cbn [fst snd]. rewrite Z.eqb_refl, (proj2 (SI _ _) Hx), (proj2 (SI _ _) Hy). reflexivity.
    - destruct (col_rule mu nu T G V _ _ _ _ Hx Hy) as [K|(<- & -> & ->)]; [exact K|]. exfalso. apply not_true_iff_false in X1. apply X1. apply existsb_exists. exists (i + 1, i + 1). split; [apply (cell_iff T G TG); eexists; exact Hy|]. cbn [fst snd]. rewrite Z.eqb_refl, (proj2 (SI _ _) Hy). replace (i + 1 - 1) with i by lia. rewrite (proj2 (SI _ _) Hx). reflexivity.
  Qed.
End All.

(* ---------- from the alphabet -1, -2, 2, 3 to -1, -2, 1, 2 ---------- *)
Lemma rmap_sim : forall A B C (f : A -> res B) (h : A -> res C) (k : B -> C) l L, rmap f l = Ok L -> (forall x y, In x l -> f x = Ok y -> In y L -> h x = Ok (k y)) -> rmap h l = Ok (map k L).
Proof.
  intros A B C f h k. induction l as [|a l IH]; intros L E H; cbn [rmap] in *; [injection E as <-; reflexivity|]. destruct (f a) as [b|e] eqn:Ea; [|discriminate]. cbn [rbind] in E. destruct (rmap f l) as [L'|e] eqn:El; [|discriminate]. cbn [rbind] in E. injection E as <-.
  rewrite (H a b (or_introl eq_refl) Ea (or_introl eq_refl)). cbn [rbind]. rewrite (IH L' eq_refl); [reflexivity|]. intros x y Hx Hy Iy. apply H; [right; exact Hx|exact Hy|right; exact Iy].
Qed.
Definition radj : tab -> tab := rec (fun _ => adjz).
Section Adj.
  Variable T : tab.
  Hypothesis TG : grouped T (zeros T).
  Hypothesis L0 : forall c x, In (c, [x]) T -> letter0 x.
  Lemma adjusted_ok : adjusted T = Ok (radj T).
  Proof.
    unfold adjusted. rewrite (rmap_all _ _ _ (fun cv : box * list Z => (fst cv, VInt (adjz (hd 0 (snd cv)))))).
    - cbn [rbind]. assert (E : map (fun cv : box * list Z => (fst cv, VInt (adjz (hd 0 (snd cv))))) T = ints (radj T)).
      { unfold ints, radj, rec. rewrite map_map. apply map_ext_in. intros [c l] H. cbn [fst snd]. destruct (single T _ TG c l H) as (x & ->). reflexivity. }
      rewrite E. apply tinit_ints; [|apply (rec_wf T _ TG)]. intros c l H. destruct (rec_cells T _ TG _ c l H) as (x & _ & ->). eexists. reflexivity.
    - intros [c l] H. cbn [fst snd]. destruct (single T _ TG c l H) as (x & ->). unfold tget. rewrite (proj2 (lookup_iff T _ TG c [x]) H). destruct (adj_letter x (L0 c x H)) as [-> _]. reflexivity.
  Qed.
  Lemma adj_same : forall c x, letter0 x -> same_entry (radj T) c (adjz x) = same_entry T c x.
  Proof.
    intros c x Lx. unfold same_entry, tget, radj. rewrite rec_lookup. destruct (lookup_cases T _ TG c) as [F|(y & F & _)]; rewrite F; [reflexivity|]. cbn [option_map map]. apply adj_eqb; [exact Lx|]. apply (L0 c). exact (proj1 (lookup_iff T _ TG c [y]) F).
  Qed.
  Lemma adj_valid : forall c l, In (c, l) T -> exists b, valid_position T c = Ok b /\ valid_position (radj T) c = Ok b.
  Proof.
    intros c l H. destruct (single T _ TG c l H) as (x & ->). pose proof (L0 c x H) as Lx. unfold valid_position. unfold tget at 1 2. unfold radj at 1. rewrite rec_lookup, (proj2 (lookup_iff T _ TG c [x]) H). cbn [option_map map]. eexists. split; [reflexivity|]. rewrite adj_sign by exact Lx. f_equal. apply adj_same. exact Lx.
  Qed.
  Lemma adj_groupable : forall i j, groupable (radj T) i j <-> groupable T i j.
  Proof.
    intros i j. assert (HH : forall a b x, letter0 x -> (holds (radj T) a b (adjz x) <-> holds T a b x)).
    { intros a b x Lx. unfold radj. rewrite (rec_holds T _ TG). split; [|intro H; exists x; split; [exact H|reflexivity]]. intros (y & Hy & E). pose proof (L0 _ _ (proj1 (holds_In T _ TG a b y) Hy)) as Ly. destruct (adj_letter x Lx) as (_ & _ & Ex), (adj_letter y Ly) as (_ & _ & Ey). replace x with y by congruence. exact Hy. }
    assert (SG : forall x, letter0 x -> (0 < adjz x <-> 0 < x) /\ (adjz x < 0 <-> x < 0)) by (intros x [->|[->|[->| ->]]]; cbn; lia).
    unfold groupable. split.
    - intros (y & Hy & A & B). unfold radj in Hy. apply (rec_holds T _ TG) in Hy. destruct Hy as (x & Hx & ->). pose proof (L0 _ _ (proj1 (holds_In T _ TG i j x) Hx)) as Lx. exists x. rewrite !HH in A by exact Lx. rewrite !HH in B by exact Lx. destruct (SG x Lx) as [S1 S2]. rewrite S1 in A. rewrite S2 in B. split; [exact Hx|]. split; assumption.
    - intros (x & Hx & A & B). pose proof (L0 _ _ (proj1 (holds_In T _ TG i j x) Hx)) as Lx. exists (adjz x). rewrite !HH by exact Lx. destruct (SG x Lx) as [S1 S2]. rewrite S1, S2. split; [exact Hx|]. split; assumption.
  Qed.
  Lemma adj_grouping : forall G, grouping_of (radj T) G <-> grouping_of T G.
  Proof.
    intro G. assert (C : forall i j, (exists l, In ((i, j), l) (radj T)) <-> exists l, In ((i, j), l) T).
    { intros i j. split; intros (l & H); [destruct (rec_cells T _ TG _ _ _ H) as (x & Hx & _); eexists; exact Hx|destruct (single T _ TG _ _ H) as (x & ->); exists [adjz x]; apply (rec_In T _ TG); exists x; split; [exact H|reflexivity]]. }
    unfold grouping_of. split; intros (W & K & L); (split; [exact W|]); (split; [intros i j; specialize (K i j); specialize (C i j); tauto|]); intros i j l H; (destruct (L i j l H) as [E|[E Q]]; [left; exact E|right; split; [exact E|]]); apply adj_groupable; exact Q.
  Qed.
  Lemma adj_over : forall L, vst_over T = Ok L -> (forall V, In V L <-> fst V = T /\ grouping_of T (snd V)) ->
    exists L', vst_over (radj T) = Ok L' /\ forall V, In V L' <-> fst V = radj T /\ grouping_of (radj T) (snd V).
  Proof.
    intros L E HL. exists (map (fun V : tab * tab => (radj T, snd V)) L). split.
    - unfold vst_over in *. set (vp := fun c => match valid_position T c with Ok b => b | Err _ => false end).
      assert (E0 : rmap (fun cv : box * list Z => do b <- valid_position T (fst cv); Ok (fst cv, b)) T = Ok (map (fun cv : box * list Z => (fst cv, vp (fst cv))) T)).
      { apply rmap_all. intros [c l] H. cbn [fst snd]. destruct (adj_valid c l H) as (b & E1 & _). unfold vp. rewrite E1. reflexivity. }
      assert (E1 : rmap (fun cv : box * list Z => do b <- valid_position (radj T) (fst cv); Ok (fst cv, b)) (radj T) = Ok (map (fun cv : box * list Z => (fst cv, vp (fst cv))) T)).
      { rewrite (rmap_all _ _ _ (fun cv : box * list Z => (fst cv, vp (fst cv)))); [f_equal; unfold radj, rec; rewrite map_map; reflexivity|]. intros [c l] H. cbn [fst snd]. destruct (rec_cells T _ TG _ _ _ H) as (x & Hx & _). destruct (adj_valid c [x] Hx) as (b & E1 & E2). unfold vp. rewrite E1, E2. reflexivity. }
      rewrite E0 in E. rewrite E1. cbn [rbind] in *. refine (rmap_sim _ _ _ _ _ _ _ _ E _). intros v V _ Ev IV. cbv beta in *. destruct (tinit _) as [g|e]; [|discriminate]. cbn [rbind] in *. apply HL in IV. destruct IV as [F GV]. assert (snd V = g) as <-. { unfold vst_init in Ev. destruct (rfold _ _ _) as [[|]|]; [|discriminate|discriminate]. cbn [rbind] in Ev. injection Ev as <-. reflexivity. }
      apply init_grouped. split; [apply (rec_wf T _ TG)|]. split; [|apply adj_grouping; exact GV]. intros c l H. destruct (rec_cells T _ TG _ _ _ H) as (x & Hx & ->). exists (adjz x). split; [reflexivity|]. destruct (adj_letter x (L0 c x Hx)) as (_ & Q & _). unfold letter in Q. lia.
    - intros [U G]. cbn [fst snd]. rewrite in_map_iff. split.
      + intros ([U' G'] & E1 & H). cbn [snd] in E1. injection E1 as <- <-. split; [reflexivity|]. apply HL in H. apply adj_grouping. apply H.
      + intros [-> H]. exists (T, G). split; [reflexivity|]. apply HL. split; [reflexivity|]. apply adj_grouping. exact H.
  Qed.
End Adj.
Lemma two_letters_ok : forall T : tab, (forall c l, In (c, l) T -> exists x, l = [x]) -> (two_letters T = true <-> forall c x, In (c, [x]) T -> x <> 1 /\ x <> -3).
Proof.
  intros T S. unfold two_letters. rewrite negb_true_iff, <- not_true_iff_false, existsb_exists. split.
  - intros H c x Hx. split; intros ->; apply H; eexists; (split; [apply in_flat_map; exists (c, [1]) + exists (c, [-3]); split; [exact Hx|left; reflexivity]|reflexivity]).
  - intros H (x & Hx & E). apply in_flat_map in Hx. destruct Hx as ([c l] & H1 & H2). destruct (S c l H1) as (y & ->). destruct H2 as [->|[]]. destruct (H c x H1) as [A B]. apply orb_true_iff in E. rewrite !Z.eqb_eq in E. tauto.
Qed.
Section All2.
  Variables mu nu : list Z.
  Hypothesis SM : strict_partition mu.
  Hypothesis SN : strict_partition nu.
  Local Notation inter := (interstandard_of mu nu).
  Local Notation source := (tableau_of shifted_cell anywhere false 3 mu nu).
  Lemma source_grouped : forall T, source T -> grouped T (zeros T).
  Proof.
    intros T (_ & W & _ & S & E & _). apply zeros_grouped; [exact W|]. intros [i j] l H. destruct (S i j l H) as (_ & _ & L1). specialize (L1 eq_refl). destruct l as [|x [|? ?]]; try discriminate. exists x. split; [reflexivity|]. destruct (E i j x) as [B _]; [exists [x]; split; [exact H|left; reflexivity]|lia].
  Qed.
  Lemma source_letters : forall T, source T -> two_letters T = true -> forall c x, In (c, [x]) T -> letter0 x.
  Proof.
    intros T S E [i j] x Hx. pose proof (source_grouped T S) as TG. rewrite two_letters_ok in E by (apply (single T _ TG)). destruct (E _ _ Hx) as [A B]. destruct S as (_ & _ & _ & _ & S & _). destruct (S i j x) as [D _]; [apply (holds_In T _ TG); exact Hx|]. unfold letter0. lia.
  Qed.
  Lemma base_of : forall T, source T -> two_letters T = true -> base mu nu (radj T).
  Proof.
    intros T S E. pose proof (source_grouped T S) as TG. pose proof (source_letters T S E) as L0. destruct S as (I0 & W & C & _ & _ & R & K). split.
    - split; [exact I0|]. split; [apply (rec_wf T _ TG)|]. split.
      + intros i j. rewrite <- C. split; intros (l & H); [destruct (rec_cells T _ TG _ _ _ H) as (x & Hx & _); eexists; exact Hx|destruct (single T _ TG _ _ H) as (x & ->); exists [adjz x]; apply (rec_In T _ TG); exists x; split; [exact H|reflexivity]].
      + intros c l H. destruct (rec_cells T _ TG _ _ _ H) as (x & Hx & ->). exists (adjz x). split; [reflexivity|]. apply (adj_letter x (L0 c x Hx)).
    - split; intros i j x y Hx Hy; apply (rec_In T _ TG) in Hx, Hy; destruct Hx as (x' & Hx & ->), Hy as (y' & Hy & ->); [apply adj_row|apply adj_col]; try (eapply L0; eassumption); [apply (R i j)|apply (K i j)]; apply (holds_In T _ TG); assumption.
  Qed.
  Lemma base_to : forall T, base mu nu T -> exists T0, source T0 /\ two_letters T0 = true /\ T = radj T0.
  Proof.
    intros T (F & R & K). pose proof (frame_zeros mu nu T F) as TG. pose proof F as (I0 & W & C & L). assert (L1 : forall c x, In (c, [x]) T -> letter x) by (intros c x H; destruct (L c [x] H) as (y & E & Q); injection E as <-; exact Q).
    set (T0 := rec (fun _ => unadj) T). assert (HO : forall i j y, holds T0 i j y <-> exists x, In ((i, j), [x]) T /\ y = unadj x). { intros i j y. unfold T0. rewrite (rec_holds T _ TG). split; intros (x & A & B); exists x; (split; [|exact B]); apply (holds_In T _ TG); exact A. }
    exists T0. split; [|split].
    - split; [exact I0|]. split; [apply (rec_wf T _ TG)|]. split; [|split; [|split; [|split]]].
      + intros i j. rewrite <- C. split; intros (l & H); [destruct (rec_cells T _ TG _ _ _ H) as (x & Hx & _); eexists; exact Hx|destruct (single T _ TG _ _ H) as (x & ->); exists [unadj x]; apply (rec_In T _ TG); exists x; split; [exact H|reflexivity]].
      + intros i j l H. destruct (rec_cells T _ TG _ _ _ H) as (x & Hx & ->). split; [discriminate|]. split; [repeat constructor; intros []|reflexivity].
      + intros i j y H. apply HO in H. destruct H as (x & Hx & ->). destruct (unadj_letter x (L1 _ _ Hx)) as [Q _]. unfold letter0 in Q. split; [lia|]. intros _. exact Logic.I.
      + intros i j x y Hx Hy. apply HO in Hx, Hy. destruct Hx as (x' & Hx & ->), Hy as (y' & Hy & ->). destruct (unadj_letter x' (L1 _ _ Hx)) as [Q1 E1], (unadj_letter y' (L1 _ _ Hy)) as [Q2 E2]. apply adj_row; [exact Q1|exact Q2|]. rewrite E1, E2. apply (R i j); assumption.
      + intros i j x y Hx Hy. apply HO in Hx, Hy. destruct Hx as (x' & Hx & ->), Hy as (y' & Hy & ->). destruct (unadj_letter x' (L1 _ _ Hx)) as [Q1 E1], (unadj_letter y' (L1 _ _ Hy)) as [Q2 E2]. apply adj_col; [exact Q1|exact Q2|]. rewrite E1, E2. apply (K i j); assumption.
    - apply two_letters_ok; [intros c l H; destruct (rec_cells T _ TG _ _ _ H) as (x & _ & ->); eexists; reflexivity|]. intros c y H. apply (rec_In T _ TG) in H. destruct H as (x & Hx & ->). destruct (unadj_letter x (L1 _ _ Hx)) as [Q _]. unfold letter0 in Q. lia.
    - unfold radj, T0. rewrite rec_rec. symmetry. apply (rec_id T _ _ TG). intros c x Hx. apply (unadj_letter x (L1 c x Hx)).
  Qed.
  Lemma set_ok : forall (T G : tab) d x y, grouped T G -> In ((d, d), [x]) T -> tset T d d (VInt y) = Ok (rec (setat (d, d) y) T).
  Proof.
    intros T G d x y TG H. assert (M : tmem T (d, d) = true) by (apply (mem_ok T G TG); exists x; first [exact H|apply (lookup_iff T G TG); exact H]). unfold tset, treplace. rewrite M. assert (P : positive (d, d)) by (destruct (WT T G TG) as [_ P]; destruct (P _ _ H) as (A & B & _); split; assumption). rewrite tinit_mput_eq; [|apply (WT T G TG)|exact P]. f_equal.
    apply wf_ext; [apply tput_wf; [apply (WT T G TG)|exact P|apply tuplize_increasing]|apply (rec_wf T G TG)|]. intro c. rewrite tlookup_tput by apply (WT T G TG). rewrite rec_lookup. unfold setat. destruct (box_eqb (d, d) c) eqn:E.
    - apply box_eqb_eq in E. subst c. rewrite (proj2 (lookup_iff T G TG _ _) H), box_eqb_refl. reflexivity.
    - destruct (box_eqb c (d, d)) eqn:E2; [apply box_eqb_eq in E2; subst c; rewrite box_eqb_refl in E; discriminate|]. destruct (lookup_cases T G TG c) as [->|(z & -> & _)]; reflexivity.
  Qed.
  Lemma extra_ok : forall T G : tab, base mu nu T -> grouping_of T G -> exists e, inter_extra (T, G) = Ok e /\
    forall V, In V e <-> exists h, (cond1 T G h /\ V = (rec (setat (h + 1, h + 1) (-2)) T, G)) \/ (cond2 T G h /\ V = (rec (setat (h, h) 1) T, G)).
  Proof.
    intros T G B H. pose proof (base_inter mu nu T G B H) as V. pose proof (proj1 B) as F. pose proof (frame_grouped mu nu T G F H) as TG. destruct (inter_hinge mu nu SM SN T G V) as (o & Eo & Ho). unfold inter_extra. rewrite Eo. cbn [rbind].
    assert (CH : forall h, cond1 T G h \/ cond2 T G h -> o = Some h).
    { intros h C. apply Ho. assert (D : exists x y, In ((h, h), [x]) T /\ In ((h + 1, h + 1), [y]) T) by (destruct C as [(C1 & C2 & C3 & [C4|[C4 _]])|(C1 & C2 & C3 & [C4|[C4 _]])]; eexists; eexists; split; eassumption). destruct D as (x & y & D1 & D2). apply (inter_hinge_at mu nu SM T G V); [apply (of_cell mu nu T G V _ _ _ D1)|apply (of_cell mu nu T G V _ _ _ D2)]. }
    destruct o as [h|]; [|exists []; split; [reflexivity|]; intro U; split; [intros []|]; intros (h & [[C _]|[C _]]); exfalso; [specialize (CH h (or_introl C))|specialize (CH h (or_intror C))]; discriminate].
    cbn [fst snd]. assert (SI : forall c x, same_entry T c x = true <-> In (c, [x]) T) by (intros c x; apply (same_In T G TG)).
    assert (LI : forall d, label0 G (d, d) = true <-> In ((d, d), [0]) G).
    { intro d. unfold label0, same_entry, tget. destruct (tlookup G (d, d)) as [l|] eqn:E.
      - pose proof (tlookup_In _ _ _ E) as I1. destruct H as (WG & _ & LG). destruct (LG d d l I1) as [->|[-> _]]; [split; [intros _; exact I1|reflexivity]|]. split; [discriminate|]. intro I2. exfalso. exact (NL T G TG _ I2 I1).
      - split; [discriminate|]. intro I2. rewrite (In_tlookup _ _ _ (proj1 (proj1 H)) I2) in E. discriminate. }
    set (t1 := same_entry T (h, h + 1) 1 && same_entry T (h + 1, h + 1) 2 && label0 G (h + 1, h + 1) && (same_entry T (h, h) (-2) || (same_entry T (h, h) 1 && truthy G (h, h)))).
    set (t2 := same_entry T (h, h + 1) (-2) && same_entry T (h, h) (-1) && label0 G (h, h) && (same_entry T (h + 1, h + 1) 1 || (same_entry T (h + 1, h + 1) (-2) && truthy G (h + 1, h + 1)))).
    assert (H1 : t1 = true <-> cond1 T G h) by (unfold t1, cond1; rewrite !andb_true_iff, orb_true_iff, andb_true_iff, !SI, LI, (truthy_ok T G TG); tauto).
    assert (H2 : t2 = true <-> cond2 T G h) by (unfold t2, cond2; rewrite !andb_true_iff, orb_true_iff, andb_true_iff, !SI, LI, (truthy_ok T G TG); tauto).
    assert (A1 : exists a, (if t1 then do u <- tset T (h + 1) (h + 1) (VInt (-2)); do w <- vst_init u G; Ok [w] else Ok []) = Ok a /\ forall U, In U a <-> cond1 T G h /\ U = (rec (setat (h + 1, h + 1) (-2)) T, G)).
    { destruct t1; [|exists []; split; [reflexivity|]; intro U; split; [intros []|intros [C _]; apply H1 in C; discriminate]]. pose proof (proj1 H1 eq_refl) as C. pose proof C as (_ & C2 & C3 & _). rewrite (set_ok T G _ _ (-2) TG C2). cbn [rbind]. rewrite init_grouped by (apply (rec_grouped T G TG); apply (setat_keeps mu nu T G _ _ F H C3); lia). cbn [rbind]. eexists. split; [reflexivity|]. intro U. cbn [In]. split; [intros [<-|[]]; split; [exact C|reflexivity]|intros [_ ->]; left; reflexivity]. }
    assert (A2 : exists a, (if t2 then do u <- tset T h h (VInt 1); do w <- vst_init u G; Ok [w] else Ok []) = Ok a /\ forall U, In U a <-> cond2 T G h /\ U = (rec (setat (h, h) 1) T, G)).
    { destruct t2; [|exists []; split; [reflexivity|]; intro U; split; [intros []|intros [C _]; apply H2 in C; discriminate]]. pose proof (proj1 H2 eq_refl) as C. pose proof C as (_ & C2 & C3 & _). rewrite (set_ok T G _ _ 1 TG C2). cbn [rbind]. rewrite init_grouped by (apply (rec_grouped T G TG); apply (setat_keeps mu nu T G _ _ F H C3); lia). cbn [rbind]. eexists. split; [reflexivity|]. intro U. cbn [In]. split; [intros [<-|[]]; split; [exact C|reflexivity]|intros [_ ->]; left; reflexivity]. }
    destruct A1 as (a & Ea & Ha), A2 as (b & Eb & Hb). exists (a ++ b). split; [refine (eq_trans (f_equal (fun r => rbind r _) Ea) _); cbn [rbind]; refine (eq_trans (f_equal (fun r => rbind r _) Eb) _); reflexivity|].
    intro U. rewrite in_app_iff, Ha, Hb. split; [intros [C|C]; exists h; [left|right]; exact C|]. intros (h' & C). assert (h' = h) by (assert (E : Some h = Some h') by (apply CH; destruct C as [[C _]|[C _]]; [left|right]; exact C); congruence). subst h'. exact C.
  Qed.
End All2.

Lemma extra_bind : forall (V : tab * tab) e, inter_extra V = Ok e -> (do e <- inter_extra V; Ok (V :: e)) = Ok (V :: e).
Proof. intros V e ->. reflexivity. Qed.
Section Order.
  Variable ord : list (list Z) -> list (list Z).
  Variable bord : list (Z * Z) -> list (Z * Z).
  Variable tord : list tab -> list tab.
  Hypothesis ord_perm : forall l, Permutation (ord l) l.
  Hypothesis bord_perm : forall l, Permutation (bord l) l.
  Hypothesis tord_perm : forall l, Permutation (tord l) l.
  (* C100: all_interstandard gives every interstandard valued-set tableau of the shape once, and nothing else *)
  Theorem C100_all_interstandard : forall mu nu, strict_partition mu -> strict_partition nu ->
    exists r, all_interstandard ord bord tord mu nu = Ok r /\ NoDup r /\ forall V : tab * tab, In V r <-> interstandard_of mu nu V.
  Proof.
    intros mu nu SM SN. destruct (pack_shifted' ord bord tord ord_perm bord_perm tord_perm 3 mu nu true false SM SN) as (r & d & Er & _ & (_ & Hr & _) & _). unfold all_interstandard. rewrite Er. cbn [rbind].
    assert (Hf : forall T, In T (filter two_letters (tord r)) <-> tableau_of shifted_cell anywhere false 3 mu nu T /\ two_letters T = true). { intro T. rewrite filter_In, <- (Hr T). split; intros [A B]; (split; [|exact B]); [exact (Permutation_in _ (tord_perm r) A)|exact (Permutation_in _ (Permutation_sym (tord_perm r)) A)]. }
    rewrite (rmap_all _ _ _ radj) by (intros T H; apply Hf in H; destruct H as [S E]; apply adjusted_ok; [apply (source_grouped mu nu); exact S|apply (source_letters mu nu); assumption]). cbn [rbind].
    assert (Hb : forall T, In T (map radj (filter two_letters (tord r))) <-> base mu nu T).
    { intro T. rewrite in_map_iff. split; [intros (T0 & <- & H); apply Hf in H; apply base_of; apply H|]. intro B. destruct (base_to mu nu T B) as (T0 & S & E & ->). exists T0. split; [reflexivity|]. apply Hf. split; assumption. }
    assert (Ho : forall T, base mu nu T -> exists L, vst_over T = Ok L /\ forall V, In V L <-> fst V = T /\ grouping_of T (snd V)).
    { intros T B. destruct (base_to mu nu T B) as (T0 & S & E & ->). destruct (vst_over_ok true anywhere 3 nu mu T0 (proj2 S)) as (L & EL & _ & HL). exact (adj_over T0 (source_grouped mu nu T0 S) (source_letters mu nu T0 S E) L EL HL). }
    set (f := fun t : tab => do vs <- vst_over t; rconcat (fun v => do e <- inter_extra v; Ok (v :: e)) vs).
    assert (Hx : forall T, base mu nu T -> exists L, f T = Ok L /\ forall V, In V L <-> exists G, grouping_of T G /\ (V = (T, G) \/ exists h, (cond1 T G h /\ V = (rec (setat (h + 1, h + 1) (-2)) T, G)) \/ (cond2 T G h /\ V = (rec (setat (h, h) 1) T, G)))).
    { intros T B. destruct (Ho T B) as (L & EL & HL). unfold f. rewrite EL. cbn [rbind]. assert (HE : forall V, In V L -> exists y, (do e <- inter_extra V; Ok (V :: e)) = Ok y).
      { intros [U G] I1. apply HL in I1. cbn [fst snd] in I1. destruct I1 as [-> K]. destruct (extra_ok mu nu SM SN T G B K) as (e & Ee & _). exists ((T, G) :: e). exact (extra_bind _ _ Ee). }
      destruct (rconcat_ok _ _ (fun v => do e <- inter_extra v; Ok (v :: e)) L HE) as (q & Eq & Hq). exists q. split; [exact Eq|]. intro V. rewrite Hq. split.
      - intros ([U G] & ys & I1 & Ey & Iy). apply HL in I1. cbn [fst snd] in I1. destruct I1 as [-> K]. destruct (extra_ok mu nu SM SN T G B K) as (e & Ee & He). pose proof (eq_trans (eq_sym (extra_bind _ _ Ee)) Ey) as X. injection X as <-. exists G. split; [exact K|]. destruct Iy as [<-|Iy]; [left; reflexivity|right; apply He; exact Iy].
      - intros (G & K & C). destruct (extra_ok mu nu SM SN T G B K) as (e & Ee & He). exists (T, G), ((T, G) :: e). split; [apply HL; split; [reflexivity|exact K]|]. split; [exact (extra_bind _ _ Ee)|]. destruct C as [->|C]; [left; reflexivity|right; apply He; exact C]. }
    destruct (rconcat_ok _ _ f (map radj (filter two_letters (tord r)))) as (a & Ea & Ha). { intros T H. apply Hb in H. destruct (Hx T H) as (L & EL & _). exists L. exact EL. }
    exists (set_vst a). rewrite Ea. cbn [rbind]. destruct (set_vst_spec a) as [S1 S2]. split; [reflexivity|]. split; [exact S1|]. intro V. rewrite (S2 V), (Ha V). split.
    - intros (T & ys & I1 & Ey & Iy). apply Hb in I1. destruct (Hx T I1) as (L & EL & HL). assert (ys = L) by congruence. subst ys. apply HL in Iy. destruct Iy as (G & K & [->|(h & [[C ->]|[C ->]])]); [apply base_inter|apply extra1|apply extra2]; assumption.
    - intro IV. destruct V as [T G]. destruct (complete mu nu SM SN T G IV) as [B|(T0 & h & B & K & C)].
      + destruct (Hx T B) as (L & EL & HL). exists T, L. split; [apply Hb; exact B|]. split; [exact EL|]. apply HL. exists G. split; [apply IV|left; reflexivity].
      + destruct (Hx T0 B) as (L & EL & HL). exists T0, L. split; [apply Hb; exact B|]. split; [exact EL|]. apply HL. exists G. split; [exact K|]. right. exists h. destruct C as [[C ->]|[C ->]]; [left|right]; (split; [exact C|reflexivity]).
  Qed.
  Theorem C100_not_strict : forall mu nu, is_strict_partition mu = false -> all_interstandard ord bord tord mu nu = Err AssertionError.
  Proof. intros mu nu E. unfold all_interstandard. replace (semistandard_shifted_marked ord bord tord 3 mu nu true false) with (@Err (list tab) AssertionError); [reflexivity|]. cbn [semistandard_shifted_marked]. rewrite E. reflexivity. Qed.
  (* the test accepts exactly those *)
  Theorem C100_test_agrees : forall mu nu, strict_partition mu -> strict_partition nu -> exists r, all_interstandard ord bord tord mu nu = Ok r /\ forall V : tab * tab, In V r -> is_interstandard V = Ok true.
  Proof.
    intros mu nu SM SN. destruct (C100_all_interstandard mu nu SM SN) as (r & E & _ & H). exists r. split; [exact E|]. intros [T G] I1. apply H in I1. pose proof (inter_grouped mu nu T G I1) as TG. destruct (C100_is_interstandard T G TG) as (b & Eb & Hb); [|rewrite Eb; f_equal; apply Hb; apply I1]. intros c x Hx. destruct c as [i j]. apply (of_cell mu nu T G I1 i j x Hx).
  Qed.
End Order.

(* ---------- in the shape 21 ---------- *)
Lemma strict_21 : strict_partition [2; 1].
Proof. split; [repeat (apply Forall_cons; [lia|]); apply Forall_nil|]. intros i Hi. cbn [length] in Hi. assert (i = 0%nat) as -> by lia. cbn. lia. Qed.
Lemma strict_0 : strict_partition [].
Proof. split; [apply Forall_nil|]. intros i Hi. cbn [length] in Hi. lia. Qed.
Example C100_example : exists r, all_interstandard (fun l => l) (fun l => l) (fun l => l) [2; 1] [] = Ok r /\ length r = 12%nat /\
  In (tri 1 1 (-2), tri 1 0 0) r /\ In (tri 1 (-2) (-2), tri 0 0 1) r /\ In (tri (-1) 1 2, tri 0 0 0) r /\ is_interstandard (tri 1 1 (-2), tri 1 0 0) = Ok true /\ is_interstandard (tri 1 1 (-2), tri 0 0 0) = Ok false.
Proof. eexists. split; [vm_compute; reflexivity|]. split; [reflexivity|]. split; [cbn; tauto|]. split; [cbn; tauto|]. split; [cbn; tauto|]. split; reflexivity. Qed.
Lemma tri_inter : interstandard_of [2; 1] [] (tri 1 (-2) (-2), tri 0 0 1).
Proof.
  destruct (C100_all_interstandard (fun l => l) (fun l => l) (fun l => l) (fun l => Permutation_refl l) (fun l => Permutation_refl l) (fun l => Permutation_refl l) [2; 1] [] strict_21 strict_0) as (r & E & _ & H). apply H. destruct C100_example as (r' & E' & _ & _ & I1 & _). replace r with r' by congruence. exact I1.
Qed.
(* two vertical neighbours of one group are not recognised *)
Theorem C100_same_column_refuted : exists (T G : tab) i j, grouped T G /\ linked_column T G i j /\ in_same_group (T, G) i j (i + 1) j = Ok false.
Proof.
  exists (tri 1 (-2) (-2)), (tri 0 0 1), 1, 2. split; [exact (inter_grouped [2; 1] [] _ _ tri_inter)|]. split; [|reflexivity]. exists (-2), 1, 2. split; [lia|]. split; [|lia]. split; [lia|]. split; [|split; [|split]].
  - intros i Hi. assert (i = 1 \/ i = 2) as [->| ->] by lia; cbn; tauto.
  - intros i Hi. assert (i = 2) as -> by lia. cbn. tauto.
  - cbn. tauto.
  - intros [H _]. cbn in H. decompose [or] H; try contradiction; discriminate.
Qed.
Example C100_example_row : grouped ex_T ex_G /\ in_same_group (ex_T, ex_G) 1 1 1 2 = Ok true /\ in_same_group (ex_T, ex_G) 1 4 1 3 = Ok false.
Proof. split; [exact ex_grouped|]. split; reflexivity. Qed.
Print Assumptions C100_same_row.
Print Assumptions C100_same_column.
Print Assumptions C100_same_column_refuted.
Print Assumptions C100_is_interstandard.
Print Assumptions C100_all_interstandard.
Print Assumptions C100_not_strict.
Print Assumptions C100_test_agrees.
