(* Reading two tableaux off a table of strict partitions *)
From Coq Require Import List ZArith Lia Bool Permutation Arith.
From Verif Require Import PyBase M_Partitions S_Partitions L_PartBasic M_Tableaux S_Tableaux L_Tableaux P_SkewKey S_SGrowth L_SGrowth M_FromSGrowth.
Import ListNotations.
Local Open Scope Z_scope.
Local Notation rw := get.

Lemma rfold_range : forall (T : Type) (f : T -> Z -> res T) (P : nat -> T -> Prop) n a, P O a -> (forall k b, (k < n)%nat -> P k b -> exists b', f b (Z.of_nat (S k)) = Ok b' /\ P (S k) b') ->
  exists b, rfold f (zrange 1 (Z.of_nat n + 1)) a = Ok b /\ P n b.
Proof.
  intros T f P n a H0 HS. unfold zrange. replace (Z.to_nat (Z.of_nat n + 1 - 1)) with n by lia.
  assert (G : forall m s b, (s + m <= n)%nat -> P s b -> exists b', rfold f (map (fun k => 1 + Z.of_nat k) (seq s m)) b = Ok b' /\ P (s + m)%nat b').
  { induction m as [|m IH]; intros s b L H; [exists b; rewrite Nat.add_0_r; split; [reflexivity|exact H]|]. destruct (HS s b ltac:(lia) H) as (b1 & E1 & P1). destruct (IH (S s) b1 ltac:(lia) P1) as (b2 & E2 & P2). exists b2. cbn [seq map rfold]. replace (1 + Z.of_nat s) with (Z.of_nat (S s)) by lia. rewrite E1. cbn [rbind]. split; [exact E2|]. replace (s + S m)%nat with (S s + m)%nat by lia. exact P2. }
  apply (G n O a); [lia|exact H0].
Qed.

Lemma rfold_family : forall (T : Type) (F : (T -> Z -> res T) -> Prop) (P : nat -> T -> Prop) n a, P O a ->
  (forall k b, (k < n)%nat -> P k b -> exists b', (forall f, F f -> f b (Z.of_nat (S k)) = Ok b') /\ P (S k) b') ->
  exists b, (forall f, F f -> rfold f (zrange 1 (Z.of_nat n + 1)) a = Ok b) /\ P n b.
Proof.
  intros T F P n a H0 HS. unfold zrange. replace (Z.to_nat (Z.of_nat n + 1 - 1)) with n by lia.
  assert (G : forall m s b, (s + m <= n)%nat -> P s b -> exists b', (forall f, F f -> rfold f (map (fun k => 1 + Z.of_nat k) (seq s m)) b = Ok b') /\ P (s + m)%nat b').
  { induction m as [|m IH]; intros s b L H; [exists b; rewrite Nat.add_0_r; split; [reflexivity|exact H]|]. destruct (HS s b ltac:(lia) H) as (b1 & E1 & P1). destruct (IH (S s) b1 ltac:(lia) P1) as (b2 & E2 & P2). exists b2. split; [|replace (s + S m)%nat with (S s + m)%nat by lia; exact P2].
    intros f Ff. cbn [seq map rfold]. replace (1 + Z.of_nat s) with (Z.of_nat (S s)) by lia. rewrite (E1 f Ff). cbn [rbind]. apply E2. exact Ff. }
  apply (G n O a); [lia|exact H0].
Qed.

(* ---------- shapes ---------- *)
Lemma cell_left : forall p i j, shifted_cell p i (j + 1) -> i <= j -> shifted_cell p i j.
Proof. intros p i j [A B] C. split; [exact A|lia]. Qed.
Lemma cell_up : forall p i j, strict_partition p -> 1 <= i -> shifted_cell p (i + 1) j -> shifted_cell p i j.
Proof. intros p i j S Hi. rewrite !cell_rw. intros [A B]. pose proof (strict_rw p i S Hi). lia. Qed.
Lemma cell_above : forall p i i' j, strict_partition p -> 1 <= i <= i' -> shifted_cell p i' j -> shifted_cell p i j.
Proof.
  intros p i i' j S H. replace i' with (i + Z.of_nat (Z.to_nat (i' - i))) by lia. generalize (Z.to_nat (i' - i)) as k. induction k as [|k IH]; [rewrite Z.add_0_r; auto|]. intro C. apply IH, cell_up; [exact S|lia|]. replace (i + Z.of_nat k + 1) with (i + Z.of_nat (Datatypes.S k)) by lia. exact C.
Qed.

(* ---------- the first loop ---------- *)
Lemma add_all : forall v s (p : tab), well_formed p -> NoDup s -> (forall c, In c s -> 0 < fst c /\ 0 < snd c) -> (forall c, In c s -> tlookup p c = None) ->
  exists u, rfold (fun p (ab : Z * Z) => tadd p (fst ab) (snd ab) (VInt v)) s p = Ok u /\ well_formed u /\ (forall c, In c s -> tlookup u c = Some [v]) /\ (forall c, ~ In c s -> tlookup u c = tlookup p c).
Proof.
  intros v s. induction s as [|[a b] s IH]; intros p W N P E; [exists p; split; [reflexivity|split; [exact W|split; [intros c []|reflexivity]]]|].
  inversion N as [|? ? N1 N2]; subst. destruct (P (a, b) (or_introl eq_refl)) as [Pa Pb]. cbn [fst snd] in *. cbn [rfold fst snd]. rewrite tadd_int by assumption. cbn [rbind]. unfold entries. rewrite (E (a, b) (or_introl eq_refl)). cbn [sinsert].
  assert (W' : well_formed (tput (a, b) [v] p)) by (apply tput_wf; [exact W|split; assumption|constructor; [constructor|constructor]]).
  assert (LK : forall d, tlookup (tput (a, b) [v] p) d = if box_eqb (a, b) d then Some [v] else tlookup p d) by (intro d; apply tlookup_tput; apply W).
  destruct (IH _ W' N2) as (u & U1 & U2 & U3 & U4).
  - intros c Hc. apply P. right. exact Hc.
  - intros c Hc. rewrite LK. destruct (box_eqb (a, b) c) eqn:Q; [apply box_eqb_eq in Q; subst c; destruct (N1 Hc)|]. apply E. right. exact Hc.
  - exists u. split; [exact U1|]. split; [exact U2|]. split.
    + intros c [<-|Hc]; [|apply U3; exact Hc]. rewrite U4 by exact N1. rewrite LK. replace (box_eqb (a, b) (a, b)) with true by (symmetry; apply box_eqb_eq; reflexivity). reflexivity.
    + intros c Hc. rewrite U4 by (intro X; apply Hc; right; exact X). rewrite LK. destruct (box_eqb (a, b) c) eqn:Q; [|reflexivity]. apply box_eqb_eq in Q. destruct Hc. left. exact Q.
Qed.
(* entry x of the first tableau: its box appears in row x *)
Definition p_inv (G : nat -> list Z) (k : nat) (p : tab) : Prop :=
  well_formed p /\ (forall i j, shifted_cell (G k) i j <-> tlookup p (i, j) <> None) /\
  (forall i j l, tlookup p (i, j) = Some l -> exists x, l = [Z.of_nat (S x)] /\ (x < k)%nat /\ shifted_cell (G (S x)) i j /\ ~ shifted_cell (G x) i j).
Lemma p_step : forall bord growth m G k p, (forall l, Permutation (bord l) l) -> at2 growth (Z.of_nat (S k)) m = Ok (G (S k)) -> at2 growth (Z.of_nat k) m = Ok (G k) ->
  strict_partition (G k) -> (forall i j, shifted_cell (G k) i j -> shifted_cell (G (S k)) i j) -> p_inv G k p -> exists p', fsg_p bord growth m p (Z.of_nat (S k)) = Ok p' /\ p_inv G (S k) p'.
Proof.
  intros bord growth m G k p BP A1 A0 SG SUB (W & SH & EN). unfold fsg_p. replace (Z.of_nat (S k) - 1) with (Z.of_nat k) by lia. rewrite A1, A0. cbn [rbind].
  destruct (skew_facts (G (S k)) (G k) true (pos_rw _ SG)) as [ND _]. pose proof (skew_shifted_In (G (S k)) (G k)) as SK. specialize (BP (skew (G (S k)) (G k) true)).
  assert (BI : forall i j, In (i, j) (bord (skew (G (S k)) (G k) true)) <-> shifted_cell (G (S k)) i j /\ ~ shifted_cell (G k) i j).
  { intros i j. rewrite <- SK by (apply pos_rw; exact SG). split; apply Permutation_in; [exact BP|apply Permutation_sym; exact BP]. }
  destruct (add_all (Z.of_nat (S k)) (bord (skew (G (S k)) (G k) true)) p W) as (u & U1 & U2 & U3 & U4).
  - apply (Permutation_NoDup (Permutation_sym BP) ND).
  - intros [i j] H. apply BI in H. destruct H as [[H1 H2] _]. cbn [fst snd]. lia.
  - intros [i j] H. apply BI in H. destruct H as [_ H]. rewrite SH in H. destruct (tlookup p (i, j)); [destruct H; discriminate|reflexivity].
  - exists u. split; [exact U1|]. split; [exact U2|].
    assert (DEC : forall i j, In (i, j) (bord (skew (G (S k)) (G k) true)) \/ ~ In (i, j) (bord (skew (G (S k)) (G k) true))) by (intros i j; destruct (in_dec box_dec (i, j) (bord (skew (G (S k)) (G k) true))); [left|right]; assumption). split.
    + intros i j. destruct (DEC i j) as [D|D].
      * rewrite (U3 _ D). apply BI in D. split; [discriminate|]. intros _. apply D.
      * rewrite (U4 _ D), <- SH. rewrite BI in D. split; [|apply SUB]. intro X. rewrite SH. intro Y. apply D. split; [exact X|]. rewrite SH. intro Z0. exact (Z0 Y).
    + intros i j l H. destruct (DEC i j) as [D|D].
      * rewrite (U3 _ D) in H. injection H as <-. exists k. split; [reflexivity|]. split; [lia|]. apply BI. exact D.
      * rewrite (U4 _ D) in H. destruct (EN i j l H) as (x & X1 & X2 & X3). exists x. split; [exact X1|]. split; [lia|exact X3].
Qed.

(* ---------- the second loop ---------- *)
Definition step_box (lam mu : list Z) (a b : Z) : Prop := corner_box mu a b /\ forall x y, shifted_cell mu x y <-> shifted_cell lam x y \/ (x = a /\ y = b).
Definition letter (e : nat -> bool) (k : nat) : Z := if e k then - Z.of_nat k else Z.of_nat k.
Definition q_inv (H : nat -> list Z) (e : nat -> bool) (c : nat -> option Z) (k : nat) (q : tab) : Prop :=
  well_formed q /\ (forall i j, shifted_cell (H k) i j <-> tlookup q (i, j) <> None) /\
  (exists f : nat -> Z * Z, (forall x, (x < k)%nat -> step_box (H x) (H (S x)) (fst (f x)) (snd (f x)) /\ forall z, c (S x) = Some z -> z = if e (S x) then snd (f x) else fst (f x)) /\
    forall i j v, In v (entries q (i, j)) <-> exists x, (x < k)%nat /\ v = letter e (S x) /\ f x = (i, j)).
Lemma one_more_box : forall lam mu, strict_partition lam -> one_more lam mu -> exists a b, step_box lam mu a b /\ ~ shifted_cell lam a b.
Proof.
  intros lam mu S (a & b & N & E). exists a, b. assert (C : shifted_cell mu a b) by (apply E; right; split; reflexivity). split; [|exact N]. split; [|exact E]. split; [exact C|]. split.
  - intro X. apply E in X. destruct X as [X|[_ X]]; [|lia]. apply N, cell_left; [exact X|destruct C; lia].
  - intro X. apply E in X. destruct X as [X|[X _]]; [|lia]. apply N, cell_up; [exact S|destruct C; lia|exact X].
Qed.
Lemma zmax_is : forall l m, In m l -> (forall x, In x l -> x <= m) -> zmax l = Some m.
Proof.
  intros [|a l] m I L; [destruct I|]. cbn [zmax]. f_equal. assert (G : forall l a, In (fold_left Z.max l a) (a :: l) /\ forall x, In x (a :: l) -> x <= fold_left Z.max l a).
  { clear. induction l as [|b l IH]; intro a; [split; [left; reflexivity|intros x [->|[]]; cbn; lia]|]. cbn [fold_left]. destruct (IH (Z.max a b)) as [A B]. split.
    - destruct A as [A|A]; [|right; right; exact A]. rewrite <- A. destruct (Z.max_spec a b) as [[_ ->]|[_ ->]]; [right; left; reflexivity|left; reflexivity].
    - intros x [->|[->|X]]; [pose proof (B (Z.max x b) (or_introl eq_refl)); lia|pose proof (B (Z.max a x) (or_introl eq_refl)); lia|apply B; right; exact X]. }
  destruct (G l a) as [A B]. specialize (B m I). specialize (L _ A). lia.
Qed.
Lemma q_keys : forall (q : tab) i j, In (i, j) (map fst q) <-> tlookup q (i, j) <> None.
Proof. intros q i j. pose proof (tlookup_None q (i, j)) as T. destruct (in_dec box_dec (i, j) (map fst q)); tauto. Qed.
Lemma last_col : forall mu q a b, strict_partition mu -> (forall i j, shifted_cell mu i j <-> tlookup q (i, j) <> None) -> corner_box mu a b -> last_box_in_column q b = Some a.
Proof.
  intros mu q a b S SH (C1 & C2 & C3). unfold last_box_in_column. assert (I : forall i, In i (map (fun cv : box * list Z => fst (fst cv)) (filter (fun cv : box * list Z => snd (fst cv) =? b) q)) <-> shifted_cell mu i b).
  { intro i. rewrite SH, <- q_keys, !in_map_iff. split.
    - intros ([[x y] l] & <- & F). apply filter_In in F. cbn [fst snd] in *. destruct F as [F1 F2]. apply Z.eqb_eq in F2. subst y. exists ((x, b), l). split; [reflexivity|exact F1].
    - intros ([c l] & E & F). cbn [fst] in E. subst c. exists ((i, b), l). split; [reflexivity|]. apply filter_In. split; [exact F|]. cbn [fst snd]. apply Z.eqb_refl. }
  apply zmax_is; [apply I; exact C1|]. intros x Hx. apply I in Hx. destruct (Z_le_gt_dec x a) as [L|L]; [exact L|exfalso]. apply C3. apply (cell_above mu (a + 1) x b S); [destruct C1; lia|exact Hx].
Qed.
Lemma last_row : forall mu q a b, (forall i j, shifted_cell mu i j <-> tlookup q (i, j) <> None) -> corner_box mu a b -> last_box_in_row q a = Some b.
Proof.
  intros mu q a b SH (C1 & C2 & C3). unfold last_box_in_row. assert (I : forall j, In j (map (fun cv : box * list Z => snd (fst cv)) (filter (fun cv : box * list Z => fst (fst cv) =? a) q)) <-> shifted_cell mu a j).
  { intro j. rewrite SH, <- q_keys, !in_map_iff. split.
    - intros ([[x y] l] & <- & F). apply filter_In in F. cbn [fst snd] in *. destruct F as [F1 F2]. apply Z.eqb_eq in F2. subst x. exists ((a, y), l). split; [reflexivity|exact F1].
    - intros ([c l] & E & F). cbn [fst] in E. subst c. exists ((a, j), l). split; [reflexivity|]. apply filter_In. split; [exact F|]. cbn [fst snd]. apply Z.eqb_refl. }
  apply zmax_is; [apply I; exact C1|]. intros x Hx. apply I in Hx. destruct (Z_le_gt_dec x b) as [L|L]; [exact L|exfalso]. apply C2. destruct C1, Hx. split; lia.
Qed.
Lemma q_add : forall H e c k (q : tab) a b, q_inv H e c k q -> step_box (H k) (H (S k)) a b -> (forall z, c (S k) = Some z -> z = if e (S k) then b else a) ->
  exists q', tadd q a b (VInt (letter e (S k))) = Ok q' /\ q_inv H e c (S k) q'.
Proof.
  intros H e c k q a b (W & SH & f & F1 & F2) ST CZ. pose proof ST as [[C _] E]. assert (Pa : 0 < a) by (destruct C; lia). assert (Pb : 0 < b) by (destruct C; lia). rewrite tadd_int by assumption. eexists. split; [reflexivity|].
  set (l := sinsert (letter e (S k)) (entries q (a, b))).
  assert (IL : increasing l). { apply sinsert_increasing. unfold entries. destruct (tlookup q (a, b)) eqn:Q; [eapply wf_lookup; eassumption|constructor]. }
  assert (LK : forall d, tlookup (tput (a, b) l q) d = if box_eqb (a, b) d then Some l else tlookup q d) by (intro d; apply tlookup_tput; apply W).
  split; [apply tput_wf; [exact W|split; assumption|exact IL]|]. split.
  - intros i j. rewrite LK, E. destruct (box_eqb (a, b) (i, j)) eqn:Q.
    + apply box_eqb_eq in Q. injection Q as -> ->. split; [discriminate|]. intros _. right. split; reflexivity.
    + rewrite <- SH. split; [|intro X; left; exact X]. intros [X|[-> ->]]; [exact X|]. apply box_eqb_neq in Q. destruct Q. reflexivity.
  - exists (fun x => if Nat.eqb x k then (a, b) else f x). split.
    + intros x Hx. destruct (Nat.eqb_spec x k) as [->|N]; [split; [exact ST|exact CZ]|]. apply F1. lia.
    + intros i j v. unfold entries at 1. rewrite LK. destruct (box_eqb (a, b) (i, j)) eqn:Q.
      * apply box_eqb_eq in Q. injection Q as -> ->. unfold l. assert (PI : In v (sinsert (letter e (S k)) (entries q (i, j))) <-> v = letter e (S k) \/ In v (entries q (i, j))).
        { split; intro X; [apply (Permutation_in _ (Permutation_sym (L_Tableaux.sinsert_perm _ _))) in X; destruct X as [X|X]; [left; symmetry; exact X|right; exact X]|]. apply (Permutation_in _ (L_Tableaux.sinsert_perm _ _)). destruct X as [->|X]; [left; reflexivity|right; exact X]. }
        rewrite PI, F2. split.
        -- intros [->|(x & X1 & X2 & X3)]; [exists k; split; [lia|split; [reflexivity|rewrite Nat.eqb_refl; reflexivity]]|]. exists x. split; [lia|]. split; [exact X2|]. destruct (Nat.eqb_spec x k); [lia|exact X3].
        -- intros (x & X1 & X2 & X3). destruct (Nat.eqb_spec x k) as [->|N]; [left; exact X2|right]. exists x. split; [lia|split; assumption].
      * fold (entries q (i, j)). rewrite F2. split.
        -- intros (x & X1 & X2 & X3). exists x. split; [lia|]. split; [exact X2|]. destruct (Nat.eqb_spec x k); [lia|exact X3].
        -- intros (x & X1 & X2 & X3). destruct (Nat.eqb_spec x k) as [->|N]; [rewrite X3 in Q; apply box_eqb_neq in Q; destruct Q; reflexivity|]. exists x. split; [lia|split; assumption].
Qed.
Lemma q_step : forall growth edges corners n H (e : nat -> bool) c k q,
  at2 growth n (Z.of_nat (S k)) = Ok (H (S k)) -> at2 growth n (Z.of_nat k) = Ok (H k) -> at2 edges n (Z.of_nat (S k)) = Ok (e (S k)) -> at2 corners n (Z.of_nat (S k)) = Ok (c (S k)) ->
  strict_partition (H k) -> marked (H k) (H (S k)) (e (S k)) (c (S k)) -> q_inv H e c k q ->
  exists q', (forall bord, (forall l, Permutation (bord l) l) -> fsg_q bord growth edges corners n q (Z.of_nat (S k)) = Ok q') /\ q_inv H e c (S k) q'.
Proof.
  intros growth edges corners n H e c k q A1 A0 AE AC SH M Q. unfold fsg_q. replace (Z.of_nat (S k) - 1) with (Z.of_nat k) by lia. rewrite A1, A0. cbn [rbind]. rewrite AE, AC. cbn [rbind].
  change (if e (S k) then - Z.of_nat (S k) else Z.of_nat (S k)) with (letter e (S k)). destruct M as [[OM EC]|(EQ & i & j & CB & EC)]; rewrite EC.
  - destruct (one_more_box _ _ SH OM) as (a & b & ST & NC). replace (zlist_eqb (H (S k)) (H k)) with false.
    2:{ symmetry. apply not_true_iff_false. rewrite zlist_eqb_eq. intro X. rewrite X in ST. destruct ST as [[C _] _]. exact (NC C). }
    cbn [negb]. destruct (q_add H e c k q a b Q ST ltac:(intros z X; rewrite EC in X; discriminate)) as (q' & E' & Q'). exists q'. split; [|exact Q']. intros bord BP.
    specialize (BP (skew (H (S k)) (H k) true)). pose proof (fun i j => skew_shifted_In (H (S k)) (H k) i j (pos_rw _ SH)) as SK. destruct (bord (skew (H (S k)) (H k) true)) as [|[x y] s].
    + exfalso. apply Permutation_nil in BP. assert (I : In (a, b) (skew (H (S k)) (H k) true)) by (apply SK; split; [exact (proj1 (proj1 ST))|exact NC]). rewrite BP in I. destruct I.
    + assert (I : In (x, y) (skew (H (S k)) (H k) true)) by (apply (Permutation_in _ BP); left; reflexivity). apply SK in I. destruct I as [I1 I2]. apply (proj2 ST) in I1. destruct I1 as [I1|[-> ->]]; [destruct (I2 I1)|]. exact E'.
  - rewrite EQ. rewrite zlist_eqb_refl. cbn [negb]. rewrite EQ in CB. assert (ST : step_box (H k) (H (S k)) i j) by (rewrite EQ; split; [exact CB|]; intros x y; split; [intro X; left; exact X|]; intros [X|[-> ->]]; [exact X|exact (proj1 CB)]). pose proof Q as (_ & SQ & _).
    destruct (q_add H e c k q i j Q ST ltac:(intros z X; rewrite EC in X; injection X as <-; reflexivity)) as (q' & E' & Q'). exists q'. split; [|exact Q']. intros _ _. clear EC. unfold letter at 1. destruct (e (S k)) eqn:Ee.
    + replace (- Z.of_nat (S k) <? 0) with true by (symmetry; apply Z.ltb_lt; lia). rewrite (last_col (H k) q i j SH SQ CB). exact E'.
    + replace (Z.of_nat (S k) <? 0) with false by (symmetry; apply Z.ltb_ge; lia). rewrite (last_row (H k) q i j SQ CB). exact E'.
Qed.
