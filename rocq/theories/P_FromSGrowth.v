(* C110: the two tableaux read off the shifted growth diagram of a word *)
From Coq Require Import List ZArith Lia Bool Permutation Arith.
From Verif Require Import PyBase M_Partitions S_Partitions L_PartBasic M_Tableaux S_Tableaux L_Tableaux S_Semistandard M_FState M_SGrowth S_SGrowth L_SGrowth P_SGrowth M_FromSGrowth L_FromSGrowth.
Import ListNotations.
Local Open Scope Z_scope.

Lemma at2_nth : forall (A : Type) (t : list (list A)) d i j, (i < length t)%nat -> (j < length (nth i t []))%nat -> at2 t (Z.of_nat i) (Z.of_nat j) = Ok (nth j (nth i t []) d).
Proof.
  intros A t d i j Hi Hj. unfold at2. rewrite !Nat2Z.id. rewrite (nth_error_nth' t [] Hi), (nth_error_nth' (nth i t []) d Hj). reflexivity.
Qed.
Lemma at2_map : forall (A B : Type) (f : A -> B) (t : list (list A)) i j x, at2 t i j = Ok x -> at2 (map (map f) t) i j = Ok (f x).
Proof. intros A B f t i j x H. unfold at2 in *. rewrite nth_error_map. destruct (nth_error t (Z.to_nat i)) as [r|]; [|discriminate]. cbn [option_map]. rewrite nth_error_map. destruct (nth_error r (Z.to_nat j)); [|discriminate]. injection H as ->. reflexivity. Qed.
Lemma mono : forall (G : nat -> list Z) N, (forall k, (k < N)%nat -> forall i j, shifted_cell (G k) i j -> shifted_cell (G (S k)) i j) -> forall a b, (a <= b <= N)%nat -> forall i j, shifted_cell (G a) i j -> shifted_cell (G b) i j.
Proof. intros G N H a b [L1 L2] i j C. induction L1 as [|b L1 IH]; [exact C|]. apply H; [lia|]. apply IH. lia. Qed.
Lemma p_unique : forall G N p u, (forall k, (k < N)%nat -> forall i j, shifted_cell (G k) i j -> shifted_cell (G (S k)) i j) -> p_inv G N p -> p_inv G N u -> p = u.
Proof.
  intros G N p u MO (W & SH & EN) (W' & SH' & EN'). apply wf_ext; [exact W|exact W'|]. intros [i j]. specialize (SH i j). specialize (SH' i j). specialize (EN i j). specialize (EN' i j). destruct (tlookup p (i, j)) as [l|]; destruct (tlookup u (i, j)) as [l'|]; [|exfalso; refine (proj1 SH' (proj2 SH _) eq_refl); discriminate|exfalso; refine (proj1 SH (proj2 SH' _) eq_refl); discriminate|reflexivity].
  destruct (EN l eq_refl) as (x & -> & Lx & Cx & Nx). destruct (EN' l' eq_refl) as (y & -> & Ly & Cy & Ny). destruct (lt_eq_lt_dec x y) as [[L|L]|L]; [exfalso; apply Ny|subst; reflexivity|exfalso; apply Nx].
  - apply (mono G N MO (S x) y); [lia|exact Cx].
  - apply (mono G N MO (S y) x); [lia|exact Cy].
Qed.
Lemma lookup_In : forall (t : tab) c l, well_formed t -> (tlookup t c = Some l <-> In (c, l) t).
Proof. intros t c l W. split; [apply tlookup_In|apply In_tlookup; apply W]. Qed.
Lemma holds_entries : forall (t : tab) i j v, well_formed t -> (holds t i j v <-> In v (entries t (i, j))).
Proof.
  intros t i j v W. unfold holds, entries. split.
  - intros (l & A & B). apply (lookup_In t _ _ W) in A. rewrite A. exact B.
  - intro H. destruct (tlookup t (i, j)) as [l|] eqn:E; [|destruct H]. exists l. split; [apply tlookup_In; exact E|exact H].
Qed.
Lemma occupied : forall (t : tab) i j, well_formed t -> ((exists l, In ((i, j), l) t) <-> tlookup t (i, j) <> None).
Proof.
  intros t i j W. split; [intros (l & A); apply (lookup_In t _ _ W) in A; rewrite A; discriminate|]. intro H. destruct (tlookup t (i, j)) as [l|] eqn:E; [|destruct (H eq_refl)]. exists l. apply tlookup_In. exact E.
Qed.

Theorem C110_tableaux : forall w N, size_of w None N -> (forall a, In a w -> 1 <= a) -> let M := length w in
  exists t p q,
    (forall bord, (forall l, Permutation (bord l) l) -> shifted_growth_diagram bord (word_positions w) None None = Ok t) /\
    (forall bord, (forall l, Permutation (bord l) l) ->
       from_shifted_growth_diagram bord (map (map (fun x => fst (fst x))) t) (map (map (fun x => snd (fst x))) t) (map (map snd) t) = Ok (p, q)) /\
    well_formed p /\ well_formed q /\
    (* the shapes *)
    (forall i j, (exists l, In ((i, j), l) p) <-> shifted_cell (part_at t N M) i j) /\
    (forall i j, (exists l, In ((i, j), l) q) <-> shifted_cell (part_at t N M) i j) /\
    (* the first tableau: one letter per box, the boxes with letters at most k are the last entry of row k; rows and columns increase *)
    (forall i j l, In ((i, j), l) p -> exists x, l = [x] /\ 1 <= x <= Z.of_nat N) /\
    (forall k, (k <= N)%nat -> forall i j, (exists x, holds p i j x /\ x <= Z.of_nat k) <-> shifted_cell (part_at t k M) i j) /\
    (forall i j x y, holds p i j x -> holds p i (j + 1) y \/ holds p (i + 1) j y -> x < y) /\
    (* the second tableau: letters 1 to M, up to signs given by the edge labels, one of each, the boxes with letters up to k are
       entry k of the last row; rows and columns increase in absolute value *)
    (forall i j l, In ((i, j), l) q -> l <> []) /\
    (forall i j v, holds q i j v -> exists k, (1 <= k <= M)%nat /\ v = if edge_at t N k then - Z.of_nat k else Z.of_nat k) /\
    (forall k, (1 <= k <= M)%nat -> exists i j, forall i' j', (exists v, holds q i' j' v /\ Z.abs v = Z.of_nat k) <-> i' = i /\ j' = j) /\
    (forall k, (k <= M)%nat -> forall i j, (exists v, holds q i j v /\ Z.abs v <= Z.of_nat k) <-> shifted_cell (part_at t N k) i j) /\
    (forall i j v v', holds q i j v -> holds q i (j + 1) v' \/ holds q (i + 1) j v' -> Z.abs v < Z.abs v') /\
    (* letter k is in a corner box of entry k of the last row, the one the corner label names *)
    (forall i j v k z, holds q i j v -> Z.abs v = Z.of_nat k -> corner_at t N k = Some z -> z = if edge_at t N k then j else i) /\
    (forall i j v k, holds q i j v -> Z.abs v = Z.of_nat k -> corner_box (part_at t N k) i j).
Proof.
  intros w N HN POS M. destruct (C109_word w N HN) as (t & T1 & T2 & T3 & T4 & T5 & T6 & _).
  assert (ZERO : (forall j, (j <= M)%nat -> part_at t 0 j = []) /\ (forall i, (i <= N)%nat -> part_at t i 0 = [])).
  { specialize (T1 (fun l => l) (fun l => Permutation_refl l)). unfold shifted_growth_diagram in T1.
    destruct (sg_rows (fun l => l) (word_positions w) 1 _ _) as [rest|] eqn:ER in T1; [|discriminate]. cbn [rbind] in T1. injection T1 as T1.
    assert (Z0 : forall k j, nth j (repeat sg_zero k) ([], false, None) = sg_zero) by (induction k as [|k IH]; intros [|j]; try reflexivity; apply IH).
    split; [intros j Hj; unfold part_at; rewrite <- T1; cbn [nth]; rewrite Z0; reflexivity|].
    assert (RS : forall cnt bd d i prev rs, sg_rows bd d i cnt prev = Ok rs -> forall r, In r rs -> nth 0 r ([], false, None) = sg_zero).
    { clear. induction cnt as [|cnt IH]; intros bd d i prev rs E r Hr; cbn [sg_rows] in E; [injection E as <-; destruct Hr|]. destruct (sg_row bd d i 1 prev []) as [r0|]; [|discriminate]. cbn [rbind] in E. destruct (sg_rows bd d (i + 1) cnt (sg_zero :: r0)) as [rs'|] eqn:E'; [|discriminate]. cbn [rbind] in E. injection E as <-. destruct Hr as [<-|Hr]; [reflexivity|]. apply (IH _ _ _ _ _ E' r Hr). }
    intros [|i] Hi; unfold part_at; rewrite <- T1; cbn [nth]; [rewrite Z0; reflexivity|]. rewrite (RS _ _ _ _ _ _ ER); [reflexivity|]. apply nth_In. rewrite <- T1 in T2. cbn [length] in T2. lia. }
  destruct ZERO as [ZR ZC]. set (G := fun k => part_at t k M). set (H := fun k => part_at t N k). set (e := fun k => edge_at t N k). set (c := fun k => corner_at t N k).
  assert (AT : forall i j, (i <= N)%nat -> (j <= M)%nat -> at2 t (Z.of_nat i) (Z.of_nat j) = Ok (nth j (nth i t []) ([], false, None))) by (intros i j Hi Hj; apply at2_nth; [lia|rewrite T3 by lia; unfold M in Hj; lia]).
  set (gr := map (map (fun x : list Z * bool * option Z => fst (fst x))) t). set (ed := map (map (fun x : list Z * bool * option Z => snd (fst x))) t). set (co := map (map (fun x : list Z * bool * option Z => snd x)) t).
  assert (AG : forall i j, (i <= N)%nat -> (j <= M)%nat -> at2 gr (Z.of_nat i) (Z.of_nat j) = Ok (part_at t i j)) by (intros i j Hi Hj; exact (at2_map _ _ (fun x : list Z * bool * option Z => fst (fst x)) _ _ _ _ (AT i j Hi Hj))).
  assert (AE : forall i j, (i <= N)%nat -> (j <= M)%nat -> at2 ed (Z.of_nat i) (Z.of_nat j) = Ok (edge_at t i j)) by (intros i j Hi Hj; exact (at2_map _ _ (fun x : list Z * bool * option Z => snd (fst x)) _ _ _ _ (AT i j Hi Hj))).
  assert (AC : forall i j, (i <= N)%nat -> (j <= M)%nat -> at2 co (Z.of_nat i) (Z.of_nat j) = Ok (corner_at t i j)) by (intros i j Hi Hj; exact (at2_map _ _ (fun x : list Z * bool * option Z => snd x) _ _ _ _ (AT i j Hi Hj))).
  assert (MO : forall k, (k < N)%nat -> forall i j, shifted_cell (G k) i j -> shifted_cell (G (S k)) i j) by (intros k Hk; apply (T5 k M Hk (Nat.le_refl _))).
  assert (EMP : forall i j, ~ shifted_cell [] i j) by (intros i j [A B]; unfold row in B; destruct (Z.to_nat (i - 1)); cbn in B; lia).
  assert (PB : forall bord, (forall l, Permutation (bord l) l) -> exists p, rfold (fsg_p bord gr (Z.of_nat M)) (zrange 1 (Z.of_nat N + 1)) [] = Ok p /\ p_inv G N p).
  { intros bord BP. apply (rfold_range tab (fsg_p bord gr (Z.of_nat M)) (p_inv G)).
    - split; [apply wf_nil|]. split; [|intros i j l X; discriminate]. intros i j. unfold G. rewrite ZR by lia. split; [intro X; destruct (EMP i j X)|intro X; destruct (X eq_refl)].
    - intros k b Hk I. apply (p_step bord gr (Z.of_nat M) G k b BP); [apply AG; lia|apply AG; lia|apply T4; unfold M; lia|apply MO; exact Hk|exact I]. }
  destruct (PB (fun l => l) (fun l => Permutation_refl l)) as (p & _ & PI).
  destruct (rfold_family tab (fun f => exists bord, (forall l, Permutation (bord l) l) /\ f = fsg_q bord gr ed co (Z.of_nat N)) (q_inv H e c) M []) as (q & QB & QI).
  { split; [apply wf_nil|]. split; [|exists (fun _ => (0, 0)); split; [intros x Hx; lia|]; intros i j v; split; [intros []|intros (x & X & _); lia]]. intros i j. unfold H. rewrite ZC by lia. split; [intro X; destruct (EMP i j X)|intro X; destruct (X eq_refl)]. }
  { intros k b Hk I. destruct (nth_error w k) as [a|] eqn:Ea; [|apply nth_error_None in Ea; unfold M in Hk; lia].
    destruct (q_step gr ed co (Z.of_nat N) H e c k b) as (q' & E' & Q').
    - apply AG; lia.
    - apply AG; lia.
    - apply AE; lia.
    - apply AC; lia.
    - apply T4; [lia|unfold M in Hk; lia].
    - apply nth_error_In in Ea as Ia. apply (T6 N k a (Nat.le_refl _) Ea). split; [apply POS; exact Ia|]. cbn in HN. apply HN. exact Ia.
    - exact I.
    - exists q'. split; [|exact Q']. intros f (bord & BP & ->). apply E'. exact BP. }
  exists t, p, q. split; [exact T1|]. split.
  { intros bord BP. unfold from_shifted_growth_diagram. fold gr ed. replace (map (map snd) t) with co by reflexivity.
    assert (L1 : zlen gr - 1 = Z.of_nat N) by (unfold zlen, gr; rewrite map_length, T2; lia). rewrite L1.
    assert (L2 : match gr with [] => 0 | r :: _ => zlen r - 1 end = Z.of_nat M).
    { unfold gr. pose proof (T3 O ltac:(lia)) as L0. destruct t as [|r t']; [discriminate|]. cbn [map nth] in *. unfold zlen. rewrite map_length, L0. unfold M. lia. }
    rewrite L2. destruct (PB bord BP) as (p' & E' & PI'). rewrite E'. cbn [rbind]. rewrite (p_unique G N p' p MO PI' PI). rewrite (QB (fsg_q bord gr ed co (Z.of_nat N))) by (exists bord; split; [exact BP|reflexivity]). reflexivity. }
  destruct PI as (WP & SP & EP). destruct QI as (WQ & SQ & f & F1 & F2). split; [exact WP|]. split; [exact WQ|]. split; [intros i j; rewrite (occupied p i j WP), <- SP; reflexivity|]. split; [intros i j; rewrite (occupied q i j WQ), <- SQ; reflexivity|].
  assert (HP : forall i j x, holds p i j x <-> exists y, x = Z.of_nat (S y) /\ (y < N)%nat /\ shifted_cell (G (S y)) i j /\ ~ shifted_cell (G y) i j).
  { intros i j x. rewrite (holds_entries p i j x WP). unfold entries. split.
    - intro X. destruct (tlookup p (i, j)) as [l|] eqn:E; [|destruct X]. destruct (EP i j l E) as (y & -> & Y). destruct X as [<-|[]]. exists y. split; [reflexivity|exact Y].
    - intros (y & -> & Y1 & Y2 & Y3). assert (C : shifted_cell (G N) i j) by (apply (mono G N MO (S y) N); [lia|exact Y2]). apply SP in C. destruct (tlookup p (i, j)) as [l|] eqn:E; [|destruct (C eq_refl)]. destruct (EP i j l E) as (z & -> & Z1 & Z2 & Z3). destruct (lt_eq_lt_dec y z) as [[L|L]|L]; [exfalso; apply Z3; apply (mono G N MO (S y) z); [lia|exact Y2]|subst; left; reflexivity|exfalso; apply Y3; apply (mono G N MO (S z) y); [lia|exact Z2]]. }
  split. { intros i j l X. apply (lookup_In p _ _ WP) in X. destruct (EP i j l X) as (x & -> & X1 & _). exists (Z.of_nat (S x)). split; [reflexivity|lia]. }
  split.
  { intros k Hk i j. split.
    - intros (x & X & L). apply HP in X. destruct X as (y & -> & Y1 & Y2 & _). apply (mono G N MO (S y) k); [lia|exact Y2].
    - intro C. change (shifted_cell (G k) i j) in C. induction k as [|k IH]; [unfold G in C; rewrite ZR in C by lia; destruct (EMP i j C)|].
      assert (D : shifted_cell (G k) i j \/ ~ shifted_cell (G k) i j) by (rewrite cell_rw; lia). destruct D as [D|D]; [destruct (IH ltac:(lia) D) as (x & X1 & X2); exists x; split; [exact X1|lia]|]. exists (Z.of_nat (S k)). split; [|lia]. apply HP. exists k. split; [reflexivity|]. split; [lia|]. split; [exact C|exact D]. }
  split.
  { intros i j x y X Y. apply HP in X. destruct X as (x0 & -> & X1 & X2 & X3).
    assert (exists i' j', holds p i' j' y /\ (i' = i \/ j' = j) /\ (i', j') <> (i, j) /\ forall k, (k <= N)%nat -> shifted_cell (G k) i' j' -> shifted_cell (G k) i j) as (i' & j' & Y' & OR & NE & UP).
    { destruct Y as [Y|Y]; [exists i, (j + 1)|exists (i + 1), j]; (split; [exact Y|]; split; [auto|]; split; [intro Q; injection Q; lia|]; intros k Hk).
      - intro C. apply cell_left; [exact C|destruct X2; lia].
      - apply cell_up; [apply T4; unfold M; lia|destruct X2; lia]. }
    apply HP in Y'. destruct Y' as (y0 & -> & Y1 & Y2 & Y3). destruct (lt_eq_lt_dec x0 y0) as [[L|L]|L]; [lia|exfalso|exfalso; apply X3; apply (mono G N MO (S y0) x0); [lia|apply UP; [lia|exact Y2]]].
    subst y0. destruct (proj2 (T5 x0 M X1 (Nat.le_refl _)) i j i' j' X2 X3 Y2 Y3) as [Q1 Q2]; [destruct OR as [->| ->]; auto|]. apply NE. congruence. }
  assert (HQ : forall i j v, holds q i j v <-> exists x, (x < M)%nat /\ v = letter e (S x) /\ f x = (i, j)) by (intros i j v; rewrite (holds_entries q i j v WQ); apply F2).
  assert (AL : forall x, Z.abs (letter e x) = Z.of_nat x) by (intro x; unfold letter; destruct (e x); lia).
  assert (QS : forall k, (k <= M)%nat -> forall i j, shifted_cell (H k) i j <-> exists x, (x < k)%nat /\ f x = (i, j)).
  { induction k as [|k IH]; intros Hk i j; [unfold H; rewrite ZC by lia; split; [intro X; destruct (EMP i j X)|intros (x & X & _); lia]|]. rewrite (proj2 (proj1 (F1 k ltac:(lia)))), IH by lia. split.
    - intros [(x & X1 & X2)|[-> ->]]; [exists x; split; [lia|exact X2]|exists k; split; [lia|apply surjective_pairing]].
    - intros (x & X1 & X2). destruct (Nat.eq_dec x k) as [->|Nk]; [right; rewrite X2; split; reflexivity|left; exists x; split; [lia|exact X2]]. }
  split. { intros i j l X ->. apply (lookup_In q _ _ WQ) in X. assert (C : shifted_cell (H M) i j) by (apply SQ; rewrite X; discriminate). apply QS in C; [|lia]. destruct C as (x & X1 & X2). assert (I : In (letter e (S x)) (entries q (i, j))) by (apply F2; exists x; split; [exact X1|split; [reflexivity|exact X2]]). unfold entries in I. rewrite X in I. destruct I. }
  split. { intros i j v X. apply HQ in X. destruct X as (x & X1 & X2 & _). exists (S x). split; [lia|exact X2]. }
  split.
  { intros k Hk. exists (fst (f (pred k))), (snd (f (pred k))). intros i' j'. split.
    - intros (v & X & A). apply HQ in X. destruct X as (x & X1 & -> & X2). rewrite AL in A. replace (pred k) with x by lia. rewrite X2. split; reflexivity.
    - intros [-> ->]. exists (letter e k). split; [apply HQ; exists (pred k); split; [lia|split; [f_equal; lia|apply surjective_pairing]]|apply AL]. }
  split.
  { intros k Hk i j. rewrite (QS k Hk i j : shifted_cell (part_at t N k) i j <-> _). split.
    - intros (v & X & A). apply HQ in X. destruct X as (x & X1 & -> & X2). rewrite AL in A. exists x. split; [lia|exact X2].
    - intros (x & X1 & X2). exists (letter e (S x)). split; [apply HQ; exists x; split; [lia|split; [reflexivity|exact X2]]|rewrite AL; lia]. }
  split; [|split].
  2:{ intros i j v k z X A Z0. apply HQ in X. destruct X as (x & X1 & -> & X2). rewrite AL in A. assert (k = S x) by lia. subst k. destruct (F1 x X1) as [_ F3]. rewrite X2 in F3. exact (F3 z Z0). }
  2:{ intros i j v k X A. apply HQ in X. destruct X as (x & X1 & -> & X2). rewrite AL in A. assert (k = S x) by lia. subst k. destruct (F1 x X1) as [[F3 _] _]. rewrite X2 in F3. exact F3. }
  intros i j v v' X Y. apply HQ in X. destruct X as (x & X1 & -> & X2). rewrite AL.
  assert (exists y, (y < M)%nat /\ v' = letter e (S y) /\ (f y = (i, j + 1) \/ f y = (i + 1, j))) as (y & Y1 & -> & Y2) by (destruct Y as [Y|Y]; apply HQ in Y; destruct Y as (y & A & B & C); exists y; auto).
  rewrite AL. destruct (le_lt_dec y x) as [L|L]; [exfalso|lia]. destruct (F1 x X1) as [[(C1 & C2 & C3) _] _]. rewrite X2 in C1, C2, C3. cbn [fst snd] in C1, C2, C3. destruct Y2 as [Y2|Y2]; [apply C2|apply C3]; apply QS; try lia; exists y; (split; [lia|exact Y2]).
Qed.
Print Assumptions C110_tableaux.

(* tests/test_growth.py, test_shifted_growth_diagram: on this word the two tableaux are those of shifted Hecke insertion *)
Example C110_example :
  let p := [((1, 1), [1]); ((1, 2), [2]); ((1, 3), [3]); ((2, 2), [3]); ((2, 3), [4])] in
  let q := [((1, 1), [1]); ((1, 2), [-2]); ((1, 3), [-4; -3]); ((2, 2), [5; 6]); ((2, 3), [-7])] in
  (forall a, In a [4; 2; 1; 1; 2; 3; 2] -> 1 <= a) /\
  from_shifted_growth_diagram (@rev (Z * Z)) (map (map (fun x => fst (fst x))) sg_example) (map (map (fun x => snd (fst x))) sg_example) (map (map snd) sg_example) = Ok (p, q) /\
  orthogonal_hecke [4; 2; 1; 1; 2; 3; 2] None true = Ok (p, q).
Proof.
  split; [intros a H; repeat (destruct H as [<-|H]; [lia|]); destruct H|]. split; vm_compute; reflexivity.
Qed.
