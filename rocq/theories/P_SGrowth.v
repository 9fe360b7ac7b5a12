(* C109: the shifted growth diagram of a set of positions with at most one in every column *)
From Coq Require Import List ZArith Lia Bool Permutation Arith.
From Verif Require Import PyBase M_Partitions S_Partitions L_Partitions L_PartBasic L_PartMore P_Partitions P_SkewKey M_SGrowth S_SGrowth L_SGrowth L_SGrowth2.
Import ListNotations.
Local Open Scope Z_scope.
Local Notation rw := get.
Local Notation entry := (list Z * bool * option Z)%type.

Lemma rook_rook_strip : forall lam mu, strict_partition lam -> strict_partition mu -> rook lam mu -> rook_strip lam mu.
Proof.
  intros lam mu Hl Hm R. assert (N : forall i j, shifted_cell mu i j -> ~ shifted_cell lam i j -> 1 <= i /\ j = rw lam i + i /\ rw mu i = rw lam i + 1).
  { intros i j. rewrite !cell_rw. intros A B. pose proof (R i ltac:(lia)). lia. }
  split; [intros i j; rewrite !cell_rw; intros [A B]; pose proof (R i A); lia|]. intros i j i' j' A B C D E. destruct (N i j A B) as (I1 & I2 & I3). destruct (N i' j' C D) as (J1 & J2 & J3).
  destruct E as [E|E]; [subst i'; lia|]. destruct (Z.lt_trichotomy i i') as [L|[L|L]]; [|subst i'; lia|].
  - pose proof (column_two lam mu i i' Hl Hm R ltac:(lia) I3 J3). lia.
  - pose proof (column_two lam mu i' i Hl Hm R ltac:(lia) J3 I3). lia.
Qed.
Lemma removable_corner : forall p a, removable p a -> corner_box p a (rw p a + a - 1).
Proof. intros p a (A & B & C). unfold corner_box. rewrite !cell_rw. lia. Qed.
Lemma active_marked : forall lam mu e c, strict_partition lam -> active lam mu e c -> marked lam mu e c.
Proof.
  intros lam mu e c Hl [(a & Ha & N & ->)|[(a & -> & -> & -> & RE)|(a & -> & -> & -> & RE)]].
  - left. split; [|reflexivity]. exists a, (rw lam a + a). pose proof (strict_rw lam a Hl Ha) as [P _]. split; [rewrite cell_rw; lia|]. intros x y. rewrite !cell_rw. split.
    + intros [A B]. rewrite N in B by exact A. destruct (Z.eqb_spec x a) as [->|]; lia.
    + intros [[A B]|[-> ->]]; rewrite N by lia; [destruct (x =? a); lia|rewrite Z.eqb_refl; lia].
  - right. split; [reflexivity|]. exists a, (rw lam a + a - 1). split; [apply removable_corner; exact RE|reflexivity].
  - right. split; [reflexivity|]. exists a, (rw lam a + a - 1). split; [apply removable_corner; exact RE|reflexivity].
Qed.

(* ---------- a row ---------- *)
Fixpoint inv (used : Z -> Prop) (j : Z) (l : list entry) : Prop :=
  match l with
  | x :: ((y :: _) as l') => strict_partition (fst (fst x)) /\ kind (fst (fst x)) (fst (fst y)) (snd (fst y)) (snd y) /\ (idle (fst (fst x)) (fst (fst y)) (snd (fst y)) (snd y) <-> ~ used j) /\ inv used (j + 1) l'
  | [x] => strict_partition (fst (fst x))
  | [] => True
  end.
Definition vert (x y : entry) : Prop := rook (fst (fst x)) (fst (fst y)).
Section Table.
  Variable bord : list (Z * Z) -> list (Z * Z).
  Hypothesis bord_perm : forall l, Permutation (bord l) l.
  Lemma sg_bord : forall v lam nu mu e c, strict_partition lam -> kind lam nu e c -> sg_cell bord v lam nu mu e c = sg_cell (fun l => l) v lam nu mu e c.
  Proof using bord_perm.
    intros v lam nu mu e c Hl K. assert (E : bord (skew nu lam true) = skew nu lam true); [|unfold sg_cell; rewrite E; reflexivity].
    destruct (skew_facts nu lam true (pos_rw lam Hl)) as [ND _]. pose proof (fun i j => skew_rw nu lam i j Hl) as SK. assert (L : forall p q, In p (skew nu lam true) -> In q (skew nu lam true) -> p = q).
    { intros [i j] [i' j'] I J. apply SK in I. apply SK in J. destruct K as [(-> & _)|[(a & Ha & N & _)|[(a & -> & _)|(a & -> & _)]]]; try lia. rewrite N in I, J by lia. destruct (Z.eqb_spec i a); destruct (Z.eqb_spec i' a); try lia. subst. f_equal. lia. }
    pose proof (bord_perm (skew nu lam true)) as P. destruct (skew nu lam true) as [|p [|q s]].
    - apply Permutation_sym, Permutation_nil in P. exact P.
    - apply Permutation_length_1_inv, Permutation_sym. apply Permutation_sym. apply Permutation_sym. exact P.
    - exfalso. rewrite (L p q ltac:(left; reflexivity) ltac:(right; left; reflexivity)) in ND. inversion ND. apply H1. left. reflexivity.
  Qed.
  Lemma sg_row_ok : forall d i used prev j left e c, (forall k, inb d i k = true -> ~ used k) -> inv used j prev -> strict_partition left -> (forall x, hd_error prev = Some x -> rook (fst (fst x)) left) -> prev <> [] ->
    exists r, sg_row bord d i j prev left = Ok r /\ sg_row (fun l => l) d i j prev left = Ok r /\ inv (fun k => used k \/ inb d i k = true) j ((left, e, c) :: r) /\ Forall2 vert prev ((left, e, c) :: r).
  Proof using bord_perm.
    intros d i used prev. induction prev as [|x prev IH]; intros j left e c U I SL RL NE; [destruct NE; reflexivity|]. destruct x as [[lam e0] c0]. pose proof (RL _ eq_refl) as R0. cbn [fst] in R0. destruct prev as [|[[nu e1] c1] prev].
    - exists []. split; [reflexivity|]. split; [reflexivity|]. split; [exact SL|]. constructor; [exact R0|constructor].
    - cbn [inv fst snd] in I. destruct I as (SLam & K & ID & I). assert (SN : strict_partition nu) by (destruct prev as [|y prev]; [exact I|destruct I as [I _]; exact I]).
      assert (V : inb d i j = true -> idle lam nu e1 c1) by (intro V; apply ID, U, V). pose proof (sg_step bord bord_perm (inb d i j) lam nu left e1 c1 SLam SN SL R0 K V) as (g & e' & c' & S1 & S2 & S3 & S4 & S5).
      destruct (IH (j + 1) g e' c' U I S2) as (r & R1 & R1' & R2 & R3); [intros x Ex; injection Ex as <-; exact S3|discriminate|].
      exists ((g, e', c') :: r). cbn [sg_row]. rewrite <- (sg_bord _ _ _ _ _ _ SLam K), S1. cbn [rbind fst]. cbn [sg_row] in R1, R1'. rewrite R1, R1'. cbn [rbind]. split; [reflexivity|]. split; [reflexivity|]. split.
      + cbn [inv fst snd]. split; [exact SL|]. split; [exact S4|]. split; [|exact R2]. rewrite S5, ID. destruct (inb d i j); [split; [intros [D _]; discriminate|intro H; destruct H; right; reflexivity]|split; [intros [_ H] [H2|H2]; [exact (H H2)|discriminate]|intro H; split; [reflexivity|intro H2; apply H; left; exact H2]]].
      + constructor; [exact R0|exact R3].
  Qed.
  (* ---------- the rows ---------- *)
  Fixpoint table (d : list (Z * Z)) (i : Z) (prev : list entry) (t : list (list entry)) : Prop :=
    match t with
    | [] => True
    | r :: t' => Forall2 vert prev r /\ inv (fun k => exists x, 1 <= x <= i /\ In (x, k) d) 1 r /\ hd_error r = Some sg_zero /\ table d (i + 1) r t'
    end.
  Lemma inv_ext : forall u u' l j, (forall k, u k <-> u' k) -> inv u j l -> inv u' j l.
  Proof. intros u u' l. induction l as [|x [|y l] IH]; intros j H I; [exact I|exact I|]. cbn [inv] in *. destruct I as (A & B & C & D). split; [exact A|]. split; [exact B|]. split; [rewrite C, H; reflexivity|]. apply IH; [exact H|exact D]. Qed.
  Lemma sg_rows_ok : forall d, (forall i i' j, 1 <= i -> 1 <= i' -> In (i, j) d -> In (i', j) d -> i = i') -> forall rows i prev, 1 <= i -> inv (fun k => exists x, 1 <= x <= i - 1 /\ In (x, k) d) 1 prev -> hd_error prev = Some sg_zero ->
    exists t, sg_rows bord d i rows prev = Ok t /\ sg_rows (fun l => l) d i rows prev = Ok t /\ length t = rows /\ table d i prev t.
  Proof using bord_perm.
    intros d U rows. induction rows as [|rows IH]; intros i prev Hi I H; [exists []; repeat split|].
    destruct (sg_row_ok d i (fun k => exists x, 1 <= x <= i - 1 /\ In (x, k) d) prev 1 [] false None) as (r & R1 & R1' & R2 & R3).
    - intros k A (x & B & C). apply inb_In in A. specialize (U _ _ _ Hi (proj1 B) A C). lia.
    - exact I.
    - split; [constructor|]. intros k Hk. cbn in Hk. lia.
    - intros x E. rewrite H in E. injection E as <-. apply rook_refl.
    - intro E. rewrite E in H. discriminate.
    - assert (I' : inv (fun k => exists x, 1 <= x <= i /\ In (x, k) d) 1 (sg_zero :: r)).
      { eapply inv_ext; [|exact R2]. intro k. cbv beta. rewrite inb_In. split; [intros [(x & A & B)|A]; [exists x; split; [lia|exact B]|exists i; split; [lia|exact A]]|]. intros (x & A & B). destruct (Z.eq_dec x i) as [->|N]; [right; exact B|left; exists x; split; [lia|exact B]]. }
      destruct (IH (i + 1) (sg_zero :: r)) as (t & T1 & T1' & T2 & T3); [lia|replace (i + 1 - 1) with i by lia; exact I'|reflexivity|].
      exists ((sg_zero :: r) :: t). cbn [sg_rows]. rewrite R1, R1'. cbn [rbind]. rewrite T1, T1'. cbn [rbind length table]. split; [reflexivity|]. split; [reflexivity|]. split; [congruence|]. split; [exact R3|]. split; [exact I'|]. split; [reflexivity|exact T3].
  Qed.
End Table.

Lemma inv_nth : forall u l j0 k, inv u j0 l -> (S k < length l)%nat -> let x := nth k l sg_zero in let y := nth (S k) l sg_zero in
  strict_partition (fst (fst x)) /\ kind (fst (fst x)) (fst (fst y)) (snd (fst y)) (snd y) /\ (idle (fst (fst x)) (fst (fst y)) (snd (fst y)) (snd y) <-> ~ u (j0 + Z.of_nat k)).
Proof.
  intros u l. induction l as [|a l IH]; intros j0 k I L; [cbn in L; lia|]. destruct l as [|b l]; [cbn in L; lia|]. destruct I as (A & B & C & D). destruct k as [|k].
  - rewrite Z.add_0_r. cbn [nth]. split; [exact A|]. split; [exact B|exact C].
  - cbn [nth length] in *. specialize (IH (j0 + 1) k D ltac:(lia)). replace (j0 + Z.of_nat (S k)) with (j0 + 1 + Z.of_nat k) by lia. exact IH.
Qed.
Lemma inv_strict : forall u l j0 k, inv u j0 l -> strict_partition (fst (fst (nth k l sg_zero))).
Proof.
  intros u l. induction l as [|a l IH]; intros j0 k I; [destruct k; (split; [constructor|intros i Hi; cbn in Hi; lia])|]. destruct k as [|k]; [destruct l as [|b l]; [exact I|destruct I as [I _]; exact I]|]. destruct l as [|b l]; [destruct k; (split; [constructor|intros i Hi; cbn in Hi; lia])|]. destruct I as (_ & _ & _ & I). apply (IH (j0 + 1) k I).
Qed.
Lemma Forall2_len : forall (P : entry -> entry -> Prop) l l', Forall2 P l l' -> length l = length l'.
Proof. intros P l l' H. induction H; [reflexivity|]. cbn [length]. congruence. Qed.
Lemma Forall2_at : forall (P : entry -> entry -> Prop) l l' k, Forall2 P l l' -> (k < length l)%nat -> P (nth k l sg_zero) (nth k l' sg_zero).
Proof. intros P l l' k H. revert k. induction H as [|x y l l' A B IH]; intros k Hk; [cbn in Hk; lia|]. destruct k as [|k]; [exact A|]. apply IH. cbn in Hk. lia. Qed.
Lemma table_nth : forall d t i0 prev, table d i0 prev t -> forall k, (k < length t)%nat -> let r := nth k t [] in let p := nth k (prev :: t) [] in
  Forall2 vert p r /\ inv (fun j => exists x, 1 <= x <= i0 + Z.of_nat k /\ In (x, j) d) 1 r /\ hd_error r = Some sg_zero /\ length r = length prev.
Proof.
  intros d t. induction t as [|r t IH]; intros i0 prev T k Hk; [cbn in Hk; lia|]. destruct T as (A & B & C & D). pose proof (Forall2_len _ _ _ A) as L. destruct k as [|k].
  - rewrite Z.add_0_r. cbn [nth]. split; [exact A|]. split; [exact B|]. split; [exact C|symmetry; exact L].
  - cbn [nth length] in *. destruct (IH (i0 + 1) r D k ltac:(lia)) as (E & F & G & H). split; [exact E|]. split; [|split; [exact G|congruence]]. replace (i0 + Z.of_nat (S k)) with (i0 + 1 + Z.of_nat k) by lia. exact F.
Qed.
Lemma inv_zero : forall u n j, (forall k, ~ u k) -> inv u j (repeat sg_zero n).
Proof.
  intros u n. induction n as [|n IH]; intros j H; [exact Logic.I|]. assert (S0 : strict_partition []) by (split; [constructor|intros i Hi; cbn in Hi; lia]). destruct n as [|n]; [exact S0|]. cbn [repeat inv]. split; [exact S0|]. assert (ID : idle [] [] false None) by (split; [|split]; reflexivity). split; [left; exact ID|]. split; [split; [intros _; apply H|intros _; exact ID]|]. apply (IH (j + 1)). exact H.
Qed.

Lemma size_spec : forall l o k, size_of l o k -> match o with None => zmax_list l | Some z => z end = Z.of_nat k.
Proof.
  intros l [z|] k H; cbn in H; [exact H|]. destruct H as [H1 H2]. assert (0 <= zmax_list l) by (clear; unfold zmax_list; induction l as [|y l IH]; cbn [fold_right]; lia). assert (A : forall x, In x l -> x <= zmax_list l) by (clear; induction l as [|y l IH]; intros x []; cbn [zmax_list fold_right]; [subst; lia|]; specialize (IH x H); unfold zmax_list in IH; lia).
  assert (B : zmax_list l = 0 \/ In (zmax_list l) l). { clear. induction l as [|y l IH]; [left; reflexivity|]. cbn [zmax_list fold_right] in *. fold (zmax_list l) in *. destruct (Z.max_spec y (zmax_list l)) as [[_ ->]|[_ ->]]; [destruct IH as [IH|IH]; [left; exact IH|right; right; exact IH]|right; left; reflexivity]. }
  destruct H1 as [->|H1]; [destruct B as [B|B]; [exact B|apply H2 in B; lia]|]. apply A in H1. destruct B as [B|B]; [lia|apply H2 in B; lia].
Qed.

Theorem C109_shifted_growth : forall d m n M N, size_of (map snd d) m M -> size_of (map fst d) n N ->
  (forall i i' j, 1 <= i -> 1 <= i' -> In (i, j) d -> In (i', j) d -> i = i') ->
  exists t, (forall bord, (forall l, Permutation (bord l) l) -> shifted_growth_diagram bord d m n = Ok t) /\
    length t = S N /\ (forall i, (i <= N)%nat -> length (nth i t []) = S M) /\
    (forall i j, (i <= N)%nat -> (j <= M)%nat -> i = O \/ j = O -> part_at t i j = [] /\ edge_at t i j = false /\ corner_at t i j = None) /\
    (forall i j, (i <= N)%nat -> (j <= M)%nat -> strict_partition (part_at t i j)) /\
    (forall i j, (i < N)%nat -> (j <= M)%nat -> rook_strip (part_at t i j) (part_at t (S i) j)) /\
    (forall i j, (i <= N)%nat -> (j < M)%nat -> (exists x, 1 <= x <= Z.of_nat i /\ In (x, Z.of_nat (S j)) d) -> marked (part_at t i j) (part_at t i (S j)) (edge_at t i (S j)) (corner_at t i (S j))) /\
    (forall i j, (i <= N)%nat -> (j < M)%nat -> ~ (exists x, 1 <= x <= Z.of_nat i /\ In (x, Z.of_nat (S j)) d) -> part_at t i (S j) = part_at t i j /\ edge_at t i (S j) = false /\ corner_at t i (S j) = None).
Proof.
  intros d m n M N HM HN U. set (row0 := repeat sg_zero (S M)).
  assert (I0 : inv (fun k => exists x, 1 <= x <= 1 - 1 /\ In (x, k) d) 1 row0) by (apply inv_zero; intros k (x & A & _); lia).
  destruct (sg_rows_ok (fun l => l) (fun l => Permutation_refl l) d U N 1 row0 ltac:(lia) I0 eq_refl) as (t & T1 & _ & T2 & T3).
  assert (TN := table_nth d t 1 row0 T3).
  assert (RI : forall i, (i <= N)%nat -> inv (fun k => exists x, 1 <= x <= Z.of_nat i /\ In (x, k) d) 1 (nth i (row0 :: t) []) /\ length (nth i (row0 :: t) []) = S M /\ nth 0 (nth i (row0 :: t) []) sg_zero = sg_zero).
  { intros [|i] Hi; [split; [exact I0|split; [apply repeat_length|reflexivity]]|]. destruct (TN i ltac:(lia)) as (_ & B & C & D). cbn [nth]. split; [replace (Z.of_nat (S i)) with (1 + Z.of_nat i) by lia; exact B|]. split; [rewrite D; apply repeat_length|]. destruct (nth i t []) as [|x r]; [discriminate|]. injection C as ->. reflexivity. }
  assert (COL : forall i j, (i <= N)%nat -> (j < M)%nat -> let x := nth j (nth i (row0 :: t) []) sg_zero in let y := nth (S j) (nth i (row0 :: t) []) sg_zero in
    strict_partition (fst (fst x)) /\ kind (fst (fst x)) (fst (fst y)) (snd (fst y)) (snd y) /\ (idle (fst (fst x)) (fst (fst y)) (snd (fst y)) (snd y) <-> ~ (exists x, 1 <= x <= Z.of_nat i /\ In (x, Z.of_nat (S j)) d))).
  { intros i j Hi Hj. destruct (RI i Hi) as (A & B & _). pose proof (inv_nth _ _ _ j A ltac:(lia)) as X. cbv beta in X. replace (1 + Z.of_nat j) with (Z.of_nat (S j)) in X by lia. exact X. }
  exists (row0 :: t). split.
  { intros bord BP. unfold shifted_growth_diagram. rewrite (size_spec _ _ _ HM), (size_spec _ _ _ HN). replace (Z.to_nat (Z.of_nat M + 1)) with (S M) by lia. rewrite Nat2Z.id. fold row0.
    destruct (sg_rows_ok bord BP d U N 1 row0 ltac:(lia) I0 eq_refl) as (t' & B1 & B2 & _). rewrite B1. cbn [rbind]. rewrite T1 in B2. injection B2 as ->. reflexivity. }
  split; [cbn [length]; rewrite T2; reflexivity|]. split; [intros i Hi; apply (RI i Hi)|]. split.
  { intros i j Hi Hj H. assert (E : nth j (nth i (row0 :: t) []) sg_zero = sg_zero). { destruct H as [->| ->]; [|apply (RI i Hi)]. cbn [nth]. unfold row0. clear. generalize (S M) as k. intro k. revert j. induction k as [|k IH]; intros [|j]; try reflexivity. apply IH. }
    unfold part_at, edge_at, corner_at. change (@nil Z, false, @None Z) with sg_zero. rewrite E. split; [|split]; reflexivity. }
  split; [intros i j Hi Hj; apply (inv_strict _ _ _ j (proj1 (RI i Hi)))|]. split.
  { intros i j Hi Hj. apply rook_rook_strip; [apply (inv_strict _ _ _ j (proj1 (RI i ltac:(lia))))|apply (inv_strict _ _ _ j (proj1 (RI (S i) ltac:(lia))))|]. destruct (TN i ltac:(lia)) as (A & _). apply (Forall2_at _ _ _ j A). rewrite (proj1 (proj2 (RI i ltac:(lia)))). lia. }
  split.
  - intros i j Hi Hj H. destruct (COL i j Hi Hj) as (A & [B|B] & C); [destruct (proj1 C B H)|]. exact (active_marked _ _ _ _ A B).
  - intros i j Hi Hj H. destruct (COL i j Hi Hj) as (A & B & C). apply C in H. exact H.
Qed.
Print Assumptions C109_shifted_growth.

(* a word: its letter number j is the row of the only position in column j *)
Theorem C109_word : forall w N, size_of w None N ->
  exists t, (forall bord, (forall l, Permutation (bord l) l) -> shifted_growth_diagram bord (word_positions w) None None = Ok t) /\
    length t = S N /\ (forall i, (i <= N)%nat -> length (nth i t []) = S (length w)) /\
    (forall i j, (i <= N)%nat -> (j <= length w)%nat -> strict_partition (part_at t i j)) /\
    (forall i j, (i < N)%nat -> (j <= length w)%nat -> rook_strip (part_at t i j) (part_at t (S i) j)) /\
    (forall i j a, (i <= N)%nat -> nth_error w j = Some a -> 1 <= a <= Z.of_nat i -> marked (part_at t i j) (part_at t i (S j)) (edge_at t i (S j)) (corner_at t i (S j))) /\
    (forall i j a, (i <= N)%nat -> nth_error w j = Some a -> Z.of_nat i < a -> part_at t i (S j) = part_at t i j /\ edge_at t i (S j) = false /\ corner_at t i (S j) = None).
Proof.
  intros w N HN. set (d := word_positions w).
  assert (G : forall (w : list Z) k, map fst (combine w (map Z.of_nat (seq k (length w)))) = w /\ map snd (combine w (map Z.of_nat (seq k (length w)))) = map Z.of_nat (seq k (length w)) /\
    forall a x, In (a, x) (combine w (map Z.of_nat (seq k (length w)))) <-> exists j, nth_error w j = Some a /\ x = Z.of_nat (k + j)).
  { clear. intro w. induction w as [|b w IH]; intro k; cbn [length seq map combine]; [split; [reflexivity|split; [reflexivity|]]; intros a x; split; [intros []|intros ([|j] & E & _); discriminate]|]. destruct (IH (S k)) as (A & B & C). cbn [map fst snd]. rewrite A, B. split; [reflexivity|]. split; [reflexivity|]. intros a x. cbn [In]. rewrite C. split.
    - intros [E|(j & E & ->)]; [injection E as <- <-; exists O; split; [reflexivity|f_equal; lia]|exists (S j); split; [exact E|f_equal; lia]].
    - intros ([|j] & E & ->); [injection E as <-; left; repeat f_equal; lia|right; exists j; split; [exact E|f_equal; lia]]. }
  assert (D : d = combine w (map Z.of_nat (seq 1 (length w)))).
  { unfold d, word_positions. f_equal. unfold zlen, zrange. replace (Z.to_nat (Z.of_nat (length w) + 1 - 1)) with (length w) by lia. generalize (length w) as k. intro k. rewrite <- seq_shift, map_map. apply map_ext. intro a. lia. }
  destruct (G w 1%nat) as (G1 & G2 & G3). rewrite <- D in G1, G2, G3.
  destruct (C109_shifted_growth d None None (length w) N) as (t & A1 & A2 & A3 & _ & A5 & A6 & A7 & A8).
  - cbn [size_of]. rewrite G2. split; [destruct w as [|a w]; [left; reflexivity|right; apply in_map, in_seq; cbn [length]; lia]|]. intros x Hx. apply in_map_iff in Hx. destruct Hx as (y & <- & Hy). apply in_seq in Hy. lia.
  - rewrite G1. exact HN.
  - intros i i' j _ _ H H'. apply G3 in H. apply G3 in H'. destruct H as (x & Ex & ->). destruct H' as (y & Ey & E). assert (x = y) by lia. subst y. congruence.
  - exists t. split; [exact A1|]. split; [exact A2|]. split; [exact A3|]. split; [exact A5|]. split; [exact A6|]. split.
    + intros i j a Hi Hj Ha. assert (j < length w)%nat by (apply nth_error_Some; congruence). apply A7; [exact Hi|assumption|]. exists a. split; [exact Ha|]. apply G3. exists j. split; [exact Hj|reflexivity].
    + intros i j a Hi Hj Ha. assert (j < length w)%nat by (apply nth_error_Some; congruence). apply A8; [exact Hi|assumption|]. intros (x & Hx & I). apply G3 in I. destruct I as (y & Ey & E). assert (y = j) by lia. subst y. assert (x = a) by congruence. lia.
Qed.
Print Assumptions C109_word.

(* tests/test_growth.py, test_shifted_growth_diagram *)
Definition sg_example : list (list entry) := match shifted_growth_diagram (@rev (Z * Z)) (word_positions [4; 2; 1; 1; 2; 3; 2]) None None with Ok t => t | Err _ => [] end.
Example C109_example : size_of [4; 2; 1; 1; 2; 3; 2] None 4 /\
  map (map (fun x => fst (fst x))) sg_example =
    [[[]; []; []; []; []; []; []; []]; [[]; []; []; [1]; [1]; [1]; [1]; [1]]; [[]; []; [1]; [2]; [2]; [2]; [2]; [2]]; [[]; []; [1]; [2]; [2]; [2]; [3]; [3; 1]]; [[]; [1]; [2]; [3]; [3]; [3; 1]; [3; 1]; [3; 2]]] /\
  map (map (fun x => snd (fst x))) sg_example =
    [[false; false; false; false; false; false; false; false]; [false; false; false; false; false; false; false; false]; [false; false; false; true; true; false; false; false]; [false; false; false; true; true; false; false; false]; [false; false; true; true; true; false; false; true]] /\
  map (map snd) sg_example =
    [[None; None; None; None; None; None; None; None]; [None; None; None; None; Some 1; None; None; None]; [None; None; None; None; Some 2; Some 1; None; Some 1]; [None; None; None; None; Some 2; Some 1; None; None]; [None; None; None; None; Some 3; None; Some 2; None]].
Proof.
  split; [cbn; split; [right; left; reflexivity|intros x H; repeat (destruct H as [<-|H]; [lia|]); destruct H]|]. split; [|split]; vm_compute; reflexivity.
Qed.
