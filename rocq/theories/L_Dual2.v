(* The dual families: triangularity, and the fillings of largest weight *)
From Coq Require Import List ZArith Lia Bool Permutation Arith Sorting.Sorted.
From Verif Require Import PyBase FinSum M_Partitions S_Partitions L_Partitions L_PartBasic L_PartMore L_PartEnum L_Destand L_Destand2 M_Vectors L_Vectors M_Polynomials S_Polynomials L_Polynomials P_Polynomials L_PolySubst
  M_Tableaux S_Tableaux L_Tableaux S_Strips M_RPP S_RPP M_Semistandard S_Semistandard L_Strips2 L_Shape L_Semi L_Semi2 L_Semi3 L_Semi4 L_Semi5 L_Count L_Count2 L_Count3 L_CountCache M_Symmetric S_Symmetric M_Expansion S_Expansion M_Slow M_Families M_Dual
  L_SymPoly L_SymMul L_Growth L_Kostka L_Num L_Expand1 L_Expand2 L_Expand3 L_Expand4 L_Expand5 L_Expand6 L_Expand7 P_Symmetric P_Expansion P_Semistandard P_Count L_Sym1 L_Sym2 L_Sym3 L_Sym4 L_Sym5 L_Sym6 L_Sym8 L_Sym11 L_Slow P_Symmetry L_Insertion6 L_Families L_Families2 P_Families L_ShiftTri L_RPP1 L_RPP2 L_RPP3 L_RPP4 P_RPP L_RPP6 L_Dual.
Import ListNotations.
Local Open Scope Z_scope.
Local Notation sg := (nget smono_eqb).

Lemma counts_nonzero : forall (A : Type) (P : A -> Prop) N, counts P N -> N <> 0 -> exists x, P x.
Proof. intros A P N (l & _ & H & E) Hn. destruct l as [|x l]; [cbn in E; lia|]. exists x. apply H. left. reflexivity. Qed.
Lemma counts_has : forall (A : Type) (P : A -> Prop) N x, counts P N -> P x -> 0 < N.
Proof. intros A P N x (l & _ & H & E) Hx. apply H in Hx. destruct l as [|y l]; [destruct Hx|]. cbn [length] in E. lia. Qed.
Lemma counts_one : forall (A : Type) (P : A -> Prop) N x, counts P N -> P x -> (forall y, P y -> y = x) -> N = 1.
Proof.
  intros A P N x (l & Nd & H & E) Hx Hu. apply H in Hx as I. destruct l as [|y [|z l]]; [destruct I|cbn in E; lia|]. exfalso. inversion Nd as [|? ? N1 _]; subst. apply N1. left. rewrite (Hu z), (Hu y); [reflexivity| |]; apply H; [left|right; left]; reflexivity.
Qed.

Section Bound.
  Variable sh : bool.
  Variable ok : Z -> Z -> Z -> Prop.
  Variable lam : list Z.
  Hypothesis Hl : part_b sh lam.
  Variables (n : nat) (mu : list Z) (d : cdict).
  Hypothesis Hm : part_b sh mu.
  Hypothesis Hd : pcount_ok sh (fun b x => ok (fst b) (snd b) x) lam n mu d.

  Lemma pcount_some : forall p, fits n p -> cget d p <> 0 -> exists T, (forall i j, dcell sh lam i j -> dcell sh mu i j) /\ plane_filling (dcell sh) ok (Z.of_nat (length p)) lam mu T /\ is_weight p T.
  Proof.
    intros p [Pp Lp] N0. destruct Hd as [_ H]. specialize (H p (wt p) Pp Lp ltac:(reflexivity)). destruct (counts_nonzero _ _ _ H N0) as (T & F & W). exists T.
    assert (O : okS sh lam mu) by apply F. split; [intros i j; exact (proj2 O (i, j))|]. split; [apply pfill_spec; assumption|]. apply is_weight_wt. assumption.
  Qed.
  Lemma pcount_bound : forall p, fits n p -> cget d p <> 0 -> zsum p <= zsum mu - zsum lam /\
    (zsum p = zsum mu - zsum lam -> exists T, has_weight p T /\ tableau_of (dcell sh) (fun i j => exists x, x < 0 /\ ok i j x) false (length p) mu lam T).
  Proof.
    intros p Fp N0. destruct (pcount_some p Fp N0) as (T & I & F & W). split.
    - destruct sh; [exact (weight_le true ok (length p) lam mu T Hm Hl I F p (le_n _) W)|exact (weight_le false ok (length p) lam mu T Hm Hl I F p (le_n _) W)].
    - intro E. exists T. destruct sh; [exact (weight_eq true ok (length p) lam mu T Hm Hl I F p (le_n _) W E)|exact (weight_eq false ok (length p) lam mu T Hm Hl I F p (le_n _) W E)].
  Qed.
End Bound.

Lemma weaken_primes : forall c (pr pr' : Z -> Z -> Prop) sv n mu nu T, (forall i j, pr i j -> pr' i j) -> tableau_of c pr sv n mu nu T -> tableau_of c pr' sv n mu nu T.
Proof. intros c pr pr' sv n mu nu T H (I & W & D & L & R & Q). split; [assumption|]. split; [assumption|]. split; [assumption|]. split; [assumption|]. split; [|assumption]. intros i j x Hx. destruct (R i j x Hx) as [R1 R2]. split; [assumption|]. intro X. apply H, R2, X. Qed.

Section Plain.
  Variable ord : list (list Z) -> list (list Z).
  Hypothesis ord_perm : forall l, Permutation (ord l) l.

  Lemma kostka_counts : forall n mu p, partition mu -> fits n p -> cardinality (fun T => tableau_of cell (fun _ _ => False) false n mu [] T /\ has_weight p T) (kostka ord false n mu p).
  Proof.
    intros n mu p Pm [Pp Lp]. destruct (pack_plain ord idl idl ord_perm idl_perm idl_perm n mu [] false Pm (strict_is_partition _ strict_nil)) as (r & d & Er & Ed & (Nr & HQ & Lt & Sy) & (Gd & HN)).
    assert (X : kostka ord false n mu p = cget d p) by (unfold kostka, kdict; rewrite Ed; reflexivity). rewrite X, (HN p (conj Pp Lp)).
    refine (counts_ext _ (fun T => In T r /\ has_weight (padz p n) T) _ _ _ _ eq_refl _); [intro T; rewrite has_weight_padz, HQ; reflexivity|].
    apply wcount_cardinality; [assumption|apply padz_length; assumption|]. intros T m HT Hgt. apply (occ_above n); [apply Lt; assumption|assumption].
  Qed.
  Lemma plain_dominance : forall n mu p T, partition mu -> fits n p -> tableau_of cell (fun _ _ => False) false n mu [] T -> has_weight p T -> p = mu \/ lex_ltb p mu = true.
  Proof.
    intros n mu p T Pm Fp HT Hw. pose proof (counts_has _ _ _ T (kostka_counts n mu p Pm Fp) (conj HT Hw)) as K.
    destruct (kostka_dominance ord ord_perm false n mu p Pm (proj1 Fp) (proj2 Fp) ltac:(lia)) as (_ & _ & _ & E & _). specialize (E eq_refl).
    destruct (kostka_lex ord ord_perm false n mu p Pm (proj1 Fp) (proj2 Fp) ltac:(lia)) as [H|[_ H]]; [lia|assumption].
  Qed.
End Plain.

(* ---------- fillings given by a formula ---------- *)
Section Formula.
  Variable sh : bool.
  Variable f : Z -> Z -> Z.
  Variable mu : list Z.
  Hypothesis Hm : part_b sh mu.
  Definition start (k : nat) : Z := if sh then Z.of_nat k + 1 else 1.
  Definition formula : tab :=
    flat_map (fun k => map (fun j => ((Z.of_nat k + 1, j), [f (Z.of_nat k + 1) j])) (zrange (start k) (start k + row mu k))) (seq 0 (length mu)).
  Lemma formula_In : forall i j l, In ((i, j), l) formula <-> dcell sh mu i j /\ l = [f i j].
  Proof.
    intros i j l. unfold formula. rewrite in_flat_map. split.
    - intros (k & Hk & H). apply in_map_iff in H. destruct H as (j' & E & Hj). injection E as <- -> <-. apply In_zrange in Hj. split; [|reflexivity]. unfold dcell, start in *. destruct sh; unfold shifted_cell, cell; replace (Z.to_nat (Z.of_nat k + 1 - 1)) with k by lia; lia.
    - intros [Hc ->]. exists (Z.to_nat (i - 1)). assert (1 <= i /\ row mu (Z.to_nat (i - 1)) <> 0) by (unfold dcell in Hc; destruct sh; unfold shifted_cell, cell in Hc; lia).
      split; [apply in_seq; destruct (le_lt_dec (length mu) (Z.to_nat (i - 1))) as [G|G]; [exfalso; assert (row mu (Z.to_nat (i - 1)) = 0) by (unfold row; apply nth_overflow; assumption); lia|lia]|].
      apply in_map_iff. exists j. replace (Z.of_nat (Z.to_nat (i - 1)) + 1) with i by lia. split; [reflexivity|]. apply In_zrange. unfold dcell, start in *. destruct sh; unfold shifted_cell, cell in Hc; lia.
  Qed.
  Lemma formula_sorted : StronglySorted before (map fst formula).
  Proof.
    unfold formula. generalize (length mu) as m. generalize 0%nat as s. intros s m. revert s. induction m as [|m IH]; intro s; [constructor|]. cbn [seq flat_map]. rewrite map_app. apply StronglySorted_app.
    - rewrite map_map. cbn [fst]. unfold zrange. generalize (start s) as a. intro a. rewrite map_map. generalize (Z.to_nat (a + row mu s - a)) as c. generalize 0%nat as b. intros b c. revert b. induction c as [|c IHc]; intro b; [constructor|]. cbn [seq map]. constructor; [apply IHc|]. apply Forall_forall. intros x Hx. apply in_map_iff in Hx. destruct Hx as (k & <- & Hk). apply in_seq in Hk. right. cbn. lia.
    - apply IH.
    - intros x y Hx Hy. apply in_map_iff in Hx, Hy. destruct Hx as (e & <- & He), Hy as (e' & <- & He'). apply in_map_iff in He. destruct He as (j & <- & _). apply in_flat_map in He'. destruct He' as (k & Hk & He'). apply in_map_iff in He'. destruct He' as (j' & <- & _). apply in_seq in Hk. left. cbn. lia.
  Qed.
  Lemma formula_holds : forall i j x, holds formula i j x <-> dcell sh mu i j /\ x = f i j.
  Proof.
    intros i j x. unfold holds. split; [intros (l & H1 & H2); apply formula_In in H1; destruct H1 as [H1 ->]; destruct H2 as [<-|[]]; split; [assumption|reflexivity]|].
    intros [H ->]. exists [f i j]. split; [apply formula_In; split; [assumption|reflexivity]|left; reflexivity].
  Qed.
  Lemma formula_plane : forall (ok : Z -> Z -> Z -> Prop) n, (forall i j, dcell sh mu i j -> 1 <= Z.abs (f i j) <= n /\ ok i j (f i j)) ->
    (forall i j, dcell sh mu i j -> dcell sh mu i (j + 1) -> letter_le (f i j) (f i (j + 1))) -> (forall i j, dcell sh mu i j -> dcell sh mu (i + 1) j -> letter_le (f i j) (f (i + 1) j)) ->
    plane_filling (dcell sh) ok n [] mu formula.
  Proof.
    intros ok n H1 H2 H3. split; [split; [apply formula_sorted|]|split; [|split; [|split; [|split]]]].
    - intros [i j] l Hl. apply formula_In in Hl. destruct Hl as [Hc ->]. cbn [fst snd]. unfold dcell in Hc. destruct sh; unfold shifted_cell, cell in Hc; (split; [lia|]); (split; [lia|]); repeat constructor.
    - intros i j. split; [intros (l & Hl); apply formula_In in Hl; split; [apply Hl|]; unfold dcell; destruct sh; [unfold shifted_cell; intros (A & B); rewrite row_nil in B; lia|unfold cell; intros (A & B); rewrite row_nil in B; lia]|]. intros [Hc _]. exists [f i j]. apply formula_In. split; [assumption|reflexivity].
    - intros i j l Hl. apply formula_In in Hl. destruct Hl as [_ ->]. reflexivity.
    - intros i j x Hx. apply formula_holds in Hx. destruct Hx as [Hc ->]. apply H1. assumption.
    - intros i j x y Hx Hy. apply formula_holds in Hx, Hy. destruct Hx as [Hc ->], Hy as [Hc' ->]. apply H2; assumption.
    - intros i j x y Hx Hy. apply formula_holds in Hx, Hy. destruct Hx as [Hc ->], Hy as [Hc' ->]. apply H3; assumption.
  Qed.
  Lemma row_of_cell : forall i j, dcell sh mu i j -> 1 <= i <= Z.of_nat (length mu).
  Proof.
    intros i j Hc. assert (1 <= i /\ row mu (Z.to_nat (i - 1)) <> 0) by (unfold dcell in Hc; destruct sh; unfold shifted_cell, cell in Hc; lia).
    destruct (le_lt_dec (length mu) (Z.to_nat (i - 1))) as [G|G]; [exfalso; assert (row mu (Z.to_nat (i - 1)) = 0) by (unfold row; apply nth_overflow; assumption); lia|lia].
  Qed.
End Formula.
Lemma zrange_counts : forall (P : Z -> Prop) a b, a <= b -> (forall x, P x <-> a <= x < b) -> cardinality P (b - a).
Proof.
  intros P a b Hab H. exists (zrange a b). split; [apply NoDup_zrange|]. split; [intro x; rewrite In_zrange, H; reflexivity|]. pose proof (zlen_zrange a b Hab). unfold zlen in *. lia.
Qed.
Lemma none_counts : forall (P : Z -> Prop), (forall x, ~ P x) -> cardinality P 0.
Proof. intros P H. exists []. split; [constructor|]. split; [|reflexivity]. intro x. split; [intros []|]. intro X. destruct (H x X). Qed.
Lemma one_counts : forall (P : Z -> Prop) a, (forall x, P x <-> x = a) -> cardinality P 1.
Proof. intros P a H. exists [a]. split; [repeat constructor; intros []|]. split; [|reflexivity]. intro x. rewrite H. split; [intros [<-|[]]; reflexivity|intros ->; left; reflexivity]. Qed.

(* row i filled with i *)
Lemma rows_filling : forall sh mu (ok : Z -> Z -> Z -> Prop), part_b sh mu -> (forall i j, dcell sh mu i j -> ok i j i) ->
  plane_filling (dcell sh) ok (Z.of_nat (length mu)) [] mu (formula sh (fun i _ => i) mu) /\ is_weight mu (formula sh (fun i _ => i) mu).
Proof.
  intros sh mu ok Hm Hok. split.
  - apply formula_plane; [assumption| | |].
    + intros i j Hc. pose proof (row_of_cell sh mu Hm i j Hc). split; [lia|]. apply Hok. assumption.
    + intros i j Hc _. pose proof (row_of_cell sh mu Hm i j Hc). right. lia.
    + intros i j Hc _. pose proof (row_of_cell sh mu Hm i j Hc). left. lia.
  - intro k. unfold pweight. assert (Pm : partition mu) by (destruct sh; [apply strict_is_partition|]; assumption). pose proof (partition_nonneg mu k Pm) as R0.
    set (T := formula sh (fun i _ => i) mu). pose proof (formula_holds sh (fun i _ => i) mu Hm) as FH. fold T in FH.
    assert (C1 : cardinality (fun j => exists i, holds T i j (Z.of_nat k + 1)) (start sh k + row mu k - start sh k)).
    { apply zrange_counts; [lia|]. intro x. split.
      - intros (i & H). apply FH in H. destruct H as [Hc <-]. unfold dcell, start in *. destruct sh; unfold shifted_cell, cell in Hc; replace (Z.to_nat (Z.of_nat k + 1 - 1)) with k in Hc by lia; lia.
      - intro Hx. exists (Z.of_nat k + 1). apply FH. split; [|reflexivity]. unfold dcell, start in *. destruct sh; unfold shifted_cell, cell; replace (Z.to_nat (Z.of_nat k + 1 - 1)) with k by lia; lia. }
    assert (C2 : cardinality (fun i => exists j, holds T i j (- (Z.of_nat k + 1))) 0).
    { apply none_counts. intros i (j & H). apply FH in H. destruct H as [Hc E]. pose proof (row_of_cell sh mu Hm i j Hc). lia. }
    rewrite (card_unique _ _ _ _ (cols_card (Z.of_nat k + 1) T) C1), (card_unique _ _ _ _ (rows_card (- (Z.of_nat k + 1)) T) C2).
    change (nth k mu 0) with (row mu k). lia.
Qed.
(* the same with the diagonal primed *)
Definition diag_f (i j : Z) : Z := if i =? j then - i else i.
Lemma diag_filling : forall mu, strict_partition mu ->
  plane_filling (dcell true) (fun i j x => i = j -> x < 0) (Z.of_nat (length mu)) [] mu (formula true diag_f mu) /\ is_weight mu (formula true diag_f mu).
Proof.
  intros mu Hm. split.
  - apply formula_plane; [exact Hm| | |]; unfold diag_f.
    + intros i j Hc. pose proof (row_of_cell true mu Hm i j Hc). split; [destruct (i =? j); lia|]. intros ->. rewrite Z.eqb_refl. lia.
    + intros i j Hc _. pose proof (row_of_cell true mu Hm i j Hc). unfold dcell, shifted_cell in Hc. replace (i =? j + 1) with false by (symmetry; apply Z.eqb_neq; lia). right. destruct (i =? j); lia.
    + intros i j Hc _. pose proof (row_of_cell true mu Hm i j Hc). left. destruct (i =? j), (i + 1 =? j); lia.
  - intro k. unfold pweight. pose proof (strict_is_partition mu Hm) as Pm. pose proof (partition_nonneg mu k Pm) as R0. change (nth k mu 0) with (row mu k).
    set (T := formula true diag_f mu). pose proof (formula_holds true diag_f mu Hm) as FH. fold T in FH.
    assert (Rk : Z.to_nat (Z.of_nat k + 1 - 1) = k) by lia.
    destruct (Z.eq_dec (row mu k) 0) as [Z0|Z0].
    + assert (C1 : cardinality (fun j => exists i, holds T i j (Z.of_nat k + 1)) 0).
      { apply none_counts. intros j (i & H). apply FH in H. destruct H as [Hc E]. pose proof (row_of_cell true mu Hm i j Hc). unfold diag_f in E. destruct (i =? j); [lia|]. subst i. unfold dcell, shifted_cell in Hc. rewrite Rk in Hc. lia. }
      assert (C2 : cardinality (fun i => exists j, holds T i j (- (Z.of_nat k + 1))) 0).
      { apply none_counts. intros i (j & H). apply FH in H. destruct H as [Hc E]. pose proof (row_of_cell true mu Hm i j Hc). unfold diag_f in E. destruct (i =? j); [|lia]. replace i with (Z.of_nat k + 1) in Hc by lia. unfold dcell, shifted_cell in Hc. rewrite Rk in Hc. lia. }
      rewrite (card_unique _ _ _ _ (cols_card (Z.of_nat k + 1) T) C1), (card_unique _ _ _ _ (rows_card (- (Z.of_nat k + 1)) T) C2). lia.
    + assert (C1 : cardinality (fun j => exists i, holds T i j (Z.of_nat k + 1)) (Z.of_nat k + 1 + row mu k - (Z.of_nat k + 2))).
      { apply zrange_counts; [lia|]. intro x. split.
        - intros (i & H). apply FH in H. destruct H as [Hc E]. pose proof (row_of_cell true mu Hm i x Hc). unfold diag_f in E. destruct (Z.eqb_spec i x) as [X|X]; [lia|]. subst i. unfold dcell, shifted_cell in Hc. rewrite Rk in Hc. lia.
        - intro Hx. exists (Z.of_nat k + 1). apply FH. unfold dcell, shifted_cell, diag_f. rewrite Rk. replace (Z.of_nat k + 1 =? x) with false by (symmetry; apply Z.eqb_neq; lia). lia. }
      assert (C2 : cardinality (fun i => exists j, holds T i j (- (Z.of_nat k + 1))) 1).
      { apply (one_counts _ (Z.of_nat k + 1)). intro i. split.
        - intros (j & H). apply FH in H. destruct H as [Hc E]. pose proof (row_of_cell true mu Hm i j Hc). unfold diag_f in E. destruct (i =? j); lia.
        - intros ->. exists (Z.of_nat k + 1). apply FH. unfold dcell, shifted_cell, diag_f. rewrite Z.eqb_refl, Rk. lia. }
      rewrite (card_unique _ _ _ _ (cols_card (Z.of_nat k + 1) T) C1), (card_unique _ _ _ _ (rows_card (- (Z.of_nat k + 1)) T) C2). lia.
Qed.
