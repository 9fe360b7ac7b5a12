(* The diagonals of marked reverse plane partitions and the grouping by diagonal *)
From Coq Require Import List ZArith Lia Bool Permutation Arith Sorting.Sorted.
From Verif Require Import PyBase FinSum M_Partitions S_Partitions L_Partitions L_PartBasic L_PartMore L_PartEnum L_Destand L_Destand2 M_Vectors L_Vectors M_Polynomials S_Polynomials L_Polynomials P_Polynomials L_PolySubst
  M_Tableaux S_Tableaux L_Tableaux S_Strips M_RPP S_RPP M_Semistandard S_Semistandard L_Strips2 L_Shape L_Semi L_Semi2 L_Semi3 L_Semi4 L_Semi5 L_Count L_Count2 L_Count3 L_CountCache M_Symmetric S_Symmetric M_Expansion S_Expansion M_Slow M_Families M_Dual
  L_SymPoly L_SymMul L_Growth L_Kostka L_Num L_Expand1 L_Expand2 L_Expand3 L_Expand4 L_Expand5 L_Expand6 L_Expand7 P_Symmetric P_Expansion P_Semistandard P_Count L_Sym1 L_Sym2 L_Sym3 L_Sym4 L_Sym5 L_Sym6 L_Sym8 L_Sym11 L_Slow P_Symmetry L_Insertion6 L_Families L_Families2 P_Families L_ShiftTri L_RPP1 L_RPP2 L_RPP3 L_RPP4 P_RPP L_RPP6 L_Dual L_Dual2 S_Dual L_Dual3 P_Dual M_Refined S_Refined.
Import ListNotations.
Local Open Scope Z_scope.
Local Notation sg := (nget smono_eqb).

(* ---------- the slow path without the check ---------- *)
Lemma slow_by_false : forall weight n (W : list Z -> tab -> Prop) (R : list tab),
  (forall T, In T R -> exists w, weight T n = Ok w /\ length w = n /\ Forall (fun x => 0 <= x) w /\ forall alpha, length alpha = n -> (W alpha T <-> w = alpha)) -> NoDup R ->
  exists f N, slow_vectorize_by weight n R (Some neg_inv_beta_pow) false = Ok f /\ nvwf f /\ (forall m, In m (map fst f) -> fst m = n /\ fits n (snd m)) /\
    (forall p, fits n p -> cardinality (fun T => In T R /\ W (padz p n) T) (N p)) /\
    forall p G, fits n p -> nev (sg f (n, p)) G = alt (zsum p) * N p * G (mvar 0 (- zsum p)).
Proof.
  intros weight n W R HR NR. destruct (slow_by_counts weight n W R HR NR) as (D & E & N & K & C). unfold slow_vectorize_by. rewrite E. cbn [rbind andb].
  assert (SO : forall alpha c, nok (slow_coeff (Some neg_inv_beta_pow) alpha c)) by (intros; apply nok_mul).
  destruct (slow_loop (Some neg_inv_beta_pow) SO n D [] N (fun a Ha => proj1 (K a Ha))) as (r & E1 & E2 & E3 & E4 & E5); [constructor|constructor|intros m []|].
  rewrite E1. cbn [rbind]. exists (vmake nzero r), (fun p => cget D (padz p n)). split; [reflexivity|]. split; [apply vmake_nvwf; assumption|]. split; [|split].
  + intros m Hm. apply E4. apply in_map_iff in Hm. destruct Hm as (x & <- & Hx). apply in_map. apply filter_In in Hx. apply Hx.
  + intros p Fp. apply C, padz_length, Fp.
  + intros p G Fp. rewrite (vmake_get smono_eqb smono_eqb_eq r _ E2 E3), (E5 p Fp), cget_dget.
    destruct (dget zlist_eqb D (padz p n)) as [c|]; [|rewrite nget_nil; cbn [nev]; lia].
    assert (Ez : zsum (padz p n) = zsum p) by apply size_padz. assert (0 <= zsum p) by (apply zsum_pos_nonneg; apply Fp).
    cbn [slow_coeff]. rewrite nev_mul by (try exact I; apply neg_inv_wf). cbn [nev]. rewrite Ez, neg_inv_ev, mmul_nil_l by apply mvar_wf. unfold altn. replace (zsum p <? 0) with false by (symmetry; apply Z.ltb_ge; lia). lia.
Qed.
Lemma scaled_counts : forall n k f N, nvwf f -> (forall m, In m (map fst f) -> fst m = n /\ fits n (snd m)) ->
  (forall p G, fits n p -> nev (sg f (n, p)) G = alt (zsum p) * N p * G (mvar 0 (- zsum p))) ->
  (forall p, fits n p -> N p <> 0 -> zsum p <= k) -> dual_counts n k N (nvscale smono_eqb f (NP (neg_beta_pow k))).
Proof.
  intros n k f N Wf Kf Hf B. assert (Oc : nok (NP (neg_beta_pow k))) by apply neg_beta_wf.
  destruct (nvscale_ok smono_eqb smono_eqb_eq f _ Wf Oc) as [W2 H2]. split; [exact W2|]. split; [apply scaled_keys; assumption|]. split; [apply np_scale|].
  intros p G Fp. rewrite H2, (Hf p _ Fp). cbn [nev]. rewrite neg_beta_ev, mvar_mul. replace (- zsum p + k) with (k - zsum p) by lia. rewrite alt_sub.
  destruct (Z.eq_dec (N p) 0) as [Z0|Z0]; [rewrite Z0; lia|]. specialize (B p Fp Z0). assert (0 <= zsum p) by (apply zsum_pos_nonneg; apply Fp).
  unfold altn. replace (k <? 0) with false by (symmetry; apply Z.ltb_ge; lia). lia.
Qed.

(* ---------- the diagonal ---------- *)
Lemma lookup_wf : forall (T : tab) c l, well_formed T -> In (c, l) T -> tlookup T c = Some l.
Proof.
  intros T c l [S _] H. apply sorted_NoDup in S. induction T as [|[d w] T IH]; [destruct H|]. cbn [map fst] in S. inversion S as [|? ? S1 S2]; subst. cbn [tlookup]. destruct H as [E|H].
  - injection E as -> ->. replace (box_eqb c c) with true by (symmetry; apply box_eqb_eq; reflexivity). reflexivity.
  - destruct (box_eqb d c) eqn:E; [|apply IH; assumption]. apply box_eqb_eq in E. subst d. exfalso. apply S1. apply (in_map fst) in H. exact H.
Qed.
Lemma holds_one : forall (T : tab) i j x, well_formed T -> (forall i j l, In ((i, j), l) T -> length l = 1%nat) -> (holds T i j x <-> tlookup T (i, j) = Some [x]).
Proof.
  intros T i j x Wt H1. split.
  - intros (l & Hl & Hx). pose proof (H1 _ _ _ Hl) as L. destruct l as [|y [|? ?]]; try discriminate. destruct Hx as [->|[]]. apply lookup_wf; assumption.
  - intro E. apply tlookup_In in E. exists [x]. split; [exact E|left; reflexivity].
Qed.
Definition dg (i : nat) : Z * Z := (Z.of_nat i + 1, Z.of_nat i + 1).
Lemma dg_NoDup : forall k s, NoDup (map dg (seq s k)).
Proof.
  induction k as [|k IH]; intro s; [constructor|]. cbn [seq map]. constructor; [|apply IH]. intro H. apply in_map_iff in H. destruct H as (x & E & Hx). apply in_seq in Hx. apply (f_equal fst) in E. cbn [dg fst] in E. lia.
Qed.
Lemma diag_loop_spec : forall (T : tab), well_formed T -> (forall i j l, In ((i, j), l) T -> length l = 1%nat) ->
  forall fuel i, (forall m, (m < i)%nat -> In (dg m) (map fst T)) -> (fuel + i = length T)%nat ->
  exists key, diag_loop fuel T (Z.of_nat i + 1) = Ok key /\
    (forall m, (m < length key)%nat -> exists x, holds T (Z.of_nat (i + m) + 1) (Z.of_nat (i + m) + 1) x /\ Z.abs x = nth m key 0) /\
    (forall x, ~ holds T (Z.of_nat (i + length key) + 1) (Z.of_nat (i + length key) + 1) x).
Proof.
  intros T Wt H1. induction fuel as [|fuel IH]; intros i Hi Hf.
  - cbn [diag_loop]. destruct (tlookup T (Z.of_nat i + 1, Z.of_nat i + 1)) as [l|] eqn:E.
    + exfalso. apply tlookup_In in E. assert (X : (length (map dg (seq 0 (S i))) <= length (map fst T))%nat).
      { apply NoDup_incl_length; [apply dg_NoDup|]. intros c Hc. apply in_map_iff in Hc. destruct Hc as (m & <- & Hm). apply in_seq in Hm. destruct (Nat.eq_dec m i) as [->|Ne]; [apply (in_map fst) in E; exact E|apply Hi; lia]. }
      rewrite !map_length, seq_length in X. lia.
    + exists []. split; [reflexivity|]. split; [intros m Hm; cbn [length] in Hm; lia|]. cbn [length]. rewrite Nat.add_0_r. intros x Hx. apply holds_one in Hx; [congruence|assumption|assumption].
  - cbn [diag_loop]. destruct (tlookup T (Z.of_nat i + 1, Z.of_nat i + 1)) as [l|] eqn:E.
    + pose proof (tlookup_In _ _ _ E) as I. pose proof (H1 _ _ _ I) as L. destruct l as [|x [|? ?]]; try discriminate.
      destruct (IH (S i)) as (key & Ek & K1 & K2).
      * intros m Hm. destruct (Nat.eq_dec m i) as [->|Ne]; [apply (in_map fst) in I; exact I|apply Hi; lia].
      * lia.
      * replace (Z.of_nat i + 1 + 1) with (Z.of_nat (S i) + 1) by lia. rewrite Ek. cbn [rbind]. exists (Z.abs x :: key). split; [reflexivity|]. split.
        -- intros [|m] Hm; [exists x; rewrite Nat.add_0_r; split; [apply holds_one; assumption|reflexivity]|]. cbn [length] in Hm. destruct (K1 m) as (y & Y1 & Y2); [lia|]. exists y. rewrite Nat.add_succ_r. split; assumption.
        -- cbn [length]. rewrite Nat.add_succ_r. exact K2.
    + exists []. split; [reflexivity|]. split; [intros m Hm; cbn [length] in Hm; lia|]. cbn [length]. rewrite Nat.add_0_r. intros x Hx. apply holds_one in Hx; [congruence|assumption|assumption].
Qed.
Lemma diag_vector_spec : forall (T : tab), well_formed T -> (forall i j l, In ((i, j), l) T -> length l = 1%nat) -> exists key, diag_vector T = Ok key /\ diagonal_is T key.
Proof.
  intros T Wt H1. destruct (diag_loop_spec T Wt H1 (length T) 0) as (key & E & K1 & K2); [intros m Hm; lia|lia|]. exists key. split; [exact E|split; [exact K1|exact K2]].
Qed.
Lemma diagonal_unique : forall (T : tab) a b, well_formed T -> (forall i j l, In ((i, j), l) T -> length l = 1%nat) -> diagonal_is T a -> diagonal_is T b -> a = b.
Proof.
  intros T a b Wt H1 [A1 A2] [B1 B2]. assert (L : length a = length b).
  { destruct (Nat.lt_trichotomy (length a) (length b)) as [X|[X|X]]; [|exact X|]; exfalso; [destruct (B1 _ X) as (x & Hx & _); exact (A2 x Hx)|destruct (A1 _ X) as (x & Hx & _); exact (B2 x Hx)]. }
  apply (nth_ext a b 0 0); [exact L|]. intros m Hm. destruct (A1 m Hm) as (x & X1 & X2). destruct (B1 m ltac:(lia)) as (y & Y1 & Y2).
  apply holds_one in X1; [|assumption|assumption]. apply holds_one in Y1; [|assumption|assumption]. rewrite X1 in Y1. injection Y1 as <-. congruence.
Qed.

(* ---------- grouping ---------- *)
Definition dkey (T : tab) : list Z := match diag_vector T with Ok k => k | Err _ => [] end.
Definition gl (d : list (list Z * list tab)) (k : list Z) : list tab := match dget zlist_eqb d k with Some l => l | None => [] end.
Lemma group_spec : forall ts d, (forall T, In T ts -> exists k, diag_vector T = Ok k) -> NoDup (map fst d) ->
  exists D, rfold (fun d t => do v <- diag_vector t; Ok (dset zlist_eqb d v ((match dget zlist_eqb d v with Some l => l | None => [] end) ++ [t]))) ts d = Ok D /\
    NoDup (map fst D) /\ forall k, gl D k = gl d k ++ filter (fun t => zlist_eqb (dkey t) k) ts.
Proof.
  induction ts as [|t ts IH]; intros d H N; [exists d; split; [reflexivity|]; split; [assumption|]; intro k; cbn [filter]; rewrite app_nil_r; reflexivity|].
  cbn [rfold]. destruct (H t (or_introl eq_refl)) as [v Ev]. rewrite Ev. cbn [rbind].
  destruct (IH (dset zlist_eqb d v ((match dget zlist_eqb d v with Some l => l | None => [] end) ++ [t]))) as (D & E & ND & G); [intros T HT; apply H; right; assumption|apply (dset_NoDup zlist_eqb zlist_eqb_eq); assumption|].
  exists D. split; [exact E|]. split; [exact ND|]. intro k. rewrite G. cbn [filter]. assert (Ed : dkey t = v) by (unfold dkey; rewrite Ev; reflexivity). rewrite Ed. unfold gl. destruct (zlist_eqb v k) eqn:Ek.
  - apply zlist_eqb_eq in Ek. subst k. rewrite (dget_dset_same zlist_eqb zlist_eqb_eq). rewrite <- app_assoc. reflexivity.
  - rewrite (dget_dset_other zlist_eqb zlist_eqb_eq); [reflexivity|]. intros ->. rewrite zlist_eqb_refl in Ek. discriminate.
Qed.
Lemma dget_truthy : forall (m : list (list Z * nsym)) k, NoDup (map fst m) ->
  match dget zlist_eqb (filter (fun kv => negb (nsym_falsy (snd kv))) m) k with Some f => f | None => [] end = match dget zlist_eqb m k with Some f => f | None => [] end.
Proof.
  induction m as [|[a f] m IH]; intros k N; [reflexivity|]. cbn [map fst] in N. inversion N as [|? ? N1 N2]; subst. cbn [filter snd]. destruct f as [|x f]; cbn [nsym_falsy negb dget].
  - rewrite IH by assumption. destruct (zlist_eqb a k) eqn:E; [|reflexivity]. apply zlist_eqb_eq in E. subst a. destruct (dget zlist_eqb m k) as [g|] eqn:X; [|reflexivity]. exfalso. apply N1. apply (dget_In zlist_eqb zlist_eqb_eq) in X. apply (in_map fst) in X. exact X.
  - destruct (zlist_eqb a k); [reflexivity|apply IH; assumption].
Qed.
