(* The dual families: coefficients, and the weight of a reverse plane partition against its size *)
From Coq Require Import List ZArith Lia Bool Permutation Arith.
From Verif Require Import PyBase FinSum M_Partitions S_Partitions L_Partitions L_PartBasic L_PartEnum L_Destand L_Destand2 M_Vectors L_Vectors M_Polynomials S_Polynomials L_Polynomials P_Polynomials L_PolySubst
  M_Tableaux S_Tableaux L_Tableaux S_Strips M_RPP S_RPP M_Semistandard S_Semistandard L_Strips2 L_Shape L_Semi L_Semi3 L_Semi4 L_Semi5 L_Count L_Count2 L_Count3 L_CountCache M_Symmetric S_Symmetric M_Expansion S_Expansion M_Slow M_Families M_Dual
  L_SymPoly L_SymMul L_Growth L_Kostka L_Num L_Expand1 L_Expand2 L_Expand3 L_Expand4 L_Expand5 L_Expand6 P_Symmetric P_Expansion P_Semistandard P_Count L_Sym1 L_Sym2 L_Sym3 L_Sym4 L_Sym5 L_Sym6 L_Sym11 L_Slow P_Symmetry L_Insertion6 L_Families L_Families2 L_RPP1 L_RPP2 L_RPP3 L_RPP4 P_RPP L_RPP6.
Import ListNotations.
Local Open Scope Z_scope.
Local Notation sg := (nget smono_eqb).

(* ---------- powers of -beta ---------- *)
Definition alt (k : Z) : Z := if Z.even k then 1 else -1.
Definition altn (k : Z) : Z := if k <? 0 then -1 else alt k.
Lemma alt_nat : forall n, (if Nat.even n then 1 else -1) = alt (Z.of_nat n).
Proof. intro n. unfold alt. replace (Z.even (Z.of_nat n)) with (Nat.even n); [reflexivity|]. induction n as [|n IH]; [reflexivity|]. rewrite Nat2Z.inj_succ, Z.even_succ, <- Z.negb_even, Nat.even_succ, <- Nat.negb_even, IH. reflexivity. Qed.
Lemma alt_add : forall a b, alt (a + b) = alt a * alt b.
Proof. intros. unfold alt. rewrite Z.even_add. destruct (Z.even a), (Z.even b); reflexivity. Qed.
Lemma alt_opp : forall a, alt (- a) = alt a.
Proof. intro a. unfold alt. rewrite Z.even_opp. reflexivity. Qed.
Lemma alt_sub : forall a b, alt (a - b) = alt a * alt b.
Proof. intros. unfold Z.sub. rewrite alt_add, alt_opp. reflexivity. Qed.
Lemma alt_sq : forall a, alt a * alt a = 1.
Proof. intro a. unfold alt. destruct (Z.even a); reflexivity. Qed.

Lemma neg_power : forall (b : mono) (e : Z), mwf b -> (forall t, mget b t = if 0 =? t then e else 0) -> forall k,
  exists c, ppow [(b, -1)] k = Some [(c, altn k)] /\ c = mvar 0 (e * k).
Proof.
  intros b e Wb Hb k. unfold ppow. destruct (Z.eqb_spec k 0) as [->|N0].
  - exists []. split; [reflexivity|]. rewrite Z.mul_0_r. reflexivity.
  - destruct (Z.ltb_spec k 0) as [L|L].
    + eexists. split; [unfold altn; replace (k <? 0) with true by (symmetry; apply Z.ltb_lt; lia); reflexivity|].
      assert (Eb : b = mvar 0 e) by (apply mwf_ext; [assumption|apply mvar_wf|]; intro t; rewrite Hb, mget_mvar; reflexivity).
      rewrite Eb. unfold mvar. destruct (Z.eqb_spec e 0) as [->|Ne]; [reflexivity|]. replace (e * k =? 0) with false by (symmetry; apply Z.eqb_neq; nia). reflexivity.
    + destruct (ppow_nat_single_neg b (Z.to_nat k) Wb) as (c & Wc & Ec & Hc). exists c. split.
      * rewrite Ec, alt_nat, Z2Nat.id by lia. unfold altn. replace (k <? 0) with false by (symmetry; apply Z.ltb_ge; lia). reflexivity.
      * apply mwf_ext; [assumption|apply mvar_wf|]. intro t. rewrite Hc, Hb, mget_mvar, Z2Nat.id by lia. destruct (0 =? t); lia.
Qed.
Lemma altn_nz : forall k, altn k <> 0.
Proof. intro k. unfold altn, alt. destruct (k <? 0), (Z.even k); lia. Qed.
Lemma single_wf : forall e c, c <> 0 -> pwf [(mvar 0 e, c)].
Proof. intros e c H. split; [repeat constructor; intros []|]. split; [constructor; [apply mvar_wf|constructor]|constructor; [exact H|constructor]]. Qed.
Lemma neg_beta_pow_eq : forall k, neg_beta_pow k = [(mvar 0 k, altn k)].
Proof.
  intro k. destruct (neg_power [(0, 1)] 1) with (k := k) as (c & E & Ec); [repeat constructor; cbn; intuition lia|intro t; change (mget [(0, 1)] t) with (mget (mvar 0 1) t); apply mget_mvar|].
  unfold neg_beta_pow. match type of E with ?l = _ => change (ppow (pneg beta) k) with l end. rewrite E, Ec, Z.mul_1_l. reflexivity.
Qed.
Lemma neg_inv_eq : forall k, neg_inv_beta_pow k = [(mvar 0 (- k), altn k)].
Proof.
  intro k. destruct (neg_power [(0, -1)] (-1)) with (k := k) as (c & E & Ec); [repeat constructor; cbn; intuition lia|intro t; change (mget [(0, -1)] t) with (mget (mvar 0 (-1)) t); apply mget_mvar|].
  unfold neg_inv_beta_pow. match type of E with ?l = _ => change (ppow (pneg (beta_pow (-1))) k) with l end. rewrite E, Ec. replace (-1 * k) with (- k) by lia. reflexivity.
Qed.
Lemma neg_beta_wf : forall k, pwf (neg_beta_pow k).
Proof. intro k. rewrite neg_beta_pow_eq. apply single_wf, altn_nz. Qed.
Lemma neg_inv_wf : forall k, pwf (neg_inv_beta_pow k).
Proof. intro k. rewrite neg_inv_eq. apply single_wf, altn_nz. Qed.
Lemma neg_beta_ev : forall k G, ev (neg_beta_pow k) G = altn k * G (mvar 0 k).
Proof. intros k G. rewrite neg_beta_pow_eq, ev_cons. change (ev [] G) with 0. lia. Qed.
Lemma neg_inv_ev : forall k G, ev (neg_inv_beta_pow k) G = altn k * G (mvar 0 (- k)).
Proof. intros k G. rewrite neg_inv_eq, ev_cons. change (ev [] G) with 0. lia. Qed.

(* ---------- the coefficients ---------- *)
Definition dual_counts (n : nat) (k : Z) (N : list Z -> Z) (g : nsym) : Prop :=
  nvwf g /\ (forall m, In m (map fst g) -> fst m = n /\ fits n (snd m)) /\ Forall (fun kx => exists v, snd kx = NP v) g /\
  forall p G, fits n p -> nev (sg g (n, p)) G = alt (k - zsum p) * N p * G (mvar 0 (k - zsum p)).

Lemma scaled_keys : forall n f c, nvwf f -> nok c -> (forall m, In m (map fst f) -> fst m = n /\ fits n (snd m)) ->
  forall m, In m (map fst (nvscale smono_eqb f c)) -> fst m = n /\ fits n (snd m).
Proof.
  intros n f c Wf Oc Kf m Hin. destruct (nvscale_ok smono_eqb smono_eqb_eq f c Wf Oc) as [W2 H2].
  destruct (in_dec (keq_dec smono_eqb smono_eqb_eq) m (map fst f)) as [I|I]; [apply Kf; assumption|]. exfalso.
  pose proof (proj1 (nget_nonzero smono_eqb smono_eqb_eq _ m W2) Hin) as Z0. assert (Z1 : nzero (sg (nvscale smono_eqb f c) m) = true); [|congruence].
  apply nzero_spec; [apply nget_ok, nvwf_oks; assumption|]. intro G. rewrite H2, (nget_notin smono_eqb smono_eqb_eq f) by assumption. cbn [nev]. lia.
Qed.

Lemma dual_of_dict : forall n mu nu d, good n d -> (forall p, fits n p -> cget d p <> 0 -> zsum p <= zsum mu - zsum nu) ->
  exists g, dual_vectorize n d mu nu = Ok g /\ dual_counts n (zsum mu - zsum nu) (cget d) g.
Proof.
  intros n mu nu d Gd Hk. set (k := zsum mu - zsum nu) in *. pose proof (good_short _ _ Gd) as Sd.
  destruct (nv_loop neg_inv_beta_pow altn (fun k => - k) neg_inv_wf neg_inv_ev n d [] Sd) as (r & E1 & E2 & E3 & E4 & E5); [constructor|constructor|].
  assert (W1 : nvwf (vmake nzero r)) by (apply vmake_nvwf; assumption).
  assert (Oc : nok (NP (neg_beta_pow k))) by apply neg_beta_wf.
  destruct (nvscale_ok smono_eqb smono_eqb_eq (vmake nzero r) _ W1 Oc) as [W2 H2].
  assert (V : nvectorize n d neg_inv_beta_pow None = Ok (vmake nzero r)).
  { unfold nvectorize. match goal with |- rbind ?x _ = _ => assert (E1' : x = Ok r) by exact E1 end. rewrite E1'. reflexivity. }
  assert (K1 : forall m, In m (map fst (vmake nzero r)) -> fst m = n /\ fits n (snd m)).
  { intros m Hm. assert (I : In m (map fst r)) by (apply in_map_iff in Hm; destruct Hm as (x & <- & Hx); apply in_map; apply filter_In in Hx; apply Hx).
    destruct Gd as [Nd Hd]. destruct (E4 m I) as [[]|(p & P1 & ->)]. cbn [fst snd]. split; [reflexivity|]. apply in_map_iff in P1. destruct P1 as ([q c] & <- & Q). cbn [fst]. destruct (Hd q c Q) as (Pq & Lq & _). rewrite psort_partition by assumption. split; assumption. }
  exists (nvscale smono_eqb (vmake nzero r) (NP (neg_beta_pow k))). split; [unfold dual_vectorize; rewrite V; reflexivity|].
  split; [assumption|]. split; [apply scaled_keys; assumption|]. split; [apply np_scale|].
  intros p G Fp. rewrite H2, (vmake_get smono_eqb smono_eqb_eq r _ E2 E3), E5, nget_nil. cbn [nev]. etransitivity; [apply Z.add_0_l|].
  transitivity (lin 0 Z.add Z.mul d (fun q => (altn (zsum p) * altn k * G (mvar 0 (k - zsum p))) * ind (smono_eqb (n, psort q true) (n, p)))).
  - destruct Gd as [Nd Hd]. apply (lin_F_ext 0 Z.add Z.mul). intros q Hq. destruct (smono_eqb (n, psort q true) (n, p)) eqn:Em; cbn [ind]; [|lia]. apply smono_eqb_eq in Em. apply (f_equal snd) in Em. cbn [snd] in Em.
    apply in_map_iff in Hq. destruct Hq as ([q' c] & <- & Q). cbn [fst] in *. destruct (Hd q' c Q) as (Pq & _ & _). rewrite psort_partition in Em by assumption. subst q'.
    rewrite neg_beta_ev, mvar_mul. replace (- zsum p + k) with (k - zsum p) by lia. lia.
  - rewrite (lin_F_scale 0 1 Z.add Z.mul Z.sub Z.opp InitialRing.Zth). rewrite lin_psort by exact Gd.
    destruct (Z.eq_dec (cget d p) 0) as [Z0|Z0]; [rewrite Z0; lia|]. specialize (Hk p Fp Z0). assert (0 <= zsum p) by (apply zsum_pos_nonneg; apply Fp).
    unfold altn. replace (zsum p <? 0) with false by (symmetry; apply Z.ltb_ge; lia). replace (k <? 0) with false by (symmetry; apply Z.ltb_ge; lia). rewrite alt_sub. lia.
Qed.

(* ---------- entries of a filling with one entry per cell ---------- *)
Section Filling.
  Variable c : list Z -> Z -> Z -> Prop.
  Variable ok : Z -> Z -> Z -> Prop.
  Variables (n : nat) (lam mu : list Z) (T : list ((Z * Z) * list Z)).
  Hypothesis HT : plane_filling c ok (Z.of_nat n) lam mu T.

  Lemma filling_single : forall b l, In (b, l) T -> exists x, l = [x].
  Proof. destruct HT as (_ & _ & L & _). intros [i j] l H. specialize (L i j l H). destruct l as [|x [|y l]]; try discriminate. exists x. reflexivity. Qed.
  Lemma filling_cells : map fst (tentries T) = map fst T.
  Proof.
    unfold tentries. pose proof filling_single as S. clear HT. induction T as [|[b l] t IH]; [reflexivity|]. cbn [flat_map map fst snd]. rewrite map_app, IH by (intros b' l' H; apply (S b' l'); right; exact H).
    destruct (S b l (or_introl eq_refl)) as (x & ->). reflexivity.
  Qed.
  Lemma filling_letters : map snd (tentries T) = flat_map snd T.
  Proof.
    unfold tentries. clear HT. induction T as [|[b l] t IH]; [reflexivity|]. cbn [flat_map map fst snd]. rewrite map_app, IH. f_equal. rewrite map_map. cbn [snd]. apply map_id.
  Qed.
  Lemma filling_NoDup : NoDup (map fst (tentries T)).
  Proof. rewrite filling_cells. destruct HT as ((S & _) & _). exact (sorted_NoDup _ S). Qed.
  Lemma cellsof_NoDup : forall x, NoDup (cellsof x T).
  Proof.
    intro x. unfold cellsof. generalize filling_NoDup. generalize (tentries T). intro l. induction l as [|e l IH]; intro N; [constructor|]. cbn [map] in N. inversion N as [|? ? N1 N2]; subst. cbn [filter]. destruct (snd e =? x); [|apply IH; assumption].
    cbn [map]. constructor; [|apply IH; assumption]. intro I. apply N1. apply in_map_iff in I. destruct I as (y & <- & Hy). apply in_map. apply filter_In in Hy. apply Hy.
  Qed.
  Lemma cell_letter : forall b x y, In b (cellsof x T) -> In b (cellsof y T) -> x = y.
  Proof.
    intros b x y Hx Hy. unfold cellsof in *. apply in_map_iff in Hx, Hy. destruct Hx as ([b1 x1] & E1 & H1), Hy as ([b2 y1] & E2 & H2). cbn [fst] in *. subst b1 b2. apply filter_In in H1, H2. destruct H1 as [H1 X1], H2 as [H2 X2]. cbn [snd] in *. apply Z.eqb_eq in X1, X2. subst x1 y1.
    pose proof filling_NoDup as N. revert H1 H2 N. generalize (tentries T). induction l as [|e l IH]; intros H1 H2 N; [destruct H1|]. cbn [map] in N. inversion N as [|? ? N1 N2]; subst. destruct H1 as [->|H1], H2 as [E|H2].
    - congruence.
    - exfalso. apply N1. exact (in_map fst _ _ H2).
    - subst e. exfalso. apply N1. exact (in_map fst _ _ H1).
    - apply IH; assumption.
  Qed.
  Lemma occ_cells : forall m, 1 <= m -> occurrences m T = zlen (cellsof m T) + zlen (cellsof (- m) T).
  Proof.
    intros m Hm. unfold occurrences. rewrite <- filling_letters. unfold cellsof. unfold zlen. rewrite !map_length. induction (tentries T) as [|e l IH]; [reflexivity|]. cbn [map filter].
    destruct (Z.eqb_spec (Z.abs (snd e)) m), (Z.eqb_spec (snd e) m), (Z.eqb_spec (snd e) (- m)); cbn [length]; try lia.
  Qed.
End Filling.

Lemma distinct_length : forall (f : box -> Z) l, distinct (map f l) <= zlen l.
Proof. intros f l. unfold distinct, zlen. rewrite <- (map_length f l). pose proof (NoDup_incl_length (NoDup_nodup Z.eq_dec (map f l)) (l' := map f l) (fun x Hx => proj1 (nodup_In Z.eq_dec (map f l) x) Hx)). lia. Qed.
Lemma distinct_cons : forall a l, distinct (a :: l) = (if in_dec Z.eq_dec a l then 0 else 1) + distinct l.
Proof. intros a l. unfold distinct, zlen. cbn [nodup]. destruct (in_dec Z.eq_dec a l); cbn [length]; lia. Qed.
Lemma distinct_inj : forall (f : box -> Z) l, NoDup l -> distinct (map f l) = zlen l -> forall b b', In b l -> In b' l -> f b = f b' -> b = b'.
Proof.
  intros f l. induction l as [|a l IH]; intros N E b b' Hb Hb' Ef; [destruct Hb|]. inversion N as [|? ? N1 N2]; subst. cbn [map] in E. rewrite distinct_cons in E. pose proof (distinct_length f l) as L. assert (zlen (a :: l) = 1 + zlen l) by (unfold zlen; cbn [length]; lia).
  destruct (in_dec Z.eq_dec (f a) (map f l)) as [I|I]; [lia|]. destruct Hb as [<-|Hb], Hb' as [<-|Hb']; [reflexivity| | |].
  - exfalso. apply I. rewrite Ef. apply in_map. assumption.
  - exfalso. apply I. rewrite <- Ef. apply in_map. assumption.
  - apply IH; try assumption. lia.
Qed.

(* the weight of a reverse plane partition is at most its size; if they are equal, it is semistandard *)
Definition is_weight (alpha : list Z) (T : tab) : Prop := forall k : nat, pweight (Z.of_nat k + 1) T = nth k alpha 0.
Lemma is_weight_wt : forall alpha T, is_weight alpha T <-> forall m, 1 <= m -> pweight m T = wt alpha m.
Proof.
  intros alpha T. unfold is_weight. split.
  - intros H m Hm. specialize (H (Z.to_nat (m - 1))). rewrite <- wt_nth in H. replace (Z.of_nat (Z.to_nat (m - 1)) + 1) with m in H by lia. exact H.
  - intros H k. rewrite <- wt_nth. apply H. lia.
Qed.
Lemma psum_le_eq : forall (f g : nat -> Z) n, (forall k, f k <= g k) -> psum g n <= psum f n -> forall k, (k < n)%nat -> f k = g k.
Proof.
  intros f g n H. induction n as [|n IH]; intros E k Hk; [lia|]. cbn [psum] in E. assert (psum f n <= psum g n) by (apply psum_mono; assumption). pose proof (H n).
  destruct (Nat.eq_dec k n) as [->|Nk]; [lia|]. apply IH; lia.
Qed.

Section Size.
  Variable sh : bool.
  Variable ok : Z -> Z -> Z -> Prop.
  Variables (n : nat) (lam mu : list Z) (T : list ((Z * Z) * list Z)).
  Hypothesis Hm : if sh then strict_partition mu else partition mu.
  Hypothesis Hl : if sh then strict_partition lam else partition lam.
  Hypothesis Hi : forall i j, (if sh then shifted_cell else cell) lam i j -> (if sh then shifted_cell else cell) mu i j.
  Hypothesis HT : plane_filling (if sh then shifted_cell else cell) ok (Z.of_nat n) lam mu T.

  Lemma letters_in : forall x, In x (flat_map snd T) -> 1 <= Z.abs x <= Z.of_nat n.
  Proof. destruct HT as (_ & _ & _ & R & _). intros x Hx. apply in_flat_map in Hx. destruct Hx as ([[i j] l] & H1 & H2). apply (R i j x). exists l. split; assumption. Qed.
  Lemma entries_size : psum (fun k => occurrences (Z.of_nat k + 1) T) n = size mu - size lam.
  Proof.
    rewrite <- (cells_size sh mu lam (map fst T) Hm Hl Hi).
    - pose proof (total_occ n (flat_map snd T) letters_in) as E. rewrite <- (filling_letters T) in E. unfold zlen in *. rewrite map_length in E. rewrite <- (filling_cells _ _ _ _ _ _ HT), map_length, E. apply psum_ext. intros k _. unfold occurrences. rewrite <- (filling_letters T). reflexivity.
    - destruct HT as ((S & _) & _). exact (sorted_NoDup _ S).
    - destruct HT as (_ & D & _). intros a b. rewrite in_map_iff. rewrite <- (D a b). split.
      + intros ([b0 l] & E1 & E2). cbn [fst] in E1. subst b0. exists l. assumption.
      + intros (l & X). exists ((a, b), l). split; [reflexivity|assumption].
  Qed.
  Lemma pweight_occ : forall k, pweight (Z.of_nat k + 1) T <= occurrences (Z.of_nat k + 1) T.
  Proof.
    intro k. rewrite (occ_cells T) by lia. exact (Z.add_le_mono _ _ _ _ (distinct_length snd (cellsof (Z.of_nat k + 1) T)) (distinct_length fst (cellsof (- (Z.of_nat k + 1)) T))).
  Qed.
  Lemma weight_sum : forall alpha, (length alpha <= n)%nat -> is_weight alpha T -> zsum alpha = psum (fun k => pweight (Z.of_nat k + 1) T) n.
  Proof. intros alpha La W. rewrite (psum_ext _ (row alpha)) by (intros k _; apply W). exact (size_psum alpha n La). Qed.
  Lemma weight_le : forall alpha, (length alpha <= n)%nat -> is_weight alpha T -> zsum alpha <= size mu - size lam.
  Proof. intros alpha La W. rewrite (weight_sum alpha La W), <- entries_size. apply psum_mono. apply pweight_occ. Qed.
  Lemma weight_eq : forall alpha, (length alpha <= n)%nat -> is_weight alpha T -> zsum alpha = size mu - size lam ->
    has_weight alpha T /\ tableau_of (if sh then shifted_cell else cell) (fun i j => exists x, x < 0 /\ ok i j x) false n mu lam T.
  Proof.
    intros alpha La W E. pose proof (weight_sum alpha La W) as S. rewrite E, <- entries_size in S.
    assert (Eq : forall k, pweight (Z.of_nat k + 1) T = occurrences (Z.of_nat k + 1) T).
    { intro k. destruct (Nat.lt_ge_cases k n) as [L|L]; [exact (psum_le_eq (fun k => pweight (Z.of_nat k + 1) T) (fun k => occurrences (Z.of_nat k + 1) T) n pweight_occ ltac:(lia) k L)|].
      assert (occurrences (Z.of_nat k + 1) T = 0) by (apply (occ_above n); [apply letters_in|lia]). pose proof (pweight_occ k). pose proof (W k). assert (0 <= pweight (Z.of_nat k + 1) T) by exact (Z.add_nonneg_nonneg _ _ (distinct_nonneg (map snd (cellsof (Z.of_nat k + 1) T))) (distinct_nonneg (map fst (cellsof (- (Z.of_nat k + 1)) T)))). lia. }
    assert (Inj : forall m, 1 <= m -> (forall b b', Hd T b m -> Hd T b' m -> snd b = snd b' -> b = b') /\ (forall b b', Hd T b (- m) -> Hd T b' (- m) -> fst b = fst b' -> b = b')).
    { intros m Hm1. specialize (Eq (Z.to_nat (m - 1))). replace (Z.of_nat (Z.to_nat (m - 1)) + 1) with m in Eq by lia. rewrite (occ_cells T) in Eq by assumption. 
      assert (L1 : colsof m T <= zlen (cellsof m T)) by exact (distinct_length snd (cellsof m T)). assert (L2 : rowsof (- m) T <= zlen (cellsof (- m) T)) by exact (distinct_length fst (cellsof (- m) T)). unfold pweight in Eq.
      assert (E1 : colsof m T = zlen (cellsof m T)) by lia. assert (E2 : rowsof (- m) T = zlen (cellsof (- m) T)) by lia. split; intros b b' H1 H2.
      - apply (distinct_inj snd (cellsof m T)); [exact (cellsof_NoDup _ _ _ _ _ _ HT m)|exact E1|apply cellsof_In; assumption|apply cellsof_In; assumption].
      - apply (distinct_inj fst (cellsof (- m) T)); [exact (cellsof_NoDup _ _ _ _ _ _ HT (- m))|exact E2|apply cellsof_In; assumption|apply cellsof_In; assumption]. }
    split; [intro k; rewrite <- Eq; apply W|]. split; [exact Hi|]. destruct HT as (Wf & D & L & R & Ro & Co).
    split; [assumption|]. split; [assumption|]. split; [|split; [|split]].
    - intros i j l Hin. specialize (L i j l Hin). destruct l as [|x [|y l]]; try discriminate. split; [discriminate|]. split; [repeat constructor; intros []|reflexivity].
    - intros i j x Hx. destruct (R i j x Hx) as [R1 R2]. split; [assumption|]. intro Nx. exists x. split; assumption.
    - intros i j x y Hx Hy. pose proof (Ro i j x y Hx Hy) as Le. destruct (R i j x Hx) as [Rx _]. destruct (R _ _ y Hy) as [Ry _]. unfold row_ok. destruct Le as [Le|[Ea Le]]; [left; assumption|]. right. split; [assumption|]. destruct (Z.lt_trichotomy y 0) as [N0|[N0|N0]]; [|lia|assumption]. exfalso.
      assert (x = y) by lia. subst y. destruct (Inj (- x) ltac:(lia)) as [_ I2]. replace (- - x) with x in I2 by lia. specialize (I2 (i, j) (i, j + 1) Hx Hy eq_refl). injection I2. lia.
    - intros i j x y Hx Hy. pose proof (Co i j x y Hx Hy) as Le. destruct (R i j x Hx) as [Rx _]. destruct (R _ _ y Hy) as [Ry _]. unfold column_ok. destruct Le as [Le|[Ea Le]]; [left; assumption|]. right. split; [assumption|]. destruct (Z.lt_trichotomy x 0) as [N0|[N0|N0]]; [assumption|lia|]. exfalso.
      assert (x = y) by lia. subst y. destruct (Inj x ltac:(lia)) as [I1 _]. specialize (I1 (i, j) (i + 1, j) Hx Hy eq_refl). injection I1. lia.
  Qed.
End Size.
