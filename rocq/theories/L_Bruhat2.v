(* transpositions, conjugation by transpositions, tau *)
From Coq Require Import List ZArith Lia Bool Permutation Arith.
From Verif Require Import PyBase M_Partitions M_Perm S_Perm L_Perm L_PermLen L_PermWord L_PermMisc L_LevelsInst M_Bruhat S_Bruhat L_Bruhat.
Import ListNotations.
Local Open Scope Z_scope.

Lemma refl_signed : forall a b, a <> 0 -> b <> 0 -> signed_map (refl a b).
Proof.
  intros a b Ha Hb. split; [intro; apply refl_odd; assumption|]. split; [|split].
  - intros x y E. rewrite <- (refl_invol a b x), <- (refl_invol a b y) by assumption. rewrite E. reflexivity.
  - intro y. exists (refl a b y). apply refl_invol; assumption.
  - exists (Z.max (Z.abs a) (Z.abs b)). split; [lia|]. intros x Hx. unfold refl. repeat match goal with |- context [?x =? ?y] => destruct (Z.eqb_spec x y) end; lia.
Qed.

(* tr i j: the transposition of i < j as a Permutation *)
Definition trp (i j : Z) : list Z := strip (line (refl i j) j).
Lemma trp_line : forall i j, 1 <= i < j -> signed_word (line (refl i j) j) /\ forall x, pcall (line (refl i j) j) x = refl i j x.
Proof.
  intros i j H. apply signed_map_line; [apply refl_signed; lia|lia|]. intros x Hx. unfold refl. repeat match goal with |- context [?x =? ?y] => destruct (Z.eqb_spec x y) end; lia.
Qed.
Lemma trp_canonical : forall i j, 1 <= i < j -> canonical (trp i j).
Proof. intros i j H. apply strip_canonical. apply trp_line. exact H. Qed.
Lemma trp_call : forall i j x, 1 <= i < j -> pcall (trp i j) x = refl i j x.
Proof. intros i j x H. unfold trp. rewrite pcall_strip. apply trp_line. exact H. Qed.
Lemma nthz_upd : forall l k v i, 0 <= i < zlen l -> (k < length l)%nat -> nthz (upd l k v) i = if i =? Z.of_nat k then v else nthz l i.
Proof.
  intros l k v i Hi Hk. unfold nthz. destruct (Z.eqb_spec i (Z.of_nat k)) as [->|N]; [rewrite Nat2Z.id; apply nth_upd_same; exact Hk|apply nth_upd_other; lia].
Qed.
Lemma transposition_ok : forall i j, 1 <= i < j -> transposition i j = Ok (trp i j).
Proof.
  intros i j H. unfold transposition. replace (j <? i) with false by lia. unfold py_index. assert (L : zlen (zrange 1 (j + 1)) = j) by (rewrite zlen_zrange; lia).
  rewrite L. replace ((0 <=? i - 1) && (i - 1 <? j)) with true by lia. cbn [rbind].
  assert (Lu : forall l k v, zlen (upd l k v) = zlen l) by (intros; unfold zlen; rewrite length_upd; reflexivity).
  rewrite Lu, L. replace ((0 <=? j - 1) && (j - 1 <? j)) with true by lia. cbn [rbind].
  assert (E : upd (upd (zrange 1 (j + 1)) (Z.to_nat (i - 1)) j) (Z.to_nat (j - 1)) i = line (refl i j) j).
  { apply nthz_ext; [rewrite !Lu, L, zlen_line; lia|]. rewrite !Lu, L. intros k Hk.
    assert (Ln : length (zrange 1 (j + 1)) = Z.to_nat j) by (unfold zlen in L; lia).
    rewrite nthz_upd by (try rewrite Lu; try rewrite length_upd; lia). rewrite nthz_upd by lia. unfold line. rewrite nthz_map, !nthz_zrange by lia.
    rewrite !Z2Nat.id by lia. unfold refl. repeat match goal with |- context [?x =? ?y] => destruct (Z.eqb_spec x y) end; lia. }
  rewrite E. rewrite mkperm_ok by (apply trp_line; exact H). reflexivity.
Qed.
Lemma tau_t_ok : forall k l, 1 <= k -> 1 <= l -> exists t, tau_t k l = Ok t /\ canonical t /\ forall x, pcall t x = refl k l x.
Proof.
  intros k l Hk Hl. unfold tau_t. destruct (Z.eqb_spec k l) as [->|N].
  - exists []. split; [reflexivity|]. split; [apply nil_canonical|]. intro x. rewrite pcall_nil. unfold refl. repeat match goal with |- context [?x =? ?y] => destruct (Z.eqb_spec x y) end; lia.
  - destruct (Z.ltb_spec l k) as [L|L].
    + exists (trp l k). split; [apply transposition_ok; lia|]. split; [apply trp_canonical; lia|]. intro x. rewrite trp_call by lia. apply refl_sym.
    + exists (trp k l). split; [apply transposition_ok; lia|]. split; [apply trp_canonical; lia|]. intro x. apply trp_call. lia.
Qed.
Lemma conjugate_ok : forall t w, canonical t -> canonical w -> conjugate t w = Ok (mulp (mulp t w) t).
Proof. intros t w Ht Hw. unfold conjugate. rewrite pmul_ok by auto with perm. cbn [rbind]. apply pmul_ok; auto with perm. Qed.

(* lengths grow along noninversions *)
Lemma up_right : forall w u a b, canonical w -> canonical u -> a <> 0 -> b <> 0 -> a < b -> (forall x, pcall u x = pcall w (refl a b x)) -> pcall w a < pcall w b -> ell w < ell u.
Proof.
  intros w u a b Hw Hu Ha Hb Hab E H. apply (ell_refl u w a b); try assumption; [intro x; rewrite E, refl_invol by assumption; reflexivity|]. rewrite !E, refl_a, refl_b. exact H.
Qed.
(* u = t w t *)
Lemma up_conj : forall w u a b, canonical w -> canonical u -> (forall x, pcall w (pcall w x) = x) -> 1 <= a -> a < b -> (forall x, pcall u x = refl a b (pcall w (refl a b x))) ->
  pcall w a < pcall w b -> refl a b (pcall w a) < refl a b (pcall w b) -> ell w < ell u.
Proof.
  intros w u a b Hw Hu Hv Ha Hab E H1 H2. set (t := trp a b). assert (Ht : canonical t) by (apply trp_canonical; lia). assert (Ct : forall x, pcall t x = refl a b x) by (intro x; apply trp_call; lia).
  set (v := mulp t w). assert (Cv : canonical v) by (unfold v; auto with perm).
  assert (Ev : forall x, pcall v x = refl a b (pcall w x)) by (intro x; unfold v; rewrite mulp_call by auto with perm; apply Ct).
  assert (L1 : ell w < ell v).
  { rewrite <- (ell_invp v), <- (ell_invp w) by assumption. assert (Ci : canonical (invp v)) by auto with perm. assert (Cw : canonical (invp w)) by auto with perm.
    assert (Iw : forall x, pcall (invp w) x = pcall w x) by (intro x; rewrite <- (Hv x) at 1; apply invp_call; apply Hw).
    apply (up_right (invp w) (invp v) a b); try assumption; try lia.
    - intro x. rewrite Iw. apply (pcall_inj v); [apply Cv|]. rewrite invp_call2 by apply Cv. rewrite Ev, Hv, refl_invol by lia. reflexivity.
    - rewrite !Iw. exact H1. }
  assert (L2 : ell v < ell u); [|lia]. apply (up_right v u a b); try assumption; try lia.
  - intro x. rewrite E, Ev. reflexivity.
  - rewrite !Ev. exact H2.
Qed.
(* removing the cycles (p q) and (r s), adding (p s) *)
Lemma up_nest : forall w u p q r s, canonical w -> canonical u -> 1 <= p -> p < q -> q < r -> r < s ->
  pcall w p = q -> pcall w q = p -> pcall w r = s -> pcall w s = r ->
  (forall x, 0 < x -> pcall u x = if x =? p then s else if x =? q then q else if x =? r then r else if x =? s then p else pcall w x) -> ell w < ell u.
Proof.
  intros w u p q r s Hw Hu Hp Hpq Hqr Hrs E1 E2 E3 E4 E.
  pose proof (trp_canonical q r ltac:(lia)) as C1. pose proof (trp_canonical p q ltac:(lia)) as C2. pose proof (trp_canonical r s ltac:(lia)) as C3.
  set (v1 := mulp w (trp q r)). set (v2 := mulp v1 (trp p q)). set (v3 := mulp v2 (trp r s)).
  assert (D1 : canonical v1) by (unfold v1; auto with perm). assert (D2 : canonical v2) by (unfold v2; auto with perm). assert (D3 : canonical v3) by (unfold v3; auto with perm).
  assert (F1 : forall x, pcall v1 x = pcall w (refl q r x)) by (intro x; unfold v1; rewrite mulp_call by auto with perm; rewrite trp_call by lia; reflexivity).
  assert (F2 : forall x, pcall v2 x = pcall v1 (refl p q x)) by (intro x; unfold v2; rewrite mulp_call by auto with perm; rewrite trp_call by lia; reflexivity).
  assert (F3 : forall x, pcall v3 x = pcall v2 (refl r s x)) by (intro x; unfold v3; rewrite mulp_call by auto with perm; rewrite trp_call by lia; reflexivity).
  assert (R : forall a b x, 1 <= a -> a < b -> 0 < x -> refl a b x = if x =? a then b else if x =? b then a else x).
  { intros a b x Ha Hb Hx. unfold refl. repeat match goal with |- context [?x =? ?y] => destruct (Z.eqb_spec x y) end; lia. }
  assert (V : v3 = u).
  { apply canonical_ext; [assumption|assumption|]. 
    assert (P : forall x, 0 < x -> pcall v3 x = pcall u x).
    { intros x Hx. rewrite E, F3 by assumption. rewrite R by lia.
      destruct (Z.eqb_spec x p) as [->|X1]. { replace (p =? r) with false by lia. replace (p =? s) with false by lia. rewrite F2, R, Z.eqb_refl by lia. rewrite F1, R, Z.eqb_refl by lia. exact E3. }
      destruct (Z.eqb_spec x q) as [->|X2]. { replace (q =? r) with false by lia. replace (q =? s) with false by lia. rewrite F2, R, Z.eqb_refl by lia. replace (q =? p) with false by lia. rewrite F1, R by lia. replace (p =? q) with false by lia. replace (p =? r) with false by lia. exact E1. }
      destruct (Z.eqb_spec x r) as [->|X3]. { rewrite F2, R by lia. replace (s =? p) with false by lia. replace (s =? q) with false by lia. rewrite F1, R by lia. replace (s =? q) with false by lia. replace (s =? r) with false by lia. exact E4. }
      destruct (Z.eqb_spec x s) as [->|X4]. { rewrite F2, R by lia. replace (r =? p) with false by lia. replace (r =? q) with false by lia. rewrite F1, R by lia. replace (r =? q) with false by lia. rewrite Z.eqb_refl. exact E2. }
      rewrite F2, R by lia. replace (x =? p) with false by lia. replace (x =? q) with false by lia. rewrite F1, R by lia. replace (x =? q) with false by lia. replace (x =? r) with false by lia. reflexivity. }
    intro x. destruct (Z.lt_trichotomy x 0) as [L|[->|L]]; [|rewrite !pcall_zero; reflexivity|apply P; exact L]. replace x with (- (- x)) by lia. rewrite !(pcall_odd _ (- x)), P by lia. reflexivity. }
  rewrite <- V.
  assert (L1 : ell w < ell v1) by (apply (up_right w v1 q r); try assumption; lia).
  assert (L2 : ell v1 < ell v2). { apply (up_right v1 v2 p q); try assumption; try lia. rewrite !F1, !R by lia. rewrite Z.eqb_refl. replace (p =? q) with false by lia. replace (p =? r) with false by lia. lia. }
  assert (L3 : ell v2 < ell v3). { apply (up_right v2 v3 r s); try assumption; try lia. rewrite !F2, !R by lia. replace (r =? p) with false by lia. replace (r =? q) with false by lia. replace (s =? p) with false by lia. replace (s =? q) with false by lia.
    rewrite !F1, !R by lia. replace (r =? q) with false by lia. rewrite Z.eqb_refl. replace (s =? q) with false by lia. replace (s =? r) with false by lia. lia. }
  lia.
Qed.

Lemma pos_invol : forall u, canonical u -> (forall x, 0 < x -> pcall u (pcall u x) = x) -> forall x, pcall u (pcall u x) = x.
Proof.
  intros u Hu H x. destruct (Z.lt_trichotomy x 0) as [L|[->|L]]; [|rewrite !pcall_zero; reflexivity|apply H; exact L].
  replace x with (- (- x)) by lia. rewrite !(pcall_odd _ (- x)), pcall_odd, H by lia. reflexivity.
Qed.
Lemma refl_pos : forall a b x, 1 <= a -> 1 <= b -> 0 < x -> refl a b x = if x =? a then b else if x =? b then a else x.
Proof. intros a b x Ha Hb Hx. unfold refl. repeat match goal with |- context [?x =? ?y] => destruct (Z.eqb_spec x y) end; lia. Qed.

Section Tau.
  Variable y : list Z.
  Variables i j : Z.
  Hypothesis Hy : canonical y.
  Hypothesis Hv : involution_map (pcall y).
  Hypothesis Hi : 1 <= i.
  Hypothesis Hj : i < j.
  Definition inS (x : Z) : Prop := x = i \/ x = j \/ x = pcall y i \/ x = pcall y j.
  Definition good (v : list Z) : Prop :=
    canonical v /\ involution_map (pcall v) /\ ell y < ell v /\ forall x, 0 < x -> ~ inS x -> pcall v x = pcall y x.
  Lemma yi_pos : 1 <= pcall y i.
  Proof. pose proof (proj2 Hv i ltac:(lia)). lia. Qed.
  Lemma yj_pos : 1 <= pcall y j.
  Proof. pose proof (proj2 Hv j ltac:(lia)). lia. Qed.
  Lemma inS_y : forall x, inS (pcall y x) -> inS x.
  Proof. intros x [E|[E|[E|E]]]; unfold inS; pose proof (proj1 Hv x) as E2; rewrite E in E2; rewrite ?(proj1 Hv) in E2; auto. Qed.

  Lemma conj_good : forall a b, 1 <= a -> a < b -> inS a -> inS b -> pcall y a < pcall y b -> refl a b (pcall y a) < refl a b (pcall y b) ->
    exists v, (do s <- tau_t a b; conjugate s y) = Ok v /\ good v.
  Proof.
    intros a b Ha Hab Sa Sb H1 H2. destruct (tau_t_ok a b Ha ltac:(lia)) as (t & Et & Ct & Ft). rewrite Et. cbn [rbind]. rewrite conjugate_ok by assumption. eexists. split; [reflexivity|].
    set (v := mulp (mulp t y) t). assert (Cv : canonical v) by (unfold v; auto 10 with perm).
    assert (Fv : forall x, pcall v x = refl a b (pcall y (refl a b x))) by (intro x; unfold v; rewrite !mulp_call by auto 10 with perm; rewrite !Ft; reflexivity).
    split; [exact Cv|]. split; [|split].
    - split; [intro x; rewrite !Fv, refl_invol, (proj1 Hv), refl_invol by lia; reflexivity|]. intros x Hx. rewrite Fv.
      assert (P : forall z, 0 < z -> 0 < refl a b z) by (intros z Hz; rewrite refl_pos by lia; destruct (z =? a); [lia|]; destruct (z =? b); lia). apply P, (proj2 Hv), P. exact Hx.
    - apply (up_conj y v a b); try assumption. apply (proj1 Hv).
    - intros x Hx Hs. rewrite Fv. assert (Nx : forall z, 0 < z -> ~ inS z -> refl a b z = z).
      { intros z Hz Nz. rewrite refl_pos by lia. destruct (Z.eqb_spec z a) as [->|]; [contradiction|]. destruct (Z.eqb_spec z b) as [->|]; [contradiction|reflexivity]. }
      rewrite (Nx x) by assumption. apply Nx; [apply (proj2 Hv); exact Hx|]. intro Q. apply Hs, inS_y. exact Q.
  Qed.

  Definition inSb (x : Z) : bool := (x =? i) || (x =? j) || (x =? pcall y i) || (x =? pcall y j).
  Lemma inSb_spec : forall x, inSb x = true <-> inS x.
  Proof. intro x. unfold inSb, inS. rewrite !orb_true_iff, !Z.eqb_eq. tauto. Qed.
  Lemma z_ok : exists ya z, (do a <- tau_t i (pcall y i); pmul y a) = Ok ya /\ (if i =? pcall y j then Ok ya else do b <- tau_t j (pcall y j); pmul ya b) = Ok z /\ canonical z /\
    forall x, 0 < x -> pcall z x = if inSb x then x else pcall y x.
  Proof.
    pose proof yi_pos as Pi. pose proof yj_pos as Pj. pose proof (proj1 Hv) as Iv.
    destruct (tau_t_ok i (pcall y i) Hi Pi) as (a & Ea & Ca & Fa). rewrite Ea. cbn [rbind]. rewrite pmul_ok by auto with perm. eexists. 
    set (ya := mulp y a). assert (Cya : canonical ya) by (unfold ya; auto with perm).
    assert (Fya : forall x, 0 < x -> pcall ya x = pcall y (if x =? i then pcall y i else if x =? pcall y i then i else x)) by (intros x Hx; unfold ya; rewrite mulp_call by auto with perm; rewrite Fa, refl_pos by lia; reflexivity).
    destruct (Z.eqb_spec i (pcall y j)) as [E|N].
    - exists ya. split; [reflexivity|]. split; [reflexivity|]. split; [exact Cya|]. intros x Hx. rewrite Fya by exact Hx. unfold inSb. assert (Yi : pcall y i = j) by (rewrite E; apply Iv). rewrite Yi, <- E.
      destruct (Z.eqb_spec x i) as [->|X1]; [cbn [orb]; congruence|]. destruct (Z.eqb_spec x j) as [->|X2]; [cbn [orb]; exact Yi|]. reflexivity.
    - destruct (tau_t_ok j (pcall y j) ltac:(lia) Pj) as (b & Eb & Cb & Fb). rewrite Eb. cbn [rbind]. rewrite pmul_ok by auto with perm. exists (mulp ya b). split; [reflexivity|]. split; [reflexivity|]. split; [auto with perm|].
      assert (Nj : pcall y i <> j) by (intro Q; apply N; rewrite <- Q; symmetry; apply Iv).
      assert (Nij : pcall y i <> pcall y j) by (intro Q; apply pcall_inj in Q; [lia|apply Hy]).
      intros x Hx. rewrite mulp_call by auto with perm. rewrite Fb, refl_pos by lia. rewrite Fya by (destruct (x =? j); [lia|]; destruct (x =? pcall y j); lia). unfold inSb.
      destruct (Z.eqb_spec x j) as [->|X1].
      + replace (pcall y j =? i) with false by lia. replace (pcall y j =? pcall y i) with false by lia. rewrite orb_true_r. cbn [orb]. apply Iv.
      + destruct (Z.eqb_spec x (pcall y j)) as [->|X2].
        * replace (j =? i) with false by lia. replace (j =? pcall y i) with false by lia. rewrite !orb_true_r. reflexivity.
        * destruct (Z.eqb_spec x i) as [->|X3]; [cbn [orb]; apply Iv|]. cbn [orb]. destruct (Z.eqb_spec x (pcall y i)) as [->|X4]; [reflexivity|reflexivity].
  Qed.
  Lemma nest_good : forall z p q r s, canonical z -> (forall x, 0 < x -> pcall z x = if inSb x then x else pcall y x) ->
    1 <= p -> p < q -> q < r -> r < s -> pcall y p = q -> pcall y r = s -> (forall x, inS x <-> x = p \/ x = q \/ x = r \/ x = s) ->
    exists v, (do t <- tau_t p s; pmul t z) = Ok v /\ good v.
  Proof.
    intros z p q r s Cz Fz Hp Hpq Hqr Hrs Ep Er HS. destruct (tau_t_ok p s Hp ltac:(lia)) as (t & Et & Ct & Ft). rewrite Et. cbn [rbind]. rewrite pmul_ok by auto with perm. eexists. split; [reflexivity|].
    pose proof (proj1 Hv) as Iv. assert (Eq : pcall y q = p) by (rewrite <- Ep; apply Iv). assert (Es : pcall y s = r) by (rewrite <- Er; apply Iv).
    set (v := mulp t z). assert (Cv : canonical v) by (unfold v; auto with perm).
    assert (Fv : forall x, 0 < x -> pcall v x = if x =? p then s else if x =? q then q else if x =? r then r else if x =? s then p else pcall y x).
    { intros x Hx. unfold v. rewrite mulp_call by auto with perm. rewrite Ft, Fz by exact Hx. pose proof (proj2 Hv x Hx) as Px.
      assert (Sx : inSb x = ((x =? p) || (x =? q) || (x =? r) || (x =? s))) by (apply Bool.eq_true_iff_eq; rewrite inSb_spec, HS, !orb_true_iff, !Z.eqb_eq; tauto).
      rewrite Sx. destruct (Z.eqb_spec x p) as [->|X1]; [cbn [orb]; apply refl_a|]. destruct (Z.eqb_spec x q) as [->|X2]; [cbn [orb]; rewrite refl_pos by lia; replace (q =? p) with false by lia; replace (q =? s) with false by lia; reflexivity|].
      destruct (Z.eqb_spec x r) as [->|X3]; [cbn [orb]; rewrite refl_pos by lia; replace (r =? p) with false by lia; replace (r =? s) with false by lia; reflexivity|].
      destruct (Z.eqb_spec x s) as [->|X4]; [cbn [orb]; apply refl_b|]. cbn [orb]. rewrite refl_pos by lia.
      destruct (Z.eqb_spec (pcall y x) p) as [Q|_]; [exfalso; apply X2; rewrite <- Ep, <- Q; symmetry; apply Iv|]. destruct (Z.eqb_spec (pcall y x) s) as [Q|_]; [exfalso; apply X3; rewrite <- Es, <- Q; symmetry; apply Iv|]. reflexivity. }
    assert (Pv : forall x, 0 < x -> 0 < pcall v x).
    { intros x Hx. rewrite Fv by exact Hx. pose proof (proj2 Hv x Hx). repeat match goal with |- context [?x =? ?y] => destruct (Z.eqb_spec x y) end; lia. }
    split; [exact Cv|]. split; [|split].
    - split; [|exact Pv]. apply pos_invol; [exact Cv|]. intros x Hx. rewrite (Fv (pcall v x)) by (apply Pv; exact Hx). rewrite (Fv x) by exact Hx. pose proof (Iv x) as Ix.
      destruct (Z.eqb_spec x p) as [->|X1]; [replace (s =? p) with false by lia; replace (s =? q) with false by lia; replace (s =? r) with false by lia; rewrite Z.eqb_refl; reflexivity|].
      destruct (Z.eqb_spec x q) as [->|X2]; [replace (q =? p) with false by lia; rewrite Z.eqb_refl; reflexivity|].
      destruct (Z.eqb_spec x r) as [->|X3]; [replace (r =? p) with false by lia; replace (r =? q) with false by lia; rewrite Z.eqb_refl; reflexivity|].
      destruct (Z.eqb_spec x s) as [->|X4]; [rewrite Z.eqb_refl; reflexivity|].
      destruct (Z.eqb_spec (pcall y x) p) as [Q|_]; [exfalso; rewrite Q in Ix; lia|]. destruct (Z.eqb_spec (pcall y x) q) as [Q|_]; [exfalso; rewrite Q in Ix; lia|].
      destruct (Z.eqb_spec (pcall y x) r) as [Q|_]; [exfalso; rewrite Q in Ix; lia|]. destruct (Z.eqb_spec (pcall y x) s) as [Q|_]; [exfalso; rewrite Q in Ix; lia|]. exact Ix.
    - apply (up_nest y v p q r s); assumption.
    - intros x Hx Hs. rewrite Fv by exact Hx. rewrite HS in Hs. replace (x =? p) with false by (symmetry; apply Z.eqb_neq; tauto). replace (x =? q) with false by (symmetry; apply Z.eqb_neq; tauto).
      replace (x =? r) with false by (symmetry; apply Z.eqb_neq; tauto). replace (x =? s) with false by (symmetry; apply Z.eqb_neq; tauto). reflexivity.
  Qed.
  Lemma join_good : pcall y i = i -> pcall y j = j -> exists v, (do t <- tau_t i j; pmul t y) = Ok v /\ good v.
  Proof.
    intros Ei Ej. destruct (tau_t_ok i j Hi ltac:(lia)) as (t & Et & Ct & Ft). rewrite Et. cbn [rbind]. rewrite pmul_ok by auto with perm. eexists. split; [reflexivity|].
    pose proof (proj1 Hv) as Iv. set (v := mulp t y). assert (Cv : canonical v) by (unfold v; auto with perm).
    assert (Fv : forall x, 0 < x -> pcall v x = if x =? i then j else if x =? j then i else pcall y x).
    { intros x Hx. unfold v. rewrite mulp_call by auto with perm. pose proof (proj2 Hv x Hx) as Px. pose proof (Iv x) as Ix. rewrite Ft, refl_pos by lia.
      destruct (Z.eqb_spec x i) as [->|X1]; [rewrite Ei, Z.eqb_refl; reflexivity|]. destruct (Z.eqb_spec x j) as [->|X2]; [rewrite Ej; replace (j =? i) with false by lia; rewrite Z.eqb_refl; reflexivity|].
      destruct (Z.eqb_spec (pcall y x) i) as [Q|_]; [rewrite Q in Ix; lia|]. destruct (Z.eqb_spec (pcall y x) j) as [Q|_]; [rewrite Q in Ix; lia|]. reflexivity. }
    assert (Pv : forall x, 0 < x -> 0 < pcall v x). { intros x Hx. rewrite Fv by exact Hx. pose proof (proj2 Hv x Hx). repeat match goal with |- context [?x =? ?y] => destruct (Z.eqb_spec x y) end; lia. }
    split; [exact Cv|]. split; [|split].
    - split; [|exact Pv]. apply pos_invol; [exact Cv|]. intros x Hx. rewrite (Fv (pcall v x)) by (apply Pv; exact Hx). rewrite (Fv x) by exact Hx. pose proof (Iv x) as Ix.
      destruct (Z.eqb_spec x i) as [->|X1]; [replace (j =? i) with false by lia; rewrite Z.eqb_refl; reflexivity|]. destruct (Z.eqb_spec x j) as [->|X2]; [rewrite Z.eqb_refl; reflexivity|].
      destruct (Z.eqb_spec (pcall y x) i) as [Q|_]; [rewrite Q in Ix; lia|]. destruct (Z.eqb_spec (pcall y x) j) as [Q|_]; [rewrite Q in Ix; lia|]. exact Ix.
    - apply (up_right y v i j); try assumption; try lia. 
      assert (P : forall x, 0 < x -> pcall v x = pcall y (refl i j x)).
      { intros x Hx. rewrite Fv, refl_pos by lia. destruct (x =? i); [symmetry; exact Ej|]. destruct (x =? j); [symmetry; exact Ei|reflexivity]. }
      intro x. destruct (Z.lt_trichotomy x 0) as [L|[->|L]]; [|rewrite pcall_zero|apply P; exact L].
      + replace x with (- (- x)) by lia. rewrite (refl_odd i j (- x)) by lia. rewrite (pcall_odd v (- x)), (pcall_odd y (refl i j (- x))), P by lia. reflexivity.
      + unfold refl. replace (0 =? i) with false by lia. replace (0 =? j) with false by lia. replace (0 =? - i) with false by lia. replace (0 =? - j) with false by lia. rewrite pcall_zero. reflexivity.
    - intros x Hx Hs. rewrite Fv by exact Hx. unfold inS in Hs. replace (x =? i) with false by (symmetry; apply Z.eqb_neq; tauto). replace (x =? j) with false by (symmetry; apply Z.eqb_neq; tauto). reflexivity.
  Qed.
  Lemma tau_ok : exists v, tau y i j = Ok v /\ (good v \/ v = y /\ pcall y j < pcall y i).
  Proof.
    assert (L : forall e, (exists v, e = Ok v /\ good v) -> exists v, e = Ok v /\ (good v \/ v = y /\ pcall y j < pcall y i)) by (intros e (v & E1 & E2); eauto).
    unfold tau. rewrite (proj2 (Z.leb_le 1 i)) by lia. rewrite (proj2 (Z.ltb_lt i j)) by lia. cbn [andb]. cbv zeta.
    destruct z_ok as (ya & z & Eya & Ez & Cz & Fz). pose proof yi_pos as Pi. pose proof yj_pos as Pj. pose proof (proj1 Hv) as Iv. pose proof (Iv i) as Ii. pose proof (Iv j) as Ij.
    destruct (tau_t i (pcall y i)) as [a|] eqn:Ea; [|discriminate]. cbn [rbind] in *. rewrite Eya. cbn [rbind]. rewrite Ez. cbn [rbind]. clear Ea Eya Ez a ya.
    assert (Si : inS i) by (unfold inS; auto). assert (Sj : inS j) by (unfold inS; auto). assert (Syi : inS (pcall y i)) by (unfold inS; auto). assert (Syj : inS (pcall y j)) by (unfold inS; auto).
    set (a := pcall y i) in *. set (b := pcall y j) in *.
    assert (Nij : a <> b) by (intro Q; apply (pcall_inj y) in Q; [lia|apply Hy]).
    match goal with |- context [if ?c then _ else _] => destruct c eqn:C1 end.
    { apply L. apply conj_good; try assumption; fold a b; rewrite ?refl_pos by lia; repeat match goal with |- context [?x =? ?y] => destruct (Z.eqb_spec x y) end; lia. }
    match goal with |- context [if ?c then _ else _] => destruct c eqn:C2 end.
    { apply L. assert (Ea : a = i) by lia. apply conj_good; try assumption; try lia; rewrite ?Ij; fold a; rewrite ?refl_pos by lia; repeat match goal with |- context [?x =? ?y] => destruct (Z.eqb_spec x y) end; lia. }
    match goal with |- context [if ?c then _ else _] => destruct c eqn:C3 end.
    { apply L. apply conj_good; try assumption; try lia; rewrite ?Ii; fold b; rewrite ?refl_pos by lia; repeat match goal with |- context [?x =? ?y] => destruct (Z.eqb_spec x y) end; lia. }
    match goal with |- context [if ?c then _ else _] => destruct c eqn:C4 end.
    { apply L. apply conj_good; try assumption; try lia; rewrite ?Ij; fold a; rewrite ?refl_pos by lia; repeat match goal with |- context [?x =? ?y] => destruct (Z.eqb_spec x y) end; lia. }
    match goal with |- context [if ?c then _ else _] => destruct c eqn:C5 end.
    { apply L. apply (nest_good z i a b j); try assumption; try lia; try reflexivity. intro x. unfold inS. fold a b. tauto. }
    match goal with |- context [if ?c then _ else _] => destruct c eqn:C6 end.
    { apply L. apply (nest_good z i a j b); try assumption; try lia; try reflexivity. intro x. unfold inS. fold a b. tauto. }
    match goal with |- context [if ?c then _ else _] => destruct c eqn:C7 end.
    { apply L. apply (nest_good z a i b j); try assumption; try lia; try reflexivity. intro x. unfold inS. fold a b. tauto. }
    match goal with |- context [if ?c then _ else _] => destruct c eqn:C8 end.
    { apply L. apply join_good; fold a b; lia. }
    assert (Qa : a = j -> b = i) by (intro Q; rewrite Q in Ii; exact Ii). assert (Qb : b = i -> a = j) by (intro Q; rewrite Q in Ij; exact Ij).
    exists y. split; [reflexivity|]. right. split; [reflexivity|]. lia.
  Qed.
End Tau.
