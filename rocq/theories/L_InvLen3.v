(* Fixed-point-free involution words. *)
From Coq Require Import List ZArith Bool Lia Permutation.
From Verif Require Import PyBase FinSum M_Partitions M_Perm S_Perm S_Levels L_Perm L_PermLen L_PermWord L_PermDem L_LevelsInst P_Perm P_Levels L_PermActs M_PermGroth L_InvLen L_InvLen2 M_InvWords.
Import ListNotations.
Local Open Scope Z_scope.

Lemma s0_nonpos : s0 0 = [].
Proof. reflexivity. Qed.
Lemma s0_call : forall n x, n mod 2 = 0 -> pcall (s0 n) x = matching n x.
Proof. intros n x H. apply s0_ok. exact H. Qed.
Lemma matching_out : forall n x, n < Z.abs x -> matching n x = x.
Proof. intros n x H. unfold matching. replace (Z.abs x <=? n) with false by lia. reflexivity. Qed.
Lemma matching_odd : forall n x, 1 <= x < n -> Z.odd x = true -> matching n x = x + 1.
Proof. intros n x H O. unfold matching. rewrite (Z.abs_eq x) by lia. replace (x <=? n) with true by lia. replace (x =? 0) with false by lia. rewrite O. rewrite Z.sgn_pos by lia. reflexivity. Qed.
Lemma matching_even : forall n x, 1 <= x <= n -> Z.odd x = false -> matching n x = x - 1.
Proof. intros n x H O. unfold matching. rewrite (Z.abs_eq x) by lia. replace (x <=? n) with true by lia. replace (x =? 0) with false by lia. rewrite O. rewrite Z.sgn_pos by lia. reflexivity. Qed.
Lemma odd_even_dec : forall n x, n mod 2 = 0 -> 1 <= x <= n -> (Z.odd x = true /\ x < n) \/ (Z.odd x = false /\ 2 <= x).
Proof.
  intros n x Hn Hx. destruct (Z.odd x) eqn:O.
  - left. split; [reflexivity|]. assert (x <> n); [|lia]. intros ->. rewrite Zodd_mod, Hn in O. discriminate.
  - right. split; [reflexivity|]. assert (x <> 1); [|lia]. intros ->. discriminate.
Qed.
Lemma s0_fpf : forall n, n mod 2 = 0 -> fpf n (s0 n).
Proof.
  intros n Hn. destruct (s0_ok n Hn) as (V & M & _). split; [exact V|]. intros x Hx. rewrite M. destruct (odd_even_dec n x Hn Hx) as [[O L]|[O L]].
  - rewrite matching_odd by (assumption || lia). lia.
  - rewrite matching_even by (assumption || lia). lia.
Qed.
Lemma s0_step : forall j, 0 <= j -> cj (s0 (2 * j)) (2 * j + 1) = s0 (2 * j + 2) /\ ~ descent (pcall (s0 (2 * j))) (2 * j + 1).
Proof.
  intros j Hj. assert (M1 : (2 * j) mod 2 = 0) by (rewrite Z.mul_comm; apply Z_mod_mult). assert (M2 : (2 * j + 2) mod 2 = 0) by (replace (2 * j + 2) with ((j + 1) * 2) by lia; apply Z_mod_mult).
  destruct (s0_ok _ M1) as (V1 & C1 & _). destruct (s0_ok _ M2) as (V2 & C2 & _).
  set (i := 2 * j + 1) in *. 
  assert (F1 : pcall (s0 (2 * j)) i = i) by (rewrite C1; apply matching_out; lia).
  assert (F2 : pcall (s0 (2 * j)) (i + 1) = i + 1) by (rewrite C1; apply matching_out; lia).
  assert (A : ~ descent (pcall (s0 (2 * j))) i) by (unfold descent; replace (i =? 0) with false by lia; rewrite F1, F2; lia).
  split; [|exact A].
  assert (D : descent (pcall (mulp (sp i) (s0 (2 * j)))) i).
  { unfold descent. replace (i =? 0) with false by lia. rewrite !mulp_call by (apply canonical_signed; auto 10 with perm; apply V1 || apply sp_canonical; lia). rewrite !sp_call by lia. rewrite F1, F2, simple_i, simple_i1 by lia. lia. }
  pose proof (cj_commute _ i V1 ltac:(lia) A D) as C.
  apply canonical_ext; [apply cj_rel; [assumption|lia]|apply V2|]. intro x.
  assert (R : conj_rel (pcall (s0 (2 * j))) i (fun x => pcall (s0 (2 * j)) (simple i x))) by (right; left; auto).
  rewrite (conj_rel_fun _ _ _ _ (proj1 (cj_rel _ i V1 ltac:(lia))) R). rewrite C1, C2. unfold i. apply matching_step. assumption.
Qed.
Lemma il2_s0 : forall n, 0 <= n -> n mod 2 = 0 -> il2 (s0 n) = n.
Proof.
  intros n Hn Hm. assert (En : n = 2 * (n / 2)) by (pose proof (Z.div_mod n 2); lia). rewrite En. assert (Hj : 0 <= n / 2) by (apply Z.div_pos; lia). revert Hj. generalize (n / 2). clear. apply natlike_ind; [reflexivity|].
  intros j Hj IH. replace (2 * Z.succ j) with (2 * j + 2) by lia. destruct (s0_step j Hj) as [<- A].
  rewrite cj_ascent; [lia| |lia|exact A]. apply s0_ok. rewrite Z.mul_comm. apply Z_mod_mult.
Qed.

(* ---- steps ---- *)
Lemma path_sact_iact : forall h v a b, path (sact h) a v = Some b -> path (iact h) a v = Some b.
Proof. intro h. induction v as [|i v IH]; intros a b H; [exact H|]. cbn in *. unfold sact in H at 1. destruct (negb (pcall a i =? i + 1)); [|discriminate]. destruct (iact h a i); [|discriminate]. apply IH. exact H. Qed.
Lemma path_sact_false : forall v a b, path (sact false) a v = Some b <-> path (sact true) a v = Some b /\ path (iact false) a v = Some b.
Proof.
  induction v as [|i v IH]; intros a b; cbn; [tauto|]. unfold sact at 1 3. destruct (negb (pcall a i =? i + 1)); [|split; [discriminate|intros [? _]; discriminate]].
  change (iact true a i) with (Some (cj a i)). destruct (iact false a i) as [c|] eqn:Ec; [|split; [discriminate|intros [_ ?]; discriminate]].
  assert (c = cj a i) as ->; [|apply IH]. unfold iact in Ec. cbn [orb] in Ec. destruct (negb (peq (cj a i) a)); [|discriminate]. injection Ec as <-. reflexivity.
Qed.
Lemma sym_reduced : forall n v w, 0 <= n -> n mod 2 = 0 -> gens v -> path (sact true) (s0 n) v = Some w ->
  il2 w <= n + 2 * zlen v /\ (path (sact false) (s0 n) v = Some w <-> il2 w = n + 2 * zlen v).
Proof.
  intros n v w H0 Hn G P. pose proof (path_sact_iact _ _ _ _ P) as Pi. rewrite path_true in Pi. injection Pi as <-.
  destruct (il2_mod (s0 n) v (proj1 (s0_ok n Hn)) G) as (k & Hk & E & K). rewrite il2_s0 in E by assumption. split; [lia|]. rewrite path_sact_false. split.
  - intros [_ Q]. apply K in Q. lia.
  - intro Q. split; [exact P|]. apply K. lia.
Qed.

(* ---- going down ---- *)
Lemma fpf_values : forall n z x, fpf n z -> zlen z <= n -> 1 <= x <= n -> 1 <= pcall z x <= n.
Proof.
  intros n z x [[Hc Hv] Hf] L Hx. destruct (Hf x Hx) as [P _]. split; [lia|]. destruct (Z_le_gt_dec (pcall z x) n) as [Q|Q]; [exact Q|]. exfalso.
  assert (E : pcall z (pcall z x) = pcall z x) by (apply pcall_out; lia). rewrite Hv in E. lia.
Qed.
Lemma fpf_icut : forall n w i, fpf n w -> 1 <= i < n -> pcall w i <> i + 1 -> descent (pcall w) i ->
  icut w i = mulp (mulp (sp i) w) (sp i) /\ fpf n (icut w i) /\ pcall (icut w i) i <> i + 1 /\ peq (mulp (sp i) w) (mulp w (sp i)) = false.
Proof.
  intros n w i Hw Hi Hn D. pose proof Hw as [Hz Hf]. pose proof Hz as [Hc Hv].
  assert (E : peq (mulp w (sp i)) (mulp (sp i) w) = false).
  { destruct (peq (mulp w (sp i)) (mulp (sp i) w)) eqn:E; [|reflexivity]. exfalso. pose proof (proj1 (icut_comm w i Hc ltac:(lia)) E i) as C. rewrite simple_i in C by lia.
    unfold descent in D. replace (i =? 0) with false in D by lia. destruct (Hf i ltac:(lia)) as [P1 N1]. destruct (Hf (i + 1) ltac:(lia)) as [P2 N2].
    unfold simple in C. replace (i =? 0) with false in C by lia. repeat match type of C with context [?a =? ?b] => destruct (Z.eqb_spec a b) end; lia. }
  assert (Ei : icut w i = mulp (mulp (sp i) w) (sp i)) by (unfold icut; rewrite E; reflexivity).
  split; [exact Ei|]. destruct (icut_ok w i Hz ltac:(lia) D) as (V & A & Ec & L).
  assert (Eb : forall x, pcall (icut w i) x = simple i (pcall w (simple i x))).
  { intro x. rewrite Ei. rewrite !mulp_call by (repeat (apply canonical_signed; apply mulp_canonical || apply sp_canonical || apply mulp_canonical); auto 10 with perm; lia). rewrite !sp_call by lia. reflexivity. }
  split; [|split].
  - split; [exact V|]. intros x Hx. rewrite Eb. destruct (Hf (simple i x) (simple_range i x n Hi Hx)) as [P1 N1]. split; [apply simple_pos; [lia|exact P1]|].
    intro Q. apply N1. apply (simple_inj i); [lia|]. rewrite Q, simple_invol by lia. reflexivity.
  - rewrite Eb. rewrite simple_i by lia. intro Q. assert (Q2 : pcall w (i + 1) = i) by (apply (simple_inj i); [lia|]; rewrite Q, simple_i by lia; reflexivity).
    apply Hn. rewrite <- Q2, Hv. lia.
  - destruct (peq (mulp (sp i) w) (mulp w (sp i))) eqn:Q; [|reflexivity]. apply zlist_eqb_eq in Q. rewrite <- E. symmetry. apply zlist_eqb_eq. auto.
Qed.
Lemma terminal : forall n w, 0 <= n -> n mod 2 = 0 -> fpf n w -> zlen w <= n -> (forall i, 1 <= i < n -> descent (pcall w) i -> pcall w i = i + 1) -> w = s0 n.
Proof.
  intros n w H0 Hn Hw Lw T. pose proof Hw as [[Hc Hv] Hf]. destruct (s0_ok n Hn) as (V & M & _).
  assert (Vals : forall x, 1 <= x <= n -> 1 <= pcall w x <= n) by (intros x Hx; apply fpf_values; assumption).
  assert (K : forall k, 0 <= k -> forall x, 1 <= x <= Z.min n (2 * k) -> pcall w x = matching n x).
  { apply (natlike_ind (fun k => forall x, 1 <= x <= Z.min n (2 * k) -> pcall w x = matching n x)); [lia|]. intros k Hk IH x Hx.
    destruct (Z_le_gt_dec x (2 * k)) as [Q|Q]; [apply IH; lia|].
    set (j := 2 * k + 1). assert (Oj : Z.odd j = true) by (unfold j; rewrite Z.add_1_r, Z.odd_succ; rewrite Z.even_mul; reflexivity).
    assert (Lj : j < n) by (destruct (odd_even_dec n j Hn ltac:(lia)) as [[_ ?]|[? _]]; [assumption|congruence]).
    (* the earlier values are taken by earlier positions *)
    assert (Small : forall y, j <= y <= n -> j <= pcall w y).
    { intros y Hy. destruct (Z_le_gt_dec j (pcall w y)) as [?|G]; [assumption|]. exfalso. pose proof (Vals y ltac:(lia)) as Vy.
      assert (E : pcall w (pcall w y) = matching n (pcall w y)) by (apply IH; lia). rewrite Hv in E.
      destruct (odd_even_dec n (pcall w y) Hn ltac:(lia)) as [[O L]|[O L]].
      - rewrite matching_odd in E by (assumption || lia). assert (y = j) by lia. assert (pcall w y = 2 * k) by lia. rewrite H1 in O. rewrite Z.odd_mul in O. discriminate.
      - rewrite matching_even in E by (assumption || lia). lia. }
    assert (Wj : pcall w j = j + 1).
    { destruct (Z.eq_dec (pcall w j) (j + 1)) as [?|N]; [assumption|]. exfalso. set (b := pcall w j). pose proof (Small j ltac:(lia)). destruct (Hf j ltac:(lia)) as [_ Nj]. pose proof (Vals j ltac:(lia)).
      assert (Hb : j + 1 < b <= n) by (unfold b; lia). assert (Wb : pcall w b = j) by (unfold b; apply Hv).
      pose proof (Small (b - 1) ltac:(lia)) as S1. assert (pcall w (b - 1) <> j) by (intro Q1; rewrite <- Wb in Q1; apply (pcall_inj w) in Q1; [lia|apply Hc]).
      assert (D : descent (pcall w) (b - 1)). { unfold descent. replace (b - 1 =? 0) with false by lia. replace (b - 1 + 1) with b by lia. rewrite Wb. lia. }
      pose proof (T (b - 1) ltac:(lia) D) as Q1. replace (b - 1 + 1) with b in Q1 by lia. assert (pcall w (pcall w (b - 1)) = pcall w b) as Q2 by (rewrite Q1; reflexivity). rewrite Hv in Q2. lia. }
    assert (x = j \/ x = j + 1) as [->| ->] by lia.
    - rewrite matching_odd by (assumption || lia). exact Wj.
    - rewrite matching_even; [|lia|rewrite Z.odd_add, Oj; reflexivity]. rewrite <- Wj, Hv. lia. }
  apply canonical_ext; [exact Hc|apply V|].
  assert (P : forall x, 1 <= x -> pcall w x = pcall (s0 n) x).
  { intros x Hx. rewrite M. destruct (Z_le_gt_dec x n) as [L|L]; [apply (K x); lia|]. rewrite matching_out by lia. apply pcall_out. lia. }
  intro x. destruct (Z_lt_ge_dec x 0) as [L|L]; [|destruct (Z.eq_dec x 0) as [->|N]; [rewrite !pcall_zero; reflexivity|apply P; lia]].
  replace x with (- (- x)) by lia. rewrite !(pcall_odd _ (- x)). f_equal. apply P. lia.
Qed.
