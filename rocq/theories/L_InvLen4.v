(* The fixed-point-free involution word functions of the model. *)
From Coq Require Import List ZArith Bool Lia Permutation.
From Verif Require Import PyBase FinSum M_Partitions M_Perm S_Perm S_Levels L_Perm L_PermLen L_PermWord L_PermDem L_LevelsInst P_Perm P_Levels L_PermActs M_PermGroth L_InvLen L_InvLen2 L_InvLen3 M_InvWords.
Import ListNotations.
Local Open Scope Z_scope.

Lemma zlen_fixed : forall w n, canonical w -> 0 <= n -> (forall x, n < x -> pcall w x = x) -> zlen w <= n.
Proof.
  intros w n [Hs Hl] Hn H. destruct (Z_le_gt_dec (zlen w) n) as [L|L]; [exact L|]. exfalso.
  assert (E : pcall w (zlen w) = zlen w) by (apply H; lia). rewrite pcall_pos in E by lia.
  assert (N : w <> []) by (intros ->; cbn in L; lia). apply (Hl N). rewrite <- E. clear. unfold nthz, zlen. replace (Z.to_nat (Z.of_nat (length w) - 1)) with (length w - 1)%nat by lia.
  induction w as [|a [|b w] IH]; [reflexivity|reflexivity|]. change (last (a :: b :: w) 0) with (last (b :: w) 0). rewrite IH. cbn [length]. replace (S (S (length w)) - 1)%nat with (S (length w)) by lia. cbn [nth]. replace (S (length w) - 1)%nat with (length w) by lia. reflexivity.
Qed.
Lemma icut_fixed : forall n w i, canonical w -> 1 <= i < n -> zlen w <= n -> zlen (mulp (mulp (sp i) w) (sp i)) <= n.
Proof.
  intros n w i Hc Hi L. assert (Hi0 : 0 <= i) by lia. apply zlen_fixed; [auto 10 with perm|lia|]. intros x Hx. rewrite !mulp_call by auto 10 with perm. rewrite !sp_call by lia.
  rewrite (simple_out i x) by lia. rewrite pcall_out by lia. apply simple_out; lia.
Qed.
Lemma fpf_descents : forall n w i, fpf n w -> zlen w <= n -> 0 <= n -> 0 <= i -> descent (pcall w) i -> 1 <= i < n.
Proof.
  intros n w i Hw L Hn Hi D. pose proof Hw as [[Hc _] Hf]. unfold descent in D. destruct (Z.eqb_spec i 0) as [->|N].
  - exfalso. destruct (Z_le_gt_dec 1 n) as [Q|Q]; [destruct (Hf 1 ltac:(lia)); lia|]. rewrite pcall_out in D by lia. lia.
  - split; [lia|]. destruct (Z_lt_ge_dec i n) as [Q|Q]; [exact Q|]. exfalso. rewrite (pcall_out w (i + 1)) in D by lia.
    destruct (Z.eq_dec i n) as [->|]; [pose proof (fpf_values n w n Hw L ltac:(lia)); lia|]. rewrite pcall_out in D by lia. lia.
Qed.
Lemma is_fpf_true : forall n w, fpf n w -> zlen w <= n -> is_fpf_involution w = Ok true.
Proof.
  intros n w [Hz Hf] L. unfold is_fpf_involution. rewrite pinv_ok by apply Hz. cbn [rbind]. rewrite (invol_invp w Hz). unfold peq. rewrite (proj2 (zlist_eqb_eq _ _) eq_refl). cbn [andb]. f_equal. apply forallb_forall. intros x Hx. apply In_zrange in Hx.
  destruct (Hf x ltac:(lia)) as [_ N]. replace (pcall w x =? x) with false by lia. reflexivity.
Qed.

Definition W (n : Z) (w v : list Z) : Prop := Forall (fun i => 1 <= i < n) v /\ path (sact false) (s0 n) v = Some w.
Lemma W_gens : forall n v, Forall (fun i => 1 <= i < n) v -> gens v.
Proof. intros n v F. eapply Forall_impl; [|exact F]. cbn. intros; lia. Qed.

Lemma sact_icut : forall n w i, fpf n w -> 1 <= i < n -> pcall w i <> i + 1 -> descent (pcall w) i -> sact false (icut w i) i = Some w.
Proof.
  intros n w i Hw Hi N D. destruct (fpf_icut n w i Hw Hi N D) as (Ei & Fi & Ni & _). destruct (icut_ok w i (proj1 Hw) ltac:(lia) D) as (V & A & Ec & L).
  unfold sact. replace (pcall (icut w i) i =? i + 1) with false by lia. cbn [negb]. unfold iact. rewrite Ec. destruct (peq w (icut w i)) eqn:Q; [|reflexivity]. apply zlist_eqb_eq in Q. rewrite <- Q in L. lia.
Qed.
(* the last letter of a reduced word *)
Lemma sact_last : forall n u w i, fpf n u -> 1 <= i < n -> sact false u i = Some w -> fpf n w /\ descent (pcall w) i /\ pcall w i <> i + 1 /\ icut w i = u.
Proof.
  intros n u w i Hu Hi E. unfold sact in E. destruct (Z.eqb_spec (pcall u i) (i + 1)) as [|N]; [discriminate|]. cbn [negb] in E. unfold iact in E. cbn [orb] in E.
  destruct (peq (cj u i) u) eqn:Q; [discriminate|]. injection E as <-. pose proof (fpf_cj n u i Hu Hi N) as Hw.
  destruct (fpf_step n u i Hu Hi N) as [[_ Q2]|[A F]]; [exfalso; rewrite Q2 in Q; unfold peq in Q; rewrite (proj2 (zlist_eqb_eq _ _) eq_refl) in Q; discriminate|].
  assert (D : descent (pcall (cj u i)) i).
  { unfold descent. replace (i =? 0) with false by lia. rewrite !F, simple_i, simple_i1 by lia.
    destruct (Z_lt_ge_dec (simple i (pcall u i)) (simple i (pcall u (i + 1)))) as [G|G]; [exact G|]. exfalso. destruct (proj2 Hu i ltac:(lia)) as [P1 N1].
    destruct (simple_order i (pcall u i) (pcall u (i + 1)) ltac:(lia) A ltac:(lia)) as [[Q1 Q2]|[Q1 Q2]]; lia. }
  assert (N' : pcall (cj u i) i <> i + 1).
  { rewrite F, simple_i by lia. intro Q1. apply N. assert (Q2 : pcall u (i + 1) = i) by (apply (simple_inj i); [lia|]; rewrite Q1, simple_i by lia; reflexivity). rewrite <- Q2. rewrite (proj2 (proj1 Hu)). lia. }
  split; [exact Hw|]. split; [exact D|]. split; [exact N'|].
  destruct (fpf_icut n (cj u i) i Hw Hi N' D) as (Ei & Fi & _). apply canonical_ext; [apply Fi|apply Hu|]. intro x. rewrite Ei. assert (Hi0 : 0 <= i) by lia. pose proof (proj1 (proj1 Hw)) as Cw. rewrite !mulp_call by auto 10 with perm. rewrite !sp_call by lia. rewrite F. rewrite !simple_invol by lia. reflexivity.
Qed.
Lemma path_fpf : forall n v w, n mod 2 = 0 -> Forall (fun i => 1 <= i < n) v -> path (sact false) (s0 n) v = Some w -> fpf n w.
Proof.
  intros n v. induction v as [|i v IH] using rev_ind; intros w Hn F P; [injection P as <-; apply s0_fpf; assumption|].
  apply Forall_app in F as [Fv Fi]. inversion Fi; subst. rewrite path_snoc in P. destruct (path (sact false) (s0 n) v) as [u|] eqn:E; [|discriminate].
  apply (sact_last n u w i); [apply IH; auto|assumption|exact P].
Qed.
Lemma W_snoc : forall n w v i, n mod 2 = 0 -> (W n w (v ++ [i]) <-> 1 <= i < n /\ fpf n w /\ descent (pcall w) i /\ pcall w i <> i + 1 /\ W n (icut w i) v).
Proof.
  intros n w v i Hn. unfold W. rewrite Forall_app, path_snoc. split.
  - intros [[Fv Fi] P]. inversion Fi; subst. destruct (path (sact false) (s0 n) v) as [u|] eqn:E; [|discriminate].
    destruct (sact_last n u w i (path_fpf n v u Hn Fv E) H1 P) as (Fw & D & N & <-). auto 10.
  - intros (Hi & Fw & D & N & Fv & P). split; [split; [exact Fv|repeat constructor; lia]|]. rewrite P. apply (sact_icut n); assumption.
Qed.
Lemma W_nil : forall n w, W n w [] <-> w = s0 n.
Proof. intros n w. unfold W. cbn. split; [intros [_ E]; congruence|intros ->; auto]. Qed.

Lemma fpf_peq : forall n w, fpf n w -> zlen w <= n -> 0 <= n -> n mod 2 = 0 -> filter (fun i => negb (pcall w i =? i + 1)) (rdes w) = [] -> w = s0 n.
Proof.
  intros n w Hw L H0 Hn E. apply terminal; [assumption|assumption|assumption|assumption|]. intros i Hi D.
  destruct (Z.eq_dec (pcall w i) (i + 1)) as [Q|Q]; [exact Q|]. exfalso. assert (In i (filter (fun i => negb (pcall w i =? i + 1)) (rdes w))) as Hin.
  { apply filter_In. split; [apply rdes_spec; [apply Hw|split; [lia|exact D]]|]. replace (pcall w i =? i + 1) with false by lia. reflexivity. }
  rewrite E in Hin. destruct Hin.
Qed.

Lemma get_fpf_word_ok : forall fuel n w, 0 <= n -> n mod 2 = 0 -> fpf n w -> zlen w <= n -> ell w < Z.of_nat fuel -> exists v, get_fpf_involution_word fuel w = Ok v /\ W n w v.
Proof.
  induction fuel as [|fuel IH]; intros n w H0 Hn Hw L Hf; [pose proof (ell_nonneg w); lia|]. pose proof Hw as [Hz _]. pose proof Hz as [Hc Hv].
  cbn [get_fpf_involution_word]. rewrite (is_fpf_true n) by assumption. cbn [rbind negb]. rewrite ldes_ok by assumption. cbn [rbind]. rewrite (invol_invp w Hz).
  destruct (filter (fun i => negb (pcall w i =? i + 1)) (rdes w)) as [|d0 d] eqn:Ed.
  - exists []. split; [reflexivity|]. apply W_nil. apply fpf_peq; assumption.
  - set (i := zmin (d0 :: d)). assert (Hd : In i (filter (fun i => negb (pcall w i =? i + 1)) (rdes w))) by (rewrite Ed; apply zmin_In; discriminate). apply filter_In in Hd as [Hd N]. apply rdes_spec in Hd; [|apply Hc]. destruct Hd as [Hi D].
    pose proof (fpf_descents n w i Hw L H0 Hi D) as Ri. assert (N' : pcall w i <> i + 1) by lia.
    rewrite sp_ok by assumption. cbn [rbind]. rewrite !pmul_ok by auto 10 with perm. cbn [rbind]. rewrite !pmul_ok by auto 10 with perm. cbn [rbind].
    destruct (fpf_icut n w i Hw Ri N' D) as (Ei & Fi & _). destruct (icut_ok w i Hz Hi D) as (_ & _ & _ & Li).
    destruct (IH n (icut w i) H0 Hn Fi ltac:(rewrite Ei; apply icut_fixed; assumption) ltac:(lia)) as (v & Ev & Wv). rewrite <- Ei, Ev. cbn [rbind]. exists (v ++ [i]). split; [reflexivity|].
    apply W_snoc; auto 10.
Qed.

(* ---- from_fpf_involution_word ---- *)
Definition word_rank (v : list Z) : Z :=
  let n := match v with [] => 0 | a :: r => 1 + fold_left Z.max r a end in if n mod 2 =? 0 then n else n + 1.
Lemma fold_max_ge : forall l a x, x = a \/ In x l -> x <= fold_left Z.max l a.
Proof.
  induction l as [|b l IH]; intros a x H; cbn; [destruct H as [->|[]]; lia|]. destruct H as [->|[->|H]].
  - specialize (IH (Z.max a b) (Z.max a b) (or_introl eq_refl)). lia.
  - specialize (IH (Z.max a x) (Z.max a x) (or_introl eq_refl)). lia.
  - apply IH. tauto.
Qed.
Lemma word_rank_ok : forall v, Forall (fun i => 1 <= i) v -> 0 <= word_rank v /\ word_rank v mod 2 = 0 /\ Forall (fun i => 1 <= i < word_rank v) v.
Proof.
  intros v F. assert (G : forall x, In x v -> 1 <= x) by (apply Forall_forall; exact F).
  assert (K : let n := match v with [] => 0 | a :: r => 1 + fold_left Z.max r a end in 0 <= n /\ forall x, In x v -> x < n).
  { destruct v as [|a r]; cbn zeta; [split; [lia|intros x []]|]. pose proof (fold_max_ge r a a (or_introl eq_refl)). pose proof (G a (or_introl eq_refl)). split; [lia|]. intros x Hx. pose proof (fold_max_ge r a x). destruct Hx as [->|Hx]; [lia|]. specialize (H1 (or_intror Hx)). lia. }
  cbn zeta in K. unfold word_rank. set (n := match v with [] => 0 | a :: r => 1 + fold_left Z.max r a end) in *. destruct K as [K1 K2]. cbn zeta.
  destruct (Z.eqb_spec (n mod 2) 0) as [E|E].
  - split; [lia|]. split; [exact E|]. apply Forall_forall. intros x Hx. specialize (G x Hx). specialize (K2 x Hx). lia.
  - split; [lia|]. split; [|apply Forall_forall; intros x Hx; specialize (G x Hx); specialize (K2 x Hx); lia].
    pose proof (Z.mod_pos_bound n 2 ltac:(lia)). assert (n mod 2 = 1) by lia. rewrite Zplus_mod, H0. reflexivity.
Qed.
Lemma from_fpf_unfold : forall v strict, Forall (fun i => 1 <= i) v -> from_fpf_involution_word v strict = from_fpf_loop strict v (s0 (word_rank v)).
Proof.
  intros v strict F. destruct (word_rank_ok v F) as (_ & M & _). destruct (s0_ok _ M) as (_ & _ & E). unfold from_fpf_involution_word. fold (word_rank v). rewrite E. reflexivity.
Qed.
Lemma loop_fpf_strict : forall n v a, fpf n a -> Forall (fun i => 1 <= i < n) v -> from_fpf_loop true v a = Ok (path (sact false) a v).
Proof.
  intro n. induction v as [|i v IH]; intros a Ha F; [reflexivity|]. inversion F as [|? ? Hi F']; subst. pose proof Ha as [Hz Hf]. pose proof Hz as [Hc Hv]. assert (Hi0 : 0 <= i) by lia.
  cbn [from_fpf_loop path]. rewrite sp_ok by assumption. cbn [rbind]. rewrite memz_rdes by assumption. rewrite !andb_true_r. unfold sact at 1.
  destruct (descb (pcall a) i) eqn:E.
  - apply descb_spec in E. destruct (negb (pcall a i =? i + 1)); [|reflexivity]. unfold iact. rewrite (cj_descent _ _ E). unfold peq. rewrite (proj2 (zlist_eqb_eq _ _) eq_refl). reflexivity.
  - apply descb_false in E. assert (A : pcall a i < pcall a (i + 1)).
    { unfold descent in E. replace (i =? 0) with false in E by lia. assert (pcall a i <> pcall a (i + 1)) by (intro Q; apply (pcall_inj a) in Q; [lia|apply Hc]). lia. }
    destruct (Hf i ltac:(lia)) as [P1 N1]. assert (N : pcall a i <> i + 1).
    { intro Q. assert (Q2 : pcall a (i + 1) = i) by (rewrite <- Q; apply Hv). lia. }
    replace (pcall a i =? i + 1) with false by lia. cbn [negb]. rewrite !pmul_ok by auto 10 with perm. cbn [rbind].
    assert (NC : peq (mulp (sp i) a) (mulp a (sp i)) = false).
    { destruct (peq (mulp (sp i) a) (mulp a (sp i))) eqn:Q; [|reflexivity]. exfalso. apply zlist_eqb_eq in Q. assert (Q' : peq (mulp a (sp i)) (mulp (sp i) a) = true) by (apply zlist_eqb_eq; auto).
      pose proof (proj1 (icut_comm a i Hc Hi0) Q' i) as C. rewrite simple_i in C by lia. unfold simple in C. replace (i =? 0) with false in C by lia. repeat match type of C with context [?a =? ?b] => destruct (Z.eqb_spec a b) end; lia. }
    rewrite NC. rewrite pmul_ok by auto 10 with perm. cbn [rbind].
    pose proof (tw_cj a i Hz Hi0 E) as T. unfold tw in T. rewrite NC in T. rewrite T.
    assert (Nq : peq (cj a i) a = false). { destruct (peq (cj a i) a) eqn:Q; [|reflexivity]. apply zlist_eqb_eq in Q. pose proof (cj_ascent a i Hz Hi0 E) as L. rewrite Q in L. lia. }
    unfold iact. rewrite Nq. cbn [orb negb]. apply IH; [apply fpf_cj; assumption|exact F'].
Qed.
Lemma loop_fpf_lenient : forall v a, canonical a -> gens v -> exists b, from_fpf_loop false v a = Ok (Some b) /\ canonical b /\ forall x, pcall b x = fold_left (fun y i => simple i y) v (pcall a (fold_right simple x v)).
Proof.
  induction v as [|i v IH]; intros a Hc G; [exists a; auto|]. inversion G as [|? ? Hi G']; subst. cbn [from_fpf_loop]. rewrite sp_ok by assumption. cbn [rbind]. rewrite !andb_false_r. rewrite !pmul_ok by auto 10 with perm. cbn [rbind]. rewrite !andb_false_r. rewrite pmul_ok by auto 10 with perm. cbn [rbind].
  destruct (IH (mulp (mulp (sp i) a) (sp i)) ltac:(auto 10 with perm) G') as (b & Eb & Cb & Fb). exists b. split; [exact Eb|]. split; [exact Cb|]. intro x. rewrite Fb. cbn [fold_left fold_right]. rewrite !mulp_call by auto 10 with perm. rewrite !sp_call by assumption. reflexivity.
Qed.
