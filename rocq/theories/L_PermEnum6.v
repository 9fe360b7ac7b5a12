(* fpf_involutions *)
From Coq Require Import List ZArith Lia Bool Permutation Arith.
From Verif Require Import PyBase M_Partitions M_Symmetric L_PartEnum M_Perm S_Perm L_Perm L_PermLen L_PermWord L_PermMisc L_Levels L_LevelsInst P_Levels L_PermActs L_InvLen L_InvLen2 L_InvLen3 S_Bruhat S_InvWords L_InvLen4 M_Bruhat L_Bruhat L_Bruhat2 M_PermEnum L_PermEnum1 L_PermEnum2 L_PermEnum3 L_PermEnum4.
Import ListNotations.
Local Open Scope Z_scope.

Definition add1 (acc : list (list Z)) (v : list Z) : list (list Z) := if existsb (zlist_eqb v) acc then acc else acc ++ [v].
Lemma add1_ok : forall l acc, NoDup acc -> NoDup (fold_left add1 l acc) /\ forall v, In v (fold_left add1 l acc) <-> In v acc \/ In v l.
Proof.
  induction l as [|x l IH]; intros acc N; cbn [fold_left In]; [split; [exact N|intro; tauto]|]. unfold add1 at 2 4. destruct (existsb (zlist_eqb x) acc) eqn:E.
  - apply existsb_zlist in E. destruct (IH acc N) as [N' C]. split; [exact N'|]. intro v. rewrite C. intuition congruence.
  - assert (E' : ~ In x acc) by (rewrite <- existsb_zlist; congruence). destruct (IH (acc ++ [x])) as [N' C]; [apply NoDup_app_intro; [exact N|repeat constructor; intros []|intros y Hy [<-|[]]; contradiction]|]. split; [exact N'|]. intro v. rewrite C, in_app_iff. cbn [In]. tauto.
Qed.
Lemma rfold_add : forall (A : Type) (f : list (list Z) -> A -> res (list (list Z))) (g : A -> list (list Z)) l acc,
  (forall acc x, In x l -> f acc x = Ok (fold_left add1 (g x) acc)) -> rfold f l acc = Ok (fold_left add1 (flat_map g l) acc).
Proof.
  intros A f g. induction l as [|x l IH]; intros acc H; [reflexivity|]. cbn [rfold flat_map]. rewrite H by (left; reflexivity). cbn [rbind]. rewrite fold_left_app. apply IH. intros; apply H; right; assumption.
Qed.

Section Fpf.
  Variable ord : list (list Z) -> list (list Z).
  Hypothesis Hord : forall l, Permutation (ord l) l.
  Variable n : Z.
  Hypothesis Hn : 0 <= n.
  Hypothesis Ev : n mod 2 = 0.
  Definition F (z : list Z) : Prop := fpf n z /\ zlen z <= n.
  Lemma F_asc : forall z i, F z -> 1 <= i < n -> pcall z i < pcall z (i + 1) -> mulp (mulp (sp i) z) (sp i) = cj z i /\ F (cj z i) /\ il2 (cj z i) = il2 z + 2.
  Proof.
    intros z i [Hz Lz] Hi A. pose proof Hz as [Vz Fz]. pose proof Vz as [Cz Iz]. assert (N : pcall z i <> i + 1). { intro Q. assert (Q2 : pcall z (i + 1) = i) by (rewrite <- Q; apply Iz). lia. }
    assert (Cc : canonical (cj z i)) by (apply cj_rel; [exact Vz|lia]). destruct (fpf_step n z i Hz Hi N) as [[D _]|[_ E]]; [lia|].
    assert (Csp : canonical (sp i)) by (apply sp_canonical; lia).
    assert (Eq : mulp (mulp (sp i) z) (sp i) = cj z i). { apply canonical_ext; [auto 10 with perm|exact Cc|]. intro x. rewrite E. rewrite !mulp_call by auto 10 with perm. rewrite !sp_call by lia. reflexivity. }
    split; [exact Eq|]. split; [split; [apply fpf_cj; assumption|rewrite <- Eq; apply icut_fixed; assumption]|]. apply cj_ascent; [exact Vz|lia|]. unfold descent. replace (i =? 0) with false by lia. lia.
  Qed.
  Lemma F_down : forall w, F w -> w <> s0 n -> exists z i, F z /\ 1 <= i < n /\ pcall z i < pcall z (i + 1) /\ cj z i = w /\ il2 w = il2 z + 2.
  Proof.
    intros w [Hw Lw] Nw. destruct (filter (fun i => descb (pcall w) i && negb (pcall w i =? i + 1)) (zrange 1 n)) as [|i l] eqn:E.
    - exfalso. apply Nw. apply terminal; try assumption. intros i Hi D. destruct (Z.eq_dec (pcall w i) (i + 1)) as [Q|Q]; [exact Q|]. exfalso.
      assert (I : In i (filter (fun i => descb (pcall w) i && negb (pcall w i =? i + 1)) (zrange 1 n))); [|rewrite E in I; destruct I]. apply filter_In. split; [apply In_zrange; lia|]. apply andb_true_iff. split; [apply descb_spec; exact D|]. apply negb_true_iff. apply Z.eqb_neq. exact Q.
    - assert (I : In i (filter (fun i => descb (pcall w) i && negb (pcall w i =? i + 1)) (zrange 1 n))) by (rewrite E; left; reflexivity). apply filter_In in I. destruct I as [Hi I]. apply In_zrange in Hi. apply andb_true_iff in I. destruct I as [D Q]. apply descb_spec in D. apply negb_true_iff in Q. apply Z.eqb_neq in Q.
      destruct (fpf_icut n w i Hw Hi Q D) as (Ei & Fi & _). destruct (icut_ok w i (proj1 Hw) ltac:(lia) D) as (V & A & Ec & L).
      exists (icut w i), i. pose proof (cj_ascent _ i V ltac:(lia) A) as IL. rewrite Ec in IL. split; [split; [exact Fi|rewrite Ei; apply icut_fixed; [apply Hw|exact Hi|exact Lw]]|]. split; [exact Hi|]. split; [|split; [exact Ec|exact IL]].
      unfold descent in A. replace (i =? 0) with false in A by lia. assert (pcall (icut w i) i <> pcall (icut w i) (i + 1)); [|lia]. intro K. apply pcall_inj in K; [lia|apply V].
  Qed.
  Lemma s0_F : F (s0 n).
  Proof.
    split; [apply s0_fpf; exact Ev|]. apply fix_len; [exact Hn|apply (s0_fpf n Ev)|]. intros x Hx. rewrite s0_call by exact Ev. apply matching_out. lia.
  Qed.
  Lemma F_level : forall m w, (Z.to_nat (il2 w) <= m)%nat -> F w -> exists j, 0 <= j /\ il2 w = n + 2 * j.
  Proof.
    induction m as [|m IH]; intros w L Fw; (destruct (list_eq_dec Z.eq_dec w (s0 n)) as [->|N]; [exists 0; rewrite il2_s0 by assumption; lia|]); destruct (F_down w Fw N) as (z & i & Fz & _ & _ & _ & E); pose proof (il2_nonneg z); [lia|].
    destruct (IH z ltac:(lia) Fz) as (j & Hj & Ej). exists (j + 1). lia.
  Qed.
  Lemma F_pass : forall m w k, (Z.to_nat (il2 w) <= m)%nat -> F w -> 0 <= k -> n + 2 * k <= il2 w -> exists z, F z /\ il2 z = n + 2 * k.
  Proof.
    induction m as [|m IH]; intros w k L Fw Hk G; destruct (F_level _ w (le_n _) Fw) as (j & Hj & Ej); (destruct (Z.eq_dec j k) as [->|Njk]; [exists w; split; assumption|]); (destruct (list_eq_dec Z.eq_dec w (s0 n)) as [->|N]; [rewrite il2_s0 in Ej, G by assumption; lia|]);
      destruct (F_down w Fw N) as (z & i & Fz & _ & _ & _ & E); pose proof (il2_nonneg z); [lia|]. apply (IH z k); [lia|exact Fz|exact Hk|lia].
  Qed.

  Definition succs (z : list Z) : list (list Z) := map (cj z) (filter (fun i => pcall z i <? pcall z (i + 1)) (zrange 1 n)).
  Lemma next_crop_ok : forall crop k, NoDup crop -> (forall z, In z crop <-> F z /\ il2 z = n + 2 * k) -> 0 <= k ->
    exists crop', next_crop ord n crop = Ok crop' /\ NoDup crop' /\ forall z, In z crop' <-> F z /\ il2 z = n + 2 * (k + 1).
  Proof.
    intros crop k N C Hk. exists (fold_left add1 (flat_map succs (ord crop)) []). destruct (add1_ok (flat_map succs (ord crop)) [] (NoDup_nil _)) as [N' C']. split; [|split; [exact N'|]].
    - unfold next_crop. apply rfold_add. intros acc z Hz. apply (Permutation_in z (Hord crop)) in Hz. apply C in Hz. destruct Hz as [Fz _].
      unfold succs. rewrite <- flat_map_single. assert (G : forall l, (forall i, In i l -> 1 <= i < n) -> forall acc,
        rfold (fun acc i => if pcall z i <? pcall z (i + 1) then do s <- s_i i; do sz <- pmul s z; do s' <- s_i i; do v <- pmul sz s'; Ok (if existsb (zlist_eqb v) acc then acc else acc ++ [v]) else Ok acc) l acc =
        Ok (fold_left add1 (flat_map (fun i => [cj z i]) (filter (fun i => pcall z i <? pcall z (i + 1)) l)) acc)).
      { induction l as [|i l IH]; intros Hl acc'; [reflexivity|]. cbn [rfold filter]. assert (Hi : 1 <= i < n) by (apply Hl; left; reflexivity). destruct (Z.ltb_spec (pcall z i) (pcall z (i + 1))) as [A|A].
        - rewrite sp_ok by lia. cbn [rbind]. assert (Cz : canonical z) by apply Fz. assert (Csp : canonical (sp i)) by (apply sp_canonical; lia). rewrite pmul_ok by auto with perm. cbn [rbind]. rewrite pmul_ok by auto 10 with perm. cbn [rbind].
          rewrite (proj1 (F_asc z i Fz Hi A)). cbn [flat_map app fold_left]. rewrite IH by (intros; apply Hl; right; assumption). reflexivity.
        - cbn [rbind]. apply IH. intros; apply Hl; right; assumption. }
      apply G. intros i Hi. apply In_zrange in Hi. lia.
    - intro v. rewrite C'. cbn [In]. rewrite in_flat_map. split.
      + intros [[]|(z & Hz & Hv)]. apply (Permutation_in z (Hord crop)) in Hz. apply C in Hz. destruct Hz as [Fz Ez]. unfold succs in Hv. apply in_map_iff in Hv. destruct Hv as (i & <- & Hi). apply filter_In in Hi. destruct Hi as [Hi A]. apply In_zrange in Hi. apply Z.ltb_lt in A.
        destruct (F_asc z i Fz Hi A) as (_ & Fc & Ec). split; [exact Fc|lia].
      + intros [Fv Evv]. right. destruct (F_down v Fv) as (z & i & Fz & Hi & A & Ec & E); [intros ->; rewrite il2_s0 in Evv by assumption; lia|]. exists z. split.
        * apply (Permutation_in z (Permutation_sym (Hord crop))). apply C. split; [exact Fz|lia].
        * unfold succs. apply in_map_iff. exists i. split; [exact Ec|]. apply filter_In. split; [apply In_zrange; lia|]. apply Z.ltb_lt. exact A.
  Qed.
  Lemma loop_levels : forall fuel M, (forall z, F z -> il2 z <= M) -> forall crop k, 0 <= k -> NoDup crop -> (forall z, In z crop <-> F z /\ il2 z = n + 2 * k) -> M < n + 2 * k + 2 * Z.of_nat fuel ->
    exists R, (forall fuel' ans, (fuel <= fuel')%nat -> fpf_loop ord fuel' n crop ans = Ok (ans ++ R)) /\ NoDup R /\ forall z, In z R <-> F z /\ n + 2 * k <= il2 z.
  Proof.
    induction fuel as [|fuel IH]; intros M HM crop k Hk N C B.
    - exists []. assert (Em : forall z, ~ (F z /\ n + 2 * k <= il2 z)) by (intros z [Fz G]; apply HM in Fz; lia). assert (crop = []) as ->. { destruct crop as [|z crop]; [reflexivity|]. exfalso. destruct (proj1 (C z) (or_introl eq_refl)) as [Fz E]. apply (Em z). split; [exact Fz|lia]. }
      split; [intros [|f] ans _; cbn [fpf_loop]; rewrite app_nil_r; reflexivity|]. split; [constructor|]. intro z. split; [intros []|apply Em].
    - destruct (next_crop_ok crop k N C Hk) as (crop' & E & N' & C'). destruct crop as [|z0 crop0] eqn:Ecr.
      + exists []. split; [intros [|f] ans _; cbn [fpf_loop]; rewrite app_nil_r; reflexivity|]. split; [constructor|]. intro z. split; [intros []|]. intros [Fz G]. destruct (F_pass _ z k (le_n _) Fz Hk G) as (y & Fy & Ey). exact (proj2 (C y) (conj Fy Ey)).
      + rewrite <- Ecr in *. destruct (IH M HM crop' (k + 1) ltac:(lia) N' C' ltac:(lia)) as (R & ER & NR & CR). exists (ord crop ++ R). split; [|split].
        * intros [|f] ans Hf; [lia|]. rewrite Ecr at 1. cbn [fpf_loop]. rewrite <- Ecr. rewrite E. cbn [rbind]. rewrite ER by lia. rewrite app_assoc. reflexivity.
        * apply NoDup_app_intro; [apply Permutation_NoDup with crop; [apply Permutation_sym; apply Hord|exact N]|exact NR|]. intros z H1 H2. apply (Permutation_in z (Hord crop)) in H1. apply C in H1. apply CR in H2. lia.
        * intro z. rewrite in_app_iff, CR. assert (P : In z (ord crop) <-> In z crop) by (split; apply Permutation_in; [|apply Permutation_sym]; apply Hord). rewrite P, C. split; [intros [[Fz E1]|[Fz E1]]; (split; [exact Fz|lia])|].
          intros [Fz G]. destruct (F_level _ z (le_n _) Fz) as (j & Hj & Ej). destruct (Z.eq_dec j k) as [->|]; [left; split; assumption|right; split; [exact Fz|lia]].
  Qed.
  Lemma F_finite : exists M, forall z, F z -> il2 z <= M.
  Proof.
    destruct (unsigned_fpf_ok n Hn) as (R & _ & C & _). exists (fold_right Z.max 0 (map il2 R)). intros z [[[Cz Iz] Fz] Lz]. assert (I : In z R) by (apply C; split; [exact Cz|]; split; [split; assumption|exact Lz]).
    clear - I. induction R as [|a R IH]; [destruct I|]. cbn [map fold_right]. destruct I as [->|I]; [lia|]. specialize (IH I). lia.
  Qed.
  Lemma minfpf_ok : minfpf n = Ok (s0 n).
  Proof.
    unfold minfpf. rewrite Ev. cbn [Z.eqb]. destruct s0_F as [Fs Ls]. destruct (line_full (s0 n) n) as (S & _ & E); [apply Fs|exact Ls|].
    replace (map (fun i => i + (if i mod 2 =? 0 then -1 else 1)) (zrange 1 (n + 1))) with (line (pcall (s0 n)) n); [rewrite mkperm_ok by exact S; f_equal; exact E|].
    unfold line. apply map_ext_in. intros x Hx. apply In_zrange in Hx. rewrite s0_call by exact Ev. destruct (odd_even_dec n x Ev ltac:(lia)) as [[O L]|[O L]].
    - rewrite matching_odd by (assumption || lia). rewrite Zodd_mod in O. apply Zeq_bool_eq in O. rewrite O. reflexivity.
    - rewrite matching_even by (assumption || lia). rewrite Zodd_mod in O. destruct (Z.eqb_spec (x mod 2) 0) as [Q|Q]; [lia|]. exfalso. pose proof (Z.mod_pos_bound x 2 ltac:(lia)). assert (x mod 2 = 1) as Q1 by lia. rewrite Q1 in O. discriminate.
  Qed.
  Lemma fpf_even_ok : exists R N, NoDup R /\ (forall z, In z R <-> F z) /\ forall fuel, (N <= fuel)%nat -> fpf_involutions ord fuel n = Ok R.
  Proof.
    destruct F_finite as (M & HM). destruct (loop_levels (Z.to_nat (M + 1)) M HM [s0 n] 0 ltac:(lia)) as (R & ER & NR & CR).
    - repeat constructor. intros [].
    - intro z. cbn [In]. split; [intros [<-|[]]; split; [apply s0_F|rewrite il2_s0 by assumption; lia]|]. intros [Fz E]. left. destruct (list_eq_dec Z.eq_dec z (s0 n)) as [->|N]; [reflexivity|]. exfalso. destruct (F_down z Fz N) as (y & i & Fy & _ & _ & _ & Ey). destruct (F_level _ y (le_n _) Fy) as (j & Hj & Ej). lia.
    - pose proof (HM (s0 n) s0_F). pose proof (il2_nonneg (s0 n)). lia.
    - exists R, (Z.to_nat (M + 1)). split; [exact NR|]. split.
      + intro z. rewrite CR. split; [tauto|]. intro Fz. split; [exact Fz|]. destruct (F_level _ z (le_n _) Fz) as (j & Hj & Ej). lia.
      + intros fuel Hf. unfold fpf_involutions. rewrite Ev. cbn [Z.eqb negb]. rewrite minfpf_ok. cbn [rbind]. rewrite ER by exact Hf. reflexivity.
  Qed.
End Fpf.
Lemma fpf_involutions_ok : forall ord n, (forall l, Permutation (ord l) l) -> 0 <= n -> exists R N, NoDup R /\ (forall z, In z R <-> canonical z /\ fpf_on n (pcall z) /\ zlen z <= n) /\ forall fuel, (N <= fuel)%nat -> fpf_involutions ord fuel n = Ok R.
Proof.
  intros ord n Hord Hn. destruct (Z.eq_dec (n mod 2) 0) as [Ev|Od].
  - destruct (fpf_even_ok ord Hord n Hn Ev) as (R & N & NR & CR & ER). exists R, N. split; [exact NR|]. split; [|exact ER]. intro z. rewrite CR. unfold F, fpf, fpf_on, invol. tauto.
  - destruct (unsigned_fpf_ok n Hn) as (R & NR & CR & ER). exists R, 0%nat. split; [exact NR|]. split; [exact CR|]. intros fuel _. specialize (ER _ (le_n _)). unfold involutions_unsigned in ER. unfold fpf_involutions. destruct (Z.eqb_spec (n mod 2) 0); [contradiction|]. exact ER.
Qed.
