From Coq Require Import List ZArith Bool Lia Permutation Sorted.
From Verif Require Import PyBase M_Partitions S_Partitions L_PartMore M_Perm M_PermGroth M_Bruhat S_Perm S_Bruhat L_Words2 L_Perm L_PermLen L_PermWord L_PermMisc L_LevelsInst L_PermActs L_InvLen L_InvLen2 L_InvLen4 L_InvLen6 L_Bruhat L_Bruhat2 L_PermEnum2 M_Grass S_Grass L_Grass1 L_Grass2 L_Grass3 L_Grass4 L_Grass5.
From Verif Require L_PartBasic L_Partitions L_Tableaux P_Partitions L_Generate.
Import ListNotations.
Local Open Scope Z_scope.

Definition fixl (u : list Z) (n : Z) : list Z := filter (fun i => pcall u i =? i) (zrange 1 (n + 1)).
Lemma fixl_In : forall u n x, In x (fixl u n) <-> 1 <= x <= n /\ pcall u x = x.
Proof. intros u n x. unfold fixl. rewrite filter_In, In_zrange, Z.eqb_eq. intuition lia. Qed.
Lemma fixl_sorted : forall u n, StronglySorted Z.lt (fixl u n).
Proof. intros u n. apply lt_filter, zrange_lt. Qed.
Lemma fpf_bool : forall u, invol u -> is_fpf_involution u = Ok (forallb (fun i => negb (pcall u i =? i)) (zrange 1 (zlen u + 1))).
Proof. intros u V. unfold is_fpf_involution. rewrite pinv_ok by apply V. cbn [rbind]. rewrite (invol_invp u V), peq_refl. reflexivity. Qed.
Lemma fpf_fixl : forall u, invol u -> fixl u (zlen u) = [] -> is_fpf_involution u = Ok true.
Proof. intros u V E. rewrite fpf_bool by exact V. f_equal. apply forallb_forall. intros x Hx. apply In_zrange in Hx. destruct (Z.eqb_spec (pcall u x) x) as [e|]; [|reflexivity]. assert (K : In x (fixl u (zlen u))) by (apply fixl_In; split; [lia|exact e]). rewrite E in K. destruct K. Qed.
Lemma fpf_fixl_no : forall u a l, invol u -> fixl u (zlen u) = a :: l -> is_fpf_involution u = Ok false.
Proof.
  intros u a l V E. rewrite fpf_bool by exact V. f_equal. destruct (forallb (fun i => negb (pcall u i =? i)) (zrange 1 (zlen u + 1))) eqn:F; [|reflexivity]. exfalso. assert (K : In a (fixl u (zlen u))) by (rewrite E; left; reflexivity). apply fixl_In in K. rewrite forallb_forall in F. specialize (F a ltac:(apply In_zrange; lia)). rewrite (proj2 K), Z.eqb_refl in F. discriminate.
Qed.
Lemma sorted_ext_lt : forall l m, StronglySorted Z.lt l -> StronglySorted Z.lt m -> (forall x, In x l <-> In x m) -> l = m.
Proof.
  induction l as [|a l IH]; intros [|b m] Sl Sm H; [reflexivity|destruct (proj2 (H b) (or_introl eq_refl))|destruct (proj1 (H a) (or_introl eq_refl))|].
  inversion Sl as [|? ? S1 F1]; subst. inversion Sm as [|? ? S2 F2]; subst. rewrite Forall_forall in F1, F2.
  assert (a = b). { destruct (proj1 (H a) (or_introl eq_refl)) as [E|E]; [congruence|]. destruct (proj2 (H b) (or_introl eq_refl)) as [E'|E']; [congruence|]. specialize (F1 b E'). specialize (F2 a E). lia. }
  subst b. f_equal. apply IH; [assumption|assumption|]. intro x. split; intro Hx.
  - destruct (proj1 (H x) (or_intror Hx)) as [E|E]; [subst; specialize (F1 x Hx); lia|exact E].
  - destruct (proj2 (H x) (or_intror Hx)) as [E|E]; [subst; specialize (F2 x Hx); lia|exact E].
Qed.
Lemma last_nthz : forall u : list Z, u <> [] -> last u 0 = nthz u (zlen u - 1).
Proof. intros u N. destruct (exists_last N) as (l & x & ->). rewrite last_last, zlen_app. change (zlen [x]) with 1. rewrite nthz_app2 by lia. replace (zlen l + 1 - 1 - zlen l) with 0 by lia. reflexivity. Qed.
Definition matched (n : Z) (u v : list Z) : Prop := forall x, 1 <= x <= n -> pcall u x = x -> pcall v x <> x /\ 1 <= pcall v x <= n /\ pcall u (pcall v x) = pcall v x /\
  forall y, 1 <= y <= n -> pcall u y = y -> ~ x < y < pcall v x /\ ~ pcall v x < y < x.
Lemma pair_up_ok : forall k fuel u, invol u -> positive u -> length (fixl u (zlen u)) = (2 * k)%nat -> (k < fuel)%nat ->
  exists v, pair_up fuel u = Ok v /\ invol v /\ positive v /\ zlen v = zlen u /\ (forall x, 1 <= x <= zlen u -> pcall u x <> x -> pcall v x = pcall u x) /\ matched (zlen u) u v.
Proof.
  induction k as [|k IH]; intros fuel u V P L Hf; (destruct fuel as [|fuel]; [lia|]); cbn [pair_up].
  - assert (E : fixl u (zlen u) = []) by (destruct (fixl u (zlen u)); [reflexivity|cbn in L; lia]). rewrite fpf_fixl by assumption. cbn [rbind]. exists u. split; [reflexivity|]. split; [exact V|]. split; [exact P|]. split; [reflexivity|]. split; [reflexivity|].
    intros x Hx Ex. assert (K : In x (fixl u (zlen u))) by (apply fixl_In; split; assumption). rewrite E in K. destruct K.
  - destruct (fixl u (zlen u)) as [|a [|b F]] eqn:E; [cbn in L; lia|cbn in L; lia|]. rewrite (fpf_fixl_no u a (b :: F) V E). cbn [rbind].
    rewrite (zrange_snoc 1 (zlen u + 2)) by (pose proof (zlen_nonneg _ u); lia). replace (zlen u + 2 - 1) with (zlen u + 1) by lia. rewrite filter_app. fold (fixl u (zlen u)). rewrite E. cbn [app].
    pose proof (fixl_sorted u (zlen u)) as S. rewrite E in S. inversion S as [|? ? S1 F1]; subst. inversion S1 as [|? ? S2 F2]; subst. rewrite Forall_forall in F1, F2. assert (Lab : a < b) by (apply F1; left; reflexivity).
    assert (Ia : 1 <= a <= zlen u /\ pcall u a = a) by (apply fixl_In; rewrite E; left; reflexivity). assert (Ib : 1 <= b <= zlen u /\ pcall u b = b) by (apply fixl_In; rewrite E; right; left; reflexivity).
    assert (IF : forall x, In x F -> 1 <= x <= zlen u /\ pcall u x = x /\ b < x) by (intros x Hx; pose proof (F2 x Hx); assert (In x (fixl u (zlen u))) as K by (rewrite E; right; right; exact Hx); apply fixl_In in K; tauto).
    assert (Only : forall x, 1 <= x <= zlen u -> pcall u x = x -> x = a \/ x = b \/ In x F). { intros x Hx Ex. assert (K : In x (fixl u (zlen u))) by (apply fixl_In; split; assumption). rewrite E in K. cbn [In] in K. intuition congruence. }
    rewrite transposition_ok by lia. cbn [rbind]. pose proof (trp_canonical a b ltac:(lia)) as Ct. rewrite pmul_ok by (apply V || apply Ct). cbn [rbind]. set (u' := mulp u (trp a b)).
    assert (U : forall x, pcall u' x = pcall u (refl a b x)) by (intro x; unfold u'; rewrite mulp_call by (apply V || apply Ct); rewrite trp_call by lia; reflexivity).
    assert (Ua : pcall u' a = b) by (rewrite U, refl_a; apply Ib). assert (Ub : pcall u' b = a) by (rewrite U, refl_b; apply Ia).
    assert (Uo : forall x, 0 < x -> x <> a -> x <> b -> pcall u' x = pcall u x) by (intros x Hx Na Nb; rewrite U, refl_other by lia; reflexivity).
    assert (P' : positive u'). { apply pos_word. intros i Hi. rewrite U. apply pos_call; [exact P|]. rewrite refl_pos by lia. destruct (i =? a); [lia|]. destruct (i =? b); lia. }
    assert (C' : canonical u') by (apply mulp_canonical; [apply V|apply Ct]).
    assert (V' : invol u').
    { split; [exact C'|]. assert (Q : forall x, 0 < x -> pcall u' (pcall u' x) = x).
      { intros x Hx. destruct (Z.eq_dec x a) as [->|Na]; [rewrite Ua; exact Ub|]. destruct (Z.eq_dec x b) as [->|Nb]; [rewrite Ub; exact Ua|]. rewrite (Uo x) by assumption. pose proof (pos_call u x P Hx). rewrite Uo; [apply V|lia| |].
        - intro K. apply Na. rewrite <- (proj2 V x), K. apply Ia.
        - intro K. apply Nb. rewrite <- (proj2 V x), K. apply Ib. }
      intro x. destruct (Z.lt_total x 0) as [h|[->|h]]; [|rewrite !pcall_zero; reflexivity|apply Q; exact h]. specialize (Q (- x) ltac:(lia)). rewrite !pcall_odd in Q. lia. }
    assert (Z' : zlen u' = zlen u).
    { assert (K : zlen u' <= zlen u). { apply zlen_fixed; [exact C'|lia|]. intros x Hx. rewrite Uo by lia. apply pcall_out. lia. }
      destruct (Z_lt_ge_dec (zlen u') (zlen u)) as [h|h]; [exfalso|lia]. pose proof (pcall_out u' (zlen u) ltac:(lia)) as Q. destruct (Z.eq_dec (zlen u) b) as [e|e]; [rewrite e, Ub in Q; lia|]. destruct (Z.eq_dec (zlen u) a) as [e2|e2]; [lia|]. rewrite Uo in Q by lia.
      destruct V as [[_ Hc] _]. assert (Nu : u <> []) by (intros ->; unfold zlen in *; cbn in *; lia). specialize (Hc Nu). apply Hc. rewrite pcall_pos in Q by lia. rewrite last_nthz by exact Nu. exact Q. }
    assert (FF : fixl u' (zlen u') = F).
    { rewrite Z'. apply sorted_ext_lt; [apply fixl_sorted|exact S2|]. intro x. rewrite fixl_In. split.
      - intros [Hx Ex]. destruct (Z.eq_dec x a) as [->|Na]; [lia|]. destruct (Z.eq_dec x b) as [->|Nb]; [lia|]. rewrite Uo in Ex by lia. destruct (Only x Hx Ex) as [?|[?|?]]; [contradiction|contradiction|assumption].
      - intro Hx. destruct (IF x Hx) as (H1 & H2 & H3). split; [exact H1|]. rewrite Uo by lia. exact H2. }
    destruct (IH fuel u' V' P') as (v & Ev & Vv & Pv & Zv & Av & Mv); [rewrite FF; cbn in L; lia|lia|]. exists v. split; [exact Ev|]. split; [exact Vv|]. split; [exact Pv|]. split; [lia|]. rewrite Z' in Av, Mv.
    assert (Va : pcall v a = b) by (rewrite Av by lia; exact Ua). assert (Vb : pcall v b = a) by (rewrite Av by lia; exact Ub). split.
    + intros x Hx Nx. assert (x <> a) by (intros ->; apply Nx, Ia). assert (x <> b) by (intros ->; apply Nx, Ib). rewrite Av; [apply Uo; [lia|assumption|assumption]|exact Hx|]. rewrite Uo by (assumption || lia). exact Nx.
    + intros x Hx Ex. destruct (Only x Hx Ex) as [->|[->|HF]].
      * rewrite Va. split; [lia|]. split; [lia|]. split; [apply Ib|]. intros y Hy Ey. destruct (Only y Hy Ey) as [->|[->|HF]]; [lia|lia|]. pose proof (IF y HF). lia.
      * rewrite Vb. split; [lia|]. split; [lia|]. split; [apply Ia|]. intros y Hy Ey. destruct (Only y Hy Ey) as [->|[->|HF]]; [lia|lia|]. pose proof (IF y HF). lia.
      * destruct (IF x HF) as (H1 & H2 & H3). assert (Ex' : pcall u' x = x) by (rewrite Uo by lia; exact Ex). destruct (Mv x Hx Ex') as (M1 & M2 & M3 & M4). assert (IFv : In (pcall v x) F) by (rewrite <- FF; apply fixl_In; split; [lia|exact M3]). destruct (IF _ IFv) as (G1 & G2 & G3).
        split; [exact M1|]. split; [exact M2|]. split; [exact G2|]. intros y Hy Ey. destruct (Only y Hy Ey) as [->|[->|HFy]]; [lia|lia|]. apply M4; [exact Hy|]. pose proof (IF y HFy). rewrite Uo by lia. exact Ey.
Qed.
