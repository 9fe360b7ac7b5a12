(* Which letters occur in the Hecke words of a permutation; words that can be cut into few blocks. *)
From Coq Require Import List ZArith Lia Bool Permutation Arith.
From Verif Require Import PyBase FinSum L_Count M_Partitions M_Words S_Words M_Perm S_Perm M_Levels S_Levels L_Perm L_PermLen L_PermWord L_PermDem L_Levels L_LevelsInst P_Words P_Levels L_FominWords L_FominZeta L_PermActs L_FominSym L_PermGroth1.
Import ListNotations.
Local Open Scope Z_scope.

Definition keeps (i : Z) (f : Z -> Z) : Prop := (forall x, i < x -> i < f x) /\ (forall x, x <= i -> f x <= i).
Definition mixes (i : Z) (f : Z -> Z) : Prop := exists x, i < x /\ f x <= i.
Lemma simple_side : forall i j x, 0 <= i -> 0 <= j -> j <> i -> (i < simple j x <-> i < x).
Proof. intros i j x Hi Hj N. unfold simple. destruct (j =? 0) eqn:E; [apply Z.eqb_eq in E|apply Z.eqb_neq in E]; repeat match goal with |- context [?a =? ?b] => destruct (Z.eqb_spec a b) end; lia. Qed.
Lemma simple_cross : forall i, 0 <= i -> simple i (i + 1) <= i.
Proof. intros i Hi. unfold simple. destruct (i =? 0) eqn:E; [apply Z.eqb_eq in E|apply Z.eqb_neq in E]; repeat match goal with |- context [?a =? ?b] => destruct (Z.eqb_spec a b) end; lia. Qed.
Lemma simple_far : forall i x, 0 <= i -> i + 1 < x -> simple i x = x.
Proof. intros i x Hi Hx. unfold simple. destruct (i =? 0) eqn:E; [apply Z.eqb_eq in E|apply Z.eqb_neq in E]; repeat match goal with |- context [?a =? ?b] => destruct (Z.eqb_spec a b) end; lia. Qed.
Lemma simple_succ : forall i, 0 <= i -> simple i (i + 1) = if i =? 0 then -1 else i.
Proof. intros i Hi. unfold simple. destruct (i =? 0) eqn:E; [apply Z.eqb_eq in E|apply Z.eqb_neq in E]; repeat match goal with |- context [?a =? ?b] => destruct (Z.eqb_spec a b) end; lia. Qed.
Lemma keeps_dm : forall i j u, canonical u -> 0 <= i -> 0 <= j -> j <> i -> keeps i (pcall u) -> keeps i (pcall (dm u j)).
Proof.
  intros i j u Hu Hi Hj N [H1 H2]. destruct (dm_rel u j Hu Hj) as [[_ E]|[_ E]].
  - split; intros x Hx; rewrite E; auto.
  - split; intros x Hx; rewrite E; [apply H1|apply H2].
    + apply simple_side; assumption.
    + pose proof (simple_side i j x Hi Hj N). lia.
Qed.
Lemma mixes_dm : forall i j u, canonical u -> 0 <= i -> 0 <= j -> mixes i (pcall u) -> mixes i (pcall (dm u j)).
Proof.
  intros i j u Hu Hi Hj (x & H1 & H2). destruct (dm_rel u j Hu Hj) as [[_ E]|[D E]].
  - exists x. rewrite E. auto.
  - destruct (Z.eq_dec j i) as [->|N].
    + destruct (Z.eq_dec x (i + 1)) as [->|N'].
      * exists (i + 1). split; [lia|]. rewrite E, simple_succ by assumption. unfold descent in D. destruct (i =? 0) eqn:Ei.
        -- apply Z.eqb_eq in Ei. subst i. change (-1) with (- (1)). rewrite pcall_odd. change (0 + 1) with 1 in *. lia.
        -- lia.
      * exists x. split; [assumption|]. rewrite E, simple_far by lia. assumption.
    + exists (simple j x). split; [apply simple_side; assumption|]. rewrite E.
      replace (simple j (simple j x)) with x; [assumption|]. symmetry. apply simple_invol. assumption.
Qed.
Lemma keeps_mixes : forall i u, canonical u -> 0 <= i -> keeps i (pcall u) -> mixes i (pcall (dm u i)).
Proof.
  intros i u Hu Hi [H1 H2]. exists (i + 1). split; [lia|]. destruct (dm_rel u i Hu Hi) as [[D E]|[_ E]]; rewrite E.
  - exfalso. unfold descent in D. destruct (i =? 0) eqn:Ei.
    + apply Z.eqb_eq in Ei. subst i. specialize (H1 1). lia.
    + specialize (H1 (i + 1)). specialize (H2 i). lia.
  - apply H2, simple_cross. assumption.
Qed.
Lemma mixes_dw : forall v i u, gens v -> canonical u -> 0 <= i -> mixes i (pcall u) -> mixes i (pcall (dw u v)).
Proof.
  induction v as [|j v IH]; intros i u Hv Hu Hi H; [exact H|]. cbn [dw fold_left]. apply IH; [exact (Forall_inv_tail Hv)| |assumption|].
  - apply dm_canonical; [assumption|apply (Forall_inv Hv)].
  - apply mixes_dm; auto. apply (Forall_inv Hv).
Qed.
Lemma dw_support : forall v i u, gens v -> canonical u -> 0 <= i -> keeps i (pcall u) -> In i v -> mixes i (pcall (dw u v)).
Proof.
  induction v as [|j v IH]; intros i u Hv Hu Hi H Hin; [destruct Hin|]. pose proof (Forall_inv Hv) as Hj. cbv beta in Hj.
  change (dw u (j :: v)) with (dw (dm u j) v). assert (C : canonical (dm u j)) by (apply dm_canonical; assumption).
  destruct (Z.eq_dec j i) as [->|N].
  - apply mixes_dw; [exact (Forall_inv_tail Hv)|exact C|assumption|]. apply keeps_mixes; assumption.
  - destruct Hin as [E|Hin]; [congruence|]. apply IH; try assumption; [exact (Forall_inv_tail Hv)|]. apply keeps_dm; assumption.
Qed.
Lemma support_mixes : forall v i, gens v -> In i v -> mixes i (pcall (dw [] v)).
Proof.
  intros v i Hv Hin. apply dw_support; [assumption|apply nil_canonical| | |assumption].
  - unfold gens in Hv. rewrite Forall_forall in Hv. apply Hv. assumption.
  - split; intros x Hx; rewrite pcall_nil; assumption.
Qed.
Lemma support_range : forall v i w, gens v -> dw [] v = w -> In i v -> i < zlen w.
Proof.
  intros v i w Hv <- Hin. destruct (support_mixes v i Hv Hin) as (x & H1 & H2). destruct (Z_lt_ge_dec i (zlen (dw [] v))) as [L|L]; [exact L|exfalso].
  assert (0 <= i) by (unfold gens in Hv; rewrite Forall_forall in Hv; apply Hv; assumption).
  rewrite pcall_out in H2 by lia. lia.
Qed.
Lemma unsigned_pos : forall w x, is_unsigned w = true -> 0 < x -> 0 < pcall w x.
Proof.
  intros w x H Hx. destruct (Z_le_gt_dec x (zlen w)) as [L|L].
  - rewrite pcall_pos by lia. unfold is_unsigned in H. rewrite forallb_forall in H. apply Z.ltb_lt, H, nthz_In. lia.
  - rewrite pcall_out by lia. assumption.
Qed.
Lemma support_unsigned : forall v w, gens v -> dw [] v = w -> is_unsigned w = true -> ~ In 0 v.
Proof.
  intros v w Hv <- Hu Hin. destruct (support_mixes v 0 Hv Hin) as (x & H1 & H2). pose proof (unsigned_pos _ x Hu H1). lia.
Qed.
Lemma path_dw : forall v u, path hact u v = Some (dw u v).
Proof. induction v as [|i v IH]; intro u; [reflexivity|]. cbn [path hact]. apply IH. Qed.
Lemma path_cjs : forall v u, path (iact true) u v = Some (cjs u v).
Proof. induction v as [|i v IH]; intro u; [reflexivity|]. cbn [path iact orb]. apply IH. Qed.
Lemma cjs_nil_word : forall v, gens v -> cjs [] v = dw [] (rev v ++ v).
Proof. intros v Hv. apply (cjs_word v [] Hv); [constructor|apply invol_nil]. Qed.
Lemma gens_rev_app : forall v, gens v -> gens (rev v ++ v).
Proof. intros v Hv. apply gens_app. split; [|exact Hv]. unfold gens in *. apply Forall_rev. exact Hv. Qed.

Lemma hecke_wd_range : forall w v, gens v -> ~ In 0 v -> path hact [] v = Some w -> hecke_wd (zlen w) w v.
Proof.
  intros w v Hv H0 H. split; [|exact H]. rewrite path_dw in H. injection H as H. rewrite Forall_forall. intros i Hi.
  pose proof (support_range v i w Hv H Hi). unfold gens in Hv. rewrite Forall_forall in Hv. specialize (Hv i Hi). assert (i <> 0) by (intros ->; auto). lia.
Qed.
Lemma inv_wd_range : forall w v, gens v -> path (iact true) [] v = Some w -> inv_wd (zlen w) w v.
Proof.
  intros w v Hv H. split; [|exact H]. rewrite path_cjs, cjs_nil_word in H by assumption. injection H as H. rewrite Forall_forall. intros i Hi.
  pose proof (support_range (rev v ++ v) i w (gens_rev_app v Hv) H (in_or_app _ _ _ (or_intror Hi))). unfold gens in Hv. rewrite Forall_forall in Hv. specialize (Hv i Hi). lia.
Qed.
Lemma inv_wd_unsigned : forall n w v, is_unsigned w = true -> (inv_wd n w v <-> Forall (fun i => 1 <= i < n) v /\ path (iact true) [] v = Some w).
Proof.
  intros n w v Hu. unfold inv_wd. split; intros [H1 H2]; (split; [|exact H2]).
  - assert (Hv : gens v) by (unfold gens; rewrite Forall_forall in *; intros i Hi; specialize (H1 i Hi); lia).
    rewrite path_cjs, cjs_nil_word in H2 by assumption. injection H2 as H2. pose proof (support_unsigned _ _ (gens_rev_app v Hv) H2 Hu) as N0.
    rewrite Forall_forall in *. intros i Hi. specialize (H1 i Hi). assert (i <> 0) by (intros ->; apply N0, in_or_app; right; assumption). lia.
  - rewrite Forall_forall in *. intros i Hi. specialize (H1 i Hi). lia.
Qed.
Lemma inv_dec_sym : forall n w, is_unsigned w = true -> sym_words decreasing_zeta (inv_wd n w).
Proof.
  intros n w Hu a b l m Hab Hl Hm. apply (iact1_sym n w a b l m Hab); eapply lists_ext; try eassumption; intro v; apply inv_wd_unsigned; assumption.
Qed.

(* ---- cutting into blocks ---- *)
Lemma concat_cut : forall a v, nsum a = length v -> concat (cut a v) = v.
Proof.
  induction a as [|k a IH]; intros v H; [destruct v; [reflexivity|discriminate]|]. cbn [cut concat nsum fold_right] in *. fold (nsum a) in H. rewrite IH; [apply firstn_skipn|]. rewrite skipn_length. lia.
Qed.
Lemma length_cut : forall a v, length (cut a v) = length a.
Proof. induction a as [|k a IH]; intro v; [reflexivity|]. cbn [cut length]. rewrite IH. reflexivity. Qed.
Lemma zprod_nonzero : forall l, zprod l <> 0 -> Forall (fun x => x <> 0) l.
Proof. induction l as [|x l IH]; intro H; [constructor|]. cbn [zprod fold_right] in H. fold (zprod l) in H. constructor; [|apply IH]; intro E; apply H; rewrite E; lia. Qed.
Lemma zprod_blocks : forall zeta a v, zprod (map zeta (cut a v)) <> 0 -> Forall (fun u => zeta u <> 0) (cut a v).
Proof. intros zeta a v H. apply zprod_nonzero in H. rewrite Forall_forall in *. intros u Hu. apply H, in_map. assumption. Qed.
Lemma pairwise_dec : forall rel (b : Z -> Z -> bool), (forall x y, b x y = true <-> rel x y) -> forall u, pairwise rel u \/ ~ pairwise rel u.
Proof.
  intros rel b Hb. induction u as [|a u IH]; [left; apply pairwise_nil|]. destruct (forallb (b a) u) eqn:E.
  - destruct IH as [H|H]; [left|right].
    + apply pairwise_cons. split; [|exact H]. rewrite forallb_forall in E. rewrite Forall_forall. intros x Hx. apply Hb, E. assumption.
    + intro P. apply pairwise_cons in P. tauto.
  - right. intro P. apply pairwise_cons in P. destruct P as [P _]. assert (forallb (b a) u = true); [|congruence]. rewrite forallb_forall. rewrite Forall_forall in P. intros x Hx. apply Hb, P. assumption.
Qed.
Lemma pairwise_gt_dec : forall u, pairwise Z.gt u \/ ~ pairwise Z.gt u.
Proof. apply (pairwise_dec Z.gt Z.gtb). intros x y. rewrite Z.gtb_lt. lia. Qed.
Lemma pairwise_lt_dec : forall u, pairwise Z.lt u \/ ~ pairwise Z.lt u.
Proof. apply (pairwise_dec Z.lt Z.ltb). intros x y. apply Z.ltb_lt. Qed.
Lemma zsum_nonzero : forall l, zsum l <> 0 -> exists x, In x l /\ x <> 0.
Proof.
  induction l as [|x l IH]; intro H; [exfalso; apply H; reflexivity|]. destruct (Z.eq_dec x 0) as [->|N]; [|exists x; split; [left; reflexivity|assumption]].
  destruct IH as (y & Hy & Ny); [exact H|]. exists y. split; [right; assumption|assumption].
Qed.
Lemma dec_nonzero : forall u, decreasing_zeta u <> 0 -> pairwise Z.gt u.
Proof.
  intros u H. destruct (C24_zetas u) as (_ & [_ H2] & _). destruct (pairwise_gt_dec u) as [P|P]; [exact P|]. exfalso. apply H, H2, P.
Qed.
Lemma weak_ascents_app : forall u v, weak_ascents (u ++ v) <= weak_ascents u + 1 + weak_ascents v.
Proof.
  induction u as [|a u IH]; intro v; [cbn [app]; change (weak_ascents []) with 0; lia|]. destruct u as [|b u].
  - cbn [app]. change (weak_ascents [a]) with 0. destruct v as [|b v]; [change (weak_ascents []) with 0; change (weak_ascents [a]) with 0; lia|]. change (weak_ascents (a :: b :: v)) with ((if a <=? b then 1 else 0) + weak_ascents (b :: v)). destruct (a <=? b); lia.
  - specialize (IH v). cbn [app] in *. change (weak_ascents (a :: b :: u ++ v)) with ((if a <=? b then 1 else 0) + weak_ascents (b :: u ++ v)).
    change (weak_ascents (a :: b :: u)) with ((if a <=? b then 1 else 0) + weak_ascents (b :: u)). lia.
Qed.
Lemma weak_ascents_dec : forall u, pairwise Z.gt u -> weak_ascents u = 0.
Proof.
  induction u as [|a u IH]; intro H; [reflexivity|]. apply pairwise_cons in H. destruct H as [H1 H2]. specialize (IH H2). destruct u as [|b u]; [reflexivity|].
  change (weak_ascents (a :: b :: u)) with ((if a <=? b then 1 else 0) + weak_ascents (b :: u)). pose proof (Forall_inv H1). rewrite (proj2 (Z.leb_gt a b)) by lia. lia.
Qed.
Lemma weak_ascents_concat : forall us, Forall (pairwise Z.gt) us -> concat us = [] \/ weak_ascents (concat us) < zlen us.
Proof.
  induction us as [|u us IH]; intro H; [left; reflexivity|]. specialize (IH (Forall_inv_tail H)). pose proof (weak_ascents_dec u (Forall_inv H)) as Hu. cbn [concat].
  replace (zlen (u :: us)) with (1 + zlen us) by (unfold zlen; cbn [length]; lia). pose proof (weak_ascents_app u (concat us)). destruct IH as [E|IH].
  - rewrite E, app_nil_r. right. unfold zlen. lia.
  - right. lia.
Qed.
Lemma dec_cover : forall a v n, (length a <= n)%nat -> nsum a = length v -> zprod (map decreasing_zeta (cut a v)) <> 0 -> bounded few_ascents (Some (Z.of_nat n)) v.
Proof.
  intros a v n Hn Ha Hz. apply zprod_blocks in Hz.
  assert (F : Forall (pairwise Z.gt) (cut a v)) by (eapply Forall_impl; [|exact Hz]; intros u Hu; apply dec_nonzero; exact Hu).
  apply weak_ascents_concat in F. rewrite (concat_cut a v Ha) in F. destruct F as [F|F]; [left; exact F|right]. unfold few_ascents, zlen in *. rewrite length_cut in F. lia.
Qed.
Lemma split_no_peak : forall d e, pairwise Z.gt d -> pairwise Z.lt e -> no_peak (d ++ e).
Proof.
  intros d e Hd He a x y z b E [H1 H2].
  destruct (Nat.lt_ge_cases (S (length a)) (length d)) as [L|L].
  - assert (Ex : nth (length a) d 0 = x).
    { rewrite <- (app_nth1 d e 0) by lia. rewrite E. apply nth_middle. }
    assert (Ey : nth (S (length a)) d 0 = y).
    { rewrite <- (app_nth1 d e 0) by lia. rewrite E. replace (a ++ x :: y :: z :: b) with ((a ++ [x]) ++ y :: z :: b) by (rewrite <- app_assoc; reflexivity). replace (S (length a)) with (length (a ++ [x])) by (rewrite app_length; cbn; lia). apply nth_middle. }
    specialize (Hd (length a) (S (length a))). lia.
  - assert (Ey : nth (S (length a) - length d) e 0 = y).
    { rewrite <- (app_nth2 d e 0) by lia. rewrite E. replace (a ++ x :: y :: z :: b) with ((a ++ [x]) ++ y :: z :: b) by (rewrite <- app_assoc; reflexivity). replace (S (length a)) with (length (a ++ [x])) by (rewrite app_length; cbn; lia). apply nth_middle. }
    assert (Ez : nth (S (S (length a)) - length d) e 0 = z).
    { rewrite <- (app_nth2 d e 0) by lia. rewrite E. replace (a ++ x :: y :: z :: b) with ((a ++ [x; y]) ++ z :: b) by (rewrite <- app_assoc; reflexivity). replace (S (S (length a))) with (length (a ++ [x; y])) by (rewrite app_length; cbn; lia). apply nth_middle. }
    assert (Len : (length d + length e = length a + 3 + length b)%nat) by (apply (f_equal (@length Z)) in E; rewrite !app_length in E; cbn [length] in E; lia).
    specialize (He (S (length a) - length d)%nat (S (S (length a)) - length d)%nat). lia.
Qed.
Lemma uni_nonzero : forall u, unimodal_zeta u <> 0 -> exists d e, u = d ++ e /\ pairwise Z.gt d /\ pairwise Z.lt e.
Proof.
  intros u H. unfold unimodal_zeta, split_zeta in H. destruct (zsum_nonzero _ H) as (x & Hx & Nx). apply in_map_iff in Hx. destruct Hx as (i & <- & Hi).
  exists (firstn (Z.to_nat i) u), (skipn (Z.to_nat i) u). split; [symmetry; apply firstn_skipn|]. split.
  - apply dec_nonzero. intro E. rewrite E in Nx. lia.
  - destruct (C24_zetas (skipn (Z.to_nat i) u)) as ([_ H2] & _). destruct (pairwise_lt_dec (skipn (Z.to_nat i) u)) as [P|P]; [exact P|]. exfalso. rewrite (H2 P) in Nx. lia.
Qed.
Lemma blocks_cover : forall zeta a v n, (forall u, zeta u <> 0 -> no_peak u) -> (length a <= n)%nat -> nsum a = length v -> zprod (map zeta (cut a v)) <> 0 -> bounded few_peaks (Some (Z.of_nat n)) v.
Proof.
  intros zeta a v n Hzeta Hn Ha Hz. apply zprod_blocks in Hz. right. exists (zlen (cut a v)). split; [unfold zlen; rewrite length_cut; lia|].
  exists (cut a v). split; [apply concat_cut; assumption|]. split; [|reflexivity]. eapply Forall_impl; [|exact Hz]. intros u Hu. apply Hzeta. exact Hu.
Qed.
Lemma dec_no_peak : forall u, decreasing_zeta u <> 0 -> no_peak u.
Proof. intros u H. rewrite <- (app_nil_r u). apply split_no_peak; [apply dec_nonzero; exact H|apply pairwise_nil]. Qed.
Lemma uni_no_peak : forall u, unimodal_zeta u <> 0 -> no_peak u.
Proof. intros u H. destruct (uni_nonzero u H) as (d & e & -> & Hd & He). apply split_no_peak; assumption. Qed.
