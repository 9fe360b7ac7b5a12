(* the run of a Little bump of an involution word *)
From Coq Require Import List ZArith Bool Lia Permutation.
From Verif Require Import PyBase FinSum M_Partitions M_Semistandard M_Perm S_Perm S_Bruhat M_PermGen L_Perm L_PermLen L_PermWord L_PermDem M_Bruhat L_Bruhat M_Levels L_LevelsInst P_Levels L_PermActs L_PermGroth2 L_PermGroth7 M_PermGroth S_PermGroth S_InvWords M_InvWords L_InvLen L_InvLen2 L_InvLen6 M_Atoms S_Atoms L_Atoms1 L_Atoms2 L_Atoms6 L_Atoms8 M_Little S_Little L_Little1 L_Little2 L_LittleGen L_IBruhat L_ILittle1 M_ILittle.
Import ListNotations.
Local Open Scope Z_scope.

Lemma lenient_ok : forall v, ok1 v -> lenient v = Ok (ivp v).
Proof. intros v G. unfold lenient, from_involution_word. rewrite loop_lenient by (first [apply invol_nil|apply ok1_gens; exact G]). reflexivity. Qed.
Lemma ilen_dec : forall v, ok1 v -> exists l, involution_length (ivp v) = Ok l /\ (l = zlen v <-> ired v).
Proof.
  intros v G. destruct (involution_length_ok (ivp v) (proj1 (ivp_upos v G))) as (l & E & L & _). exists l. split; [exact E|]. split; [intro Q; split; [exact G|lia]|intros [_ Q]; lia].
Qed.
Lemma iother_found : forall v new i js, ok1 new -> (forall j, In j js -> 0 <= j < zlen new) -> (exists j, In j js /\ j <> i /\ ivp (delete_at j new) = v) ->
  exists j, involution_other_defect v new i js = Ok j /\ gother ivp v new i j.
Proof.
  intros v new i js G. induction js as [|j js IH]; intros Hb (k & Hk & Nk & Ek); [destruct Hk|]. cbn [involution_other_defect]. pose proof (Hb j (or_introl eq_refl)) as Hj.
  assert (T : (exists k, In k js /\ k <> i /\ ivp (delete_at k new) = v) -> exists j', involution_other_defect v new i js = Ok j' /\ gother ivp v new i j') by (intro X; apply IH; [intros; apply Hb; right; assumption|exact X]).
  destruct (Z.eqb_spec i j) as [<-|N]; [apply T; destruct Hk as [<-|Hk]; [congruence|exists k; auto]|].
  rewrite lenient_ok by (apply ok1_delete; assumption). cbn [rbind]. destruct (peq v (ivp (delete_at j new))) eqn:Q.
  - unfold peq in Q. apply zlist_eqb_eq in Q. exists j. split; [reflexivity|]. split; [exact Hj|]. split; [congruence|]. symmetry. exact Q.
  - apply T. destruct Hk as [<-|Hk]; [|exists k; auto]. exfalso. rewrite Ek in Q. unfold peq in Q. assert (zlist_eqb v v = true) by (apply zlist_eqb_eq; reflexivity). congruence.
Qed.
Notation ist := (gst ivp ired).
Notation ibumps := (gbumps ivp ired).
Lemma ipush_ok : forall y w i, ist y w i ->
  (ired (raise_at i w) /\ involution_little_push w i = Ok (raise_at i w, None)) \/
  (~ ired (raise_at i w) /\ exists j, involution_little_push w i = Ok (raise_at i w, Some j) /\ gother ivp y (raise_at i w) i j).
Proof.
  intros y w i (G & Hi & R & E). pose proof (ok1_raise w i G Hi) as G'. pose proof (raise_len w i Hi) as L. unfold involution_little_push.
  replace (negb ((0 <=? i) && (i <? zlen w))) with false by (replace (0 <=? i) with true by lia; replace (i <? zlen w) with true by lia; reflexivity).
  rewrite lenient_ok by (apply ok1_delete; assumption). cbn [rbind]. rewrite lenient_ok by exact G'. cbn [rbind]. destruct (ilen_dec _ G') as (l & -> & Q). cbn [rbind].
  destruct (Z.eqb_spec l (zlen (raise_at i w))) as [X|X]; [left; split; [apply Q; exact X|reflexivity]|]. right. assert (N : ~ ired (raise_at i w)) by (intro Y; apply X; apply Q; exact Y).
  split; [exact N|]. destruct (iother_found (ivp (delete_at i w)) (raise_at i w) i (zrange 0 (zlen (raise_at i w)))) as (j & F & O).
  - exact G'.
  - intros j Hj. apply In_zrange in Hj. exact Hj.
  - pose proof (raise_delete w i Hi) as D. destruct (cut_at w i Hi) as (A & c & B & -> & <-). rewrite raise_split in *. rewrite delete_split in *.
    destruct (idefect_exists A (c + 1) B G' R N) as (j & Hj & Nj & M). exists j. split; [apply In_zrange; exact Hj|]. split; [exact Nj|exact M].
  - rewrite F. cbn [rbind]. exists j. split; [reflexivity|]. rewrite E in O. exact O.
Qed.
Lemma loop_is : forall fuel w i, involution_push_loop fuel w i = gloop involution_little_push fuel w i.
Proof. reflexivity. Qed.
Lemma ired_ok1 : forall v, ired v -> ok1 v. Proof. intros v H. apply H. Qed.
Lemma iloop_ok : forall fuel y w i, ist y w i -> zlen w * zlen y + 1 < Z.of_nat fuel -> exists r k, involution_push_loop fuel w (Some i) = Ok r /\ ibumps y w i r k.
Proof.
  intros fuel y w i S H. rewrite loop_is. exact (L_LittleGen.loop_ok ivp ired (@zlen Z) involution_little_push ired_val ired_letters (fun l => zlen_nonneg _ l) ipush_ok fuel y w i S H).
Qed.
Lemma iloop_bumps : forall fuel y w i r, ist y w i -> involution_push_loop fuel w (Some i) = Ok r -> exists k, ibumps y w i r k.
Proof. intros fuel y w i r S H. rewrite loop_is in H. exact (loop_gbumps ivp ired involution_little_push ired_val ipush_ok fuel y w i r S H). Qed.
Lemma ibumps_inj : forall y w i w' i' r k k', ired w -> ired w' -> ibumps y w i r k -> ibumps y w' i' r k' -> w = w'.
Proof. intros y w i w' i' r k k'. apply (gbumps_inj ivp ired); [apply ired_ok1|apply ired_val|apply idefect_two|apply idefect_three]. Qed.
Lemma ibump_from_eq : forall fuel w y i is, ired w -> ist y w i -> (forall j, In j is -> 0 <= j < zlen w) -> In i is -> involution_bump_from fuel w y is = involution_push_loop fuel w (Some i).
Proof.
  intros fuel w y i is R S. induction is as [|j is IH]; intros Hb Hi; [destruct Hi|]. pose proof (Hb j (or_introl eq_refl)) as Hj. cbn [involution_bump_from]. rewrite lenient_ok by (apply ok1_delete; [apply R|exact Hj]). cbn [rbind].
  destruct (peq (ivp (delete_at j w)) y) eqn:Q.
  - unfold peq in Q. apply zlist_eqb_eq in Q. rewrite (gst_unique ivp ired idefect_two y w i j R S Hj Q). reflexivity.
  - destruct Hi as [<-|Hi]; [|apply IH; [intros; apply Hb; right; assumption|exact Hi]]. exfalso. destruct S as (_ & _ & _ & Y). rewrite Y in Q. assert (peq y y = true) by (apply zlist_eqb_eq; reflexivity). congruence.
Qed.
Lemma ibump_eq : forall fuel w y i, ired w -> ist y w i -> involution_little_bump fuel w y = involution_push_loop fuel w (Some i).
Proof.
  intros fuel w y i R S. unfold involution_little_bump. rewrite lenient_ok by apply R. cbn [rbind]. destruct (ilen_dec w (proj1 R)) as (l & -> & Q). cbn [rbind]. rewrite (proj2 Q R), Z.eqb_refl. cbn [negb]. apply ibump_from_eq; try assumption.
  - intros j Hj. apply In_zrange in Hj. exact Hj.
  - apply In_zrange. apply S.
Qed.
Lemma ibumps_raised : forall y w i r k, ired w -> ibumps y w i r k -> raised w r.
Proof.
  intros y w i r k R B. destruct (gbumps_facts ivp ired y w i r k B) as (_ & L & _ & _ & _ & M & _). split; [exact L|]. split; [intros x Hx; apply M; lia|]. intros x Hx Hx1.
  exact (gbumps_descents ivp ired ired_ok1 idefect_two idefect_three y w i r k R B x Hx Hx1).
Qed.

(* in terms of the specification *)
Lemma path_ired : forall v z, ok1 v -> path (iact false) [] v = Some z -> ired v /\ ivp v = z.
Proof.
  intros v z G P. assert (E : ivp v = z).
  { revert z G P. induction v as [|i v IH] using rev_ind; intros z G P; [cbn in P; injection P as <-; reflexivity|]. apply ok1_mid in G. destruct G as (Gv & Hi & _). rewrite path_snoc in P. destruct (path (iact false) [] v) as [u|] eqn:E; [|discriminate].
    apply iact_some in P. destruct P as [D ->]. rewrite ivp_snoc, (IH u Gv eq_refl). destruct (path_unsig v u Gv E) as [Hu _]. apply tw_cj; [exact Hu|lia|exact D]. }
  split; [|exact E]. split; [exact G|]. rewrite E. apply path_reduced in P; [apply P|apply ok1_gens; exact G].
Qed.
Lemma ired_path : forall v, ired v -> path (iact false) [] v = Some (ivp v).
Proof. intros v H. apply path_reduced; [apply ok1_gens; apply H|]. split; [apply ivp_cjs; exact H|apply H]. Qed.
Lemma ired_is : forall z v, canonical z -> ok1 v -> (shortest_word (involution_word (pcall z)) v <-> ired v /\ ivp v = z).
Proof.
  intros z v Hz G. split.
  - intros [W M]. assert (V : invol z) by (apply involution_word_cjs in W; [|exact Hz]; destruct W as [Gv ->]; apply cjs_invol; [apply invol_nil|exact Gv]). apply path_ired; [exact G|]. apply path_shortest; [exact V|apply ok1_gens; exact G|split; assumption].
  - intros [R <-]. apply path_shortest; [apply (ivp_upos v G)|apply ok1_gens; exact G|apply ired_path; exact R].
Qed.

(* the part below the bumped place *)
Lemma ible_delete : forall q u z, upos u -> upos z -> ok1 q -> ible u z -> il2 (fold_left tw q u) = il2 u + 2 * zlen q -> il2 (fold_left tw q z) = il2 z + 2 * zlen q -> ible (fold_left tw q u) (fold_left tw q z).
Proof.
  induction q as [|i q IH]; intros u z Hu Hz G L E1 E2; [exact L|]. inversion G as [|? ? Hi G']; subst. cbn [fold_left] in *. rewrite zlen_cons in *.
  assert (K : forall x, upos x -> il2 (fold_left tw q (tw x i)) = il2 x + 2 * (1 + zlen q) -> ~ descent (pcall x) i /\ il2 (tw x i) = il2 x + 2).
  { intros x Hx Ex. pose proof (il2_fold q (tw x i) (tw_upos x i Hx Hi) G') as A. destruct (desc_dec (pcall x) i) as [D|D]; [destruct (tw_down x i Hx Hi D) as (_ & _ & B & _); lia|]. split; [exact D|]. apply tw_up; assumption. }
  rewrite !(Z.add_comm _ 1) in E1, E2 || idtac. destruct (K u Hu ltac:(lia)) as [Du Lu]. destruct (K z Hz ltac:(lia)) as [Dz Lz]. apply IH; try (apply tw_upos; assumption); try assumption; try lia. apply ible_up; assumption.
Qed.
Lemma deletion_below : forall p s q, ired (p ++ s :: q) -> ired (p ++ q) -> ible (ivp (p ++ q)) (ivp (p ++ s :: q)).
Proof.
  intros p s q H1 H2. pose proof (ired_ascent p s q H1) as D. pose proof (ired_prefix p q H2) as [Gp Lp]. destruct H1 as [G1 L1], H2 as [_ L2]. apply ok1_mid in G1. destruct G1 as (_ & Hs & Gq). pose proof (ivp_upos p Gp) as U. destruct (tw_up (ivp p) s U Hs D) as (U1 & _ & Ls & _).
  rewrite ivp_app in *. rewrite (ivp_app p (s :: q)) in *. cbn [fold_left] in *. rewrite zlen_mid in L1. rewrite zlen_app in *. apply ible_delete; try assumption; try lia. apply ible_step; assumption.
Qed.
Lemma other_word : forall w p s q, ired w -> ired (p ++ s :: q) -> ivp (p ++ s :: q) = ivp w -> ired (p ++ q) -> exists p' s' q', w = p' ++ s' :: q' /\ ired (p' ++ q') /\ ivp (p' ++ q') = ivp (p ++ q).
Proof.
  intros w p s q Hw H1 E H2. destruct (below_delete w (ivp (p ++ q)) Hw (ivp_upos _ (proj1 H2))) as (p' & s' & q' & Ew & Ep).
  - rewrite <- E. apply deletion_below; assumption.
  - rewrite <- E. destruct H1 as [_ L1], H2 as [_ L2]. rewrite zlen_mid in L1. lia.
  - exists p', s', q'. split; [exact Ew|]. split; [|exact Ep]. apply (ired_val (p ++ q)); [exact H2| |exact Ep|].
    + destruct Hw as [G _]. rewrite Ew in G. apply ok1_mid in G. apply ok1_app. tauto.
    + destruct Hw as [_ L], H1 as [_ L1]. rewrite E in L1. rewrite Ew, zlen_mid in L. rewrite zlen_mid in L1. rewrite <- Ew in L. lia.
Qed.
