(* Caches of get_atoms and get_involution_words, and the atoms of fixed-point-free involutions. *)
From Coq Require Import List ZArith Bool Lia Permutation.
From Verif Require Import PyBase FinSum M_Partitions M_Semistandard M_Perm S_Perm M_PermGen L_Perm L_PermLen L_PermWord L_PermGen L_LevelsInst P_Levels L_PermActs L_PermGroth7 M_PermGroth M_InvWords M_Atoms L_PartCorners L_InvLen L_InvLen2 L_InvLen3 L_InvLen4 L_InvLen5 L_InvLen6 L_Atoms1 L_Atoms2 L_Atoms5.
Import ListNotations.
Local Open Scope Z_scope.

Lemma atomw_words : forall z v, invol z -> unsig z -> ((exists a, atomw z a /\ reduced v a) <-> gens v /\ path (iact false) [] v = Some z).
Proof.
  intros z v Hz U. split.
  - intros (a & A & G & E & L). split; [exact G|]. apply (atomw_cond z a Hz U) in A. destruct A as (Ca & Ua & C). subst a. apply cond_path; assumption.
  - intros [G P]. exists (wordp v). split; [exists v; auto|]. split; [exact G|]. split; [reflexivity|]. eapply path_len; eassumption.
Qed.

Section Ord.
Variable aord : list (list Z) -> list (list Z).
Hypothesis aord_perm : forall l, Permutation (aord l) l.
Variable dorder : list Z -> list Z.
Hypothesis dorder_perm : forall l, Permutation (dorder l) l.

Definition atoms_ok (z : list Z) (l : list (list Z)) : Prop := NoDup l /\ forall a, In a l <-> atomw z a.
Definition ac_ok (c : atom_cache) : Prop := forall k l, dget zlist_eqb c k = Some l -> Forall canonical l /\ (invol k -> unsig k -> atoms_ok k l).
Definition words_ok (z : list Z) (l : list (list Z)) : Prop := NoDup l /\ forall v, In v l <-> gens v /\ path (iact false) [] v = Some z.
Definition ic_ok (c : fpf_cache) : Prop := forall k l, dget zlist_eqb c k = Some l -> invol k -> unsig k -> words_ok k l.

Lemma dget_set : forall (c : list (list Z * list (list Z))) k v k' l, dget zlist_eqb (dset zlist_eqb c k v) k' = Some l -> (k' = k /\ l = v) \/ dget zlist_eqb c k' = Some l.
Proof.
  intros c k v k' l H. destruct (list_eq_dec Z.eq_dec k k') as [<-|N]; [rewrite (dget_dset_same zlist_eqb zlist_eqb_eq) in H; left; split; congruence|].
  rewrite (dget_dset_other zlist_eqb zlist_eqb_eq) in H by exact N. right. exact H.
Qed.
Lemma rmap_inv : forall A B (f : A -> res B) l m, rmap f l = Ok m -> forall y, In y m -> exists x, In x l /\ f x = Ok y.
Proof.
  intros A B f l. induction l as [|x l IH]; intros m E y Hy; cbn [rmap] in E; [injection E as <-; destruct Hy|].
  destruct (f x) as [b|] eqn:Q; [|discriminate]. cbn [rbind] in E. destruct (rmap f l) as [m'|] eqn:Q2; [|discriminate]. cbn [rbind] in E. injection E as <-. destruct Hy as [<-|Hy]; [exists x; split; [left; reflexivity|exact Q]|].
  destruct (IH m' eq_refl y Hy) as (x' & I & E). exists x'. split; [right; exact I|exact E].
Qed.
Lemma mkperm_inv : forall l p, mkperm l = Ok p -> canonical p.
Proof. intros l p E. unfold mkperm in E. destruct (same_set _ _) eqn:Q; [|discriminate]. injection E as <-. apply strip_canonical. apply signed_word_strip. apply same_set_signed. exact Q. Qed.
Lemma loop_canonical : forall fuel add out, atoms_loop aord fuel add = Ok out -> Forall canonical out.
Proof.
  induction fuel as [|fuel IH]; intros add out E; [discriminate|]. cbn [atoms_loop] in E. destruct add as [|u add]; [injection E as <-; constructor|].
  destruct (rmap _ (aord (u :: add))) as [m|] eqn:Q; [|discriminate]. cbn [rbind] in E. destruct (rconcat _ _) as [new|]; [|discriminate]. cbn [rbind] in E. destruct (atoms_loop aord fuel (wunion [] new)) as [rest|] eqn:Q2; [|discriminate]. cbn [rbind] in E. injection E as <-.
  apply Forall_app. split; [|eapply IH; exact Q2]. apply Forall_forall. intros y Hy. destruct (rmap_inv _ _ _ _ _ Q y Hy) as (x & _ & Ex). destruct (mkperm x) as [p|] eqn:P; [|discriminate]. cbn [rbind] in Ex. pose proof (mkperm_inv x p P) as Cp. rewrite pinv_ok in Ex by apply Cp. injection Ex as <-. apply invp_canonical. apply Cp.
Qed.
Lemma get_atoms_keep : forall fuel c w c' l, ac_ok c -> canonical w -> get_atoms aord fuel c w = Ok (c', l) -> ac_ok c' /\ Forall canonical l.
Proof.
  intros fuel c w c' l Hc Hw E. unfold get_atoms in E. rewrite pinv_ok in E by apply Hw. cbn [rbind] in E. destruct (negb (peq w (invp w))); [discriminate|].
  destruct (dget zlist_eqb c w) as [l0|] eqn:D; [injection E as <- <-; split; [exact Hc|apply (Hc w l0 D)]|].
  destruct (atoms_loop aord fuel [min_inv_atom_oneline w]) as [out|] eqn:Q; [|discriminate]. cbn [rbind] in E. injection E as <- <-. pose proof (loop_canonical _ _ _ Q) as F. split; [|exact F].
  intros k l D2. apply dget_set in D2. destruct D2 as [[-> ->]|D2]; [|apply Hc; exact D2]. split; [exact F|]. intros Hz U.
  (* more fuel gives the same result *)
  assert (S : forall f1 f2 add o1 o2, atoms_loop aord f1 add = Ok o1 -> atoms_loop aord f2 add = Ok o2 -> o1 = o2).
  { induction f1 as [|f1 IH]; intros [|f2] add o1 o2 E1 E2; try discriminate. cbn [atoms_loop] in E1, E2. destruct add as [|u add]; [congruence|].
    destruct (rmap _ (aord (u :: add))) as [m|]; [|discriminate]. cbn [rbind] in E1, E2. destruct (rconcat _ _) as [new|]; [|discriminate]. cbn [rbind] in E1, E2. destruct (atoms_loop aord f1 (wunion [] new)) as [r1|] eqn:Q1; [|discriminate]. destruct (atoms_loop aord f2 (wunion [] new)) as [r2|] eqn:Q2; [|discriminate]. cbn [rbind] in E1, E2. injection E1 as <-. injection E2 as <-. f_equal. eapply IH; eassumption. }
  destruct (atoms_loop_exact w Hz U aord aord_perm (Z.to_nat (zlen w * zlen w + 2))) as (o & Eo & N & I); [pose proof (zlen_nonneg _ w); nia|]. rewrite (S _ _ _ _ _ Q Eo). split; assumption.
Qed.
Lemma get_atoms_exact : forall fuel c w, ac_ok c -> invol w -> unsig w -> zlen w * zlen w + 1 < Z.of_nat fuel -> exists c' l, get_atoms aord fuel c w = Ok (c', l) /\ ac_ok c' /\ Forall canonical l /\ atoms_ok w l.
Proof.
  intros fuel c w Hc Hw U Hf. assert (E : exists c' l, get_atoms aord fuel c w = Ok (c', l) /\ atoms_ok w l).
  { unfold get_atoms. rewrite pinv_ok by apply Hw. cbn [rbind]. rewrite (invol_invp w Hw). unfold peq. rewrite (proj2 (zlist_eqb_eq w w) eq_refl). cbn [negb]. destruct (dget zlist_eqb c w) as [l|] eqn:D; [exists c, l; split; [reflexivity|apply (Hc w l D); assumption]|].
    destruct (atoms_loop_exact w Hw U aord aord_perm fuel Hf) as (o & Eo & N & I). rewrite Eo. cbn [rbind]. eexists _, o. split; [reflexivity|split; assumption]. }
  destruct E as (c' & l & E & A). exists c', l. split; [exact E|]. destruct (get_atoms_keep fuel c w c' l Hc (proj1 Hw) E) as [K1 K2]. auto.
Qed.
Lemma get_atoms_noninv : forall fuel c w, canonical w -> ~ invol w -> get_atoms aord fuel c w = Err AssertionError.
Proof.
  intros fuel c w Hw N. unfold get_atoms. rewrite pinv_ok by apply Hw. cbn [rbind]. destruct (peq w (invp w)) eqn:Q; [|reflexivity]. exfalso. apply N. apply invp_invol; [exact Hw|]. apply zlist_eqb_eq in Q. symmetry. exact Q.
Qed.

(* ---- draining the generator of reduced words ---- *)
Lemma rdrain_ok : forall g L, gprod g L -> forall t, table_ok t -> exists t' l, rdrain t g = (t', Ok l) /\ table_ok t' /\ Permutation l L.
Proof.
  intros g L H. induction H as [|v g L L' H IH P|k vs g L Hk H IH|k f L H1 IH1 H2 IH2]; intros t Ht; cbn [rdrain].
  - exists t, []. auto.
  - destruct (IH t Ht) as (t' & l & E & Ht' & P'). rewrite E. cbn [rbind]. exists t', (v :: l). split; [reflexivity|]. split; [exact Ht'|]. eapply perm_trans; [apply perm_skip; exact P'|apply Permutation_sym; exact P].
  - apply IH. apply table_store; assumption.
  - destruct (dget zlist_eqb t k) as [l|] eqn:D; [apply (IH1 l); [apply (proj1 Ht); exact D|exact Ht]|]. apply IH2; [|exact Ht]. intros ->. apply (proj2 Ht). exact D.
Qed.
Lemma words_fold : forall l rt out, table_ok rt -> Forall canonical l -> exists rt' ws, rfold (fun acc a =>
               let '(rt, out) := acc : rtable * list (list Z) in
               let '(rt, r) := rdrain rt (reduced_words dorder aord (rfuel a) a) in
               do words <- r; Ok (rt, out ++ words)) l (rt, out) = Ok (rt', out ++ ws) /\ table_ok rt' /\ Permutation ws (flat_map rw l).
Proof.
  induction l as [|a l IH]; intros rt out Ht F; cbn [rfold].
  - exists rt, []. rewrite app_nil_r. auto.
  - inversion F as [|? ? Ca F']; subst. assert (G : gprod (reduced_words dorder aord (rfuel a) a) (rw a)).
    { apply reduced_words_prod; try assumption. unfold rfuel. rewrite plen_ok. pose proof (ell_nonneg a). lia. }
    destruct (rdrain_ok _ _ G rt Ht) as (t' & ws & E & Ht' & P). rewrite E. cbn [rbind]. destruct (IH t' (out ++ ws) Ht' F') as (rt' & ws' & E' & Ht2 & P'). exists rt', (ws ++ ws'). rewrite E', app_assoc. split; [reflexivity|]. split; [exact Ht2|]. cbn [flat_map]. apply Permutation_app; assumption.
Qed.
Lemma words_union : forall z l ws, invol z -> unsig z -> Forall canonical l -> atoms_ok z l -> Permutation ws (flat_map rw l) -> words_ok z ws.
Proof.
  intros z l ws Hz U F [N I] P. assert (I2 : forall v, In v ws <-> gens v /\ path (iact false) [] v = Some z).
  { intro v. rewrite <- (atomw_words z v Hz U). rewrite Forall_forall in F. split.
    - intro Hv. apply (Permutation_in _ P) in Hv. apply in_flat_map in Hv. destruct Hv as (a & Ha & Hv). exists a. split; [apply I; exact Ha|]. apply rw_spec; [apply F; exact Ha|exact Hv].
    - intros (a & Aa & R). apply (Permutation_in _ (Permutation_sym P)). apply in_flat_map. exists a. split; [apply I; exact Aa|]. apply rw_spec; [apply F; apply I; exact Aa|exact R]. }
  split; [|exact I2]. apply (Permutation_NoDup (Permutation_sym P)). apply NoDup_flat_map; [exact N| |].
  - intros a _. apply rw_NoDup.
  - rewrite Forall_forall in F. intros a b v Ha Hb V1 V2. apply rw_spec in V1; [|apply F; exact Ha]. apply rw_spec in V2; [|apply F; exact Hb]. destruct V1 as (_ & E1 & _). destruct V2 as (_ & E2 & _). congruence.
Qed.
Definition st_ok (ic : fpf_cache) (rt : rtable) (ac : atom_cache) : Prop := ic_ok ic /\ table_ok rt /\ ac_ok ac.
Lemma invol_words_keep : forall fuel ic rt ac w ic' rt' ac' l, st_ok ic rt ac -> canonical w ->
  get_involution_words aord dorder fuel ic rt ac w = Ok (ic', rt', ac', l) -> st_ok ic' rt' ac' /\ (invol w -> unsig w -> words_ok w l).
Proof.
  intros fuel ic rt ac w ic' rt' ac' l (H1 & H2 & H3) Hw E. unfold get_involution_words in E. rewrite pinv_ok in E by apply Hw. cbn [rbind] in E. destruct (negb (peq (invp w) w)); [discriminate|].
  destruct (dget zlist_eqb ic w) as [ws|] eqn:D.
  - injection E as <- <- <- <-. split; [split; [|split]; assumption|]. intros Hz U. destruct (H1 w ws D Hz U) as [N I]. split; [apply (Permutation_NoDup (Permutation_sym (aord_perm ws))); exact N|].
    intro v. rewrite <- I. split; apply Permutation_in; [apply aord_perm|apply Permutation_sym, aord_perm].
  - destruct (get_atoms aord fuel ac w) as [[ac2 atoms]|] eqn:A; [|discriminate]. cbn [rbind] in E. destruct (get_atoms_keep _ _ _ _ _ H3 Hw A) as [H3' F].
    destruct (words_fold atoms rt [] H2 F) as (rt2 & ws & E2 & H2' & P). rewrite E2 in E. cbn [rbind app] in E. injection E as <- <- <- <-.
    assert (WO : invol w -> unsig w -> words_ok w ws).
    { intros Hz U. apply (words_union w atoms); try assumption. unfold get_atoms in A. rewrite pinv_ok in A by apply Hw. cbn [rbind] in A. destruct (negb (peq w (invp w))); [discriminate|]. destruct (dget zlist_eqb ac w) as [l0|] eqn:D2; [injection A as <- <-; apply (H3 w l0 D2); assumption|].
      destruct (atoms_loop aord fuel [min_inv_atom_oneline w]) as [o|]; [|discriminate]. cbn [rbind] in A. injection A as <- <-. apply (H3' w o); [apply (dget_dset_same zlist_eqb zlist_eqb_eq)|exact Hz|exact U]. }
    split; [|exact WO]. split; [|split; assumption]. intros k l D2 Hz U. apply dget_set in D2. destruct D2 as [[-> ->]|D2]; [|apply H1; assumption].
    destruct (WO Hz U) as [N I]. destruct (wunion_spec ws [] ltac:(constructor)) as [N2 I2]. split; [exact N2|]. intro v. rewrite I2, <- I. split; [intros [[]|?]; assumption|right; assumption].
Qed.
Lemma invol_words_exact : forall fuel ic rt ac w, st_ok ic rt ac -> invol w -> unsig w -> zlen w * zlen w + 1 < Z.of_nat fuel ->
  exists ic' rt' ac' l, get_involution_words aord dorder fuel ic rt ac w = Ok (ic', rt', ac', l) /\ words_ok w l.
Proof.
  intros fuel ic rt ac w H Hw U Hf. assert (E : exists r, get_involution_words aord dorder fuel ic rt ac w = Ok r).
  { destruct H as (H1 & H2 & H3). unfold get_involution_words. rewrite pinv_ok by apply Hw. cbn [rbind]. rewrite (invol_invp w Hw). unfold peq. rewrite (proj2 (zlist_eqb_eq w w) eq_refl). cbn [negb]. destruct (dget zlist_eqb ic w) as [ws|] eqn:D; [eexists; reflexivity|].
    destruct (get_atoms_exact fuel ac w H3 Hw U Hf) as (c' & l & E & _ & F & _). rewrite E. cbn [rbind]. destruct (words_fold l rt [] H2 F) as (rt2 & ws & E2 & _). rewrite E2. cbn [rbind]. eexists; reflexivity. }
  destruct E as ([[[ic' rt'] ac'] l] & E). exists ic', rt', ac', l. split; [exact E|]. apply (invol_words_keep _ _ _ _ _ _ _ _ _ H (proj1 Hw) E); assumption.
Qed.
Lemma words_noninv : forall fuel ic rt ac w, canonical w -> ~ invol w -> get_involution_words aord dorder fuel ic rt ac w = Err AssertionError.
Proof.
  intros fuel ic rt ac w Hw N. unfold get_involution_words. rewrite pinv_ok by apply Hw. cbn [rbind]. destruct (peq (invp w) w) eqn:Q; [|reflexivity]. exfalso. apply N. apply invp_invol; [exact Hw|]. apply zlist_eqb_eq in Q. exact Q.
Qed.
Lemma st_init : st_ok [([], [[]])] [([], [[]])] [].
Proof.
  split; [|split].
  - intros k l D Hz U. destruct k as [|x k]; [|discriminate D]. assert (l = [[]]) as -> by (cbn in D; congruence). split; [repeat constructor; intros []|]. intro v. split.
    + intros [<-|[]]. split; [constructor|reflexivity].
    + intros [G P]. left. apply path_reduced in P; [|exact G]. destruct P as [_ L]. change (il2 []) with 0 in L. destruct v; [reflexivity|]. rewrite zlen_cons in L. pose proof (zlen_nonneg _ v). lia.
  - apply (rrun_ok dorder aord dorder_perm aord_perm []).
  - intros k l D. discriminate.
Qed.
End Ord.
