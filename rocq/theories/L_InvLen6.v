(* Involution lengths and words in terms of the specification. *)
From Coq Require Import List ZArith Bool Lia Permutation.
From Verif Require Import PyBase FinSum M_Partitions M_Perm S_Perm M_Levels S_Levels L_Perm L_PermLen L_PermWord L_PermDem L_LevelsInst P_Perm P_Levels L_PermActs M_PermGroth L_PermGroth7 S_PermGroth S_InvWords L_InvLen L_InvLen2 L_InvLen3 L_InvLen4 M_InvWords.
Import ListNotations.
Local Open Scope Z_scope.

Lemma involution_word_cjs : forall w v, canonical w -> (involution_word (pcall w) v <-> gens v /\ w = cjs [] v).
Proof.
  intros w v Hw. unfold involution_word. split.
  - intros [G A]. split; [exact G|]. assert (P : path (iact true) [] v = Some w).
    { apply involution_path; [exact G|]. split; [exact Hw|]. eapply acts_rel; [|exact A]. intros f i g R. split; [exact R|left; reflexivity]. }
    rewrite path_true in P. congruence.
  - intros [G ->]. split; [exact G|]. pose proof (path_true v []) as P. apply involution_path in P; [|exact G]. destruct P as [_ A]. eapply acts_rel; [|exact A]. intros f i g [R _]. exact R.
Qed.
Lemma path_shortest : forall w v, invol w -> gens v -> (path (iact false) [] v = Some w <-> shortest_word (involution_word (pcall w)) v).
Proof.
  intros w v Hw G. rewrite path_reduced by exact G. unfold shortest_word. rewrite involution_word_cjs by apply Hw. split.
  - intros [E L]. split; [auto|]. intros u Hu. apply involution_word_cjs in Hu; [|apply Hw]. destruct Hu as [Gu Eu]. pose proof (il2_le u Gu) as Q. rewrite <- Eu in Q. lia.
  - intros [[_ E] Mn]. split; [exact E|]. destruct (get_word_ok (S (Z.to_nat (ell w))) w Hw ltac:(pose proof (ell_nonneg w); lia)) as (u & _ & Gu & Pu).
    apply path_reduced in Pu; [|exact Gu]. destruct Pu as [Eu Lu]. assert (Q : zlen v <= zlen u) by (apply Mn; apply involution_word_cjs; [apply Hw|auto]).
    pose proof (il2_le v G) as Q2. rewrite <- E in Q2. lia.
Qed.
Lemma involution_length_ok : forall w, invol w -> exists n, involution_length w = Ok n /\ il2 w = 2 * n /\ shortest (involution_word (pcall w)) n.
Proof.
  intros w Hw. destruct (get_word_ok (S (Z.to_nat (ell w))) w Hw ltac:(pose proof (ell_nonneg w); lia)) as (v & _ & Gv & Pv).
  pose proof (proj1 (path_shortest w v Hw Gv) Pv) as [Sv Mv]. apply path_reduced in Pv; [|exact Gv]. destruct Pv as [_ L].
  exists (zlen v). split; [|split; [exact L|split; [exists v; auto|exact Mv]]].
  unfold involution_length. rewrite plen_ok. cbn [rbind]. f_equal. unfold il2, nu in L. replace (zlen (pnegs w) + zlen (ppair w) + ell w) with (zlen v * 2) by lia. apply Z_div_mult. lia.
Qed.

Lemma symplectic_word_path : forall w v, canonical w -> zlen w mod 2 = 0 -> (symplectic_word (zlen w) (pcall w) v <-> Forall (fun i => 1 <= i < zlen w) v /\ path (sact true) (s0 (zlen w)) v = Some w).
Proof. intros w v Hw Hm. rewrite <- symplectic_word_wd by assumption. reflexivity. Qed.
Lemma W_shortest : forall w v, fpf (zlen w) w -> zlen w mod 2 = 0 -> (W (zlen w) w v <-> shortest_word (symplectic_word (zlen w) (pcall w)) v).
Proof.
  intros w v Hw Hm. assert (H0 : 0 <= zlen w) by (unfold zlen; lia). pose proof (proj1 (proj1 Hw)) as Hc. unfold shortest_word, W. rewrite symplectic_word_path by assumption. split.
  - intros [F P]. assert (P' : path (sact true) (s0 (zlen w)) v = Some w) by (apply path_sact_false in P; tauto). split; [auto|]. intros u Hu. apply symplectic_word_path in Hu; [|assumption|assumption]. destruct Hu as [Fu Pu].
    destruct (sym_reduced _ v w H0 Hm (W_gens _ _ F) P') as [_ K]. apply K in P. destruct (sym_reduced _ u w H0 Hm (W_gens _ _ Fu) Pu) as [Q _]. lia.
  - intros [[F P] Mn]. split; [exact F|]. apply (sym_reduced _ v w H0 Hm (W_gens _ _ F) P).
    destruct (get_fpf_word_ok (S (Z.to_nat (ell w))) _ w H0 Hm Hw ltac:(lia) ltac:(pose proof (ell_nonneg w); lia)) as (u & _ & Fu & Pu).
    assert (Pu' : path (sact true) (s0 (zlen w)) u = Some w) by (apply path_sact_false in Pu; tauto).
    assert (Q : zlen v <= zlen u) by (apply Mn; apply symplectic_word_path; auto).
    destruct (sym_reduced _ u w H0 Hm (W_gens _ _ Fu) Pu') as [_ K]. apply K in Pu. destruct (sym_reduced _ v w H0 Hm (W_gens _ _ F) P) as [Q2 _]. lia.
Qed.
Lemma fpf_length_ok : forall w, fpf (zlen w) w -> zlen w mod 2 = 0 -> exists n, fpf_involution_length w = Ok n /\ shortest (symplectic_word (zlen w) (pcall w)) n.
Proof.
  intros w Hw Hm. assert (H0 : 0 <= zlen w) by (unfold zlen; lia). destruct (involution_length_ok w (proj1 Hw)) as (n & En & L & _).
  destruct (get_fpf_word_ok (S (Z.to_nat (ell w))) _ w H0 Hm Hw ltac:(lia) ltac:(pose proof (ell_nonneg w); lia)) as (u & _ & Wu).
  pose proof (proj1 (W_shortest w u Hw Hm) Wu) as [Su Mu]. destruct Wu as [Fu Pu]. 
  assert (Pu' : path (sact true) (s0 (zlen w)) u = Some w) by (apply path_sact_false in Pu; tauto).
  destruct (sym_reduced _ u w H0 Hm (W_gens _ _ Fu) Pu') as [_ K]. apply K in Pu.
  exists (n - zlen w / 2). split; [unfold fpf_involution_length; rewrite En; reflexivity|].
  assert (E : n - zlen w / 2 = zlen u) by (pose proof (Z.div_mod (zlen w) 2); lia). rewrite E. split; [exists u; auto|exact Mu].
Qed.
Lemma fpf_even_on : forall w, canonical w -> fpf (zlen w) w -> zlen w mod 2 = 0.
Proof.
  intros w Hw Hf. destruct (even_orbits (pcall w) (length (zrange 1 (zlen w + 1))) (zrange 1 (zlen w + 1)) (le_n _) (NoDup_zrange _ _)) as (j & Ej).
  - intros x Hx. apply In_zrange in Hx. split; [apply In_zrange; pose proof (fpf_values _ w x Hf ltac:(lia) ltac:(lia)); lia|]. split; [apply Hf; lia|]. apply (proj1 Hf).
  - pose proof (zlen_zrange 1 (zlen w + 1) ltac:(unfold zlen; lia)) as L. unfold zlen at 1 in L. rewrite Ej in L. replace (zlen w) with (Z.of_nat j * 2) by lia. apply Z_mod_mult.
Qed.

(* determinism *)
Lemma acts_fun : forall (rel : (Z -> Z) -> Z -> (Z -> Z) -> Prop), (forall f i g g', rel f i g -> rel f i g' -> forall x, g x = g' x) -> (forall f f' i g, (forall x, f x = f' x) -> rel f i g -> rel f' i g) ->
  forall v f h h', acts rel f v h -> acts rel f v h' -> forall x, h x = h' x.
Proof.
  intros rel Rf Re v. induction v as [|i v IH]; intros f h h' A A' x.
  - inversion A; subst. inversion A'; subst. rewrite H, H0. reflexivity.
  - inversion A; subst. inversion A'; subst. apply (IH g); [assumption|]. eapply acts_ext; [exact Re| |exact H6]. intro y. apply (Rf f i); assumption.
Qed.
Lemma acts_ext_r : forall rel v f h h', (forall x, h x = h' x) -> acts rel f v h -> acts rel f v h'.
Proof. intros rel v f h h' E A. revert E. induction A as [f g H|f i g word h R _ IH]; intro E; [constructor; intro x; rewrite <- E; apply H|]. econstructor; [exact R|apply IH; exact E]. Qed.
Lemma shortest_word_ext : forall (P Q : list Z -> Prop) v, (forall u, P u <-> Q u) -> shortest_word P v -> shortest_word Q v.
Proof. intros P Q v E [A B]. split; [apply E; exact A|]. intros u Hu. apply B, E. exact Hu. Qed.
Lemma involution_word_ext : forall f g v, (forall x, f x = g x) -> (involution_word f v <-> involution_word g v).
Proof. intros f g v E. unfold involution_word. split; intros [G A]; (split; [exact G|]); eapply acts_ext_r; try exact A; intro x; rewrite E; reflexivity. Qed.
Lemma symplectic_word_ext : forall n f g v, (forall x, f x = g x) -> (symplectic_word n f v <-> symplectic_word n g v).
Proof. intros n f g v E. unfold symplectic_word. split; intros [G A]; (split; [exact G|]); eapply acts_ext_r; try exact A; intro x; rewrite E; reflexivity. Qed.
