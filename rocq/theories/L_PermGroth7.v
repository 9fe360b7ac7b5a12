(* The words of the specification are the paths of the generators; parity of fixed-point-free involutions. *)
From Coq Require Import List ZArith Lia Bool Permutation Arith.
From Verif Require Import PyBase FinSum M_Partitions M_Words S_Words M_Perm S_Perm M_Levels S_Levels L_Count L_Perm L_PermLen L_PermWord L_PermDem L_PermMisc L_Levels L_LevelsInst P_Perm P_Levels L_FominWords L_FominZeta L_PermActs L_FominSym M_PermGroth L_PermGroth1 L_PermGroth2 S_PermGroth.
Import ListNotations.
Local Open Scope Z_scope.

Lemma acts_rel : forall (R S : (Z -> Z) -> Z -> (Z -> Z) -> Prop), (forall f i g, R f i g -> S f i g) -> forall v f h, acts R f v h -> acts S f v h.
Proof. intros R S HRS v f h H. induction H as [f g H|f i g word h H1 _ IH]; [constructor; exact H|]. econstructor; [apply HRS; exact H1|exact IH]. Qed.
Lemma letters_max : forall v a, exists N, Forall (fun i => a <= i) v -> Forall (fun i => In i (zrange a N)) v.
Proof.
  intros v a. induction v as [|x v (N & IH)]; [exists 0; constructor|]. exists (Z.max N (x + 1)). intro F. inversion F as [|? ? Hx Fv]; subst. constructor; [apply In_zrange; lia|].
  specialize (IH Fv). rewrite Forall_forall in *. intros y Hy. specialize (IH y Hy). apply In_zrange in IH. apply In_zrange. lia.
Qed.
Lemma hecke_path : forall v w, Forall (fun i => 1 <= i) v -> (path hact [] v = Some w <-> canonical w /\ acts hecke_rel (fun x => x) v (pcall w)).
Proof.
  intros v w Hv. destruct (letters_max v 1) as (N & HN). specialize (HN Hv). rewrite (path_acts (zrange 1 N) canonical hact hecke_rel).
  - split; intros [A B]; (split; [assumption|]); (eapply acts_ext; [exact hecke_rel_ext| |exact B]); intro x; rewrite pcall_nil; reflexivity.
  - auto.
  - intros a i b. apply hact_valid.
  - intros a i b Ha Hi Eb. apply In_zrange in Hi. injection Eb as <-. apply dm_rel; [assumption|lia].
  - intros a i g Ha Hi R. apply In_zrange in Hi. exists (dm a i). split; [reflexivity|]. eapply hecke_rel_fun; [exact R|]. apply dm_rel; [assumption|lia].
  - exact hecke_rel_ext.
  - apply nil_canonical.
  - exact HN.
Qed.
Lemma involution_path : forall hecke v w, Forall (fun i => 0 <= i) v -> (path (iact hecke) [] v = Some w <-> canonical w /\ acts (inv_step_rel hecke) (fun x => x) v (pcall w)).
Proof.
  intros hecke v w Hv. destruct (letters_max v 0) as (N & HN). specialize (HN Hv). rewrite (path_acts (zrange 0 N) invol (iact hecke) (inv_step_rel hecke)).
  - split; intros [A B]; (split; [assumption|]); (eapply acts_ext; [exact (inv_step_rel_ext hecke)| |exact B]); intro x; rewrite pcall_nil; reflexivity.
  - intros a Ha. apply Ha.
  - intros a i c Ha Hi. apply In_zrange in Hi. apply iact_valid; [assumption|lia].
  - intros a i c Ha Hi Eb. apply In_zrange in Hi. apply iact_rel; [assumption|lia|assumption].
  - intros a i g Ha Hi R. apply In_zrange in Hi. apply rel_iact; [assumption|lia|assumption].
  - exact (inv_step_rel_ext hecke).
  - apply invol_nil.
  - exact HN.
Qed.
Lemma symplectic_path : forall hecke n v w, n mod 2 = 0 -> Forall (fun i => 1 <= i < n) v ->
  (path (sact hecke) (s0 n) v = Some w <-> canonical w /\ acts (fun f i g => f i <> i + 1 /\ inv_step_rel hecke f i g) (matching n) v (pcall w)).
Proof.
  intros hecke m v pi Hm Hl. set (rel := fun f i g => f i <> i + 1 /\ inv_step_rel hecke f i g). destruct (s0_ok m Hm) as (Hv & Hs & _).
  assert (Rext : forall f f' i g, (forall x, f x = f' x) -> rel f i g -> rel f' i g).
  { intros f f' i g E [R1 R2]. split; [rewrite <- E; assumption|eapply inv_step_rel_ext; eassumption]. }
  rewrite (path_acts (zrange 1 m) invol (sact hecke) rel).
  - split; intros [A B]; (split; [assumption|]); (eapply acts_ext; [exact Rext| |exact B]); intro x; rewrite Hs; reflexivity.
  - intros a Ha. apply Ha.
  - intros a i c Ha Hi. apply In_zrange in Hi. apply sact_valid; [assumption|lia].
  - intros a i c Ha Hi Eb. apply In_zrange in Hi. unfold sact in Eb. destruct (Z.eqb_spec (pcall a i) (i + 1)); [discriminate|]. cbn in Eb. split; [assumption|]. apply iact_rel; [assumption|lia|assumption].
  - intros a i g Ha Hi [R1 R2]. apply In_zrange in Hi. unfold sact. destruct (Z.eqb_spec (pcall a i) (i + 1)); [contradiction|]. cbn. apply rel_iact; [assumption|lia|assumption].
  - exact Rext.
  - assumption.
  - apply letters_range. assumption.
Qed.

Lemma range_ge : forall a b v, Forall (fun i => a <= i < b) v -> Forall (fun i => a <= i) v.
Proof. intros a b v F. eapply Forall_impl; [|exact F]. cbn. intros; lia. Qed.
Lemma hecke_word_wd : forall w v, canonical w -> (hecke_wd (zlen w) w v <-> hecke_word (pcall w) v).
Proof.
  intros w v Hw. unfold hecke_word. split.
  - intros [F P]. pose proof (range_ge _ _ _ F) as G. split; [exact G|]. apply hecke_path in P; [apply P|exact G].
  - intros [G A]. apply hecke_wd_range.
    + unfold gens. eapply Forall_impl; [|exact G]. cbn. intros; lia.
    + intro H0. rewrite Forall_forall in G. specialize (G 0 H0). lia.
    + apply hecke_path; [exact G|]. split; assumption.
Qed.
Lemma involution_word_wd : forall w v, canonical w -> (inv_wd (zlen w) w v <-> involution_word (pcall w) v).
Proof.
  intros w v Hw. unfold involution_word. split.
  - intros [F P]. pose proof (range_ge _ _ _ F) as G. split; [exact G|]. apply involution_path in P; [|exact G]. destruct P as [_ P]. eapply acts_rel; [|exact P]. intros f i g [R _]. exact R.
  - intros [G A]. apply inv_wd_range; [exact G|]. apply involution_path; [exact G|]. split; [exact Hw|]. eapply acts_rel; [|exact A]. intros f i g R. split; [exact R|left; reflexivity].
Qed.
Lemma symplectic_word_wd : forall w v, canonical w -> zlen w mod 2 = 0 -> (symp_wd (zlen w) w v <-> symplectic_word (zlen w) (pcall w) v).
Proof.
  intros w v Hw Hn. unfold symplectic_word. split.
  - intros [F P]. split; [exact F|]. apply symplectic_path in P; [|exact Hn|exact F]. destruct P as [_ P]. eapply acts_rel; [|exact P]. intros f i g [R0 [R _]]. split; assumption.
  - intros [G A]. split; [exact G|]. apply symplectic_path; [exact Hn|exact G|]. split; [exact Hw|]. eapply acts_rel; [|exact A]. intros f i g [R0 R]. split; [exact R0|]. split; [exact R|left; reflexivity].
Qed.

Lemma lists_fin : forall (A : list Z) act p0 w (H : list Z -> Prop), NoDup A -> (forall v, H v <-> Forall (fun i => In i A) v /\ path act p0 v = Some w) -> forall k, exists l, lists H k l.
Proof.
  intros A act p0 w H Na E k. exists (filter (fun v => match path act p0 v with Some r => zlist_eqb r w | None => false end) (words A k)). split; [apply NoDup_filter, words_nodup; exact Na|].
  intro v. rewrite filter_In, in_words, E. destruct (path act p0 v) as [r|]; [rewrite zlist_eqb_eq|]; intuition congruence.
Qed.
Lemma hecke_fin : forall n w k, exists l, lists (hecke_wd n w) k l.
Proof. intros n w. apply (lists_fin (zrange 1 n) hact [] w); [apply NoDup_zrange|]. intro v. unfold hecke_wd. rewrite letters_range. tauto. Qed.
Lemma inv_fin : forall n w k, exists l, lists (inv_wd n w) k l.
Proof. intros n w. apply (lists_fin (zrange 0 n) (iact true) [] w); [apply NoDup_zrange|]. intro v. unfold inv_wd. rewrite letters_range. tauto. Qed.
Lemma symp_fin : forall n w k, exists l, lists (symp_wd n w) k l.
Proof. intros n w. apply (lists_fin (zrange 1 n) (sact true) (s0 n) w); [apply NoDup_zrange|]. intro v. unfold symp_wd. rewrite letters_range. tauto. Qed.

(* fixed-point-free involutions *)
Lemma even_orbits : forall (f : Z -> Z) k l, (length l <= k)%nat -> NoDup l -> (forall x, In x l -> In (f x) l /\ f x <> x /\ f (f x) = x) -> exists j, length l = (2 * j)%nat.
Proof.
  intro f. induction k as [|k IH]; intros l Lk Nl Hl; [exists 0%nat; destruct l; [reflexivity|cbn in Lk; lia]|]. destruct l as [|a l]; [exists 0%nat; reflexivity|].
  inversion Nl as [|? ? Na Nl']; subst. destruct (Hl a (or_introl eq_refl)) as (Ha & Fa & FFa). destruct Ha as [Ha|Ha]; [congruence|]. apply in_split in Ha. destruct Ha as (l1 & l2 & ->).
  assert (Nr : NoDup (l1 ++ l2)) by (eapply NoDup_remove_1; exact Nl'). assert (Nfa : ~ In (f a) (l1 ++ l2)) by (apply NoDup_remove_2; exact Nl').
  destruct (IH (l1 ++ l2)) as (j & Ej); [rewrite app_length in *; cbn in *; rewrite app_length in Lk; cbn in Lk; lia|exact Nr| |].
  - intros x Hx. destruct (Hl x) as (H1 & H2 & H3); [right; apply in_app_iff; apply in_app_iff in Hx; cbn; tauto|]. split; [|auto].
    destruct H1 as [H1|H1]; [exfalso; apply Nfa; rewrite H1, H3; exact Hx|]. apply in_app_iff in H1. apply in_app_iff. destruct H1 as [H1|[H1|H1]]; auto. exfalso. apply Na. apply (f_equal f) in H1. rewrite FFa, H3 in H1. subst x. apply in_app_iff. apply in_app_iff in Hx. cbn. tauto.
  - exists (S j). cbn [length]. rewrite app_length in *. cbn [length]. lia.
Qed.
Lemma fpf_even : forall w, canonical w -> is_unsigned w = true -> is_fpf_involution w = Ok true -> zlen w mod 2 = 0 /\ invol w.
Proof.
  intros w Hw Hu Hf. unfold is_fpf_involution in Hf. rewrite pinv_ok in Hf by apply Hw. cbn [rbind] in Hf. injection Hf as Hf. apply andb_true_iff in Hf. destruct Hf as [H1 H2].
  assert (I : invol w). { apply invp_invol; [exact Hw|]. unfold peq in H1. apply zlist_eqb_eq in H1. symmetry. exact H1. }
  split; [|exact I]. rewrite forallb_forall in H2.
  destruct (even_orbits (pcall w) (length (zrange 1 (zlen w + 1))) (zrange 1 (zlen w + 1)) (Nat.le_refl _) (NoDup_zrange _ _)) as (j & Ej).
  - intros x Hx. specialize (H2 x Hx). split; [|split; [intro E; rewrite E, Z.eqb_refl in H2; discriminate|apply I]].
    apply In_zrange in Hx. apply In_zrange. pose proof (unsigned_pos w x Hu ltac:(lia)). pose proof (pcall_abs w x (proj1 Hw) ltac:(lia)). lia.
  - replace (zlen w) with (2 * Z.of_nat j); [rewrite Z.mul_comm; apply Z.mod_mul; lia|]. unfold zrange in Ej. rewrite map_length, seq_length in Ej. pose proof (zlen_nonneg _ w). lia.
Qed.
