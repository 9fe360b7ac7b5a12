(* Sums over Hecke words are symmetric: four instances of the commutation results. *)
From Coq Require Import List ZArith Lia Bool Permutation.
From Verif Require Import PyBase FinSum L_Count M_Words S_Words M_Perm S_Perm L_PermWord M_Levels S_Levels L_LevelsInst P_Levels L_Fomin L_FominWords L_FominB L_PermActs L_FominZeta.
Import ListNotations.
Local Open Scope Z_scope.

Lemma zs_filter_ind : forall A (f : A -> Z) (b : A -> bool) l, zs f (filter b l) = zs (fun v => f v * (if b v then 1 else 0)) l.
Proof. intros A f b l. induction l as [|v l IH]; [reflexivity|]. cbn [filter]. destruct (b v) eqn:E; rewrite ?zs_cons, IH, ?E; lia. Qed.
Lemma zs_perm : forall A (f : A -> Z) l m, Permutation l m -> zs f l = zs f m.
Proof. intros A f l m H. induction H; rewrite ?zs_cons; lia. Qed.
Lemma zs_set : forall A (f : A -> Z) l m, NoDup l -> NoDup m -> (forall v, In v l <-> In v m) -> zs f l = zs f m.
Proof. intros. apply zs_perm, NoDup_Permutation; assumption. Qed.

Section TypeA.
  Variable P : Type.
  Variable valid : P -> Prop.
  Variable act : P -> Z -> option P.
  Variable N : nat.
  Hypothesis act_valid : forall p i q, valid p -> letter N i -> act p i = Some q -> valid q.
  Hypothesis U_idem : forall i F p, valid p -> letter N i -> U P act i (U P act i F) p = U P act i F p.
  Hypothesis U_braid : forall i F p, valid p -> letter N i -> letter N (i + 1) -> U P act i (U P act (i + 1) (U P act i F)) p = U P act (i + 1) (U P act i (U P act (i + 1) F)) p.
  Hypothesis U_comm : forall i j F p, valid p -> letter N i -> letter N j -> i + 1 < j -> U P act i (U P act j F) p = U P act j (U P act i F) p.
  Lemma hc_dl : forall m x F, hc P act x (dl m) F = Dx P act m x F.
  Proof. induction m as [|m IH]; intros x F; [reflexivity|]. cbn [dl hc Dx]. rewrite IH. reflexivity. Qed.
  Lemma dl_letter : forall m i, In i (dl m) <-> 1 <= i <= Z.of_nat m.
  Proof.
    induction m as [|m IH]; intro i; cbn [dl In]; [lia|]. rewrite IH. lia.
  Qed.
  Lemma typeA_perm : forall ks ks' F p, Permutation ks ks' -> valid p -> sks P act (dl N) ks F p = sks P act (dl N) ks' F p.
  Proof.
    intros ks ks' F p H Hp. refine (sks_perm P valid act (dl N) _ _ ks ks' F H p Hp).
    - intros q i r Hq Hi E. apply (act_valid q i r Hq); [|exact E]. apply dl_letter in Hi. unfold letter. lia.
    - intros x t G _ _. rewrite !hc_dl. apply (Dx_sym P valid act N act_valid U_idem U_braid U_comm). lia.
  Qed.
End TypeA.

Section TypeB.
  Variable P : Type.
  Variable valid : P -> Prop.
  Variable act : P -> Z -> option P.
  Hypothesis act_valid : forall p i q, valid p -> 0 <= i -> act p i = Some q -> valid q.
  Hypothesis U_idem : forall i F p, valid p -> 0 <= i -> U P act i (U P act i F) p = U P act i F p.
  Hypothesis U_braid : forall i F p, valid p -> 1 <= i -> U P act i (U P act (i + 1) (U P act i F)) p = U P act (i + 1) (U P act i (U P act (i + 1) F)) p.
  Hypothesis U_braid4 : forall F p, valid p -> U P act 0 (U P act 1 (U P act 0 (U P act 1 F))) p = U P act 1 (U P act 0 (U P act 1 (U P act 0 F))) p.
  Hypothesis U_comm : forall i j F p, valid p -> 0 <= i -> i + 1 < j -> U P act i (U P act j F) p = U P act j (U P act i F) p.
  Lemma kl_letter : forall m i, In i (kl m) <-> 0 <= i <= Z.of_nat m.
  Proof.
    induction m as [|m IH]; intro i; cbn [kl In]; [lia|]. rewrite in_app_iff, IH. cbn [In]. lia.
  Qed.
  Lemma typeB_perm : forall m ks ks' F p, Permutation ks ks' -> valid p -> sks P act (kl m) ks F p = sks P act (kl m) ks' F p.
  Proof.
    intros m ks ks' F p H Hp. refine (sks_perm P valid act (kl m) _ _ ks ks' F H p Hp).
    - intros q i r Hq Hi E. apply (act_valid q i r Hq); [|exact E]. apply kl_letter in Hi. lia.
    - intros x t G _ _. apply (kl_comm P valid act act_valid U_idem U_braid U_braid4 U_comm).
  Qed.
End TypeB.

(* ---- from chains to word sums ---- *)
Definition wsum (zeta : list Z -> Z) (a : list nat) (l : list (list Z)) : Z := zs (fun v => zprod (map zeta (cut a v))) l.
Definition lists (H : list Z -> Prop) (k : nat) (l : list (list Z)) : Prop := NoDup l /\ forall v, In v l <-> H v /\ length v = k.
Definition sym_words (zeta : list Z -> Z) (H : list Z -> Prop) : Prop :=
  forall a b l m, Permutation a b -> lists H (nsum a) l -> lists H (nsum b) m -> wsum zeta a l = wsum zeta b m.
Lemma in_cut : forall a v u x, In u (cut a v) -> In x u -> In x v.
Proof.
  induction a as [|k a IH]; intros v u x Hu Hx; [destruct Hu|]. cbn [cut] in Hu. destruct Hu as [<-|Hu].
  - rewrite <- (firstn_skipn k v). apply in_or_app. left. assumption.
  - rewrite <- (firstn_skipn k v). apply in_or_app. right. eapply IH; eassumption.
Qed.

Section WordSum.
  Variable act : list Z -> Z -> option (list Z).
  Variables ls A : list Z.
  Hypothesis A_nodup : NoDup A.
  Hypothesis ls_A : incl ls A.
  Variable zeta : list Z -> Z.
  Hypothesis zeta_emb : forall v, Forall (fun i => In i A) v -> zeta v = emb ls v.
  Lemma word_sum : forall p0 q a l, lists (fun v => Forall (fun i => In i A) v /\ pathp _ act p0 v = Some q) (nsum a) l ->
    wsum zeta a l = sks _ act ls a (fun p => if zlist_eqb p q then 1 else 0) p0.
  Proof.
    intros p0 q a l [Hn Hl]. rewrite (sks_words _ act ls A A_nodup ls_A).
    set (b := fun v => match pathp _ act p0 v with Some r => zlist_eqb r q | None => false end).
    unfold wsum. rewrite (zs_set _ _ l (filter b (words A (nsum a)))); [|exact Hn|apply NoDup_filter, words_nodup; assumption|].
    - rewrite zs_filter_ind. apply zs_ext. intros v Hv. apply in_words in Hv. destruct Hv as [_ Hv]. f_equal.
      + f_equal. apply map_ext_in. intros u Hu. apply zeta_emb. rewrite Forall_forall in *. intros x Hx. apply Hv. eapply in_cut; eassumption.
      + unfold b, ev. destruct (pathp (list Z) act p0 v) as [r|]; reflexivity.
    - intro v. rewrite filter_In, in_words, Hl. unfold b. destruct (pathp (list Z) act p0 v) as [r|].
      + rewrite zlist_eqb_eq. intuition congruence.
      + intuition congruence.
  Qed.
End WordSum.

Lemma path_pathp : forall act w p, path act p w = pathp _ act p w.
Proof. intros act. induction w as [|i w IH]; intro p; [reflexivity|]. cbn [path pathp]. destruct (act p i); [apply IH|reflexivity]. Qed.

(* ---- the four families ---- *)
Definition hecke_wd (n : Z) (w v : list Z) : Prop := Forall (fun i => 1 <= i < n) v /\ path hact [] v = Some w.
Definition inv_wd (n : Z) (w v : list Z) : Prop := Forall (fun i => 0 <= i < n) v /\ path (iact true) [] v = Some w.
Definition symp_wd (n : Z) (w v : list Z) : Prop := Forall (fun i => 1 <= i < n) v /\ path (sact true) (s0 n) v = Some w.

Lemma lists_ext : forall H H' k l, (forall v, H v <-> H' v) -> lists H k l -> lists H' k l.
Proof. intros H H' k l E [N L]. split; [exact N|]. intro v. rewrite L, E. tauto. Qed.

Lemma dec_zeta_range : forall n v, Forall (fun i => In i (zrange 1 n)) v -> decreasing_zeta v = emb (dl (Z.to_nat (n - 1))) v.
Proof.
  intros n v H. rewrite dl_dn. apply dec_zeta_emb. rewrite Forall_forall in *. intros x Hx. specialize (H x Hx). apply In_zrange in H. lia.
Qed.
Lemma dl_range : forall n, incl (dl (Z.to_nat (n - 1))) (zrange 1 n).
Proof. intros n i Hi. apply (dl_letter (Z.to_nat (n - 1))) in Hi. apply In_zrange. lia. Qed.

Section TypeAWords.
  Variable valid : list Z -> Prop.
  Variable act : list Z -> Z -> option (list Z).
  Variable n : Z.
  Hypothesis act_valid : forall p i q, valid p -> 1 <= i < n -> act p i = Some q -> valid q.
  Hypothesis U_idem : forall i F p, valid p -> 1 <= i < n -> U _ act i (U _ act i F) p = U _ act i F p.
  Hypothesis U_braid : forall i F p, valid p -> 1 <= i -> i + 1 < n -> U _ act i (U _ act (i + 1) (U _ act i F)) p = U _ act (i + 1) (U _ act i (U _ act (i + 1) F)) p.
  Hypothesis U_comm : forall i j F p, valid p -> 1 <= i -> i + 1 < j -> j < n -> U _ act i (U _ act j F) p = U _ act j (U _ act i F) p.
  Lemma typeA_words : forall p0 w, valid p0 -> sym_words decreasing_zeta (fun v => Forall (fun i => 1 <= i < n) v /\ path act p0 v = Some w).
  Proof.
    intros p0 w Hp a b l m Hab Hl Hm.
    assert (E : forall v, Forall (fun i => 1 <= i < n) v /\ path act p0 v = Some w <-> Forall (fun i => In i (zrange 1 n)) v /\ pathp _ act p0 v = Some w).
    { intro v. rewrite path_pathp, letters_range. tauto. }
    pose proof (lists_ext _ _ _ _ E Hl) as Hl'. pose proof (lists_ext _ _ _ _ E Hm) as Hm'.
    rewrite (word_sum act (dl (Z.to_nat (n - 1))) (zrange 1 n) (NoDup_zrange _ _) (dl_range n) decreasing_zeta (dec_zeta_range n) p0 w a l Hl').
    rewrite (word_sum act (dl (Z.to_nat (n - 1))) (zrange 1 n) (NoDup_zrange _ _) (dl_range n) decreasing_zeta (dec_zeta_range n) p0 w b m Hm').
    apply (typeA_perm _ valid act (Z.to_nat (n - 1))); try assumption; unfold letter; intros.
    - eapply act_valid; [eassumption| |eassumption]; lia.
    - apply U_idem; [assumption|lia].
    - apply U_braid; [assumption|lia|lia].
    - apply U_comm; [assumption|lia|lia|lia].
  Qed.
End TypeAWords.

Lemma hecke_sym : forall n w, sym_words decreasing_zeta (hecke_wd n w).
Proof.
  intros n w. apply (typeA_words canonical hact n).
  - intros p i q Hp Hi E. apply (hact_valid n p i q Hp); [apply In_zrange; lia|exact E].
  - intros i F p Hp Hi. apply hact_idem; [assumption|lia].
  - intros i F p Hp Hi _. apply hact_braid; assumption.
  - intros i j F p Hp Hi Hj _. apply hact_comm; [assumption|lia|lia].
  - apply (proj1 invol_nil).
Qed.
Lemma symp_sym : forall n w, n mod 2 = 0 -> sym_words decreasing_zeta (symp_wd n w).
Proof.
  intros n w Hn. apply (typeA_words (fpf n) (sact true) n).
  - intros p i q Hp Hi E. eapply sact_fpf; eassumption.
  - intros i F p Hp Hi. apply (sact_idem n); assumption.
  - intros i F p Hp Hi Hn'. apply (sact_braid n); assumption.
  - intros i j F p Hp Hi Hj Hn'. apply (sact_comm n); assumption.
  - destruct (s0_ok n Hn) as (H1 & H2 & _). split; [exact H1|]. intros x Hx. rewrite H2. unfold matching.
    replace (Z.abs x <=? n) with true by (symmetry; apply Z.leb_le; lia). replace (x =? 0) with false by (symmetry; apply Z.eqb_neq; lia).
    replace (Z.abs x) with x by lia. destruct (Z.odd x) eqn:E; split; try lia.
    assert (x <> 1) by (intros ->; discriminate). lia.
Qed.
Lemma iact1_sym : forall n w, sym_words decreasing_zeta (fun v => Forall (fun i => 1 <= i < n) v /\ path (iact true) [] v = Some w).
Proof.
  intros n w. apply (typeA_words invol (iact true) n).
  - intros p i q Hp Hi E. apply (iact_valid true p i q Hp); [lia|exact E].
  - intros i F p Hp Hi. apply iact_idem; [assumption|lia].
  - intros i F p Hp Hi _. apply iact_braid; assumption.
  - intros i j F p Hp Hi Hj _. apply iact_comm; [assumption|lia|lia].
  - apply invol_nil.
Qed.
Lemma cut_nil : forall zeta a, zeta [] = 1 -> zprod (map zeta (cut a [])) = 1.
Proof. intros zeta a H. induction a as [|k a IH]; [reflexivity|]. cbn [cut map]. rewrite firstn_nil, skipn_nil, H. cbn [zprod fold_right]. fold (zprod (map zeta (cut a []))). rewrite IH. reflexivity. Qed.
Lemma nsum_perm : forall a b, Permutation a b -> nsum a = nsum b.
Proof. intros a b H. unfold nsum. induction H; cbn [fold_right]; lia. Qed.
Lemma inv_uni_sym : forall n w, sym_words unimodal_zeta (inv_wd n w).
Proof.
  intros n w a b l m Hab Hl Hm. destruct (Z_le_gt_dec n 0) as [Hn|Hn].
  - assert (V : forall v, inv_wd n w v -> v = []).
    { intros [|x v] [H _]; [reflexivity|]. apply Forall_inv in H. lia. }
    assert (K : forall a l, lists (inv_wd n w) (nsum a) l -> wsum unimodal_zeta a l = zs (fun _ => 1) l).
    { intros a' l' [_ H]. unfold wsum. apply zs_ext. intros v Hv. apply H in Hv. rewrite (V v (proj1 Hv)). apply cut_nil. reflexivity. }
    rewrite (K a l Hl), (K b m Hm). apply zs_set; [apply Hl|apply Hm|]. intro v. rewrite (proj2 Hl), (proj2 Hm), (nsum_perm a b Hab). tauto.
  - assert (E : forall v, inv_wd n w v <-> Forall (fun i => In i (zrange 0 n)) v /\ pathp _ (iact true) [] v = Some w).
    { intro v. unfold inv_wd. rewrite path_pathp, letters_range. tauto. }
    pose proof (lists_ext _ _ _ _ E Hl) as Hl'. pose proof (lists_ext _ _ _ _ E Hm) as Hm'.
    assert (I : incl (kl (Z.to_nat (n - 1))) (zrange 0 n)).
    { intros i Hi. apply kl_letter in Hi. apply In_zrange. lia. }
    assert (Z0 : forall v, Forall (fun i => In i (zrange 0 n)) v -> unimodal_zeta v = emb (kl (Z.to_nat (n - 1))) v).
    { intros v Hv. apply uni_zeta_emb. rewrite Forall_forall in *. intros x Hx. specialize (Hv x Hx). apply In_zrange in Hv. lia. }
    rewrite (word_sum (iact true) _ (zrange 0 n) (NoDup_zrange _ _) I unimodal_zeta Z0 [] w a l Hl').
    rewrite (word_sum (iact true) _ (zrange 0 n) (NoDup_zrange _ _) I unimodal_zeta Z0 [] w b m Hm').
    apply (typeB_perm _ invol (iact true)); [| | | | |exact Hab|apply invol_nil]; intros.
    + eapply iact_valid; eassumption.
    + apply iact_idem; assumption.
    + apply iact_braid; assumption.
    + apply iact_braid4; assumption.
    + apply iact_comm; assumption.
Qed.
