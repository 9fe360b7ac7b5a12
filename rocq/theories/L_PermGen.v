From Coq Require Import List ZArith Lia Bool Permutation.
From Verif Require Import PyBase M_Partitions M_Perm M_PermGen S_Perm L_Perm L_PermLen L_PermWord L_PermDem.
Import ListNotations.
Local Open Scope Z_scope.

Section RWF.
Variable dorder : list Z -> list Z.
Variable worder : list (list Z) -> list (list Z).
Hypothesis dorder_perm : forall l, Permutation (dorder l) l.
Hypothesis worder_perm : forall l, Permutation (worder l) l.

(* the reduced words of an element, as a list *)
Fixpoint rwl (fuel : nat) (w : list Z) : list (list Z) :=
  match fuel with
  | O => []
  | S fuel' => match w with
               | [] => [[]]
               | _ => flat_map (fun i => map (fun e => e ++ [i]) (rwl fuel' (mulp w (sp i)))) (rdes w)
               end
  end.
Lemma NoDup_rdes : forall w, NoDup (rdes w).
Proof.
  intro w. unfold rdes. apply NoDup_app_intro.
  - destruct ((1 <=? zlen w) && (pcall w 1 <? 0)); repeat constructor. intros [].
  - apply NoDup_filter, NoDup_zrange.
  - intros x H1 H2. apply filter_In in H2. destruct H2 as [H2 _]. apply In_zrange in H2.
    destruct ((1 <=? zlen w) && (pcall w 1 <? 0)); [|destruct H1]. destruct H1 as [<-|[]]. lia.
Qed.
Lemma rwl_spec : forall fuel w word, canonical w -> ell w < Z.of_nat fuel -> (In word (rwl fuel w) <-> reduced word w).
Proof.
  induction fuel as [|fuel IH]; intros w word Hw Hf; [pose proof (ell_nonneg w); lia|]. cbn [rwl].
  destruct (list_eq_dec Z.eq_dec w []) as [->|N].
  - split.
    + intros [<-|[]]. split; [constructor|]. split; reflexivity.
    + intros (_ & _ & L). change (ell []) with 0 in L. destruct word; [left; reflexivity|]. rewrite zlen_cons in L. pose proof (zlen_nonneg _ word). lia.
  - replace (match w with [] => [[]] | _ :: _ => flat_map (fun i => map (fun e => e ++ [i]) (rwl fuel (mulp w (sp i)))) (rdes w) end)
      with (flat_map (fun i => map (fun e => e ++ [i]) (rwl fuel (mulp w (sp i)))) (rdes w)) by (destruct w; [congruence|reflexivity]).
    rewrite in_flat_map. split.
    + intros (i & Hi & H). apply rdes_spec in Hi; [|apply Hw]. destruct Hi as [Hi Hd]. apply in_map_iff in H. destruct H as (e & <- & He).
      apply IH in He; [|auto with perm|rewrite ell_descent by assumption; lia]. destruct He as (G & P & L).
      split; [apply gens_app; split; [assumption|apply gens_one; assumption]|]. split; [rewrite wordp_snoc, P; apply mulp_sp_sp; assumption|].
      rewrite zlen_app, L, ell_descent by assumption. change (zlen [i]) with 1. lia.
    + intro R. destruct word as [|i e _] using rev_ind.
      { destruct R as (_ & P & _). exfalso. apply N. symmetry. exact P. }
      destruct (reduced_snoc_inv e i w Hw R) as (Hi & Hd & Re). exists i. split; [apply rdes_spec; [apply Hw|auto]|].
      apply (in_map (fun e => e ++ [i])). apply IH; [auto with perm|rewrite ell_descent by assumption; lia|assumption].
Qed.
Lemma rwl_NoDup : forall fuel w, NoDup (rwl fuel w).
Proof.
  induction fuel as [|fuel IH]; intro w; cbn [rwl]; [constructor|]. destruct w as [|a w]; [repeat constructor; intros []|].
  apply NoDup_flat_map; [apply NoDup_rdes| |].
  - intros i _. apply NoDup_map_inj_in; [|apply IH]. intros x y _ _ E. apply app_inv_tail in E. assumption.
  - intros x y b _ _ H1 H2. apply in_map_iff in H1. apply in_map_iff in H2. destruct H1 as (e1 & <- & _). destruct H2 as (e2 & E & _).
    apply app_inj_tail in E. destruct E; congruence.
Qed.

Definition rw (w : list Z) : list (list Z) := rwl (S (Z.to_nat (ell w))) w.
Lemma rw_spec : forall w word, canonical w -> (In word (rw w) <-> reduced word w).
Proof. intros w word Hw. apply rwl_spec; [assumption|]. pose proof (ell_nonneg w). lia. Qed.
Lemma rw_NoDup : forall w, NoDup (rw w).
Proof. intro w. apply rwl_NoDup. Qed.

Definition entry_ok (k : list Z) (l : list (list Z)) : Prop := canonical k -> Permutation l (rw k).
Definition table_ok (t : rtable) : Prop :=
  (forall k l, dget zlist_eqb t k = Some l -> entry_ok k l) /\ dget zlist_eqb t [] <> None.

(* g yields exactly the words of the list L, in some order, and stores only good entries,
   whatever good entries it finds *)
Inductive gprod : rgen -> list (list Z) -> Prop :=
| P_done : gprod RDone []
| P_yield : forall v g L L', gprod g L -> Permutation L' (v :: L) -> gprod (RYield v g) L'
| P_store : forall k vs g L, entry_ok k vs -> gprod g L -> gprod (RStore k vs g) L
| P_look : forall k f L, (forall l, entry_ok k l -> gprod (f (Some l)) L) -> (k <> [] -> gprod (f None) L) -> gprod (RLook k f) L.

Lemma gprod_perm : forall g L, gprod g L -> forall L', Permutation L' L -> gprod g L'.
Proof.
  intros g L H. induction H as [|v g L L1 H IH P|k vs g L Hk H IH|k f L H1 IH1 H2 IH2]; intros L' P'.
  - apply Permutation_sym, Permutation_nil in P'. subst. constructor.
  - apply P_yield with (L := L); [assumption|]. eapply perm_trans; eassumption.
  - constructor; auto.
  - constructor; auto.
Qed.

Lemma sadd_new : forall s x, ~ In x s -> sadd s x = s ++ [x].
Proof.
  intros s x H. unfold sadd. destruct (existsb (zlist_eqb x) s) eqn:E; [|reflexivity]. exfalso. apply existsb_exists in E.
  destruct E as (y & Hy & E). apply zlist_eqb_eq in E. congruence.
Qed.

Lemma rfor_prod : forall g L, gprod g L -> forall i words k L2,
  NoDup (words ++ map (fun e => e ++ [i]) L) ->
  (forall words', Permutation words' (words ++ map (fun e => e ++ [i]) L) -> gprod (k words') L2) ->
  gprod (rfor g i words k) (map (fun e => e ++ [i]) L ++ L2).
Proof.
  intros g L H. induction H as [|v g L L1 H IH P|key vs g L Hk H IH|key f L H1 IH1 H2 IH2]; intros i words k L2 Hn Hk2; cbn [rfor].
  - apply Hk2. cbn [map]. rewrite app_nil_r. apply Permutation_refl.
  - assert (Pm : Permutation (words ++ map (fun e => e ++ [i]) L1) ((words ++ [v ++ [i]]) ++ map (fun e => e ++ [i]) L)).
    { rewrite <- app_assoc. apply Permutation_app_head. change ([v ++ [i]] ++ map (fun e => e ++ [i]) L) with (map (fun e => e ++ [i]) (v :: L)). apply Permutation_map. assumption. }
    assert (Hn' : NoDup ((words ++ [v ++ [i]]) ++ map (fun e => e ++ [i]) L)) by (eapply Permutation_NoDup; eassumption).
    assert (Hnv : ~ In (v ++ [i]) words).
    { intro Hin. rewrite <- app_assoc in Hn'. clear -Hin Hn'. induction words as [|x l IHl]; [destruct Hin|]. cbn [app] in Hn'. inversion Hn' as [|? ? H1 H2]; subst.
      destruct Hin as [->|Hin]; [|auto]. apply H1. apply in_app_iff. right. left. reflexivity. }
    apply P_yield with (L := map (fun e => e ++ [i]) L ++ L2).
    + rewrite sadd_new by assumption. apply IH; [assumption|]. intros words' P'. apply Hk2. eapply perm_trans; [exact P'|]. apply Permutation_sym. assumption.
    + change ((v ++ [i]) :: (map (fun e => e ++ [i]) L ++ L2)) with (map (fun e => e ++ [i]) (v :: L) ++ L2). apply Permutation_app_tail. apply Permutation_map. assumption.
  - constructor; [assumption|]. apply IH; assumption.
  - constructor; auto.
Qed.

Lemma ryields_prod : forall l, gprod (ryields l) l.
Proof. induction l as [|v l IH]; simpl; [constructor|]. apply P_yield with (L := l); [assumption|apply Permutation_refl]. Qed.

Lemma rwl_stable : forall fuel fuel' w, canonical w -> ell w < Z.of_nat fuel -> ell w < Z.of_nat fuel' -> rwl fuel w = rwl fuel' w.
Proof.
  induction fuel as [|fuel IH]; intros fuel' w Hw H1 H2; [pose proof (ell_nonneg w); lia|].
  destruct fuel' as [|fuel']; [pose proof (ell_nonneg w); lia|]. cbn [rwl]. destruct w as [|a w]; [reflexivity|].
  assert (E : forall i, In i (rdes (a :: w)) -> map (fun e => e ++ [i]) (rwl fuel (mulp (a :: w) (sp i))) = map (fun e => e ++ [i]) (rwl fuel' (mulp (a :: w) (sp i)))).
  { intros i Hi. apply rdes_spec in Hi; [|apply Hw]. destruct Hi as [Hi Hd]. f_equal. apply IH; [auto with perm| |]; rewrite ell_descent by assumption; lia. }
  clear IH H1 H2. revert E. generalize (rdes (a :: w)) as d. intros d E. rewrite !flat_map_concat_map. f_equal. apply map_ext_in. exact E.
Qed.
Lemma rw_unfold : forall w, canonical w -> w <> [] -> rw w = flat_map (fun i => map (fun e => e ++ [i]) (rw (mulp w (sp i)))) (rdes w).
Proof.
  intros w Hw N. unfold rw at 1. cbn [rwl]. destruct w as [|a w]; [congruence|]. rewrite !flat_map_concat_map. f_equal. apply map_ext_in.
  intros i Hi. apply rdes_spec in Hi; [|apply Hw]. destruct Hi as [Hi Hd]. f_equal. pose proof (ell_descent (a :: w) i Hw Hi Hd). pose proof (ell_nonneg (mulp (a :: w) (sp i))).
  apply rwl_stable; [auto with perm|lia|lia].
Qed.

Lemma reduced_words_prod : forall fuel w, canonical w -> ell w < Z.of_nat fuel -> gprod (reduced_words dorder worder fuel w) (rw w).
Proof.
  induction fuel as [|fuel IH]; intros w Hw Hf; [pose proof (ell_nonneg w); lia|]. cbn [reduced_words]. constructor.
  - intros l Hl. apply gprod_perm with (L := worder l); [apply ryields_prod|]. apply Permutation_sym. eapply perm_trans; [apply worder_perm|]. apply Hl. assumption.
  - intro N.
    set (F := fun i => map (fun e => e ++ [i]) (rw (mulp w (sp i)))).
    assert (G : forall l words, (forall i, In i l -> In i (rdes w)) -> NoDup (words ++ flat_map F l) ->
      (Permutation (words ++ flat_map F l) (rw w)) ->
      gprod ((fix loop (l : list Z) (words : list (list Z)) : rgen :=
               match l with
               | [] => RStore w words RDone
               | i :: l' =>
                   match s_i i with
                   | Err e => RErr e
                   | Ok s => match pmul w s with
                             | Err e => RErr e
                             | Ok v => rfor (reduced_words dorder worder fuel v) i words (loop l')
                             end
                   end
               end) l words) (flat_map F l)).
    { induction l as [|i l IHl]; intros words Hd Hn Hp.
      - cbn [flat_map] in *. rewrite app_nil_r in Hp. constructor; [intros _; assumption|constructor].
      - assert (Hi : In i (rdes w)) by (apply Hd; left; reflexivity). apply rdes_spec in Hi; [|apply Hw]. destruct Hi as [Hi Hdi].
        rewrite sp_ok by assumption. rewrite pmul_ok by auto with perm. cbn [flat_map] in *.
        apply rfor_prod.
        + apply IH; [auto with perm|]. rewrite ell_descent by assumption. lia.
        + rewrite app_assoc in Hn. clear -Hn. fold (F i). induction (words ++ F i) as [|x m IHm]; [constructor|]. cbn [app] in Hn. inversion Hn as [|? ? H1 H2]; subst.
          constructor; [intro Q; apply H1; apply in_app_iff; left; assumption|auto].
        + intros words' Pw. fold (F i) in Pw. apply IHl.
          * intros j Hj. apply Hd. right. assumption.
          * eapply Permutation_NoDup; [|exact Hn]. rewrite app_assoc. apply Permutation_app_tail. apply Permutation_sym. assumption.
          * eapply perm_trans; [|exact Hp]. rewrite app_assoc. apply Permutation_app_tail. assumption. }
    assert (Pd : Permutation (flat_map F (dorder (rdes w))) (rw w)).
    { rewrite (rw_unfold w Hw N). apply Permutation_flat_map. apply dorder_perm. }
    apply gprod_perm with (L := flat_map F (dorder (rdes w))); [|apply Permutation_sym; assumption].
    apply (G (dorder (rdes w)) []).
    + intros i Hi. eapply Permutation_in; [apply dorder_perm|exact Hi].
    + cbn [app]. eapply Permutation_NoDup; [apply Permutation_sym; exact Pd|apply rw_NoDup].
    + exact Pd.
Qed.

Lemma table_store : forall t k l, table_ok t -> entry_ok k l -> table_ok (dset zlist_eqb t k l).
Proof.
  intros t k l [H1 H2] He. split.
  - intros k' l' Hg. destruct (list_eq_dec Z.eq_dec k k') as [<-|N].
    + rewrite (dget_dset_same zlist_eqb zlist_eqb_eq) in Hg. injection Hg as <-. assumption.
    + rewrite (dget_dset_other zlist_eqb zlist_eqb_eq) in Hg by assumption. auto.
  - destruct (list_eq_dec Z.eq_dec k []) as [->|N].
    + rewrite (dget_dset_same zlist_eqb zlist_eqb_eq). discriminate.
    + rewrite (dget_dset_other zlist_eqb zlist_eqb_eq) by assumption. assumption.
Qed.

Lemma rnext_prod : forall g L, gprod g L -> forall t, table_ok t ->
  exists t', table_ok t' /\
    ((L = [] /\ rnext t g = (t', RFinished)) \/
     exists v L' g', Permutation L (v :: L') /\ gprod g' L' /\ rnext t g = (t', RYielded v g')).
Proof.
  intros g L H. induction H as [|v g L L1 H IH P|key vs g L Hk H IH|key f L H1 IH1 H2 IH2]; intros t Ht; cbn [rnext].
  - exists t. split; [assumption|]. left. auto.
  - exists t. split; [assumption|]. right. exists v, L, g. auto.
  - apply IH. apply table_store; assumption.
  - destruct (dget zlist_eqb t key) as [l|] eqn:E.
    + apply IH1; [|assumption]. apply Ht. assumption.
    + apply IH2; [|assumption]. intros ->. apply Ht in E. destruct E.
Qed.

Definition rlive_ok (x : rlive) : Prop :=
  canonical (r_perm x) /\
  match r_status x with
  | RRunning => exists rest, Permutation (rw (r_perm x)) (r_out x ++ rest) /\ gprod (r_gen x) rest
  | RExhausted => Permutation (rw (r_perm x)) (r_out x)
  | RFailed _ => False
  end.

Lemma rset_In : forall l i x y, In y (rset l i x) -> y = x \/ In y l.
Proof.
  induction l as [|a l IH]; intros i x y H; [destruct i; destruct H|]. destruct i as [|i]; simpl in H.
  - destruct H as [<-|H]; [left; reflexivity|right; right; assumption].
  - destruct H as [<-|H]; [right; left; reflexivity|]. apply IH in H. destruct H; [left; assumption|right; right; assumption].
Qed.

Lemma rrun_ok : forall h, table_ok (r_table (rrun dorder worder h)) /\ forall x, In x (r_live (rrun dorder worder h)) -> rlive_ok x.
Proof.
  intro h. unfold rrun.
  assert (G : forall h s, table_ok (r_table s) -> (forall x, In x (r_live s) -> rlive_ok x) ->
    table_ok (r_table (fold_left (rstep dorder worder) h s)) /\ forall x, In x (r_live (fold_left (rstep dorder worder) h s)) -> rlive_ok x).
  { clear h. induction h as [|a h IH]; intros s Ht Hl; [split; assumption|]. cbn [fold_left]. destruct a as [w|i].
    - cbn [rstep]. destruct (mkperm w) as [v|e] eqn:Em; [|apply IH; assumption].
      assert (Hv : canonical v).
      { unfold mkperm in Em. destruct (same_set (zrange 1 (zlen (strip w) + 1)) (map Z.abs (strip w))) eqn:E; [|discriminate].
        injection Em as <-. apply same_set_signed in E. split; [assumption|apply strip_tail]. }
      apply IH; [assumption|]. cbn [r_live]. intros x Hx. apply in_app_iff in Hx. destruct Hx as [Hx|[<-|[]]]; [auto|].
      split; [assumption|]. cbn. exists (rw v). split; [apply Permutation_refl|]. apply reduced_words_prod; [assumption|].
      unfold rfuel. rewrite plen_ok. pose proof (ell_nonneg v). lia.
    - cbn [rstep]. destruct (nth_error (r_live s) i) as [x|] eqn:Ex; [|apply IH; assumption].
      assert (Hx : rlive_ok x) by (apply Hl; eapply nth_error_In; eassumption). destruct Hx as [Hc Hx].
      destruct (r_status x) eqn:Es; [|apply IH; assumption|destruct Hx].
      destruct Hx as (rest & Hp & Hg). destruct (rnext_prod _ _ Hg _ Ht) as (t' & Ht' & [(E & Eg)|(v & L' & g' & E & Hv' & Eg)]); rewrite Eg.
      + apply IH; [assumption|]. cbn [r_live]. intros y Hy. apply rset_In in Hy. destruct Hy as [->|Hy]; [|auto].
        split; [assumption|]. cbn. subst rest. rewrite app_nil_r in Hp. assumption.
      + apply IH; [assumption|]. cbn [r_live]. intros y Hy. apply rset_In in Hy. destruct Hy as [->|Hy]; [|auto].
        split; [assumption|]. cbn. exists L'. split; [|assumption]. rewrite <- app_assoc. eapply perm_trans; [exact Hp|]. apply Permutation_app_head. assumption. }
  apply G; [|intros x []]. cbn [r_table]. split.
  - intros k l Hg. cbn in Hg. destruct k as [|a k]; [|discriminate]. cbn in Hg. injection Hg as <-. intros _. apply Permutation_refl.
  - discriminate.
Qed.

Lemma rset_nth : forall l i x, (i < length l)%nat -> nth_error (rset l i x) i = Some x.
Proof.
  induction l as [|a l IH]; intros i x H; [simpl in H; lia|]. destruct i as [|i]; [reflexivity|]. simpl. apply IH. simpl in H. lia.
Qed.
Lemma rexhaust : forall n h i x, nth_error (r_live (rrun dorder worder h)) i = Some x -> r_status x = RRunning ->
  forall rest, length rest = n -> gprod (r_gen x) rest ->
  exists y, nth_error (r_live (rrun dorder worder (h ++ repeat (RNext i) (S n)))) i = Some y /\
    r_status y = RExhausted /\ r_perm y = r_perm x.
Proof.
  induction n as [|n IH]; intros h i x Hx Hs rest Hr Hg.
  - unfold rrun. rewrite fold_left_app. fold (rrun dorder worder h). cbn [repeat fold_left]. unfold rstep. rewrite Hx, Hs.
    destruct (rrun_ok h) as [Ht _]. destruct (rnext_prod _ _ Hg _ Ht) as (t' & _ & [(E & Eg)|(v & L' & g' & E & _)]).
    + rewrite Eg. cbn [r_live]. eexists. split; [apply rset_nth; apply nth_error_Some; congruence|]. split; reflexivity.
    + apply Permutation_length in E. rewrite Hr in E. discriminate.
  - destruct (rrun_ok h) as [Ht _]. destruct (rnext_prod _ _ Hg _ Ht) as (t' & _ & [(E & _)|(v & L' & g' & E & Hg' & Eg)]).
    + subst rest. discriminate.
    + set (x1 := {| r_perm := r_perm x; r_gen := g'; r_out := r_out x ++ [v]; r_status := RRunning |}).
      destruct (IH (h ++ [RNext i]) i x1) with (rest := L') as (y & Hy & H1 & H2).
      * unfold rrun. rewrite fold_left_app. fold (rrun dorder worder h). cbn [fold_left]. unfold rstep. rewrite Hx, Hs, Eg. cbn [r_live].
        apply rset_nth. apply nth_error_Some. congruence.
      * reflexivity.
      * apply Permutation_length in E. rewrite Hr in E. cbn in E. lia.
      * exact Hg'.
      * exists y. split; [|split; assumption]. rewrite <- Hy. f_equal. f_equal. f_equal.
        change (repeat (RNext i) (S (S n))) with ([RNext i] ++ repeat (RNext i) (S n)). apply app_assoc.
Qed.
End RWF.
