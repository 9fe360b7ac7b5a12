From Coq Require Import List ZArith Lia Bool Permutation.
From Verif Require Import PyBase M_Partitions M_Perm S_Perm L_Perm L_PermLen L_PermWord.
Import ListNotations.
Local Open Scope Z_scope.

Fixpoint chain (f : Z -> Z) (word : list Z) : Prop :=
  match word with [] => True | i :: word' => descent f i /\ chain (fun x => f (simple i x)) word' end.
Lemma descent_ext : forall f g i, (forall x, f x = g x) -> descent f i -> descent g i.
Proof. intros f g i H. unfold descent. rewrite !H. auto. Qed.
Lemma chain_ext : forall word f g, (forall x, f x = g x) -> chain f word -> chain g word.
Proof.
  induction word as [|i word IH]; intros f g H C; [exact I|]. destruct C as [C1 C2]. split; [eapply descent_ext; eassumption|].
  eapply IH; [|exact C2]. intro x. cbv beta. apply H.
Qed.
Lemma chain_ell : forall word v, canonical v -> gens word -> chain (pcall v) word -> ell (mulp v (wordp word)) = ell v - zlen word.
Proof.
  induction word as [|i word IH]; intros v Hv Hg C; [unfold wordp; cbn [fold_left]; rewrite mulp_1_r by assumption; unfold zlen; simpl; lia|].
  inversion Hg; subst. destruct C as [C1 C2]. rewrite wordp_cons by assumption. rewrite <- mulp_assoc by auto with perm.
  rewrite IH; [|auto with perm|assumption|].
  - rewrite ell_descent by assumption. rewrite zlen_cons. lia.
  - eapply chain_ext; [|exact C2]. intro x. cbv beta. rewrite mulp_call by auto with perm. rewrite sp_call by assumption. reflexivity.
Qed.
Lemma gens_rev : forall word, gens word -> gens (rev word).
Proof. intros word Hg. apply Forall_forall. intros x Hx. apply in_rev in Hx. unfold gens in Hg. rewrite Forall_forall in Hg. auto. Qed.
Lemma mulp_word_rev : forall v word, canonical v -> gens word -> mulp (mulp v (wordp (rev word))) (wordp word) = v.
Proof.
  intros v word Hv Hg. rewrite wordp_rev by assumption. rewrite mulp_assoc by auto with perm. rewrite mulp_inv_l by auto with perm. apply mulp_1_r. assumption.
Qed.
Lemma wordp_eq : forall a b, gens a -> gens b -> (forall x, word_map a x = word_map b x) -> wordp a = wordp b.
Proof. intros a b Ha Hb H. apply canonical_ext; auto with perm. intro x. rewrite !wordp_map by assumption. apply H. Qed.
Lemma smap_pcall : forall u, canonical u -> smap (pcall u).
Proof. intros u Hu. split; [intros x y; apply pcall_inj; auto with perm|apply pcall_odd]. Qed.
Lemma dw_eq : forall a b u, canonical u -> gens a -> gens b -> (forall x, dwf (pcall u) a x = dwf (pcall u) b x) -> dw u a = dw u b.
Proof. intros a b u Hu Ha Hb H. apply canonical_ext; auto with perm. intro x. rewrite !dw_call by assumption. apply H. Qed.

Lemma dihedral_aux : forall v P Q, canonical v -> gens P -> gens Q -> chain (pcall v) (rev P) ->
  (forall x, word_map P x = word_map Q x) ->
  exists v', canonical v' /\ mulp v' (wordp P) = v /\ mulp v' (wordp Q) = v /\ ell v' = ell v - zlen P.
Proof.
  intros v P Q Hv HP HQ C E. pose proof (gens_rev P HP) as HR. exists (mulp v (wordp (rev P))).
  split; [auto with perm|]. split; [apply mulp_word_rev; assumption|]. split.
  - rewrite <- (wordp_eq P Q) by assumption. apply mulp_word_rev; assumption.
  - rewrite chain_ell by assumption. unfold zlen. rewrite rev_length. reflexivity.
Qed.

Lemma dihedral : forall v i j, canonical v -> 0 <= i < j -> descent (pcall v) i -> descent (pcall v) j ->
  exists P Q v', gens (P ++ [i]) /\ gens (Q ++ [j]) /\ zlen P = zlen Q /\ canonical v' /\
    mulp v' (wordp (P ++ [i])) = v /\ mulp v' (wordp (Q ++ [j])) = v /\ ell v' = ell v - zlen (P ++ [i]) /\
    forall u, canonical u -> dw u (P ++ [i]) = dw u (Q ++ [j]).
Proof.
  intros v i j Hv Hij Di Dj. pose proof (smap_pcall v Hv) as Sv. destruct (Z.eq_dec j (i + 1)) as [->|N].
  - destruct (Z.eq_dec i 0) as [->|Ni].
    + exists [1; 0; 1], [0; 1; 0]. destruct (dihedral_aux v [1; 0; 1; 0] [0; 1; 0; 1]) as (v' & H1 & H2 & H3 & H4).
      * assumption.
      * repeat constructor; lia.
      * repeat constructor; lia.
      * cbn [rev app chain]. unfold descent in *. change (0 =? 0) with true in *. change (1 =? 0) with false in *. change (0 + 1 =? 0) with false in *. cbv iota in *.
        change (0 + 1) with 1 in Dj. change (1 + 1) with 2 in *. cbn [simple].
        change (simple 0 1) with (- (1)). change (simple 0 2) with 2. change (simple 1 1) with 2. change (simple 1 2) with 1.
        change (simple 0 (- (1))) with 1. change (simple 0 2) with 2.
        destruct Sv as [_ So]. repeat split; try assumption; repeat (change (simple 0 1) with (- (1)); change (simple 1 (- (1))) with (- (2)); change (simple 1 (- (2))) with (- (1));
           change (simple 0 (- (1))) with 1; change (simple 0 (- (2))) with (- (2)); change (simple 0 2) with 2; change (simple 1 1) with 2; change (simple 1 2) with 1); rewrite ?So; lia.
      * intro x. cbn [word_map]. symmetry. apply simple_braid4.
      * exists v'. split; [repeat constructor; lia|]. split; [repeat constructor; lia|]. split; [reflexivity|].
        split; [assumption|]. split; [assumption|]. split; [assumption|]. split; [assumption|].
        intros u Hu. cbn [app]. apply dw_eq; [assumption|repeat constructor; lia|repeat constructor; lia|]. intro x. symmetry. apply dwf_braid4. apply smap_pcall. assumption.
    + assert (Hi : 0 < i) by lia. exists [i; i + 1], [i + 1; i]. destruct (dihedral_aux v [i; i + 1; i] [i + 1; i; i + 1]) as (v' & H1 & H2 & H3 & H4).
      * assumption.
      * repeat constructor; lia.
      * repeat constructor; lia.
      * cbn [rev app chain]. unfold descent in *. replace (i =? 0) with false in * by lia. replace (i + 1 =? 0) with false in * by lia.
        rewrite (simple_i (i + 1)), (simple_fix (i + 1) i) by lia.
        rewrite !(simple_i i), !(simple_i1 i), !(simple_fix i (i + 1 + 1)) by lia. repeat split; lia.
      * intro x. cbn [word_map]. apply simple_braid3. assumption.
      * exists v'. split; [repeat constructor; lia|]. split; [repeat constructor; lia|]. split; [reflexivity|].
        split; [assumption|]. split; [assumption|]. split; [assumption|]. split; [assumption|].
        intros u Hu. cbn [app]. apply dw_eq; [assumption|repeat constructor; lia|repeat constructor; lia|]. intro x. apply dwf_braid3; [|assumption]. apply smap_pcall. assumption.
  - exists [j], [i]. destruct (dihedral_aux v [j; i] [i; j]) as (v' & H1 & H2 & H3 & H4).
    + assumption.
    + repeat constructor; lia.
    + repeat constructor; lia.
    + cbn [rev app chain]. split; [assumption|]. split; [|exact I]. unfold descent in *. replace (j =? 0) with false in * by lia.
      rewrite !(simple_out i) by lia. assumption.
    + intro x. cbn [word_map]. symmetry. apply simple_comm; lia.
    + exists v'. split; [repeat constructor; lia|]. split; [repeat constructor; lia|]. split; [reflexivity|].
      split; [assumption|]. split; [assumption|]. split; [assumption|]. split; [assumption|].
      intros u Hu. cbn [app]. apply dw_eq; [assumption|repeat constructor; lia|repeat constructor; lia|]. intro x. symmetry. apply dwf_comm; [|lia|lia]. apply smap_pcall. assumption.
Qed.

Lemma reduced_snoc_inv : forall a i v, canonical v -> reduced (a ++ [i]) v -> 0 <= i /\ descent (pcall v) i /\ reduced a (mulp v (sp i)).
Proof.
  intros a i v Hv (G & P & L). apply gens_app in G. destruct G as [Ga Gi]. inversion Gi as [|? ? Hi _]; subst x l.
  rewrite wordp_snoc in P. rewrite zlen_app in L. change (zlen [i]) with 1 in L.
  assert (Ev : mulp v (sp i) = wordp a) by (rewrite <- P; apply mulp_sp_sp; auto with perm).
  pose proof (ell_word_le a Ga) as Hle. rewrite <- Ev in Hle.
  split; [assumption|]. destruct (descent_dec (pcall v) i) as [D|D].
  - split; [assumption|]. split; [assumption|]. split; [auto|]. rewrite ell_descent by assumption. lia.
  - rewrite ell_ascent in Hle by assumption. lia.
Qed.

Lemma dw_snoc : forall u a i, dw u (a ++ [i]) = dm (dw u a) i.
Proof. intros. unfold dw. rewrite fold_left_app. reflexivity. Qed.
Lemma dw_app : forall u a b, dw u (a ++ b) = dw (dw u a) b.
Proof. intros. unfold dw. apply fold_left_app. Qed.

(* any two reduced words of an element act in the same way *)
Lemma matsumoto : forall n a b v u, canonical v -> canonical u -> ell v = Z.of_nat n -> reduced a v -> reduced b v -> dw u a = dw u b.
Proof.
  induction n as [|n IH]; intros a b v u Hv Hu En Ra Rb.
  - destruct Ra as (_ & _ & La), Rb as (_ & _ & Lb). rewrite En in *.
    destruct a; [|rewrite zlen_cons in La; pose proof (zlen_nonneg _ a); lia]. destruct b; [|rewrite zlen_cons in Lb; pose proof (zlen_nonneg _ b); lia]. reflexivity.
  - destruct a as [|i a _] using rev_ind; [destruct Ra as (_ & _ & La); unfold zlen in La; simpl in La; lia|].
    destruct b as [|j b _] using rev_ind; [destruct Rb as (_ & _ & Lb); unfold zlen in Lb; simpl in Lb; lia|].
    destruct (reduced_snoc_inv a i v Hv Ra) as (Hi & Di & Ra'). destruct (reduced_snoc_inv b j v Hv Rb) as (Hj & Dj & Rb').
    assert (Key : forall i j a b, 0 <= i < j -> descent (pcall v) i -> descent (pcall v) j -> reduced a (mulp v (sp i)) -> reduced b (mulp v (sp j)) ->
       dw u (a ++ [i]) = dw u (b ++ [j])).
    { clear i j a b Ra Rb Hi Di Ra' Hj Dj Rb'. intros i j a b Hij Di Dj Ra Rb.
      destruct (dihedral v i j Hv Hij Di Dj) as (P & Q & v' & GP & GQ & LPQ & Hv' & EP & EQ & Lv & Ed).
      destruct (reduced_exists (ell v') v' Hv' eq_refl) as (c & Gc & Pc & Lc).
      apply gens_app in GP. destruct GP as [GP Gi]. apply gens_app in GQ. destruct GQ as [GQ Gj]. rewrite zlen_app in Lv. change (zlen [i]) with 1 in Lv.
      assert (E1 : dw u (a ++ [i]) = dw u (c ++ P ++ [i])).
      { rewrite app_assoc, !dw_snoc. f_equal. apply IH with (v := mulp v (sp i)); [apply mulp_canonical; [apply Hv|apply sp_canonical; lia]|assumption| |assumption|].
        - rewrite ell_descent by (assumption || lia). lia.
        - split; [apply gens_app; auto|]. split.
          + rewrite wordp_app, Pc by assumption. rewrite <- EP, wordp_snoc.
            rewrite <- mulp_assoc by (auto with perm || (apply sp_canonical; lia)). rewrite mulp_sp_sp; [reflexivity|auto with perm|lia].
          + rewrite zlen_app, ell_descent by (assumption || lia). lia. }
      assert (E2 : dw u (b ++ [j]) = dw u (c ++ Q ++ [j])).
      { rewrite app_assoc, !dw_snoc. f_equal. apply IH with (v := mulp v (sp j)); [apply mulp_canonical; [apply Hv|apply sp_canonical; lia]|assumption| |assumption|].
        - rewrite ell_descent by (assumption || lia). lia.
        - split; [apply gens_app; auto|]. split.
          + rewrite wordp_app, Pc by assumption. rewrite <- EQ, wordp_snoc.
            rewrite <- mulp_assoc by (auto with perm || (apply sp_canonical; lia)). rewrite mulp_sp_sp; [reflexivity|auto with perm|lia].
          + rewrite zlen_app, ell_descent by (assumption || lia). lia. }
      rewrite E1, E2, !(dw_app u c). apply Ed. auto with perm. }
    destruct (Z.lt_total i j) as [L|[L|L]].
    + apply Key; auto; lia.
    + subst j. rewrite !dw_snoc. f_equal. apply IH with (v := mulp v (sp i)); auto with perm. rewrite ell_descent by assumption. lia.
    + symmetry. apply Key; auto; lia.
Qed.

Lemma reduced_dw : forall a b v u, canonical v -> canonical u -> reduced a v -> reduced b v -> dw u a = dw u b.
Proof.
  intros a b v u Hv Hu Ra Rb. apply matsumoto with (n := Z.to_nat (ell v)) (v := v); auto. pose proof (ell_nonneg v). lia.
Qed.

Lemma dm_idem : forall u i, canonical u -> 0 <= i -> dm (dm u i) i = dm u i.
Proof.
  intros u i Hu Hi. unfold dm at 2 3. destruct (descb (pcall u) i) eqn:E; unfold dm; [rewrite E; reflexivity|].
  replace (descb (pcall (mulp u (sp i))) i) with true; [reflexivity|]. symmetry. apply descb_spec.
  assert (N : ~ descent (pcall u) i) by (rewrite <- descb_spec; congruence).
  unfold descent in *. destruct (Z.eqb_spec i 0) as [->|Ni].
  - rewrite mulp_call by auto with perm. rewrite sp_call by lia. change (simple 0 1) with (- (1)). rewrite pcall_odd.
    pose proof (pcall_nonzero u 1 (proj1 Hu)). lia.
  - rewrite !mulp_call by auto with perm. rewrite !sp_call by lia. rewrite simple_i, simple_i1 by lia.
    assert (pcall u i <> pcall u (i + 1)) by (intro Q; apply pcall_inj in Q; [lia|apply Hu]). lia.
Qed.

Lemma reduced_snoc : forall a v i, canonical v -> 0 <= i -> reduced a v -> ~ descent (pcall v) i -> reduced (a ++ [i]) (mulp v (sp i)).
Proof.
  intros a v i Hv Hi (G & P & L) N. split; [apply gens_app; split; [assumption|apply gens_one; assumption]|]. split; [rewrite wordp_snoc; congruence|].
  rewrite ell_ascent by assumption. rewrite zlen_app. change (zlen [i]) with 1. lia.
Qed.
Lemma dw_dm : forall a v b i u, canonical v -> canonical u -> 0 <= i -> reduced a v -> reduced b (dm v i) -> dw u b = dm (dw u a) i.
Proof.
  intros a v b i u Hv Hu Hi Ra Rb. rewrite <- dw_snoc. unfold dm in Rb. destruct (descb (pcall v) i) eqn:E.
  - apply descb_spec in E. destruct (reduced_exists (ell v - 1) (mulp v (sp i))) as (c & Gc & Pc & Lc); [auto with perm|apply ell_descent; assumption|].
    assert (Rc : reduced (c ++ [i]) v).
    { split; [apply gens_app; split; [assumption|apply gens_one; assumption]|]. split; [rewrite wordp_snoc, Pc; apply mulp_sp_sp; assumption|].
      rewrite zlen_app. change (zlen [i]) with 1. lia. }
    rewrite dw_snoc. rewrite (reduced_dw a (c ++ [i]) v u Hv Hu Ra Rc). rewrite dw_snoc, dm_idem by auto with perm.
    rewrite <- dw_snoc. apply (reduced_dw b (c ++ [i]) v); assumption.
  - apply reduced_dw with (v := mulp v (sp i)); [auto with perm|assumption|assumption|]. apply reduced_snoc; auto. rewrite <- descb_spec. congruence.
Qed.
Lemma dw_dw : forall b a v c u, canonical v -> canonical u -> gens b -> reduced a v -> reduced c (dw v b) -> dw u c = dw (dw u a) b.
Proof.
  induction b as [|i b IH]; intros a v c u Hv Hu Gb Ra Rc; [apply (reduced_dw c a v); assumption|].
  inversion Gb as [|? ? Hi Gb']; subst. change (dw v (i :: b)) with (dw (dm v i) b) in Rc. change (dw (dw u a) (i :: b)) with (dw (dm (dw u a) i) b).
  destruct (reduced_exists (ell (dm v i)) (dm v i)) as (e & Ge & Pe & Le); [auto with perm|reflexivity|].
  rewrite <- (dw_dm a v e i u); [|assumption|assumption|assumption|assumption|split; auto].
  apply IH with (v := dm v i); auto with perm. split; auto.
Qed.

(* ---- __mod__ ---- *)
Lemma pmod_ok : forall pick, (forall k l, l <> [] -> In (pick k l) l) ->
  forall fuel u v word, canonical u -> canonical v -> ell v < Z.of_nat fuel -> reduced word v ->
  pmod pick fuel u v = Ok (dw u word).
Proof.
  intros pick Hp. induction fuel as [|fuel IH]; intros u v word Hu Hv Hf Rw; [pose proof (ell_nonneg v); lia|].
  cbn [pmod]. rewrite ldes_ok by assumption. cbn [rbind]. destruct (rdes (invp v)) as [|d0 d] eqn:Ed.
  - assert (invp v = []).
    { apply no_descent_id; [auto with perm|]. intros i Hi Hd. assert (In i (rdes (invp v))) by (apply rdes_spec; auto with perm). rewrite Ed in H. destruct H. }
    assert (v = []) by (rewrite <- (invp_invp v Hv), H; reflexivity). subst. destruct Rw as (_ & _ & L). change (ell []) with 0 in L.
    destruct word; [reflexivity|]. rewrite zlen_cons in L. pose proof (zlen_nonneg _ word). lia.
  - rewrite <- Ed in *. set (i := pick fuel (rdes (invp v))). assert (Hin : In i (rdes (invp v))) by (apply Hp; congruence).
    apply rdes_spec in Hin; [|auto with perm]. destruct Hin as [Hi Hd]. rewrite sp_ok by assumption. cbn [rbind].
    rewrite pmul_ok by auto with perm. cbn [rbind]. pose proof (ell_left_descent v i Hv Hi Hd) as El.
    destruct (reduced_exists (ell v - 1) (mulp (sp i) v)) as (c & Gc & Pc & Lc); [auto with perm|assumption|].
    assert (Rc : reduced c (mulp (sp i) v)) by (split; [assumption|split; [assumption|lia]]).
    assert (Ric : reduced (i :: c) v).
    { split; [constructor; assumption|]. split; [|rewrite zlen_cons; lia]. rewrite wordp_cons by assumption. rewrite Pc.
      rewrite <- mulp_assoc by auto with perm. rewrite sp_sq by assumption. apply mulp_1_l. assumption. }
    rewrite (reduced_dw word (i :: c) v u Hv Hu Rw Ric).
    change (dw u (i :: c)) with (dw (dm u i) c). unfold dm. destruct (memz i (rdes u)) eqn:Em.
    + apply memz_In, rdes_spec in Em; [|auto with perm]. destruct Em as [_ Em]. apply descb_spec in Em. rewrite Em.
      apply IH; auto with perm. lia.
    + apply memz_false in Em. rewrite rdes_spec in Em by auto with perm.
      replace (descb (pcall u) i) with false.
      * rewrite pmul_ok by auto with perm. cbn [rbind]. apply IH; auto with perm. lia.
      * symmetry. destruct (descb (pcall u) i) eqn:Q; [|reflexivity]. apply descb_spec in Q. exfalso. apply Em. auto.
Qed.
