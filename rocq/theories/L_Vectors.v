From Coq Require Import List ZArith Lia Bool Ring.
From Verif Require Import PyBase FinSum M_Vectors.
Import ListNotations.

Section VectorFacts.
  Context {K R : Type} (keqb : K -> K -> bool).
  Hypothesis keqb_spec : forall a b, keqb a b = true <-> a = b.
  Context (rO rI : R) (radd rmul rsub : R -> R -> R) (ropp : R -> R) (rzero : R -> bool).
  Hypothesis Rth : ring_theory rO rI radd rmul rsub ropp (@eq R).
  Hypothesis rzero_spec : forall x, rzero x = true <-> x = rO.
  Add Ring Rring : Rth.
  Local Notation "a + b" := (radd a b).
  Local Notation "a * b" := (rmul a b).
  Local Notation "a - b" := (rsub a b).
  Local Notation "0" := rO.

  Notation vec := (@vec K R).
  Notation vget := (vget keqb rO).
  Notation vmake := (@vmake K R rzero).
  Notation vadd := (vadd keqb rO radd rzero).
  Notation vsub := (vsub keqb rO rsub rzero).
  Notation veq := (veq keqb rO rsub rzero).
  Notation vscale := (vscale keqb rO rmul rzero).
  Notation vneg := (vneg keqb rO rI rmul ropp rzero).
  Notation vmul := (vmul keqb rO radd rmul rzero).
  Notation vpow := (vpow keqb rO radd rmul rzero).
  Notation lsum := (lsum rO radd).
  Notation lin := (lin rO radd rmul).

  (* representation invariant of Vector.dictionary *)
  Definition vwf (v : vec) : Prop :=
    NoDup (map fst v) /\ Forall (fun kv => snd kv <> 0) v.

  Lemma map_fst_filter_NoDup : forall (p : K * R -> bool) v,
    NoDup (map fst v) -> NoDup (map fst (filter p v)).
  Proof.
    induction v as [|[k x] v IH]; intro H; simpl; [constructor|].
    simpl in H. inversion H as [|y l Hy Hl]; subst.
    destruct (p (k, x)); simpl; [|auto]. constructor; [|auto].
    intro Hin. apply Hy. apply in_map_iff in Hin. destruct Hin as ([k' x'] & E & Hin).
    apply filter_In in Hin. destruct Hin as [Hin _]. simpl in E. subst.
    change k with (fst (k, x')). apply in_map. assumption.
  Qed.

  Lemma vmake_wf : forall d, NoDup (map fst d) -> vwf (vmake d).
  Proof.
    intros d H. split.
    - apply map_fst_filter_NoDup. assumption.
    - apply Forall_forall. intros [k x] Hin. unfold vmake in Hin. apply filter_In in Hin.
      destruct Hin as [_ Hx]. simpl in *. intro E. subst. 
      assert (rzero 0 = true) by (apply rzero_spec; reflexivity). rewrite H0 in Hx. discriminate.
  Qed.

  Lemma vget_vmake : forall d k, NoDup (map fst d) -> vget (vmake d) k = vget d k.
  Proof.
    unfold vget, dget0. induction d as [|[k' x] d IH]; intros k H; simpl; [reflexivity|].
    simpl in H. inversion H as [|y l Hy Hl]; subst.
    destruct (rzero x) eqn:E; simpl.
    - apply rzero_spec in E. subst. destruct (keqb k' k) eqn:Ek; [|auto].
      apply keqb_spec in Ek. subst.
      assert (Hn : dget keqb (vmake d) k = None).
      { apply dget_None_notIn; auto. intro Hin. apply Hy. apply in_map_iff in Hin.
        destruct Hin as ([k2 x2] & E2 & Hin). unfold vmake in Hin. apply filter_In in Hin.
        simpl in E2. subst. change k with (fst (k, x2)). apply in_map. tauto. }
      first [rewrite Hn | unfold M_Vectors.vmake in *; rewrite Hn]; reflexivity.
    - destruct (keqb k' k); auto.
  Qed.

  Lemma vget_notin : forall v k, ~ In k (map fst v) -> vget v k = 0.
  Proof.
    intros v k H. unfold vget, dget0. apply (dget_None_notIn keqb keqb_spec) in H. rewrite H. reflexivity.
  Qed.

  Lemma vget_map : forall (f : K -> R) l k,
    vget (map (fun x => (x, f x)) l) k = if existsb (fun x => keqb x k) l then f k else 0.
  Proof.
    unfold vget, dget0. induction l as [|a l IH]; intro k; simpl; [reflexivity|].
    destruct (keqb a k) eqn:E; simpl; [|apply IH]. apply keqb_spec in E. subst. reflexivity.
  Qed.

  Lemma vkeys_union_NoDup : forall v w : vec,
    NoDup (map fst v) -> NoDup (map fst w) -> NoDup (vkeys_union keqb v w).
  Proof.
    intros v w H1 H2. unfold vkeys_union. apply NoDup_app_intro; auto.
    - apply NoDup_filter. assumption.
    - intros x Hx Hf. apply filter_In in Hf. destruct Hf as [_ Hf].
      apply negb_true_iff in Hf. assert (existsb (fun k' => keqb k' x) (map fst v) = true); [|congruence].
      apply existsb_exists. exists x. split; [assumption|]. now apply keqb_spec.
  Qed.

  Lemma existsb_In : forall k l, existsb (fun x => keqb x k) l = true <-> In k l.
  Proof.
    intros k l. rewrite existsb_exists. split.
    - intros (x & Hx & E). apply keqb_spec in E. subst. assumption.
    - intro H. exists k. split; [assumption|]. now apply keqb_spec.
  Qed.

  Lemma vkeys_union_In : forall (v w : vec) k,
    In k (vkeys_union keqb v w) <-> In k (map fst v) \/ In k (map fst w).
  Proof.
    intros v w k. unfold vkeys_union. rewrite in_app_iff, filter_In. split; [tauto|].
    intros [H|H]; [tauto|].
    destruct (existsb (fun k' => keqb k' k) (map fst v)) eqn:E.
    - left. apply existsb_In. assumption.
    - right. split; [assumption|reflexivity].
  Qed.

  Lemma map_pair_fst : forall (f : K -> R) l, map fst (map (fun k => (k, f k)) l) = l.
  Proof. intros. rewrite map_map. simpl. apply map_id. Qed.

  Lemma vget_binop : forall (op : R -> R -> R) v w k,
    op 0 0 = 0 -> vwf v -> vwf w ->
    vget (vmake (map (fun k => (k, op (vget v k) (vget w k))) (vkeys_union keqb v w))) k
    = op (vget v k) (vget w k).
  Proof.
    intros op v w k H0 [Hv _] [Hw _].
    rewrite vget_vmake by (rewrite map_pair_fst; apply vkeys_union_NoDup; assumption).
    rewrite (vget_map (fun k => op (vget v k) (vget w k))).
    destruct (existsb (fun x => keqb x k) (vkeys_union keqb v w)) eqn:E; [reflexivity|].
    rewrite !vget_notin; [congruence| |];
      intro Hin; assert (Ht : existsb (fun x => keqb x k) (vkeys_union keqb v w) = true);
      try congruence; apply existsb_In; apply vkeys_union_In; tauto.
  Qed.

  Lemma vadd_get : forall v w k, vwf v -> vwf w -> vget (vadd v w) k = vget v k + vget w k.
  Proof.
    intros v w k Hv Hw. unfold vadd. destruct w as [|kw w].
    - unfold vget at 3. unfold dget0. simpl. ring.
    - apply (vget_binop radd); auto. ring.
  Qed.

  Lemma vsub_get : forall v w k, vwf v -> vwf w -> vget (vsub v w) k = vget v k - vget w k.
  Proof.
    intros v w k Hv Hw. unfold vsub. destruct w as [|kw w].
    - unfold vget at 3. unfold dget0. simpl. ring.
    - apply (vget_binop rsub); auto. ring.
  Qed.

  Lemma vadd_wf : forall v w, vwf v -> vwf w -> vwf (vadd v w).
  Proof.
    intros v w Hv Hw. unfold vadd. destruct w as [|kw w]; [assumption|].
    apply vmake_wf. rewrite map_pair_fst. apply vkeys_union_NoDup; [apply Hv|apply Hw].
  Qed.

  Lemma vsub_wf : forall v w, vwf v -> vwf w -> vwf (vsub v w).
  Proof.
    intros v w Hv Hw. unfold vsub. destruct w as [|kw w]; [assumption|].
    apply vmake_wf. rewrite map_pair_fst. apply vkeys_union_NoDup; [apply Hv|apply Hw].
  Qed.

  Lemma vwf_empty_iff : forall v, vwf v -> (v = [] <-> forall k, vget v k = 0).
  Proof.
    intros v [Hn Hf]. split; [intros; subst; reflexivity|].
    intro H. destruct v as [|[k x] v]; [reflexivity|]. exfalso.
    inversion Hf as [|? ? Hx Hrest]; subst. apply Hx. simpl.
    specialize (H k). unfold vget, dget0 in H. simpl in H.
    rewrite (keqb_refl_ keqb keqb_spec) in H. assumption.
  Qed.

  Lemma rsub_zero_eq : forall a b, a - b = 0 -> a = b.
  Proof.
    intros a b H. transitivity (a - b + b); [ring|]. rewrite H. ring.
  Qed.

  Lemma veq_spec : forall v w, vwf v -> vwf w -> (veq v w = true <-> forall k, vget v k = vget w k).
  Proof.
    intros v w Hv Hw. unfold veq. rewrite Nat.eqb_eq, length_zero_iff_nil.
    rewrite (vwf_empty_iff _ (vsub_wf _ _ Hv Hw)). split; intros H k.
    - apply rsub_zero_eq. rewrite <- vsub_get by assumption. apply H.
    - rewrite vsub_get by assumption. rewrite H. ring.
  Qed.

  Lemma vis_zero_spec : forall v, vwf v -> (vis_zero v = true <-> forall k, vget v k = 0).
  Proof.
    intros v Hv. unfold vis_zero. rewrite Nat.eqb_eq, length_zero_iff_nil. apply vwf_empty_iff. assumption.
  Qed.

  Lemma vscale_wf : forall v c, vwf v -> vwf (vscale v c).
  Proof.
    intros v c [Hn _]. unfold vscale. apply vmake_wf. rewrite map_pair_fst. assumption.
  Qed.

  Lemma vscale_get : forall v c k, vwf v -> vget (vscale v c) k = vget v k * c.
  Proof.
    intros v c k [Hn _]. unfold vscale.
    rewrite vget_vmake by (rewrite map_pair_fst; assumption).
    rewrite (vget_map (fun k => vget v k * c)).
    destruct (existsb (fun x => keqb x k) (map fst v)) eqn:E; [reflexivity|].
    rewrite vget_notin; [ring|]. intro Hin. apply existsb_In in Hin. congruence.
  Qed.

  Lemma vneg_get : forall v k, vwf v -> vget (vneg v) k = ropp (vget v k).
  Proof. intros v k H. unfold vneg. rewrite vscale_get by assumption. ring. Qed.

  Lemma vneg_wf : forall v, vwf v -> vwf (vneg v).
  Proof. intros. apply vscale_wf. assumption. Qed.

  (* ---------------- products ---------------- *)
  Variable mult : K -> K -> list (K * R).

  (* coefficient of m in multiplier(a, b) *)
  Definition mcoef (a b m : K) : R :=
    lsum (fun mc => if keqb (fst mc) m then snd mc else 0) (mult a b).

  Lemma vget_dset : forall d k v m,
    vget (dset keqb d k v) m = if keqb k m then v else vget d m.
  Proof.
    intros d k v m. unfold vget, dget0. destruct (keqb k m) eqn:E.
    - apply keqb_spec in E. subst. rewrite dget_dset_same by assumption. reflexivity.
    - rewrite dget_dset_other; auto. intro; subst. rewrite (keqb_refl_ keqb keqb_spec) in E. discriminate.
  Qed.

  Lemma inner_fold_get : forall (x : R) l ans m, NoDup (map fst ans) ->
    NoDup (map fst (fold_left (fun ans mc => dset keqb ans (fst mc) (vget ans (fst mc) + x * snd mc)) l ans)) /\
    vget (fold_left (fun ans mc => dset keqb ans (fst mc) (vget ans (fst mc) + x * snd mc)) l ans) m
    = vget ans m + x * lsum (fun mc => if keqb (fst mc) m then snd mc else 0) l.
  Proof.
    intros x. induction l as [|[k c] l IH]; intros ans m Hn; simpl.
    - split; [assumption|ring].
    - destruct (IH (dset keqb ans k (vget ans k + x * c)) m) as [H1 H2].
      { apply dset_NoDup; auto. }
      split; [assumption|]. rewrite H2, vget_dset.
      destruct (keqb k m) eqn:E; [|ring]. apply keqb_spec in E. subst. ring.
  Qed.

  Lemma mid_fold_get : forall a (x : R) w ans m, NoDup (map fst ans) ->
    let r := fold_left (fun ans by_ =>
           fold_left (fun ans mc => dset keqb ans (fst mc) (vget ans (fst mc) + x * snd by_ * snd mc))
             (mult a (fst by_)) ans) w ans in
    NoDup (map fst r) /\ vget r m = vget ans m + lsum (fun by_ => x * snd by_ * mcoef a (fst by_) m) w.
  Proof.
    intros a x. induction w as [|[b y] w IH]; intros ans m Hn; simpl.
    - split; [assumption|ring].
    - destruct (inner_fold_get (x * y) (mult a b) ans m Hn) as [H1 H2].
      specialize (IH _ m H1). simpl in IH. destruct IH as [H3 H4].
      split; [exact H3|]. rewrite H4, H2. unfold mcoef. ring.
  Qed.

  Lemma outer_fold_get : forall w v ans m, NoDup (map fst ans) ->
    let r := fold_left (fun ans ax => fold_left (fun ans by_ =>
           fold_left (fun ans mc => dset keqb ans (fst mc) (vget ans (fst mc) + snd ax * snd by_ * snd mc))
             (mult (fst ax) (fst by_)) ans) w ans) v ans in
    NoDup (map fst r) /\ vget r m = vget ans m +
      lsum (fun ax => lsum (fun by_ => snd ax * snd by_ * mcoef (fst ax) (fst by_) m) w) v.
  Proof.
    intros w. induction v as [|[a x] v IH]; intros ans m Hn; simpl.
    - split; [assumption|ring].
    - destruct (mid_fold_get a x w ans m Hn) as [H1 H2].
      specialize (IH _ m H1). simpl in IH. destruct IH as [H3 H4].
      split; [exact H3|]. rewrite H4, H2. ring.
  Qed.

  Lemma vmul_wf : forall v w, vwf (vmul mult v w).
  Proof.
    intros v w. unfold vmul. apply vmake_wf. unfold M_Vectors.vget.
    destruct v as [|ax v]; [constructor|].
    destruct (outer_fold_get w (ax :: v) [] (fst ax) (NoDup_nil _)) as [H _]. exact H.
  Qed.

  Lemma vmul_get : forall v w m,
    vget (vmul mult v w) m =
    lsum (fun ax => lsum (fun by_ => snd ax * snd by_ * mcoef (fst ax) (fst by_) m) w) v.
  Proof.
    intros v w m. destruct (outer_fold_get w v [] m (NoDup_nil _)) as [H1 H2].
    unfold vmul. rewrite vget_vmake by exact H1.
    etransitivity; [exact H2|]. unfold vget at 1, dget0. simpl. ring.
  Qed.

  Lemma vmul_get_lin : forall v w m,
    vget (vmul mult v w) m = lin v (fun a => lin w (fun b => mcoef a b m)).
  Proof.
    intros. rewrite vmul_get. unfold FinSum.lin. apply lsum_ext. intros [a x] _. simpl.
    rewrite <- (lsum_scale _ _ _ _ _ _ Rth). apply lsum_ext. intros [b y] _. simpl. ring.
  Qed.

  Lemma lin_vadd : forall u v F, vwf u -> vwf v -> lin (vadd u v) F = lin u F + lin v F.
  Proof.
    intros u v F Hu Hv. apply (lin_plus_get _ _ _ _ _ _ Rth keqb keqb_spec).
    - apply vadd_wf; assumption.
    - apply Hu.
    - apply Hv.
    - intro k. apply vadd_get; assumption.
  Qed.

  Lemma lin_vscale : forall u c F, vwf u -> lin (vscale u c) F = c * lin u F.
  Proof.
    intros u c F Hu. apply (lin_scale_get _ _ _ _ _ _ Rth keqb keqb_spec).
    - apply vscale_wf; assumption.
    - apply Hu.
    - intro k. change (vget (vscale u c) k = c * vget u k). rewrite vscale_get by assumption. ring.
  Qed.

  Lemma vmul_add_l : forall u v w m, vwf u -> vwf v -> vwf w ->
    vget (vmul mult (vadd u v) w) m = vget (vadd (vmul mult u w) (vmul mult v w)) m.
  Proof.
    intros. rewrite vadd_get by apply vmul_wf. rewrite !vmul_get_lin. apply lin_vadd; assumption.
  Qed.

  Lemma vmul_add_r : forall u v w m, vwf u -> vwf v -> vwf w ->
    vget (vmul mult u (vadd v w)) m = vget (vadd (vmul mult u v) (vmul mult u w)) m.
  Proof.
    intros. rewrite vadd_get by apply vmul_wf. rewrite !vmul_get_lin.
    rewrite <- (lin_F_plus _ _ _ _ _ _ Rth). apply (lin_F_ext rO radd rmul).
    intros a _. apply lin_vadd; assumption.
  Qed.

  Lemma vmul_scale_l : forall u v c m, vwf u -> vwf v ->
    vget (vmul mult (vscale u c) v) m = vget (vscale (vmul mult u v) c) m.
  Proof.
    intros. rewrite vscale_get by apply vmul_wf. rewrite !vmul_get_lin.
    rewrite lin_vscale by assumption. ring.
  Qed.

  Lemma vmul_scale_r : forall u v c m, vwf u -> vwf v ->
    vget (vmul mult u (vscale v c)) m = vget (vscale (vmul mult u v) c) m.
  Proof.
    intros. rewrite vscale_get by apply vmul_wf. rewrite !vmul_get_lin.
    transitivity (c * lin u (fun a => lin v (fun b => mcoef a b m))); [|ring].
    rewrite <- (lin_F_scale _ _ _ _ _ _ Rth). apply (lin_F_ext rO radd rmul).
    intros a _. apply lin_vscale; assumption.
  Qed.

  (* linear functionals of a product *)
  Lemma lin_lsum_swap : forall v A (l : list A) (F : K -> A -> R),
    lin v (fun k => lsum (F k) l) = lsum (fun x => lin v (fun k => F k x)) l.
  Proof.
    intros v A l F. unfold FinSum.lin.
    rewrite (lsum_swap _ _ _ _ _ _ Rth A (K * R) (fun x kv => snd kv * F (fst kv) x) l v).
    apply lsum_ext. intros kv _. symmetry. apply (lsum_scale _ _ _ _ _ _ Rth).
  Qed.

  Lemma lin_vmul : forall u v F, vwf u -> vwf v ->
    lin (vmul mult u v) F =
    lin u (fun a => lin v (fun b => lsum (fun mc => snd mc * F (fst mc)) (mult a b))).
  Proof.
    intros u v F Hu Hv.
    set (S := dedup keqb (map fst (vmul mult u v) ++
              flat_map (fun ax => flat_map (fun by_ => map fst (mult (fst ax) (fst by_))) v) u)).
    assert (HS : NoDup S) by (apply dedup_NoDup; assumption).
    rewrite (lin_support _ _ _ _ _ _ Rth keqb keqb_spec S) by
      (try apply vmul_wf; try assumption; intros x Hx; unfold S; apply dedup_In; auto; apply in_app_iff; tauto).
    transitivity (lsum (fun k => lin u (fun a => lin v (fun b => mcoef a b k)) * F k) S).
    { apply lsum_ext. intros k _. f_equal. apply vmul_get_lin. }
    transitivity (lsum (fun k => lin u (fun a => lin v (fun b => F k * mcoef a b k))) S).
    { apply lsum_ext. intros k _.
      transitivity (F k * lin u (fun a => lin v (fun b => mcoef a b k))); [ring|].
      rewrite <- (lin_F_scale _ _ _ _ _ _ Rth). apply (lin_F_ext rO radd rmul). intros a _.
      symmetry. apply (lin_F_scale _ _ _ _ _ _ Rth). }
    rewrite <- (lin_lsum_swap u K S (fun a k => lin v (fun b => F k * mcoef a b k))).
    apply (lin_F_ext rO radd rmul). intros a Ha.
    rewrite <- (lin_lsum_swap v K S (fun b k => F k * mcoef a b k)).
    apply (lin_F_ext rO radd rmul). intros b Hb.
    unfold mcoef.
    transitivity (lsum (fun k => lsum (fun mc => if keqb k (fst mc) then F k * snd mc else 0) (mult a b)) S).
    { apply lsum_ext. intros k _. rewrite <- (lsum_scale _ _ _ _ _ _ Rth). apply lsum_ext.
      intros mc _. destruct (keqb (fst mc) k) eqn:E.
      - apply keqb_spec in E. subst. rewrite (keqb_refl_ keqb keqb_spec). reflexivity.
      - rewrite keqb_neq_; [ring|assumption|].
        intro; subst. rewrite (keqb_refl_ keqb keqb_spec) in E. discriminate. }
    rewrite (lsum_swap _ _ _ _ _ _ Rth). apply lsum_ext. intros mc Hmc.
    rewrite (lsum_delta _ _ _ _ _ _ Rth K keqb (fun k => F k * snd mc) S (fst mc) keqb_spec HS).
    replace (existsb (fun x => keqb x (fst mc)) S) with true; [ring|].
    symmetry. apply existsb_In. unfold S. apply dedup_In; auto. apply in_app_iff. right.
    apply in_map_iff in Ha. destruct Ha as (ax & Ea & Ha). subst a.
    apply in_map_iff in Hb. destruct Hb as (by_ & Eb & Hb). subst b.
    apply in_flat_map. exists ax. split; [assumption|].
    apply in_flat_map. exists by_. split; [assumption|]. apply in_map. assumption.
  Qed.

  (* the bilinear extension of an associative multiplication rule is associative *)
  Definition mult_assoc : Prop := forall a b c m,
    lsum (fun ab => snd ab * mcoef (fst ab) c m) (mult a b) =
    lsum (fun bc => snd bc * mcoef a (fst bc) m) (mult b c).

  Lemma vmul_assoc : mult_assoc -> forall u v w m, vwf u -> vwf v -> vwf w ->
    vget (vmul mult (vmul mult u v) w) m = vget (vmul mult u (vmul mult v w)) m.
  Proof.
    intros Ha u v w m Hu Hv Hw. rewrite !vmul_get_lin.
    rewrite lin_vmul by assumption.
    apply (lin_F_ext rO radd rmul). intros a _.
    rewrite lin_vmul by assumption.
    apply (lin_F_ext rO radd rmul). intros b _.
    transitivity (lsum (fun mc => lin w (fun c => snd mc * mcoef (fst mc) c m)) (mult a b)).
    { apply lsum_ext. intros mc _. symmetry. apply (lin_F_scale _ _ _ _ _ _ Rth). }
    rewrite <- (lin_lsum_swap w (K * R) (mult a b) (fun c mc => snd mc * mcoef (fst mc) c m)).
    apply (lin_F_ext rO radd rmul). intros c _. apply Ha.
  Qed.

  Lemma vmul_ext : forall u u' v v' m, vwf u -> vwf u' -> vwf v -> vwf v' ->
    (forall k, vget u k = vget u' k) -> (forall k, vget v k = vget v' k) ->
    vget (vmul mult u v) m = vget (vmul mult u' v') m.
  Proof.
    intros u u' v v' m Hu Hu' Hv Hv' H1 H2. rewrite !vmul_get_lin.
    rewrite (lin_ext_get _ _ _ _ _ _ Rth keqb keqb_spec u u'); auto; try apply Hu; try apply Hu'.
    apply (lin_F_ext rO radd rmul). intros a _.
    apply (lin_ext_get _ _ _ _ _ _ Rth keqb keqb_spec); auto; try apply Hv; apply Hv'.
  Qed.

  (* iterated product v * v * ... * v (n+1 factors), associated to the left *)
  Fixpoint viter (v : vec) (n : nat) : vec :=
    match n with O => v | S n' => vmul mult (viter v n') v end.

  Lemma viter_wf : forall v n, vwf v -> vwf (viter v n).
  Proof. intros v n H. destruct n; simpl; [assumption|apply vmul_wf]. Qed.

  Lemma viter_plus : mult_assoc -> forall v n m k, vwf v ->
    vget (vmul mult (viter v n) (viter v m)) k = vget (viter v (S (n + m))) k.
  Proof.
    intros Ha v n m. revert n. induction m as [|m IH]; intros n k Hv.
    - rewrite Nat.add_0_r. reflexivity.
    - simpl viter at 2. rewrite <- vmul_assoc by (auto using viter_wf).
      rewrite (vmul_ext _ (viter v (S (n + m))) v v); auto using vmul_wf.
      + simpl. rewrite Nat.add_succ_r. reflexivity.
      + apply vmul_wf.
  Qed.

  Lemma vpow_wf : forall v n, vwf v -> vwf (vpow mult v n).
  Proof. intros v n H. destruct n; simpl; try apply vmul_wf. assumption. Qed.

  Lemma vpow_viter : mult_assoc -> forall v n k, vwf v ->
    vget (vpow mult v n) k = vget (viter v (pred (Pos.to_nat n))) k.
  Proof.
    intros Ha v n. induction n as [p IH|p IH|]; intros k Hv; simpl vpow.
    - assert (H2 : forall k, vget (vmul mult (vpow mult v p) (vpow mult v p)) k
              = vget (viter v (S (pred (Pos.to_nat p) + pred (Pos.to_nat p)))) k).
      { intro k'. rewrite <- viter_plus by assumption. apply vmul_ext; auto using vpow_wf, viter_wf. }
      rewrite (vmul_ext _ (viter v (S (pred (Pos.to_nat p) + pred (Pos.to_nat p)))) v v);
        auto using vmul_wf.
      + rewrite Pos2Nat.inj_xI. pose proof (Pos2Nat.is_pos p).
        replace (pred (S (2 * Pos.to_nat p)))
          with (S (S (pred (Pos.to_nat p) + pred (Pos.to_nat p)))) by lia. reflexivity.
      + apply vmul_wf.
    - rewrite Pos2Nat.inj_xO. pose proof (Pos2Nat.is_pos p).
      replace (pred (2 * Pos.to_nat p)) with (S (pred (Pos.to_nat p) + pred (Pos.to_nat p))) by lia.
      rewrite <- viter_plus by assumption. apply vmul_ext; auto using vpow_wf, viter_wf.
    - reflexivity.
  Qed.
End VectorFacts.
