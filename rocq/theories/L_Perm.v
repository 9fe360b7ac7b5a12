From Coq Require Import List ZArith Lia Bool Permutation.
From Verif Require Import PyBase M_Partitions M_Perm S_Perm L_Words2.
Import ListNotations.
Local Open Scope Z_scope.

(* ---- small list facts ---- *)
Lemma memz_In : forall x l, memz x l = true <-> In x l.
Proof.
  intros x l. unfold memz. rewrite existsb_exists. split.
  - intros (y & Hy & E). apply Z.eqb_eq in E. congruence.
  - intro H. exists x. split; [assumption|apply Z.eqb_refl].
Qed.
Lemma memz_false : forall x l, memz x l = false <-> ~ In x l.
Proof. intros x l. rewrite <- memz_In. destruct (memz x l); split; intro H; congruence || (exfalso; apply H; reflexivity). Qed.

Lemma same_set_spec : forall l m, same_set l m = true <-> incl l m /\ incl m l.
Proof.
  intros l m. unfold same_set. rewrite andb_true_iff, !forallb_forall. unfold incl.
  split; intros [H1 H2]; split; intros x Hx; apply memz_In; auto.
Qed.

Lemma nthz_app1 : forall l m i, 0 <= i < zlen l -> nthz (l ++ m) i = nthz l i.
Proof. intros l m i H. unfold nthz, zlen in *. apply app_nth1. lia. Qed.
Lemma nthz_app2 : forall l m i, zlen l <= i -> nthz (l ++ m) i = nthz m (i - zlen l).
Proof. intros l m i H. unfold nthz, zlen in *. rewrite app_nth2 by lia. f_equal. lia. Qed.
Lemma nthz_In : forall l i, 0 <= i < zlen l -> In (nthz l i) l.
Proof. intros l i H. unfold nthz, zlen in *. apply nth_In. lia. Qed.
Lemma In_nthz : forall l x, In x l -> exists i, 0 <= i < zlen l /\ nthz l i = x.
Proof.
  intros l x H. apply In_nth with (d := 0) in H. destruct H as (k & Hk & E). exists (Z.of_nat k).
  unfold nthz, zlen. rewrite Nat2Z.id. split; [lia|assumption].
Qed.
Lemma zlen_map : forall A B (f : A -> B) l, zlen (map f l) = zlen l.
Proof. intros. unfold zlen. rewrite map_length. reflexivity. Qed.
Lemma zlen_zrange : forall a b, a <= b -> zlen (zrange a b) = b - a.
Proof. intros. unfold zlen. rewrite length_zrange. lia. Qed.
Lemma nthz_zrange : forall a b i, 0 <= i < b - a -> nthz (zrange a b) i = a + i.
Proof.
  intros a b i H. unfold nthz, zrange.
  rewrite nth_indep with (d' := a + Z.of_nat O) by (rewrite map_length, seq_length; lia).
  rewrite (map_nth (fun k => a + Z.of_nat k)). rewrite seq_nth by lia. lia.
Qed.
Lemma nthz_map : forall f l i, 0 <= i < zlen l -> nthz (map f l) i = f (nthz l i).
Proof.
  intros f l i H. unfold nthz, zlen in *. rewrite nth_indep with (d' := f 0) by (rewrite map_length; lia). apply map_nth.
Qed.
Lemma nthz_ext : forall l m, zlen l = zlen m -> (forall i, 0 <= i < zlen l -> nthz l i = nthz m i) -> l = m.
Proof.
  intros l m H E. apply nth_ext with (d := 0) (d' := 0); unfold zlen in *; [lia|]. intros k Hk.
  specialize (E (Z.of_nat k)). unfold nthz in E. rewrite Nat2Z.id in E. apply E. lia.
Qed.
Lemma zrange_app : forall a b c, a <= b <= c -> zrange a c = zrange a b ++ zrange b c.
Proof.
  intros a b c H. apply nthz_ext.
  - rewrite zlen_app, !zlen_zrange by lia. lia.
  - intros i Hi. rewrite zlen_zrange in Hi by lia. rewrite nthz_zrange by lia.
    destruct (Z_lt_ge_dec i (b - a)).
    + rewrite nthz_app1 by (rewrite zlen_zrange; lia). rewrite nthz_zrange by lia. lia.
    + rewrite nthz_app2 by (rewrite zlen_zrange; lia). rewrite zlen_zrange by lia. rewrite nthz_zrange by lia. lia.
Qed.

(* ---- stripping ---- *)
Lemma strip_snoc : forall l a, strip (l ++ [a]) = if a =? zlen l + 1 then strip l else l ++ [a].
Proof.
  intros l a. unfold strip. rewrite rev_app_distr. cbn [rev app]. cbn [strip_rev].
  replace (zlen (a :: rev l)) with (zlen l + 1) by (rewrite zlen_cons; unfold zlen; rewrite rev_length; reflexivity).
  destruct (a =? zlen l + 1); [reflexivity|]. cbn [rev]. rewrite rev_involutive. reflexivity.
Qed.
Lemma strip_nil : strip [] = [].
Proof. reflexivity. Qed.

Lemma strip_tail : forall l, l = strip l ++ zrange (zlen (strip l) + 1) (zlen l + 1) /\ zlen (strip l) <= zlen l /\
  (strip l <> [] -> last (strip l) 0 <> zlen (strip l)).
Proof.
  induction l as [|a l IH] using rev_ind.
  - rewrite strip_nil. split; [reflexivity|]. split; [lia|congruence].
  - destruct IH as (IH1 & IH2 & IH3). rewrite strip_snoc. destruct (a =? zlen l + 1) eqn:E.
    + apply Z.eqb_eq in E. split; [|split; [rewrite zlen_app; pose proof (zlen_nonneg _ [a]); lia|assumption]].
      rewrite zlen_app. change (zlen [a]) with 1.
      rewrite (zrange_app (zlen (strip l) + 1) (zlen l + 1) (zlen l + 1 + 1)) by lia. rewrite app_assoc, <- IH1.
      rewrite (zrange_cons (zlen l + 1)) by lia. rewrite zrange_nil by lia. congruence.
    + apply Z.eqb_neq in E. split; [rewrite zrange_nil by lia; rewrite app_nil_r; reflexivity|]. split; [lia|].
      intros _. rewrite last_last. rewrite zlen_app. change (zlen [a]) with 1. assumption.
Qed.

Lemma strip_canonical_id : forall l, (l <> [] -> last l 0 <> zlen l) -> strip l = l.
Proof.
  intros l H. destruct l as [|a l] using rev_ind; [reflexivity|]. rewrite strip_snoc.
  replace (a =? zlen l + 1) with false; [reflexivity|]. symmetry. apply Z.eqb_neq. intro E.
  apply H; [destruct l; discriminate|]. rewrite last_last, zlen_app. exact E.
Qed.

(* ---- signed words ---- *)
Lemma signed_word_range : forall l x, signed_word l -> In x l -> 1 <= Z.abs x <= zlen l.
Proof.
  intros l x H Hx. assert (In (Z.abs x) (zrange 1 (zlen l + 1))).
  { eapply Permutation_in; [exact H|]. apply in_map. assumption. } apply In_zrange in H0. lia.
Qed.
Lemma signed_word_inj : forall l i j, signed_word l -> 0 <= i < zlen l -> 0 <= j < zlen l ->
  Z.abs (nthz l i) = Z.abs (nthz l j) -> i = j.
Proof.
  intros l i j H Hi Hj E.
  assert (Hn : NoDup (map Z.abs l)). { eapply Permutation_NoDup; [apply Permutation_sym; exact H|apply NoDup_zrange]. }
  rewrite <- !nthz_map in E by assumption. unfold nthz in E. unfold zlen in *.
  assert (Z.to_nat i = Z.to_nat j); [|lia]. eapply (proj1 (NoDup_nth _ _) Hn); [rewrite map_length; lia|rewrite map_length; lia|exact E].
Qed.
Lemma signed_word_surj : forall l j, signed_word l -> 1 <= j <= zlen l -> exists i, 0 <= i < zlen l /\ Z.abs (nthz l i) = j.
Proof.
  intros l j H Hj. assert (Hin : In j (map Z.abs l)).
  { eapply Permutation_in; [apply Permutation_sym; exact H|]. apply In_zrange. lia. }
  apply In_nthz in Hin. destruct Hin as (i & Hi & E). rewrite zlen_map in Hi. exists i. split; [assumption|].
  rewrite nthz_map in E by assumption. assumption.
Qed.
Lemma signed_word_intro : forall l, (forall x, In x l -> 1 <= Z.abs x <= zlen l) -> NoDup (map Z.abs l) -> signed_word l.
Proof.
  intros l H Hn. unfold signed_word. apply NoDup_Permutation_bis; [assumption| |].
  - rewrite length_zrange, map_length. unfold zlen. lia.
  - intros x Hx. apply in_map_iff in Hx. destruct Hx as (y & <- & Hy). apply In_zrange. specialize (H y Hy). lia.
Qed.

Lemma signed_word_snoc : forall l, signed_word (l ++ [zlen l + 1]) <-> signed_word l.
Proof.
  intro l. unfold signed_word. rewrite map_app, zlen_app. change (zlen [zlen l + 1]) with 1.
  cbn [map]. pose proof (zlen_nonneg _ l). rewrite Z.abs_eq by lia.
  rewrite (zrange_snoc 1) by lia. replace (zlen l + 1 + 1 - 1) with (zlen l + 1) by lia. split; intro P.
  - apply Permutation_app_inv_r in P. assumption.
  - apply Permutation_app_tail. assumption.
Qed.
Lemma signed_word_strip : forall l, signed_word (strip l) <-> signed_word l.
Proof.
  induction l as [|a l IH] using rev_ind; [reflexivity|]. rewrite strip_snoc.
  destruct (a =? zlen l + 1) eqn:E; [|reflexivity]. apply Z.eqb_eq in E. subst a. rewrite IH. symmetry. apply signed_word_snoc.
Qed.

Lemma same_set_signed : forall l, same_set (zrange 1 (zlen l + 1)) (map Z.abs l) = true <-> signed_word l.
Proof.
  intro l. rewrite same_set_spec. split.
  - intros [H1 _]. unfold signed_word. apply Permutation_sym. apply NoDup_Permutation_bis; [apply NoDup_zrange| |assumption].
    rewrite length_zrange, map_length. unfold zlen. lia.
  - intro H. split; intros x Hx; (eapply Permutation_in; [|exact Hx]); [apply Permutation_sym; exact H|exact H].
Qed.

Lemma mkperm_ok : forall l, signed_word l -> mkperm l = Ok (strip l).
Proof.
  intros l H. unfold mkperm. rewrite (proj2 (same_set_signed (strip l))); [reflexivity|]. apply signed_word_strip. assumption.
Qed.
Lemma mkperm_err : forall l, ~ signed_word l -> mkperm l = Err AssertionError.
Proof.
  intros l H. unfold mkperm. destruct (same_set _ _) eqn:E; [|reflexivity]. apply same_set_signed in E. apply (proj1 (signed_word_strip l)) in E. contradiction.
Qed.
Lemma strip_canonical : forall l, signed_word l -> canonical (strip l).
Proof. intros l H. split; [apply signed_word_strip; assumption|apply strip_tail]. Qed.

(* ---- the map ---- *)
Lemma pcall_pos : forall w i, 1 <= i <= zlen w -> pcall w i = nthz w (i - 1).
Proof. intros w i H. unfold pcall. replace ((0 <? i) && (i <=? zlen w)) with true by (symmetry; apply andb_true_iff; lia). reflexivity. Qed.
Lemma pcall_neg : forall w i, 1 <= i <= zlen w -> pcall w (- i) = - nthz w (i - 1).
Proof.
  intros w i H. unfold pcall. replace ((0 <? - i) && (- i <=? zlen w)) with false by lia.
  replace ((- zlen w <=? - i) && (- i <? 0)) with true by lia. f_equal. f_equal. lia.
Qed.
Lemma pcall_out : forall w i, zlen w < Z.abs i -> pcall w i = i.
Proof.
  intros w i H. unfold pcall. replace ((0 <? i) && (i <=? zlen w)) with false by lia.
  replace ((- zlen w <=? i) && (i <? 0)) with false by lia. reflexivity.
Qed.
Lemma pcall_zero : forall w, pcall w 0 = 0.
Proof. intro w. unfold pcall. cbn. rewrite andb_false_r. reflexivity. Qed.
Lemma pcall_odd : forall w i, pcall w (- i) = - pcall w i.
Proof.
  intros w i. destruct (Z.eq_dec i 0) as [->|N]; [change (- 0) with 0; rewrite pcall_zero; reflexivity|].
  destruct (Z_lt_ge_dec (zlen w) (Z.abs i)); [rewrite !pcall_out by lia; reflexivity|].
  destruct (Z_lt_ge_dec 0 i).
  - rewrite pcall_neg, pcall_pos by lia. reflexivity.
  - replace i with (- - i) at 2 by lia. rewrite (pcall_neg w (- i)), (pcall_pos w (- i)) by lia. lia.
Qed.

Lemma pcall_abs : forall w i, signed_word w -> 1 <= i <= zlen w -> 1 <= Z.abs (pcall w i) <= zlen w.
Proof. intros w i H Hi. rewrite pcall_pos by assumption. apply signed_word_range; [assumption|]. apply nthz_In. lia. Qed.
Lemma pcall_abs' : forall w i, signed_word w -> Z.abs i <= zlen w -> Z.abs (pcall w i) <= zlen w /\ (i <> 0 -> pcall w i <> 0).
Proof.
  intros w i H Hi. destruct (Z.eq_dec i 0) as [->|N]; [rewrite pcall_zero; lia|].
  destruct (Z_lt_ge_dec 0 i); [pose proof (pcall_abs w i H ltac:(lia)); lia|].
  pose proof (pcall_abs w (- i) H ltac:(lia)). rewrite pcall_odd in *. lia.
Qed.
Lemma pcall_nonzero : forall w i, signed_word w -> i <> 0 -> pcall w i <> 0.
Proof.
  intros w i H N. destruct (Z_lt_ge_dec (zlen w) (Z.abs i)); [rewrite pcall_out by lia; assumption|]. apply pcall_abs'; [assumption|lia|assumption].
Qed.

Lemma pcall_inj_abs : forall w i j, signed_word w -> 1 <= i -> 1 <= j -> Z.abs (pcall w i) = Z.abs (pcall w j) -> i = j.
Proof.
  intros w i j H Hi Hj E.
  destruct (Z_lt_ge_dec (zlen w) i) as [Oi|Oi], (Z_lt_ge_dec (zlen w) j) as [Oj|Oj].
  - rewrite !pcall_out in E by lia. lia.
  - rewrite (pcall_out w i) in E by lia. pose proof (pcall_abs w j H ltac:(lia)). lia.
  - rewrite (pcall_out w j) in E by lia. pose proof (pcall_abs w i H ltac:(lia)). lia.
  - rewrite !pcall_pos in E by lia. apply (signed_word_inj w) in E; lia || assumption.
Qed.
Lemma pcall_inj : forall w i j, signed_word w -> pcall w i = pcall w j -> i = j.
Proof.
  intros w i j H E. destruct (Z.eq_dec i 0) as [->|Ni].
  { rewrite pcall_zero in E. destruct (Z.eq_dec j 0) as [->|Nj]; [reflexivity|]. exfalso. apply (pcall_nonzero w j H Nj). congruence. }
  destruct (Z.eq_dec j 0) as [->|Nj].
  { rewrite pcall_zero in E. exfalso. apply (pcall_nonzero w i H Ni). congruence. }
  assert (Z.abs i = Z.abs j).
  { apply (pcall_inj_abs w); [assumption|lia|lia|]. destruct (Z.abs_eq_or_opp i) as [->| ->], (Z.abs_eq_or_opp j) as [->| ->]; rewrite ?pcall_odd; lia. }
  destruct (Z.abs_eq_cases i j H0) as [->| ->]; [reflexivity|]. rewrite pcall_odd in E.
  exfalso. apply (pcall_nonzero w j H Nj). lia.
Qed.
Lemma pcall_surj : forall w j, signed_word w -> exists i, pcall w i = j.
Proof.
  intros w j H. destruct (Z.eq_dec j 0) as [->|N]; [exists 0; apply pcall_zero|].
  destruct (Z_lt_ge_dec (zlen w) (Z.abs j)); [exists j; apply pcall_out; assumption|].
  destruct (signed_word_surj w (Z.abs j) H ltac:(lia)) as (i & Hi & E).
  destruct (Z.abs_eq_cases _ _ E) as [E1|E1].
  - exists (i + 1). rewrite pcall_pos by lia. rewrite <- E1. f_equal. lia.
  - exists (- (i + 1)). rewrite pcall_neg by lia. replace (i + 1 - 1) with i by lia. lia.
Qed.
Lemma pcall_signed_map : forall w, signed_word w -> signed_map (pcall w).
Proof.
  intros w H. split; [apply pcall_odd|]. split; [intros i j; apply pcall_inj; assumption|]. split; [intro j; apply pcall_surj; assumption|].
  exists (zlen w). split; [apply zlen_nonneg|]. apply pcall_out.
Qed.

Lemma pcall_snoc : forall l i, pcall (l ++ [zlen l + 1]) i = pcall l i.
Proof.
  intros l i. pose proof (zlen_nonneg _ l) as Hl.
  assert (G : forall k, 0 < k -> pcall (l ++ [zlen l + 1]) k = pcall l k).
  { intros k Hk. destruct (Z_lt_ge_dec (zlen l) k) as [O|O].
    - rewrite (pcall_out l) by lia. destruct (Z.eq_dec k (zlen l + 1)) as [->|N].
      + rewrite pcall_pos by (rewrite zlen_app; change (zlen [zlen l + 1]) with 1; lia). rewrite nthz_app2 by lia.
        replace (zlen l + 1 - 1 - zlen l) with 0 by lia. reflexivity.
      + apply pcall_out. rewrite zlen_app. change (zlen [zlen l + 1]) with 1. lia.
    - rewrite !pcall_pos; [|lia|rewrite zlen_app; change (zlen [zlen l + 1]) with 1; lia]. apply nthz_app1. lia. }
  destruct (Z.eq_dec i 0) as [->|N]; [rewrite !pcall_zero; reflexivity|]. destruct (Z_lt_ge_dec 0 i); [apply G; lia|].
  replace i with (- - i) by lia. rewrite !(pcall_odd _ (- i)). f_equal. apply G. lia.
Qed.
Lemma pcall_strip : forall l i, pcall (strip l) i = pcall l i.
Proof.
  induction l as [|a l IH] using rev_ind; intro i; [reflexivity|]. rewrite strip_snoc.
  destruct (a =? zlen l + 1) eqn:E; [|reflexivity]. apply Z.eqb_eq in E. subst a. rewrite pcall_snoc. apply IH.
Qed.

Lemma canonical_ext : forall u v, canonical u -> canonical v -> (forall i, pcall u i = pcall v i) -> u = v.
Proof.
  assert (G2 : forall u v, canonical u -> canonical v -> (forall i, pcall u i = pcall v i) -> zlen u < zlen v -> False).
  { intros u v Hu [Hv1 Hv2] E L. pose proof (zlen_nonneg _ u). apply Hv2; [intros ->; unfold zlen in L; simpl in L; lia|].
    specialize (E (zlen v)). rewrite pcall_out in E by lia. rewrite pcall_pos in E by lia.
    rewrite E at 1. unfold nthz, zlen. destruct v as [|b v] using rev_ind; [unfold zlen in L; simpl in L; lia|].
    rewrite last_last, app_length. simpl length. rewrite app_nth2 by lia. replace (Z.to_nat _ - length v)%nat with O by lia. reflexivity. }
  intros u v Hu Hv E. assert (zlen u = zlen v).
  { destruct (Z.lt_total (zlen u) (zlen v)) as [L|[L|L]]; [exfalso; eauto|assumption|exfalso; apply (G2 v u); auto]. }
  apply nthz_ext; [assumption|]. intros i Hi. specialize (E (i + 1)). rewrite !pcall_pos in E by lia.
  replace (i + 1 - 1) with i in E by lia. assumption.
Qed.

(* the one-line word of a map *)
Definition line (f : Z -> Z) (n : Z) : list Z := map f (zrange 1 (n + 1)).
Lemma zlen_line : forall f n, 0 <= n -> zlen (line f n) = n.
Proof. intros. unfold line. rewrite zlen_map, zlen_zrange; lia. Qed.

Lemma signed_map_line : forall f n, signed_map f -> 0 <= n -> (forall i, n < Z.abs i -> f i = i) ->
  signed_word (line f n) /\ forall i, pcall (line f n) i = f i.
Proof.
  intros f n (Hodd & Hinj & Hsurj & _) Hn Hout.
  assert (H0 : f 0 = 0) by (specialize (Hodd 0); simpl in Hodd; lia).
  split.
  - apply signed_word_intro.
    + intros x Hx. unfold line in Hx. apply in_map_iff in Hx. destruct Hx as (i & <- & Hi). apply In_zrange in Hi.
      rewrite zlen_line by assumption. assert (f i <> 0) by (intro E; rewrite <- H0 in E; apply Hinj in E; lia).
      destruct (Z_lt_ge_dec n (Z.abs (f i))) as [L|L]; [|lia]. pose proof (Hout _ L) as E. apply Hinj in E. rewrite E in L. lia.
    + unfold line. rewrite map_map. apply NoDup_map_inj_in; [|apply NoDup_zrange]. intros x y Hx Hy E.
      apply In_zrange in Hx. apply In_zrange in Hy. destruct (Z.abs_eq_cases _ _ E) as [E1|E1]; [apply Hinj; assumption|].
      rewrite <- Hodd in E1. apply Hinj in E1. lia.
  - assert (G : forall k, 0 < k -> pcall (line f n) k = f k).
    { intros k Hk. destruct (Z_lt_ge_dec n k).
      - rewrite pcall_out by (rewrite zlen_line; lia). symmetry. apply Hout. lia.
      - rewrite pcall_pos by (rewrite zlen_line; lia). unfold line. rewrite nthz_map by (rewrite zlen_zrange; lia).
        rewrite nthz_zrange by lia. f_equal. lia. }
    intro i. destruct (Z.eq_dec i 0) as [->|N]; [rewrite pcall_zero; congruence|]. destruct (Z_lt_ge_dec 0 i); [apply G; lia|].
    replace i with (- - i) by lia. rewrite pcall_odd, Hodd. f_equal. apply G. lia.
Qed.

Lemma signed_map_comp : forall f g, signed_map f -> signed_map g -> signed_map (fun i => f (g i)).
Proof.
  intros f g (F1 & F2 & F3 & nf & F4 & F5) (G1 & G2 & G3 & ng & G4 & G5). split; [intro i; rewrite G1, F1; reflexivity|].
  split; [intros i j E; auto|]. split.
  - intro j. destruct (F3 j) as (k & <-). destruct (G3 k) as (i & <-). exists i. reflexivity.
  - exists (Z.max nf ng). split; [lia|]. intros i Hi. rewrite G5 by lia. apply F5. lia.
Qed.
Lemma signed_map_ext : forall f g, (forall i, f i = g i) -> signed_map f -> signed_map g.
Proof.
  intros f g E (F1 & F2 & F3 & nf & F4 & F5). split; [intro i; rewrite <- !E; apply F1|]. split; [intros i j; rewrite <- !E; apply F2|].
  split; [intro j; destruct (F3 j) as (i & <-); exists i; rewrite E; reflexivity|]. exists nf. split; [assumption|]. intros i Hi. rewrite <- E. auto.
Qed.

(* ---- product ---- *)
Definition mulp (u v : list Z) : list Z := strip (line (fun i => pcall u (pcall v i)) (Z.max (zlen u) (zlen v))).
Lemma mulp_line : forall u v, signed_word u -> signed_word v ->
  signed_word (line (fun i => pcall u (pcall v i)) (Z.max (zlen u) (zlen v))) /\
  forall i, pcall (line (fun i => pcall u (pcall v i)) (Z.max (zlen u) (zlen v))) i = pcall u (pcall v i).
Proof.
  intros u v Hu Hv. pose proof (zlen_nonneg _ u). pose proof (zlen_nonneg _ v). apply signed_map_line; [|lia|].
  - apply signed_map_comp; apply pcall_signed_map; assumption.
  - intros i Hi. rewrite (pcall_out v) by lia. apply pcall_out. lia.
Qed.
Lemma pmul_ok : forall u v, signed_word u -> signed_word v -> pmul u v = Ok (mulp u v).
Proof. intros u v Hu Hv. unfold pmul, mulp. apply mkperm_ok. apply (mulp_line u v Hu Hv). Qed.
Lemma mulp_canonical : forall u v, signed_word u -> signed_word v -> canonical (mulp u v).
Proof. intros. apply strip_canonical. apply mulp_line; assumption. Qed.
Lemma mulp_call : forall u v i, signed_word u -> signed_word v -> pcall (mulp u v) i = pcall u (pcall v i).
Proof. intros. unfold mulp. rewrite pcall_strip. apply mulp_line; assumption. Qed.

(* ---- inverse ---- *)
Lemma length_upd : forall l i v, length (upd l i v) = length l.
Proof. induction l as [|a l IH]; intros [|i] v; simpl; congruence. Qed.
Lemma nth_upd_same : forall l i v d, (i < length l)%nat -> nth i (upd l i v) d = v.
Proof. induction l as [|a l IH]; intros [|i] v d H; simpl in *; try lia. apply IH. lia. Qed.
Lemma nth_upd_other : forall l i k v d, i <> k -> nth k (upd l i v) d = nth k l d.
Proof. induction l as [|a l IH]; intros [|i] [|k] v d H; simpl in *; try reflexivity; try congruence. apply IH. congruence. Qed.

Definition inv_step (w : list Z) (newline : list Z) (i : Z) : list Z :=
  let j := pcall w i in
  if 0 <? j then upd newline (Z.to_nat (j - 1)) i else upd newline (Z.to_nat (- j - 1)) (- i).
Definition inv_line (w : list Z) : list Z := fold_left (inv_step w) (zrange 1 (zlen w + 1)) (repeat 0 (length w)).
Definition invp (w : list Z) : list Z := strip (inv_line w).

Lemma inv_step_length : forall w l m, length (fold_left (inv_step w) l m) = length m.
Proof.
  intros w. induction l as [|i l IH]; intro m; simpl; [reflexivity|]. rewrite IH. unfold inv_step. destruct (0 <? pcall w i); apply length_upd.
Qed.

Lemma inv_line_nth : forall w, signed_word w -> forall m, 0 <= m <= zlen w -> forall i, 1 <= i <= m ->
  nthz (fold_left (inv_step w) (zrange 1 (m + 1)) (repeat 0 (length w))) (Z.abs (pcall w i) - 1) = if 0 <? pcall w i then i else - i.
Proof.
  intros w Hw. intros m Hm. destruct Hm as [Hm0 Hm]. revert m Hm0 Hm. apply (natlike_ind (fun m => m <= zlen w -> forall i, 1 <= i <= m ->
    nthz (fold_left (inv_step w) (zrange 1 (m + 1)) (repeat 0 (length w))) (Z.abs (pcall w i) - 1) = if 0 <? pcall w i then i else - i)).
  - intros _ i Hi. lia.
  - intros m Hm IH Hle i Hi. rewrite zrange_snoc by lia. replace (Z.succ m + 1 - 1) with (m + 1) by lia. rewrite fold_left_app. cbn [fold_left].
    set (l := fold_left (inv_step w) (zrange 1 (m + 1)) (repeat 0 (length w))) in *.
    assert (Hl : length l = length w) by (unfold l; rewrite inv_step_length, repeat_length; reflexivity).
    pose proof (pcall_abs w (m + 1) Hw ltac:(lia)) as Ha. unfold zlen in Ha.
    assert (Es : inv_step w l (m + 1) = upd l (Z.to_nat (Z.abs (pcall w (m + 1)) - 1)) (if 0 <? pcall w (m + 1) then m + 1 else - (m + 1))).
    { unfold inv_step. destruct (0 <? pcall w (m + 1)) eqn:E; [apply Z.ltb_lt in E|apply Z.ltb_ge in E].
      - replace (Z.abs (pcall w (m + 1))) with (pcall w (m + 1)) by lia. reflexivity.
      - replace (Z.abs (pcall w (m + 1))) with (- pcall w (m + 1)) by lia. reflexivity. }
    rewrite Es. unfold nthz. destruct (Z.eq_dec i (m + 1)) as [->|N].
    + rewrite nth_upd_same by lia. reflexivity.
    + pose proof (pcall_abs w i Hw ltac:(lia)). rewrite nth_upd_other.
      * apply (IH ltac:(lia) i ltac:(lia)).
      * intro E. apply N. apply (pcall_inj_abs w); [assumption|lia|lia|lia].
Qed.

Lemma zlen_inv_line : forall w, zlen (inv_line w) = zlen w.
Proof. intro w. unfold zlen, inv_line. rewrite inv_step_length, repeat_length. reflexivity. Qed.
Lemma inv_line_call : forall w i, signed_word w -> pcall (inv_line w) (pcall w i) = i.
Proof.
  intros w i Hw.
  assert (G : forall k, 1 <= k -> pcall (inv_line w) (pcall w k) = k).
  { intros k Hk. destruct (Z_lt_ge_dec (zlen w) k) as [O|O].
    - rewrite (pcall_out w) by lia. apply pcall_out. rewrite zlen_inv_line. lia.
    - pose proof (pcall_abs w k Hw ltac:(lia)) as Ha. pose proof (inv_line_nth w Hw (zlen w) ltac:(lia) k ltac:(lia)) as Hi.
      fold (inv_line w) in Hi. destruct (0 <? pcall w k) eqn:E; [apply Z.ltb_lt in E|apply Z.ltb_ge in E].
      + rewrite pcall_pos by (rewrite zlen_inv_line; lia). etransitivity; [|exact Hi]. f_equal. lia.
      + replace (pcall w k) with (- - pcall w k) by lia. rewrite pcall_neg by (rewrite zlen_inv_line; lia).
        replace (- pcall w k - 1) with (Z.abs (pcall w k) - 1) by lia. rewrite Hi. lia. }
  destruct (Z.eq_dec i 0) as [->|N]; [rewrite !pcall_zero; reflexivity|]. destruct (Z_lt_ge_dec 0 i); [apply G; lia|].
  replace i with (- - i) by lia. rewrite !(pcall_odd _ (- i)). rewrite pcall_odd. f_equal. apply G. lia.
Qed.
Lemma inv_line_call2 : forall w i, signed_word w -> pcall w (pcall (inv_line w) i) = i.
Proof. intros w i Hw. destruct (pcall_surj w i Hw) as (j & <-). rewrite inv_line_call by assumption. reflexivity. Qed.
Lemma inv_line_signed : forall w, signed_word w -> signed_word (inv_line w).
Proof.
  intros w Hw. assert (Hs : signed_map (pcall (inv_line w))).
  { split; [apply pcall_odd|]. split; [|split].
    - intros i j E. rewrite <- (inv_line_call2 w i Hw), <- (inv_line_call2 w j Hw). congruence.
    - intro j. exists (pcall w j). apply inv_line_call. assumption.
    - exists (zlen w). split; [apply zlen_nonneg|]. intros i Hi. apply pcall_out. rewrite zlen_inv_line. assumption. }
  destruct (signed_map_line _ (zlen w) Hs (zlen_nonneg _ _)) as [H1 _].
  - intros i Hi. apply pcall_out. rewrite zlen_inv_line. assumption.
  - replace (inv_line w) with (line (pcall (inv_line w)) (zlen w)); [assumption|].
    pose proof (zlen_nonneg _ w). apply nthz_ext; [rewrite zlen_line, zlen_inv_line; lia|]. intros i Hi. rewrite zlen_line in Hi by lia.
    unfold line. rewrite nthz_map by (rewrite zlen_zrange; lia). rewrite nthz_zrange by lia.
    rewrite pcall_pos by (rewrite zlen_inv_line; lia). f_equal. lia.
Qed.
Lemma pinv_ok : forall w, signed_word w -> pinv w = Ok (invp w).
Proof. intros w Hw. unfold pinv, invp. apply mkperm_ok. apply inv_line_signed. assumption. Qed.
Lemma invp_canonical : forall w, signed_word w -> canonical (invp w).
Proof. intros. apply strip_canonical. apply inv_line_signed. assumption. Qed.
Lemma invp_call : forall w i, signed_word w -> pcall (invp w) (pcall w i) = i.
Proof. intros. unfold invp. rewrite pcall_strip. apply inv_line_call. assumption. Qed.
Lemma invp_call2 : forall w i, signed_word w -> pcall w (pcall (invp w) i) = i.
Proof. intros. unfold invp. rewrite pcall_strip. apply inv_line_call2. assumption. Qed.

(* ---- simple reflections ---- *)
Lemma simple_invol : forall i x, 0 <= i -> simple i (simple i x) = x.
Proof.
  intros i x Hi. unfold simple. destruct (Z.eqb_spec i 0) as [->|N].
  - destruct (Z.eqb_spec (Z.abs x) 1); [destruct (Z.eqb_spec (Z.abs (- x)) 1); lia|]. destruct (Z.eqb_spec (Z.abs x) 1); lia.
  - destruct (Z.eqb_spec x i); [|destruct (Z.eqb_spec x (i + 1)); [|destruct (Z.eqb_spec x (- i)); [|destruct (Z.eqb_spec x (- i - 1))]]];
    repeat match goal with |- context [?a =? ?b] => destruct (Z.eqb_spec a b) end; lia.
Qed.
Lemma simple_odd : forall i x, 0 <= i -> simple i (- x) = - simple i x.
Proof.
  intros i x Hi. unfold simple. destruct (Z.eqb_spec i 0) as [->|N];
    repeat match goal with |- context [?a =? ?b] => destruct (Z.eqb_spec a b) end; lia.
Qed.
Lemma simple_out : forall i x, 0 <= i -> i + 1 < Z.abs x -> simple i x = x.
Proof.
  intros i x Hi Hx. unfold simple. destruct (Z.eqb_spec i 0) as [->|N];
    repeat match goal with |- context [?a =? ?b] => destruct (Z.eqb_spec a b) end; lia.
Qed.
Lemma simple_signed : forall i, 0 <= i -> signed_map (simple i).
Proof.
  intros i Hi. split; [intro x; apply simple_odd; assumption|]. split.
  - intros x y E. rewrite <- (simple_invol i x Hi), <- (simple_invol i y Hi). congruence.
  - split; [intro y; exists (simple i y); apply simple_invol; assumption|]. exists (i + 1). split; [lia|]. intros x. apply simple_out. assumption.
Qed.

Definition sp (i : Z) : list Z := if i =? 0 then [-1] else zrange 1 i ++ [i + 1; i].
Lemma sp_line : forall i, 0 < i -> zrange 1 i ++ [i + 1; i] = line (simple i) (i + 1).
Proof.
  intros i Hi. unfold line. rewrite (zrange_app 1 i (i + 1 + 1)) by lia. rewrite map_app. f_equal.
  - rewrite <- (map_id (zrange 1 i)) at 1. apply map_ext_in. intros x Hx. apply In_zrange in Hx. unfold simple.
    repeat match goal with |- context [?a =? ?b] => destruct (Z.eqb_spec a b) end; lia.
  - rewrite zrange_cons by lia. rewrite zrange_cons by lia. rewrite zrange_nil by lia. cbn [map]. unfold simple.
    replace (i =? 0) with false by lia. rewrite Z.eqb_refl. replace (i + 1 =? i) with false by lia. rewrite Z.eqb_refl. reflexivity.
Qed.
Lemma sp_spec : forall i, 0 <= i -> s_i i = Ok (sp i) /\ canonical (sp i) /\ forall x, pcall (sp i) x = simple i x.
Proof.
  intros i Hi. unfold s_i, sp. replace (0 <=? i) with true by lia. destruct (Z.eqb_spec i 0) as [->|N].
  - split; [reflexivity|]. split.
    + split; [apply signed_word_intro; [intros x [<-|[]]; cbv; split; discriminate|repeat constructor; intros []]|]. intros _. cbv. discriminate.
    + intro x. unfold pcall, simple. change (zlen [-1]) with 1. cbn.
      destruct ((0 <? x) && (x <=? 1)) eqn:E1.
      * replace x with 1 by lia. reflexivity.
      * destruct ((-1 <=? x) && (x <? 0)) eqn:E2; [replace x with (-1) by lia; reflexivity|].
        replace (Z.abs x =? 1) with false by lia. reflexivity.
  - assert (Hp : 0 < i) by lia. rewrite (sp_line i Hp).
    destruct (signed_map_line (simple i) (i + 1) (simple_signed i Hi)) as [H1 H2]; [lia|intros x; apply simple_out; assumption|].
    assert (Hc : canonical (line (simple i) (i + 1))).
    { split; [assumption|]. intros _. rewrite zlen_line by lia. rewrite <- (sp_line i Hp).
      change [i + 1; i] with ([i + 1] ++ [i]). rewrite app_assoc, last_last. lia. }
    split; [|split; assumption]. rewrite mkperm_ok by assumption. f_equal. apply strip_canonical_id. apply Hc.
Qed.
Lemma sp_ok : forall i, 0 <= i -> s_i i = Ok (sp i).
Proof. intros. apply sp_spec. assumption. Qed.
Lemma sp_canonical : forall i, 0 <= i -> canonical (sp i).
Proof. intros. apply sp_spec. assumption. Qed.
Lemma sp_call : forall i x, 0 <= i -> pcall (sp i) x = simple i x.
Proof. intros. apply sp_spec. assumption. Qed.
