From Coq Require Import List ZArith Lia Bool.
From Verif Require Import PyBase M_Partitions M_Words S_Levels L_Words2.
Import ListNotations.
Local Open Scope Z_scope.

Lemma ascents_spec : forall l, ascents l = weak_ascents l.
Proof.
  induction l as [|a l IH]; [reflexivity|]. destruct l as [|b l]; [reflexivity|].
  change (weak_ascents (a :: b :: l)) with ((if a <=? b then 1 else 0) + weak_ascents (b :: l)). rewrite <- IH. unfold ascents.
  rewrite !zlen_cons. pose proof (zlen_nonneg _ l). rewrite (zrange_cons 0) by lia. cbn [filter].
  change (nthz (a :: b :: l) 0) with a. change (nthz (a :: b :: l) (0 + 1)) with b.
  assert (E : zlen (filter (fun i => nthz (a :: b :: l) i <=? nthz (a :: b :: l) (i + 1)) (zrange (0 + 1) (zlen l + 1 + 1 - 1))) =
    zlen (filter (fun i => nthz (b :: l) i <=? nthz (b :: l) (i + 1)) (zrange 0 (zlen l + 1 - 1)))).
  { replace (zlen l + 1 + 1 - 1) with (zlen l + 1 - 1 + 1) by lia. rewrite zrange_shift.
    assert (G : forall k, (forall i, In i k -> 0 <= i) -> zlen (filter (fun i => nthz (a :: b :: l) i <=? nthz (a :: b :: l) (i + 1)) (map (fun x => x + 1) k)) =
      zlen (filter (fun i => nthz (b :: l) i <=? nthz (b :: l) (i + 1)) k)).
    { induction k as [|i k IHk]; intro Hk; [reflexivity|]. cbn [map filter]. assert (0 <= i) by (apply Hk; left; reflexivity).
      rewrite (nthz_succ a (b :: l) i), (nthz_succ a (b :: l) (i + 1)) by lia. destruct (nthz (b :: l) i <=? nthz (b :: l) (i + 1)); [rewrite !zlen_cons|]; rewrite IHk; auto; intros j Hj; apply Hk; right; assumption. }
    apply G. intros i Hi. apply In_zrange in Hi. lia. }
  destruct (a <=? b); [rewrite zlen_cons|]; rewrite E; lia.
Qed.
Lemma weak_ascents_snoc : forall l a, weak_ascents l <= weak_ascents (l ++ [a]).
Proof.
  induction l as [|x l IH]; intro a; [cbn; lia|]. destruct l as [|y l]; [cbn; destruct (x <=? a); lia|].
  change ((x :: y :: l) ++ [a]) with (x :: y :: (l ++ [a])). specialize (IH a). change ((y :: l) ++ [a]) with (y :: (l ++ [a])) in IH.
  change (weak_ascents (x :: y :: l)) with ((if x <=? y then 1 else 0) + weak_ascents (y :: l)).
  change (weak_ascents (x :: y :: l ++ [a])) with ((if x <=? y then 1 else 0) + weak_ascents (y :: l ++ [a])). lia.
Qed.

Lemma no_peak_sub : forall a b c, no_peak (a ++ b ++ c) -> no_peak b.
Proof. intros a b c H p x y z q E. subst b. apply (H (a ++ p) x y z (q ++ c)). rewrite <- !app_assoc. reflexivity. Qed.
Lemma no_peak_skipn : forall n l, no_peak l -> no_peak (skipn n l).
Proof. intros n l H. apply (no_peak_sub (firstn n l) _ []). rewrite app_nil_r, firstn_skipn. assumption. Qed.

Lemma nth_mid : forall (a : list Z) x y z b i, 0 <= i -> Z.to_nat i = S (length a) ->
  nthz (a ++ x :: y :: z :: b) (i - 1) = x /\ nthz (a ++ x :: y :: z :: b) i = y /\ nthz (a ++ x :: y :: z :: b) (i + 1) = z.
Proof.
  intros a x y z b i Hi E. unfold nthz. replace (Z.to_nat (i - 1)) with (length a + 0)%nat by lia. replace (Z.to_nat i) with (length a + 1)%nat by lia.
  replace (Z.to_nat (i + 1)) with (length a + 2)%nat by lia. rewrite !app_nth2_plus. auto.
Qed.
Definition peakb (v : list Z) (i : Z) : bool := (nthz v (i - 1) <=? nthz v i) && (nthz v (i + 1) <=? nthz v i).
Lemma split3 : forall (v : list Z) n, (S n < length v - 1)%nat -> exists a x y z b, v = a ++ x :: y :: z :: b /\ length a = n.
Proof.
  intros v n H. exists (firstn n v). destruct (skipn n v) as [|x [|y [|z b]]] eqn:E.
  1,2,3: apply (f_equal (@length Z)) in E; rewrite skipn_length in E; cbn in E; lia.
  exists x, y, z, b. split; [rewrite <- E; symmetry; apply firstn_skipn|]. rewrite firstn_length. lia.
Qed.
Lemma no_peak_filter : forall v, filter (peakb v) (zrange 1 (zlen v - 1)) = [] -> no_peak v.
Proof.
  intros v H a x y z b E [H1 H2]. assert (Hin : In (Z.of_nat (S (length a))) (filter (peakb v) (zrange 1 (zlen v - 1)))).
  { apply filter_In. split.
    - apply In_zrange. subst v. unfold zlen. rewrite app_length. cbn [length]. lia.
    - unfold peakb. subst v. destruct (nth_mid a x y z b (Z.of_nat (S (length a)))) as (-> & -> & ->); [lia|lia|]. apply andb_true_iff. lia. }
  rewrite H in Hin. destruct Hin.
Qed.
Lemma filter_first : forall (f : Z -> bool) a b i r, filter f (zrange a b) = i :: r -> a <= i < b /\ f i = true /\ forall j, a <= j < i -> f j = false.
Proof.
  intros f a b i r H. assert (Hi : In i (filter f (zrange a b))) by (rewrite H; left; reflexivity). apply filter_In in Hi. destruct Hi as [Hi Hf].
  apply In_zrange in Hi. split; [lia|]. split; [assumption|]. intros j Hj.
  destruct (Z_lt_ge_dec a b); [|lia]. clear Hf. assert (Hn : exists n, b = a + Z.of_nat n) by (exists (Z.to_nat (b - a)); lia). destruct Hn as (n & ->).
  revert a H Hj Hi l. induction n as [|n IH]; intros a H Hj Hi Hl; [lia|].
  rewrite zrange_cons in H by lia. cbn [filter] in H. destruct (f a) eqn:E; [injection H as <- _; lia|].
  destruct (Z.eq_dec j a) as [->|N]; [assumption|]. apply (IH (a + 1)); try lia. replace (a + 1 + Z.of_nat n) with (a + Z.of_nat (S n)) by lia. assumption.
Qed.

Lemma skip_cut : forall fs n, Forall no_peak fs -> exists fs2, concat fs2 = skipn n (concat fs) /\ Forall no_peak fs2 /\ zlen fs2 <= zlen fs.
Proof.
  induction fs as [|f fs IH]; intros n H; [exists []; split; [destruct n; reflexivity|split; [constructor|lia]]|].
  inversion H; subst. cbn [concat]. rewrite skipn_app. destruct (le_lt_dec (length f) n) as [L|L].
  - destruct (IH (n - length f)%nat) as (fs2 & A & B & C); [assumption|]. exists fs2. rewrite skipn_all2 by assumption. cbn [app]. rewrite zlen_cons. repeat split; auto. lia.
  - exists (skipn n f :: fs). replace (n - length f)%nat with 0%nat by lia. cbn [concat skipn]. split; [reflexivity|]. split; [constructor; [apply no_peak_skipn; assumption|assumption]|].
    rewrite !zlen_cons. lia.
Qed.

Lemma peaks_spec : forall fuel v, (length v < fuel)%nat ->
  exists p, peaks fuel v = Ok p /\ cuts v p /\ forall n, cuts v n -> p <= n.
Proof.
  induction fuel as [|fuel IH]; intros v Hf; [lia|]. cbn [peaks].
  change (fun i => (nthz v (i - 1) <=? nthz v i) && (nthz v (i + 1) <=? nthz v i)) with (peakb v).
  destruct (filter (peakb v) (zrange 1 (zlen v - 1))) as [|i r] eqn:E.
  - destruct v as [|x v].
    + exists 0. split; [reflexivity|]. split; [exists []; repeat split; constructor|]. intros n (fs & _ & _ & <-). apply zlen_nonneg.
    + exists 1. split; [reflexivity|]. split; [exists [x :: v]; cbn; rewrite app_nil_r; repeat split; constructor; [apply no_peak_filter; assumption|constructor]|].
      intros n (fs & Hc & _ & <-). destruct fs; [discriminate|]. rewrite zlen_cons. pose proof (zlen_nonneg _ fs). lia.
  - apply filter_first in E. destruct E as (Hi & Hp & Hb).
    destruct (IH (skipn (Z.to_nat (i + 1)) v)) as (p & Ep & (fs & Hc & Hn & Hl) & Hmin).
    { rewrite skipn_length. unfold zlen in Hi. lia. }
    rewrite Ep. exists (1 + p). split; [reflexivity|]. split.
    + exists (firstn (Z.to_nat (i + 1)) v :: fs). cbn [concat]. rewrite Hc, firstn_skipn. split; [reflexivity|]. split; [|rewrite zlen_cons; lia].
      constructor; [|assumption]. intros a x y z b Ea [H1 H2].
      assert (Ev : v = a ++ x :: y :: z :: (b ++ skipn (Z.to_nat (i + 1)) v)).
      { rewrite <- (firstn_skipn (Z.to_nat (i + 1)) v) at 1. rewrite Ea. rewrite <- app_assoc. reflexivity. }
      assert (La : (S (S (S (length a))) <= Z.to_nat (i + 1))%nat).
      { apply (f_equal (@length Z)) in Ea. rewrite firstn_length, app_length in Ea. cbn in Ea. lia. }
      set (j := Z.of_nat (S (length a))). assert (Hj : peakb v j = true).
      { unfold peakb. rewrite Ev. destruct (nth_mid a x y z (b ++ skipn (Z.to_nat (i + 1)) v) j) as (-> & -> & ->); unfold j; try lia. }
      rewrite (Hb j) in Hj by (unfold j; lia). discriminate.
    + intros n (gs & Gc & Gn & <-). revert Gc Gn.
      induction gs as [|g gs IHg]; intros Gc Gn.
      { subst v. unfold zlen in Hi. cbn in Hi. lia. }
      inversion Gn as [|? ? Ng Ngs]; subst. cbn [concat] in *.
      destruct g as [|g0 g]; [specialize (IHg eq_refl Ngs); rewrite zlen_cons; cbn [app] in *; lia|]. clear IHg.
      set (f1 := g0 :: g) in *. assert (L1 : (length f1 <= Z.to_nat (i + 1))%nat).
      { destruct (le_lt_dec (length f1) (Z.to_nat (i + 1))) as [|L]; [assumption|]. exfalso.
        assert (Hs : exists a x y z b, f1 = a ++ x :: y :: z :: b /\ length a = (Z.to_nat i - 1)%nat) by (apply split3; lia).
        destruct Hs as (a & x & y & z & b & Ef & La). apply (Ng a x y z b Ef).
        unfold peakb in Hp. rewrite Ef in Hp. rewrite <- app_assoc in Hp. cbn [app] in Hp.
        destruct (nth_mid a x y z (b ++ concat gs) i) as (E1 & E2 & E3); [lia|lia|]. rewrite E1, E2, E3 in Hp. apply andb_true_iff in Hp. lia. }
      destruct (skip_cut gs (Z.to_nat (i + 1) - length f1) Ngs) as (gs2 & C1 & C2 & C3).
      assert (Hcut : cuts (skipn (Z.to_nat (i + 1)) (f1 ++ concat gs)) (zlen gs2)).
      { exists gs2. rewrite skipn_app, skipn_all2 by assumption. auto. }
      apply Hmin in Hcut. rewrite zlen_cons. lia.
Qed.

Lemma cuts_prefix : forall l a n, cuts (l ++ [a]) n -> exists m, m <= n /\ cuts l m.
Proof.
  intros l a n (fs & Hc & Hn & <-). revert l Hc. induction fs as [|f fs IH] using rev_ind; intros l Hc; [destruct l; discriminate|].
  rewrite concat_app in Hc. cbn [concat] in Hc. rewrite app_nil_r in Hc. apply Forall_app in Hn. destruct Hn as [Hn Hf]. inversion Hf; subst.
  destruct f as [|f0 f _] using rev_ind.
  - rewrite app_nil_r in Hc. destruct (IH Hn l Hc) as (m & Hm & Hcut). exists m. split; [|assumption]. rewrite zlen_app. pose proof (zlen_nonneg _ [@nil Z]). lia.
  - rewrite app_assoc in Hc. apply app_inj_tail in Hc. destruct Hc as [<- _]. exists (zlen (fs ++ [f])). split; [rewrite !zlen_app; unfold zlen; cbn; lia|].
    exists (fs ++ [f]). rewrite concat_app. cbn. rewrite app_nil_r. split; [reflexivity|]. split; [|reflexivity]. apply Forall_app. split; [assumption|].
    constructor; [|constructor]. apply (no_peak_sub [] f [f0]). assumption.
Qed.
