(* Lemmas for C38: the product of two monomial symmetric functions, on exponent vectors *)
From Coq Require Import List ZArith Lia Bool Permutation Sorted Arith FinFun.
From Verif Require Import PyBase FinSum M_Partitions S_Partitions L_Partitions L_PartBasic M_Semistandard M_Symmetric L_Count L_Count2 L_Destand.
Import ListNotations.
Local Open Scope Z_scope.

Lemma zs_perm : forall A (f : A -> Z) l m, Permutation l m -> zs f l = zs f m.
Proof. intros A f l m P. induction P; [reflexivity| | |congruence]; rewrite !zs_cons; [rewrite IHP; reflexivity|]. lia. Qed.
Lemma zs_filter : forall A (f : A -> Z) p l, (forall x, In x l -> p x = false -> f x = 0) -> zs f l = zs f (filter p l).
Proof.
  induction l as [|a l IH]; intro H; [reflexivity|]. cbn [filter]. rewrite zs_cons, IH by (intros; apply H; [right|]; assumption).
  destruct (p a) eqn:E; [rewrite zs_cons; reflexivity|]. rewrite (H a (or_introl eq_refl) E). lia.
Qed.

Definition pc (n : nat) (mu nu e : list Z) : Z :=
  zs (fun a => zs (fun b => ind (zlist_eqb (vplus a b) e)) (destandardize n nu)) (destandardize n mu).

Lemma vplus_length : forall a b, length a = length b -> length (vplus a b) = length a.
Proof. intros a b H. unfold vplus. rewrite map_length, combine_length. lia. Qed.
Lemma vplus_nth : forall a b i, length a = length b -> nth i (vplus a b) 0 = nth i a 0 + nth i b 0.
Proof.
  induction a as [|x a IH]; intros [|y b] i H; try discriminate; [destruct i; reflexivity|]. cbn [length] in H.
  destruct i as [|i]; [reflexivity|]. cbn [vplus combine map nth]. apply IH. lia.
Qed.
Lemma vplus_app : forall a b a' b', length a = length b -> vplus (a ++ a') (b ++ b') = vplus a b ++ vplus a' b'.
Proof. induction a as [|x a IH]; intros [|y b] a' b' H; try discriminate; [reflexivity|]. unfold vplus in *. cbn [app combine map]. f_equal. apply IH. cbn [length] in H. lia. Qed.
Lemma vplus_nz : forall a b, length a = length b -> (length (filter nz (vplus a b)) <= length (filter nz a) + length (filter nz b))%nat.
Proof.
  induction a as [|x a IH]; intros [|y b] H; try discriminate; [reflexivity|]. specialize (IH b ltac:(cbn [length] in H; lia)). unfold vplus in *. cbn [combine map filter fst snd].
  assert (X : nz (x + y) = true -> nz x = true \/ nz y = true) by (unfold nz; destruct (Z.eqb_spec (x + y) 0), (Z.eqb_spec x 0), (Z.eqb_spec y 0); cbn [negb]; auto; lia).
  destruct (nz (x + y)), (nz x), (nz y); cbn [length]; try lia.
Qed.

Lemma filter_length_split : forall (p : Z -> bool) l, (length (filter p l) + length (filter (fun x => negb (p x)) l) = length l)%nat.
Proof. induction l as [|a l IH]; [reflexivity|]. cbn [filter length]. destruct (p a); cbn [negb length]; lia. Qed.
Lemma list_ext : forall (a b : list Z), length a = length b -> (forall i, (i < length a)%nat -> nth i a 0 = nth i b 0) -> a = b.
Proof. intros a b L H. apply (nth_ext a b 0 0); assumption. Qed.

Lemma filter_perm : forall (p : Z -> bool) a b, Permutation a b -> Permutation (filter p a) (filter p b).
Proof.
  intros p a b H. induction H; cbn [filter]; [constructor| | |eapply Permutation_trans; eassumption].
  - destruct (p x); [constructor|]; assumption.
  - destruct (p x), (p y); try apply Permutation_refl. constructor.
Qed.
Lemma arr_perm : forall n mu e e', Permutation e e' -> arr n mu e -> arr n mu e'.
Proof.
  intros n mu e e' P [L Q]. split; [rewrite <- (Permutation_length P); assumption|]. eapply Permutation_trans; [|exact Q]. apply filter_perm, Permutation_sym. assumption.
Qed.

Section Products.
  Variables mu nu : list Z.
  Hypothesis Fm : Forall (fun a => 0 < a) mu.
  Hypothesis Dm : desc mu.
  Hypothesis Fn : Forall (fun a => 0 < a) nu.
  Hypothesis Dn : desc nu.

  Lemma pc_perm : forall n e e', length e = n -> Permutation e e' -> pc n mu nu e = pc n mu nu e'.
  Proof.
    intros n e e' Le P. apply (Permutation_nth e e' 0) in P. destruct P as (L & f & B & I & H). rewrite Le in *.
    assert (S : bSurjective n f) by (apply bInjective_bSurjective; assumption).
    set (F := fun a : list Z => map (fun i => nth (f i) a 0) (seq 0 n)).
    assert (FL : forall a, length (F a) = n) by (intro; unfold F; rewrite map_length, seq_length; reflexivity).
    assert (Fnth : forall a i, (i < n)%nat -> nth i (F a) 0 = nth (f i) a 0).
    { intros a i Hi. unfold F. rewrite (nth_indep _ 0 (nth (f 0%nat) a 0)) by (rewrite map_length, seq_length; assumption).
      rewrite (map_nth (fun i => nth (f i) a 0)). rewrite seq_nth by assumption. reflexivity. }
    assert (FI : forall a b, length a = n -> length b = n -> F a = F b -> a = b).
    { intros a b La Lb E. apply list_ext; [lia|]. intros i Hi. destruct (S i ltac:(lia)) as (j & Hj & <-). rewrite <- !Fnth by assumption. rewrite E. reflexivity. }
    assert (FP : forall a, length a = n -> Permutation a (F a)).
    { intros a La. apply (Permutation_nth a (F a) 0). rewrite La, FL. split; [reflexivity|]. exists f. split; [assumption|]. split; [assumption|]. intros x Hx. apply Fnth. assumption. }
    assert (Ee : F e = e').
    { apply list_ext; [rewrite FL; congruence|]. intros i Hi. rewrite FL in Hi. rewrite Fnth by assumption. symmetry. apply H. assumption. }
    assert (FD : forall la, Forall (fun a => 0 < a) la -> desc la -> Permutation (map F (destandardize n la)) (destandardize n la)).
    { intros la Fl Dl. destruct (destandardize_spec n la Fl Dl) as [N M]. apply NoDup_Permutation_bis.
      - apply NoDup_map_inj_in; [|assumption]. intros x y Hx Hy. apply M in Hx. apply M in Hy. apply FI; [apply Hx|apply Hy].
      - rewrite map_length. lia.
      - intros x Hx. apply in_map_iff in Hx. destruct Hx as (a & <- & Ha). apply M. apply M in Ha. apply (arr_perm n la a); [apply FP, Ha|assumption]. }
    unfold pc. rewrite <- (zs_perm _ _ _ _ (FD mu Fm Dm)) at 1. rewrite zs_map. symmetry. rewrite <- (zs_perm _ _ _ _ (FD mu Fm Dm)). rewrite zs_map.
    destruct (destandardize_spec n mu Fm Dm) as [_ Mm]. destruct (destandardize_spec n nu Fn Dn) as [_ Mn].
    transitivity (zs (fun a => zs (fun b => ind (zlist_eqb (vplus a b) e)) (destandardize n nu)) (destandardize n mu)).
    - apply zs_ext. intros a Ha. apply Mm in Ha. rewrite <- (zs_perm _ _ _ _ (FD nu Fn Dn)). rewrite zs_map. apply zs_ext. intros b Hb. apply Mn in Hb.
      f_equal. destruct Ha as [La _]. destruct Hb as [Lb _]. assert (Ev : vplus (F a) (F b) = F (vplus a b)).
      { apply list_ext; [rewrite vplus_length, !FL by (rewrite !FL; reflexivity); reflexivity|]. intros i Hi. rewrite vplus_length, FL in Hi by (rewrite !FL; reflexivity).
        rewrite vplus_nth by (rewrite !FL; reflexivity). rewrite !Fnth by assumption. rewrite vplus_nth by lia. reflexivity. }
      rewrite Ev, <- Ee. apply eq_true_iff_eq. rewrite !zlist_eqb_eq. split; [|congruence]. apply FI; [rewrite vplus_length; lia|assumption].
    - symmetry. transitivity (zs (fun a => zs (fun b => ind (zlist_eqb (vplus a b) e)) (destandardize n nu)) (map F (destandardize n mu))); [rewrite zs_map; reflexivity|].
      apply zs_perm. apply FD; assumption.
  Qed.

  Lemma arr_nonneg : forall n la a, Forall (fun x => 0 < x) la -> arr n la a -> Forall (fun x => 0 <= x) a.
  Proof.
    intros n la a Fl [L P]. apply Forall_forall. intros x Hx. destruct (Z.eq_dec x 0) as [->|N]; [lia|]. rewrite Forall_forall in Fl.
    assert (X : In x la) by (eapply Permutation_in; [exact P|]; apply filter_In; split; [assumption|]; unfold nz; apply negb_true_iff, Z.eqb_neq; assumption). specialize (Fl x X). lia.
  Qed.

  Lemma filter_snoc : forall (a : list Z) x, filter nz (a ++ [x]) = filter nz a ++ (if x =? 0 then [] else [x]).
  Proof. intros a x. rewrite filter_app. cbn [filter]. unfold nz at 2. destruct (x =? 0); reflexivity. Qed.

  Lemma arr_snoc : forall n la a, arr (S n) la (a ++ [0]) <-> arr n la a.
  Proof. intros n la a. unfold arr. rewrite filter_snoc. cbn [Z.eqb]. rewrite app_nil_r, app_length. cbn [length]. split; intros [L P]; (split; [lia|assumption]). Qed.

  Lemma dest_snoc : forall n la, Forall (fun a => 0 < a) la -> desc la ->
    Permutation (filter (fun a => last a 0 =? 0) (destandardize (S n) la)) (map (fun a => a ++ [0]) (destandardize n la)).
  Proof.
    intros n la Fl Dl. destruct (destandardize_spec (S n) la Fl Dl) as [N1 M1]. destruct (destandardize_spec n la Fl Dl) as [N2 M2]. apply NoDup_Permutation.
    - apply NoDup_filter. assumption.
    - apply NoDup_map_inj_in; [|assumption]. intros x y _ _ E. apply app_inj_tail in E. apply E.
    - intro a. rewrite filter_In, in_map_iff, M1. split.
      + intros [A E]. apply Z.eqb_eq in E. destruct (exists_last (l := a)) as (q & x & ->); [intros ->; destruct A as [A _]; discriminate|]. rewrite last_last in E. subst x.
        exists q. split; [reflexivity|]. apply M2. apply arr_snoc. assumption.
      + intros (q & <- & Hq). apply M2 in Hq. split; [apply arr_snoc; assumption|]. rewrite last_last. reflexivity.
  Qed.

  Lemma pc_snoc : forall n e, length e = n -> pc (S n) mu nu (e ++ [0]) = pc n mu nu e.
  Proof.
    intros n e Le. unfold pc. destruct (destandardize_spec (S n) mu Fm Dm) as [_ M1]. destruct (destandardize_spec (S n) nu Fn Dn) as [_ M2].
    destruct (destandardize_spec n mu Fm Dm) as [_ M3]. destruct (destandardize_spec n nu Fn Dn) as [_ M4].
    assert (Z0 : forall a b, arr (S n) mu a -> arr (S n) nu b -> (last a 0 =? 0) = false \/ (last b 0 =? 0) = false -> ind (zlist_eqb (vplus a b) (e ++ [0])) = 0).
    { intros a b Ha Hb H. destruct (zlist_eqb (vplus a b) (e ++ [0])) eqn:E; [|reflexivity]. exfalso. apply zlist_eqb_eq in E.
      pose proof (arr_nonneg _ _ _ Fm Ha) as Na. pose proof (arr_nonneg _ _ _ Fn Hb) as Nb. destruct Ha as [La _]. destruct Hb as [Lb _].
      destruct (exists_last (l := a)) as (a' & x & ->); [intros ->; discriminate|]. destruct (exists_last (l := b)) as (b' & y & ->); [intros ->; discriminate|].
      rewrite !last_last in H. rewrite app_length in La, Lb. cbn [length] in La, Lb. rewrite vplus_app in E by lia. cbn [vplus combine map] in E. apply app_inj_tail in E. destruct E as [_ E]. cbn [fst snd] in E.
      apply Forall_app in Na. apply Forall_app in Nb. destruct Na as [_ Na]. destruct Nb as [_ Nb]. inversion Na; subst. inversion Nb; subst. destruct H as [H|H]; apply Z.eqb_neq in H; lia. }
    rewrite (zs_filter _ _ (fun a => last a 0 =? 0)).
    2: { intros a Ha E. apply zs_zero. intros b Hb. apply Z0; [apply M1; assumption|apply M2; assumption|left; assumption]. }
    rewrite (zs_perm _ _ _ _ (dest_snoc n mu Fm Dm)), zs_map. apply zs_ext. intros a Ha. apply M3 in Ha.
    rewrite (zs_filter _ _ (fun b => last b 0 =? 0)).
    2: { intros b Hb E. apply Z0; [apply arr_snoc; assumption|apply M2; assumption|right; assumption]. }
    rewrite (zs_perm _ _ _ _ (dest_snoc n nu Fn Dn)), zs_map. apply zs_ext. intros b Hb. apply M4 in Hb. destruct Ha as [La _]. destruct Hb as [Lb _].
    rewrite vplus_app by lia. cbn [vplus combine map]. f_equal. apply eq_true_iff_eq. rewrite !zlist_eqb_eq. split; [intro E; apply app_inj_tail in E; apply E|intros ->; reflexivity].
  Qed.

  Lemma pc_pad : forall n k e, length e = n -> pc (n + k) mu nu (e ++ repeat 0 k) = pc n mu nu e.
  Proof.
    intros n k e Le. induction k as [|k IH]; [cbn [repeat]; rewrite app_nil_r, Nat.add_0_r; reflexivity|].
    replace (repeat 0 (S k)) with (repeat 0 k ++ [0]) by (symmetry; apply repeat_cons). rewrite app_assoc, Nat.add_succ_r, pc_snoc; [assumption|]. rewrite app_length, repeat_length. lia.
  Qed.

  Lemma pc_many : forall n e, (length mu + length nu < length (filter nz e))%nat -> pc n mu nu e = 0.
  Proof.
    intros n e H. unfold pc. destruct (destandardize_spec n mu Fm Dm) as [_ M1]. destruct (destandardize_spec n nu Fn Dn) as [_ M2].
    apply zs_zero. intros a Ha. apply zs_zero. intros b Hb. apply M1 in Ha. apply M2 in Hb. destruct Ha as [La Pa]. destruct Hb as [Lb Pb].
    destruct (zlist_eqb (vplus a b) e) eqn:E; [|reflexivity]. apply zlist_eqb_eq in E. subst e. pose proof (vplus_nz a b ltac:(lia)). rewrite (Permutation_length Pa), (Permutation_length Pb) in H0. lia.
  Qed.

  (* the dictionary built by _multiply *)
  Definition mdict (n : nat) : cdict :=
    fold_left (fun ans alpha => fold_left (fun ans blpha =>
       let gamma := vplus alpha blpha in if is_partition gamma then cincr ans (trim gamma) 1 else ans) (destandardize n nu) ans) (destandardize n mu) [].

  Lemma trim_length : forall l, (length (trim l) <= length l)%nat.
  Proof.
    intro l. unfold trim. rewrite rev_length. rewrite <- (rev_length l). generalize (rev l). intro m. induction m as [|a m IH]; [reflexivity|]. cbn [dropz length]. destruct (a =? 0); cbn [length]; lia.
  Qed.

  Lemma dict_loop : forall n (l : list (list Z)) ans (F : list Z -> list Z), (forall x, In x l -> length (F x) = n) -> good n ans ->
    let r := fold_left (fun ans x => let gamma := F x in if is_partition gamma then cincr ans (trim gamma) 1 else ans) l ans in
    good n r /\ forall k, cget r k = cget ans k + zs (fun x => ind (is_partition (F x) && zlist_eqb (trim (F x)) k)) l.
  Proof.
    intros n l ans F. revert ans. induction l as [|x l IH]; intros ans H G; cbn [fold_left]; [split; [assumption|]; intro k; rewrite zs_nil; lia|].
    assert (H' : forall y, In y l -> length (F y) = n) by (intros; apply H; right; assumption). destruct (is_partition (F x)) eqn:E.
    - assert (G' : good n (cincr ans (trim (F x)) 1)).
      { apply good_cincr; [assumption| | |lia]; [apply weak_trim_partition, is_partition_weak; assumption|]. rewrite <- (H x (or_introl eq_refl)). apply trim_length. }
      destruct (IH _ H' G') as [G2 H2]. split; [exact G2|]. intro k. rewrite H2, cget_cincr, zs_cons, E. cbn [andb]. unfold ind at 2. destruct (zlist_eqb (trim (F x)) k); lia.
    - destruct (IH _ H' G) as [G2 H2]. split; [exact G2|]. intro k. rewrite H2, zs_cons, E. cbn [andb ind]. lia.
  Qed.

  Lemma good_nil' : forall n, good n [].
  Proof. intro n. split; [constructor|intros p c []]. Qed.

  Lemma mdict_loop : forall n, good n (mdict n) /\
    forall k, cget (mdict n) k = zs (fun a => zs (fun b => ind (is_partition (vplus a b) && zlist_eqb (trim (vplus a b)) k)) (destandardize n nu)) (destandardize n mu).
  Proof.
    intro n. destruct (destandardize_spec n mu Fm Dm) as [_ M1]. destruct (destandardize_spec n nu Fn Dn) as [_ M2]. unfold mdict.
    assert (H : forall l, incl l (destandardize n mu) -> forall ans, good n ans ->
      let r := fold_left (fun ans alpha => fold_left (fun ans blpha => let gamma := vplus alpha blpha in if is_partition gamma then cincr ans (trim gamma) 1 else ans) (destandardize n nu) ans) l ans in
      good n r /\ forall k, cget r k = cget ans k + zs (fun a => zs (fun b => ind (is_partition (vplus a b) && zlist_eqb (trim (vplus a b)) k)) (destandardize n nu)) l).
    { induction l as [|a l IH]; intros Hi ans G; cbn [fold_left]; [split; [assumption|]; intro k; rewrite zs_nil; lia|].
      assert (Ha : arr n mu a) by (apply M1, Hi; left; reflexivity).
      destruct (dict_loop n (destandardize n nu) ans (fun b => vplus a b)) as [G1 H1]; [|assumption|].
      { intros b Hb. apply M2 in Hb. destruct Ha as [La _]. destruct Hb as [Lb _]. rewrite vplus_length; lia. }
      destruct (IH (fun x Hx => Hi x (or_intror Hx)) _ G1) as [G2 H2]. split; [exact G2|]. intro k. rewrite H2, H1, zs_cons. lia. }
    destruct (H _ (incl_refl _) [] (good_nil' n)) as [G1 H1]. split; [exact G1|]. intro k. rewrite H1. change (cget [] k) with 0. lia.
  Qed.

  Lemma trim_pad : forall l, trim l ++ repeat 0 (length l - length (trim l)) = l.
  Proof.
    induction l as [|a l IH]; [reflexivity|]. rewrite trim_cons. destruct (trim l) as [|b r] eqn:E.
    - cbn [length app] in IH. rewrite Nat.sub_0_r in IH. destruct (a =? 0) eqn:E0.
      + apply Z.eqb_eq in E0. subst. cbn [length app]. rewrite Nat.sub_0_r. cbn [repeat]. f_equal. exact IH.
      + cbn [length app]. rewrite Nat.sub_succ, Nat.sub_0_r. f_equal. exact IH.
    - cbn [length app] in *. f_equal. rewrite Nat.sub_succ. exact IH.
  Qed.
  Lemma row_pad : forall g k i, row (g ++ repeat 0 k) i = row g i.
  Proof.
    intros g k i. unfold row. destruct (Nat.lt_ge_cases i (length g)) as [H|H]; [apply app_nth1; assumption|]. rewrite app_nth2 by assumption. rewrite (nth_overflow g) by assumption.
    apply nth_repeat.
  Qed.
  Lemma pad_weak : forall g k, partition g -> weak_partition (g ++ repeat 0 k).
  Proof.
    intros g k [F D]. split.
    - apply Forall_app. split; [apply pos_nonneg; assumption|]. apply Forall_forall. intros x Hx. apply repeat_spec in Hx. lia.
    - intro i. rewrite !row_pad. apply D.
  Qed.

  Lemma mdict_get : forall n g, partition g -> (length g <= n)%nat -> cget (mdict n) g = pc n mu nu (g ++ repeat 0 (n - length g)).
  Proof.
    intros n g Pg Lg. rewrite (proj2 (mdict_loop n)). unfold pc. destruct (destandardize_spec n mu Fm Dm) as [_ M1]. destruct (destandardize_spec n nu Fn Dn) as [_ M2].
    apply zs_ext. intros a Ha. apply zs_ext. intros b Hb. apply M1 in Ha. apply M2 in Hb. destruct Ha as [La _]. destruct Hb as [Lb _]. f_equal.
    assert (L : length (vplus a b) = n) by (rewrite vplus_length; lia). apply eq_true_iff_eq. rewrite andb_true_iff, !zlist_eqb_eq, is_partition_weak. split.
    - intros [W E]. rewrite <- (trim_pad (vplus a b)), E, L. reflexivity.
    - intros ->. split; [apply pad_weak; assumption|]. apply trimmed_ext; [apply trimmed_trim|apply partition_trimmed; assumption|]. intro i. rewrite trim_row, row_pad. reflexivity.
  Qed.

  (* the truncated product computes all coefficients *)
  Lemma mdict_full : forall N e, length e = N ->
    zs (fun gc => snd gc * zs (fun a => ind (zlist_eqb a e)) (destandardize N (fst gc))) (mdict (Nat.min N (length mu + length nu))) = pc N mu nu e.
  Proof.
    intros N e Le. set (n := Nat.min N (length mu + length nu)). destruct (mdict_loop n) as [[G0 G1] _].
    assert (Hin : forall gc, In gc (mdict n) -> zs (fun a => ind (zlist_eqb a e)) (destandardize N (fst gc)) = ind (zlist_eqb (psort (filter nz e) false) (fst gc)) * ind (forallb (fun x => 0 <=? x) e)).
    { intros [g c] Hg. cbn [fst]. destruct (G1 g c Hg) as (Pg & _ & _). apply partition_desc in Pg. destruct Pg as [Fg Dg]. destruct (destandardize_spec N g Fg Dg) as [Ng Mg].
      destruct (forallb (fun x => 0 <=? x) e) eqn:En; cbn [ind].
      - destruct (zlist_eqb (psort (filter nz e) false) g) eqn:E; cbn [ind].
        + apply zlist_eqb_eq in E. assert (He : In e (destandardize N g)). { apply Mg. split; [assumption|]. rewrite <- E. apply Permutation_sym, psort_perm. }
          apply in_split in He. destruct He as (l1 & l2 & He). rewrite He in *. rewrite zs_app, zs_cons, zlist_eqb_refl. cbn [ind].
          rewrite !zs_zero; [lia| |]; intros x Hx; (destruct (zlist_eqb x e) eqn:X; [|reflexivity]); apply zlist_eqb_eq in X; subst x; apply NoDup_remove_2 in Ng; exfalso; apply Ng; apply in_app_iff; auto.
        + apply zs_zero. intros x Hx. destruct (zlist_eqb x e) eqn:X; [|reflexivity]. apply zlist_eqb_eq in X. subst x. apply Mg in Hx. destruct Hx as [_ P]. exfalso.
          assert (psort (filter nz e) false = g). { apply desc_unique; [apply psort_sorted|assumption|]. eapply Permutation_trans; [apply psort_perm|assumption]. }
          rewrite H, zlist_eqb_refl in E. discriminate.
      - rewrite Z.mul_0_r. apply zs_zero. intros x Hx. destruct (zlist_eqb x e) eqn:X; [|reflexivity]. apply zlist_eqb_eq in X. subst x. apply Mg in Hx. apply (arr_nonneg _ _ _ Fg) in Hx. exfalso.
        assert (forallb (fun x => 0 <=? x) e = true); [|congruence]. apply forallb_forall. intros x Hx'. rewrite Forall_forall in Hx. apply Z.leb_le. auto. }
    destruct (forallb (fun x => 0 <=? x) e) eqn:En.
    2: { rewrite (zs_zero _ (fun gc => snd gc * _)).
      - symmetry. unfold pc. destruct (destandardize_spec N mu Fm Dm) as [_ M1]. destruct (destandardize_spec N nu Fn Dn) as [_ M2]. apply zs_zero. intros a Ha. apply zs_zero. intros b Hb.
        destruct (zlist_eqb (vplus a b) e) eqn:X; [|reflexivity]. apply zlist_eqb_eq in X. subst e. exfalso. assert (forallb (fun x => 0 <=? x) (vplus a b) = true); [|congruence].
        apply M1 in Ha. apply M2 in Hb. pose proof (arr_nonneg _ _ _ Fm Ha) as Na. pose proof (arr_nonneg _ _ _ Fn Hb) as Nb. rewrite Forall_forall in Na, Nb.
        apply forallb_forall. intros x Hx. apply Z.leb_le. unfold vplus in Hx. apply in_map_iff in Hx. destruct Hx as ([u v] & <- & Huv). cbn [fst snd]. specialize (Na u (in_combine_l _ _ _ _ Huv)). specialize (Nb v (in_combine_r _ _ _ _ Huv)). lia.
      - intros gc Hgc. rewrite (Hin gc Hgc). cbn [ind]. lia. }
    rewrite (zs_ext _ _ (fun gc => if zlist_eqb (fst gc) (psort (filter nz e) false) then snd gc else 0)).
    2: { intros gc Hgc. rewrite (Hin gc Hgc). cbn [ind]. replace (zlist_eqb (psort (filter nz e) false) (fst gc)) with (zlist_eqb (fst gc) (psort (filter nz e) false)).
         - destruct (zlist_eqb (fst gc) (psort (filter nz e) false)); cbn [ind]; lia.
         - apply eq_true_iff_eq. rewrite !zlist_eqb_eq. split; congruence. }
    rewrite (cget_sum (mdict n) _ G0). set (g := psort (filter nz e) false).
    assert (Pg : partition g).
    { apply partition_desc. split; [|apply psort_sorted]. apply Forall_forall. intros x Hx. apply (Permutation_in _ (psort_perm _)) in Hx. apply filter_In in Hx. destruct Hx as [Hx1 Hx2].
      rewrite forallb_forall in En. specialize (En x Hx1). apply Z.leb_le in En. unfold nz in Hx2. apply negb_true_iff, Z.eqb_neq in Hx2. lia. }
    assert (Lg : length g = length (filter nz e)) by (apply Permutation_length, psort_perm).
    assert (LgN : (length g <= N)%nat) by (rewrite Lg, <- Le; pose proof (filter_length_split nz e); lia).
    destruct (Nat.le_gt_cases (length g) n) as [C|C].
    - rewrite (mdict_get n g Pg C). rewrite <- (pc_pad n (N - n)) by (rewrite app_length, repeat_length; lia). rewrite <- app_assoc, <- repeat_app.
      replace (n + (N - n))%nat with N by lia. apply pc_perm; [rewrite app_length, repeat_length; lia|].
      apply Permutation_trans with (filter nz e ++ repeat 0 (n - length g + (N - n))); [apply Permutation_app_tail, psort_perm|].
      replace (n - length g + (N - n))%nat with (length (filter (fun x => negb (nz x)) e)).
      2: { assert (X : (length (filter nz e) + length (filter (fun x => negb (nz x)) e) = length e)%nat) by (apply filter_length_split). lia. }
      clear. induction e as [|x e IH]; [constructor|]. cbn [filter]. destruct (nz x) eqn:E; cbn [negb].
      + cbn [app]. constructor. assumption.
      + unfold nz in E. apply negb_false_iff, Z.eqb_eq in E. subst. cbn [length repeat]. apply Permutation_sym, Permutation_cons_app, Permutation_sym. assumption.
    - rewrite pc_many by (subst n; lia). unfold cget. destruct (dget zlist_eqb (mdict n) g) as [c|] eqn:X; [|reflexivity]. apply (dget_In zlist_eqb zlist_eqb_eq) in X. apply G1 in X. lia.
  Qed.
End Products.
