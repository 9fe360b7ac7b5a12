(* Lemmas for C38: SymmetricMonomial.polynomial as a sum over exponent vectors *)
From Coq Require Import List ZArith Lia Bool Permutation Sorted Arith InitialRing.
From Verif Require Import PyBase FinSum M_Partitions S_Partitions L_Partitions L_PartBasic L_PartEnum M_Polynomials L_Polynomials M_Semistandard M_Symmetric L_Count L_Count2 L_Destand L_Destand2.
Import ListNotations.
Local Open Scope Z_scope.

(* integration of a function of monomials against a polynomial *)
Definition ev (p : poly) (F : mono -> Z) : Z := lin 0 Z.add Z.mul p F.

Lemma ev_zs : forall p F, ev p F = zs (fun kv => snd kv * F (fst kv)) p.
Proof. intros p F. unfold ev, lin. induction p as [|a p IH]; [reflexivity|]. cbn [lsum]. rewrite zs_cons, IH. reflexivity. Qed.
Lemma ev_cons : forall a x p F, ev ((a, x) :: p) F = x * F a + ev p F.
Proof. reflexivity. Qed.
Lemma ev_get : forall p m, NoDup (map fst p) -> pget p m = ev p (fun k => ind (meqb k m)).
Proof.
  intros p m N. unfold pget, ev. rewrite (dget0_lin 0 1 Z.add Z.mul Z.sub Z.opp InitialRing.Zth meqb meqb_spec) by assumption. apply lin_F_ext. intros k _. reflexivity.
Qed.
Lemma ev_peq : forall p q, NoDup (map fst p) -> NoDup (map fst q) -> peq p q -> forall F, ev p F = ev q F.
Proof. intros p q Np Nq H F. apply (lin_ext_get 0 1 Z.add Z.mul Z.sub Z.opp InitialRing.Zth meqb meqb_spec); assumption. Qed.
Lemma peq_ev : forall p q, NoDup (map fst p) -> NoDup (map fst q) -> (forall F, ev p F = ev q F) -> peq p q.
Proof. intros p q Np Nq H m. rewrite !ev_get by assumption. apply H. Qed.
Lemma ev_ext : forall p F G, (forall m, F m = G m) -> ev p F = ev p G.
Proof. intros p F G H. apply lin_F_ext. intros k _. apply H. Qed.
Lemma ev_padd : forall p q F, pwf p -> pwf q -> ev (padd p q) F = ev p F + ev q F.
Proof.
  intros p q F Hp Hq. apply (lin_plus_get 0 1 Z.add Z.mul Z.sub Z.opp InitialRing.Zth meqb meqb_spec); [apply (padd_wf p q Hp Hq)|apply Hp|apply Hq|].
  intro k. apply padd_get; [apply Hp|apply Hq].
Qed.
Lemma ev_step : forall acc k c F, NoDup (map fst acc) -> ev (pmul_step acc k c) F = ev acc F + c * F k.
Proof.
  intros acc k c F N. rewrite pmul_step_put. unfold ev.
  rewrite (lin_plus_get 0 1 Z.add Z.mul Z.sub Z.opp InitialRing.Zth meqb meqb_spec (pput acc k (pget acc k + c)) acc [(k, c)] F).
  - unfold lin at 2. cbn [lsum fst snd]. lia.
  - apply pput_NoDup. assumption.
  - assumption.
  - repeat constructor. intros [].
  - intro m. change (pget (pput acc k (pget acc k + c)) m = pget acc m + pget [(k, c)] m). rewrite pput_get by assumption. unfold pget at 4, dget0. cbn [dget].
    destruct (meqb k m) eqn:E; [apply meqb_spec in E; subst; reflexivity|lia].
Qed.
Lemma step_NoDup : forall acc k c, NoDup (map fst acc) -> NoDup (map fst (pmul_step acc k c)).
Proof. intros acc k c N. rewrite pmul_step_put. apply pput_NoDup. assumption. Qed.
Lemma ev_pmul : forall p q F, NoDup (map fst p) -> NoDup (map fst q) -> ev (pmul p q) F = ev p (fun a => ev q (fun b => F (mmul a b))).
Proof.
  intros p q F Np Nq. unfold pmul.
  assert (I : forall a x l acc, NoDup (map fst acc) -> incl l q ->
     let r := fold_left (fun acc jy => pmul_step acc (mmul a (fst jy)) (x * pget q (fst jy))) l acc in
     NoDup (map fst r) /\ ev r F = ev acc F + x * ev l (fun b => F (mmul a b))).
  { intros a x. induction l as [|[b y] l IH]; intros acc N Hi; cbn [fold_left]; [split; [assumption|]; unfold ev at 3, lin; cbn [lsum]; lia|].
    destruct (IH (pmul_step acc (mmul a b) (x * pget q b))) as [N1 E1]; [apply step_NoDup; assumption|intros z Hz; apply Hi; right; assumption|]. split; [exact N1|].
    cbn [fst]. rewrite E1, ev_step by assumption. rewrite (pget_In q b y Nq (Hi _ (or_introl eq_refl))). rewrite ev_cons. lia. }
  assert (O : forall l acc, NoDup (map fst acc) -> incl l p ->
     let r := fold_left (fun acc ix => fold_left (fun acc jy => pmul_step acc (mmul (fst ix) (fst jy)) (pget p (fst ix) * pget q (fst jy))) q acc) l acc in
     NoDup (map fst r) /\ ev r F = ev acc F + ev l (fun a => ev q (fun b => F (mmul a b)))).
  { induction l as [|[a x] l IH]; intros acc N Hi; cbn [fold_left]; [split; [assumption|]; unfold ev at 3, lin; cbn [lsum]; lia|].
    destruct (I a (pget p a) q acc N (incl_refl _)) as [N0 E0]. destruct (IH _ N0) as [N1 E1]; [intros z Hz; apply Hi; right; assumption|]. split; [exact N1|].
    cbn [fst] in *. rewrite E1, E0. rewrite (pget_In p a x Np (Hi _ (or_introl eq_refl))). rewrite ev_cons. lia. }
  destruct (O p [] (NoDup_nil _) (incl_refl _)) as [_ E]. exact E.
Qed.

Lemma pwf_one : forall m, mwf m -> pwf [(m, 1)].
Proof. intros m H. split; [repeat constructor; intros []|]. split; repeat constructor; [apply H|apply H|]. cbn [snd]. lia. Qed.
Lemma meqb_refl : forall m, meqb m m = true.
Proof. intro m. apply meqb_spec. reflexivity. Qed.
Lemma pmul_single : forall a b, pmul [(a, 1)] [(b, 1)] = [(mmul a b, 1)].
Proof. intros a b. unfold pmul, pmul_step, pget, dget0. cbn [fold_left fst dget dset]. rewrite !meqb_refl. reflexivity. Qed.
Lemma ev_single : forall m F, ev [(m, 1)] F = F m.
Proof. intros m F. rewrite ev_zs, zs_cons, zs_nil. cbn [fst snd]. lia. Qed.

Lemma ppow_single : forall a k, mwf a -> exists m, ppow_nat [(a, 1)] k = [(m, 1)] /\ mwf m /\ forall t, mget m t = Z.of_nat k * mget a t.
Proof.
  intros a k Ha. induction k as [|k (m & E & W & H)].
  - exists []. split; [reflexivity|]. split; [split; constructor|]. intro t. reflexivity.
  - exists (mmul a m). cbn [ppow_nat]. rewrite E, pmul_single. split; [reflexivity|]. split; [apply mmul_wf|]. intro t. rewrite mget_mmul, H. lia.
Qed.

(* the monomial with exponent list l over (index, exponent) *)
Definition smon (isx : bool) (l : list (Z * Z)) : mono := fold_right (fun ia m => mmul m [(svar isx (fst ia), snd ia)]) [] l.
Lemma smon_wf : forall isx l, mwf (smon isx l).
Proof. intros isx [|ia l]; [split; constructor|apply mmul_wf]. Qed.
Lemma smon_get : forall isx l t, mget (smon isx l) t = zs (fun ia => if svar isx (fst ia) =? t then snd ia else 0) l.
Proof.
  intros isx. induction l as [|[i a] l IH]; intro t; [reflexivity|]. cbn [smon fold_right]. fold (smon isx l). rewrite mget_mmul, IH, zs_cons. cbn [fst snd].
  rewrite mget_cons. change (mget [] t) with 0. lia.
Qed.

Lemma sterm_ok : forall isx index alpha, Forall (fun a => 0 < a) alpha -> sterm isx index alpha = Ok [(smon isx (combine index alpha), 1)].
Proof.
  intros isx index alpha Fa. unfold sterm.
  assert (G : forall l m0, mwf m0 -> Forall (fun ia => 0 < snd ia) l -> exists m, rfold (fun term ia => match ppow (pmonomial (svar isx (fst ia)) 1) (snd ia) with Some q => Ok (pmul term q) | None => Err TypeError end) l [(m0, 1)] = Ok [(m, 1)] /\
     mwf m /\ forall t, mget m t = mget m0 t + mget (smon isx l) t).
  { induction l as [|[i a] l IH]; intros m0 W F; cbn [rfold].
    - exists m0. split; [reflexivity|]. split; [assumption|]. intro t. change (mget (smon isx []) t) with 0. lia.
    - inversion F as [|? ? F1 F2]; subst. cbn [fst snd] in *. unfold ppow at 1. replace (a =? 0) with false by (symmetry; apply Z.eqb_neq; lia). replace (a <? 0) with false by (symmetry; apply Z.ltb_ge; lia). cbv iota.
      assert (W1 : mwf [(svar isx i, 1)]) by (split; [repeat constructor|repeat constructor; cbn [snd]; lia]).
      destruct (ppow_single [(svar isx i, 1)] (Z.to_nat a) W1) as (m1 & E1 & W2 & H1). change (ppow_nat (pmonomial (svar isx i) 1) (Z.to_nat a) = [(m1, 1)]) in E1. rewrite E1, pmul_single. cbn [rbind].
      destruct (IH (mmul m0 m1)) as (m & E & Wm & H); [apply mmul_wf|assumption|]. exists m. split; [assumption|]. split; [assumption|].
      intro t. rewrite H, mget_mmul, H1, !smon_get, zs_cons. cbn [fst snd]. rewrite mget_cons. change (mget [] t) with 0. rewrite Z2Nat.id by lia. destruct (svar isx i =? t); lia. }
  destruct (G (combine index alpha) []) as (m & E & W & H); [split; constructor| |].
  - apply Forall_forall. intros [i a] Hia. cbn [snd]. rewrite Forall_forall in Fa. apply Fa. eapply in_combine_r. exact Hia.
  - change pone with [([] : mono, 1)]. rewrite E. f_equal. f_equal. f_equal. apply mwf_ext; [assumption|apply smon_wf|]. intro t. rewrite H. change (mget [] t) with 0. lia.
Qed.

(* exponent vectors *)
Definition vmon (isx : bool) (e : list Z) : mono := smon isx (combine (zrange 1 (Z.of_nat (length e) + 1)) e).
Definition vecof (l index alpha : list Z) : list Z := map (fun i => mget (combine index alpha) i) l.
Definition sel (l e : list Z) : list Z := map fst (filter (fun ie => nz (snd ie)) (combine l e)).

Lemma mget_combine_notin : forall index alpha i, ~ In i index -> mget (combine index alpha) i = 0.
Proof.
  intros index alpha i H. apply mget_notin. intro X. apply H. apply in_map_iff in X. destruct X as ([u v] & <- & X). eapply in_combine_l. exact X.
Qed.

Lemma vec_sel : forall l index alpha, NoDup l -> In index (combinations l (length alpha)) -> Forall (fun a => 0 < a) alpha ->
  filter nz (vecof l index alpha) = alpha /\ sel l (vecof l index alpha) = index.
Proof.
  induction l as [|a l IH]; intros index alpha N H F.
  - destruct alpha as [|x alpha]; cbn [length combinations] in H; [|destruct H]. destruct H as [<-|[]]. split; reflexivity.
  - inversion N as [|? ? N1 N2]; subst. destruct alpha as [|x alpha].
    + cbn [length combinations] in H. destruct H as [<-|[]]. unfold sel. assert (E : forall l, vecof l [] [] = repeat 0 (length l)) by (induction l0 as [|b l0 IHl]; [reflexivity|]; cbn [vecof map repeat length]; f_equal; exact IHl).
      rewrite E. split; [apply filter_nz_nil; rewrite repeat_length; reflexivity|]. clear. generalize (a :: l). intro m. induction m as [|b m IHm]; [reflexivity|]. cbn [length repeat combine filter snd]. exact IHm.
    + cbn [length combinations] in H. inversion F as [|? ? F1 F2]; subst. apply in_app_iff in H. destruct H as [H|H].
      * apply in_map_iff in H. destruct H as (idx & <- & H). destruct (IH idx alpha N2 H F2) as [I1 I2].
        assert (E : vecof (a :: l) (a :: idx) (x :: alpha) = x :: vecof l idx alpha).
        { unfold vecof. cbn [map combine]. rewrite mget_cons, Z.eqb_refl. f_equal. apply map_ext_in. intros i Hi. rewrite mget_cons. replace (a =? i) with false; [reflexivity|]. symmetry. apply Z.eqb_neq. intros ->. contradiction. }
        rewrite E. unfold sel in *. cbn [combine filter snd]. assert (Nx : nz x = true) by (unfold nz; apply negb_true_iff, Z.eqb_neq; lia). rewrite Nx. cbn [map fst]. rewrite I1, I2. split; reflexivity.
      * destruct (IH index (x :: alpha) N2 H F) as [I1 I2]. assert (Na : ~ In a index) by (intro X; apply N1; apply (combinations_In _ _ _ _ H); assumption).
        assert (E : vecof (a :: l) index (x :: alpha) = 0 :: vecof l index (x :: alpha)) by (unfold vecof; cbn [map]; f_equal; apply mget_combine_notin; assumption).
        rewrite E. unfold sel in *. cbn [combine filter snd]. change (nz 0) with false. cbv iota. rewrite I1, I2. split; reflexivity.
Qed.
Lemma sel_vec : forall l e, NoDup l -> length e = length l ->
  In (sel l e) (combinations l (length (filter nz e))) /\ vecof l (sel l e) (filter nz e) = e.
Proof.
  induction l as [|a l IH]; intros e N L; destruct e as [|x e]; try discriminate; [split; [left; reflexivity|reflexivity]|].
  inversion N as [|? ? N1 N2]; subst. cbn [length] in L. destruct (IH e N2 ltac:(lia)) as [I1 I2]. unfold sel in *. cbn [combine filter snd]. destruct (nz x) eqn:E.
  - cbn [length map fst combinations]. split; [apply in_app_iff; left; apply in_map; assumption|].
    unfold vecof in *. cbn [map combine]. rewrite mget_cons, Z.eqb_refl. f_equal. etransitivity; [|exact I2]. apply map_ext_in. intros i Hi. rewrite mget_cons. replace (a =? i) with false; [reflexivity|]. symmetry. apply Z.eqb_neq. intros ->. contradiction.
  - unfold nz in E. apply negb_false_iff, Z.eqb_eq in E. subst x. assert (Na : ~ In a (map fst (filter (fun ie => nz (snd ie)) (combine l e)))).
    { intro X. apply N1. apply (combinations_In _ _ _ _ I1). assumption. }
    split.
    + destruct (length (filter nz e)) eqn:El; [|cbn [combinations]; apply in_app_iff; right; assumption]. destruct l; cbn [combinations] in *; assumption.
    + unfold vecof in *. cbn [map]. rewrite mget_combine_notin by assumption. f_equal. assumption.
Qed.

(* permutations *)
Lemma perms_spec : forall (l a : list Z) n, length l = n -> (In a (perms_fuel n l) <-> Permutation a l).
Proof.
  intros l a n. revert l a. induction n as [|n IH]; intros l a L; cbn [perms_fuel].
  - destruct l; [|discriminate]. split; [intros [<-|[]]; constructor|]. intro P. apply Permutation_sym, Permutation_nil in P. left. auto.
  - rewrite in_flat_map. split.
    + intros (i & Hi & H). apply in_seq in Hi. destruct (nth_error l i) as [x|] eqn:E; [|destruct H]. apply in_map_iff in H. destruct H as (b & <- & Hb).
      apply nth_error_nth with (d := 0) in E. pose proof (split_at l i ltac:(lia)) as Sp. rewrite E in Sp. apply IH in Hb; [|rewrite Sp in L; rewrite app_length in *; cbn [length] in L; lia].
      rewrite Sp. apply Permutation_cons_app. assumption.
    + intro P. destruct a as [|x a]; [apply Permutation_nil in P; subst; discriminate|]. assert (Hx : In x l) by (eapply Permutation_in; [exact P|left; reflexivity]).
      destruct (first_split x l Hx) as (l1 & l2 & E & _). subst l. exists (length l1). rewrite app_length in L. cbn [length] in L. split; [apply in_seq; rewrite app_length; cbn [length]; lia|].
      rewrite nth_error_app2, Nat.sub_diag by lia. cbn [nth_error]. rewrite remove_nth_split. apply in_map. apply IH; [rewrite app_length; lia|]. eapply Permutation_cons_app_inv. exact P.
Qed.
Lemma permutations_In : forall (l a : list Z), In a (permutations l) <-> Permutation a l.
Proof. intros l a. apply perms_spec. reflexivity. Qed.

Lemma zrange_NoDup : forall a b, NoDup (zrange a b).
Proof.
  intros a b. unfold zrange. apply NoDup_map_inj_in; [|apply seq_NoDup]. intros x y _ _ E. lia.
Qed.
Lemma zrange_length1 : forall n, length (zrange 1 (Z.of_nat n + 1)) = n.
Proof. intro n. unfold zrange. rewrite map_length, seq_length. lia. Qed.

Section Order.
  Variable ord : list (list Z) -> list (list Z).
  Hypothesis ord_perm : forall l, Permutation (ord l) l.

  Definition pairs (n : nat) (mu : list Z) : list (list Z * list Z) :=
    flat_map (fun alpha => map (pair alpha) (combinations (zrange 1 (Z.of_nat n + 1)) (length alpha))) (ord (dedup zlist_eqb (permutations mu))).

  Lemma perm_set : forall mu, NoDup (ord (dedup zlist_eqb (permutations mu))) /\ forall a, In a (ord (dedup zlist_eqb (permutations mu))) <-> Permutation a mu.
  Proof.
    intro mu. split.
    - eapply Permutation_NoDup; [apply Permutation_sym, ord_perm|]. apply (dedup_NoDup zlist_eqb zlist_eqb_eq).
    - intro a. rewrite <- permutations_In, <- (dedup_In zlist_eqb zlist_eqb_eq (permutations mu) a). split; apply Permutation_in; [apply ord_perm|apply Permutation_sym, ord_perm].
  Qed.

  Lemma pairs_dest : forall n mu, partition mu ->
    Permutation (map (fun ai => vecof (zrange 1 (Z.of_nat n + 1)) (snd ai) (fst ai)) (pairs n mu)) (destandardize n mu).
  Proof.
    intros n mu Pm. apply partition_desc in Pm. destruct Pm as [Fm Dm]. destruct (destandardize_spec n mu Fm Dm) as [N M]. destruct (perm_set mu) as [Np Mp].
    pose proof (zrange_NoDup 1 (Z.of_nat n + 1)) as Nl. set (l := zrange 1 (Z.of_nat n + 1)) in *.
    assert (Hp : forall alpha index, In (alpha, index) (pairs n mu) <-> Permutation alpha mu /\ In index (combinations l (length alpha))).
    { intros alpha index. unfold pairs. rewrite in_flat_map. split.
      - intros (a & Ha & H). apply in_map_iff in H. destruct H as (i & E & Hi). injection E as -> ->. apply Mp in Ha. split; assumption.
      - intros [P Hi]. exists alpha. split; [apply Mp; assumption|]. apply in_map. assumption. }
    assert (Hpos : forall alpha, Permutation alpha mu -> Forall (fun a => 0 < a) alpha).
    { intros alpha P. apply Forall_forall. intros x Hx. rewrite Forall_forall in Fm. apply Fm. eapply Permutation_in; eassumption. }
    apply NoDup_Permutation; [|assumption|].
    - apply NoDup_map_inj_in.
      + intros [a1 i1] [a2 i2] H1 H2 E. cbn [fst snd] in E. apply Hp in H1. apply Hp in H2. destruct H1 as [P1 I1]. destruct H2 as [P2 I2].
        destruct (vec_sel l i1 a1 Nl I1 (Hpos _ P1)) as [X1 Y1]. destruct (vec_sel l i2 a2 Nl I2 (Hpos _ P2)) as [X2 Y2]. rewrite E in X1, Y1. congruence.
      + unfold pairs. apply NoDup_flat_map; [assumption| |].
        * intros a _. apply NoDup_map_inj_in; [intros x y _ _ E; injection E; auto|]. apply combinations_NoDup. assumption.
        * intros a b [x y] _ _ Ha Hb. apply in_map_iff in Ha. apply in_map_iff in Hb. destruct Ha as (? & E1 & _). destruct Hb as (? & E2 & _). congruence.
    - intro e. rewrite in_map_iff, M. split.
      + intros ([a i] & <- & H). cbn [fst snd]. apply Hp in H. destruct H as [P I]. destruct (vec_sel l i a Nl I (Hpos _ P)) as [X Y]. split; [unfold vecof; rewrite map_length; apply zrange_length1|]. rewrite X. assumption.
      + intros [L P]. assert (L' : length e = length l) by (rewrite L; symmetry; apply zrange_length1). destruct (sel_vec l e Nl L') as [X Y]. exists (filter nz e, sel l e). cbn [fst snd]. split; [assumption|]. apply Hp. split; assumption.
  Qed.

  Lemma zs_delta : forall l (i : Z) (g : Z -> Z), NoDup l -> In i l -> zs (fun j => if j =? i then g j else 0) l = g i.
  Proof.
    induction l as [|a l IH]; intros i g N H; [destruct H|]. inversion N as [|? ? N1 N2]; subst. rewrite zs_cons. destruct H as [->|H].
    - rewrite Z.eqb_refl, zs_zero; [lia|]. intros x Hx. replace (x =? i) with false; [reflexivity|]. symmetry. apply Z.eqb_neq. intros ->. contradiction.
    - replace (a =? i) with false by (symmetry; apply Z.eqb_neq; intros ->; contradiction). rewrite IH by assumption. lia.
  Qed.

  Lemma svar_inj : forall isx i j, svar isx i = svar isx j -> i = j.
  Proof. intros [|] i j H; cbn [svar] in H; lia. Qed.

  Lemma zs_combine_map : forall (l : list Z) (f : Z -> Z) (g : Z * Z -> Z), zs g (combine l (map f l)) = zs (fun i => g (i, f i)) l.
  Proof. induction l as [|a l IH]; intros f g; [reflexivity|]. cbn [map combine]. rewrite !zs_cons, IH. reflexivity. Qed.

  Lemma smon_vmon : forall isx n index alpha, In index (combinations (zrange 1 (Z.of_nat n + 1)) (length alpha)) ->
    smon isx (combine index alpha) = vmon isx (vecof (zrange 1 (Z.of_nat n + 1)) index alpha).
  Proof.
    intros isx n index alpha H. apply mwf_ext; [apply smon_wf|apply smon_wf|]. intro t. unfold vmon. rewrite !smon_get.
    set (l := zrange 1 (Z.of_nat n + 1)) in *. assert (L : length (vecof l index alpha) = n) by (unfold vecof; rewrite map_length; apply zrange_length1). rewrite L. fold l.
    unfold vecof. rewrite zs_combine_map. cbn [fst snd].
    assert (Nl : NoDup l) by apply zrange_NoDup. clearbody l.
    assert (G : forall idx al, NoDup idx -> incl idx l -> length idx = length al -> zs (fun ia => if svar isx (fst ia) =? t then snd ia else 0) (combine idx al) = zs (fun i => if svar isx i =? t then mget (combine idx al) i else 0) l).
    { induction idx as [|i idx IH]; intros al Nd Hi Le.
      - symmetry. apply zs_zero. intros x _. destruct (svar isx x =? t); reflexivity.
      - destruct al as [|x al]; [discriminate|]. cbn [combine]. inversion Nd as [|? ? N1 N2]; subst. rewrite zs_cons. cbn [fst snd]. rewrite IH; [|assumption|intros y Hy; apply Hi; right; assumption|cbn [length] in Le; lia].
        rewrite <- (zs_delta l i (fun j => if svar isx j =? t then x else 0)) by (auto; apply Hi; left; reflexivity). rewrite <- zs_plus. apply zs_ext. intros j Hj. rewrite mget_cons.
        rewrite (Z.eqb_sym i j). destruct (j =? i) eqn:E; [|lia]. apply Z.eqb_eq in E. subst j. destruct (svar isx i =? t); [|lia]. rewrite mget_combine_notin by assumption. lia. }
    pose proof (combinations_In _ _ _ _ H) as [Hl Hi]. apply G; [|assumption|assumption].
    assert (C : forall (l0 : list Z) k s, NoDup l0 -> In s (combinations l0 k) -> NoDup s).
    { induction l0 as [|a l0 IH]; intros k s Nd Hs; destruct k as [|k]; cbn [combinations] in Hs.
      - destruct Hs as [<-|[]]. constructor.
      - destruct Hs.
      - destruct Hs as [<-|[]]. constructor.
      - inversion Nd as [|? ? N1 N2]; subst. apply in_app_iff in Hs. destruct Hs as [Hs|Hs]; [|eapply IH; eassumption]. apply in_map_iff in Hs. destruct Hs as (s' & <- & Hs). constructor; [|eapply IH; eassumption].
        intro X. apply N1. apply (combinations_In _ _ _ _ Hs). assumption. }
    eapply C; eassumption.
  Qed.

  Lemma rfold_padd : forall A (f : A -> res poly) (g : A -> mono) l ans, pwf ans -> (forall x, In x l -> f x = Ok [(g x, 1)] /\ mwf (g x)) ->
    exists r, rfold (fun ans x => do t <- f x; Ok (padd ans t)) l ans = Ok r /\ pwf r /\ forall F, ev r F = ev ans F + zs (fun x => F (g x)) l.
  Proof.
    intros A f g. induction l as [|x l IH]; intros ans W H; cbn [rfold]; [exists ans; split; [reflexivity|]; split; [assumption|]; intro F; rewrite zs_nil; lia|].
    destruct (H x (or_introl eq_refl)) as [E Wx]. rewrite E. cbn [rbind]. assert (W1 : pwf [(g x, 1)]) by (apply pwf_one; assumption).
    destruct (IH (padd ans [(g x, 1)])) as (r & Er & Wr & Hr); [apply padd_wf; assumption|intros; apply H; right; assumption|]. exists r. split; [assumption|]. split; [assumption|].
    intro F. rewrite Hr, ev_padd, ev_single, zs_cons by assumption. lia.
  Qed.

  Lemma mpolynomial_ok : forall isx n mu, partition mu -> exists p, mpolynomial ord isx (n, mu) = Ok p /\ pwf p /\
    forall F, ev p F = zs (fun e => F (vmon isx e)) (destandardize n mu).
  Proof.
    intros isx n mu Pm. unfold mpolynomial. cbn [fst snd]. set (l := zrange 1 (Z.of_nat n + 1)).
    assert (G : forall A ans, pwf ans -> (forall a, In a A -> Forall (fun x => 0 < x) a) ->
      exists r, rfold (fun ans alpha => rfold (fun ans index => do term <- sterm isx index alpha; Ok (padd ans term)) (combinations l (length alpha)) ans) A ans = Ok r /\ pwf r /\
        forall F, ev r F = ev ans F + zs (fun ai => F (smon isx (combine (snd ai) (fst ai)))) (flat_map (fun alpha => map (pair alpha) (combinations l (length alpha))) A)).
    { induction A as [|a A IH]; intros ans W HA; cbn [rfold flat_map]; [exists ans; split; [reflexivity|]; split; [assumption|]; intro F; rewrite zs_nil; lia|].
      destruct (rfold_padd (list Z) (fun index => sterm isx index a) (fun index => smon isx (combine index a)) (combinations l (length a)) ans W) as (r1 & E1 & W1 & H1).
      { intros x _. split; [apply sterm_ok, HA; left; reflexivity|apply smon_wf]. }
      rewrite E1. cbn [rbind]. destruct (IH r1 W1) as (r & E & Wr & H); [intros; apply HA; right; assumption|]. exists r. split; [assumption|]. split; [assumption|].
      intro F. rewrite H, H1, zs_app, zs_map. cbn [fst snd]. lia. }
    destruct (perm_set mu) as [Np Mp]. pose proof Pm as [Fm _].
    destruct (G (ord (dedup zlist_eqb (permutations mu))) []) as (r & E & W & H).
    - split; [constructor|split; constructor].
    - intros a Ha. apply Mp in Ha. apply Forall_forall. intros x Hx. rewrite Forall_forall in Fm. apply Fm. eapply Permutation_in; eassumption.
    - exists r. split; [exact E|]. split; [assumption|]. intro F. rewrite H. fold (pairs n mu). change (ev [] F) with 0. rewrite Z.add_0_l.
      rewrite <- (zs_perm _ _ _ _ (pairs_dest n mu Pm)), zs_map. apply zs_ext. intros [a i] Hai. cbn [fst snd]. rewrite <- smon_vmon; [reflexivity|].
      unfold pairs in Hai. apply in_flat_map in Hai. destruct Hai as (a' & _ & X). apply in_map_iff in X. destruct X as (i' & Ei & Hi). injection Ei as -> ->. assumption.
  Qed.
End Order.
