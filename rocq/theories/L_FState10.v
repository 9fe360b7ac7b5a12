(* Popping a signed recording tableau; one round of the inverse; standardising signed recordings *)
From Coq Require Import List ZArith Bool Lia Sorted Permutation.
From Verif Require L_Perm.
From Verif Require Import PyBase M_Partitions L_PartMore M_Tableaux S_Tableaux L_Tableaux M_Insertion M_FState L_Insertion1 L_Insertion2 L_Insertion3 L_Insertion4 L_Insertion6 L_Insertion7 L_FState1 L_FState2 L_FState3 L_FState4 L_FState5 L_FState6 L_FState7 L_FState8 L_FState9.
Import ListNotations.
Local Open Scope Z_scope.

Lemma filter_permz : forall (p : Z -> bool) a b, Permutation a b -> Permutation (filter p a) (filter p b).
Proof.
  intros p a b H. induction H as [|x l m H IH|x y l|l m n H1 IH1 H2 IH2]; cbn [filter].
  - constructor.
  - destruct (p x); [constructor|]; exact IH.
  - destruct (p y), (p x); try apply Permutation_refl. apply perm_swap.
  - eapply Permutation_trans; eassumption.
Qed.
Lemma NoDup_of_abs : forall l, NoDup (map Z.abs l) -> NoDup l.
Proof. intros l H. apply (NoDup_map_inv Z.abs). exact H. Qed.
Lemma FQ_NoDup : forall L q k c l, FQ L q k -> tlookup q c = Some l -> NoDup (map Z.abs l).
Proof.
  intros L q k c l (_ & _ & _ & _ & P & _) E. pose proof (Permutation_map Z.abs (flat_tdel c q l E)) as P2. rewrite map_app in P2. apply (NoDup_app_l _ _ (map Z.abs (flat_map snd (tdel c q)))).
  apply (Permutation_NoDup P2). apply (Permutation_NoDup (Permutation_sym P)). apply NoDup_zrange.
Qed.
Lemma fsign_abs : forall neg k, 0 <= k -> Z.abs (fsign neg k) = k + 1.
Proof. intros neg k H. unfold fsign. destruct neg; lia. Qed.

(* the signed last value of a list *)
Lemma last_signed : forall (l : list Z) neg k, 0 <= k -> In (fsign neg k) l -> (forall x, In x l -> x = fsign neg k \/ Z.abs x <= k) ->
  existsb (Z.eqb (k + 1)) l = negb neg /\ existsb (Z.eqb (k + 1)) l && existsb (Z.eqb (- (k + 1))) l = false /\ zmax (map Z.abs l) = Some (k + 1).
Proof.
  intros l neg k Hk Hin Hx. assert (E1 : existsb (Z.eqb (k + 1)) l = negb neg).
  { destruct neg; cbn [negb]; unfold fsign in *.
    - apply not_true_iff_false. rewrite existsb_In. intro K. specialize (Hx _ K). lia.
    - apply existsb_In. exact Hin. }
  split; [exact E1|]. split.
  - rewrite E1. destruct neg; cbn [negb andb]; [reflexivity|]. unfold fsign in *. apply not_true_iff_false. rewrite existsb_In. intro K. specialize (Hx _ K). lia.
  - destruct (zmax_spec (map Z.abs l) (k + 1)) as (m & Em & Hm & Hmax).
    + apply in_map_iff. exists (fsign neg k). split; [apply fsign_abs; exact Hk|exact Hin].
    + rewrite Em. f_equal. apply in_map_iff in Hm. destruct Hm as (y & <- & Hy). specialize (Hmax (k + 1)). specialize (Hx y Hy). pose proof (fsign_abs neg k Hk) as FA. assert (k + 1 <= Z.abs y). { apply Hmax. apply in_map_iff. exists (fsign neg k). split; assumption. }
      destruct Hx as [->|Hx]; lia.
Qed.

Lemma tlast_signed : forall q neg k, 0 <= k -> In (fsign neg k) (flat_map snd q) -> (forall x, In x (flat_map snd q) -> x = fsign neg k \/ Z.abs x <= k) -> tlast q = Ok (fsign neg k).
Proof.
  intros q neg k Hk Hin Hx. unfold tlast.
  assert (V1 : In (fsign neg k) (tvalues q)) by (apply tvalues_In; exact Hin). assert (V2 : forall x, In x (tvalues q) -> x = fsign neg k \/ Z.abs x <= k) by (intros x K; apply tvalues_In in K; apply Hx; exact K).
  destruct (last_signed (tvalues q) neg k Hk V1 V2) as (E1 & E2 & _). destruct (zmin_spec (tvalues q) _ V1) as (m & Em & Hm & Hmin). destruct (zmax_spec (tvalues q) _ V1) as (M & EM & HM & Hmax). rewrite Em, EM. cbv zeta.
  replace (Z.max (Z.abs m) (Z.abs M)) with (k + 1).
  - rewrite E2, E1. destruct neg; reflexivity.
  - specialize (Hmin _ V1). specialize (Hmax _ V1). apply V2 in Hm, HM. unfold fsign in *. destruct neg; lia.
Qed.

Lemma tpop_signed : forall L q k L' d neg (b : bool), FQ L q k -> FQ L' (fput_rec q d (fsign neg k)) (k + 1) -> 0 < fst d -> 0 < snd d ->
  (if b then fin L (fst d) (snd d) = false else fin L (fst d) (snd d) = true) ->
  exists v, tpop (fput_rec q d (fsign neg k)) = Ok (q, (fst d, snd d, v)) /\ rec_ok b neg v.
Proof.
  intros L q k L' d neg b Q Q' D1 D2 Hb. pose proof Q as (Hk & W & C & NE & P & _). pose proof Q' as (_ & W' & _ & _ & P' & _). set (v := fsign neg k) in *. pose proof (fsign_abs neg k Hk) as Av. fold v in Av.
  assert (LU : forall c, tlookup (fput_rec q d v) c = if box_eqb d c then Some (sinsert v (entries q d)) else tlookup q c) by (intro; apply tlookup_tput; apply W).
  pose proof (sinsert_perm v (entries q d)) as PS.
  assert (EL : tlookup (fput_rec q d v) d = Some (sinsert v (entries q d))) by (rewrite LU, box_eqb_refl; reflexivity).
  assert (Iv : In v (sinsert v (entries q d))) by (apply (Permutation_in _ PS); left; reflexivity).
  assert (Ex : forall x, In x (sinsert v (entries q d)) -> x = v \/ In x (entries q d)) by (intros x K; apply (Permutation_in _ (Permutation_sym PS)) in K; destruct K as [K|K]; [left; symmetry; exact K|right; exact K]).
  assert (TL : tlast (fput_rec q d v) = Ok v).
  { apply tlast_signed; [exact Hk|apply in_flat_map; exists (d, sinsert v (entries q d)); split; [apply tlookup_In; exact EL|exact Iv]|].
    intros x K. apply in_flat_map in K. destruct K as ([c l] & K1 & K2). cbn [snd] in K2. apply In_tlookup in K1; [|apply W']. rewrite LU in K1. destruct (box_eqb d c) eqn:E.
    - injection K1 as <-. destruct (Ex x K2) as [->|K3]; [left; reflexivity|]. right. pose proof (FQ_entries L q k d x Q K3). lia.
    - right. pose proof (FQ_entry L q k c l x Q K1 K2). lia. }
  unfold tpop. rewrite TL. cbn [rbind].
  assert (EF : tfind (fput_rec q d v) v = [d]).
  { unfold tfind. apply NoDup_all_eq.
    - apply NoDup_filter_keys. apply sorted_NoDup. apply W'.
    - apply in_map_iff. exists (d, sinsert v (entries q d)). split; [reflexivity|]. apply filter_In. split; [apply tlookup_In; exact EL|]. cbn [snd]. apply existsb_In. exact Iv.
    - intros x Hx. apply in_map_iff in Hx. destruct Hx as ([c l] & <- & H). apply filter_In in H. destruct H as [H1 H2]. cbn [snd fst] in *. apply existsb_In in H2.
      apply In_tlookup in H1; [|apply W']. rewrite LU in H1. destruct (box_eqb d c) eqn:E; [apply box_eqb_eq in E; symmetry; exact E|]. pose proof (FQ_entry L q k c l v Q H1 H2). lia. }
  rewrite EF. destruct d as [i j]. cbn [fst snd] in *. unfold tget. rewrite EL.
  assert (RO : forall u, vvals u = sinsert v (entries q (i, j)) -> (if b then exists x, vvals u = [x] else exists x y l, vvals u = x :: y :: l) -> rec_ok b neg u).
  { intros u Eu K. exists (k + 1). destruct (last_signed (sinsert v (entries q (i, j))) neg k Hk Iv) as (A1 & A2 & A3).
    - intros x Hx. destruct (Ex x Hx) as [->|K3]; [left; reflexivity|]. right. pose proof (FQ_entries L q k (i, j) x Q K3). lia.
    - rewrite Eu in *. split; [exact A3|]. split; [exact A1|]. split; [exact A2|exact K]. }
  destruct b.
  - assert (E : tlookup q (i, j) = None). { specialize (C (i, j)). cbn [fst snd] in C. destruct (tlookup q (i, j)); [|reflexivity]. exfalso. assert (K : fin L i j = true) by (apply C; discriminate). congruence. }
    assert (E2 : entries q (i, j) = []) by (unfold entries; rewrite E; reflexivity). rewrite E2 in *. cbn [sinsert] in *. rewrite (tremove_None _ i j _ W' EL). cbn [rbind].
    exists (VInt v). split; [|apply RO; [reflexivity|exists v; reflexivity]]. f_equal. f_equal. apply wf_ext; [apply tdel_wf; exact W'|exact W|]. intro c. rewrite tlookup_tdel by apply W'. rewrite LU.
    destruct (box_eqb (i, j) c) eqn:Ec; [|reflexivity]. apply box_eqb_eq in Ec. subst c. symmetry. exact E.
  - assert (E : exists l, tlookup q (i, j) = Some l). { destruct (tlookup q (i, j)) as [l|] eqn:E; [exists l; reflexivity|]. exfalso. apply (proj2 (C (i, j)) Hb). exact E. }
    destruct E as [l E]. assert (E2 : entries q (i, j) = l) by (unfold entries; rewrite E; reflexivity). rewrite E2 in *. pose proof (NE _ _ E) as Hl.
    pose proof (NoDup_of_abs _ (FQ_NoDup L' _ _ _ _ Q' EL)) as ND. set (m := sinsert v l) in *. assert (Lm : (2 <= length m)%nat) by (rewrite <- (Permutation_length PS); destruct l; [contradiction|cbn; lia]).
    assert (EM : match m with [x] => Some (VInt x) | _ => Some (VTup m) end = Some (VTup m)) by (destruct m as [|x [|y m']]; [reflexivity|cbn in Lm; lia|reflexivity]).
    assert (EZ : zset m = m) by (apply zset_id; exact ND).
    match goal with |- exists v, match ?x with _ => _ end = _ /\ _ => replace x with (Some (VTup m)) by (symmetry; exact EM) end.
    cbv zeta. rewrite (tremove_None _ i j _ W' EL). cbn [rbind]. rewrite EZ. destruct (wf_lookup q (i, j) l W E) as [_ Il].
    assert (EFi : sorted (filter (fun x => negb ((x =? v) || (x =? - v))) m) = l).
    { rewrite <- (sorted_id l Il). apply sorted_eq.
      assert (G : forall l, (forall x, In x l -> 1 <= Z.abs x <= k) -> filter (fun x => negb ((x =? v) || (x =? - v))) l = l).
      { clear - Av. induction l as [|x l IH]; intro H; [reflexivity|]. cbn [filter]. pose proof (H x (or_introl eq_refl)).
        replace (x =? v) with false by (symmetry; apply Z.eqb_neq; lia). replace (x =? - v) with false by (symmetry; apply Z.eqb_neq; lia). cbn [orb negb]. rewrite IH by (intros; apply H; right; assumption). reflexivity. }
      rewrite <- (G l) by (intros x Hx; apply (FQ_entry L q k (i, j) l x Q E Hx)).
      eapply Permutation_trans; [apply filter_permz; apply Permutation_sym; exact PS|]. cbn [filter]. rewrite Z.eqb_refl. apply Permutation_refl. }
    rewrite EFi. unfold tadd. replace ((0 <? i) && (0 <? j)) with true by (symmetry; apply andb_true_iff; rewrite !Z.ltb_lt; lia).
    rewrite tlookup_tdel by apply W'. rewrite box_eqb_refl. rewrite tinit_mput_eq; [|apply tdel_wf; exact W'|split; cbn [fst snd]; lia]. cbn [rbind tuplize].
    rewrite (sorted_id l Il). exists (VTup m). split.
    + f_equal. f_equal. apply wf_ext; [apply tput_wf; [apply tdel_wf; exact W'|split; cbn [fst snd]; lia|exact Il]|exact W|]. intro c.
      rewrite tlookup_tput by (apply tdel_wf; exact W'). rewrite tlookup_tdel by apply W'. rewrite LU. destruct (box_eqb (i, j) c) eqn:Ec; [|reflexivity]. apply box_eqb_eq in Ec. subst c. symmetry. exact E.
    + apply RO; cbn [vvals]; rewrite EZ; [reflexivity|]. destruct m as [|x [|y m']]; [cbn in Lm; lia|cbn in Lm; lia|]. exists x, y, m'. reflexivity.
Qed.

Lemma CIns_NN : forall L H g j a L' H' g' c k, CIns L H g j a L' H' g' c k -> 0 <= a -> NNf L g -> NNf L' g'.
Proof.
  intros L H g j a L' H' g' c k HC. induction HC as [L H g j a I F C|L H g j a I F C|L H g j a x L' H' g' c k I B C K IH|L H g j a x L' H' g' c k I B C K IH]; intros Ha N.
  - pose proof (col_full_left L H g j a I F) as (F0 & F1 & F2 & F3 & F4 & F5). intros r s Hc. unfold updg. destruct ((r =? H j + 1) && (s =? j)) eqn:E; [exact Ha|]. apply N. apply fin_iff. apply fin_iff in Hc. unfold updr in Hc. destruct (Z.eqb_spec r (H j + 1)) as [->|n]; [|exact Hc].
    cbn [andb] in E. apply Z.eqb_neq in E. lia.
  - exact N.
  - apply IH; [apply N; apply (c_bump_fin L H g j a); assumption|apply NNf_replace; assumption].
  - apply IH; [apply N; apply (c_bump_fin L H g j a); assumption|exact N].
Qed.
Lemma RIns_NN : forall L H g i a L' H' g' c k neg, RIns L H g i a L' H' g' c k neg -> 0 <= a -> NNf L g -> NNf L' g'.
Proof.
  intros L H g i a L' H' g' c k neg HI. induction HI as [L H g i a I F C|L H g i a I F C|L H g i a x L' H' g' c k neg I B h C K IH|L H g i a x L' H' g' c k neg I B h C D K IH|L H g i a I B C D|L H g i a L' H' g' c k I B D K|L H g i a L' H' g' c k I B D K]; intros Ha N.
  - intros r s Hc. unfold updg. destruct ((r =? i) && (s =? L i + 1)) eqn:E; [exact Ha|]. apply N. apply fin_iff. apply fin_iff in Hc. unfold updr in Hc. destruct (Z.eqb_spec r i) as [->|n]; [|exact Hc]. cbn [andb] in E. apply Z.eqb_neq in E. lia.
  - exact N.
  - apply IH; [apply (r_bump_nn L H g i a x I B N)|apply NNf_replace; assumption].
  - apply IH; [apply (r_bump_nn L H g i a x I B N)|exact N].
  - exact N.
  - apply (CIns_NN _ _ _ _ _ _ _ _ _ _ K); [apply (r_bump_nn L H g i a i I B N)|apply NNf_replace; assumption].
  - apply (CIns_NN _ _ _ _ _ _ _ _ _ _ K); [apply (r_bump_nn L H g i a i I B N)|exact N].
Qed.

(* one round of inverse_insertion *)
Lemma f_inverse_step : forall L H g p q k a L' H' g' p' c b neg, fshape L H -> T (look L g None) p -> FQ L q k -> NNf L g -> Evn L g -> 0 <= a -> a mod 2 = 0 ->
  RIns L H g 1 a L' H' g' c b neg -> T (look L' g' None) p' -> let d := recorded_box L H c b neg in FQ L' (fput_rec q d (fsign neg k)) (k + 1) ->
  forall fuel ans, f_inverse_insertion (S fuel) p' (fput_rec q d (fsign neg k)) ans = f_inverse_insertion fuel p q (a :: ans).
Proof.
  intros L H g p q k a L' H' g' p' c b neg S R Q NN Ev Ha Ea HI R' d Q' fuel ans. cbn [f_inverse_insertion].
  pose proof (RIns_outcome _ _ _ _ _ _ _ _ _ _ _ HI) as O. pose proof (recorded_corner L H L' H' c b neg S O) as [(D1 & D2 & D3) _]. fold d in D1, D2, D3. pose proof (RIns_good _ _ _ _ _ _ _ _ _ _ _ HI) as [S' I'].
  destruct p' as [|cell0 p0] eqn:Ep.
  { exfalso. pose proof (proj2 R' d) as K. rewrite (surjective_pairing d) in K. rewrite look_base0 in K by lia. discriminate. }
  rewrite <- Ep in *. clear Ep cell0 p0.
  destruct (tpop_signed L q k L' d neg b Q Q') as (v & Evv & Hv); [lia|lia| |].
  { unfold outcome in O. destruct O as (O1 & O2 & O3). destruct b.
    - unfold d, recorded_box. apply fin_false. lia.
    - destruct O3 as (EL & EH & _). rewrite EL in D2. apply fin_iff. lia. }
  rewrite Evv. cbn [rbind fst snd]. destruct (fmake_None L' g' p' R') as (s' & Es & Hs' & _). rewrite Es. cbn [rbind].
  pose proof (fmax_row L H g p S R) as HM. pose proof (fmax_row L' H' g' p' S' R') as HM'.
  destruct (r_undo L H g 1 a L' H' g' c b neg HI NN Ev Ha Ea _ s' v HM Hs' Hv) as (se & bb & si & n & E1 & Hsi & En & Hn & Hr). fold d in E1.
  match goal with |- rbind ?x _ = _ => replace x with (@Ok (hstate * option box) (se, bb)) by (symmetry; exact E1) end. cbn [rbind fst].
  assert (LL : forall i, 1 <= i -> L i <= L' i).
  { intros i Hi. destruct O as (O1 & O2 & O3). destruct b.
    - destruct O3 as (EL & -> & _). unfold updr. destruct (Z.eqb_spec i (fst c)) as [->|]; lia.
    - destruct O3 as (-> & _). lia. }
  assert (MM : max_row p None <= max_row p' None).
  { pose proof (proj1 HM) as M0. pose proof (proj1 HM') as M0'. destruct (Z.eq_dec (max_row p None) 0) as [E|E]; [lia|]. apply (proj2 HM'); [lia|]. pose proof (proj2 (proj2 HM (max_row p None) ltac:(lia)) ltac:(lia)). specialize (LL (max_row p None) ltac:(lia)). lia. }
  rewrite (fmax_column L' H' g' p' S' R'). specialize (LL 1 ltac:(lia)). pose proof (proj1 S 1 ltac:(lia)) as L0. pose proof (proj1 HM) as M0.
  assert (NB : (n + 1 <= Z.to_nat (max_row p' None) + Z.to_nat (L' 1%Z) + 5)%nat) by (destruct neg; lia).
  replace (Z.to_nat (max_row p' None) + Z.to_nat (L' 1%Z) + 5)%nat with (n + Datatypes.S (Z.to_nat (max_row p' None) + Z.to_nat (L' 1%Z) + 4 - n))%nat by lia.
  rewrite Hr. cbn [f_rewind]. destruct Hsi as (Rsi & Ho & _). unfold is_initial. rewrite Ho, Z.eqb_refl. cbn [rbind]. unfold hpop. rewrite Ho.
  assert (G : good_outer L (max_row p None) (1, L 1 + 2)) by (left; cbn [fst snd]; lia).
  destruct (remove_outer L g (1, L 1 + 2) a (htab si) Rsi (good_outside L H _ _ S HM G)) as (u & Eu & Ru). cbn [fst snd] in Eu. rewrite Eu. cbn [rbind].
  rewrite (T_geti _ _ _ _ _ Rsi (look_outer L g (1, L 1 + 2) a)). cbn [rbind fst snd]. rewrite (T_unique _ u p Ru R). reflexivity.
Qed.

Lemma f_run_inverse : forall w L H g s q k, fshape L H -> FIncr L g -> Evn L g -> NNf L g -> FN L g s -> FQ L q k -> Forall (fun a => a mod 2 = 0) w -> Forall (fun a => 0 <= a) w ->
  exists s' q', rfold (fun sq ia => f_push (fst sq) (snd sq) (snd ia) (fst ia + 1 + 0)) (combine (zrange k (k + zlen w)) w) (s, q) = Ok (s', q') /\
    forall fuel ans, f_inverse_insertion (length w + fuel) (htab s') q' ans = f_inverse_insertion fuel (htab s) q (w ++ ans).
Proof.
  induction w as [|a w IH]; intros L H g s q k S I Ev NN F Q Fw Gw.
  - exists s, q. replace (k + zlen (@nil Z)) with k by (cbn; lia). rewrite zrange_nil by lia. split; reflexivity.
  - assert (ZL : zlen (a :: w) = 1 + zlen w) by (unfold zlen; cbn [length]; lia). rewrite ZL. rewrite zrange_cons by (unfold zlen; lia). cbn [combine rfold fst snd].
    inversion Fw as [|? ? Fa Fw']; subst. inversion Gw as [|? ? Ga Gw']; subst. replace (k + 1 + 0) with (k + 1) by lia.
    destruct (f_push_spec L H g s q k a S I Ev F Q Fa) as (s1 & L1 & H1 & g1 & c & b & neg & E & HI & S1 & I1 & Ev1 & F1 & Q1). cbv zeta in E. rewrite E. cbn [rbind].
    pose proof (RIns_NN _ _ _ _ _ _ _ _ _ _ _ HI Ga NN) as NN1.
    destruct (IH L1 H1 g1 s1 _ (k + 1) S1 I1 Ev1 NN1 F1 Q1 Fw' Gw') as (s' & q' & E' & INV). replace (k + (1 + zlen w)) with (k + 1 + zlen w) by lia.
    exists s', q'. split; [exact E'|]. intros fuel ans. cbn [length]. replace (Datatypes.S (length w) + fuel)%nat with (length w + Datatypes.S fuel)%nat by lia. rewrite INV. cbn [app].
    exact (f_inverse_step L H g (htab s) q k a L1 H1 g1 (htab s1) c b neg S (proj1 F) Q NN Ev Ga Fa HI (proj1 F1) Q1 fuel (w ++ ans)).
Qed.
Lemma f_inverse_tableaux : forall w p q, Forall (fun a => a mod 2 = 0) w -> Forall (fun a => 0 <= a) w -> f_insertion_tableaux [] [] w = Ok (p, q) ->
  forall n, (length w < n)%nat -> f_inverse_insertion n p q [] = Ok w.
Proof.
  intros w p q Fw Gw E n Hn. destruct f_start as (S0 & I0 & E0 & R0 & Q0). destruct (fmake_None _ _ _ R0) as (s & Es & Fs & Hs). unfold f_insertion_tableaux in E.
  replace (tlast []) with (@Ok Z 0) in E by reflexivity. cbn [rbind] in E. rewrite Es in E. cbn [rbind] in E. change (Z.abs 0) with 0 in E.
  destruct (f_run_inverse w _ _ _ s [] 0 S0 I0 E0) as (s' & q' & E' & INV); try assumption.
  - intros r c K. lia.
  - replace (0 + zlen w) with (zlen w) in E' by lia. rewrite E' in E. cbn [rbind fst snd] in E. injection E as <- <-.
    replace n with (length w + Datatypes.S (n - length w - 1))%nat by lia. rewrite INV, Hs. cbn [f_inverse_insertion]. rewrite app_nil_r. reflexivity.
Qed.

Lemma updz_length : forall (l : list Z) i v, length (upd l i v) = length l.
Proof. induction l as [|x l IH]; intros [|i] v; try reflexivity. cbn. rewrite IH. reflexivity. Qed.
Lemma updz_nth : forall (l : list Z) i v j, (i < length l)%nat -> nth j (upd l i v) 0 = if (j =? i)%nat then v else nth j l 0.
Proof. induction l as [|x l IH]; intros [|i] v [|j] H; cbn [length] in H; try lia; try reflexivity. cbn. apply IH. lia. Qed.

(* standardising a signed standard tableau changes nothing *)
Section Signed.
  Variables (q : tab) (k : Z).
  Hypothesis K0 : 0 <= k.
  Hypothesis W : well_formed q.
  Hypothesis NE : forall c l, tlookup q c = Some l -> l <> [].
  Hypothesis P : Permutation (map Z.abs (flat_map snd q)) (zrange 1 (k + 1)).

  Lemma signed_sorted : exists X, Permutation (tag q) X /\ map (fun vc : Z * box => Z.abs (fst vc)) X = zrange 1 (k + 1).
  Proof.
    assert (P2 : Permutation (zrange 1 (k + 1)) (map (fun vc : Z * box => Z.abs (fst vc)) (tag q))).
    { apply Permutation_sym. eapply Permutation_trans; [|exact P]. rewrite <- flat_tag, map_map. apply Permutation_refl. }
    apply Permutation_map_inv in P2. destruct P2 as (X & E & PX). exists X. split; [exact PX|symmetry; exact E].
  Qed.
  Lemma signed_below : forall X s e, map (fun vc : Z * box => Z.abs (fst vc)) X = zrange s e -> StronglySorted (below std_order) X.
  Proof.
    induction X as [|[v c] X IH]; intros s e E; [constructor|]. cbn [map fst] in E. assert (SE : s < e) by (destruct (Z_lt_ge_dec s e); [assumption|rewrite zrange_nil in E by lia; discriminate]).
    rewrite zrange_cons in E by exact SE. injection E as E1 E2. constructor; [apply (IH (s + 1) e); exact E2|]. apply Forall_forall. intros [w d] Hx.
    assert (Hw : s + 1 <= Z.abs w < e). { apply (in_map (fun vc : Z * box => Z.abs (fst vc))) in Hx. rewrite E2 in Hx. apply In_zrange in Hx. exact Hx. }
    unfold below, std_order, box_ltb. cbn [fst snd]. destruct (Z.ltb_spec v 0), (Z.ltb_spec w 0); cbn [fst snd]; rewrite !negb_true_iff, !orb_false_iff, !andb_false_iff, !Z.ltb_ge, !Z.eqb_neq; (split; [split; [lia|left; lia]|intros [K _]; lia]).
  Qed.
  Lemma standardize_signed : standardize q = Ok q.
  Proof.
    destruct signed_sorted as (X & PX & EX). unfold standardize. fold (tag q). rewrite (isort_unique std_order (tag q) X PX) by (apply (signed_below X _ _ EX)). cbv zeta.
    etransitivity; [|exact (rebuild q X W NE PX)].
    assert (G : forall (X : list (Z * box)) s ans, map (fun vc : Z * box => Z.abs (fst vc)) X = zrange (s + 1) (s + 1 + zlen X) -> 0 <= s ->
      rfold (fun ans (av : Z * (Z * box)) => tadd ans (fst (snd (snd av))) (snd (snd (snd av))) (VInt (if 0 <? fst (snd av) then fst av + 1 else - fst av - 1)))
          (combine (zrange s (s + zlen X)) X) ans =
      rfold (fun ans (xc : Z * box) => tadd ans (fst (snd xc)) (snd (snd xc)) (VInt (fst xc))) X ans).
    { clear. induction X as [|[v c] X IH]; intros s ans E Hs.
      - unfold zlen. cbn [length]. rewrite zrange_nil by lia. reflexivity.
      - assert (ZL : zlen ((v, c) :: X) = 1 + zlen X) by (unfold zlen; cbn [length]; lia). rewrite ZL in *. assert (0 <= zlen X) by (unfold zlen; lia). rewrite zrange_cons in E by lia. cbn [map fst] in E. injection E as E1 E2. rewrite (zrange_cons s) by lia. cbn [combine rfold fst snd].
        replace (if 0 <? v then s + 1 else - s - 1) with v by (destruct (Z.ltb_spec 0 v); lia). destruct (tadd ans (fst c) (snd c) (VInt v)); [|reflexivity]. cbn [rbind].
        replace (s + (1 + zlen X)) with (s + 1 + zlen X) by lia. apply IH; [|lia]. replace (s + 1 + 1 + zlen X) with (s + 1 + (1 + zlen X)) by lia. exact E2. }
    specialize (G X 0 []). apply G; [|lia]. rewrite EX. f_equal. unfold zlen. rewrite <- (map_length (fun vc : Z * box => Z.abs (fst vc)) X), EX, length_zrange. lia.
  Qed.

  Definition sfilled (seen : list Z) (record : list Z) : Prop := zlen record = k /\ forall v, In v seen -> 1 <= Z.abs v /\ nthz record (Z.abs v - 1) = Z.abs v.
  Lemma signed_value : forall c l v, tlookup q c = Some l -> In v l -> 1 <= Z.abs v <= k.
  Proof. intros c l v E Hv. assert (K : In (Z.abs v) (zrange 1 (k + 1))). { apply (Permutation_in _ P). apply in_map. apply in_flat_map. exists (c, l). split; [apply tlookup_In; exact E|exact Hv]. } apply In_zrange in K. lia. Qed.
  Lemma signed_cell : forall c l, tlookup q c = Some l -> forall l1 l2 seen record, l = l1 ++ l2 -> sfilled seen record ->
    exists R, rfold (fun record kv =>
        let idx := Z.abs (snd kv) - 1 in
        match tlookup q c with
        | None => Err TypeError
        | Some l =>
            if fst kv <? zlen l then
              if (0 <=? idx) && (idx <? zlen record) then Ok (upd record (Z.to_nat idx) (Z.abs (nthz l (fst kv)))) else Err IndexError
            else Err IndexError
        end) (combine (zrange (zlen l1) (zlen l)) l2) record = Ok R /\ sfilled (seen ++ l2) R.
  Proof.
    intros c l El l1 l2. revert l1. induction l2 as [|v l2 IH]; intros l1 seen record E F.
    - rewrite app_nil_r in E. subst l1. rewrite zrange_nil by lia. exists record. split; [reflexivity|]. rewrite app_nil_r. exact F.
    - assert (Hv : 1 <= Z.abs v <= k) by (apply (signed_value c l v El); rewrite E; apply in_app_iff; right; left; reflexivity).
      assert (ZL : zlen l = zlen l1 + 1 + zlen l2) by (rewrite E; unfold zlen; rewrite app_length; cbn [length]; lia).
      rewrite zrange_cons by (unfold zlen in *; lia). cbn [combine rfold fst snd]. rewrite El.
      replace (zlen l1 <? zlen l) with true by (symmetry; apply Z.ltb_lt; unfold zlen in *; lia). destruct F as [F1 F2]. cbv zeta. rewrite F1.
      replace ((0 <=? Z.abs v - 1) && (Z.abs v - 1 <? k)) with true by (symmetry; apply andb_true_iff; rewrite Z.leb_le, Z.ltb_lt; lia). cbn [rbind].
      assert (EN : nthz l (zlen l1) = v) by (unfold nthz, zlen; rewrite Nat2Z.id, E, app_nth2 by lia; rewrite Nat.sub_diag; reflexivity).
      rewrite EN. destruct (IH (l1 ++ [v]) (seen ++ [v]) (upd record (Z.to_nat (Z.abs v - 1)) (Z.abs v))) as (R & ER & FR).
      + rewrite <- app_assoc. exact E.
      + unfold zlen in F1. split; [unfold zlen; rewrite updz_length; exact F1|]. intros w Hw. unfold nthz. rewrite updz_nth by lia. apply in_app_iff in Hw.
        assert (Aw : 1 <= Z.abs w) by (destruct Hw as [Hw|[->|[]]]; [apply F2; assumption|lia]). split; [exact Aw|].
        destruct (Nat.eqb_spec (Z.to_nat (Z.abs w - 1)) (Z.to_nat (Z.abs v - 1))) as [Ew|Ew]; [lia|].
        destruct Hw as [Hw|[->|[]]]; [apply (F2 w Hw)|]. exfalso. apply Ew. reflexivity.
      + exists R. rewrite <- app_assoc in FR. cbn [app] in FR. split; [|exact FR]. replace (zlen l1 + 1) with (zlen (l1 ++ [v])) by (unfold zlen; rewrite app_length; cbn [length]; lia). rewrite El in ER. exact ER.
  Qed.
  Lemma signed_cells : forall t seen record, (forall c l, In (c, l) t -> tlookup q c = Some l) -> sfilled seen record ->
    exists R, rfold (fun record (cv : box * list Z) =>
      rfold (fun record kv =>
        let idx := Z.abs (snd kv) - 1 in
        match tlookup q (fst cv) with
        | None => Err TypeError
        | Some l =>
            if fst kv <? zlen l then
              if (0 <=? idx) && (idx <? zlen record) then Ok (upd record (Z.to_nat idx) (Z.abs (nthz l (fst kv)))) else Err IndexError
            else Err IndexError
        end) (combine (zrange 0 (zlen (snd cv))) (snd cv)) record) t record = Ok R /\ sfilled (seen ++ flat_map snd t) R.
  Proof.
    induction t as [|[c l] t IH]; intros seen record H F.
    - exists record. split; [reflexivity|]. cbn. rewrite app_nil_r. exact F.
    - cbn [rfold fst snd]. destruct (signed_cell c l (H c l (or_introl eq_refl)) [] l seen record eq_refl F) as (R1 & E1 & F1).
      match goal with |- exists R, rbind ?x _ = _ /\ _ => assert (EX : x = Ok R1) by exact E1; rewrite EX end. cbn [rbind].
      destruct (IH (seen ++ l) R1) as (R & E & FR); [intros; apply H; right; assumption|exact F1|]. exists R. split; [exact E|]. cbn [flat_map snd]. rewrite app_assoc. exact FR.
  Qed.
  Lemma tlen_signed : tlen q = k.
  Proof.
    unfold tlen. assert (G : forall t, zlen (sorting_word t) = zlen (tag t)).
    { induction t as [|[c l] t IH]; [reflexivity|]. unfold sorting_word, tag, zlen in *. cbn [flat_map fst snd]. rewrite !app_length, !map_length. lia. }
    rewrite G. unfold zlen. pose proof (Permutation_length P) as PL. rewrite map_length, length_zrange, <- flat_tag, map_length in PL. rewrite PL. lia.
  Qed.
  Lemma standardize_recording_signed : standardize_recording q = Ok (q, zrange 1 (k + 1)).
  Proof.
    unfold standardize_recording. rewrite standardize_signed. cbn [rbind]. rewrite tlen_signed.
    destruct (signed_cells q [] (repeat 0 (Z.to_nat k))) as (R & ER & [FR1 FR2]).
    - intros c l H. apply In_tlookup; [apply W|assumption].
    - split; [|intros v []]. unfold zlen. rewrite repeat_length. lia.
    - match goal with |- rbind ?x _ = _ => assert (EX : x = Ok R) by exact ER; rewrite EX end. cbn [rbind]. f_equal. f_equal. cbn [app] in FR2.
      apply (nth_ext R _ 0 0); [rewrite length_zrange; unfold zlen in FR1; lia|]. intros n Hn. pose proof (L_Perm.nthz_zrange 1 (k + 1) (Z.of_nat n)) as K. unfold nthz in K. rewrite Nat2Z.id in K. rewrite K by (unfold zlen in FR1; lia).
      assert (Hin : In (1 + Z.of_nat n) (map Z.abs (flat_map snd q))) by (apply (Permutation_in _ (Permutation_sym P)); apply In_zrange; unfold zlen in FR1; lia).
      apply in_map_iff in Hin. destruct Hin as (v & Ev & Hv). specialize (FR2 v Hv). destruct FR2 as [_ FR2]. rewrite Ev in FR2. unfold nthz in FR2. replace (Z.to_nat (1 + Z.of_nat n - 1)) with n in FR2 by lia. exact FR2.
  Qed.
End Signed.
