(* get_atoms_d on unsigned involutions. *)
From Coq Require Import List ZArith Bool Lia Permutation.
From Verif Require Import PyBase FinSum M_Partitions M_Semistandard M_Perm S_Perm M_PermGen L_Perm L_PermLen L_PermWord L_LevelsInst P_Levels L_PermActs L_PermGroth7 M_PermGroth M_InvWords M_Atoms L_PartCorners L_InvLen L_InvLen2 L_Words2 L_Atoms1 L_Atoms2 L_Atoms5 L_Atoms6.
Import ListNotations.
Local Open Scope Z_scope.

(* ---- the length ---- *)
Lemma cnt_range : forall (q : Z -> bool) l, zsum (map (fun j => if q (nthz l j) then 1 else 0) (zrange 0 (zlen l))) = cnt q l.
Proof.
  intros q l. induction l as [|x l IH]; [reflexivity|]. rewrite zlen_cons. rewrite zrange_cons by (pose proof (zlen_nonneg _ l); lia). cbn [map zsum]. replace (zrange (0 + 1) (1 + zlen l)) with (zrange (0 + 1) (zlen l + 1)) by (f_equal; lia). rewrite zrange_shift, map_map.
  rewrite (map_ext_in _ (fun j => if q (nthz l j) then 1 else 0)).
  - rewrite IH. rewrite !cnt_cons. change (nthz (x :: l) 0) with x. reflexivity.
  - intros j Hj. apply In_zrange in Hj. unfold nthz. replace (Z.to_nat (j + 1)) with (S (Z.to_nat j)) by lia. reflexivity.
Qed.
Lemma zsum_pairs : forall (g h : Z -> Z) l, zsum (flat_map (fun j => [g j; h j]) l) = zsum (map g l) + zsum (map h l).
Proof. intros g h l. induction l as [|x l IH]; [reflexivity|]. cbn [flat_map app map zsum]. rewrite IH. lia. Qed.
Lemma zsum_flat : forall (F : Z -> list Z) l, zsum (flat_map F l) = zsum (map (fun i => zsum (F i)) l).
Proof. intros F l. induction l as [|x l IH]; [reflexivity|]. cbn [flat_map map zsum]. rewrite zsum_app, IH. reflexivity. Qed.
Definition prow (l : list Z) (i : Z) : Z :=
  zsum (map (fun j => if nthz l j <? nthz l i then 1 else 0) (zrange (i + 1) (zlen l))) + zsum (map (fun j => if nthz l i + nthz l j <? 0 then 1 else 0) (zrange (i + 1) (zlen l))).
Lemma prow_sum : forall l, zsum (map (prow l) (zrange 0 (zlen l))) = invl l + nspl l.
Proof.
  induction l as [|x l IH]; [reflexivity|]. pose proof (zlen_nonneg _ l) as Nl. rewrite zlen_cons. rewrite zrange_cons by lia. cbn [map zsum invl nspl]. replace (zrange (0 + 1) (1 + zlen l)) with (zrange (0 + 1) (zlen l + 1)) by (f_equal; lia). rewrite zrange_shift, map_map.
  assert (Sh : forall j, 0 <= j -> nthz (x :: l) (j + 1) = nthz l j) by (intros j Hj; unfold nthz; replace (Z.to_nat (j + 1)) with (S (Z.to_nat j)) by lia; reflexivity).
  rewrite (map_ext_in _ (prow l)).
  - rewrite IH. unfold prow at 1. rewrite zlen_cons. replace (zrange (0 + 1) (1 + zlen l)) with (zrange (0 + 1) (zlen l + 1)) by (f_equal; lia). rewrite zrange_shift, !map_map. change (nthz (x :: l) 0) with x.
    rewrite (map_ext_in _ (fun j => if nthz l j <? x then 1 else 0)) by (intros j Hj; apply In_zrange in Hj; rewrite Sh by lia; reflexivity).
    rewrite (map_ext_in (fun j => if x + nthz (x :: l) (j + 1) <? 0 then 1 else 0) (fun j => if x + nthz l j <? 0 then 1 else 0)) by (intros j Hj; apply In_zrange in Hj; rewrite Sh by lia; reflexivity).
    rewrite (cnt_range (fun y => y <? x)), (cnt_range (fun y => x + y <? 0)). lia.
  - intros i Hi. apply In_zrange in Hi. unfold prow. rewrite zlen_cons. replace (zrange (i + 1 + 1) (1 + zlen l)) with (zrange (i + 1 + 1) (zlen l + 1)) by (f_equal; lia). rewrite zrange_shift, !map_map. rewrite (Sh i) by lia.
    f_equal; f_equal; apply map_ext_in; intros j Hj; apply In_zrange in Hj; rewrite Sh by lia; reflexivity.
Qed.
Lemma d_length_eq : forall w, d_length w = invl w + nspl w.
Proof.
  intro w. rewrite <- prow_sum. unfold d_length. rewrite zsum_flat. replace (zrange 1 (zlen w + 1)) with (zrange (0 + 1) (zlen w + 1)) by reflexivity. rewrite zrange_shift, map_map. f_equal. apply map_ext_in. intros i Hi. apply In_zrange in Hi. rewrite zsum_pairs. unfold prow. rewrite zrange_shift, !map_map. rewrite (pcall_pos w (i + 1)) by lia. replace (i + 1 - 1) with i by lia.
  f_equal; f_equal; apply map_ext_in; intros j Hj; apply In_zrange in Hj; rewrite (pcall_pos w (j + 1)) by lia; replace (j + 1 - 1) with j by lia; [reflexivity|]. destruct (Z.ltb_spec (nthz w j) (- nthz w i)), (Z.ltb_spec (nthz w i + nthz w j) 0); lia.
Qed.
Lemma unsig_entries : forall w, unsig w -> forall y, In y w -> 1 <= y.
Proof. intros w U y Hy. apply In_nthz in Hy. destruct Hy as (i & Hi & <-). pose proof (U (i + 1) ltac:(lia)) as P. rewrite pcall_pos in P by lia. replace (i + 1 - 1) with i in P by lia. exact P. Qed.
Lemma cnt_false : forall (q : Z -> bool) l, (forall y, In y l -> q y = false) -> cnt q l = 0.
Proof. intros q l. induction l as [|x l IH]; intro H; [reflexivity|]. rewrite !cnt_cons. rewrite (H x (or_introl eq_refl)), IH by (intros y Hy; apply H; right; exact Hy). reflexivity. Qed.
Lemma nspl_pos : forall l, (forall y, In y l -> 1 <= y) -> nspl l = 0.
Proof. induction l as [|x l IH]; intro H; [reflexivity|]. cbn [nspl]. rewrite IH by (intros y Hy; apply H; right; exact Hy). rewrite cnt_false; [reflexivity|]. intros y Hy. pose proof (H x (or_introl eq_refl)). pose proof (H y (or_intror Hy)). lia. Qed.
Lemma d_length_unsig : forall w, unsig w -> d_length w = ell w.
Proof.
  intros w U. pose proof (unsig_entries w U) as P. rewrite d_length_eq. unfold ell, negl. rewrite (cnt_false (fun y => y <? 0)); [lia|]. intros y Hy. specialize (P y Hy). lia.
Qed.
(* ---- the extra generator ---- *)
Definition ds0 : list Z := [-2; -1].
Lemma d_s_i_0 : d_s_i 0 = Ok ds0.
Proof. reflexivity. Qed.
Lemma d_s_i_pos : forall i, 1 <= i -> d_s_i i = Ok (sp i).
Proof. intros i H. unfold d_s_i. replace (i =? 0) with false by lia. apply sp_ok. lia. Qed.
Lemma ds0_canonical : canonical ds0.
Proof. split; [|cbn; discriminate]. unfold signed_word, ds0. cbn. apply perm_swap. Qed.
Lemma ds0_line : forall a b l, canonical (a :: b :: l) -> 1 <= a -> mulp (a :: b :: l) ds0 = - b :: - a :: l.
Proof.
  intros a b l Hw Ha. pose proof Hw as [Hs Ht]. assert (C : canonical (- b :: - a :: l)).
  { split.
    - unfold signed_word in *. cbn [map] in *. rewrite !zlen_cons in *. rewrite !Z.abs_opp. eapply perm_trans; [apply perm_swap|exact Hs].
    - intros _. destruct l as [|x l]; [cbn; lia|]. specialize (Ht ltac:(discriminate)). rewrite !zlen_cons in *. exact Ht. }
  apply canonical_ext; [apply mulp_canonical; [exact Hs|apply ds0_canonical]|exact C|]. intro x. rewrite mulp_call by (first [exact Hs|apply ds0_canonical]).
  pose proof (zlen_nonneg _ l) as Nl. assert (K : forall x, 1 <= x -> pcall (a :: b :: l) (pcall ds0 x) = pcall (- b :: - a :: l) x).
  { clear x. intros x Hx. destruct (Z.eq_dec x 1) as [->|N1]; [|destruct (Z.eq_dec x 2) as [->|N2]].
    - change (pcall ds0 1) with (- (2)). rewrite pcall_odd, !pcall_pos by (rewrite !zlen_cons; lia). reflexivity.
    - change (pcall ds0 2) with (- (1)). rewrite pcall_odd, !pcall_pos by (rewrite !zlen_cons; lia). reflexivity.
    - rewrite (pcall_out ds0 x) by (unfold ds0; cbn; lia). destruct (Z_le_gt_dec x (zlen l + 2)) as [L|L]; [|rewrite !pcall_out by (rewrite !zlen_cons; lia); reflexivity].
      rewrite !pcall_pos by (rewrite !zlen_cons; lia). unfold nthz. replace (Z.to_nat (x - 1)) with (S (S (Z.to_nat (x - 3)))) by lia. reflexivity. }
  destruct (Z_lt_ge_dec x 0) as [L|L]; [|destruct (Z.eq_dec x 0) as [->|]; [rewrite !pcall_zero; reflexivity|apply K; lia]].
  pose proof (pcall_odd ds0 (- x)) as O1. pose proof (pcall_odd (- b :: - a :: l) (- x)) as O2. rewrite Z.opp_involutive in O1, O2. rewrite O1, O2, pcall_odd, K by lia. reflexivity.
Qed.
Lemma cnt_opp : forall x l, cnt (fun y => y <? - x) l + cnt (fun y => - x + y <? 0) l = cnt (fun y => y <? x) l + cnt (fun y => x + y <? 0) l.
Proof. intros x l. induction l as [|y l IH]; [reflexivity|]. rewrite !cnt_cons. destruct (Z.ltb_spec y (- x)), (Z.ltb_spec (- x + y) 0), (Z.ltb_spec y x), (Z.ltb_spec (x + y) 0); lia. Qed.
Lemma ds0_longer : forall w, canonical w -> unsig w -> w <> [] -> d_length w < d_length (mulp w ds0).
Proof.
  intros w Hw U N. pose proof (unsig_entries w U) as P. destruct w as [|a [|b l]]; [congruence| |].
  - exfalso. destruct Hw as [Hs Ht]. specialize (Ht ltac:(discriminate)). cbn in Ht, Hs. apply Permutation_length_1_inv in Hs. injection Hs as Hs. pose proof (P a (or_introl eq_refl)). change (zlen [a]) with 1 in Ht. lia.
  - pose proof (P a (or_introl eq_refl)) as Pa. pose proof (P b (or_intror (or_introl eq_refl))) as Pb. rewrite ds0_line by assumption. rewrite !d_length_eq. cbn [invl nspl]. rewrite !cnt_cons. pose proof (cnt_opp a l) as Ca. pose proof (cnt_opp b l) as Cb.
    destruct (Z.ltb_spec b a), (Z.ltb_spec (- a) (- b)), (Z.ltb_spec (a + b) 0), (Z.ltb_spec (- b + - a) 0); lia.
Qed.
Lemma mulp_sp_unsig : forall w i, canonical w -> unsig w -> 1 <= i -> unsig (mulp w (sp i)).
Proof. intros w i Hw U Hi x Hx. rewrite mulp_sp_pos by assumption. apply U. apply sw_pos; assumption. Qed.
Lemma desc_lt : forall w i, canonical w -> unsig w -> 1 <= i -> (d_length (mulp w (sp i)) < d_length w <-> descent (pcall w) i).
Proof.
  intros w i Hw U Hi. rewrite !d_length_unsig by (first [exact U|apply mulp_sp_unsig; assumption]). split.
  - intro L. destruct (Z_lt_ge_dec (pcall w (i + 1)) (pcall w i)) as [D|D]; [unfold descent; replace (i =? 0) with false by lia; exact D|].
    rewrite ell_ascent in L; [lia|exact Hw|lia|]. unfold descent. replace (i =? 0) with false by lia. lia.
  - intro D. rewrite ell_descent by (first [assumption|lia]). lia.
Qed.
(* ---- atoms and their last letters ---- *)
Lemma unsig_ext : forall u v, canonical u -> canonical v -> (forall x, 1 <= x -> pcall u x = pcall v x) -> u = v.
Proof.
  intros u v Hu Hv K. apply canonical_ext; [exact Hu|exact Hv|]. intro x. destruct (Z_lt_ge_dec x 0) as [L|L]; [|destruct (Z.eq_dec x 0) as [->|]; [rewrite !pcall_zero; reflexivity|apply K; lia]].
  pose proof (pcall_odd u (- x)) as O1. pose proof (pcall_odd v (- x)) as O2. rewrite Z.opp_involutive in O1, O2. rewrite O1, O2, K by lia. reflexivity.
Qed.
Lemma path_unsig : forall v y, Forall (fun i => 1 <= i) v -> path (iact false) [] v = Some y -> invol y /\ unsig y.
Proof.
  induction v as [|i v IH] using rev_ind; intros y F P; [cbn in P; injection P as <-; split; [apply invol_nil|apply unsig_nil]|].
  apply Forall_app in F as [Fv Fi]. inversion Fi as [|? ? Hi _]; subst. rewrite path_snoc in P. destruct (path (iact false) [] v) as [u|] eqn:E; [|discriminate]. destruct (IH u Fv eq_refl) as [Hu Uu]. apply iact_some in P. destruct P as [D ->].
  destruct (step_cases u i Hu Uu Hi D) as (V & Uy & _). auto.
Qed.
Lemma cj_unique : forall u u' i, invol u -> unsig u -> invol u' -> unsig u' -> 1 <= i -> ~ descent (pcall u) i -> ~ descent (pcall u') i -> cj u i = cj u' i -> u = u'.
Proof.
  intros u u' i Hu Uu Hu' Uu' Hi D D' E. apply unsig_ext; [apply Hu|apply Hu'|]. intros x Hx.
  destruct (step_cases u i Hu Uu Hi D) as (_ & _ & _ & _ & K). destruct (step_cases u' i Hu' Uu' Hi D') as (_ & _ & _ & _ & K'). rewrite <- E in K'.
  destruct K as [(_ & _ & Y & _ & B)|(_ & Y & _ & B)]; destruct K' as [(_ & _ & Y' & _ & B')|(_ & Y' & _ & B')]; try (exfalso; tauto); rewrite B, B' by exact Hx; reflexivity.
Qed.
Lemma atomw_last : forall z a, invol z -> unsig z -> z <> [] -> (atomw z a <-> exists i b, 1 <= i /\ descent (pcall z) i /\ atomw (icut z i) b /\ a = mulp b (sp i)).
Proof.
  intros z a Hz U N. split.
  - intros (v & G & P & <-). destruct v as [|i v _] using rev_ind; [cbn in P; injection P as <-; congruence|]. apply Forall_app in G as [Gv Gi]. inversion Gi as [|? ? Hi _]; subst.
    destruct (path_cond (v ++ [i]) z ltac:(apply Forall_app; split; assumption) P U) as (Q0 & _). pose proof Q0 as Q. apply Forall_app in Q as [_ Q]. inversion Q as [|? ? Q1 _]; subst.
    rewrite path_snoc in P. destruct (path (iact false) [] v) as [u|] eqn:E; [|discriminate]. destruct (iact_some u i z P) as [Nd Ez].
    apply Forall_app in Q0 as [Qv _]. destruct (path_unsig v u Qv E) as [Hu Uu].
    assert (D : descent (pcall z) i) by (rewrite Ez; destruct (step_cases u i Hu Uu Q1 Nd) as (_ & _ & D & _); exact D).
    exists i, (wordp v). split; [exact Q1|]. split; [exact D|]. split; [|apply wordp_snoc].
    exists v. split; [exact Gv|]. split; [|reflexivity]. rewrite E. f_equal. destruct (icut_ok z i Hz ltac:(lia) D) as (V & A & Ec & L).
    apply (cj_unique u (icut z i) i); try assumption; [apply icut_unsig; assumption|]. rewrite Ec. symmetry. exact Ez.
  - intros (i & b & Hi & D & (v & G & P & <-) & ->). exists (v ++ [i]). destruct (icut_ok z i Hz ltac:(lia) D) as (V & A & Ec & L). split; [apply Forall_app; split; [exact G|repeat constructor; lia]|]. split; [|apply wordp_snoc].
    rewrite path_snoc, P. rewrite iact_asc; [f_equal; exact Ec|rewrite Ec; exact D|exact A].
Qed.
(* ---- get_atoms_d ---- *)
Definition datoms_ok (k : list Z) (l : list (list Z)) : Prop := forall a, In a l <-> atomw k a.
Definition dc_ok (c : atom_cache) : Prop := forall k l, dget zlist_eqb c k = Some l -> Forall canonical l /\ (invol k -> unsig k -> datoms_ok k l).
Definition dbody (fuel' : nat) (self : list Z) (acc : atom_cache * list (list Z)) (i : Z) : res (atom_cache * list (list Z)) :=
  let '(c, out) := acc : atom_cache * list (list Z) in
  do s <- d_s_i i;
  do w <- pmul self s;
  if d_length w <? d_length self then
    do sself <- pmul s self;
    do v <- (if peq w sself then Ok w else pmul s w);
    do r <- get_atoms_d fuel' c v;
    let '(c, xs) := r : atom_cache * list (list Z) in
    do ys <- rmap (fun a => pmul a s) xs;
    Ok (c, out ++ ys)
  else Ok (c, out).
Definition dgen (i : Z) : list Z := if i =? 0 then ds0 else sp i.
Lemma dgen_ok : forall i, 0 <= i -> d_s_i i = Ok (dgen i) /\ canonical (dgen i).
Proof. intros i H. unfold dgen. destruct (Z.eqb_spec i 0) as [->|N]; [split; [apply d_s_i_0|apply ds0_canonical]|split; [apply d_s_i_pos; lia|apply sp_canonical; lia]]. Qed.
Definition dcut (w : list Z) (i : Z) : list Z := let s := dgen i in if peq (mulp w s) (mulp s w) then mulp w s else mulp s (mulp w s).
Lemma dcut_canonical : forall w i, canonical w -> 0 <= i -> canonical (dcut w i).
Proof. intros w i Hw Hi. destruct (dgen_ok i Hi) as [_ C]. unfold dcut. cbv zeta. destruct (peq _ _); auto 10 with perm. Qed.
Lemma dcut_icut : forall w i, canonical w -> 1 <= i -> dcut w i = icut w i.
Proof. intros w i Hw Hi. unfold dcut, icut, dgen. replace (i =? 0) with false by lia. destruct (peq _ _); [reflexivity|]. symmetry. apply mulp_assoc; auto with perm; apply sp_canonical; lia. Qed.
Lemma dbody_eq : forall fuel w c out i, canonical w -> 0 <= i -> dbody fuel w (c, out) i =
  if d_length (mulp w (dgen i)) <? d_length w then do r <- get_atoms_d fuel c (dcut w i); let '(c, xs) := r : atom_cache * list (list Z) in do ys <- rmap (fun a => pmul a (dgen i)) xs; Ok (c, out ++ ys) else Ok (c, out).
Proof.
  intros fuel w c out i Hw Hi. destruct (dgen_ok i Hi) as [E C]. unfold dbody. rewrite E. cbn [rbind]. rewrite pmul_ok by auto with perm. cbn [rbind]. destruct (d_length (mulp w (dgen i)) <? d_length w); [|reflexivity].
  rewrite pmul_ok by auto with perm. cbn [rbind]. unfold dcut. cbv zeta. destruct (peq (mulp w (dgen i)) (mulp (dgen i) w)); cbn [rbind]; [reflexivity|]. rewrite pmul_ok by auto 10 with perm. reflexivity.
Qed.
Lemma atomw_canonical : forall z a, atomw z a -> canonical a.
Proof. intros z a (v & G & _ & <-). apply wordp_canonical. exact G. Qed.
Lemma atomw_nil : forall a, atomw [] a <-> a = [].
Proof.
  intro a. split; [|intros ->; exists []; split; [constructor|split; reflexivity]]. intros (v & G & P & <-). apply path_reduced in P; [|exact G]. destruct P as [_ L]. change (il2 []) with 0 in L. destruct v; [reflexivity|]. rewrite zlen_cons in L. pose proof (zlen_nonneg _ v). lia.
Qed.
Lemma d_keep : forall fuel c w c' l, dc_ok c -> canonical w -> get_atoms_d fuel c w = Ok (c', l) -> dc_ok c' /\ Forall canonical l /\ (invol w -> unsig w -> datoms_ok w l).
Proof.
  induction fuel as [|fuel IH]; intros c w c' l Hc Hw E; [discriminate|]. cbn [get_atoms_d] in E. destruct (negb _); [discriminate|]. rewrite pinv_ok in E by apply Hw. cbn [rbind] in E. destruct (negb (peq w (invp w))); [discriminate|].
  destruct (dget zlist_eqb c w) as [l0|] eqn:D; [injection E as <- <-; split; [exact Hc|]; apply (Hc w l0 D)|].
  assert (Store : forall c1 l1, dc_ok c1 -> Forall canonical l1 -> (invol w -> unsig w -> datoms_ok w l1) -> dc_ok (dset zlist_eqb c1 w l1)).
  { intros c1 l1 H1 H2 H3 k l' D'. apply dget_set in D'. destruct D' as [[-> ->]|D']; [auto|apply H1; exact D']. }
  destruct (Z.eqb_spec (d_length w) 0) as [Q|Q].
  - cbn [rbind] in E. injection E as <- <-. assert (F : Forall canonical [w]) by (repeat constructor; apply Hw). assert (A : invol w -> unsig w -> datoms_ok w [w]).
    { intros _ U a. rewrite d_length_unsig in Q by exact U. apply ell_zero in Q; [|exact Hw]. subst w. rewrite atomw_nil. split; [intros [<-|[]]; reflexivity|intros ->; left; reflexivity]. }
    auto.
  - fold (dbody fuel w) in E. destruct (rfold (dbody fuel w) (zrange 0 (zlen w)) (c, [])) as [[c2 l2]|] eqn:R; [|discriminate]. cbn [rbind] in E. injection E as <- <-.
    assert (Loop : forall ds c1 out c2 out2, (forall i, In i ds -> 0 <= i) -> dc_ok c1 -> Forall canonical out -> rfold (dbody fuel w) ds (c1, out) = Ok (c2, out2) ->
      dc_ok c2 /\ Forall canonical out2 /\ (invol w -> unsig w -> w <> [] -> forall a, In a out2 <-> In a out \/ exists i b, In i ds /\ 1 <= i /\ descent (pcall w) i /\ atomw (icut w i) b /\ a = mulp b (sp i))).
    { clear -IH Hw. induction ds as [|i ds IHd]; intros c1 out c2 out2 Hd H1 F1 R.
      - cbn [rfold] in R. injection R as <- <-. split; [exact H1|]. split; [exact F1|]. intros _ _ _ a. split; [tauto|]. intros [?|(i & b & [] & _)]; assumption.
      - pose proof (Hd i (or_introl eq_refl)) as Hi. destruct (dgen_ok i Hi) as [_ Cg]. cbn [rfold] in R. rewrite dbody_eq in R by assumption.
        destruct (Z.ltb_spec (d_length (mulp w (dgen i))) (d_length w)) as [L|L].
        + destruct (get_atoms_d fuel c1 (dcut w i)) as [[c3 xs]|] eqn:G; [|discriminate]. cbn [rbind] in R. destruct (IH c1 (dcut w i) c3 xs H1 (dcut_canonical w i Hw Hi) G) as (H3 & Fx & Ax).
          rewrite (rmap_ok _ _ _ (fun a => mulp a (dgen i))) in R by (intros x Hx; rewrite Forall_forall in Fx; specialize (Fx x Hx); apply pmul_ok; auto with perm). cbn [rbind] in R.
          assert (Fo : Forall canonical (out ++ map (fun a => mulp a (dgen i)) xs)).
          { apply Forall_app. split; [exact F1|]. apply Forall_forall. intros y Hy. apply in_map_iff in Hy. destruct Hy as (x & <- & Hx). rewrite Forall_forall in Fx. specialize (Fx x Hx). auto with perm. }
          destruct (IHd c3 _ c2 out2 (fun j Hj => Hd j (or_intror Hj)) H3 Fo R) as (K1 & K2 & K3). split; [exact K1|]. split; [exact K2|]. intros Hz U N a. rewrite (K3 Hz U N a), in_app_iff, in_map_iff.
          assert (Hi1 : 1 <= i) by (destruct (Z.eq_dec i 0) as [->|]; [exfalso; pose proof (ds0_longer w Hw U N); change (dgen 0) with ds0 in L; lia|lia]).
          assert (Eg : dgen i = sp i) by (unfold dgen; replace (i =? 0) with false by lia; reflexivity). rewrite Eg in *. assert (D : descent (pcall w) i) by (apply desc_lt; assumption). rewrite dcut_icut in Ax by assumption.
          destruct (icut_ok w i Hz Hi D) as (Vi & _). specialize (Ax Vi (icut_unsig w i Hz U Hi1 D)). split.
          * intros [[?|(x & <- & Hx)]|(j & b & Hj & Rest)]; [left; assumption| |].
            -- right. exists i, x. split; [left; reflexivity|]. split; [exact Hi1|]. split; [exact D|]. split; [apply Ax; exact Hx|reflexivity].
            -- right. exists j, b. split; [right; exact Hj|exact Rest].
          * intros [?|(j & b & [<-|Hj] & Rest)]; [left; left; assumption| |right; exists j, b; auto]. left. right. exists b. destruct Rest as (_ & _ & Ab & ->). split; [reflexivity|]. apply Ax. exact Ab.
        + cbn [rbind] in R. destruct (IHd c1 out c2 out2 (fun j Hj => Hd j (or_intror Hj)) H1 F1 R) as (K1 & K2 & K3). split; [exact K1|]. split; [exact K2|]. intros Hz U N a. rewrite (K3 Hz U N a). split.
          * intros [?|(j & b & Hj & Rest)]; [left; assumption|right; exists j, b; split; [right; exact Hj|exact Rest]].
          * intros [?|(j & b & [<-|Hj] & Rest)]; [left; assumption| |right; exists j, b; auto]. exfalso. destruct Rest as (Hi1 & D & _). apply desc_lt in D; try assumption. unfold dgen in L. replace (i =? 0) with false in L by lia. lia. }
    destruct (Loop (zrange 0 (zlen w)) c [] c2 l2 (fun i Hi => proj1 (proj1 (In_zrange _ _ _) Hi)) Hc ltac:(constructor) R) as (K1 & K2 & K3).
    assert (A : invol w -> unsig w -> datoms_ok w l2).
    { intros Hz U a. assert (N : w <> []) by (intros ->; apply Q; reflexivity). rewrite (K3 Hz U N a), (atomw_last w a Hz U N). split; [intros [[]|(i & b & _ & Rest)]; exists i, b; exact Rest|].
      intros (i & b & Hi & D2 & Rest). right. exists i, b. split; [|auto]. apply In_zrange. split; [lia|]. destruct (Z_lt_ge_dec i (zlen w)) as [L|L]; [exact L|]. exfalso. unfold descent in D2. replace (i =? 0) with false in D2 by lia. rewrite (pcall_out w (i + 1)) in D2 by lia.
      destruct (Z.eq_dec i (zlen w)) as [->|Ni]; [|rewrite (pcall_out w i) in D2 by lia; lia]. pose proof (pcall_abs w (zlen w) (proj1 Hw) ltac:(lia)). lia. }
    auto.
Qed.
Lemma d_total : forall fuel c w, dc_ok c -> invol w -> unsig w -> ell w < Z.of_nat fuel -> exists c' l, get_atoms_d fuel c w = Ok (c', l).
Proof.
  induction fuel as [|fuel IH]; intros c w Hc Hz U Hf; [pose proof (ell_nonneg w); lia|]. pose proof Hz as [Hw _]. cbn [get_atoms_d].
  replace (filter (fun i => i <? 0) w) with (@nil Z).
  2:{ pose proof (unsig_entries w U) as P. clear -P. induction w as [|x w IHw]; [reflexivity|]. cbn [filter]. replace (x <? 0) with false by (specialize (P x (or_introl eq_refl)); lia). apply IHw. intros y Hy. apply P. right. exact Hy. }
  change (negb (zlen (@nil Z) mod 2 =? 0)) with false. cbv beta iota. rewrite pinv_ok by apply Hw. cbn [rbind]. rewrite (invol_invp w Hz). assert (Qw : peq w w = true) by (apply zlist_eqb_eq; reflexivity). rewrite Qw. cbn [negb].
  destruct (dget zlist_eqb c w) as [l0|]; [eexists _, _; reflexivity|]. destruct (Z.eqb_spec (d_length w) 0) as [Q|Q]; [eexists _, _; reflexivity|].
  fold (dbody fuel w). assert (N : w <> []) by (intros ->; apply Q; reflexivity).
  assert (Loop : forall ds c1 out, (forall i, In i ds -> 0 <= i) -> dc_ok c1 -> exists r, rfold (dbody fuel w) ds (c1, out) = Ok r).
  { induction ds as [|i ds IHd]; intros c1 out Hd H1; [eexists; reflexivity|]. pose proof (Hd i (or_introl eq_refl)) as Hi. destruct (dgen_ok i Hi) as [_ Cg]. cbn [rfold]. rewrite dbody_eq by assumption.
    destruct (Z.ltb_spec (d_length (mulp w (dgen i))) (d_length w)) as [L|L]; [|cbn [rbind]; apply IHd; [intros j Hj; apply Hd; right; exact Hj|exact H1]].
    assert (Hi1 : 1 <= i) by (destruct (Z.eq_dec i 0) as [->|]; [exfalso; pose proof (ds0_longer w Hw U N); change (dgen 0) with ds0 in L; lia|lia]).
    assert (Eg : dgen i = sp i) by (unfold dgen; replace (i =? 0) with false by lia; reflexivity). rewrite Eg in *. assert (D : descent (pcall w) i) by (apply desc_lt; assumption). rewrite dcut_icut by assumption.
    destruct (icut_ok w i Hz Hi D) as (Vi & _ & _ & Li). destruct (IH c1 (icut w i) H1 Vi (icut_unsig w i Hz U Hi1 D) ltac:(lia)) as (c3 & xs & G). rewrite G. cbn [rbind]. destruct (d_keep fuel c1 (icut w i) c3 xs H1 (proj1 Vi) G) as (H3 & Fx & _).
    rewrite (rmap_ok _ _ _ (fun a => mulp a (sp i))) by (intros x Hx; rewrite Forall_forall in Fx; specialize (Fx x Hx); apply pmul_ok; auto with perm). cbn [rbind]. apply IHd; [intros j Hj; apply Hd; right; exact Hj|exact H3]. }
  destruct (Loop (zrange 0 (zlen w)) c [] (fun i Hi => proj1 (proj1 (In_zrange _ _ _) Hi)) Hc) as ([c2 l2] & R). rewrite R. cbn [rbind]. eexists _, _. reflexivity.
Qed.
