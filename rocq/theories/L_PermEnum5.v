(* involutions(n, signed=True) *)
From Coq Require Import List ZArith Lia Bool Permutation Arith.
From Verif Require Import PyBase M_Partitions M_Symmetric L_PartEnum M_Perm S_Perm L_Perm L_PermLen L_PermWord L_PermMisc S_Bruhat S_InvWords L_InvLen4 M_Bruhat L_Bruhat L_Bruhat2 M_PermEnum L_PermEnum1 L_PermEnum2 L_PermEnum3 L_PermEnum4.
Import ListNotations.
Local Open Scope Z_scope.

Lemma sublist_NoDup : forall (l s : list Z), NoDup l -> sublist s l -> NoDup s.
Proof.
  induction l as [|a l IH]; intros s N H; cbn [sublist] in H; [subst; constructor|]. inversion N as [|? ? Na N']; subst. destruct H as [H|(s' & -> & H)]; [apply IH; assumption|]. constructor; [|apply IH; assumption].
  intro I. apply Na. exact (sublist_incl _ _ _ H a I).
Qed.
Definition negate (i x : Z) : Z := if Z.abs x =? i then - x else x.
Lemma negate_refl : forall i x, 1 <= i -> negate i x = refl i (- i) x.
Proof. intros i x Hi. unfold negate, refl. repeat match goal with |- context [?x =? ?y] => destruct (Z.eqb_spec x y) end; lia. Qed.
Lemma reflection_s_ok : forall i, 1 <= i -> exists s, reflection_s i = Ok s /\ canonical s /\ forall x, pcall s x = negate i x.
Proof.
  intros i Hi. destruct (signed_map_line (refl i (- i)) i) as [A B]; [apply refl_signed; lia|lia|intros x Hx; rewrite <- negate_refl by lia; unfold negate; destruct (Z.eqb_spec (Z.abs x) i); lia|].
  exists (strip (line (refl i (- i)) i)). split; [|split; [apply strip_canonical; exact A|intro x; rewrite pcall_strip, B, negate_refl by lia; reflexivity]].
  unfold reflection_s, py_index. assert (L : zlen (zrange 1 (i + 1)) = i) by (rewrite zlen_zrange; lia). rewrite L. replace ((0 <=? i - 1) && (i - 1 <? i)) with true by lia. cbn [rbind].
  assert (Lu : forall l k v, zlen (upd l k v) = zlen l) by (intros; unfold zlen; rewrite length_upd; reflexivity).
  rewrite Lu, L. replace ((0 <=? i - 1) && (i - 1 <? i)) with true by lia. cbn [rbind].
  assert (E : upd (upd (zrange 1 (i + 1)) (Z.to_nat (i - 1)) (- i)) (Z.to_nat (i - 1)) (- i) = line (refl i (- i)) i).
  { apply nthz_ext; [rewrite !Lu, L, zlen_line; lia|]. rewrite !Lu, L. intros k Hk. assert (Ln : length (zrange 1 (i + 1)) = Z.to_nat i) by (unfold zlen in L; lia).
    rewrite nthz_upd by (try rewrite Lu; try rewrite length_upd; lia). rewrite nthz_upd by lia. unfold line. rewrite nthz_map, !nthz_zrange by lia. rewrite <- negate_refl by lia.
    rewrite !Z2Nat.id by lia. unfold negate. repeat match goal with |- context [?x =? ?y] => destruct (Z.eqb_spec x y) end; lia. }
  rewrite E. rewrite mkperm_ok by exact A. reflexivity.
Qed.

(* the involution with absolute values w, negative on the orbits meeting C *)
Definition flipped (w : list Z) (C : list Z) (x : Z) : Z := if memz x C || memz (pcall w x) C then - pcall w x else pcall w x.
Section Flip.
  Variable w : list Z.
  Hypothesis Hw : canonical w.
  Hypothesis Iw : involution_map (pcall w).
  Definition low (C : list Z) : Prop := forall i, In i C -> 1 <= i /\ i <= pcall w i.
  Lemma flip_step : forall C v i, low C -> 1 <= i -> i <= pcall w i -> ~ In i C -> canonical v -> (forall x, 0 < x -> pcall v x = flipped w C x) ->
    exists v', sign_change v i = Ok v' /\ canonical v' /\ forall x, 0 < x -> pcall v' x = flipped w (i :: C) x.
  Proof.
    intros C v i LC Hi Li Ni Hv Ev. pose proof Iw as [I1 I2]. destruct (reflection_s_ok i Hi) as (s & Es & Cs & Ps). unfold sign_change. rewrite Es. cbn [rbind].
    assert (NC : ~ In (pcall w i) C \/ pcall w i = i). { destruct (Z.eq_dec (pcall w i) i) as [E|E]; [right; exact E|left]. intro H. apply LC in H. rewrite I1 in H. lia. }
    assert (Vi : pcall v i = pcall w i). { rewrite Ev by lia. unfold flipped. replace (memz i C) with false by (symmetry; apply not_true_iff_false; rewrite memz_In; exact Ni). replace (memz (pcall w i) C) with false; [reflexivity|]. symmetry. apply not_true_iff_false. rewrite memz_In. destruct NC as [N|Q0]; [exact N|rewrite Q0; exact Ni]. }
    assert (Step : forall x, 0 < x -> x <> i -> pcall w x <> i -> flipped w (i :: C) x = flipped w C x).
    { intros x Hx N1 N2. unfold flipped. cbn [memz existsb]. fold (memz x C) (memz (pcall w x) C). destruct (Z.eqb_spec x i); [contradiction|]. destruct (Z.eqb_spec (pcall w x) i); [contradiction|]. reflexivity. }
    assert (Si : flipped w (i :: C) i = - pcall w i) by (unfold flipped; cbn [memz existsb]; rewrite Z.eqb_refl; reflexivity).
    destruct (Z.eqb_spec (pcall v i) i) as [Fx|Mv].
    - exists (mulp v s). split; [apply pmul_ok; auto with perm|]. split; [auto with perm|]. intros x Hx. rewrite mulp_call by auto with perm. rewrite Ps. unfold negate. destruct (Z.eqb_spec (Z.abs x) i) as [E|E].
      + assert (x = i) by lia. subst x. rewrite pcall_odd, Si, Vi. reflexivity.
      + rewrite Ev by exact Hx. symmetry. apply Step; [exact Hx|lia|]. intro Q. apply E. assert (Q2 : x = i) by (rewrite <- (I1 x), Q; congruence). lia.
    - exists (mulp (mulp s v) s). split; [apply conjugate_ok; assumption|]. split; [auto 10 with perm|]. intros x Hx. rewrite !mulp_call by auto 10 with perm. rewrite !Ps. unfold negate at 2. destruct (Z.eqb_spec (Z.abs x) i) as [E|E].
      + assert (x = i) by lia. subst x. rewrite pcall_odd, Si, Vi. unfold negate. destruct (Z.eqb_spec (Z.abs (- pcall w i)) i); [|reflexivity]. specialize (I2 i Hx). lia.
      + destruct (Z.eq_dec (pcall w x) i) as [Q|Q].
        * assert (Q2 : x = pcall w i) by (rewrite <- (I1 x), Q; reflexivity). rewrite Ev by exact Hx. unfold flipped. cbn [memz existsb]. fold (memz x C) (memz (pcall w x) C). rewrite Q, Z.eqb_refl.
          replace (memz i C) with false by (symmetry; apply not_true_iff_false; rewrite memz_In; exact Ni). replace (memz x C) with false by (symmetry; apply not_true_iff_false; rewrite memz_In; destruct NC as [N|N]; [rewrite Q2; exact N|congruence]).
          cbn [orb]. rewrite orb_true_r. unfold negate. destruct (Z.eqb_spec (Z.abs i) i); lia.
        * rewrite Step by (try assumption; lia). rewrite <- Ev by exact Hx. unfold negate. destruct (Z.eqb_spec (Z.abs (pcall v x)) i) as [A|A]; [|reflexivity]. exfalso. apply Q. rewrite Ev in A by exact Hx. unfold flipped in A. specialize (I2 x Hx). destruct (memz x C || memz (pcall w x) C); lia.
  Qed.
  Lemma flip_all : forall l C v, low (l ++ C) -> NoDup (l ++ C) -> canonical v -> (forall x, 0 < x -> pcall v x = flipped w C x) ->
    exists v', rfold sign_change l v = Ok v' /\ canonical v' /\ forall x, 0 < x -> pcall v' x = flipped w (l ++ C) x.
  Proof.
    induction l as [|i l IH]; intros C v L N Hv Ev; [exists v; split; [reflexivity|]; split; assumption|].
    cbn [app] in *. inversion N as [|? ? Ni N']; subst. rewrite in_app_iff in Ni. destruct (L i (or_introl eq_refl)) as [Hi Li].
    destruct (flip_step C v i) as (v1 & E1 & C1 & P1); [intros x Hx; apply L; right; apply in_app_iff; right; exact Hx|exact Hi|exact Li|tauto|exact Hv|exact Ev|].
    destruct (IH (i :: C) v1) as (v2 & E2 & C2 & P2).
    - intros x Hx. apply L. apply in_app_iff in Hx. destruct Hx as [Hx|[<-|Hx]]; [right; apply in_app_iff; left; exact Hx|left; reflexivity|right; apply in_app_iff; right; exact Hx].
    - apply Permutation_NoDup with (i :: l ++ C); [apply Permutation_middle|exact N].
    - exact C1.
    - exact P1.
    - exists v2. split; [cbn [rfold]; rewrite E1; exact E2|]. split; [exact C2|]. intros x Hx. rewrite P2 by exact Hx. unfold flipped.
      assert (M : forall y, memz y (l ++ i :: C) = memz y (i :: l ++ C)). { intro y. apply eq_true_iff_eq. rewrite !memz_In. rewrite in_app_iff. cbn [In]. rewrite in_app_iff. tauto. }
      rewrite !M. reflexivity.
  Qed.
End Flip.

Definition signed_inv (v : list Z) : Prop := canonical v /\ forall x, pcall v (pcall v x) = x.
Lemma flipped_nil : forall w x, flipped w [] x = pcall w x.
Proof. reflexivity. Qed.
Lemma flipped_inv : forall w C v, canonical w -> involution_map (pcall w) -> canonical v -> (forall x, 0 < x -> pcall v x = flipped w C x) -> signed_inv v /\ forall x, 0 < x -> Z.abs (pcall v x) = pcall w x.
Proof.
  intros w C v Hw [I1 I2] Hv Ev. assert (A : forall x, 0 < x -> Z.abs (pcall v x) = pcall w x) by (intros x Hx; rewrite Ev by exact Hx; unfold flipped; specialize (I2 x Hx); destruct (memz x C || memz (pcall w x) C); lia).
  split; [|exact A]. split; [exact Hv|]. apply pos_invol; [exact Hv|]. intros x Hx. rewrite (Ev x Hx). unfold flipped. destruct (memz x C || memz (pcall w x) C) eqn:E.
  - rewrite pcall_odd, Ev by (apply I2; exact Hx). unfold flipped. rewrite I1. rewrite orb_comm, E. lia.
  - rewrite Ev by (apply I2; exact Hx). unfold flipped. rewrite I1, orb_comm, E. reflexivity.
Qed.
(* the absolute values of a signed involution *)
Lemma abs_perm : forall v, canonical v -> exists w, canonical w /\ zlen w <= zlen v /\ forall x, 0 < x -> pcall w x = Z.abs (pcall v x).
Proof.
  intros v Hv. pose proof (proj1 Hv) as Sv. assert (Sa : signed_word (map Z.abs v)).
  { unfold signed_word in *. rewrite map_map. unfold zlen in *. rewrite map_length. erewrite map_ext; [exact Sv|]. intro x. lia. }
  exists (strip (map Z.abs v)). destruct (strip_full _ Sa) as [C L]. split; [exact C|]. assert (Lm : zlen (map Z.abs v) = zlen v) by (unfold zlen; rewrite map_length; reflexivity). split; [lia|].
  intros x Hx. rewrite pcall_strip. destruct (Z_le_gt_dec x (zlen v)); [rewrite !pcall_pos by lia; apply nthz_map; lia|rewrite !pcall_out by lia; lia].
Qed.
Lemma signed_ok : forall n, 0 <= n -> exists R, NoDup R /\ (forall v, In v R <-> signed_inv v /\ zlen v <= n) /\
  forall fuel, (length (boxl (Z.to_nat n)) <= fuel)%nat -> involutions fuel n true false = Ok R.
Proof.
  intros n Hn. destruct (unsigned_ok n Hn) as (U & NU & CU & FU).
  pose (lows := fun w => filter (fun i => i <=? pcall w i) (zrange 1 (n + 1))).
  pose (step := fun (_ : nat) (ans : list (list Z)) w => rfold (fun ans conjugators => do v <- rfold sign_change conjugators w; Ok (ans ++ [v])) (all_combinations (lows w)) ans).
  pose (P := fun w v => signed_inv v /\ zlen v <= n /\ forall x, 0 < x -> Z.abs (pcall v x) = pcall w x).
  assert (Low : forall w i, In i (lows w) <-> 1 <= i <= n /\ i <= pcall w i) by (intros w i; unfold lows; rewrite filter_In, In_zrange, Z.leb_le; intuition lia).
  assert (Ext : forall a b, canonical a -> canonical b -> (forall x, 0 < x -> pcall a x = pcall b x) -> a = b).
  { intros a b Ha Hb E. apply canonical_ext; [exact Ha|exact Hb|]. intro x. destruct (Z_lt_ge_dec 0 x); [apply E; lia|]. destruct (Z.eq_dec x 0) as [->|]; [rewrite !pcall_zero; reflexivity|]. replace x with (- - x) by lia. rewrite (pcall_odd a), (pcall_odd b), E by lia. reflexivity. }
  destruct (rfold_collect _ _ step P (length (boxl (Z.to_nat n))) U NU) as (R & NR & CR & FR).
  - intros a b v Ha Hb (_ & _ & A) (_ & _ & B). apply CU in Ha, Hb. apply Ext; [apply Ha|apply Hb|]. intros x Hx. rewrite <- A, <- B by exact Hx. reflexivity.
  - intros w Hu. apply CU in Hu. destruct Hu as (Cw & Iw & Lw).
    assert (Fl : forall C, sublist C (lows w) -> exists v, rfold sign_change C w = Ok v /\ canonical v /\ forall x, 0 < x -> pcall v x = flipped w C x).
    { intros C HC. destruct (flip_all w Iw C [] w) as (v & E & Cv & Pv).
      - intros i Hi. rewrite app_nil_r in Hi. apply (sublist_incl _ _ _ HC) in Hi. apply Low in Hi. lia.
      - rewrite app_nil_r. apply sublist_NoDup with (lows w); [apply NoDup_filter; apply NoDup_zrange|exact HC].
      - exact Cw.
      - intros x _. reflexivity.
      - rewrite app_nil_r in Pv. exists v. split; [exact E|]. split; assumption. }
    pose (val := fun C => match rfold sign_change C w with Ok v => v | Err _ => [] end).
    assert (Val : forall C, sublist C (lows w) -> rfold sign_change C w = Ok (val C) /\ canonical (val C) /\ forall x, 0 < x -> pcall (val C) x = flipped w C x).
    { intros C HC. destruct (Fl C HC) as (v & E & Cv & Pv). unfold val. rewrite E. split; [reflexivity|]. split; assumption. }
    pose proof Iw as [I1 I2].
    assert (Mem : forall C i, sublist C (lows w) -> 1 <= i <= n -> i <= pcall w i -> (In i C <-> pcall (val C) i < 0)).
    { intros C i HC Hi Li. rewrite (proj2 (proj2 (Val C HC))) by lia. unfold flipped. specialize (I2 i ltac:(lia)). destruct (memz i C) eqn:E1.
      - apply memz_In in E1. cbn [orb]. split; [intros _; lia|intros _; exact E1].
      - assert (N1 : ~ In i C) by (rewrite <- memz_In; congruence). split; [contradiction|]. cbn [orb]. destruct (memz (pcall w i) C) eqn:E2; [|lia]. apply memz_In in E2. pose proof (sublist_incl _ _ _ HC _ E2) as E3. apply Low in E3. rewrite I1 in E3. assert (pcall w i = i) by lia. congruence. }
    exists (map val (all_combinations (lows w))). split; [|split].
    + apply NoDup_map_inj_in; [|apply all_combinations_NoDup; apply NoDup_filter; apply NoDup_zrange]. intros C D HC HD E. apply all_combinations_In in HC, HD. apply (sublist_ext _ (lows w)); [apply NoDup_filter; apply NoDup_zrange|exact HC|exact HD|].
      intro i. split; intro H; [pose proof (sublist_incl _ _ _ HC i H) as J|pose proof (sublist_incl _ _ _ HD i H) as J]; apply Low in J; [apply (Mem D i HD); [lia|lia|rewrite <- E; apply (Mem C i HC); [lia|lia|exact H]]|apply (Mem C i HC); [lia|lia|rewrite E; apply (Mem D i HD); [lia|lia|exact H]]].
    + intro v. rewrite in_map_iff. split.
      * intros (C & <- & HC). apply all_combinations_In in HC. destruct (Val C HC) as (_ & Cv & Pv). destruct (flipped_inv w C (val C) Cw Iw Cv Pv) as [S A]. split; [exact S|]. split; [|exact A].
        apply fix_len; [exact Hn|exact Cv|]. intros x Hx. rewrite Pv by lia. unfold flipped. rewrite (pcall_out w x) by lia. replace (memz x C) with false; [reflexivity|]. symmetry. apply not_true_iff_false. rewrite memz_In. intro H. apply (sublist_incl _ _ _ HC) in H. apply Low in H. lia.
      * intros ((Cv & Iv) & Lv & A). pose (C := filter (fun i => pcall v i <? 0) (lows w)). assert (HC : sublist C (lows w)) by apply sublist_filter. exists C. split; [|apply all_combinations_In; exact HC]. destruct (Val C HC) as (_ & Cv' & Pv'). apply Ext; [exact Cv'|exact Cv|].
        assert (InC : forall i, In i C <-> 1 <= i <= n /\ i <= pcall w i /\ pcall v i < 0) by (intro i; unfold C; rewrite filter_In, Low, Z.ltb_lt; tauto).
        assert (Sg : forall x, 0 < x -> (pcall v x < 0 <-> pcall v (pcall w x) < 0)).
        { intros x Hx. pose proof (A x Hx) as Ax. pose proof (Iv x) as Ivx. destruct (Z_lt_ge_dec (pcall v x) 0) as [H|H].
          - assert (Q : pcall v x = - pcall w x) by lia. rewrite Q, pcall_odd in Ivx. lia.
          - assert (Q : pcall v x = pcall w x) by lia. rewrite Q in Ivx. lia. }
        intros x Hx. rewrite Pv' by exact Hx. unfold flipped. pose proof (A x Hx) as Ax. pose proof (I2 x Hx) as Px. destruct (Z_lt_ge_dec (pcall v x) 0) as [H|H].
        -- assert (Bx : x <= n) by (destruct (Z_le_gt_dec x n); [assumption|]; rewrite pcall_out in H by lia; lia).
           replace (memz x C || memz (pcall w x) C) with true; [lia|]. symmetry. apply orb_true_iff. rewrite !memz_In, !InC. destruct (Z_le_gt_dec x (pcall w x)); [left; split; [lia|]; split; assumption|]. right. rewrite I1. split; [lia|]. split; [lia|]. exact (proj1 (Sg x Hx) H).
        -- replace (memz x C || memz (pcall w x) C) with false; [lia|]. symmetry. apply orb_false_iff. split; apply not_true_iff_false; rewrite memz_In, InC; [lia|]. intros (_ & _ & K). apply (proj2 (Sg x Hx)) in K. lia.
    + intros fuel acc _. unfold step. rewrite (rfold_app _ _ _ (fun C => [val C])); [rewrite flat_map_single; reflexivity|]. intros acc' C HC. apply all_combinations_In in HC. rewrite (proj1 (Val C HC)). reflexivity.
  - exists R. split; [exact NR|]. split.
    + intro v. rewrite CR. split; [intros (w & _ & S & L & _); split; assumption|]. intros [[Cv Iv] Lv]. destruct (abs_perm v Cv) as (w & Cw & Lw & Aw). exists w. split; [|split; [split; assumption|]; split; [exact Lv|]; intros x Hx; symmetry; apply Aw; exact Hx].
      apply CU. split; [exact Cw|]. assert (Nz : forall x, 0 < x -> 0 < pcall w x). { intros x Hx. rewrite Aw by exact Hx. assert (pcall v x <> 0); [|lia]. intro Q. pose proof (Iv x) as Ix. rewrite Q, pcall_zero in Ix. lia. }
      split; [|lia]. split; [|exact Nz]. apply pos_invol; [exact Cw|]. intros x Hx. rewrite (Aw (pcall w x)) by (apply Nz; exact Hx). rewrite Aw by exact Hx. destruct (Z.abs_eq_or_opp (pcall v x)) as [Q|Q]; rewrite Q; [|rewrite pcall_odd]; rewrite Iv; lia.
    + intros fuel Hf. unfold involutions. cbn [negb]. rewrite andb_false_r. rewrite FU by exact Hf. cbn [rbind]. specialize (FR fuel [] Hf). exact FR.
Qed.
