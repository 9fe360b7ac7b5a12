(* C22 - C25 *)
From Coq Require Import List ZArith Lia Bool.
From Verif Require Import PyBase FinSum M_Partitions M_Vectors M_Words S_Words L_Words L_Words2.
Import ListNotations.
Local Open Scope Z_scope.

(* C22, single words: the operators never fail, follow the bracketing rule, are mutually
   inverse, keep the length and change exactly one letter. *)
Theorem C22_crystal_words : forall i w,
  (exists r, f_crystal_operator i [w] true = Ok r /\ (r = CNone \/ exists v, r = CWord v)) /\
  (exists r, e_crystal_operator i [w] true = Ok r /\ (r = CNone \/ exists v, r = CWord v)) /\
  (forall v, f_crystal_operator i [w] true = Ok (CWord v) <-> f_rule i w v) /\
  (forall v, e_crystal_operator i [w] true = Ok (CWord v) <-> e_rule i w v) /\
  (forall v, f_crystal_operator i [w] true = Ok (CWord v) <-> e_crystal_operator i [v] true = Ok (CWord w)) /\
  (forall v, f_crystal_operator i [w] true = Ok (CWord v) -> length v = length w /\ replaced i (i + 1) w v) /\
  (forall v, e_crystal_operator i [w] true = Ok (CWord v) -> length v = length w /\ replaced (i + 1) i w v).
Proof.
  intros i w. 
  assert (F : forall u v, f_crystal_operator i [u] true = Ok (CWord v) <-> f_rule i u v).
  { intros u v. rewrite <- f_word_rule. unfold f_crystal_operator. simpl concat. rewrite app_nil_r.
    destruct (f_word i u) as [[x|]|e]; simpl; split; congruence. }
  assert (E : forall u v, e_crystal_operator i [u] true = Ok (CWord v) <-> e_rule i u v).
  { intros u v. rewrite <- e_word_rule. unfold e_crystal_operator. simpl concat. rewrite app_nil_r.
    destruct (e_word i u) as [[x|]|e]; simpl; split; congruence. }
  split; [|split; [|split; [|split; [|split; [|split]]]]].
  - unfold f_crystal_operator. simpl concat. rewrite app_nil_r. destruct (f_word_total i w) as [r ->].
    simpl. eexists. split; [reflexivity|]. destruct r; simpl; eauto.
  - unfold e_crystal_operator. simpl concat. rewrite app_nil_r. destruct (e_word_total i w) as [r ->].
    simpl. eexists. split; [reflexivity|]. destruct r; simpl; eauto.
  - apply F.
  - apply E.
  - intro v. rewrite F, E. apply rules_inverse.
  - intros v H. apply F in H. split; [apply (f_rule_length i); assumption|].
    destruct H as (x & y & H1 & H2 & _). exists x, y. auto.
  - intros v H. apply E in H. split; [symmetry; apply (f_rule_length i); apply rules_inverse; assumption|].
    destruct H as (x & y & H1 & H2 & _). exists x, y. auto.
Qed.
Print Assumptions C22_crystal_words.

(* C22, tuples of subwords (unpack=False, or at least two of them) *)
Theorem C22_crystal_tuples : forall i ws unpack, (unpack = false \/ (2 <= length ws)%nat) ->
  (exists r, f_crystal_operator i ws unpack = Ok r /\ (r = CNone \/ exists vs, r = CTuple vs)) /\
  (exists r, e_crystal_operator i ws unpack = Ok r /\ (r = CNone \/ exists vs, r = CTuple vs)) /\
  (forall vs, f_crystal_operator i ws unpack = Ok (CTuple vs) <->
              map (@length Z) vs = map (@length Z) ws /\ f_rule i (concat ws) (concat vs)) /\
  (forall vs, e_crystal_operator i ws unpack = Ok (CTuple vs) <->
              map (@length Z) vs = map (@length Z) ws /\ e_rule i (concat ws) (concat vs)) /\
  (forall vs, f_crystal_operator i ws unpack = Ok (CTuple vs) <->
              e_crystal_operator i vs unpack = Ok (CTuple ws)).
Proof.
  intros i ws unpack Hu.
  assert (R : forall us r, (unpack = false \/ (2 <= length us)%nat) -> crystal_result us unpack r =
    match r with None => CNone | Some w => CTuple (split_like us w) end).
  { intros us r H. unfold crystal_result. destruct r as [w|]; [|reflexivity].
    destruct H as [->|H]; [rewrite andb_false_r; reflexivity|].
    replace (Nat.leb (length us) 1) with false; [reflexivity|]. symmetry. apply Nat.leb_gt. lia. }
  assert (F : forall us vs, (unpack = false \/ (2 <= length us)%nat) ->
    (f_crystal_operator i us unpack = Ok (CTuple vs) <->
              map (@length Z) vs = map (@length Z) us /\ f_rule i (concat us) (concat vs))).
  { intros us vs H. unfold f_crystal_operator.
    destruct (f_word_total i (concat us)) as [r Er]. rewrite Er. cbn [rbind]. rewrite R by assumption.
    destruct r as [w|].
    - assert (Hr := proj1 (f_word_rule i _ _) Er). pose proof (f_rule_length i _ _ Hr) as Hl.
      destruct (split_like_spec us w Hl) as [S1 S2]. split.
      + intro E. injection E as <-. rewrite S1, S2. auto.
      + intros [E1 E2]. apply f_word_rule in E2. rewrite Er in E2. injection E2 as ->.
        rewrite split_like_inv by auto. reflexivity.
    - split; [discriminate|]. intros [_ E2]. apply f_word_rule in E2. congruence. }
  assert (E : forall us vs, (unpack = false \/ (2 <= length us)%nat) ->
    (e_crystal_operator i us unpack = Ok (CTuple vs) <->
              map (@length Z) vs = map (@length Z) us /\ e_rule i (concat us) (concat vs))).
  { intros us vs H. unfold e_crystal_operator.
    destruct (e_word_total i (concat us)) as [r Er]. rewrite Er. cbn [rbind]. rewrite R by assumption.
    destruct r as [w|].
    - assert (Hr := proj1 (e_word_rule i _ _) Er).
      pose proof (f_rule_length i _ _ (proj2 (rules_inverse i _ _) Hr)) as Hl. symmetry in Hl.
      destruct (split_like_spec us w Hl) as [S1 S2]. split.
      + intro E. injection E as <-. rewrite S1, S2. auto.
      + intros [E1 E2]. apply e_word_rule in E2. rewrite Er in E2. injection E2 as ->.
        rewrite split_like_inv by auto. reflexivity.
    - split; [discriminate|]. intros [_ E2]. apply e_word_rule in E2. congruence. }
  split; [|split; [|split; [|split]]].
  - unfold f_crystal_operator. destruct (f_word_total i (concat ws)) as [r ->]. cbn [rbind].
    eexists. split; [reflexivity|]. rewrite R by assumption. destruct r; eauto.
  - unfold e_crystal_operator. destruct (e_word_total i (concat ws)) as [r ->]. cbn [rbind].
    eexists. split; [reflexivity|]. rewrite R by assumption. destruct r; eauto.
  - intro vs. apply F. assumption.
  - intro vs. apply E. assumption.
  - intro vs. rewrite F by assumption. split.
    + intros [H1 H2].
      assert (Hv : unpack = false \/ (2 <= length vs)%nat).
      { destruct Hu as [Hu|Hu]; [left; assumption|right]. apply (f_equal (@length nat)) in H1.
        rewrite !map_length in H1. lia. }
      apply E; [assumption|]. split; [congruence|]. apply rules_inverse. assumption.
    + intro H. 
      assert (Hv : unpack = false \/ (2 <= length vs)%nat).
      { destruct Hu as [Hu|Hu]; [left; assumption|right].
        unfold e_crystal_operator in H. destruct (e_word i (concat vs)) as [[w|]|e]; cbn [rbind] in H; try discriminate.
        unfold crystal_result in H. destruct ((Nat.leb (length vs) 1) && unpack); [discriminate|].
        injection H as H. apply (f_equal (@length (list Z))) in H.
        assert (L : forall us x, length (split_like us x) = length us).
        { induction us as [|u us IH]; intro x; simpl; [reflexivity|]. now rewrite IH. }
        rewrite L in H. lia. }
      apply E in H; [|assumption]. destruct H as [H1 H2]. split; [congruence|]. apply rules_inverse. assumption.
Qed.
Print Assumptions C22_crystal_tuples.

Example C22_example :
  f_crystal_operator 1 [[1; 2]; []; [1; 3; 1; 2; 2; 1]] true = Ok (CTuple [[1; 2]; []; [1; 3; 2; 2; 2; 1]]) /\
  f_crystal_operator 1 [[2; 1; 5]] true = Ok CNone /\
  e_crystal_operator 1 [[1; 2; 1; 3; 2; 2; 2; 1]] true = Ok (CWord [1; 2; 1; 3; 1; 2; 2; 1]).
Proof. vm_compute. auto. Qed.

(* C23 *)
Theorem C23_quasisymmetrize : forall w zeta, exists d,
  quasisymmetrize w zeta = Ok d /\
  (* a canonical vector: distinct keys, no zero coefficients *)
  NoDup (map fst d) /\ Forall (fun kv => snd kv <> 0) d /\
  (* factorisations of w into nonempty words *)
  (forall us, Forall (fun u => u <> []) us -> concat us = w -> qget d (wlens us) = zprod (map zeta us)) /\
  (* all other keys *)
  (forall al, ~ (Forall (fun a => 0 < a) al /\ zsum al = Z.of_nat (length w)) -> qget d al = 0).
Proof.
  intros w zeta. destruct (qsym_spec zeta (length w) w (le_n _)) as (d & Hd & [H1 H2] & H3).
  exists d. split; [exact Hd|]. split; [assumption|]. split; [assumption|]. split.
  - intros us Hu <-. rewrite H3. apply qcoef_factors. assumption.
  - intros al Hal. rewrite H3. apply qcoef_other. intros (us & Hu & <- & <-). apply Hal. clear - Hu. split.
    + unfold wlens. rewrite Forall_forall in *. intros a Ha. apply in_map_iff in Ha. destruct Ha as (u & <- & Hin).
      specialize (Hu u Hin). destruct u; [congruence|simpl; lia].
    + induction us as [|u us IH]; [reflexivity|]. simpl. rewrite app_length.
      rewrite IH by exact (Forall_inv_tail Hu). lia.
Qed.
Print Assumptions C23_quasisymmetrize.

Example C23_example :
  quasisymmetrize [2; 1; 3] unimodal_zeta =
    Ok [([1; 1; 1], 8); ([1; 2], 4); ([2; 1], 4); ([3], 2)] /\
  quasisymmetrize [2; 1; 3] decreasing_zeta = Ok [([1; 1; 1], 1); ([2; 1], 1)].
Proof. vm_compute. auto. Qed.

(* C24 *)
Theorem C24_zetas : forall w,
  ((pairwise Z.lt w -> increasing_zeta w = 1) /\ (~ pairwise Z.lt w -> increasing_zeta w = 0)) /\
  ((pairwise Z.gt w -> decreasing_zeta w = 1) /\ (~ pairwise Z.gt w -> decreasing_zeta w = 0)) /\
  ((pairwise Z.le w -> weakly_increasing_zeta w = 1) /\ (~ pairwise Z.le w -> weakly_increasing_zeta w = 0)) /\
  ((pairwise Z.ge w -> weakly_decreasing_zeta w = 1) /\ (~ pairwise Z.ge w -> weakly_decreasing_zeta w = 0)).
Proof.
  intro w. split; [|split; [|split]]; apply zeta_iff; intros;
    rewrite ?Z.ltb_lt, ?gtb_spec, ?Z.leb_le, ?geb_spec in *; try tauto; lia.
Qed.
Print Assumptions C24_zetas.

(* w decreases to the letter m and then increases *)
Definition valley (down up : Z -> Z -> Prop) (w : list Z) (m : Z) : Prop :=
  exists d u, w = d ++ m :: u /\ pairwise down (d ++ [m]) /\ pairwise up (m :: u).
(* strictly decreasing to m, m repeated once, strictly increasing *)
Definition flat_valley (w : list Z) : Prop :=
  exists d m u, w = d ++ m :: m :: u /\ pairwise Z.gt (d ++ [m]) /\ pairwise Z.lt (m :: u).

Theorem C24_unimodal : forall w,
  (w = [] -> unimodal_zeta w = 1 /\ right_weakly_unimodal_zeta w = 1 /\
             left_weakly_unimodal_zeta w = 1 /\ weakly_unimodal_zeta w = 1) /\
  (w <> [] ->
    (* strict/strict *)
    ((exists m, valley Z.gt Z.lt w m) -> unimodal_zeta w = 2) /\
    (flat_valley w -> unimodal_zeta w = 1) /\
    (~ (exists m, valley Z.gt Z.lt w m) -> ~ flat_valley w -> unimodal_zeta w = 0) /\
    (* strict/weak and weak/strict *)
    ((exists m, valley Z.gt Z.le w m) -> right_weakly_unimodal_zeta w = 2) /\
    (~ (exists m, valley Z.gt Z.le w m) -> right_weakly_unimodal_zeta w = 0) /\
    ((exists m, valley Z.ge Z.lt w m) -> left_weakly_unimodal_zeta w = 2) /\
    (~ (exists m, valley Z.ge Z.lt w m) -> left_weakly_unimodal_zeta w = 0) /\
    (* weak/weak: one more than the multiplicity of the minimum *)
    (forall m, valley Z.ge Z.le w m -> weakly_unimodal_zeta w = 1 + occ m w) /\
    (~ (exists m, valley Z.ge Z.le w m) -> weakly_unimodal_zeta w = 0)).
Proof.
  intro w. split; [intros ->; vm_compute; auto|]. intro Hne.
  assert (B : forall r1 r2 R1 R2,
    (forall a b, r1 a b = true <-> R1 a b) -> (forall a b c, R1 a b -> R1 b c -> R1 a c) ->
    (forall a b, r2 a b = true <-> R2 a b) -> (forall a b c, R2 a b -> R2 b c -> R2 a c) ->
    forall m, bottom r1 r2 w m <-> valley R1 R2 w m).
  { intros. apply bottom_pairwise; assumption. }
  assert (BE : forall r1 r2 R1 R2,
    (forall a b, r1 a b = true <-> R1 a b) -> (forall a b c, R1 a b -> R1 b c -> R1 a c) ->
    (forall a b, r2 a b = true <-> R2 a b) -> (forall a b c, R2 a b -> R2 b c -> R2 a c) ->
    ((exists m, bottom r1 r2 w m) <-> (exists m, valley R1 R2 w m))).
  { intros. split; intros [m Hm]; exists m; apply (B r1 r2 R1 R2); auto. }
  assert (FV : flat w <-> flat_valley w).
  { unfold flat, flat_valley. split; intros (d & m & u & H1 & H2 & H3); exists d, m, u;
      rewrite (adjb_pairwise Z.gtb Z.gt gtb_spec), (adjb_pairwise Z.ltb Z.lt Z.ltb_lt) in * by (intros; lia); auto. }
  assert (X : forall r1 r2 w, split_zeta (fun w => b2z (all_adjacent r1 w)) (fun w => b2z (all_adjacent r2 w)) w
              = split_zeta (Z1 r1) (Z2 r2) w).
  { intros. apply split_zeta_ext; intro; unfold Z1, Z2; rewrite all_adjacent_adjb; reflexivity. }
  assert (T : forall a b c, a > b -> b > c -> a > c) by (intros; lia).
  assert (T2 : forall a b c, a >= b -> b >= c -> a >= c) by (intros; lia).
  assert (U : unimodal_zeta w = split_zeta (Z1 Z.gtb) (Z2 Z.ltb) w) by (apply X).
  assert (RW : right_weakly_unimodal_zeta w = split_zeta (Z1 Z.gtb) (Z2 Z.leb) w) by (apply X).
  assert (LW : left_weakly_unimodal_zeta w = split_zeta (Z1 Z.geb) (Z2 Z.ltb) w) by (apply X).
  assert (WW : weakly_unimodal_zeta w = split_zeta (Z1 Z.geb) (Z2 Z.leb) w) by (apply X).
  rewrite U, RW, LW, WW.
  rewrite <- (BE Z.gtb Z.ltb Z.gt Z.lt gtb_spec T Z.ltb_lt Z.lt_trans).
  rewrite <- (BE Z.gtb Z.leb Z.gt Z.le gtb_spec T Z.leb_le Z.le_trans).
  rewrite <- (BE Z.geb Z.ltb Z.ge Z.lt geb_spec T2 Z.ltb_lt Z.lt_trans).
  rewrite <- (BE Z.geb Z.leb Z.ge Z.le geb_spec T2 Z.leb_le Z.le_trans).
  rewrite <- FV.
  destruct (split_weak w Hne) as [W1 W2].
  destruct (split_two Z.gtb Z.leb) with (w := w) as [R1 R2];
    [intros a b; rewrite Z.gtb_ltb, Z.leb_antisym; now destruct (b <? a)|assumption|].
  destruct (split_two Z.geb Z.ltb) with (w := w) as [L1 L2];
    [intros a b; rewrite Z.geb_leb, Z.leb_antisym; reflexivity|assumption|].
  destruct (split_strict w Hne) as [(S1 & S2 & S3)|[(S1 & S2 & S3)|(S1 & S2 & S3)]];
    (split; [tauto|]; split; [tauto|]; split; [tauto|]; split; [assumption|]; split; [assumption|];
     split; [assumption|]; split; [assumption|]; split; [|assumption];
     intros m Hm; apply W1; apply (B Z.geb Z.leb Z.ge Z.le geb_spec T2 Z.leb_le Z.le_trans); assumption).
Qed.
Print Assumptions C24_unimodal.

(* "2 on nonempty words that decrease then increase strictly, 0 on the other nonempty words"
   fails on words with a repeated bottom letter. *)
Theorem C24_unimodal_indicator_refuted :
  ~ (forall w, w <> [] -> ~ (exists m, valley Z.gt Z.lt w m) -> unimodal_zeta w = 0).
Proof.
  intro H. specialize (H [3; 2; 2; 5]).
  assert (unimodal_zeta [3; 2; 2; 5] = 0); [|discriminate].
  apply H; [discriminate|]. intros (m & d & u & E & H1 & H2).
  assert (C : forall l1 l2 : list Z, [3; 2; 2; 5] = l1 ++ l2 ->
    (pairwise Z.gt l1 -> (length l1 <= 2)%nat) /\ (pairwise Z.lt l2 -> (length l2 <= 2)%nat)).
  { intros l1 l2 El. destruct l1 as [|a [|b [|c [|e l1]]]]; simpl in El.
    - split; [simpl; lia|]. subst l2. intro P. exfalso. specialize (P 1%nat 2%nat). simpl in P. lia.
    - assert (l2 = [2; 2; 5]) by congruence. subst. split; [simpl; lia|]. intro P. exfalso.
      specialize (P 0%nat 1%nat). simpl in P. lia.
    - assert (l2 = [2; 5]) by congruence. subst. simpl; lia.
    - assert (a = 3 /\ b = 2 /\ c = 2 /\ l2 = [5]) as (-> & -> & -> & ->) by (repeat split; congruence).
      split; [|simpl; lia]. intro P. exfalso. specialize (P 1%nat 2%nat). simpl in P. lia.
    - assert (a = 3 /\ b = 2 /\ c = 2) as (-> & -> & ->) by (repeat split; congruence).
      assert (length l2 <= 2)%nat by (apply (f_equal (@length Z)) in El; simpl in El; rewrite app_length in El; lia).
      split; [|lia]. intro P. exfalso. specialize (P 1%nat 2%nat). simpl in P. lia. }
  destruct (C (d ++ [m]) u) as [C1 _]; [rewrite <- app_assoc; exact E|].
  destruct (C d (m :: u) E) as [_ C2].
  specialize (C1 H1). specialize (C2 H2). apply (f_equal (@length Z)) in E.
  rewrite app_length in E, C1. simpl in E, C1, C2. lia.
Qed.
Print Assumptions C24_unimodal_indicator_refuted.

Theorem C24_ascents_descents : forall v,
  (forall d, In d (descent_set v) <->
     1 <= d < Z.of_nat (length v) /\ nth (Z.to_nat d - 1) v 0 > nth (Z.to_nat d) v 0) /\
  NoDup (descent_set v) /\
  ascents v + Z.of_nat (length (descent_set v)) = Z.max 0 (Z.of_nat (length v) - 1).
Proof.
  intro v. unfold descent_set. split; [|split].
  - intro d. rewrite in_map_iff. split.
    + intros (x & <- & Hx). apply filter_In in Hx. destruct Hx as [Hx H]. apply In_zrange in Hx.
      apply Z.ltb_lt in H. unfold zlen in Hx. split; [lia|]. unfold nthz in H.
      replace (Z.to_nat (x + 1) - 1)%nat with (Z.to_nat x) by lia. lia.
    + intros [H1 H2]. exists (d - 1). split; [lia|]. apply filter_In. split.
      * apply In_zrange. unfold zlen. lia.
      * apply Z.ltb_lt. unfold nthz. replace (d - 1 + 1) with d by lia.
        replace (Z.to_nat (d - 1)) with (Z.to_nat d - 1)%nat by lia. lia.
  - apply NoDup_map_inj_in; [intros; lia|]. apply NoDup_filter, NoDup_zrange.
  - rewrite map_length. unfold ascents. fold (zlen (filter (fun i => nthz v (i + 1) <? nthz v i) (zrange 0 (zlen v - 1)))).
    rewrite filter_partition_len by (intros x _; apply Z.leb_antisym).
    unfold zlen at 1. rewrite length_zrange. unfold zlen. lia.
Qed.
Print Assumptions C24_ascents_descents.

Example C24_example :
  unimodal_zeta [5; 2; 3; 7] = 2 /\ unimodal_zeta [3; 2; 2; 5] = 1 /\ unimodal_zeta [1; 2; 1] = 0 /\
  weakly_unimodal_zeta [3; 2; 2; 2; 5] = 4 /\ valley Z.gt Z.lt [5; 2; 3; 7] 2 /\
  descent_set [3; 1; 1; 4; 2] = [1; 4] /\ ascents [3; 1; 1; 4; 2] = 2.
Proof.
  repeat split; try (vm_compute; reflexivity).
  exists [5], [3; 7]. split; [reflexivity|].
  split.
  - apply (adjb_pairwise Z.gtb Z.gt gtb_spec); [intros; lia|reflexivity].
  - apply (adjb_pairwise Z.ltb Z.lt Z.ltb_lt Z.lt_trans). reflexivity.
Qed.

(* C25 *)
Theorem C25_increasing_factorizations : forall w k (decreasing : bool),
  NoDup (get_increasing_factorizations w k decreasing) /\
  forall us, In us (get_increasing_factorizations w k decreasing) <->
    length us = k /\ concat us = w /\
    Forall (pairwise (if decreasing then Z.gt else Z.le)) us.
Proof.
  intros w k dec. split; [apply gif_NoDup|]. intro us. rewrite gif_spec.
  assert (E : forall u, mono dec u <-> pairwise (if dec then Z.gt else Z.le) u).
  { intro u. unfold mono. apply adjb_pairwise; intros; destruct dec; rewrite ?Z.ltb_lt, ?Z.leb_le; lia. }
  assert (Forall (mono dec) us <-> Forall (pairwise (if dec then Z.gt else Z.le)) us); [|tauto].
  rewrite !Forall_forall. split; intros H x Hx; apply E; auto.
Qed.
Print Assumptions C25_increasing_factorizations.

Example C25_example :
  get_increasing_factorizations [2; 2; 1] 2 false = [[[2; 2]; [1]]] /\
  length (get_increasing_factorizations [1; 2] 3 false) = 6%nat.
Proof. vm_compute. auto. Qed.
