(* C88: codes and shapes of fixed-point-free involutions, and the involutions of get_fpf_grassmannian *)
From Coq Require Import List ZArith Lia Bool Permutation Sorted.
From Verif Require Import PyBase M_Partitions S_Partitions M_Perm M_PermGroth S_Perm S_Bruhat S_InvWords L_Perm L_PermLen L_PermMisc L_LevelsInst L_PermActs L_InvLen L_InvLen2 L_InvLen6 M_Grass S_Grass L_Grass2 L_Grass3 L_Grass4 L_Grass5 L_Grass6 L_Grass7.
From Verif Require P_Partitions.
Import ListNotations.
Local Open Scope Z_scope.

Ltac canon := split; [apply signed_word_intro; [intros x Hx; cbn in Hx; unfold zlen; cbn [length]; lia|repeat constructor; cbn; lia]|cbn; lia].

Lemma fpf_on_positive : forall w, canonical w -> fpf_on (zlen w) (pcall w) -> positive w.
Proof. intros w C [_ H]. apply pos_word. intros i Hi. apply H. exact Hi. Qed.
Lemma fpf_on_true : forall w, canonical w -> fpf_on (zlen w) (pcall w) -> is_fpf_involution w = Ok true.
Proof. intros w C [V H]. apply nofix_true; [split; assumption|]. intros x Hx. apply H. exact Hx. Qed.

(* fpf_involution_code() has in place i the number of j > i with w(j) < i and w(j) < w(i); its sum is fpf_involution_length() *)
Theorem C88_fpf_involution_code : forall w, canonical w -> fpf_on (zlen w) (pcall w) ->
  exists c, fpf_involution_code w = Ok c /\ zlen c = zlen w /\
  (forall i, 1 <= i <= zlen w -> nthz c (i - 1) = zlen (filter (fun j => (pcall w j <? i) && (pcall w j <? pcall w i)) (zrange (i + 1) (zlen w + 1)))) /\
  fpf_involution_length w = Ok (zsum c).
Proof.
  intros w C F. pose proof (fpf_on_positive w C F) as P. pose proof (fpf_on_true w C F) as T. pose proof (conj C (proj1 F) : invol w) as Hw. exists (map (fcode w) (zrange 1 (zlen w + 1))). pose proof (zlen_nonneg _ w). split; [apply fcode_ok; assumption|]. split; [rewrite zlen_map, zlen_zrange; lia|]. split.
  - intros i Hi. rewrite nthz_map by (rewrite zlen_zrange; lia). rewrite nthz_zrange by lia. replace (1 + (i - 1)) with i by lia. unfold fcode. rewrite (zrange_app 1 (i + 1) (zlen w + 1)) by lia. rewrite cnt_app, cnt_zero by (intros j Hj; apply In_zrange in Hj; lia). cbn [Z.add]. apply cnt_ext. intros j Hj. apply In_zrange in Hj. replace (i <? j) with true by lia. reflexivity.
  - destruct (involution_length_ok w Hw) as (n & E & L & _). unfold fpf_involution_length. rewrite E. cbn [rbind]. f_equal. pose proof (fcode_sum w Hw P) as S. unfold il2 in L. pose proof (nu_tr0 w Hw) as T0.
    assert (Z0 : tr (pcall w) (zlen w) = 0). { unfold tr. rewrite (zsum_map_ext _ (fun _ => 0)); [clear; induction (zrange 1 (zlen w + 1)) as [|a l IH]; [reflexivity|cbn [map]; change (zsum (0 :: map (fun _ => 0) l)) with (0 + zsum (map (fun _ : Z => 0) l)); lia]|]. intros x Hx. apply In_zrange in Hx. destruct (proj2 F x ltac:(lia)). unfold tv. replace (pcall w x =? x) with false by lia. replace (pcall w x =? - x) with false by lia. reflexivity. }
    pose proof (fpf_even_on w C (conj Hw (proj2 F))) as Ev. pose proof (Z.div_mod (zlen w) 2 ltac:(lia)). lia.
Qed.
Print Assumptions C88_fpf_involution_code.

(* fpf_involution_shape() is a strict partition of fpf_involution_length() *)
Theorem C88_fpf_involution_shape : forall w, canonical w -> fpf_on (zlen w) (pcall w) ->
  exists la, fpf_involution_shape w = Ok la /\ strict_partition la /\ fpf_involution_length w = Ok (size la).
Proof.
  intros w C F. pose proof (fpf_on_positive w C F) as P. pose proof (fpf_on_true w C F) as T. pose proof (conj C (proj1 F) : invol w) as Hw. destruct (C88_fpf_involution_code w C F) as (c & E & _ & _ & L). rewrite fcode_ok in E by assumption. assert (Ec : map (fcode w) (zrange 1 (zlen w + 1)) = c) by congruence.
  destruct (shape_strict c) as [S Sz]; [rewrite <- Ec; apply fcode_nonneg|rewrite <- Ec; intros x v; apply fcode_values; [assumption|assumption|]; intros i Hi; apply (proj2 F i Hi)|]. exists (transpose (psort c true)). split; [rewrite fpf_shape_ok by assumption; rewrite Ec; reflexivity|]. split; [exact S|]. rewrite Sz. exact L.
Qed.
Print Assumptions C88_fpf_involution_shape.
(* both fail an assertion on other permutations *)
Theorem C88_not_fpf : forall w, canonical w -> ~ fpf_on (zlen w) (pcall w) -> fpf_involution_code w = Err AssertionError /\ fpf_involution_shape w = Err AssertionError.
Proof.
  intros w C N. assert (K : is_unsigned w = false \/ is_fpf_involution w = Ok false).
  { destruct (is_unsigned w) eqn:U; [right|left; reflexivity]. apply is_unsigned_spec in U. unfold is_fpf_involution. rewrite pinv_ok by apply C. cbn [rbind]. f_equal. destruct (peq w (invp w)) eqn:Q; [|reflexivity]. cbn [andb]. unfold peq in Q. apply zlist_eqb_eq in Q. destruct (forallb (fun i => negb (pcall w i =? i)) (zrange 1 (zlen w + 1))) eqn:G; [|reflexivity]. exfalso. apply N. split.
    - intro x. rewrite Q at 1. apply invp_call. apply C.
    - intros x Hx. split; [apply pos_call; [exact U|lia]|]. rewrite forallb_forall in G. specialize (G x ltac:(apply In_zrange; lia)). lia. }
  assert (B : exists b, is_fpf_involution w = Ok b) by (unfold is_fpf_involution; rewrite pinv_ok by apply C; cbn [rbind]; eexists; reflexivity). destruct B as (b & B).
  unfold fpf_involution_shape, fpf_involution_code. destruct K as [K|K].
  - rewrite K, B. cbn [rbind]. destruct b; split; reflexivity.
  - rewrite K. cbn [rbind]. destruct (is_unsigned w); split; reflexivity.
Qed.
Print Assumptions C88_not_fpf.
Example C88_code_ex : fpf_involution_code [5; 7; 8; 6; 1; 4; 2; 3] = Ok [0; 1; 2; 3; 0; 2; 0; 0] /\ fpf_involution_shape [5; 7; 8; 6; 1; 4; 2; 3] = Ok [4; 3; 1] /\ fpf_involution_length [5; 7; 8; 6; 1; 4; 2; 3] = Ok 8 /\
  fpf_involution_code [2; 1; 3] = Err AssertionError.
Proof. repeat split; vm_compute; reflexivity. Qed.
Example C88_fpf_ex : canonical [5; 7; 8; 6; 1; 4; 2; 3] /\ fpf_on 8 (pcall [5; 7; 8; 6; 1; 4; 2; 3]).
Proof.
  assert (E : fpf_involution_shape [5; 7; 8; 6; 1; 4; 2; 3] = Ok [4; 3; 1]) by (vm_compute; reflexivity).
  assert (C : canonical [5; 7; 8; 6; 1; 4; 2; 3]) by (canon).
  split; [exact C|]. split.
  - intro x. assert (Q : invp [5; 7; 8; 6; 1; 4; 2; 3] = [5; 7; 8; 6; 1; 4; 2; 3]) by (vm_compute; reflexivity). rewrite <- Q at 1. apply invp_call. apply C.
  - intros x Hx. assert (K : In x [1; 2; 3; 4; 5; 6; 7; 8]) by (cbn; lia). cbn in K. repeat (destruct K as [<-|K]; [split; vm_compute; congruence|]). destruct K.
Qed.

(* get_fpf_grassmannian( *mu) exchanges r + 1 - t with r + 1 + mu_t for each of the r parts and matches the remaining
   points, up to the least even number at least r + 1 + mu_1, with a neighbour among them; fpf_involution_shape() reads mu back *)
Theorem C88_get_fpf_grassmannian : forall mu, strict_partition mu -> exists z n bound, (forall fuel, (bound <= fuel)%nat -> get_fpf_grassmannian fuel mu = Ok z) /\
  canonical z /\ zlen z = n /\ fpf_on n (pcall z) /\ n mod 2 = 0 /\ (mu = [] -> n = 0) /\ (mu <> [] -> zlen mu + 1 + row mu 0 <= n <= zlen mu + 2 + row mu 0) /\
  main_arcs 1 mu (pcall z) /\ neighbours_matched n mu (pcall z) /\ fpf_involution_shape z = Ok mu.
Proof.
  intros mu M. destruct (get_fpf_ok mu M) as (z & E & H). pose proof (farcs_shape mu z M H) as S. pose proof (fun x => farcs_nofix mu z x M H) as NF. pose proof (frank_even mu M) as (Fe & F0 & Fb). destruct H as (V & P & L & A & B). exists z, (frank mu), (Datatypes.S (Z.to_nat (frank mu))).
  split; [intros fuel Hf; apply E; lia|]. split; [apply V|]. split; [exact L|]. split; [split; [apply V|]; intros x Hx; split; [apply pos_call; [exact P|lia]|apply NF; lia]|]. split; [exact Fe|]. split; [intros ->; reflexivity|]. split; [exact Fb|]. split; [exact A|]. split; assumption.
Qed.
Print Assumptions C88_get_fpf_grassmannian.

(* fpf_grassmannians(n) raises on odd n and otherwise yields without repetition the involutions of the strict partitions
   below (n - 2, n - 4, ...) *)
Theorem C88_fpf_grassmannians : forall n, (n mod 2 <> 0 -> forall fuel, fpf_grassmannians fuel n = Err AssertionError) /\
  (n mod 2 = 0 -> exists l bound, (forall fuel, (bound <= fuel)%nat -> fpf_grassmannians fuel n = Ok l) /\ NoDup l /\
   forall z, In z l <-> exists mu fuel, strict_partition mu /\ below_double_staircase (n - 1) mu /\ get_fpf_grassmannian fuel mu = Ok z).
Proof.
  intro n. split; [intros Hn fuel; unfold fpf_grassmannians; destruct (Z.eqb_spec (n mod 2) 0); [contradiction|reflexivity]|]. intro Hn. set (d := range_down2 (n - 2)).
  destruct (P_Partitions.C16_subpartitions d [] true (range_down2_weak _)) as [Ns Hs]; [split; [constructor|intros [|i]; unfold row; cbn; lia]|cbn; lia|].
  assert (Hs' : forall mu, In mu (subpartitions d [] true) <-> strict_partition mu /\ below_double_staircase (n - 1) mu).
  { intro mu. rewrite Hs. cbn [part_b]. split.
    - intros (A & _ & B). split; [exact A|]. intros i Hi. pose proof (proj1 (included_down2 (n - 2) mu A) B i Hi). lia.
    - intros (A & B). split; [exact A|]. split; [intros i j [Hi Hj]; unfold row in Hj; destruct (Z.to_nat (i - 1)); cbn in Hj; lia|]. apply (included_down2 (n - 2) mu A). intros i Hi. specialize (B i Hi). lia. }
  assert (Bd : exists bound, forall mu, In mu (subpartitions d [] true) -> (Z.to_nat (frank mu) < bound)%nat).
  { clear. induction (subpartitions d [] true) as [|a l [b IH]]; [exists 0%nat; intros mu []|]. exists (Nat.max b (Datatypes.S (Z.to_nat (frank a)))). intros mu [<-|Hm]; [lia|]. specialize (IH mu Hm). lia. }
  destruct Bd as [bound Bd].
  assert (Mono : forall f g mu z, get_fpf_grassmannian f mu = Ok z -> strict_partition mu -> (Z.to_nat (frank mu) < g)%nat -> get_fpf_grassmannian g mu = Ok z).
  { intros f g mu z E M Hg. destruct (get_fpf_ok mu M) as (z' & E' & _). rewrite E' by exact Hg. rewrite <- E. set (h := Nat.max f (Datatypes.S (Z.to_nat (frank mu)))). rewrite <- (E' h) by (unfold h; lia).
    unfold get_fpf_grassmannian in *. destruct (is_strict_partition mu); [|discriminate]. destruct (rfold _ _ _) as [u|]; [|discriminate]. cbn [rbind] in *. destruct (pair_up f u) as [v|] eqn:Pu; [|discriminate]. rewrite (pair_up_mono f h u v Pu) by (unfold h; lia). reflexivity. }
  destruct (rmap_ok2 _ _ (get_fpf_grassmannian bound) (subpartitions d [] true)) as (l & El & Hl).
  { intros mu Hm. pose proof (Bd mu Hm). apply Hs' in Hm. destruct (get_fpf_ok mu (proj1 Hm)) as (w & E & _). exists w. apply E. assumption. }
  exists l, bound. split; [|split].
  - intros fuel Hf. unfold fpf_grassmannians. rewrite Hn. cbn [Z.eqb]. rewrite <- El. fold d. assert (Q : forall m, (forall mu, In mu m -> In mu (subpartitions d [] true)) -> rmap (get_fpf_grassmannian fuel) m = rmap (get_fpf_grassmannian bound) m).
    { induction m as [|a m IH]; intro Hm; [reflexivity|]. cbn [rmap]. rewrite IH by (intros; apply Hm; right; assumption). pose proof (Hm a (or_introl eq_refl)) as Ha. pose proof (Bd a Ha). apply Hs' in Ha. destruct (get_fpf_ok a (proj1 Ha)) as (w & E & _). rewrite !E by lia. reflexivity. }
    apply Q. auto.
  - apply (rmap_NoDup _ _ (get_fpf_grassmannian bound) _ _ Ns) in El; [exact El|]. intros a b w Ha Hb Ea Eb. pose proof (Bd a Ha). pose proof (Bd b Hb). apply Hs' in Ha. apply Hs' in Hb. destruct (get_fpf_ok a (proj1 Ha)) as (w1 & E1 & H1). destruct (get_fpf_ok b (proj1 Hb)) as (w2 & E2 & H2). rewrite E1 in Ea by assumption. rewrite E2 in Eb by assumption. pose proof (farcs_shape a w1 (proj1 Ha) H1). pose proof (farcs_shape b w2 (proj1 Hb) H2). congruence.
  - intro z. rewrite Hl. split.
    + intros (mu & Hm & E). apply Hs' in Hm. exists mu, bound. tauto.
    + intros (mu & fuel & A & B & E). assert (Hm : In mu (subpartitions d [] true)) by (apply Hs'; tauto). exists mu. split; [exact Hm|]. apply (Mono fuel); [exact E|exact A|apply Bd; exact Hm].
Qed.
Print Assumptions C88_fpf_grassmannians.

Example C88_fpf_grassmannians_ex : fpf_grassmannians 10 4 = Ok [[]; [3; 4; 1; 2]; [4; 3; 2; 1]] /\ get_fpf_grassmannian 10 [3; 1] = Ok [4; 6; 5; 1; 3; 2] /\ fpf_involution_shape [4; 6; 5; 1; 3; 2] = Ok [3; 1] /\ fpf_grassmannians 10 5 = Err AssertionError.
Proof. repeat split; vm_compute; reflexivity. Qed.

(* the argument of fpf_grassmannians(rank) does not bound the rank: fpf_grassmannians(6) yields an element of rank 8 *)
Theorem C88_rank_refuted : exists l z, fpf_grassmannians 10 6 = Ok l /\ In z l /\ canonical z /\ zlen z = 8.
Proof. eexists. exists [5; 7; 4; 3; 1; 8; 2; 6]. split; [vm_compute; reflexivity|]. split; [cbn; tauto|]. split; [canon|reflexivity]. Qed.
Print Assumptions C88_rank_refuted.

(* is_fpf_grassmannian() does not recognise what get_fpf_grassmannian builds, and accepts permutations that are not involutions *)
Theorem C88_is_fpf_grassmannian_refuted : (exists mu z, strict_partition mu /\ get_fpf_grassmannian 10 mu = Ok z /\ is_fpf_grassmannian z = Ok false) /\
  (exists w, canonical w /\ is_fpf_grassmannian w = Ok true /\ pcall w (pcall w 1) <> 1).
Proof.
  split.
  - exists [3; 1], [4; 6; 5; 1; 3; 2]. split; [split; [repeat (apply Forall_cons || apply Forall_nil); lia|intros [|[|i]] Hi; cbn in *; lia]|]. split; vm_compute; reflexivity.
  - exists [2; 3; 1]. split; [canon|]. split; [vm_compute; reflexivity|vm_compute; congruence].
Qed.
Print Assumptions C88_is_fpf_grassmannian_refuted.
