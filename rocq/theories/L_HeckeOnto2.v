(* Every pair of tableaux of the same shape comes from a word *)
From Coq Require Import List ZArith Bool Lia Sorted Permutation RelationClasses.
From Verif Require Import PyBase M_Partitions L_PartMore M_Tableaux S_Tableaux L_Tableaux P_Tableaux M_Insertion S_Insertion L_Insertion1 L_Insertion2 L_Insertion3 L_Insertion4 L_Insertion5 L_Insertion6 L_Insertion7 L_Insertion8 P_Insertion L_HeckeOnto.
Import ListNotations.
Local Open Scope Z_scope.

Lemma Rep_exists : forall L g q k, QI L q k -> exists p, Rep L g None p.
Proof.
  intros L g q k (_ & [SO W] & C & _). exists (map (fun cv => (fst cv, [g (fst (fst cv)) (snd (fst cv))])) q).
  assert (LU : forall c, tlookup (map (fun cv : box * list Z => (fst cv, [g (fst (fst cv)) (snd (fst cv))])) q) c = match tlookup q c with Some _ => Some [g (fst c) (snd c)] | None => None end).
  { clear. intro c. induction q as [|[d l] q IH]; [reflexivity|]. cbn [map tlookup fst snd]. destruct (box_eqb d c) eqn:E; [apply box_eqb_eq in E; subst; reflexivity|exact IH]. }
  split.
  - split.
    + rewrite map_map. cbn [fst]. exact SO.
    + intros c l H. apply in_map_iff in H. destruct H as ([d m] & E & H). cbn [fst snd] in E. injection E as <- <-. specialize (W d m H). split; [apply W|]. split; [apply W|]. constructor; constructor.
  - intro c. rewrite LU. unfold base. specialize (C c). destruct (tlookup q c) as [l|]; destruct (inside L (fst c) (snd c)); try reflexivity.
    + exfalso. assert (false = true) by (apply C; discriminate). discriminate.
    + exfalso. apply (proj2 C eq_refl). reflexivity.
Qed.

Lemma snoc_max : forall l x, increasing l -> NoDup l -> In x l -> (forall y, In y l -> y <= x) -> exists l0, l = l0 ++ [x].
Proof.
  intros l x I N H M. destruct (exists_last (l := l) ltac:(intro K; subst; destruct H)) as (l0 & z & ->). exists l0. f_equal. f_equal.
  apply in_app_iff in H. destruct H as [H|[H|[]]]; [|exact H]. pose proof (M z ltac:(apply in_app_iff; right; left; reflexivity)).
  assert (x <= z); [|lia]. clear -I H. induction l0 as [|y l0 IH]; [destruct H|]. cbn [app] in I. inversion I as [|? ? I1 I2]; subst. destruct H as [->|H]; [|apply IH; assumption].
  rewrite Forall_forall in I2. apply I2. apply in_app_iff. right. left. reflexivity.
Qed.
Lemma increasing_init : forall l x, increasing (l ++ [x]) -> increasing l.
Proof.
  induction l as [|y l IH]; intros x H; [constructor|]. cbn [app] in H. inversion H as [|? ? H1 H2]; subst. constructor; [eapply IH; exact H1|]. rewrite Forall_forall in *. intros z Hz. apply H2. apply in_app_iff. left. exact Hz.
Qed.

(* the recording tableau before its largest value was put in *)
Lemma QI_unpush : forall L' q k, shape L' -> QI L' q (k + 1) -> 0 <= k -> exists d (b : bool) q0, corner L' d /\ record_put q0 d k = q /\
  forall L, (forall e, inside L' (fst e) (snd e) = true <-> inside L (fst e) (snd e) = true \/ e = d) -> (b = true -> inside L (fst d) (snd d) = false) -> (b = false -> inside L (fst d) (snd d) = true) -> QI L q0 k.
Proof.
  intros L' q k S Q Hk. pose proof Q as (_ & W & C & NE & P & O1 & O2). pose proof W as [SO _].
  assert (IK : In (k + 1) (flat_map snd q)) by (apply (QI_range L' q (k + 1)); [exact Q|lia]).
  apply in_flat_map in IK. destruct IK as ([d l] & Hd & Hl). cbn [snd] in Hl. apply In_tlookup in Hd; [|exact SO].
  pose proof (wf_lookup q d l W Hd) as [[D1 D2] Il].
  assert (ND : NoDup l). { apply (NoDup_app_l _ l (flat_map snd (tdel d q))). apply (Permutation_NoDup (flat_tdel d q l Hd)). apply (Permutation_NoDup (Permutation_sym P)). apply NoDup_zrange. }
  destruct (snoc_max l (k + 1) Il ND Hl) as (l0 & ->). { intros y Hy. pose proof (QI_entry L' q (k + 1) d l y Q Hd Hy). lia. }
  assert (CO : corner L' d).
  { assert (IN : inside L' (fst d) (snd d) = true) by (apply (C d); rewrite Hd; discriminate). apply inside_iff in IN. destruct IN as [N1 N2]. destruct d as [i j]. cbn [fst snd] in *.
    split; [exact N1|]. split; [cbn; lia|]. cbn [fst snd].
    assert (A : inside L' i (j + 1) = false).
    { destruct (inside L' i (j + 1)) eqn:E; [|reflexivity]. exfalso. apply (C (i, j + 1)) in E. destruct (tlookup q (i, j + 1)) as [m|] eqn:Em; [|apply E; reflexivity].
      pose proof (NE _ _ Em) as Nm. destruct m as [|y m]; [apply Nm; reflexivity|]. pose proof (O1 i j _ _ (k + 1) y Hd Em Hl (or_introl eq_refl)). pose proof (QI_entry L' q (k + 1) _ _ y Q Em (or_introl eq_refl)). lia. }
    assert (B : inside L' (i + 1) j = false).
    { destruct (inside L' (i + 1) j) eqn:E; [|reflexivity]. exfalso. apply (C (i + 1, j)) in E. destruct (tlookup q (i + 1, j)) as [m|] eqn:Em; [|apply E; reflexivity].
      pose proof (NE _ _ Em) as Nm. destruct m as [|y m]; [apply Nm; reflexivity|]. pose proof (O2 i j _ _ (k + 1) y Hd Em Hl (or_introl eq_refl)). pose proof (QI_entry L' q (k + 1) _ _ y Q Em (or_introl eq_refl)). lia. }
    apply inside_false in A, B. split; lia. }
  assert (PB : Permutation (l0 ++ flat_map snd (tdel d q)) (zrange 1 (k + 1))).
  { pose proof (Permutation_trans (Permutation_sym (flat_tdel d q _ Hd)) P) as PP. rewrite (zrange_snoc 1 (k + 1 + 1)) in PP by lia. replace (k + 1 + 1 - 1) with (k + 1) in PP by lia.
    rewrite <- app_assoc in PP. cbn [app] in PP. apply (Permutation_cons_inv (a := k + 1)). eapply Permutation_trans; [apply Permutation_middle|]. eapply Permutation_trans; [exact PP|]. apply Permutation_sym, Permutation_cons_append. }
  set (b := match l0 with [] => true | _ => false end). set (q0 := if b then tdel d q else tput d l0 q).
  assert (W0 : well_formed q0). { unfold q0. destruct b; [apply tdel_wf; exact W|]. apply tput_wf; [exact W|split; assumption|]. eapply increasing_init. exact Il. }
  assert (LU : forall c, tlookup q0 c = if box_eqb d c then (if b then None else Some l0) else tlookup q c). { intro c. unfold q0. destruct b; [apply tlookup_tdel; exact SO|apply tlookup_tput; exact SO]. }
  assert (EN : entries q0 d = l0). { unfold entries. rewrite LU, box_eqb_refl. unfold b. destruct l0; reflexivity. }
  exists d, b, q0. split; [exact CO|]. split.
  - unfold record_put. rewrite EN. apply wf_ext; [|exact W|].
    + apply tput_wf; [exact W0|split; assumption|exact Il].
    + intro c. rewrite tlookup_tput by apply W0. rewrite LU. destruct (box_eqb d c) eqn:E; [|reflexivity]. apply box_eqb_eq in E. subst c. symmetry. exact Hd.
  - intros L HC HB1 HB2. split; [exact Hk|]. split; [exact W0|]. split; [|split; [|split; [|split]]].
    + intro c. rewrite LU. destruct (box_eqb d c) eqn:E.
      * apply box_eqb_eq in E. subst c. destruct b; [rewrite (HB1 eq_refl); split; congruence|rewrite (HB2 eq_refl); split; congruence].
      * apply box_eqb_neq in E. rewrite (C c), (HC c). split; [intros [K|K]; [exact K|congruence]|tauto].
    + intros c l E. rewrite LU in E. destruct (box_eqb d c) eqn:E1; [|apply (NE c); exact E]. unfold b in E. destruct l0; [discriminate|]. injection E as <-. discriminate.
    + eapply Permutation_trans; [|exact PB]. unfold q0, b. destruct l0 as [|y l0]; [apply Permutation_refl|]. apply flat_tput. exact SO.
    + intros i j l m x y E1 E2 Hx Hy. rewrite LU in E1, E2. 
      assert (G1 : exists l', tlookup q (i, j) = Some l' /\ In x l'). { destruct (box_eqb d (i, j)) eqn:B1; [|exists l; split; assumption]. apply box_eqb_eq in B1. subst d. destruct b; [discriminate|]. injection E1 as <-. eexists. split; [exact Hd|]. apply in_app_iff. left. exact Hx. }
      assert (G2 : exists l', tlookup q (i, j + 1) = Some l' /\ In y l'). { destruct (box_eqb d (i, j + 1)) eqn:B1; [|exists m; split; assumption]. apply box_eqb_eq in B1. subst d. destruct b; [discriminate|]. injection E2 as <-. eexists. split; [exact Hd|]. apply in_app_iff. left. exact Hy. }
      destruct G1 as (l1 & A1 & A2). destruct G2 as (l2 & A3 & A4). exact (O1 i j l1 l2 x y A1 A3 A2 A4).
    + intros i j l m x y E1 E2 Hx Hy. rewrite LU in E1, E2. 
      assert (G1 : exists l', tlookup q (i, j) = Some l' /\ In x l'). { destruct (box_eqb d (i, j)) eqn:B1; [|exists l; split; assumption]. apply box_eqb_eq in B1. subst d. destruct b; [discriminate|]. injection E1 as <-. eexists. split; [exact Hd|]. apply in_app_iff. left. exact Hx. }
      assert (G2 : exists l', tlookup q (i + 1, j) = Some l' /\ In y l'). { destruct (box_eqb d (i + 1, j)) eqn:B1; [|exists m; split; assumption]. apply box_eqb_eq in B1. subst d. destruct b; [discriminate|]. injection E2 as <-. eexists. split; [exact Hd|]. apply in_app_iff. left. exact Hy. }
      destruct G1 as (l1 & A1 & A2). destruct G2 as (l2 & A3 & A4). exact (O2 i j l1 l2 x y A1 A3 A2 A4).
Qed.

Lemma rfold_snoc : forall (A B : Type) (f : A -> B -> res A) l x a, rfold f (l ++ [x]) a = do y <- rfold f l a; f y x.
Proof. intros A B f. induction l as [|z l IH]; intros x a; cbn [app rfold rbind]; [destruct (f a x); reflexivity|]. destruct (f a z); cbn [rbind]; [apply IH|reflexivity]. Qed.

Lemma recorded_unique : forall L c k d d', shape L -> recorded L c k d -> recorded L c k d' -> d = d'.
Proof. intros L c k d d' S [A B] [A' B']. destruct k; [congruence|]. apply (corner_unique L); [exact S|exact A|exact A'|lia]. Qed.

Theorem onto_core : forall n L g p q, shape L -> Incr L g -> Nonneg L g -> Rep L g None p -> QI L q (Z.of_nat n) ->
  exists w, length w = n /\ Forall (fun x => 0 <= x) w /\ insertion_tableaux w = Ok (p, q).
Proof.
  induction n as [|n IH]; intros L g p q S I N R Q.
  - exists []. split; [reflexivity|]. split; [constructor|]. unfold insertion_tableaux. cbn [rfold].
    pose proof Q as (_ & W & C & NE & P & _). assert (Eq : q = []).
    { destruct q as [|[c l] q]; [reflexivity|]. exfalso. cbn [tlookup] in NE. specialize (NE c l). rewrite box_eqb_refl in NE. specialize (NE eq_refl). cbn [flat_map snd] in P.
      replace (zrange 1 (Z.of_nat 0 + 1)) with (@nil Z) in P by reflexivity. apply Permutation_sym, Permutation_nil in P. destruct l; [congruence|discriminate]. }
    subst q. assert (Ep : p = []); [|subst; reflexivity].
    destruct R as [Wp Rp]. destruct p as [|[c l] p]; [reflexivity|]. exfalso. specialize (Rp c). cbn [tlookup] in Rp. rewrite box_eqb_refl in Rp. unfold base in Rp.
    destruct (inside L (fst c) (snd c)) eqn:E; [|discriminate]. apply (C c) in E. apply E. reflexivity.
  - replace (Z.of_nat (Datatypes.S n)) with (Z.of_nat n + 1) in Q by lia.
    destruct (QI_unpush L q (Z.of_nat n) S Q ltac:(lia)) as (d & b & q0 & CO & RP & HQ).
    destruct (unstep L g d b S I N CO) as (L0 & g0 & a & L1 & g1 & c & HI & HR & EL & EG & N0 & Ha).
    assert (HI0 : Inv L0 g0 1 a) by (inversion HI; assumption). destruct HI0 as (S0 & I0 & _).
    assert (Q0 : QI L0 q0 (Z.of_nat n)).
    { apply HQ.
      - intro e. pose proof (Ins_cells _ _ _ _ _ _ _ _ d HI HR e) as K. rewrite <- K. unfold inside. rewrite EL. reflexivity.
      - intros ->. destruct (Ins_add_box _ _ _ _ _ _ _ _ HI eq_refl) as (A & B & _). destruct HR as [_ ->]. apply inside_false. lia.
      - intros ->. destruct (Ins_stop_box _ _ _ _ _ _ _ _ HI eq_refl) as (A & _). subst L1. destruct CO as (C1 & C2 & C3 & _). apply inside_iff. rewrite EL. lia. }
    destruct (Rep_exists L0 g0 q0 _ Q0) as (p0 & R0). destruct (IH L0 g0 p0 q0 S0 I0 N0 R0 Q0) as (w & Lw & Fw & Ew).
    destruct (push_good L0 g0 p0 q0 _ a S0 I0 R0 Q0) as (p' & L2 & g2 & c2 & b2 & d2 & HI2 & HR2 & S2 & I2 & R2 & Q2 & E2).
    destruct (Ins_det _ _ _ _ _ _ _ _ HI _ _ _ _ HI2) as (<- & <- & <- & <-). pose proof (recorded_unique _ _ _ _ _ S2 HR HR2) as <-.
    exists (w ++ [a]). split; [rewrite app_length; cbn [length]; lia|]. split; [apply Forall_app; split; [exact Fw|constructor; [exact Ha|constructor]]|].
    unfold insertion_tableaux in *. rewrite rfold_snoc. rewrite Ew. cbn [rbind fst snd]. rewrite E2. rewrite RP. f_equal. f_equal.
    apply (Rep_unique L1 g1 None); [exact R2|]. apply (Rep_ext L g); [|intros; symmetry; apply EG|exact R]. intros; symmetry; apply EL.
Qed.

(* an increasing tableau and its shape *)
Lemma shape_exists : forall p, well_formed p -> increasing_tableau p -> exists L g, shape L /\ Incr L g /\ Rep L g None p.
Proof.
  intros p W (ST & SG & R1 & R2). set (L := fun i => fold_left Z.max (map (fun cv => snd (fst cv)) (filter (fun cv : box * list Z => fst (fst cv) =? i) p)) 0).
  set (g := fun i j => match tlookup p (i, j) with Some (x :: _) => x | _ => 0 end).
  assert (CL : forall i j, cell p i j <-> inside L i j = true).
  { intros i j. rewrite inside_iff. destruct (fold_max_spec (map (fun cv => snd (fst cv)) (filter (fun cv : box * list Z => fst (fst cv) =? i) p)) 0) as (A & B & C). fold (L i) in A, B, C. split.
    - intros [l H]. pose proof (ST i j (ex_intro _ l H)) as (P1 & P2 & _). split; [exact P1|]. split; [exact P2|]. apply B. apply in_map_iff. exists ((i, j), l). split; [reflexivity|]. apply filter_In. split; [exact H|]. cbn [fst]. apply Z.eqb_refl.
    - intros (P1 & P2 & P3). destruct C as [C|C]; [lia|]. apply in_map_iff in C. destruct C as ([[i' j'] l] & E & H). apply filter_In in H. destruct H as [H E2]. cbn [fst snd] in *. apply Z.eqb_eq in E2. subst i'.
      apply (ST i j' (ex_intro _ l H)); lia. }
  assert (HG : forall i j, inside L i j = true -> tlookup p (i, j) = Some [g i j]).
  { intros i j H. apply CL in H. destruct H as [l H]. destruct (SG _ _ _ H) as [x ->]. apply (holds_lookup p i j [x] W) in H. unfold g. rewrite H. reflexivity. }
  assert (HH : forall i j, inside L i j = true -> holds p i j [g i j]). { intros i j H. apply holds_lookup; [exact W|]. apply HG. exact H. }
  assert (L0 : forall i, 0 <= L i). { intro i. unfold L. destruct (fold_max_spec (map (fun cv => snd (fst cv)) (filter (fun cv : box * list Z => fst (fst cv) =? i) p)) 0) as (A & _). exact A. }
  exists L, g. split; [split; [intros; apply L0|]|split; [split|]].
  - intros i Hi. destruct (Z_le_gt_dec (L (i + 1)) 0) as [E|E]; [specialize (L0 i); lia|]. assert (K : inside L (i + 1) (L (i + 1)) = true) by (apply inside_iff; lia).
    apply CL in K. pose proof (ST _ _ K) as (_ & _ & K2). specialize (K2 i (L (i + 1)) ltac:(lia) ltac:(lia)). apply CL in K2. apply inside_iff in K2. lia.
  - intros i j Hi Hj Hl. apply (R1 i j); apply HH; apply inside_iff; lia.
  - intros i j Hi Hj Hl. assert (K : inside L (i + 1) j = true) by (apply inside_iff; lia). apply (R2 i j); apply HH; [|exact K]. apply CL. apply CL in K. apply (ST _ _ K); lia.
  - split; [exact W|]. intros [i j]. unfold base. cbn [fst snd]. destruct (inside L i j) eqn:E; [apply HG; exact E|]. destruct (tlookup p (i, j)) as [l|] eqn:El; [|reflexivity]. exfalso.
    assert (K : cell p i j) by (exists l; apply holds_lookup; assumption). apply CL in K. congruence.
Qed.

Lemma QI_of : forall L g p q k, well_formed q -> Rep L g None p -> (forall i j, cell p i j <-> cell q i j) -> 0 <= k -> standard_setvalued k q -> QI L q k.
Proof.
  intros L g p q k W R CC Hk (ST & NE & ND & RG & O1 & O2). pose proof R as [Wp _]. split; [exact Hk|]. split; [exact W|]. split; [|split; [|split; [|split]]].
  - intros [i j]. cbn [fst snd]. rewrite <- (cell_lookup q i j W), <- CC, (cell_lookup p i j Wp), (Rep_lookup L g p i j R). destruct (inside L i j); split; congruence.
  - intros [i j] l H. apply (NE i j). apply holds_lookup; assumption.
  - apply NoDup_Permutation; [exact ND|apply NoDup_zrange|]. intro x. rewrite RG, In_zrange. lia.
  - intros i j l m x y H1 H2. apply (O1 i j); apply holds_lookup; assumption.
  - intros i j l m x y H1 H2. apply (O2 i j); apply holds_lookup; assumption.
Qed.

Lemma Nonneg_of : forall L g p, Rep L g None p -> (forall i j x, holds p i j [x] -> 0 <= x) -> Nonneg L g.
Proof. intros L g p R H i j Hi Hj. apply (H i j). apply holds_lookup; [apply R|]. rewrite (Rep_lookup L g p i j R). replace (inside L i j) with true by (symmetry; apply inside_iff; lia). reflexivity. Qed.

Theorem onto_standard : forall p q k, well_formed p -> well_formed q -> increasing_tableau p -> (forall i j x, holds p i j [x] -> 0 <= x) ->
  standard_setvalued k q -> (forall i j, cell p i j <-> cell q i j) -> 0 <= k ->
  exists w, zlen w = k /\ Forall (fun x => 0 <= x) w /\ insertion_tableaux w = Ok (p, q).
Proof.
  intros p q k Wp Wq IP NP SQ CC Hk. destruct (shape_exists p Wp IP) as (L & g & S & I & R). pose proof (QI_of L g p q k Wq R CC Hk SQ) as Q. replace k with (Z.of_nat (Z.to_nat k)) in Q by lia.
  destruct (onto_core (Z.to_nat k) L g p q S I (Nonneg_of L g p R NP) R Q) as (w & A & B & C). exists w. split; [unfold zlen; lia|]. split; assumption.
Qed.
