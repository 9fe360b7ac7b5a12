(* The recording tableau *)
From Coq Require Import List ZArith Bool Lia Sorted Permutation.
From Verif Require Import PyBase M_Partitions L_PartMore M_Tableaux S_Tableaux L_Tableaux M_Insertion L_Insertion1 L_Insertion2 L_Insertion3.
Import ListNotations.
Local Open Scope Z_scope.

Lemma tdel_absent : forall c t, tlookup t c = None -> tdel c t = t.
Proof.
  induction t as [|[d w] t IH]; intro H; [reflexivity|]. cbn [tlookup tdel] in *. rewrite box_eqb_sym. destruct (box_eqb d c); [discriminate|]. rewrite IH by assumption. reflexivity.
Qed.
Lemma flat_tdel : forall c t l, tlookup t c = Some l -> Permutation (flat_map snd t) (l ++ flat_map snd (tdel c t)).
Proof.
  induction t as [|[d w] t IH]; intros l H; [discriminate|]. cbn [tlookup tdel flat_map snd] in *. rewrite box_eqb_sym. destruct (box_eqb d c).
  - injection H as ->. apply Permutation_refl.
  - cbn [flat_map snd]. eapply Permutation_trans; [apply Permutation_app_head; apply IH; exact H|]. rewrite !app_assoc. apply Permutation_app_tail. apply Permutation_app_comm.
Qed.
Lemma flat_tput : forall c v t, StronglySorted before (map fst t) -> Permutation (flat_map snd (tput c v t)) (v ++ flat_map snd (tdel c t)).
Proof.
  intros c v t H. pose proof (tput_sorted c v t H) as H2. assert (E : tlookup (tput c v t) c = Some v) by (rewrite tlookup_tput by assumption; rewrite box_eqb_refl; reflexivity).
  eapply Permutation_trans; [apply (flat_tdel c _ v E)|]. apply Permutation_app_head.
  replace (tdel c (tput c v t)) with (tdel c t); [apply Permutation_refl|].
  apply tab_ext; [apply tdel_sorted; assumption|apply tdel_sorted; assumption|]. intro d. rewrite !tlookup_tdel, tlookup_tput by assumption.
  destruct (box_eqb c d); reflexivity.
Qed.

(* the invariant of the recording tableau after k pushes *)
Definition QI (L : Z -> Z) (q : tab) (k : Z) : Prop :=
  0 <= k /\ well_formed q /\ (forall c, tlookup q c <> None <-> inside L (fst c) (snd c) = true) /\
  (forall c l, tlookup q c = Some l -> l <> []) /\ Permutation (flat_map snd q) (zrange 1 (k + 1)) /\
  (forall i j l m x y, tlookup q (i, j) = Some l -> tlookup q (i, j + 1) = Some m -> In x l -> In y m -> x < y) /\
  (forall i j l m x y, tlookup q (i, j) = Some l -> tlookup q (i + 1, j) = Some m -> In x l -> In y m -> x < y).

Lemma QI_range : forall L q k x, QI L q k -> (In x (flat_map snd q) <-> 1 <= x <= k).
Proof.
  intros L q k x (_ & _ & _ & _ & P & _). split; intro H.
  - apply (Permutation_in _ P) in H. apply In_zrange in H. lia.
  - apply (Permutation_in _ (Permutation_sym P)). apply In_zrange. lia.
Qed.
Lemma zset_In : forall l x, In x (zset l) <-> In x l.
Proof.
  assert (G : forall l s x, In x (fold_left (fun s v => if existsb (Z.eqb v) s then s else s ++ [v]) l s) <-> In x s \/ In x l).
  { induction l as [|a l IH]; intros s x; cbn [fold_left]; [cbn; tauto|]. rewrite IH. destruct (existsb (Z.eqb a) s) eqn:E.
    - apply existsb_exists in E. destruct E as (b & Hb & E). apply Z.eqb_eq in E. subst b. cbn [In]. split; [tauto|]. intros [H|[<-|H]]; tauto.
    - rewrite in_app_iff. cbn [In]. tauto. }
  intros l x. unfold zset. rewrite G. cbn. tauto.
Qed.
Lemma tvalues_In : forall t x, In x (tvalues t) <-> In x (flat_map snd t).
Proof. intros t x. apply (zset_In (flat_map snd t) x). Qed.
Lemma existsb_In : forall x l, existsb (Z.eqb x) l = true <-> In x l.
Proof.
  intros x l. rewrite existsb_exists. split.
  - intros (y & H & E). apply Z.eqb_eq in E. subst. assumption.
  - intro H. exists x. split; [assumption|apply Z.eqb_refl].
Qed.
Lemma zmin_spec : forall l x, In x l -> exists m, zmin l = Some m /\ In m l /\ forall y, In y l -> m <= y.
Proof.
  intros [|a l] x H; [destruct H|]. cbn [zmin]. eexists. split; [reflexivity|]. clear x H.
  assert (G : forall l a, (fold_left Z.min l a = a \/ In (fold_left Z.min l a) l) /\ fold_left Z.min l a <= a /\ forall y, In y l -> fold_left Z.min l a <= y).
  { clear. induction l as [|b l IH]; intro a; cbn [fold_left]; [split; [left; reflexivity|split; [lia|intros y []]]|].
    destruct (IH (Z.min a b)) as (A & B & C). split; [|split].
    - destruct A as [A|A]; [|right; right; assumption]. rewrite A. destruct (Z.min_spec a b) as [[_ E]|[_ E]]; rewrite E; [left; reflexivity|right; left; reflexivity].
    - lia.
    - intros y [<-|Hy]; [lia|apply C; assumption]. }
  destruct (G l a) as (A & B & C). split; [destruct A as [->|A]; [left; reflexivity|right; assumption]|]. intros y [<-|Hy]; [assumption|apply C; assumption].
Qed.

Lemma tlast_range : forall q k, 0 <= k -> (forall x, In x (flat_map snd q) <-> 1 <= x <= k) -> tlast q = Ok k.
Proof.
  intros q k Hk H. unfold tlast. assert (V : forall x, In x (tvalues q) <-> 1 <= x <= k) by (intro x; rewrite tvalues_In; apply H).
  destruct (Z.eq_dec k 0) as [->|Hn].
  - assert (E : tvalues q = []). { destruct (tvalues q) as [|a l]; [reflexivity|]. specialize (V a). assert (In a (a :: l)) by (left; reflexivity). apply V in H0. lia. }
    rewrite E. reflexivity.
  - destruct (zmax_spec (tvalues q) 1) as (M & EM & HM & HMax); [apply V; lia|]. destruct (zmin_spec (tvalues q) 1) as (m & Em & Hm & Hmin); [apply V; lia|].
    rewrite EM, Em. apply V in HM. apply V in Hm. assert (M = k). { specialize (HMax k). rewrite V in HMax. lia. } subst M.
    replace (Z.max (Z.abs m) (Z.abs k)) with k by lia. cbn zeta.
    replace (existsb (Z.eqb k) (tvalues q)) with true by (symmetry; apply existsb_In, V; lia).
    replace (existsb (Z.eqb (- k)) (tvalues q)) with false; [reflexivity|]. symmetry. apply not_true_iff_false. rewrite existsb_In, V. lia.
Qed.
Lemma QI_last : forall L q k, QI L q k -> tlast q = Ok k.
Proof. intros L q k H. apply tlast_range; [apply H|]. intro x. apply (QI_range L). exact H. Qed.

Lemma QI_entry : forall L q k c l x, QI L q k -> tlookup q c = Some l -> In x l -> 1 <= x <= k.
Proof. intros L q k c l x H E Hx. apply (QI_range L q k x H). apply in_flat_map. exists (c, l). split; [apply tlookup_In; assumption|assumption]. Qed.
Lemma sinsert_last : forall x l, (forall y, In y l -> y < x) -> sinsert x l = l ++ [x].
Proof.
  induction l as [|y l IH]; intro H; [reflexivity|]. cbn [sinsert app]. destruct (Z.leb_spec x y) as [Hc|Hc].
  - specialize (H y (or_introl eq_refl)). lia.
  - rewrite IH by (intros; apply H; right; assumption). reflexivity.
Qed.
Lemma In_entries : forall L q k c x, QI L q k -> In x (entries q c) -> 1 <= x <= k.
Proof. intros L q k c x H Hx. unfold entries in Hx. destruct (tlookup q c) eqn:E; [eapply QI_entry; eassumption|destruct Hx]. Qed.

Definition record_put (q : tab) (d : box) (k : Z) : tab := tput d (entries q d ++ [k + 1]) q.
Lemma record_tadd : forall L q k d, QI L q k -> 0 < fst d -> 0 < snd d -> tadd q (fst d) (snd d) (VInt (1 + Z.abs k)) = Ok (record_put q d k).
Proof.
  intros L q k [i j] H Hi Hj. cbn [fst snd] in *. rewrite tadd_int by (try assumption; apply H). unfold record_put. assert (0 <= k) by apply H.
  replace (1 + Z.abs k) with (k + 1) by lia. rewrite sinsert_last; [reflexivity|]. intros y Hy. apply (In_entries L q k) in Hy; [lia|assumption].
Qed.

Lemma QI_push : forall L q k L' d, QI L q k -> shape L' -> corner L' d ->
  (forall c, inside L' (fst c) (snd c) = true <-> inside L (fst c) (snd c) = true \/ c = d) -> QI L' (record_put q d k) (k + 1).
Proof.
  intros L q k L' d H S (D1 & D2 & D3 & D4) HC. pose proof H as (Hk & W & C & NE & P & O1 & O2). unfold record_put.
  assert (LU : forall c, tlookup (tput d (entries q d ++ [k + 1]) q) c = if box_eqb d c then Some (entries q d ++ [k + 1]) else tlookup q c) by (intro; apply tlookup_tput; apply W).
  assert (Ent : forall x, In x (entries q d) -> 1 <= x <= k) by (intro x; apply (In_entries L); exact H).
  split; [lia|]. split; [|split; [|split; [|split; [|split]]]].
  - apply tput_wf; [exact W|split; lia|]. rewrite <- sinsert_last by (intros y Hy; apply Ent in Hy; lia). apply sinsert_increasing. unfold entries. destruct (tlookup q d) eqn:E; [|constructor]. eapply wf_lookup; eassumption.
  - intro c. rewrite LU, HC. destruct (box_eqb d c) eqn:E.
    + apply box_eqb_eq in E. subst c. split; [right; reflexivity|discriminate].
    + apply box_eqb_neq in E. rewrite C. split; [tauto|]. intros [K|K]; [assumption|congruence].
  - intros c l E. rewrite LU in E. destruct (box_eqb d c); [injection E as <-; destruct (entries q d); discriminate|]. apply (NE c). exact E.
  - rewrite zrange_snoc by lia. replace (k + 1 + 1 - 1) with (k + 1) by lia.
    eapply Permutation_trans; [apply flat_tput; apply W|]. rewrite <- app_assoc. eapply Permutation_trans; [apply Permutation_app_head; apply Permutation_app_comm|].
    rewrite app_assoc. apply Permutation_app_tail. eapply Permutation_trans; [|exact P]. apply Permutation_sym. unfold entries. destruct (tlookup q d) as [l|] eqn:E.
    + apply flat_tdel. exact E.
    + rewrite tdel_absent by assumption. apply Permutation_refl.
  - intros i j l m x y E1 E2 Hx Hy. rewrite LU in E1, E2. destruct (box_eqb d (i, j)) eqn:B1.
    + apply box_eqb_eq in B1. subst d. cbn [fst snd] in *. replace (box_eqb (i, j) (i, j + 1)) with false in E2 by (symmetry; apply box_eqb_neq; intro B; apply (f_equal snd) in B; cbn [snd] in B; lia).
      assert (N : inside L' i (j + 1) = true). { apply (HC (i, j + 1)). left. apply (C (i, j + 1)). rewrite E2. discriminate. }
      apply inside_iff in N. lia.
    + destruct (box_eqb d (i, j + 1)) eqn:B2.
      * injection E2 as <-. apply box_eqb_eq in B2. apply in_app_iff in Hy. destruct Hy as [Hy|[<-|[]]].
        -- unfold entries in Hy. destruct (tlookup q d) as [l'|] eqn:E3; [|destruct Hy]. subst d. exact (O1 i j l l' x y E1 E3 Hx Hy).
        -- pose proof (QI_entry L q k (i, j) l x H E1 Hx). lia.
      * exact (O1 i j l m x y E1 E2 Hx Hy).
  - intros i j l m x y E1 E2 Hx Hy. rewrite LU in E1, E2. destruct (box_eqb d (i, j)) eqn:B1.
    + apply box_eqb_eq in B1. subst d. cbn [fst snd] in *. replace (box_eqb (i, j) (i + 1, j)) with false in E2 by (symmetry; apply box_eqb_neq; intro B; apply (f_equal fst) in B; cbn [fst] in B; lia).
      assert (N : inside L' (i + 1) j = true). { apply (HC (i + 1, j)). left. apply (C (i + 1, j)). rewrite E2. discriminate. }
      apply inside_iff in N. lia.
    + destruct (box_eqb d (i + 1, j)) eqn:B2.
      * injection E2 as <-. apply box_eqb_eq in B2. apply in_app_iff in Hy. destruct Hy as [Hy|[<-|[]]].
        -- unfold entries in Hy. destruct (tlookup q d) as [l'|] eqn:E3; [|destruct Hy]. subst d. exact (O2 i j l l' x y E1 E3 Hx Hy).
        -- pose proof (QI_entry L q k (i, j) l x H E1 Hx). lia.
      * exact (O2 i j l m x y E1 E2 Hx Hy).
Qed.

(* cells after an insertion *)
Lemma Ins_cells : forall L g i a L' g' c k d, Ins L g i a L' g' c k -> recorded L' c k d ->
  forall e, inside L' (fst e) (snd e) = true <-> inside L (fst e) (snd e) = true \/ e = d.
Proof.
  intros L g i a L' g' c k d H [HC HD] [r s]. cbn [fst snd]. destruct k.
  - subst d. destruct (Ins_add_box _ _ _ _ _ _ _ _ H eq_refl) as (A & B & C & D). destruct c as [ci cj]. cbn [fst snd] in *.
    rewrite !inside_iff, C. unfold updr. destruct D as (D1 & D2 & D3 & D4). cbn [fst snd] in *. destruct (Z.eqb_spec r ci) as [->|E].
    + split; [|intros [K|K]; [lia|injection K as ->; lia]]. intro K. destruct (Z.eq_dec s cj) as [->|]; [right; reflexivity|left; lia].
    + split; [tauto|]. intros [K|K]; [assumption|]. injection K as -> ->. contradiction.
  - destruct (Ins_stop_box _ _ _ _ _ _ _ _ H eq_refl) as (-> & A). split; [tauto|]. intros [K|K]; [assumption|]. subst d. destruct HC as (D1 & D2 & D3 & D4). cbn [fst snd] in *. apply inside_iff. lia.
Qed.

(* one push *)
Lemma push_good : forall L g p q k a, shape L -> Incr L g -> Rep L g None p -> QI L q k ->
  exists p' L' g' c b d, Ins L g 1 a L' g' c b /\ recorded L' c b d /\ shape L' /\ Incr L' g' /\ Rep L' g' None p' /\ QI L' (record_put q d k) (k + 1) /\
    push p q a = Ok (p', record_put q d k).
Proof.
  intros L g p q k a S I R Q. destruct (push_spec L g p q a k S I R (QI_last L q k Q)) as (p' & L' & g' & c & b & d & HI & R' & Hd & E).
  destruct (Ins_good _ _ _ _ _ _ _ _ HI) as [S' I']. exists p', L', g', c, b, d. split; [exact HI|]. split; [exact Hd|]. split; [exact S'|]. split; [exact I'|]. split; [exact R'|].
  assert (CO : corner L' d) by apply Hd. split.
  - apply (QI_push L); [exact Q|exact S'|exact CO|]. apply (Ins_cells L g 1 a L' g' c b d); assumption.
  - rewrite E. destruct CO as (D1 & D2 & _). rewrite (record_tadd L q k d Q) by lia. reflexivity.
Qed.
Definition state_good (p q : tab) (k : Z) : Prop := exists L g, shape L /\ Incr L g /\ Rep L g None p /\ QI L q k.
Lemma start_good : state_good [] [] 0.
Proof.
  exists (fun _ => 0), (fun _ _ => 0). split; [split; intros; lia|]. split; [split; intros; lia|]. split.
  - split; [apply wf_nil|]. intros [i j]. cbn [tlookup]. unfold base. cbn [fst snd]. replace (inside (fun _ => 0) i j) with false; [reflexivity|]. symmetry. apply inside_false. lia.
  - split; [lia|]. split; [apply wf_nil|]. split; [|split; [|split; [|split]]]; try (intros; discriminate).
    + intros [i j]. cbn [tlookup fst snd]. split; [intro K; exfalso; apply K; reflexivity|]. intro K. apply inside_iff in K. lia.
    + constructor.
Qed.
Lemma push_state : forall p q k a, state_good p q k -> exists p' q', push p q a = Ok (p', q') /\ state_good p' q' (k + 1).
Proof.
  intros p q k a (L & g & S & I & R & Q). destruct (push_good L g p q k a S I R Q) as (p' & L' & g' & c & b & d & _ & _ & S' & I' & R' & Q' & E).
  exists p', (record_put q d k). split; [exact E|]. exists L', g'. repeat (split; [assumption|]). exact Q'.
Qed.
Lemma insertion_good : forall w p q k, state_good p q k ->
  exists p' q', rfold (fun pq a => push (fst pq) (snd pq) a) w (p, q) = Ok (p', q') /\ state_good p' q' (k + zlen w).
Proof.
  induction w as [|a w IH]; intros p q k G.
  - exists p, q. split; [reflexivity|]. replace (k + zlen (@nil Z)) with k by (cbn; lia). exact G.
  - cbn [rfold fst snd]. destruct (push_state p q k a G) as (p1 & q1 & E & G1). rewrite E. cbn [rbind].
    destruct (IH p1 q1 (k + 1) G1) as (p' & q' & E2 & G2). exists p', q'. split; [exact E2|]. replace (k + zlen (a :: w)) with (k + 1 + zlen w) by (unfold zlen; cbn [length]; lia). exact G2.
Qed.
