(* Groups of valued-set tableaux *)
From Coq Require Import List ZArith Lia Bool Permutation Sorted.
From Verif Require Import PyBase M_Partitions M_Tableaux S_Tableaux L_Tableaux S_Strips S_Semistandard S_Standardize P_Standardize M_Transposed S_Transposed M_VST S_VST.
Import ListNotations.
Local Open Scope Z_scope.

Section Basics.
  Variables T G : tab.
  Hypothesis TG : grouped T G.
  Lemma WT : well_formed T. Proof. apply TG. Qed.
  Lemma WG : well_formed G. Proof. apply TG. Qed.
  Lemma lookup_iff : forall c l, tlookup T c = Some l <-> In (c, l) T.
  Proof. intros c l. split; [apply tlookup_In|apply In_tlookup; apply WT]. Qed.
  Lemma lookup_cases : forall c, tlookup T c = None \/ exists x, tlookup T c = Some [x] /\ x <> 0.
  Proof. intro c. destruct (tlookup T c) as [l|] eqn:E; [right|left; reflexivity]. apply tlookup_In in E. destruct TG as (_ & H & _). destruct (H c l E) as (x & -> & N). exists x. split; [reflexivity|exact N]. Qed.
  Lemma lookup_single : forall c l, tlookup T c = Some l -> exists x, l = [x] /\ x <> 0.
  Proof. intros c l E. destruct (lookup_cases c) as [K|(x & K & N)]; [congruence|]. exists x. split; [congruence|exact N]. Qed.
  Lemma holds_single : forall i j x, holds T i j x <-> tlookup T (i, j) = Some [x].
  Proof.
    intros i j x. split.
    - intros (l & A & B). pose proof (proj2 (lookup_iff (i, j) l) A) as E. destruct (lookup_single _ _ E) as (y & -> & _). destruct B as [<-|[]]. exact E.
    - intro E. exists [x]. split; [apply lookup_iff; exact E|left; reflexivity].
  Qed.
  Lemma entry_ok : forall c x, tlookup T c = Some [x] -> entry T c = Ok x.
  Proof. intros c x E. unfold entry, tget. rewrite E. reflexivity. Qed.
  Lemma same_ok : forall c x, same_entry T c x = true <-> tlookup T c = Some [x].
  Proof.
    intros c x. unfold same_entry, tget. destruct (lookup_cases c) as [->|(y & -> & _)]; [split; discriminate|]. rewrite Z.eqb_eq. split; [intros ->; reflexivity|intro E; injection E as ->; reflexivity].
  Qed.
  Lemma truthy_ok : forall c, truthy G c = true <-> In (c, [1]) G.
  Proof.
    intros [i j]. unfold truthy, tget. destruct (tlookup G (i, j)) as [l|] eqn:E.
    - pose proof (tlookup_In _ _ _ E) as I. destruct TG as (_ & _ & _ & _ & H). destruct (H i j l I) as [->|[-> _]].
      + cbn. split; [discriminate|]. intro K. apply In_tlookup in K; [congruence|apply WG].
      + cbn. split; [intros _; exact I|reflexivity].
    - split; [discriminate|]. intro K. apply In_tlookup in K; [congruence|apply WG].
  Qed.
  Lemma label_zero : forall c x, tlookup T c = Some [x] -> (truthy G c = false <-> In (c, [0]) G).
  Proof.
    intros [i j] x E. destruct TG as (_ & _ & _ & C & H). assert (I : exists l, In ((i, j), l) G) by (apply C; exists [x]; apply lookup_iff; exact E). destruct I as (l & I).
    split.
    - intro F. destruct (H i j l I) as [->|[-> _]]; [exact I|]. apply truthy_ok in I. congruence.
    - intro Z. destruct (truthy G (i, j)) eqn:F; [|reflexivity]. apply truthy_ok in F. apply In_tlookup in F; [|apply WG]. apply In_tlookup in Z; [|apply WG]. congruence.
  Qed.
  Lemma truthy_cell : forall c, truthy G c = true -> exists x, tlookup T c = Some [x] /\ x <> 0 /\
    (0 < x -> tlookup T (fst c, snd c + 1) = Some [x]) /\ (x < 0 -> tlookup T (fst c - 1, snd c) = Some [x]).
  Proof.
    intros [i j] F. apply truthy_ok in F. destruct TG as (_ & _ & _ & _ & H). destruct (H i j [1] F) as [E|[_ (x & A & B & C)]]; [discriminate|].
    apply holds_single in A. exists x. split; [exact A|]. split; [destruct (lookup_single _ _ A) as (y & E & N); injection E as ->; exact N|]. cbn [fst snd]. split; intro K; apply holds_single; [apply B|apply C]; exact K.
  Qed.
  Lemma mem_ok : forall c, tmem T c = true <-> exists x, tlookup T c = Some [x].
  Proof. intro c. unfold tmem. destruct (lookup_cases c) as [->|(x & -> & _)]; [split; [discriminate|intros (x & K); discriminate]|]. split; [intros _; exists x; reflexivity|reflexivity]. Qed.

  (* walking along a group *)
  Section Walk.
    Variables next prev : box -> box.
    Variable pos : box -> Z.
    Variable x : Z.
    Hypothesis np : forall c, next (prev c) = c.
    Hypothesis pn : forall c, prev (next c) = c.
    Hypothesis pos_next : forall c, pos (next c) = pos c + 1.
    Hypothesis link : forall c, tlookup T c = Some [x] -> truthy G c = true -> tlookup T (prev c) = Some [x].
    Definition goes (c : box) : bool := truthy G c && same_entry T c x.
    Fixpoint iter (k : nat) (f : box -> box) (c : box) : box := match k with O => c | S k => iter k f (f c) end.
    Lemma iter_S : forall k f c, iter (S k) f c = f (iter k f c).
    Proof. induction k as [|k IH]; intros f c; [reflexivity|]. cbn [iter] in *. rewrite <- IH. reflexivity. Qed.
    Lemma iter_np : forall k m c, (k <= m)%nat -> iter k next (iter m prev c) = iter (m - k) prev c.
    Proof.
      induction k as [|k IH]; intros m c L; [rewrite Nat.sub_0_r; reflexivity|]. rewrite iter_S, IH by lia. replace (m - k)%nat with (S (m - S k)) by lia. rewrite iter_S. apply np.
    Qed.
    Lemma iter_app : forall a b f c, iter (a + b) f c = iter b f (iter a f c).
    Proof. induction a as [|a IH]; intros b f c; [reflexivity|]. cbn [Nat.add iter]. apply IH. Qed.
    Lemma pos_iter : forall k c, pos (iter k next c) = pos c + Z.of_nat k.
    Proof. induction k as [|k IH]; intro c; cbn [iter]; [lia|]. rewrite IH, pos_next. lia. Qed.
    Lemma iter_inj : forall k c d, iter k next c = iter k next d -> c = d.
    Proof. induction k as [|k IH]; intros c d E; [exact E|]. cbn [iter] in E. apply IH in E. rewrite <- (pn c), <- (pn d), E. reflexivity. Qed.

    Fixpoint gwalk (fuel : nat) (f : box -> bool) (step : box -> box) (c : box) : option box :=
      match fuel with O => None | S fuel' => if f (step c) then gwalk fuel' f step (step c) else Some c end.
    Lemma gwalk_ok : forall (f : box -> bool) (step : box -> box) (h : box -> Z), (forall c, h (step c) = h c + 1) -> (forall c, f c = true -> In c (map fst T)) ->
      forall fuel c vis, NoDup (c :: vis) -> incl (c :: vis) (map fst T) -> (forall d, In d vis -> h d < h c) -> (length T < length (c :: vis) + fuel)%nat ->
      exists k, gwalk fuel f step c = Some (iter k step c) /\ (forall j, (1 <= j <= k)%nat -> f (iter j step c) = true) /\ f (iter (S k) step c) = false.
    Proof.
      intros f step h Hh Hf. induction fuel as [|fuel IH]; intros c vis N I V L.
      - exfalso. pose proof (NoDup_incl_length N I) as K. rewrite map_length in K. lia.
      - cbn [gwalk]. destruct (f (step c)) eqn:E.
        + destruct (IH (step c) (c :: vis)) as (k & E1 & E2 & E3).
          * constructor; [|exact N]. intros [K|K]; [pose proof (Hh c) as Q; rewrite <- K in Q; lia|]. specialize (V _ K). rewrite Hh in V. lia.
          * intros d [<-|K]; [apply Hf; exact E|apply I; exact K].
          * intros d [<-|K]; rewrite Hh; [lia|]. specialize (V d K). lia.
          * cbn [length] in *. lia.
          * exists (S k). split; [exact E1|]. split; [|exact E3]. intros [|[|j]] B; [lia|exact E|]. apply (E2 (S j)). lia.
        + exists O. split; [reflexivity|]. split; [intros j B; lia|exact E].
    Qed.
    Lemma goes_cell : forall c, goes c = true -> tlookup T c = Some [x] /\ truthy G c = true.
    Proof. intros c H. unfold goes in H. apply andb_true_iff in H. destruct H as [A B]. split; [apply same_ok; exact B|exact A]. Qed.
    Lemma cell_in : forall c l, tlookup T c = Some l -> In c (map fst T).
    Proof. intros c l H. apply tlookup_In in H. apply (in_map fst) in H. exact H. Qed.
    Lemma walk_gwalk : forall fuel c, walk fuel next (T, G) x c = match gwalk fuel goes next c with Some d => Ok d | None => Err OutOfFuel end.
    Proof. induction fuel as [|fuel IH]; intro c; [reflexivity|]. cbn [walk gwalk fst snd]. change (truthy G (next c) && same_entry T (next c) x) with (goes (next c)). destruct (goes (next c)); [apply IH|reflexivity]. Qed.
    Lemma walk_ok : forall fuel c, (length T <= fuel)%nat -> tlookup T c = Some [x] ->
      exists k, walk fuel next (T, G) x c = Ok (iter k next c) /\ (forall j, (1 <= j <= k)%nat -> goes (iter j next c) = true) /\ goes (iter (S k) next c) = false.
    Proof.
      intros fuel c L E. rewrite walk_gwalk. destruct (gwalk_ok goes next pos pos_next) with (fuel := fuel) (c := c) (vis := @nil box) as (k & E1 & E2 & E3).
      - intros d H. apply goes_cell in H. exact (cell_in d [x] (proj1 H)).
      - constructor; [intros []|constructor].
      - intros d [<-|[]]. exact (cell_in c [x] E).
      - intros d [].
      - cbn [length]. lia.
      - exists k. rewrite E1. split; [reflexivity|]. split; assumption.
    Qed.
    (* every cell reaches the last cell of its group *)
    Lemma reach : forall c, tlookup T c = Some [x] -> exists m, tlookup T (iter m prev c) = Some [x] /\ truthy G (iter m prev c) = false /\ (forall j, (j < m)%nat -> goes (iter j prev c) = true).
    Proof.
      intros c E. set (f := fun d => goes (next d)). destruct (gwalk_ok f prev (fun d => - pos d)) with (fuel := length T) (c := c) (vis := @nil box) as (k & E1 & E2 & E3).
      - intro d. pose proof (pos_next (prev d)) as K. rewrite np in K. lia.
      - intros d H. unfold f in H. apply goes_cell in H. destruct H as [A B]. pose proof (link _ A B) as K. rewrite pn in K. exact (cell_in d [x] K).
      - constructor; [intros []|constructor].
      - intros d [<-|[]]. exact (cell_in c [x] E).
      - intros d [].
      - cbn [length]. lia.
      - assert (Q : forall j, (j < k)%nat -> goes (iter j prev c) = true). { intros j H. specialize (E2 (S j) ltac:(lia)). unfold f in E2. rewrite iter_S, np in E2. exact E2. }
        assert (C : tlookup T (iter k prev c) = Some [x]). { destruct k as [|k]; [exact E|]. rewrite iter_S. destruct (goes_cell _ (Q k ltac:(lia))) as [A B]. exact (link _ A B). }
        exists k. split; [exact C|]. split; [|exact Q]. unfold f in E3. rewrite iter_S, np in E3. unfold goes in E3. rewrite (proj2 (same_ok _ _) C), andb_true_r in E3. exact E3.
    Qed.
    Lemma in_segment : forall c, tlookup T c = Some [x] -> exists m, let e := iter m prev c in tlookup T e = Some [x] /\ truthy G e = false /\
      forall k, (forall j, (1 <= j <= k)%nat -> goes (iter j next e) = true) -> goes (iter (S k) next e) = false -> (m <= k)%nat /\ c = iter m next e.
    Proof.
      intros c E. destruct (reach c E) as (m & A & B & C). exists m. cbv zeta. split; [exact A|]. split; [exact B|]. intros k K1 K2.
      assert (R : c = iter m next (iter m prev c)) by (rewrite iter_np by lia; rewrite Nat.sub_diag; reflexivity). split; [|exact R].
      destruct (Nat.le_gt_cases m k) as [L|L]; [exact L|]. exfalso. rewrite iter_np in K2 by lia. rewrite (C (m - S k)%nat) in K2 by lia. discriminate.
    Qed.
    (* segments with a common cell have the same end *)
    Lemma segment_unique : forall e e' k k' m m', truthy G e = false -> truthy G e' = false ->
      (forall j, (1 <= j <= k)%nat -> goes (iter j next e) = true) -> (forall j, (1 <= j <= k')%nat -> goes (iter j next e') = true) ->
      (m <= k)%nat -> (m' <= k')%nat -> iter m next e = iter m' next e' -> e = e'.
    Proof.
      assert (W : forall e e' k' m m', truthy G e = false -> (forall j, (1 <= j <= k')%nat -> goes (iter j next e') = true) -> (m <= m')%nat -> (m' <= k')%nat -> iter m next e = iter m' next e' -> e = e').
      { intros e e' k' m m' F K L L' E. replace m' with ((m' - m) + m)%nat in E by lia. rewrite iter_app in E. apply iter_inj in E. destruct (m' - m)%nat as [|r] eqn:D; [exact E|].
        specialize (K (S r) ltac:(lia)). rewrite <- E in K. apply goes_cell in K. destruct K. congruence. }
      intros e e' k k' m m' F F' K K' L L' E. destruct (Nat.le_ge_cases m m') as [C|C].
      - exact (W e e' k' m m' F K' C L' E).
      - symmetry. exact (W e' e k m' m F' K C L (eq_sym E)).
    Qed.
  End Walk.

  Lemma with_entry_In : forall x c, In c (with_entry (T, G) x) <-> In (c, [x]) T /\ In (c, [0]) G.
  Proof.
    intros x c. unfold with_entry. cbn [fst snd]. rewrite filter_In, andb_true_iff, negb_true_iff, same_ok. split.
    - intros (_ & E & F). split; [apply tlookup_In; exact E|apply (label_zero c x E); exact F].
    - intros (I & Z). pose proof (proj2 (lookup_iff c [x]) I) as E. split; [apply (in_map fst) in I; exact I|]. split; [exact E|apply (label_zero c x E); exact Z].
  Qed.
  Lemma with_entry_NoDup : forall x, NoDup (with_entry (T, G) x).
  Proof. intro x. apply NoDup_filter. apply sorted_NoDup. apply WT. Qed.
End Basics.
Lemma rmap_spec : forall (A B : Type) (f : A -> res B) (R : A -> B -> Prop) l, (forall a, In a l -> exists b, f a = Ok b /\ R a b) ->
  exists r, rmap f l = Ok r /\ length r = length l /\ forall k d d', (k < length l)%nat -> R (nth k l d) (nth k r d').
Proof.
  induction l as [|a l IH]; intro H; [exists []; split; [reflexivity|]; split; [reflexivity|]; cbn; lia|].
  destruct (H a (or_introl eq_refl)) as (b & E & R1). destruct IH as (r & Er & Lr & Hr); [intros z Hz; apply H; right; exact Hz|].
  exists (b :: r). cbn [rmap]. rewrite E. cbn [rbind]. rewrite Er. split; [reflexivity|]. split; [cbn [length]; lia|]. intros [|k] d d' L; cbn [nth]; [exact R1|]. apply Hr. cbn [length] in L. lia.
Qed.
