(* Words: the shifted insertion and recording tableaux *)
From Coq Require Import List ZArith Bool Lia Sorted Permutation.
From Verif Require Import PyBase M_Partitions L_PartMore M_Tableaux S_Tableaux L_Tableaux M_Insertion M_FState L_Insertion1 L_Insertion2 L_Insertion4 L_Insertion7 L_FState1 L_FState2 L_FState3 L_FState4 L_FState5 L_FState6.
Import ListNotations.
Local Open Scope Z_scope.

Lemma f_run : forall w L H g s q k, fshape L H -> FIncr L g -> Evn L g -> FN L g s -> FQ L q k -> Forall (fun a => a mod 2 = 0) w ->
  exists s' q' L' H' g', rfold (fun sq ia => f_push (fst sq) (snd sq) (snd ia) (fst ia + 1 + 0)) (combine (zrange k (k + zlen w)) w) (s, q) = Ok (s', q') /\
    fshape L' H' /\ FIncr L' g' /\ Evn L' g' /\ FN L' g' s' /\ FQ L' q' (k + zlen w).
Proof.
  induction w as [|a w IH]; intros L H g s q k S I Ev F Q Fw.
  - exists s, q, L, H, g. replace (k + zlen (@nil Z)) with k by (cbn; lia). rewrite zrange_nil by lia. split; [reflexivity|]. split; [exact S|]. split; [exact I|]. split; [exact Ev|]. split; [exact F|exact Q].
  - assert (ZL : zlen (a :: w) = 1 + zlen w) by (unfold zlen; cbn [length]; lia). rewrite ZL. rewrite zrange_cons by (unfold zlen; lia). cbn [combine rfold fst snd].
    inversion Fw as [|? ? Fa Fw']; subst. replace (k + 1 + 0) with (k + 1) by lia.
    destruct (f_push_spec L H g s q k a S I Ev F Q Fa) as (s1 & L1 & H1 & g1 & c & b & neg & E & HI & S1 & I1 & Ev1 & F1 & Q1). cbv zeta in E. rewrite E. cbn [rbind].
    destruct (IH L1 H1 g1 s1 _ (k + 1) S1 I1 Ev1 F1 Q1 Fw') as (s' & q' & L' & H' & g' & E' & R). replace (k + (1 + zlen w)) with (k + 1 + zlen w) by lia.
    exists s', q', L', H', g'. split; [exact E'|exact R].
Qed.
Lemma f_start : let L := fun i : Z => i - 1 in let H := fun _ : Z => 0 in let g := fun _ _ : Z => 0 in fshape L H /\ FIncr L g /\ Evn L g /\ T (look L g None) [] /\ FQ L [] 0.
Proof.
  cbv zeta. assert (IN : forall r c, fin (fun i => i - 1) r c = false) by (intros; apply fin_false; lia).
  split; [split; [intros; lia|split; intros; lia]|]. split; [split; intros; lia|]. split; [intros r c K; rewrite IN in K; discriminate|]. split.
  - split; [apply wf_nil|]. intros [i j]. unfold look, fbase. cbn [fst snd tlookup]. rewrite IN. reflexivity.
  - split; [lia|]. split; [apply wf_nil|]. split; [intro c; rewrite IN; cbn; split; intro H; [exfalso; apply H; reflexivity|discriminate]|]. split; [intros c l H; discriminate|].
    split; [constructor|]. split; [|split]; intros; discriminate.
Qed.
Lemma f_tableaux : forall w, Forall (fun a => a mod 2 = 0) w -> exists p q L H g, f_insertion_tableaux [] [] w = Ok (p, q) /\ fshape L H /\ FIncr L g /\ Evn L g /\ T (look L g None) p /\ FQ L q (zlen w).
Proof.
  intros w Fw. destruct f_start as (S0 & I0 & E0 & R0 & Q0). destruct (fmake_None _ _ _ R0) as (s & Es & Fs & _). unfold f_insertion_tableaux. cbn [tlast]. 
  replace (tlast []) with (@Ok Z 0) by reflexivity. cbn [rbind]. rewrite Es. cbn [rbind].
  destruct (f_run w _ _ _ s [] 0 S0 I0 E0 Fs Q0 Fw) as (s' & q' & L' & H' & g' & E' & S' & I' & Ev' & F' & Q'). replace (0 + zlen w) with (zlen w) in * by lia. change (Z.abs 0) with 0. rewrite E'. cbn [rbind fst snd].
  exists (htab s'), q', L', H', g'. split; [reflexivity|]. split; [exact S'|]. split; [exact I'|]. split; [exact Ev'|]. split; [exact (proj1 F')|exact Q'].
Qed.

Lemma sorted_eq : forall a b, Permutation a b -> sorted a = sorted b.
Proof.
  intros a b P. apply increasing_perm_eq; [apply sorted_increasing|apply sorted_increasing|]. eapply Permutation_trans; [apply Permutation_sym, sorted_perm|]. eapply Permutation_trans; [exact P|apply sorted_perm].
Qed.
(* applying a function to every value *)
Definition tmapped (f : box -> Z -> Z) (t : tab) : tab := map (fun cv => (fst cv, sorted (map (f (fst cv)) (snd cv)))) t.
Lemma tlookup_tmapped : forall f t c, tlookup (tmapped f t) c = option_map (fun l => sorted (map (f c) l)) (tlookup t c).
Proof.
  induction t as [|[d l] t IH]; intro c; [reflexivity|]. cbn [tmapped map tlookup fst snd]. destruct (box_eqb d c) eqn:E; [|apply IH]. apply box_eqb_eq in E. subst d. reflexivity.
Qed.
Lemma tmapped_wf : forall f t, well_formed t -> well_formed (tmapped f t).
Proof.
  intros f t [S P]. split.
  - unfold tmapped. rewrite map_map. cbn [fst]. exact S.
  - intros c l H. unfold tmapped in H. apply in_map_iff in H. destruct H as ([d m] & E & H). cbn [fst snd] in E. injection E as <- <-. destruct (P d m H) as (P1 & P2 & P3). split; [assumption|]. split; [assumption|apply sorted_increasing].
Qed.
Lemma tinit_mapped : forall f t, well_formed t -> tinit (map (fun cv => (fst cv, VTup (map (f (fst cv)) (snd cv)))) t) = Ok (tmapped f t).
Proof.
  intros f t W. set (m := map (fun cv : box * list Z => (fst cv, VTup (map (f (fst cv)) (snd cv)))) t : list (box * pyval)). assert (K : map fst m = map fst t) by (unfold m; rewrite map_map; reflexivity).
  destruct (tinit_spec m) as (u & E & Wu & L).
  - rewrite K. apply sorted_NoDup. apply W.
  - rewrite K. intros c H. apply in_map_iff in H. destruct H as ([d l] & <- & H). destruct W as [_ W]. destruct (W d l H) as (A & B & _). split; assumption.
  - transitivity (tinit m); [reflexivity|]. rewrite E. f_equal. apply wf_ext; [exact Wu|apply tmapped_wf; exact W|]. intro c. rewrite L, tlookup_tmapped. clear. unfold m. induction t as [|[d l] t IH]; [reflexivity|]. cbn [map fst snd mlookup tlookup]. destruct (box_eqb d c) eqn:E; [|exact IH].
    apply box_eqb_eq in E. subst d. reflexivity.
Qed.
Lemma tmapped_compose : forall f h t, well_formed t -> tmapped f (tmapped h t) = tmapped (fun c x => f c (h c x)) t.
Proof.
  intros f h t W. apply wf_ext; [apply tmapped_wf, tmapped_wf, W|apply tmapped_wf, W|]. intro c. rewrite !tlookup_tmapped. destruct (tlookup t c) as [l|]; [|reflexivity]. cbn [option_map]. f_equal.
  rewrite <- (map_map (h c) (f c)). apply sorted_eq. apply Permutation_map. apply Permutation_sym, sorted_perm.
Qed.
Lemma tmapped_id : forall f t, well_formed t -> (forall c l x, tlookup t c = Some l -> In x l -> f c x = x) -> tmapped f t = t.
Proof.
  intros f t W E. apply wf_ext; [apply tmapped_wf; exact W|exact W|]. intro c. rewrite tlookup_tmapped. destruct (tlookup t c) as [l|] eqn:El; [|reflexivity]. cbn [option_map]. f_equal.
  replace (map (f c) l) with l; [apply sorted_id; apply (wf_lookup t c l W El)|]. symmetry. rewrite <- (map_id l) at 2. apply map_ext_in. intros x Hx. apply (E c l x El Hx).
Qed.
Lemma tapply_res_mapped : forall f h t, well_formed t -> (forall c l x, tlookup t c = Some l -> In x l -> f x = Ok (h x)) -> tapply_res f t = Ok (tmapped (fun _ => h) t).
Proof.
  intros f h t W F. unfold tapply_res. rewrite (rmap_ok _ _ _ (fun cv => (fst cv, VTup (map h (snd cv))))).
  - cbn [rbind]. exact (tinit_mapped (fun _ => h) t W).
  - intros [c l] K. cbn [fst snd]. rewrite (rmap_ok _ _ _ h); [reflexivity|]. intros x Hx. apply (F c l x); [|exact Hx]. apply In_tlookup; [apply W|exact K].
Qed.
Definition fneg (c : box) (x : Z) : Z := if fst c =? snd c then x else - x.
Lemma tnegate_mapped : forall t, well_formed t -> tnegate t true = Ok (tmapped fneg t).
Proof. intros t W. unfold tnegate. exact (tinit_mapped fneg t W). Qed.
Lemma fneg_fneg : forall t, well_formed t -> tmapped fneg (tmapped fneg t) = t.
Proof.
  intros t W. rewrite tmapped_compose by exact W. apply tmapped_id; [exact W|]. intros c l x _ _. unfold fneg. destruct (fst c =? snd c); lia.
Qed.
Lemma thalve_mapped : forall L g p, T (look L g None) p -> Evn L g -> thalve p = Ok (tmapped (fun _ x => x / 2) p) /\ T (look L (fun i j => g i j / 2) None) (tmapped (fun _ x => x / 2) p).
Proof.
  intros L g p [W R] Ev. split.
  - unfold thalve. replace (forallb _ p) with true; [unfold tapply; exact (tinit_mapped (fun _ x => x / 2) p W)|]. symmetry. apply forallb_forall. intros [[i j] l] K. cbn [snd]. apply (In_tlookup _ _ _ (proj1 W)) in K. rewrite R in K.
    unfold look, fbase in K. cbn [fst snd] in K. destruct (fin L i j) eqn:E; [|discriminate]. injection K as <-. cbn [forallb]. rewrite (Ev i j E). reflexivity.
  - split; [apply tmapped_wf; exact W|]. intro c. rewrite tlookup_tmapped, R. unfold look, fbase. destruct (fin L (fst c) (snd c)); reflexivity.
Qed.
