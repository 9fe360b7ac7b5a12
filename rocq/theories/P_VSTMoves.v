(* C112: the forward and backward transitions of valued-set tableaux *)
From Coq Require Import List ZArith Lia Bool Permutation Sorted.
From Verif Require Import PyBase M_Partitions M_Tableaux S_Tableaux L_Tableaux S_Semistandard M_Transposed S_Transposed M_VST S_VST L_VST P_VST P_Unprime M_VSTMoves S_VSTMoves L_VSTMoves.
Import ListNotations.
Local Open Scope Z_scope.

Lemma vals_keys : forall (x : Z) l (c : box), In c (map fst (flat_map (fun s => map (fun c : box => (c, x)) (seg_cells s)) l)) <-> In c (all_cells l).
Proof.
  intros x l c. unfold all_cells. rewrite in_map_iff, in_flat_map. split.
  - intros ([d y] & E & I). cbn [fst] in E. subst d. apply in_flat_map in I. destruct I as (s & I1 & I2). apply in_map_iff in I2. destruct I2 as (d & E & I2). injection E as -> _. exists s. split; assumption.
  - intros (s & I1 & I2). exists (c, x). split; [reflexivity|]. apply in_flat_map. exists s. split; [exact I1|]. apply in_map_iff. exists c. split; [reflexivity|exact I2].
Qed.
Lemma vals_In : forall (x y : Z) l (c : box), In (c, y) (flat_map (fun s => map (fun c : box => (c, x)) (seg_cells s)) l) -> y = x.
Proof. intros x y l c I. apply in_flat_map in I. destruct I as (s & _ & I). apply in_map_iff in I. destruct I as (d & E & _). congruence. Qed.
Lemma app_parts : forall (a b : list box), NoDup (a ++ b) -> NoDup a /\ NoDup b /\ forall x, In x a -> ~ In x b.
Proof.
  induction a as [|y a IH]; intros b N; [split; [constructor|split; [exact N|intros x []]]|]. cbn [app] in N. inversion N as [|? ? N1 N2]; subst. destruct (IH b N2) as (A & B & C). split; [constructor; [intro I; apply N1; apply in_or_app; left; exact I|exact A]|]. split; [exact B|]. intros x [<-|I]; [intro Q; apply N1; apply in_or_app; right; exact Q|apply C; exact I].
Qed.
Section Marks.
  Variable mk : seg -> box.
  Variable l : list seg.
  Hypothesis mk_in : forall s, In s l -> In (mk s) (seg_cells s).
  Let W (s : seg) : list (box * Z) := map (fun c => (c, 1)) (seg_cells s) ++ [(mk s, 0)].
  Lemma W_keys : forall s c, In s l -> (In c (map fst (W s)) <-> In c (seg_cells s)).
  Proof using mk_in.
    intros s c Hs. unfold W. rewrite map_app, map_map, in_app_iff. cbn [map fst In]. replace (map (fun x : box => x) (seg_cells s)) with (seg_cells s) by (symmetry; apply map_id). split; [intros [H|[<-|[]]]; [exact H|apply mk_in; exact Hs]|left; assumption].
  Qed.
  Lemma marks_keys : forall c, In c (map fst (flat_map W l)) <-> In c (all_cells l).
  Proof using mk_in.
    intro c. unfold all_cells. rewrite in_flat_map. split.
    - intro I. apply in_map_iff in I. destruct I as ([d y] & E & I). cbn [fst] in E. subst d. apply in_flat_map in I. destruct I as (s & I1 & I2). exists s. split; [exact I1|]. apply W_keys; [exact I1|]. apply (in_map fst) in I2. exact I2.
    - intros (s & I1 & I2). apply (W_keys s c I1) in I2. apply in_map_iff in I2. destruct I2 as ([d y] & E & I2). apply in_map_iff. exists (d, y). split; [exact E|]. apply in_flat_map. exists s. split; assumption.
  Qed.
  Hypothesis ND : NoDup (all_cells l).
  Lemma marks_at : forall s c m, In s l -> In c (seg_cells s) -> mlookup (mputs (flat_map W l) m) c = Some (VInt (if box_eqb (mk s) c then 0 else 1)).
  Proof using mk_in ND.
    intros s c m Hs Hc. apply (mputs_at seg W l m s c); [exact Hs|apply W_keys; assumption| |].
    - intros s' Hs' Hc'. apply (flat_unique seg seg_cells l s' s c ND Hs' Hs); [apply W_keys; assumption|exact Hc].
    - intro m0. unfold W. rewrite mputs_app. unfold mputs at 1. cbn [fold_left fst snd]. rewrite mlookup_mput. destruct (box_eqb (mk s) c); [reflexivity|]. apply mputs_const.
      + rewrite map_map. apply in_map_iff. exists c. split; [reflexivity|exact Hc].
      + intros y I. apply in_map_iff in I. destruct I as (d & E & _). congruence.
  Qed.
  Lemma marks_NoDup : NoDup l -> NoDup (map mk l).
  Proof using mk_in ND.
    intro N. assert (G : forall k, (forall s, In s k -> In s l) -> NoDup k -> NoDup (map mk k)).
    { induction k as [|s k IH]; intros S K; [constructor|]. inversion K as [|? ? K1 K2]; subst. cbn [map]. constructor; [|apply IH; [intros x Hx; apply S; right; exact Hx|exact K2]]. intro I. apply in_map_iff in I. destruct I as (s' & E & I). apply K1. replace s with s'; [exact I|]. apply (flat_unique seg seg_cells l s' s (mk s) ND); [apply S; right; exact I|apply S; left; reflexivity| |apply mk_in; apply S; left; reflexivity]. rewrite <- E. apply mk_in. apply S. right. exact I. }
    apply G; [auto|exact N].
  Qed.
  Lemma cells_NoDup : NoDup l.
  Proof using mk_in ND.
    clear W. revert mk_in ND. induction l as [|s k IH]; intros MI N; [constructor|]. unfold all_cells in N. cbn [flat_map] in N. constructor.
    - intro I. specialize (MI s (or_introl eq_refl)). apply in_split in MI. destruct MI as (a & b & E). rewrite E in N. rewrite <- app_assoc in N. apply NoDup_remove_2 in N. apply N. apply in_or_app. right. apply in_or_app. right. apply in_flat_map. exists s. split; [exact I|]. rewrite E. apply in_or_app. right. left. reflexivity.
    - apply IH; [intros x Hx; apply MI; right; exact Hx|]. apply app_parts in N. apply N.
  Qed.
End Marks.
Lemma card_same : forall (A : Type) (P : A -> Prop) l N, NoDup l -> (forall x, In x l <-> P x) -> cardinality P N -> N = Z.of_nat (length l).
Proof. intros A P l N ND H (k & K1 & K2 & <-). f_equal. apply Permutation_length. apply NoDup_Permutation; [exact K1|exact ND|]. intro x. rewrite K2, H. reflexivity. Qed.

Section Write.
  Variables T G : tab.
  Hypothesis TG : grouped T G.
  Variable k : Z.
  Hypothesis Hk : 0 < k.
  Variables vs hs : list seg.
  Hypothesis VC : forall c, In c (all_cells vs) <-> In (c, [- k - 1]) T.
  Hypothesis HC : forall c, In c (all_cells hs) <-> In (c, [k]) T.
  Hypothesis ND : NoDup (all_cells vs ++ all_cells hs).
  Hypothesis VV : Forall vert vs.
  Hypothesis HH : Forall horiz hs.
  Hypothesis VS : forall c, In c (map fst vs) <-> In (c, [- k - 1]) T /\ In (c, [0]) G.
  Hypothesis HE : forall c, In c (map snd hs) <-> In (c, [k]) T /\ In (c, [0]) G.
  Lemma write_ok : forall vs' hs', moves vs hs vs' hs' -> exists T' G', write_back (T, G) vs' hs' k = Ok (T', G') /\ regrouped k T G T' G'.
  Proof using TG Hk VC HC ND VV HH VS HE.
    intros vs' hs' (L1 & L2 & V' & H' & PP). assert (ND' : NoDup (all_cells vs' ++ all_cells hs')) by (apply (Permutation_NoDup PP ND)). destruct (app_parts _ _ ND) as (NV0 & NH0 & _). destruct (app_parts _ _ ND') as (NV & NH & DIS).
    assert (CC : forall c, In c (all_cells vs') \/ In c (all_cells hs') <-> In (c, [- k - 1]) T \/ In (c, [k]) T).
    { intro c. rewrite <- VC, <- HC, <- !in_app_iff. split; intro I; [apply (Permutation_in _ (Permutation_sym PP) I)|apply (Permutation_in _ PP I)]. }
    pose proof (WT T G TG) as WfT. pose proof (WG T G TG) as WfG. rewrite Forall_forall in V', H', VV, HH.
    assert (SI : forall s, In s vs' -> In (fst s) (seg_cells s)) by (intros s I; apply start_in; apply V'; exact I). assert (EI : forall s, In s hs' -> In (snd s) (seg_cells s)) by (intros s I; apply end_in; apply H'; exact I).
    assert (LT : forall c l, tlookup T c = Some l <-> In (c, l) T) by (intros c l; apply (lookup_iff T G TG)).
    assert (LG : forall c l, tlookup G c = Some l <-> In (c, l) G) by (intros c l; split; [apply tlookup_In|apply In_tlookup; apply WfG]).
    assert (GT : forall c, (exists l, In (c, l) G) <-> (exists l, In (c, l) T)) by (intros [i j]; apply TG).
    assert (PT : forall c, In c (all_cells vs') \/ In c (all_cells hs') -> positive c) by (intros c I; apply CC in I; destruct I as [I|I]; apply LT in I; apply (wf_lookup T c _ WfT I)).
    unfold write_back. cbn [fst snd]. cbv zeta.
    set (TW := flat_map (fun s => map (fun c : box => (c, - k - 1)) (seg_cells s)) vs' ++ flat_map (fun s => map (fun c : box => (c, k)) (seg_cells s)) hs').
    set (GW := flat_map (fun s => map (fun c : box => (c, 1)) (seg_cells s) ++ [(fst s, 0)]) vs' ++ flat_map (fun s => map (fun c : box => (c, 1)) (seg_cells s) ++ [(snd s, 0)]) hs').
    assert (KT : forall c, In c (map fst TW) <-> In c (all_cells vs') \/ In c (all_cells hs')) by (intro c; unfold TW; rewrite map_app, in_app_iff, !vals_keys; reflexivity).
    assert (KG : forall c, In c (map fst GW) <-> In c (all_cells vs') \/ In c (all_cells hs')) by (intro c; unfold GW; rewrite map_app, in_app_iff, (marks_keys fst vs' SI), (marks_keys snd hs' EI); reflexivity).
    destruct (tinit_spec (mputs TW (items T))) as (T' & ET & WT' & LT').
    { apply mputs_NoDup. apply items_NoDup. exact WfT. }
    { intros c I. apply mputs_keys in I. destruct I as [I|I]; [apply PT; apply KT; exact I|]. rewrite keys_items in I. apply (wf_keys T); assumption. }
    destruct (tinit_spec (mputs GW (items G))) as (G' & EG & WG' & LG').
    { apply mputs_NoDup. apply items_NoDup. exact WfG. }
    { intros c I. apply mputs_keys in I. destruct I as [I|I]; [apply PT; apply KG; exact I|]. rewrite keys_items in I. apply (wf_keys G); assumption. }
    (* the new entries and labels *)
    assert (TV : forall c, In c (all_cells vs') -> tlookup T' c = Some [- k - 1]).
    { intros c I. rewrite LT'. unfold TW. rewrite mputs_app, mputs_out by (rewrite vals_keys; apply DIS; exact I). rewrite (mputs_const _ _ c (- k - 1)); [reflexivity|apply vals_keys; exact I|intros y Hy; apply (vals_In _ _ _ _ Hy)]. }
    assert (TH : forall c, In c (all_cells hs') -> tlookup T' c = Some [k]).
    { intros c I. rewrite LT'. unfold TW. rewrite mputs_app. rewrite (mputs_const _ _ c k); [reflexivity|apply vals_keys; exact I|intros y Hy; apply (vals_In _ _ _ _ Hy)]. }
    assert (TO : forall c, ~ (In c (all_cells vs') \/ In c (all_cells hs')) -> tlookup T' c = tlookup T c).
    { intros c I. rewrite LT', mputs_out by (rewrite KT; exact I). rewrite mlookup_items. destruct (lookup_cases T G TG c) as [->|(x & -> & _)]; reflexivity. }
    assert (GV : forall s c, In s vs' -> In c (seg_cells s) -> tlookup G' c = Some [if box_eqb (fst s) c then 0 else 1]).
    { intros s c Hs Hc. assert (I : In c (all_cells vs')) by (apply in_flat_map; exists s; split; assumption). rewrite LG'. unfold GW. rewrite mputs_app, mputs_out by (rewrite (marks_keys snd hs' EI); apply DIS; exact I). rewrite (marks_at fst vs' SI NV s c _ Hs Hc). reflexivity. }
    assert (GH : forall s c, In s hs' -> In c (seg_cells s) -> tlookup G' c = Some [if box_eqb (snd s) c then 0 else 1]).
    { intros s c Hs Hc. rewrite LG'. unfold GW. rewrite mputs_app. rewrite (marks_at snd hs' EI NH s c _ Hs Hc). reflexivity. }
    assert (G01 : forall c l, In (c, l) G -> l = [0] \/ l = [1]) by (intros [i j] l I; destruct TG as (_ & _ & _ & _ & Q); destruct (Q i j l I) as [->|[-> _]]; auto).
    assert (GO : forall c, ~ (In c (all_cells vs') \/ In c (all_cells hs')) -> tlookup G' c = tlookup G c).
    { intros c I. rewrite LG', mputs_out by (rewrite KG; exact I). rewrite mlookup_items. destruct (tlookup G c) as [l|] eqn:E; [|reflexivity]. apply LG in E. destruct (G01 c l E) as [->| ->]; reflexivity. }
    assert (IT' : forall c l, tlookup T' c = Some l <-> In (c, l) T') by (intros c l; split; [apply tlookup_In|apply In_tlookup; apply WT']).
    assert (IG' : forall c l, tlookup G' c = Some l <-> In (c, l) G') by (intros c l; split; [apply tlookup_In|apply In_tlookup; apply WG']).
    assert (CASE : forall c, (exists s, In s vs' /\ In c (seg_cells s)) \/ (exists s, In s hs' /\ In c (seg_cells s)) \/ ~ (In c (all_cells vs') \/ In c (all_cells hs'))).
    { intro c. destruct (in_dec box_dec c (all_cells vs')) as [D|D]; [left; apply in_flat_map; exact D|]. destruct (in_dec box_dec c (all_cells hs')) as [D'|D']; [right; left; apply in_flat_map; exact D'|]. right; right. tauto. }
    assert (IV : forall s c, In s vs' -> In c (seg_cells s) -> In c (all_cells vs')) by (intros s c A B; apply in_flat_map; exists s; split; assumption).
    assert (IH : forall s c, In s hs' -> In c (seg_cells s) -> In c (all_cells hs')) by (intros s c A B; apply in_flat_map; exists s; split; assumption).
    assert (BOX : forall c, (exists l, In (c, l) T') <-> (exists l, In (c, l) T)).
    { intro c. destruct (CASE c) as [(s & A & B)|[(s & A & B)|O]].
      - split; intros _; [|exists [- k - 1]; apply IT', TV, (IV s c A B)]. pose proof (proj1 (CC c) (or_introl (IV s c A B))) as [I|I]; eexists; exact I.
      - split; intros _; [|exists [k]; apply IT', TH, (IH s c A B)]. pose proof (proj1 (CC c) (or_intror (IH s c A B))) as [I|I]; eexists; exact I.
      - split; intros (l & I); exists l; [apply LT; rewrite <- (TO c O); apply IT'; exact I|apply IT'; rewrite (TO c O); apply LT; exact I]. }
    assert (BOXG : forall c, (exists l, In (c, l) G') <-> (exists l, In (c, l) T')).
    { intro c. rewrite BOX. destruct (CASE c) as [(s & A & B)|[(s & A & B)|O]].
      - split; intros _; [|eexists; apply IG', (GV s c A B)]. pose proof (proj1 (CC c) (or_introl (IV s c A B))) as [I|I]; eexists; exact I.
      - split; intros _; [|eexists; apply IG', (GH s c A B)]. pose proof (proj1 (CC c) (or_intror (IH s c A B))) as [I|I]; eexists; exact I.
      - rewrite <- GT. split; intros (l & I); exists l; [apply LG; rewrite <- (GO c O); apply IG'; exact I|apply IG'; rewrite (GO c O); apply LG; exact I]. }
    assert (OTHER : forall c x, x <> k -> x <> - k - 1 -> (In (c, [x]) T' <-> In (c, [x]) T) /\ (In (c, [x]) T -> ~ (In c (all_cells vs') \/ In c (all_cells hs')))).
    { intros c x N1 N2. assert (X : In (c, [x]) T -> ~ (In c (all_cells vs') \/ In c (all_cells hs'))) by (intros I J; apply CC in J; apply LT in I; destruct J as [J|J]; apply LT in J; congruence). split; [|exact X]. split; intro I.
      - destruct (CASE c) as [(s & A & B)|[(s & A & B)|O]]; apply IT' in I; [rewrite (TV c (IV s c A B)) in I; congruence|rewrite (TH c (IH s c A B)) in I; congruence|]. rewrite (TO c O) in I. apply LT. exact I.
      - apply IT'. rewrite (TO c (X I)). apply LT. exact I. }
    assert (GR : grouped T' G').
    { split; [exact WT'|]. split; [|split; [exact WG'|split; [intros i j; apply BOXG|]]].
      - intros c l I. apply IT' in I. destruct (CASE c) as [(s & A & B)|[(s & A & B)|O]].
        + rewrite (TV c (IV s c A B)) in I. injection I as <-. exists (- k - 1). split; [reflexivity|lia].
        + rewrite (TH c (IH s c A B)) in I. injection I as <-. exists k. split; [reflexivity|lia].
        + rewrite (TO c O) in I. apply (lookup_single T G TG c l I).
      - intros i j l I. apply IG' in I. destruct (CASE (i, j)) as [(s & A & B)|[(s & A & B)|O]].
        + rewrite (GV s _ A B) in I. injection I as <-. destruct (box_eqb (fst s) (i, j)) eqn:E; [left; reflexivity|right]. split; [reflexivity|]. exists (- k - 1). split; [exists [- k - 1]; split; [apply IT', TV, (IV s _ A B)|left; reflexivity]|]. split; [intro; lia|]. intros _. exists [- k - 1]. split; [|left; reflexivity]. apply IT', TV, (IV s _ A).
          destruct (V' s A) as (j0 & a & b & L & ->). rewrite cells_vert, in_col in *. cbn [fst snd] in *. destruct B as [B1 B2]. subst j0. split; [|reflexivity]. assert (a <> i) by (intros ->; rewrite box_eqb_refl in E; discriminate). lia.
        + rewrite (GH s _ A B) in I. injection I as <-. destruct (box_eqb (snd s) (i, j)) eqn:E; [left; reflexivity|right]. split; [reflexivity|]. exists k. split; [exists [k]; split; [apply IT', TH, (IH s _ A B)|left; reflexivity]|]. split; [|intro; lia]. intros _. exists [k]. split; [|left; reflexivity]. apply IT', TH, (IH s _ A).
          destruct (H' s A) as (i0 & a & b & L & ->). rewrite cells_horiz, in_row in *. cbn [fst snd] in *. destruct B as [B1 B2]. subst i0. split; [|reflexivity]. assert (b <> j) by (intros ->; rewrite box_eqb_refl in E; discriminate). lia.
        + rewrite (GO _ O) in I. apply LG in I. destruct TG as (_ & _ & _ & _ & Q). destruct (Q i j l I) as [->|[-> (x & X1 & X2 & X3)]]; [left; reflexivity|right]. split; [reflexivity|]. apply (holds_single T G TG) in X1.
          assert (NX : x <> k /\ x <> - k - 1) by (split; intros ->; apply O, CC; [right|left]; apply LT; exact X1). destruct NX as [NX1 NX2].
          assert (MV : forall a b, holds T a b x -> holds T' a b x) by (intros a b X; apply (holds_single T G TG) in X; apply LT in X; exists [x]; split; [apply (OTHER (a, b) x NX1 NX2); exact X|left; reflexivity]).
          exists x. split; [apply MV; exists [x]; split; [apply LT; exact X1|left; reflexivity]|]. split; intro S; apply MV; [apply X2|apply X3]; exact S. }
    exists T', G'. split; [rewrite ET, EG; cbn [rbind]; apply init_grouped; exact GR|]. split; [exact GR|]. split; [exact BOX|]. split; [intros c x N1 N2; apply (OTHER c x N1 N2)|]. split.
    { intros c x l N1 N2 I. rewrite <- IG', <- LG, (GO c (proj2 (OTHER c x N1 N2) I)). reflexivity. }
    intros x N CN. destruct (Z.eq_dec x (- k - 1)) as [->|N1]; [|destruct (Z.eq_dec x k) as [->|N2]].
    - assert (SI0 : forall s, In s vs -> In (fst s) (seg_cells s)) by (intros s I; apply start_in; apply VV; exact I).
      assert (NN : N = Z.of_nat (length (map fst vs))) by (apply (card_same _ _ (map fst vs) N (marks_NoDup fst vs SI0 NV0 (cells_NoDup fst vs SI0 NV0)) VS CN)).
      exists (map fst vs'). split; [apply (marks_NoDup fst vs' SI NV (cells_NoDup fst vs' SI NV))|]. split; [|rewrite NN; f_equal; rewrite !map_length; exact L1]. intro c. split.
      + intro I. apply in_map_iff in I. destruct I as (s & <- & I). split; [apply IT', TV, (IV s _ I (SI s I))|]. apply IG'. rewrite (GV s _ I (SI s I)), box_eqb_refl. reflexivity.
      + intros [I J]. apply IT' in I. apply IG' in J. destruct (CASE c) as [(s & A & B)|[(s & A & B)|O]].
        * rewrite (GV s c A B) in J. destruct (box_eqb (fst s) c) eqn:E; [|discriminate]. apply box_eqb_eq in E. apply in_map_iff. exists s. split; assumption.
        * rewrite (TH c (IH s c A B)) in I. injection I. lia.
        * rewrite (TO c O) in I. destruct O. apply CC. left. apply LT. exact I.
    - assert (EI0 : forall s, In s hs -> In (snd s) (seg_cells s)) by (intros s I; apply end_in; apply HH; exact I).
      assert (NN : N = Z.of_nat (length (map snd hs))) by (apply (card_same _ _ (map snd hs) N (marks_NoDup snd hs EI0 NH0 (cells_NoDup snd hs EI0 NH0)) HE CN)).
      exists (map snd hs'). split; [apply (marks_NoDup snd hs' EI NH (cells_NoDup snd hs' EI NH))|]. split; [|rewrite NN; f_equal; rewrite !map_length; exact L2]. intro c. split.
      + intro I. apply in_map_iff in I. destruct I as (s & <- & I). split; [apply IT', TH, (IH s _ I (EI s I))|]. apply IG'. rewrite (GH s _ I (EI s I)), box_eqb_refl. reflexivity.
      + intros [I J]. apply IT' in I. apply IG' in J. destruct (CASE c) as [(s & A & B)|[(s & A & B)|O]].
        * rewrite (TV c (IV s c A B)) in I. injection I. lia.
        * rewrite (GH s c A B) in J. destruct (box_eqb (snd s) c) eqn:E; [|discriminate]. apply box_eqb_eq in E. apply in_map_iff. exists s. split; assumption.
        * rewrite (TO c O) in I. destruct O. apply CC. right. apply LT. exact I.
    - destruct CN as (l & C1 & C2 & C3). exists l. split; [exact C1|]. split; [|exact C3]. intro c. rewrite C2. destruct (OTHER c x N2 N1) as [O1 O2]. rewrite O1. split; intros [A B]; (split; [exact A|]); [apply IG'; rewrite (GO c (O2 A)); apply LG; exact B|apply LG; rewrite <- (GO c (O2 A)); apply IG'; exact B].
  Qed.
End Write.

(* ---------- the groups at the beginning ---------- *)
Lemma combine_In : forall (l l' : list box) s, length l = length l' -> (In s (combine l l') <-> exists k, (k < length l')%nat /\ s = (nth k l (0, 0), nth k l' (0, 0))).
Proof.
  induction l as [|a l IH]; intros [|b l'] s L; try discriminate; [split; [intros []|intros (k & H & _); cbn in H; lia]|]. injection L as L. cbn [combine In length]. rewrite (IH l' s L). split.
  - intros [<-|(k & H & ->)]; [exists O; split; [lia|reflexivity]|exists (S k); split; [lia|reflexivity]].
  - intros ([|k] & H & ->); [left; reflexivity|right; exists k; split; [lia|reflexivity]].
Qed.
Lemma combine_fst : forall (l l' : list box), length l = length l' -> map fst (combine l l') = l /\ map snd (combine l l') = l'.
Proof. induction l as [|a l IH]; intros [|b l'] L; try discriminate; [split; reflexivity|]. injection L as L. destruct (IH l' L) as [A B]. cbn [combine map fst snd]. split; congruence. Qed.
Lemma strict_NoDup : forall (R : box -> box -> Prop) l, (forall a, ~ R a a) -> StronglySorted R l -> NoDup l.
Proof. intros R l I S. induction S as [|a l S IH F]; [constructor|]. constructor; [|exact IH]. intro J. rewrite Forall_forall in F. exact (I a (F a J)). Qed.
Lemma flat_NoDup : forall l, NoDup l -> (forall s, In s l -> NoDup (seg_cells s)) -> (forall a b c, In a l -> In b l -> In c (seg_cells a) -> In c (seg_cells b) -> a = b) -> NoDup (all_cells l).
Proof.
  induction l as [|s l IH]; intros N A U; [constructor|]. inversion N as [|? ? N1 N2]; subst. unfold all_cells. cbn [flat_map].
  assert (X : NoDup (all_cells l)) by (apply IH; [exact N2|intros x Hx; apply A; right; exact Hx|intros a b c Ha Hb; apply U; right; assumption]).
  assert (D : forall c, In c (seg_cells s) -> ~ In c (all_cells l)).
  { intros c I J. apply in_flat_map in J. destruct J as (s' & J1 & J2). apply N1. rewrite (U s s' c (or_introl eq_refl) (or_intror J1) I J2). exact J1. }
  specialize (A s (or_introl eq_refl)). fold (all_cells l). clear - A X D. induction (seg_cells s) as [|c k IH]; [exact X|]. inversion A as [|? ? A1 A2]; subst. cbn [app]. constructor; [|apply IH; [exact A2|intros d Hd; apply D; right; exact Hd]]. intro I. apply in_app_or in I. destruct I as [I|I]; [contradiction|]. exact (D c (or_introl eq_refl) I).
Qed.
Lemma zrange_nodup : forall a b, NoDup (zrange a b).
Proof. intros a b. unfold zrange. apply FinFun.Injective_map_NoDup; [intros x y E; lia|apply seq_NoDup]. Qed.
Lemma seg_NoDup : forall s, vert s \/ horiz s -> NoDup (seg_cells s).
Proof. intros s [(j & a & b & _ & ->)|(j & a & b & _ & ->)]; [rewrite cells_vert|rewrite cells_horiz]; (apply FinFun.Injective_map_NoDup; [intros x y E; congruence|apply zrange_nodup]). Qed.

Section Begin.
  Variables T G : tab.
  Hypothesis TG : grouped T G.
  Lemma label_fun : forall c l l', In (c, l) G -> In (c, l') G -> l = l'.
  Proof using TG. intros c l l' A B. apply In_tlookup in A; [|apply (WG T G TG)]. apply In_tlookup in B; [|apply (WG T G TG)]. congruence. Qed.
  Lemma begin_vert : forall fuel x, x < 0 -> (length T <= fuel)%nat -> exists starts ends, get_verticals fuel (T, G) x = Ok (starts, ends) /\ let vs := combine starts ends in
    Forall vert vs /\ NoDup (all_cells vs) /\ (forall c, In c (all_cells vs) <-> In (c, [x]) T) /\ (forall c, In c (map fst vs) <-> In (c, [x]) T /\ In (c, [0]) G).
  Proof using TG.
    intros fuel x Hx LF. destruct (C98_get_verticals T G TG fuel x Hx LF) as (starts & ends & E & L & SS & A & B). exists starts, ends. split; [exact E|]. cbv zeta.
    assert (IN : forall s, In s (combine starts ends) <-> exists j a b, s = ((a, j), (b, j)) /\ column_group T G x j a b).
    { intro s. rewrite (combine_In starts ends s L). split.
      - intros (n & Hn & ->). destruct (A n Hn) as (j & a & b & A1 & A2 & A3). exists j, a, b. split; [f_equal; assumption|exact A3].
      - intros (j & a & b & -> & A3). destruct (B j a b A3) as (n & Hn & A1 & A2). exists n. split; [exact Hn|]. f_equal; symmetry; assumption. }
    assert (FV : Forall vert (combine starts ends)) by (apply Forall_forall; intros s I; apply IN in I; destruct I as (j & a & b & -> & (L0 & _)); exists j, a, b; split; [exact L0|reflexivity]).
    split; [exact FV|]. rewrite Forall_forall in FV. split; [|split].
    - apply flat_NoDup.
      + apply (NoDup_map_inv fst). rewrite (proj1 (combine_fst starts ends L)). refine (strict_NoDup _ _ _ SS); intros a Q; cbv beta in Q; lia.
      + intros s I. apply seg_NoDup. left. apply FV. exact I.
      + intros s s' c I I' J J'. apply IN in I. apply IN in I'. destruct I as (j & a & b & -> & R). destruct I' as (j' & a' & b' & -> & R'). rewrite cells_vert, in_col in J, J'. destruct c as [ci cj]. cbn [fst snd] in *. destruct J as [J1 J2]. destruct J' as [J1' J2']. subst j j'. pose proof (proj1 (proj2 R) ci J1) as IT. destruct (C98_column_groups T G TG x ci cj Hx IT) as (a0 & b0 & _ & _ & U). destruct (U a b J1 R) as [-> ->]. destruct (U a' b' J1' R') as [-> ->]. reflexivity.
    - intros [ci cj]. unfold all_cells. rewrite in_flat_map. split.
      + intros (s & I & J). apply IN in I. destruct I as (j & a & b & -> & R). rewrite cells_vert, in_col in J. cbn [fst snd] in J. destruct J as [J1 J2]. subst j. apply R. exact J1.
      + intro IT. destruct (C98_column_groups T G TG x ci cj Hx IT) as (a & b & J & R & _). exists ((a, cj), (b, cj)). split; [apply IN; exists cj, a, b; split; [reflexivity|exact R]|]. rewrite cells_vert, in_col. split; [exact J|reflexivity].
    - intros [ci cj]. rewrite in_map_iff. split.
      + intros (s & F & I). apply IN in I. destruct I as (j & a & b & -> & (R1 & R2 & R3 & R4 & _)). cbn [fst] in F. injection F as <- <-. split; [apply R2; lia|exact R4].
      + intros [IT IG]. destruct (C98_column_groups T G TG x ci cj Hx IT) as (a & b & J & R & _). exists ((a, cj), (b, cj)). split; [|apply IN; exists cj, a, b; split; [reflexivity|exact R]]. cbn [fst]. f_equal. destruct (Z.eq_dec a ci) as [D|D]; [exact D|]. exfalso. pose proof (proj1 (proj2 (proj2 R)) ci ltac:(lia)) as K. pose proof (label_fun _ _ _ IG K). discriminate.
  Qed.
  Lemma begin_horiz : forall fuel x, 0 < x -> (length T <= fuel)%nat -> exists starts ends, get_horizontals fuel (T, G) x = Ok (starts, ends) /\ let hs := combine starts ends in
    Forall horiz hs /\ NoDup (all_cells hs) /\ (forall c, In c (all_cells hs) <-> In (c, [x]) T) /\ (forall c, In c (map snd hs) <-> In (c, [x]) T /\ In (c, [0]) G).
  Proof using TG.
    intros fuel x Hx LF. destruct (C98_get_horizontals T G TG fuel x Hx LF) as (starts & ends & E & L & SS & A & B). exists starts, ends. split; [exact E|]. cbv zeta.
    assert (IN : forall s, In s (combine starts ends) <-> exists j a b, s = ((j, a), (j, b)) /\ row_group T G x j a b).
    { intro s. rewrite (combine_In starts ends s L). split.
      - intros (n & Hn & ->). destruct (A n Hn) as (j & a & b & A1 & A2 & A3). exists j, a, b. split; [f_equal; assumption|exact A3].
      - intros (j & a & b & -> & A3). destruct (B j a b A3) as (n & Hn & A1 & A2). exists n. split; [exact Hn|]. f_equal; symmetry; assumption. }
    assert (FV : Forall horiz (combine starts ends)) by (apply Forall_forall; intros s I; apply IN in I; destruct I as (j & a & b & -> & (L0 & _)); exists j, a, b; split; [exact L0|reflexivity]).
    split; [exact FV|]. rewrite Forall_forall in FV. split; [|split].
    - apply flat_NoDup.
      + apply (NoDup_map_inv snd). rewrite (proj2 (combine_fst starts ends L)). refine (strict_NoDup _ _ _ SS); intros a Q; cbv beta in Q; lia.
      + intros s I. apply seg_NoDup. right. apply FV. exact I.
      + intros s s' c I I' J J'. apply IN in I. apply IN in I'. destruct I as (j & a & b & -> & R). destruct I' as (j' & a' & b' & -> & R'). rewrite cells_horiz, in_row in J, J'. destruct c as [ci cj]. cbn [fst snd] in *. destruct J as [J1 J2]. destruct J' as [J1' J2']. subst j j'. pose proof (proj1 (proj2 R) cj J1) as IT. destruct (C98_row_groups T G TG x ci cj Hx IT) as (a0 & b0 & _ & _ & U). destruct (U a b J1 R) as [-> ->]. destruct (U a' b' J1' R') as [-> ->]. reflexivity.
    - intros [ci cj]. unfold all_cells. rewrite in_flat_map. split.
      + intros (s & I & J). apply IN in I. destruct I as (j & a & b & -> & R). rewrite cells_horiz, in_row in J. cbn [fst snd] in J. destruct J as [J1 J2]. subst j. apply R. exact J1.
      + intro IT. destruct (C98_row_groups T G TG x ci cj Hx IT) as (a & b & J & R & _). exists ((ci, a), (ci, b)). split; [apply IN; exists ci, a, b; split; [reflexivity|exact R]|]. rewrite cells_horiz, in_row. split; [exact J|reflexivity].
    - intros [ci cj]. rewrite in_map_iff. split.
      + intros (s & F & I). apply IN in I. destruct I as (j & a & b & -> & (R1 & R2 & R3 & R4 & _)). cbn [snd] in F. injection F as <- <-. split; [apply R2; lia|exact R4].
      + intros [IT IG]. destruct (C98_row_groups T G TG x ci cj Hx IT) as (a & b & J & R & _). exists ((ci, a), (ci, b)). split; [|apply IN; exists ci, a, b; split; [reflexivity|exact R]]. cbn [snd]. f_equal. destruct (Z.eq_dec b cj) as [D|D]; [exact D|]. exfalso. pose proof (proj1 (proj2 (proj2 R)) cj ltac:(lia)) as K. pose proof (label_fun _ _ _ IG K). discriminate.
  Qed.
  Lemma disjoint_parts : forall k (a b : list box), 0 < k -> NoDup a -> NoDup b -> (forall c, In c a <-> In (c, [- k - 1]) T) -> (forall c, In c b <-> In (c, [k]) T) -> NoDup (a ++ b).
  Proof using TG.
    intros k a b Hk NA NB A B. assert (D : forall c, In c a -> ~ In c b) by (intros c I J; apply A in I; apply B in J; apply (lookup_iff T G TG) in I; apply (lookup_iff T G TG) in J; assert (- k - 1 = k) by congruence; lia). clear A B. induction a as [|c a IH]; [exact NB|]. inversion NA as [|? ? N1 N2]; subst. cbn [app]. constructor; [|apply IH; [exact N2|intros d Hd; apply D; right; exact Hd]]. intro I. apply in_app_or in I. destruct I as [I|I]; [contradiction|]. exact (D c (or_introl eq_refl) I).
  Qed.
End Begin.

(* backward_transition never fails and only changes how the cells with entries k and -k-1 are cut into groups *)
Theorem C112_backward : forall (T G : tab) k fuel, grouped T G -> 0 < k -> (length T <= fuel)%nat -> exists T' G', backward_transition fuel (T, G) k = Ok (T', G') /\ regrouped k T G T' G'.
Proof.
  intros T G k fuel TG Hk LF. unfold backward_transition.
  destruct (begin_vert T G TG fuel (- k - 1) ltac:(lia) LF) as (s1 & e1 & -> & V1 & V2 & V3 & V4). destruct (begin_horiz T G TG fuel k Hk LF) as (s2 & e2 & -> & H1 & H2 & H3 & H4). cbn [rbind fst snd].
  pose proof (bt_outer_ok (rev (combine s1 e1)) (rev (combine s2 e2)) (Forall_rev V1) (Forall_rev H1)) as M. cbv zeta in M. destruct (bt_outer (rev (combine s1 e1)) (rev (combine s2 e2))) as [vs hs]. cbn [fst snd] in M. apply moves_rev in M.
  apply (write_ok T G TG k Hk (combine s1 e1) (combine s2 e2)); try assumption. apply (disjoint_parts T G TG k); assumption.
Qed.
Print Assumptions C112_backward.
(* forward_transition returns such a tableau as well, unless one of its assertions about the diagonal fails *)
Theorem C112_forward : forall (T G : tab) k fuel, grouped T G -> 0 < k -> (length T <= fuel)%nat ->
  forward_transition fuel (T, G) k = Err AssertionError \/ exists T' G', forward_transition fuel (T, G) k = Ok (T', G') /\ regrouped k T G T' G'.
Proof.
  intros T G k fuel TG Hk LF. unfold forward_transition.
  destruct (begin_vert T G TG fuel (- k - 1) ltac:(lia) LF) as (s1 & e1 & -> & V1 & V2 & V3 & V4). destruct (begin_horiz T G TG fuel k Hk LF) as (s2 & e2 & -> & H1 & H2 & H3 & H4). cbn [rbind fst snd].
  destruct (ft_outer_ok (combine s1 e1) [] (combine s2 e2) (None, None) V1 H1) as [->|(vs & hs & d & -> & M)]; [left; reflexivity|]. cbn [rbind fst snd app].
  assert (W : exists T' G', write_back (T, G) vs hs k = Ok (T', G') /\ regrouped k T G T' G') by (apply (write_ok T G TG k Hk (combine s1 e1) (combine s2 e2)); try assumption; apply (disjoint_parts T G TG k); assumption).
  destruct d as [[d1|] [d2|]]; [left; reflexivity|right; exact W|right; exact W|right; exact W].
Qed.
Print Assumptions C112_forward.
(* a value that is not positive is refused *)
Theorem C112_not_positive : forall (T G : tab) k fuel, grouped T G -> k <= 0 -> (length T <= fuel)%nat -> backward_transition fuel (T, G) k = Err AssertionError /\ forward_transition fuel (T, G) k = Err AssertionError.
Proof.
  intros T G k fuel TG Hk LF. unfold backward_transition, forward_transition. pose proof (proj1 (C98_wrong_sign (T, G) fuel k) Hk) as A. destruct (Z.eq_dec k 0) as [D|D].
  - destruct (begin_vert T G TG fuel (- k - 1) ltac:(lia) LF) as (s1 & e1 & -> & _). cbn [rbind]. rewrite A. split; reflexivity.
  - rewrite (proj2 (C98_wrong_sign (T, G) fuel (- k - 1)) ltac:(lia)). split; reflexivity.
Qed.
Print Assumptions C112_not_positive.

(* the row group of entries 1 moves to the right and the cell with entry -2 to its left; the way back *)
Example C112_example : grouped ex_T ex_G /\
  let T' := [((1, 1), [-2]); ((1, 2), [1]); ((1, 3), [1]); ((1, 4), [1]); ((2, 2), [-2]); ((2, 3), [2]); ((3, 3), [3])] in
  let G' := [((1, 1), [0]); ((1, 2), [1]); ((1, 3), [1]); ((1, 4), [0]); ((2, 2), [0]); ((2, 3), [0]); ((3, 3), [0])] in
  forward_transition 7 (ex_T, ex_G) 1 = Ok (T', G') /\ backward_transition 7 (T', G') 1 = Ok (ex_T, ex_G).
Proof. split; [exact ex_grouped|]. split; vm_compute; reflexivity. Qed.
(* the assertions of forward_transition do fail for some groupings, here of a tableau that is not shifted *)
Definition off_T : tab := [((1, 1), [1]); ((1, 2), [1]); ((2, 2), [-2]); ((5, 1), [-2])].
Definition off_G : tab := [((1, 1), [1]); ((1, 2), [0]); ((2, 2), [0]); ((5, 1), [0])].
Example C112_forward_example : grouped off_T off_G /\ forward_transition 4 (off_T, off_G) 1 = Err AssertionError.
Proof.
  split; [|vm_compute; reflexivity].
  assert (W : forall l : list Z, In l [[1]; [0]; [-2]] -> increasing l). { intros l H. cbn [In] in H. decompose [or] H; subst; try contradiction; repeat constructor. }
  split; [|split; [|split; [|split]]].
  - split; [repeat (first [apply SSorted_cons|apply SSorted_nil|apply Forall_cons|apply Forall_nil]); unfold before; cbn [fst snd]; lia|]. intros c l H. unfold off_T in H. cbn [In] in H. decompose [or] H; try contradiction; match goal with K : _ = _ |- _ => injection K as <- <- end; (split; [cbn; lia|]; split; [cbn; lia|]; apply W; cbn [In]; tauto).
  - intros c l H. unfold off_T in H. cbn [In] in H. decompose [or] H; try contradiction; match goal with K : _ = _ |- _ => injection K as <- <- end; (eexists; split; [reflexivity|lia]).
  - split; [repeat (first [apply SSorted_cons|apply SSorted_nil|apply Forall_cons|apply Forall_nil]); unfold before; cbn [fst snd]; lia|]. intros c l H. unfold off_G in H. cbn [In] in H. decompose [or] H; try contradiction; match goal with K : _ = _ |- _ => injection K as <- <- end; (split; [cbn; lia|]; split; [cbn; lia|]; apply W; cbn [In]; tauto).
  - intros i j. assert (F : forall c : box, In c (map fst off_G) <-> In c (map fst off_T)) by (intro c; reflexivity). pose proof (F (i, j)) as K. split; intros (l & H); apply (in_map fst) in H; cbn [fst] in H; [pose proof (proj1 K H) as Q|pose proof (proj2 K H) as Q]; clear H; rename Q into H; apply in_map_iff in H; destruct H as ([c l'] & E & H); cbn [fst] in E; subst c; exists l'; exact H.
  - intros i j l H. unfold off_G in H. cbn [In] in H. decompose [or] H; try contradiction; match goal with K : _ = _ |- _ => injection K as <- <- <- end; try (left; reflexivity); right; (split; [reflexivity|]; exists 1; unfold holds, off_T; repeat split; try lia; intros; try lia; exists [1]; cbn; tauto).
Qed.
