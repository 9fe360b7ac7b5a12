(* One row transition of Hecke insertion *)
From Coq Require Import List ZArith Bool Lia Sorted.
From Verif Require Import PyBase M_Partitions L_PartMore M_Tableaux S_Tableaux L_Tableaux M_Insertion L_Insertion1.
Import ListNotations.
Local Open Scope Z_scope.

Definition Incr (L : Z -> Z) (g : Z -> Z -> Z) : Prop :=
  (forall i j, 1 <= i -> 1 <= j -> j + 1 <= L i -> g i j < g i (j + 1)) /\
  (forall i j, 1 <= i -> 1 <= j -> j <= L (i + 1) -> g i j < g (i + 1) j).
Lemma step_mono : forall (f : Z -> Z) a b, (forall x, a <= x -> x + 1 <= b -> f x < f (x + 1)) ->
  forall x y, a <= x -> x < y -> y <= b -> f x < f y.
Proof.
  intros f a b H x y Hx Hxy Hy. assert (A : forall n, x + 1 + Z.of_nat n <= b -> f x < f (x + 1 + Z.of_nat n)).
  { induction n as [|n IH]; intro Hn; [replace (x + 1 + Z.of_nat 0) with (x + 1) by lia; apply H; lia|].
    specialize (IH ltac:(lia)). specialize (H (x + 1 + Z.of_nat n) ltac:(lia) ltac:(lia)).
    replace (x + 1 + Z.of_nat (S n)) with (x + 1 + Z.of_nat n + 1) by lia. lia. }
  specialize (A (Z.to_nat (y - x - 1))). replace (x + 1 + Z.of_nat (Z.to_nat (y - x - 1))) with y in A by lia. apply A. lia.
Qed.
Lemma row_mono : forall L g i j k, Incr L g -> 1 <= i -> 1 <= j -> j < k -> k <= L i -> g i j < g i k.
Proof. intros L g i j k [H _] Hi Hj Hk Hl. apply (step_mono (g i) 1 (L i)); try assumption. intros x Hx Hxl. apply H; assumption. Qed.
Lemma col_mono : forall L g i r j, shape L -> Incr L g -> 1 <= i -> 1 <= j -> i < r -> j <= L r -> g i j < g r j.
Proof.
  intros L g i r j S [_ H] Hi Hj Hr Hl. apply (step_mono (fun i => g i j) 1 r); [|assumption|assumption|lia].
  intros x Hx Hxr. apply H; [assumption|assumption|]. pose proof (shape_mono L (x + 1) r S). lia.
Qed.

(* lists of cells *)
Lemma gets_map : forall t (f : box -> Z) l, (forall c, In c l -> tlookup t c = Some [f c]) -> gets t l = Ok (map f l).
Proof.
  induction l as [|[i x] l IH]; intro H; [reflexivity|]. cbn [gets map]. rewrite (geti_lookup t i x (f (i, x))) by (apply H; left; reflexivity).
  cbn [rbind]. rewrite IH by (intros c Hc; apply H; right; assumption). reflexivity.
Qed.
Lemma filter_prefix : forall (f : Z -> bool) k n, 0 <= k < n -> (forall x, 1 <= x < n -> f x = (x <=? k)) -> filter f (zrange 1 n) = zrange 1 (k + 1).
Proof.
  intros f k n Hk H. rewrite (zrange_split 1 (k + 1) n) by lia. rewrite filter_app.
  assert (A : forall l, (forall x, In x l -> f x = true) -> filter f l = l).
  { induction l as [|a l IH]; intro Hl; [reflexivity|]. cbn [filter]. rewrite Hl by (left; reflexivity). rewrite IH by (intros; apply Hl; right; assumption). reflexivity. }
  assert (B : forall l, (forall x, In x l -> f x = false) -> filter f l = []).
  { induction l as [|a l IH]; intro Hl; [reflexivity|]. cbn [filter]. rewrite Hl by (left; reflexivity). apply IH. intros; apply Hl; right; assumption. }
  rewrite A, B; [apply app_nil_r| |].
  - intros x Hx. apply In_zrange in Hx. rewrite H by lia. apply Z.leb_gt. lia.
  - intros x Hx. apply In_zrange in Hx. rewrite H by lia. apply Z.leb_le. lia.
Qed.
Lemma map_zrange_increasing : forall (f : Z -> Z) b a, (forall x, a <= x -> x + 1 < b -> f x < f (x + 1)) -> increasing (map f (zrange a b)).
Proof.
  intros f b a H. unfold increasing. assert (G : forall n a, Z.to_nat (b - a) = n -> (forall x, a <= x -> x + 1 < b -> f x < f (x + 1)) -> StronglySorted Z.le (map f (zrange a b))).
  { clear a H. induction n as [|n IH]; intros a En H.
    - rewrite zrange_nil by lia. constructor.
    - rewrite zrange_cons by lia. cbn [map]. constructor; [apply IH; [lia|intros; apply H; lia]|].
      rewrite Forall_forall. intros y Hy. apply in_map_iff in Hy. destruct Hy as (x & <- & Hx). apply In_zrange in Hx.
      apply Z.lt_le_incl. apply (step_mono f a (b - 1)); [intros; apply H; lia|lia|lia|lia]. }
  apply (G _ a eq_refl H).
Qed.
Lemma zlist_eqb_refl : forall l, zlist_eqb l l = true.
Proof. induction l as [|a l IH]; [reflexivity|]. cbn. rewrite Z.eqb_refl. exact IH. Qed.
Lemma count_le_spec : forall (f : Z -> Z) b a s, (exists x, s <= x < b /\ a < f x) ->
  let x := s + count_le (map f (zrange s b)) a in s <= x < b /\ a < f x /\ forall y, s <= y < x -> f y <= a.
Proof.
  intros f b a s. assert (G : forall n s, Z.to_nat (b - s) = n -> (exists x, s <= x < b /\ a < f x) ->
    let x := s + count_le (map f (zrange s b)) a in s <= x < b /\ a < f x /\ forall y, s <= y < x -> f y <= a).
  { clear s. induction n as [|n IH]; intros s En (x & Hx & Hf); [lia|]. rewrite zrange_cons by lia. cbn [map count_le]. destruct (Z.leb_spec (f s) a).
    - assert (x <> s) by (intro; subst; lia). destruct (IH (s + 1) ltac:(lia)) as (A & B & C); [exists x; split; [lia|assumption]|]. cbn zeta in *.
      replace (s + (1 + count_le (map f (zrange (s + 1) b)) a)) with (s + 1 + count_le (map f (zrange (s + 1) b)) a) by lia.
      split; [lia|]. split; [assumption|]. intros y Hy. destruct (Z.eq_dec y s) as [->|]; [lia|]. apply C. lia.
    - cbn zeta. replace (s + 0) with s by lia. split; [lia|]. split; [lia|]. intros; lia. }
  apply (G _ s eq_refl).
Qed.

(* the invariant of an outer box a about to enter row i *)
Definition Inv (L : Z -> Z) (g : Z -> Z -> Z) (i a : Z) : Prop :=
  shape L /\ Incr L g /\ 1 <= i /\
  (i = 1 \/ 2 <= i /\ exists y, 1 <= y <= L (i - 1) /\ g (i - 1) y <= a /\ (y + 1 <= L (i - 1) -> a < g (i - 1) (y + 1)) /\
                                 (y <= L i -> a < g i y) /\ (g (i - 1) y = a -> 2 <= y)).

Definition updr (L : Z -> Z) (i v : Z) : Z -> Z := fun r => if r =? i then v else L r.
Definition updg (g : Z -> Z -> Z) (i j v : Z) : Z -> Z -> Z := fun r c => if (r =? i) && (c =? j) then v else g r c.
Lemma updr_same : forall L i v, updr L i v i = v.
Proof. intros. unfold updr. rewrite Z.eqb_refl. reflexivity. Qed.
Lemma updr_other : forall L i v r, r <> i -> updr L i v r = L r.
Proof. intros. unfold updr. destruct (Z.eqb_spec r i); [contradiction|reflexivity]. Qed.
Lemma updg_same : forall g i j v, updg g i j v i j = v.
Proof. intros. unfold updg. rewrite !Z.eqb_refl. reflexivity. Qed.
Lemma updg_other : forall g i j v r c, r <> i \/ c <> j -> updg g i j v r c = g r c.
Proof. intros. unfold updg. destruct (Z.eqb_spec r i), (Z.eqb_spec c j); cbn; try reflexivity. lia. Qed.

(* what a transition does, on shapes and values *)
Definition full_row (L : Z -> Z) (g : Z -> Z -> Z) (i a : Z) : Prop := forall x, 1 <= x <= L i -> g i x <= a.
Definition can_add (L : Z -> Z) (g : Z -> Z -> Z) (i a : Z) : Prop :=
  (forall x, 1 <= x <= L i -> g i x < a) /\ (i = 1 \/ g (i - 1) (L i + 1) < a).
Definition bump_col (L : Z -> Z) (g : Z -> Z -> Z) (i a x : Z) : Prop :=
  1 <= x <= L i /\ a < g i x /\ forall y, 1 <= y < x -> g i y <= a.
Definition can_replace (g : Z -> Z -> Z) (i a x : Z) : Prop :=
  (x = 1 \/ g i (x - 1) < a) /\ (i = 1 \/ g (i - 1) x < a).

Lemma Rep_base : forall L g i a t r c, shape L -> Rep L g (Some ((i, L 1 + 2), a)) t -> 1 <= r -> 1 <= c <= L r -> tlookup t (r, c) = Some [g r c].
Proof.
  intros L g i a t r c S [W R] Hr Hc. rewrite R. replace (box_eqb (i, L 1 + 2) (r, c)) with false.
  - unfold base. cbn [fst snd]. replace (inside L r c) with true by (symmetry; apply inside_iff; lia). reflexivity.
  - symmetry. apply box_eqb_neq. intro H. apply (f_equal snd) in H. cbn [snd] in H. pose proof (shape_mono L 1 r S). lia.
Qed.
Lemma Rep_outer : forall L g i a t, Rep L g (Some ((i, L 1 + 2), a)) t -> tlookup t (i, L 1 + 2) = Some [a].
Proof. intros L g i a t [W R]. rewrite R, box_eqb_refl. reflexivity. Qed.
Lemma Rep_empty : forall L g i a t r c, Rep L g (Some ((i, L 1 + 2), a)) t -> ~ (1 <= r /\ 1 <= c <= L r) -> c <> L 1 + 2 -> tlookup t (r, c) = None.
Proof.
  intros L g i a t r c [W R] H Hc. rewrite R. replace (box_eqb (i, L 1 + 2) (r, c)) with false.
  - unfold base. cbn [fst snd]. replace (inside L r c) with false by (symmetry; apply inside_false; assumption). reflexivity.
  - symmetry. apply box_eqb_neq. intro E. apply Hc. apply (f_equal snd) in E. symmetry. exact E.
Qed.

Section Transition.
  Variables (L : Z -> Z) (g : Z -> Z -> Z) (i a : Z) (s : hstate).
  Hypothesis HI : Inv L g i a.
  Hypothesis Hs : HS L g (Some (i, a)) s.
  Lemma SH : shape L. Proof. exact (proj1 HI). Qed.
  Lemma IN : Incr L g. Proof. exact (proj1 (proj2 HI)). Qed.
  Lemma Hi : 1 <= i. Proof. exact (proj1 (proj2 (proj2 HI))). Qed.
  Notation t := (htab s).
  Lemma R : Rep L g (Some ((i, L 1 + 2), a)) t. Proof. exact (proj1 Hs). Qed.

  Lemma Li_le : 0 <= L i <= L 1.
  Proof. split; [apply SH; exact Hi|]. apply shape_mono; [exact SH|lia|exact Hi]. Qed.
  Definition the_row : list Z := map (g i) (zrange 1 (L i + 1)).
  Lemma row_increasing : increasing the_row.
  Proof. apply map_zrange_increasing. intros x Hx Hxl. apply IN; [exact Hi|lia|lia]. Qed.
  Lemma zlen_row : zlen the_row = L i.
  Proof. unfold the_row, zlen. rewrite map_length, length_zrange. pose proof Hi as Hi0; pose proof Li_le. lia. Qed.
  Lemma gets_row : gets t (map (fun x => (i, x)) (zrange 1 (L i + 1))) = Ok the_row.
  Proof.
    rewrite (gets_map t (fun c => g (fst c) (snd c))).
    - rewrite map_map. reflexivity.
    - intros c Hc. apply in_map_iff in Hc. destruct Hc as (x & <- & Hx). apply In_zrange in Hx. cbn [fst snd]. apply (Rep_base L g i a); [exact SH|exact R|exact Hi|lia].
  Qed.
  Lemma tmem_row : forall x, 1 <= x < L 1 + 2 -> tmem t (i, x) = (x <=? L i).
  Proof.
    intros x Hx. unfold tmem. destruct (Z.leb_spec x (L i)).
    - rewrite (Rep_base L g i a t i x SH R Hi) by lia. reflexivity.
    - rewrite (Rep_empty L g i a t i x R); [reflexivity|lia|lia].
  Qed.
  Lemma forallb_row : forallb (fun x => tmem t (i, x)) (zrange 1 (1 + L i)) = true.
  Proof. apply forallb_forall. intros x Hx. apply In_zrange in Hx. pose proof Hi as Hi0; pose proof Li_le. rewrite tmem_row by lia. apply Z.leb_le. lia. Qed.

  (* the transition with the row computed *)
  Lemma row_transition_eq : row_transition s =
    (if forallb (fun x => x <=? a) the_row then
       let j := 1 + L i in
       do col <- gets t (map fst (filter (fun cv => snd (fst cv) =? j) t));
       do u <- (if forallb (fun x => x <? a) the_row && forallb (fun x => x <? a) col
                then do u <- tadd t i j (VInt a); tremove u i (L 1 + 2) None else tremove t i (L 1 + 2) None);
       do s' <- hmake u None;
       Ok (s', (i, j))
     else
       let x := 1 + count_le the_row a in
       do b <- geti t i x;
       do left <- (if x =? 1 then Ok true else do v <- geti t i (x - 1); Ok (v <? a));
       do above <- (if left then (if i =? 1 then Ok true else do v <- geti t (i - 1) x; Ok (v <? a)) else Ok false);
       do u <- tadd t (i + 1) (L 1 + 2) (VInt b);
       do u <- (if above then treplace u i x (VInt a) else Ok u);
       do u <- tremove u i (L 1 + 2) None;
       do s' <- hmake u (Some (i + 1, L 1 + 2));
       Ok (s', (i, x))).
  Proof.
    unfold row_transition. pose proof Hs as (_ & Ho & _). rewrite Ho. rewrite (geti_lookup t i (L 1 + 2) a) by (apply (Rep_outer L g i a); exact R).
    cbn [rbind]. rewrite (filter_prefix _ (L i) (L 1 + 2)); [|pose proof Hi as Hi0; pose proof Li_le; lia|exact tmem_row].
    rewrite gets_row. cbn [rbind]. rewrite (sorted_id the_row row_increasing). rewrite zlen_row, forallb_row.
    replace (1 + L i) with (L i + 1) by lia. rewrite gets_row. cbn [rbind]. rewrite zlist_eqb_refl. reflexivity.
  Qed.

  Lemma all_le_iff : forallb (fun x => x <=? a) the_row = true <-> full_row L g i a.
  Proof.
    rewrite forallb_forall. unfold full_row, the_row. split.
    - intros H x Hx. apply Z.leb_le. apply H. apply in_map. apply In_zrange. lia.
    - intros H y Hy. apply in_map_iff in Hy. destruct Hy as (x & <- & Hx). apply In_zrange in Hx. apply Z.leb_le. apply H. lia.
  Qed.
  Lemma all_lt_iff : forallb (fun x => x <? a) the_row = true <-> forall x, 1 <= x <= L i -> g i x < a.
  Proof.
    rewrite forallb_forall. unfold the_row. split.
    - intros H x Hx. apply Z.ltb_lt. apply H. apply in_map. apply In_zrange. lia.
    - intros H y Hy. apply in_map_iff in Hy. destruct Hy as (x & <- & Hx). apply In_zrange in Hx. apply Z.ltb_lt. apply H. lia.
  Qed.

  (* under a full row there is room in the row above *)
  Lemma full_row_above : full_row L g i a -> i = 1 \/ (L i + 1 <= L (i - 1) /\ g (i - 1) (L i + 1) <= a /\ (g (i - 1) (L i + 1) = a -> 1 <= L i)).
  Proof.
    intro F. pose proof HI as (_ & _ & _ & [H|(Hi2 & y & Hy & H1 & H2 & H3 & H4)]); [left; assumption|right].
    assert (L i < y). { destruct (Z_le_gt_dec y (L i)); [|lia]. specialize (H3 ltac:(lia)). specialize (F y ltac:(lia)). lia. }
    pose proof Hi as Hi0; pose proof Li_le. destruct (Z.eq_dec y (L i + 1)) as [E|E].
    - rewrite <- E. split; [lia|]. split; [assumption|]. intro K5. specialize (H4 K5). lia.
    - pose proof (row_mono L g (i - 1) (L i + 1) y IN ltac:(lia) ltac:(lia) ltac:(lia) ltac:(lia)). split; [lia|]. split; [lia|]. lia.
  Qed.

  Lemma col_spec : exists col, gets t (map fst (filter (fun cv => snd (fst cv) =? 1 + L i) t)) = Ok col /\
    (forallb (fun x => x <? a) col = true <-> forall r, 1 <= r -> L i + 1 <= L r -> g r (L i + 1) < a).
  Proof.
    set (l := map fst (filter (fun cv : box * list Z => snd (fst cv) =? 1 + L i) t)).
    assert (Hl : forall c, In c l <-> 1 <= fst c /\ snd c = L i + 1 /\ L i + 1 <= L (fst c)).
    { intros [r c]. unfold l. rewrite in_map_iff. cbn [fst snd]. pose proof Hi as Hi0; pose proof Li_le as HL. split.
      - intros ([[r' c'] v] & E & H). apply (f_equal (fun x => x)) in E. cbn [fst] in E. injection E as -> ->. apply filter_In in H. cbn [fst snd] in H. destruct H as [H1 H2].
        apply Z.eqb_eq in H2. apply (Rep_cells _ _ _ _ _ _ R) in H1. destruct (Z_le_gt_dec 1 r); [destruct (Z_le_gt_dec c (L r)); [lia|]|];
        (rewrite (Rep_empty L g i a t r c R) in H1; [discriminate|lia|lia]).
      - intros (H1 & H2 & H3). exists ((r, c), [g r c]). split; [reflexivity|]. apply filter_In. cbn [fst snd]. split; [|apply Z.eqb_eq; lia].
        apply (Rep_cells _ _ _ _ _ _ R). apply (Rep_base L g i a); [exact SH|exact R|lia|lia]. }
    exists (map (fun c => g (fst c) (snd c)) l). split.
    - apply gets_map. intros [r c] Hc. apply Hl in Hc. cbn [fst snd] in *. pose proof Hi as Hi0; pose proof Li_le. apply (Rep_base L g i a); [exact SH|exact R|lia|lia].
    - rewrite forallb_forall. split.
      + intros H r Hr HL. apply Z.ltb_lt. apply H. apply in_map_iff. exists (r, L i + 1). split; [reflexivity|]. apply Hl. cbn [fst snd]. lia.
      + intros H x Hx. apply in_map_iff in Hx. destruct Hx as ([r c] & <- & Hc). apply Hl in Hc. cbn [fst snd] in *. destruct Hc as (H1 & -> & H3). apply Z.ltb_lt. apply H; assumption.
  Qed.

  Lemma case_full : full_row L g i a -> exists s', row_transition s = Ok (s', (i, L i + 1)) /\
    ((can_add L g i a /\ HS (updr L i (L i + 1)) (updg g i (L i + 1) a) None s') \/ (~ can_add L g i a /\ HS L g None s')).
  Proof.
    intro F. rewrite row_transition_eq. rewrite (proj2 all_le_iff F). cbn zeta. destruct col_spec as (col & Ec & Hc). rewrite Ec. cbn [rbind]. replace (1 + L i) with (L i + 1) in * by lia.
    pose proof Hi as Hi0; pose proof Li_le as HL. pose proof (full_row_above F) as FA.
    assert (C : forallb (fun x => x <? a) the_row && forallb (fun x => x <? a) col = true <-> can_add L g i a).
    { rewrite andb_true_iff, all_lt_iff, Hc. unfold can_add. split; intros [A B]; (split; [exact A|]).
      - destruct FA as [FA|(F1 & F2 & F3)]; [left; exact FA|]. destruct (Z.eq_dec i 1) as [E|E]; [left; exact E|right]. apply B; lia.
      - intros r Hr Hrl. assert (r < i). { destruct (Z_le_gt_dec i r); [|lia]. pose proof (shape_mono L i r SH). lia. }
        destruct FA as [E|(F1 & F2 & F3)]; [lia|]. destruct B as [B|B]; [lia|]. destruct (Z.eq_dec r (i - 1)) as [->|E]; [exact B|].
        pose proof (col_mono L g r (i - 1) (L i + 1) SH IN). lia. }
    destruct (forallb (fun x => x <? a) the_row && forallb (fun x => x <? a) col).
    - pose proof (proj1 C eq_refl) as CA. rewrite tadd_int; [|apply R|lia|lia]. cbn [rbind].
      assert (E0 : entries t (i, L i + 1) = []).
      { unfold entries. rewrite (Rep_empty L g i a t i (L i + 1) R); [reflexivity|lia|lia]. }
      rewrite E0. cbn [sinsert]. set (u := tput (i, L i + 1) [a] t).
      assert (Wu : well_formed u) by (apply tput_wf; [apply R|split; cbn [fst snd]; lia|repeat constructor]).
      assert (Lu : forall c, tlookup u c = if box_eqb (i, L i + 1) c then Some [a] else tlookup t c) by (intro c; apply tlookup_tput; apply R).
      rewrite (tremove_None u i (L 1 + 2) [a] Wu).
      + cbn [rbind]. eexists. split; [reflexivity|]. left. split; [exact CA|]. split; [|reflexivity]. split; [apply tdel_wf; exact Wu|].
        intros [r c]. cbn [htab]. rewrite tlookup_tdel by apply Wu. rewrite Lu. destruct (box_eqb (i, L 1 + 2) (r, c)) eqn:E1.
        * apply box_eqb_eq in E1. injection E1 as <- <-. unfold base. cbn [fst snd]. replace (inside (updr L i (L i + 1)) i (L 1 + 2)) with false; [reflexivity|].
          symmetry. apply inside_false. rewrite updr_same. lia.
        * destruct (box_eqb (i, L i + 1) (r, c)) eqn:E2.
          -- apply box_eqb_eq in E2. injection E2 as <- <-. unfold base. cbn [fst snd]. rewrite updg_same. replace (inside (updr L i (L i + 1)) i (L i + 1)) with true; [reflexivity|].
             symmetry. apply inside_iff. rewrite updr_same. lia.
          -- pose proof R as [W RR]. rewrite RR. rewrite E1. apply box_eqb_neq in E2. unfold base. cbn [fst snd].
             assert (NE : r <> i \/ c <> L i + 1). { destruct (Z.eq_dec r i) as [->|]; [right|left; assumption]. intros ->. apply E2. reflexivity. }
             rewrite updg_other by assumption. replace (inside (updr L i (L i + 1)) r c) with (inside L r c); [reflexivity|].
             apply eq_true_iff_eq. rewrite !inside_iff. unfold updr. destruct (Z.eqb_spec r i); [subst r; lia|tauto].
      + rewrite Lu. replace (box_eqb (i, L i + 1) (i, L 1 + 2)) with false; [apply (Rep_outer L g i a); exact R|].
        symmetry. apply box_eqb_neq. intro E. apply (f_equal snd) in E. cbn [snd] in E. lia.
    - destruct (Rep_remove_outer L g t i (L 1 + 2) a R (outer_outside L i SH)) as (u & Eu & Ru). rewrite Eu. cbn [rbind].
      eexists. split; [reflexivity|]. right. split; [intro CA; apply C in CA; discriminate|]. split; [exact Ru|reflexivity].
  Qed.

  Lemma case_bump : ~ full_row L g i a -> exists x s', bump_col L g i a x /\ row_transition s = Ok (s', (i, x)) /\
    ((can_replace g i a x /\ HS L (updg g i x a) (Some (i + 1, g i x)) s') \/ (~ can_replace g i a x /\ HS L g (Some (i + 1, g i x)) s')).
  Proof.
    intro F. rewrite row_transition_eq. replace (forallb (fun x => x <=? a) the_row) with false by (symmetry; apply not_true_iff_false; rewrite all_le_iff; exact F).
    pose proof Hi as Hi0; pose proof Li_le as HL. destruct (count_le_spec (g i) (L i + 1) a 1) as (X1 & X2 & X3).
    { destruct (forallb (fun x => x <=? a) the_row) eqn:E; [apply all_le_iff in E; contradiction|].
      assert (N : exists y, In y the_row /\ a < y).
      { clear F HL. revert E. generalize the_row. induction l as [|y l IH]; [discriminate|]. cbn [forallb]. destruct (Z.leb_spec y a); cbn [andb].
        - intro E. destruct (IH E) as (z & Hz & Hz2). exists z. split; [right; assumption|assumption].
        - intros _. exists y. split; [left; reflexivity|assumption]. }
      destruct N as (y & Hy & Hya). apply in_map_iff in Hy. destruct Hy as (x & <- & Hx). apply In_zrange in Hx. exists x. split; [lia|assumption]. }
    cbn zeta in *. fold the_row in X1, X2, X3. set (x := 1 + count_le the_row a) in *. clearbody x.
    assert (BC : bump_col L g i a x) by (split; [lia|split; [exact X2|intros; apply X3; lia]]).
    rewrite (geti_lookup t i x (g i x)) by (apply (Rep_base L g i a); [exact SH|exact R|exact Hi|lia]). cbn [rbind].
    assert (Eleft : (if x =? 1 then Ok true else do v <- geti t i (x - 1); Ok (v <? a)) = Ok ((x =? 1) || (g i (x - 1) <? a))).
    { destruct (Z.eqb_spec x 1); [reflexivity|]. rewrite (geti_lookup t i (x - 1) (g i (x - 1))) by (apply (Rep_base L g i a); [exact SH|exact R|exact Hi|lia]). reflexivity. }
    rewrite Eleft. cbn [rbind].
    assert (Eab : (if (x =? 1) || (g i (x - 1) <? a) then (if i =? 1 then Ok true else do v <- geti t (i - 1) x; Ok (v <? a)) else Ok false) =
                  Ok (((x =? 1) || (g i (x - 1) <? a)) && ((i =? 1) || (g (i - 1) x <? a)))).
    { destruct ((x =? 1) || (g i (x - 1) <? a)); [|reflexivity]. destruct (Z.eqb_spec i 1); [reflexivity|].
      rewrite (geti_lookup t (i - 1) x (g (i - 1) x)); [reflexivity|]. pose proof (shape_mono L (i - 1) i SH). apply (Rep_base L g i a); [exact SH|exact R|lia|lia]. }
    rewrite Eab. cbn [rbind]. set (ab := ((x =? 1) || (g i (x - 1) <? a)) && ((i =? 1) || (g (i - 1) x <? a))).
    assert (CR : ab = true <-> can_replace g i a x).
    { unfold ab, can_replace. rewrite andb_true_iff, !orb_true_iff, !Z.eqb_eq, !Z.ltb_lt. tauto. }
    clearbody ab. rewrite tadd_int; [|apply R|lia|lia]. cbn [rbind].
    assert (E0 : entries t (i + 1, L 1 + 2) = []).
    { unfold entries. pose proof R as [W RR]. rewrite RR. replace (box_eqb (i, L 1 + 2) (i + 1, L 1 + 2)) with false.
      - unfold base. cbn [fst snd]. rewrite (outer_outside L (i + 1) SH : inside L (i + 1) (L 1 + 2) = false). reflexivity.
      - symmetry. apply box_eqb_neq. intro E. apply (f_equal fst) in E. cbn [fst] in E. lia. }
    rewrite E0. cbn [sinsert]. set (u := tput (i + 1, L 1 + 2) [g i x] t).
    assert (Wu : well_formed u) by (apply tput_wf; [apply R|split; cbn [fst snd]; lia|repeat constructor]).
    assert (Lu : forall c, tlookup u c = if box_eqb (i + 1, L 1 + 2) c then Some [g i x] else tlookup t c) by (intro c; apply tlookup_tput; apply R).
    set (g' := if ab then updg g i x a else g).
    assert (V : exists v, (if ab then treplace u i x (VInt a) else Ok u) = Ok v /\ well_formed v /\
        forall c, tlookup v c = if box_eqb (i + 1, L 1 + 2) c then Some [g i x] else if box_eqb (i, L 1 + 2) c then Some [a] else base L g' c).
    { pose proof R as [W RR]. destruct ab.
      - unfold treplace, tmem. rewrite Lu. replace (box_eqb (i + 1, L 1 + 2) (i, x)) with false.
        2: { symmetry. apply box_eqb_neq. intro E. apply (f_equal fst) in E. cbn [fst] in E. lia. }
        rewrite (Rep_base L g i a t i x SH (conj W RR) Hi) by lia. rewrite tinit_mput_eq; [|exact Wu|split; cbn [fst snd]; lia]. cbn [tuplize].
        eexists. split; [reflexivity|]. split; [apply tput_wf; [exact Wu|split; cbn [fst snd]; lia|repeat constructor]|].
        intros [r c]. rewrite tlookup_tput by apply Wu. rewrite Lu, RR. unfold g', base. cbn [fst snd]. destruct (box_eqb (i, x) (r, c)) eqn:E.
        + apply box_eqb_eq in E. injection E as <- <-. rewrite updg_same. replace (box_eqb (i + 1, L 1 + 2) (i, x)) with false.
          2: { symmetry. apply box_eqb_neq. intro E. apply (f_equal fst) in E. cbn [fst] in E. lia. }
          replace (box_eqb (i, L 1 + 2) (i, x)) with false.
          2: { symmetry. apply box_eqb_neq. intro E. apply (f_equal snd) in E. cbn [snd] in E. lia. }
          replace (inside L i x) with true by (symmetry; apply inside_iff; lia). reflexivity.
        + apply box_eqb_neq in E. rewrite updg_other; [reflexivity|]. destruct (Z.eq_dec r i) as [->|]; [right|left; assumption]. intros ->. apply E. reflexivity.
      - exists u. split; [reflexivity|]. split; [exact Wu|]. intro c. rewrite Lu, RR. reflexivity. }
    destruct V as (v & Ev & Wv & Lv). rewrite Ev. cbn [rbind].
    rewrite (tremove_None v i (L 1 + 2) [a] Wv).
    2: { rewrite Lv, box_eqb_refl. replace (box_eqb (i + 1, L 1 + 2) (i, L 1 + 2)) with false; [reflexivity|].
         symmetry. apply box_eqb_neq. intro E. apply (f_equal fst) in E. cbn [fst] in E. lia. }
    cbn [rbind]. assert (Rw : Rep L g' (Some ((i + 1, L 1 + 2), g i x)) (tdel (i, L 1 + 2) v)).
    { split; [apply tdel_wf; exact Wv|]. intros c. rewrite tlookup_tdel by apply Wv. rewrite Lv. destruct (box_eqb (i, L 1 + 2) c) eqn:E1.
      - apply box_eqb_eq in E1. subst c. replace (box_eqb (i + 1, L 1 + 2) (i, L 1 + 2)) with false.
        + unfold base. cbn [fst snd]. rewrite (outer_outside L i SH : inside L i (L 1 + 2) = false). reflexivity.
        + symmetry. apply box_eqb_neq. intro E. apply (f_equal fst) in E. cbn [fst] in E. lia.
      - reflexivity. }
    destruct (hmake_Some L g' _ (i + 1) (g i x) SH Rw ltac:(lia)) as (s' & Es & HSs & _).
    { right. replace (i + 1 - 1) with i by lia. lia. }
    rewrite Es. cbn [rbind]. exists x, s'. split; [exact BC|]. split; [reflexivity|]. unfold g' in HSs. destruct ab.
    - left. split; [apply CR; reflexivity|exact HSs].
    - right. split; [intro H; apply CR in H; discriminate|exact HSs].
  Qed.
End Transition.
