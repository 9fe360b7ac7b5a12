(* The enumeration of valued-set tableaux *)
From Coq Require Import List ZArith Lia Bool Permutation Arith Sorting.Sorted.
From Verif Require Import PyBase FinSum M_Partitions S_Partitions L_Partitions L_PartBasic L_PartEnum M_Vectors L_Vectors M_Polynomials L_Polynomials L_PolySubst M_Tableaux S_Tableaux L_Tableaux S_Strips M_Semistandard S_Semistandard L_Strips2 L_Shape L_Semi3 M_RPP M_Symmetric M_Expansion S_Expansion M_Slow M_Families M_Dual
  L_SymPoly L_Kostka L_Num P_Count L_Families S_Transposed M_Transposed L_Count L_Trans1 L_Trans2 L_Trans3 L_Trans4 L_Trans5.
Import ListNotations.
Local Open Scope Z_scope.

(* ---------- binary digits ---------- *)
Fixpoint bits (l : list bool) (v : Z) : list Z :=
  match l with
  | [] => []
  | true :: r => v mod 2 :: bits r (v / 2)
  | false :: r => 0 :: bits r v
  end.
Definition ones (l : list bool) : Z := zlen (filter (fun b => b) l).
Lemma ones_nonneg : forall l, 0 <= ones l.
Proof. intro l. unfold ones, zlen. lia. Qed.
Lemma ones_true : forall l, ones (true :: l) = 1 + ones l.
Proof. intro l. unfold ones, zlen. cbn [filter length]. lia. Qed.
Lemma pow_ones : forall l, 2 ^ ones (true :: l) = 2 * 2 ^ ones l.
Proof. intro l. rewrite ones_true. pose proof (ones_nonneg l). rewrite Z.pow_add_r by lia. reflexivity. Qed.
Lemma bits_mask : forall l v, In (bits l v) (masks l).
Proof.
  induction l as [|b l IH]; intro v; [left; reflexivity|]. apply masks_In. destruct (proj1 (masks_In l (bits l (if b then v / 2 else v))) (IH _)) as [L H]. destruct b; cbn [bits length] in *; (split; [lia|]); intros [|k] Hk; cbn [nth].
  - pose proof (Z.mod_pos_bound v 2 ltac:(lia)). assert (v mod 2 = 0 \/ v mod 2 = 1) as [E|E] by lia; [left|right]; auto.
  - apply H. lia.
  - left. reflexivity.
  - apply H. lia.
Qed.
Lemma bits_onto : forall l g, In g (masks l) -> exists v, 0 <= v < 2 ^ ones l /\ bits l v = g.
Proof.
  induction l as [|b l IH]; intros g H; [destruct H as [<-|[]]; exists 0; split; [cbn; lia|reflexivity]|]. cbn [masks] in H. apply in_app_or in H. destruct H as [H|H].
  - apply in_map_iff in H. destruct H as (g' & <- & H). destruct (IH g' H) as (v & Hv & E). destruct b.
    + exists (2 * v). rewrite pow_ones. split; [lia|]. cbn [bits]. replace (2 * v) with (v * 2) by lia. rewrite Z.mod_mul, Z.div_mul, E by lia. reflexivity.
    + exists v. split; [exact Hv|]. cbn [bits]. rewrite E. reflexivity.
  - destruct b; [|destruct H]. apply in_map_iff in H. destruct H as (g' & <- & H). destruct (IH g' H) as (v & Hv & E). exists (1 + v * 2). rewrite pow_ones. split; [lia|]. cbn [bits]. rewrite Z.mod_add, Z.div_add by lia. change (1 mod 2) with 1. change (1 / 2) with 0. rewrite Z.add_0_l, E. reflexivity.
Qed.
Lemma bits_inj : forall l v w, 0 <= v < 2 ^ ones l -> 0 <= w < 2 ^ ones l -> bits l v = bits l w -> v = w.
Proof.
  induction l as [|b l IH]; intros v w Hv Hw E; [cbn in Hv, Hw; lia|]. destruct b; cbn [bits] in E; injection E as E.
  - rewrite pow_ones in Hv, Hw. apply IH in H; [|split; [apply Z.div_pos; lia|apply Z.div_lt_upper_bound; lia]|split; [apply Z.div_pos; lia|apply Z.div_lt_upper_bound; lia]]. rewrite (Z.div_mod v 2), (Z.div_mod w 2) by lia. congruence.
  - apply (IH v w); assumption.
Qed.
Lemma bits_perm : forall l, NoDup (map (bits l) (zrange 0 (2 ^ ones l))) /\ forall g, In g (map (bits l) (zrange 0 (2 ^ ones l))) <-> In g (masks l).
Proof.
  intro l. split.
  - assert (X : forall s, NoDup s -> (forall v, In v s -> 0 <= v < 2 ^ ones l) -> NoDup (map (bits l) s)).
    { induction s as [|v s IH]; intros N H; [constructor|]. inversion N as [|? ? N1 N2]; subst. cbn [map]. constructor; [|apply IH; [assumption|intros w Hw; apply H; right; assumption]]. intro I0. apply in_map_iff in I0. destruct I0 as (w & E & Hw).
      apply bits_inj in E; [subst; contradiction|apply H; right; assumption|apply H; left; reflexivity]. }
    apply X; [apply zrange_NoDup|]. intros v Hv. apply In_zrange in Hv. assumption.
  - intro g. rewrite in_map_iff. split; [intros (v & <- & _); apply bits_mask|]. intro H. destruct (bits_onto l g H) as (v & Hv & E). exists v. split; [assumption|apply In_zrange; assumption].
Qed.

(* ---------- mappings with int values ---------- *)
Definition ints (G : tab) : list (box * pyval) := map (fun cv => (fst cv, VInt (hd 0 (snd cv)))) G.
Lemma tinit_ints : forall G : tab, (forall b l, In (b, l) G -> exists z, l = [z]) -> well_formed G -> tinit (ints G) = Ok G.
Proof.
  intros G S W. etransitivity; [|exact (tinit_items G W)]. unfold tinit.
  match goal with |- (if ?a then _ else _) = (if ?b then _ else _) => assert (A : a = b) end.
  { unfold ints, items. clear. induction G as [|[b l] G IH]; [reflexivity|]. cbn [map forallb fst snd]. f_equal. exact IH. }
  rewrite A. match goal with |- (if ?b then _ else _) = _ => destruct b end; [|reflexivity]. f_equal. generalize (@nil (box * list Z)) as t. revert S. clear. induction G as [|[b l] G IH]; intros S t; [reflexivity|]. cbn [ints items map fold_left fst snd].
  destruct (S b l (or_introl eq_refl)) as (z & ->). exact (IH (fun b l H => S b l (or_intror H)) _).
Qed.
Lemma rmap_all : forall A B (f : A -> res B) (g : A -> B) l, (forall x, In x l -> f x = Ok (g x)) -> rmap f l = Ok (map g l).
Proof. intros A B f g. induction l as [|x l IH]; intro H; [reflexivity|]. cbn [rmap map]. rewrite H by (left; reflexivity). cbn [rbind]. rewrite IH by (intros y Hy; apply H; right; assumption). reflexivity. Qed.

Lemma kept_bool : forall A (f : A -> Z) (q q' : A -> bool) l g, kept (map (fun a => (f a, q a)) l) g = kept (map (fun a => (f a, q' a)) l) g.
Proof. intros A f q q'. induction l as [|a l IH]; intros [|z g]; try reflexivity. cbn [map kept]. rewrite (IH g). reflexivity. Qed.

Section Vst.
  Variable sh : bool.
  Variable pr : Z -> Z -> Prop.
  Variables (n : nat) (lam mu : list Z) (T : tab).
  Hypothesis HT : semistandard_filling (dcell sh) pr false (Z.of_nat n) lam mu T.

  Lemma tget_T : forall b l, In (b, l) T -> tget T b None true = Some (VInt (hd 0 l)) /\ l = [hd 0 l].
  Proof.
    intros b l H. assert (E : tlookup T b = Some l) by (apply In_tlookup; [apply HT|assumption]). destruct (single sh pr (Z.of_nat n) lam mu T HT b l H) as (x & ->). unfold tget. rewrite E. split; reflexivity.
  Qed.
  Lemma valid_position_T : forall b l, In (b, l) T -> valid_position T b = Ok (gb T b (hd 0 l)).
  Proof. intros b l H. unfold valid_position. rewrite (proj1 (tget_T b l H)). reflexivity. Qed.
  Definition grpT : list (box * bool) := map (fun cv => (fst cv, gb T (fst cv) (hd 0 (snd cv)))) T.
  Lemma grp_ok : rmap (fun cv => do b <- valid_position T (fst cv); Ok (fst cv, b)) T = Ok grpT.
  Proof. apply rmap_all. intros [b l] H. cbn [fst snd]. rewrite (valid_position_T b l H). reflexivity. Qed.
  Lemma grpT_snd : map snd grpT = map snd (cellsL T).
  Proof. unfold grpT, cellsL, heads. rewrite !map_map. reflexivity. Qed.
  Lemma next_grp_eq : forall v, next_grp grpT v = ints (grp_of T (bits (map snd (cellsL T)) v)).
  Proof.
    rewrite <- grpT_snd. unfold grp_of. assert (E : map fst T = map fst grpT) by (unfold grpT; rewrite map_map; reflexivity). rewrite E. generalize grpT as q. clear. induction q as [|[c b] q IH]; intro v; [reflexivity|].
    destruct b; cbn [next_grp map bits fst snd combine ints hd]; rewrite IH; reflexivity.
  Qed.
  Lemma grp_wf : forall g, In g (masks (map snd (cellsL T))) -> grouping_of T (grp_of T g).
  Proof. intros g Hg. apply (grouping_In sh pr (Z.of_nat n) lam mu T HT). unfold groupings. apply in_map. assumption. Qed.
  Lemma grp_single : forall g b l, In g (masks (map snd (cellsL T))) -> In (b, l) (grp_of T g) -> exists z, l = [z].
  Proof. intros g [i j] l Hg H. destruct (grp_wf g Hg) as (_ & _ & V). destruct (V i j l H) as [->|[-> _]]; eexists; reflexivity. Qed.
  Lemma truthy_grp : forall g b l, In g (masks (map snd (cellsL T))) -> In (b, l) (grp_of T g) -> truthy (grp_of T g) b = negb (hd 0 l =? 0).
  Proof.
    intros g b l Hg H. assert (E : tlookup (grp_of T g) b = Some l) by (apply In_tlookup; [apply (grp_wf g Hg)|assumption]). destruct (grp_single g b l Hg H) as (z & ->). unfold truthy, tget. rewrite E. reflexivity.
  Qed.
  Lemma vst_init_ok : forall g, In g (masks (map snd (cellsL T))) -> vst_init T (grp_of T g) = Ok (T, grp_of T g).
  Proof.
    intros g Hg. unfold vst_init.
    assert (X : forall l, (forall cv, In cv l -> In cv T) -> rfold (fun (ok : bool) (cv : box * list Z) => if ok then (if truthy (grp_of T g) (fst cv) then valid_position T (fst cv) else Ok true) else Ok false) l true = Ok true); [|rewrite X by (intros cv H; exact H); reflexivity].
    induction l as [|[b l0] l IH]; intro H; [reflexivity|]. cbn [rfold fst]. assert (S : (if truthy (grp_of T g) b then valid_position T b else Ok true) = Ok true).
    { assert (Hb : In (b, l0) T) by (apply H; left; reflexivity). destruct (truthy (grp_of T g) b) eqn:E; [|reflexivity]. rewrite (valid_position_T b l0 Hb). f_equal.
      destruct (grp_wf g Hg) as (_ & C & V). destruct b as [i j]. destruct (proj2 (C i j) (ex_intro _ l0 Hb)) as (l1 & H1). rewrite (truthy_grp g (i, j) l1 Hg H1) in E. destruct (V i j l1 H1) as [->|[_ Gr]]; [discriminate|].
      apply (gb_groupable sh pr (Z.of_nat n) lam mu T HT i j); [|assumption]. exists l0. split; [assumption|]. destruct (tget_T _ _ Hb) as [_ ->]. left. reflexivity. }
    rewrite S. cbn [rbind]. apply IH. intros cv Hc. apply H. right. assumption.
  Qed.
  Lemma vst_over_ok : exists L, vst_over T = Ok L /\ NoDup L /\ forall V, In V L <-> fst V = T /\ grouping_of T (snd V).
  Proof.
    unfold vst_over. rewrite grp_ok. cbn [rbind]. assert (En : zlen (filter snd grpT) = ones (map snd (cellsL T))).
    { rewrite <- grpT_snd. unfold ones, zlen. f_equal. generalize grpT as q. clear. induction q as [|[c b] q IH]; [reflexivity|]. cbn [filter map snd]. destruct b; cbn [length]; rewrite IH; reflexivity. }
    rewrite En. rewrite (rmap_all _ _ _ (fun v => (T, grp_of T (bits (map snd (cellsL T)) v)))).
    - eexists. split; [reflexivity|]. destruct (bits_perm (map snd (cellsL T))) as [N H]. rewrite <- (map_map (bits (map snd (cellsL T))) (fun g => (T, grp_of T g))). set (B := map (bits (map snd (cellsL T))) (zrange 0 (2 ^ ones (map snd (cellsL T))))) in *. split.
      + assert (M : forall g, In g B -> length g = length T) by (intros g Hg; apply mask_length, H; assumption). clear H En. revert M N. generalize B as L. clear. induction L as [|g L IH]; intros M N; [constructor|]. inversion N as [|? ? N1 N2]; subst. cbn [map]. constructor.
        * intro I0. apply in_map_iff in I0. destruct I0 as (g' & E & H). injection E as E. assert (g' = g) by (apply (grp_inj T); [apply M; right; assumption|apply M; left; reflexivity|assumption]). subst g'. contradiction.
        * apply IH; [intros g' H; apply M; right; assumption|assumption].
      + intros [U G]. cbn [fst snd]. rewrite in_map_iff. split.
        * intros (g & E & Hg). injection E as <- <-. split; [reflexivity|]. apply grp_wf, H. assumption.
        * intros [-> Hg]. apply (grouping_In sh pr (Z.of_nat n) lam mu T HT) in Hg. unfold groupings in Hg. apply in_map_iff in Hg. destruct Hg as (g & <- & Hg). exists g. split; [reflexivity|]. apply H. assumption.
    - intros v _. cbv beta. pose proof (bits_mask (map snd (cellsL T)) v) as Hg. rewrite next_grp_eq, tinit_ints; [cbn [rbind]; apply vst_init_ok; assumption| |].
      + intros b l. apply grp_single. assumption.
      + apply (grp_wf _ Hg).
  Qed.

  Lemma bump_loop : forall l a, (forall x, In x l -> 1 <= x <= Z.of_nat n) -> length a = n ->
    exists w, rfold (fun ans x => bump_at ans (x - 1)) l a = Ok w /\ length w = n /\ forall k, nth k w 0 = nth k a 0 + Z.of_nat (length (filter (Z.eqb (Z.of_nat k + 1)) l)).
  Proof.
    clear. induction l as [|x l IH]; intros a H E; cbn [rfold].
    - exists a. split; [reflexivity|]. split; [assumption|]. intro k. cbn. lia.
    - destruct (H x (or_introl eq_refl)) as [B1 B2]. unfold bump_at. replace (x - 1 <? 0) with false by (symmetry; apply Z.ltb_ge; lia).
      replace ((0 <=? x - 1) && (x - 1 <? zlen a)) with true by (symmetry; apply andb_true_iff; unfold zlen; rewrite Z.leb_le, Z.ltb_lt; lia). cbn [rbind].
      destruct (IH (upd a (Z.to_nat (x - 1)) (nthz a (x - 1) + 1))) as (w & Ew & Lw & Hw); [intros; apply H; right; assumption|rewrite L_PartBasic.upd_length; assumption|].
      exists w. split; [exact Ew|]. split; [assumption|]. intro k. rewrite Hw, nth_upd by lia. cbn [filter].
      destruct (k =? Z.to_nat (x - 1))%nat eqn:Ek.
      + apply Nat.eqb_eq in Ek. replace (Z.of_nat k + 1 =? x) with true by (symmetry; apply Z.eqb_eq; lia). cbn [length]. unfold nthz. replace (x - 1 <? 0) with false by (symmetry; apply Z.ltb_ge; lia). rewrite <- Ek. lia.
      + apply Nat.eqb_neq in Ek. replace (Z.of_nat k + 1 =? x) with false by (symmetry; apply Z.eqb_neq; lia). lia.
  Qed.
  Lemma vst_weight_ok : forall g, In g (masks (map snd (cellsL T))) -> exists w, vst_weight (T, grp_of T g) n = Ok w /\ length w = n /\ group_weight w (T, grp_of T g).
  Proof.
    intros g Hg. pose proof (mask_length T g Hg) as Lg. unfold vst_weight. cbn [fst snd].
    destruct (bump_loop (kept (cellsL T) g) (repeat 0 n)) as (w & Ew & Lw & Hw); [intros x Hx; exact (kept_range sh pr (Z.of_nat n) lam mu T HT g x Hx)|apply repeat_length|]. exists w. split; [|split; [assumption|]].
    - rewrite <- Ew. assert (X : forall (l h : tab) a, length l = length h -> (forall i, (i < length h)%nat -> fst (nth i l ((0, 0), [])) = fst (nth i h ((0, 0), []))) -> (forall cv, In cv l -> In cv (grp_of T g)) -> (forall cv, In cv h -> In cv T) ->
        rfold (fun ans cv => if truthy (grp_of T g) (fst cv) then Ok ans else match tget T (fst cv) None true with Some (VInt x) => bump_at ans (Z.abs x - 1) | _ => Err TypeError end) l a =
        rfold (fun ans x => bump_at ans (x - 1)) (kept (map (fun cv => (Z.abs (hd 0 (snd cv)), false)) h) (map (fun cv => hd 0 (snd cv)) l)) a).
      { induction l as [|[b z] l IH]; intros [|[b' x] h] a L K Hl Hh; try discriminate; [reflexivity|]. pose proof (K 0%nat ltac:(cbn; lia)) as E. cbn [nth fst] in E. subst b'. cbn [rfold map kept fst snd]. rewrite (truthy_grp g b z Hg) by (apply Hl; left; reflexivity).
        assert (IH' : forall a, rfold (fun ans cv => if truthy (grp_of T g) (fst cv) then Ok ans else match tget T (fst cv) None true with Some (VInt x) => bump_at ans (Z.abs x - 1) | _ => Err TypeError end) l a =
          rfold (fun ans x => bump_at ans (x - 1)) (kept (map (fun cv => (Z.abs (hd 0 (snd cv)), false)) h) (map (fun cv => hd 0 (snd cv)) l)) a).
        { intro a'. apply IH; [injection L as L; exact L|intros i Hi; apply (K (S i)); cbn [length]; lia|intros cv Hc; apply Hl; right; assumption|intros cv Hc; apply Hh; right; assumption]. }
        destruct (hd 0 z =? 0); cbn [negb rbind rfold]; [|apply IH']. destruct (tget_T b x) as [-> _]; [apply Hh; left; reflexivity|]. destruct (bump_at a (Z.abs (hd 0 x) - 1)); [|reflexivity]. cbn [rbind]. apply IH'. }
      rewrite (X (grp_of T g) T (repeat 0 n)).
      + f_equal. assert (E : map (fun cv => hd 0 (snd cv)) (grp_of T g) = g).
        { unfold grp_of. assert (L2 : length (map fst T) = length g) by (rewrite map_length; symmetry; assumption). revert L2. generalize (map fst T). clear. induction g as [|z g IH]; intros [|b l] L; try discriminate; [reflexivity|]. cbn [map combine fst snd hd]. f_equal. apply IH. injection L as L. exact L. }
        transitivity (kept (map (fun cv => (Z.abs (hd 0 (snd cv)), false)) T) g); [f_equal; exact E|]. unfold cellsL, heads. rewrite map_map. exact (kept_bool _ (fun cv : box * list Z => Z.abs (hd 0 (snd cv))) (fun _ => false) (fun x => gb T (fst x) (hd 0 (snd x))) T g).
      + unfold grp_of. rewrite combine_length, !map_length, Lg. apply Nat.min_id.
      + intros i Hi. unfold grp_of. rewrite combine_nth by (rewrite !map_length; symmetry; assumption). cbn [fst]. exact (map_nth fst T ((0, 0), []) i).
      + intros cv H; exact H.
      + intros cv H; exact H.
    - assert (E : vec n (kept (cellsL T) g) = w).
      { apply nth_ext with (d := 0) (d' := 0); [rewrite vec_length; congruence|]. intros k Hk. rewrite vec_length in Hk. rewrite nth_vec, Hw, nth_repeat. replace (k <? n)%nat with true by (symmetry; apply Nat.ltb_lt; assumption). reflexivity. }
      apply (group_weight_vec sh pr (Z.of_nat n) lam mu T HT n g w eq_refl); assumption.
  Qed.
End Vst.

(* ---------- sets ---------- *)
Lemma veqb_eq : forall a b, veqb a b = true <-> a = b.
Proof. intros [a1 a2] [b1 b2]. unfold veqb. cbn [fst snd]. rewrite andb_true_iff, !teqb_eq. split; [intros [-> ->]; reflexivity|]. intro E. injection E as -> ->. split; reflexivity. Qed.
Lemma set_vst_spec : forall l, NoDup (set_vst l) /\ forall V, In V (set_vst l) <-> In V l.
Proof.
  induction l as [|a l [N H]]; [split; [constructor|reflexivity]|]. cbn [set_vst]. destruct (existsb (veqb a) l) eqn:E.
  - split; [assumption|]. intro V. rewrite H. split; [intro X; right; assumption|]. intros [<-|X]; [|assumption]. apply existsb_exists in E. destruct E as (b & Hb & E). apply veqb_eq in E. subst. assumption.
  - split.
    + constructor; [|assumption]. rewrite H. intro X. assert (Y : existsb (veqb a) l = true); [|congruence]. apply existsb_exists. exists a. split; [assumption|apply veqb_eq; reflexivity].
    + intro V. cbn [In]. rewrite H. reflexivity.
Qed.
