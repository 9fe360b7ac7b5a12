(* Groupings of a tableau, and the coefficients of the sum over tableaux *)
From Coq Require Import List ZArith Lia Bool Permutation Arith Sorting.Sorted.
From Verif Require Import PyBase FinSum M_Partitions S_Partitions L_Partitions L_PartBasic L_PartEnum M_Vectors L_Vectors M_Polynomials L_Polynomials L_PolySubst M_Tableaux S_Tableaux L_Tableaux S_Strips M_Semistandard S_Semistandard L_Strips2 L_Shape M_RPP M_Symmetric M_Expansion M_Slow M_Dual
  L_SymPoly L_SymMul L_Kostka L_Num L_Expand1 L_Expand2 L_Expand3 L_Expand4 L_Expand5 P_Count L_Sym1 L_Slow L_Families L_Dual S_Transposed M_Transposed L_CountCache L_Count L_Trans1 L_Trans2.
Import ListNotations.
Local Open Scope Z_scope.
Local Notation sg := (nget smono_eqb).

(* ---------- lists ---------- *)
Lemma before_irrefl : forall a, ~ before a a.
Proof. intros [i j] H. unfold before in H. cbn [fst snd] in H. lia. Qed.
Lemma before_trans : forall a b c, before a b -> before b c -> before a c.
Proof. intros [i j] [k l] [m n]. unfold before. cbn [fst snd]. lia. Qed.
Lemma sorted_same : forall l m, StronglySorted before l -> StronglySorted before m -> (forall x, In x l <-> In x m) -> l = m.
Proof.
  induction l as [|a l IH]; intros m Sl Sm H.
  - destruct m as [|b m]; [reflexivity|]. destruct (proj2 (H b) (or_introl eq_refl)).
  - destruct m as [|b m]; [destruct (proj1 (H a) (or_introl eq_refl))|]. inversion Sl as [|? ? Sl1 Fl]; inversion Sm as [|? ? Sm1 Fm]; subst. rewrite Forall_forall in Fl, Fm.
    assert (a = b).
    { destruct (proj1 (H a) (or_introl eq_refl)) as [E|E]; [congruence|]. destruct (proj2 (H b) (or_introl eq_refl)) as [E'|E']; [congruence|]. exfalso. apply (before_irrefl a). apply (before_trans a b a); [apply Fl|apply Fm]; assumption. }
    subst b. f_equal. apply IH; try assumption. intro x. split; intro Hx.
    + destruct (proj1 (H x) (or_intror Hx)) as [E|E]; [|assumption]. subst x. destruct (before_irrefl a (Fl a Hx)).
    + destruct (proj2 (H x) (or_intror Hx)) as [E|E]; [|assumption]. subst x. destruct (before_irrefl a (Fm a Hx)).
Qed.
Lemma map_fst_combine : forall A B (l : list A) (m : list B), length l = length m -> map fst (combine l m) = l.
Proof. induction l as [|a l IH]; intros [|b m] H; try discriminate; [reflexivity|]. cbn [combine map fst]. f_equal. apply IH. injection H as H. exact H. Qed.

(* ---------- groupings ---------- *)
Definition grp_of (T : tab) (g : list Z) : tab := combine (map fst T) (map (fun z => [z]) g).
Definition groupings (T : tab) : list tab := map (grp_of T) (masks (map snd (cellsL T))).

Lemma grp_In : forall (T : tab) g b l, length g = length T -> (In (b, l) (grp_of T g) <-> exists k, (k < length T)%nat /\ nth k (map fst T) (0, 0) = b /\ l = [nth k g 0]).
Proof.
  intros T g b l Lg. unfold grp_of. split.
  - intro H. apply (In_nth _ _ ((0, 0), [0])) in H. destruct H as (k & Hk & E). rewrite combine_length, !map_length, Lg, Nat.min_id in Hk. rewrite combine_nth in E by (rewrite !map_length; symmetry; assumption).
    exists k. split; [assumption|]. injection E as E1 E2. split; [assumption|]. rewrite <- E2. exact (map_nth (fun z => [z]) g 0 k).
  - intros (k & Hk & E & ->). replace (b, [nth k g 0]) with (nth k (combine (map fst T) (map (fun z => [z]) g)) ((0, 0), [0])).
    + apply nth_In. rewrite combine_length, !map_length, Lg, Nat.min_id. assumption.
    + rewrite combine_nth by (rewrite !map_length; symmetry; assumption). f_equal; [exact E|exact (map_nth (fun z => [z]) g 0 k)].
Qed.

Section Grouping.
  Variable sh : bool.
  Variable pr : Z -> Z -> Prop.
  Variables (n : Z) (lam mu : list Z) (T : tab).
  Hypothesis HT : semistandard_filling (dcell sh) pr false n lam mu T.

  Lemma cellsL_length : length (cellsL T) = length T.
  Proof. unfold cellsL, heads. rewrite !map_length. reflexivity. Qed.
  Lemma nth_heads : forall k, (k < length T)%nat -> nth k (heads T) ((0, 0), 0) = (nth k (map fst T) (0, 0), nth k (map (fun cv => hd 0 (snd cv)) T) 0).
  Proof. intros k Hk. unfold heads. revert k Hk. clear HT. induction T as [|[b l] t IH]; intros k Hk; [cbn in Hk; lia|]. destruct k as [|k]; [reflexivity|]. cbn [map nth]. apply IH. cbn [length] in Hk. lia. Qed.
  Lemma nth_gb : forall k, (k < length T)%nat -> nth k (map snd (cellsL T)) false = gb T (fst (nth k (heads T) ((0, 0), 0))) (snd (nth k (heads T) ((0, 0), 0))).
  Proof.
    intros k Hk. unfold cellsL. rewrite map_map. cbn [snd]. rewrite (nth_indep _ false (gb T (fst ((0, 0), 0)) (snd ((0, 0), 0)))) by (rewrite map_length; unfold heads; rewrite map_length; assumption).
    exact (map_nth (fun x : box * Z => gb T (fst x) (snd x)) (heads T) ((0, 0), 0) k).
  Qed.
  Lemma mask_length : forall g, In g (masks (map snd (cellsL T))) -> length g = length T.
  Proof. intros g H. apply masks_In in H. destruct H as [H _]. rewrite map_length, cellsL_length in H. exact H. Qed.

  Lemma grouping_In : forall G, In G (groupings T) <-> grouping_of T G.
  Proof.
    intro G. unfold groupings. rewrite in_map_iff. split.
    - intros (g & <- & Hg). pose proof (mask_length g Hg) as Lg. apply masks_In in Hg. destruct Hg as [_ Hg]. rewrite map_length, cellsL_length in Hg.
      assert (K : map fst (grp_of T g) = map fst T) by (unfold grp_of; apply map_fst_combine; rewrite !map_length; symmetry; assumption).
      split; [|split].
      + split; [exact (eq_ind_r (fun L => StronglySorted before L) (proj1 (proj1 HT)) K)|]. intros c l H. apply grp_In in H; [|assumption]. destruct H as (k & Hk & E & ->). assert (I0 : In c (map fst T)) by (rewrite <- E; apply nth_In; rewrite map_length; assumption).
        apply in_map_iff in I0. destruct I0 as ([c' l'] & <- & I0). destruct HT as ((_ & P) & _). destruct (P _ _ I0) as (P1 & P2 & _). cbn [fst]. split; [exact P1|]. split; [exact P2|]. repeat constructor.
      + intros i j. assert (Q : forall t : list ((Z * Z) * list Z), (exists l, In ((i, j), l) t) <-> In (i, j) (map fst t)).
        { intro t. rewrite in_map_iff. split; [intros (l & H); exists ((i, j), l); split; [reflexivity|assumption]|]. intros ([b l] & <- & H). exists l. assumption. }
        split; intro X; apply Q; apply Q in X; [exact (eq_ind _ (fun L => In (i, j) L) X _ K)|exact (eq_ind_r (fun L => In (i, j) L) X K)].
      + intros i j l H. apply grp_In in H; [|assumption]. destruct H as (k & Hk & E & ->). destruct (Hg k Hk) as [->|[-> B]]; [left; reflexivity|]. right. split; [reflexivity|].
        rewrite nth_gb in B by assumption. rewrite nth_heads in B by assumption. cbn [fst snd] in B. assert (Ho : holds T i j (nth k (map (fun cv => hd 0 (snd cv)) T) 0)).
        { apply (heads_In sh pr n lam mu T HT (i, j)). pose proof (nth_heads k Hk) as N0. rewrite <- E, <- N0. apply nth_In. unfold heads. rewrite map_length. assumption. }
        apply (gb_groupable sh pr n lam mu T HT i j _ Ho). rewrite E in B. assumption.
    - intros (W & C & V). set (g := map (fun cv => hd 0 (snd cv)) G). exists g.
      assert (K : map fst G = map fst T).
      { apply sorted_same; [apply W|apply HT|]. intros [i j]. rewrite !in_map_iff. specialize (C i j). split; intros ([b l] & E & H); cbn [fst] in E; subst b.
        - destruct (proj1 C (ex_intro _ l H)) as (l' & H'). exists ((i, j), l'). split; [reflexivity|assumption].
        - destruct (proj2 C (ex_intro _ l H)) as (l' & H'). exists ((i, j), l'). split; [reflexivity|assumption]. }
      assert (Lg : length g = length T) by (unfold g; rewrite map_length; rewrite <- (map_length fst G), K, map_length; reflexivity).
      assert (EG : grp_of T g = G).
      { unfold grp_of, g. rewrite <- K. clear -V. assert (X : forall b l, In (b, l) G -> exists z, l = [z]) by (intros [i j] l H; destruct (V i j l H) as [->|[-> _]]; eexists; reflexivity). clear V.
        induction G as [|[b l] G IH]; [reflexivity|]. cbn [map fst snd combine]. rewrite IH by (intros b' l' H; apply (X b' l'); right; assumption). destruct (X b l (or_introl eq_refl)) as (z & ->). reflexivity. }
      split; [exact EG|]. apply masks_In. rewrite map_length, cellsL_length. split; [assumption|]. intros k Hk.
      assert (I0 : In (nth k (map fst T) (0, 0), [nth k g 0]) G) by (rewrite <- EG; apply grp_In; [assumption|]; exists k; split; [assumption|split; reflexivity]).
      destruct (nth k (map fst T) (0, 0)) as [i j] eqn:E. destruct (V i j _ I0) as [X|[X Gr]]; injection X as X; [left; assumption|]. right. split; [assumption|]. rewrite nth_gb, nth_heads by assumption. rewrite E. cbn [fst snd].
      apply (gb_groupable sh pr n lam mu T HT i j); [|assumption]. apply (heads_In sh pr n lam mu T HT (i, j)). rewrite <- E. pose proof (nth_heads k Hk) as N0. rewrite <- N0. apply nth_In. unfold heads. rewrite map_length. assumption.
  Qed.
  Lemma grp_inj : forall g g', length g = length T -> length g' = length T -> grp_of T g = grp_of T g' -> g = g'.
  Proof.
    intros g g' L L' E. apply nth_ext with (d := 0) (d' := 0); [congruence|]. intros k Hk. assert (E2 : map snd (grp_of T g) = map snd (grp_of T g')) by (rewrite E; reflexivity).
    assert (Q : forall h, length h = length T -> map snd (grp_of T h) = map (fun z => [z]) h).
    { intros h Lh. unfold grp_of. clear -Lh. assert (L2 : length (map fst T) = length h) by (rewrite map_length; symmetry; assumption). revert L2. generalize (map fst T). clear. induction h as [|z h IH]; intros [|b l] L; try discriminate; [reflexivity|]. cbn [map combine snd]. f_equal. apply IH. injection L as L. exact L. }
    rewrite !Q in E2 by assumption. apply (f_equal (fun l => hd 0 (nth k l [0]))) in E2. rewrite !(map_nth (fun z => [z])) in E2. exact E2.
  Qed.
  Lemma groupings_NoDup : NoDup (groupings T).
  Proof.
    unfold groupings. pose proof mask_length as M. pose proof (masks_NoDup (map snd (cellsL T))) as N. revert M N. generalize (masks (map snd (cellsL T))). induction l as [|g l IH]; intros M N; [constructor|]. inversion N as [|? ? N1 N2]; subst. cbn [map]. constructor.
    - intro I0. apply in_map_iff in I0. destruct I0 as (g' & E & H). assert (g' = g) by (apply grp_inj; [apply M; right; assumption|apply M; left; reflexivity|assumption]). subst g'. contradiction.
    - apply IH; [intros g' H; apply M; right; assumption|assumption].
  Qed.

  (* the weight of a grouping *)
  Definition vec (m : nat) (l : list Z) : list Z := map (fun t => Z.of_nat (length (filter (Z.eqb t) l))) (zrange 1 (Z.of_nat m + 1)).
  Lemma kept_range : forall g v, In v (kept (cellsL T) g) -> 1 <= v <= n.
  Proof.
    intros g v H. assert (X : exists b, In (v, b) (cellsL T)).
    { revert g H. generalize (cellsL T) as l. induction l as [|[w b] l IH]; intros [|z g] H; try destruct H. cbn [kept] in H. destruct (z =? 0).
      - destruct H as [->|H]; [exists b; left; reflexivity|]. destruct (IH g H) as (b' & H'). exists b'. right. assumption.
      - destruct (IH g H) as (b' & H'). exists b'. right. assumption. }
    destruct X as (b & X). apply (cellsL_range sh pr n lam mu T HT (v, b) X).
  Qed.
  Lemma group_count : forall g k, length g = length T -> cardinality (fun b => In (b, [0]) (grp_of T g) /\ exists x, holds T (fst b) (snd b) x /\ Z.abs x = k) (Z.of_nat (length (filter (Z.eqb k) (kept (cellsL T) g)))).
  Proof.
    intros g k Lg. set (P := filter (fun p => (snd p =? 0) && (Z.abs (snd (fst p)) =? k)) (combine (heads T) g)).
    assert (Lh : length (heads T) = length g) by (unfold heads; rewrite map_length; symmetry; assumption).
    assert (K : map (fun p => fst (fst p)) (combine (heads T) g) = map fst T) by (rewrite <- (map_map fst fst), map_fst_combine by assumption; unfold heads; rewrite map_map; reflexivity).
    exists (map (fun p => fst (fst p)) P). split; [|split].
    - assert (N : NoDup (map (fun p => fst (fst p)) (combine (heads T) g))) by (rewrite K; apply (keysT sh pr n lam mu T HT)).
      unfold P. revert N. generalize (combine (heads T) g) as l. induction l as [|p l IH]; intro N; [constructor|]. cbn [map] in N. inversion N as [|? ? N1 N2]; subst. cbn [filter]. destruct ((snd p =? 0) && (Z.abs (snd (fst p)) =? k)); [|apply IH; assumption].
      cbn [map]. constructor; [|apply IH; assumption]. intro I0. apply N1. apply in_map_iff in I0. destruct I0 as (y & <- & Hy). apply filter_In in Hy. apply in_map_iff. exists y. split; [reflexivity|apply Hy].
    - intro b. rewrite in_map_iff. split.
      + intros ([[b' x] z] & <- & H). unfold P in H. apply filter_In in H. destruct H as [H Q]. cbn [fst snd] in *. apply andb_true_iff in Q. destruct Q as [Q1 Q2]. apply Z.eqb_eq in Q1, Q2. subst z.
        apply (In_nth _ _ (((0, 0), 0), 0)) in H. destruct H as (j & Hj & E). rewrite combine_length, Lh, Nat.min_id in Hj. rewrite combine_nth in E by assumption. injection E as E0 E2. assert (Hj' : (j < length T)%nat) by lia. pose proof (nth_heads j Hj') as NH. pose proof (eq_trans (eq_sym NH) E0) as E4. injection E4 as E1 E3. split.
        * apply grp_In; [assumption|]. exists j. split; [lia|]. split; [exact E1|rewrite E2; reflexivity].
        * exists x. split; [|assumption]. apply (heads_In sh pr n lam mu T HT). exact (eq_ind _ (fun p => In p (heads T)) (nth_In _ _ (Nat.lt_le_trans _ _ _ Hj (Nat.eq_le_incl _ _ (eq_sym Lh)))) _ E0).
      + intros [H (x & Hx & Hk)]. apply grp_In in H; [|assumption]. destruct H as (j & Hj & E & Z0). injection Z0 as Z0. exists ((b, x), 0). split; [reflexivity|]. unfold P. apply filter_In. cbn [fst snd]. split; [|apply andb_true_iff; split; apply Z.eqb_eq; [reflexivity|assumption]].
        assert (E3 : nth j (map (fun cv => hd 0 (snd cv)) T) 0 = x).
        { apply (holds_fun sh pr n lam mu T HT (fst b) (snd b)); [|assumption]. apply (heads_In sh pr n lam mu T HT). pose proof (nth_heads j Hj) as NH. rewrite E in NH. rewrite <- NH. apply nth_In. lia. }
        replace ((b, x), 0) with (nth j (combine (heads T) g) (((0, 0), 0), 0)); [apply nth_In; rewrite combine_length; lia|]. rewrite combine_nth by assumption. f_equal; [|symmetry; exact Z0]. refine (eq_trans (nth_heads j Hj) _). f_equal; [exact E|exact E3].
    - f_equal. rewrite map_length. unfold P, cellsL. clear K P Lg. revert g Lh. generalize (heads T) as l. induction l as [|[b x] l IH]; intros [|z g] Lh; try discriminate; [reflexivity|]. injection Lh as Lh. cbn [combine map kept filter fst snd]. specialize (IH g Lh).
      destruct (Z.eqb_spec z 0); cbn [andb filter]; [|exact IH]. rewrite (Z.eqb_sym k). destruct (Z.abs x =? k); cbn [length]; lia.
  Qed.
  Lemma nth_vec : forall m l k, nth k (vec m l) 0 = if (k <? m)%nat then Z.of_nat (length (filter (Z.eqb (Z.of_nat k + 1)) l)) else 0.
  Proof.
    intros m l k. unfold vec, zrange. replace (Z.to_nat (Z.of_nat m + 1 - 1)) with m by lia. rewrite map_map. destruct (Nat.ltb_spec k m) as [L|L].
    - rewrite (nth_indep _ 0 ((fun x => Z.of_nat (length (filter (Z.eqb (1 + Z.of_nat x)) l))) 0%nat)) by (rewrite map_length, seq_length; assumption). rewrite (map_nth (fun x => Z.of_nat (length (filter (Z.eqb (1 + Z.of_nat x)) l)))), seq_nth by assumption. cbn [Nat.add]. rewrite Z.add_comm. reflexivity.
    - apply nth_overflow. rewrite map_length, seq_length. assumption.
  Qed.
  Lemma vec_length : forall m l, length (vec m l) = m.
  Proof. intros. unfold vec. rewrite map_length. apply zrange_length1. Qed.
  Lemma group_weight_vec : forall m g alpha, n = Z.of_nat m -> length g = length T -> length alpha = m -> (group_weight alpha (T, grp_of T g) <-> vec m (kept (cellsL T) g) = alpha).
  Proof.
    intros m g alpha En Lg La. unfold group_weight. cbn [fst snd]. split.
    - intro H. apply nth_ext with (d := 0) (d' := 0); [rewrite vec_length; congruence|]. intros k Hk. rewrite vec_length in Hk. rewrite nth_vec. replace (k <? m)%nat with true by (symmetry; apply Nat.ltb_lt; assumption).
      refine (counts_unique _ _ _ _ (group_count g (Z.of_nat k + 1) Lg) (H k)).
    - intros <- k. rewrite nth_vec. destruct (Nat.ltb_spec k m) as [L|L]; [apply group_count; assumption|].
      pose proof (group_count g (Z.of_nat k + 1) Lg) as X. assert (Y : filter (Z.eqb (Z.of_nat k + 1)) (kept (cellsL T) g) = []).
      { apply filter_none. intros v Hv. apply kept_range in Hv. apply Z.eqb_neq. lia. }
      rewrite Y in X. exact X.
  Qed.
End Grouping.
