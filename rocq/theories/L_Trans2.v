(* Groups of equal entries in rows and columns of a semistandard tableau *)
From Coq Require Import List ZArith Lia Bool Permutation Arith Sorting.Sorted.
From Verif Require Import PyBase FinSum M_Partitions S_Partitions L_Partitions L_PartBasic M_Vectors M_Polynomials M_Tableaux S_Tableaux L_Tableaux S_Strips M_Semistandard S_Semistandard L_Strips2 L_Shape M_RPP L_Families S_Transposed M_Transposed L_Count L_SymPoly L_Trans1.
Import ListNotations.
Local Open Scope Z_scope.

(* the end cells of the groups are counted by the lines they lie on *)
Lemma ends_count : forall A (f key : A -> Z) (g : A -> bool) (l : list A), NoDup l ->
  (forall e, In e l -> g e = true -> exists e', In e' l /\ f e' = f e /\ key e < key e') ->
  (forall e e', In e l -> In e' l -> g e = false -> f e = f e' -> key e' <= key e) ->
  (forall e e', In e l -> In e' l -> f e = f e' -> key e = key e' -> e = e') ->
  distinct (map f l) = zlen (filter (fun e => negb (g e)) l).
Proof.
  intros A f key g l N H1 H2 H3. unfold distinct. assert (P : Permutation (nodup Z.eq_dec (map f l)) (map f (filter (fun e => negb (g e)) l))).
  - apply NoDup_Permutation; [apply NoDup_nodup| |].
    + assert (Q : forall a b, In a (filter (fun e => negb (g e)) l) -> In b (filter (fun e => negb (g e)) l) -> f a = f b -> a = b).
      { intros a b Ha Hb E. apply filter_In in Ha, Hb. destruct Ha as [Ha Ga], Hb as [Hb Gb]. apply negb_true_iff in Ga, Gb. apply H3; try assumption. apply Z.le_antisymm; [apply H2; auto|apply H2; auto]. }
      assert (NF : NoDup (filter (fun e => negb (g e)) l)) by (apply NoDup_filter; assumption). clear -Q NF. induction NF as [|a m Ha NF IH]; [constructor|]. cbn [map]. constructor.
      * intro I. apply in_map_iff in I. destruct I as (b & E & Hb). assert (b = a) by (apply Q; [right; assumption|left; reflexivity|assumption]). subst b. contradiction.
      * apply IH. intros x y Hx Hy. apply Q; right; assumption.
    + intro x. rewrite nodup_In. split; intro H.
      * apply in_map_iff in H. destruct H as (e & <- & He).
        assert (M : exists B, forall e', In e' l -> key e' <= B).
        { clear. induction l as [|a l (B & IH)]; [exists 0; intros ? []|]. exists (Z.max (key a) B). intros e [<-|He]; [lia|]. specialize (IH e He). lia. }
        destruct M as (B & HB). assert (X : forall k e, In e l -> (Z.to_nat (B - key e) <= k)%nat -> In (f e) (map f (filter (fun e => negb (g e)) l))).
        { induction k as [|k IH]; intros e0 He0 Hk.
          - destruct (g e0) eqn:Ge; [|apply in_map, filter_In; split; [assumption|rewrite Ge; reflexivity]]. destruct (H1 e0 He0 Ge) as (e' & He' & _ & K). specialize (HB e' He'). lia.
          - destruct (g e0) eqn:Ge; [|apply in_map, filter_In; split; [assumption|rewrite Ge; reflexivity]]. destruct (H1 e0 He0 Ge) as (e' & He' & <- & K). apply IH; [assumption|]. specialize (HB e' He'). lia. }
        exact (X _ e He (le_n _)).
      * apply in_map_iff in H. destruct H as (e & <- & He). apply in_map. apply filter_In in He. apply He.
  - unfold zlen. rewrite (Permutation_length P), map_length. reflexivity.
Qed.

(* the rank of a letter in the order 1' < 1 < 2' < ... *)
Definition rk (x : Z) : Z := if 0 <? x then 2 * x else -2 * x - 1.
Lemma rk_inj : forall x y, x <> 0 -> y <> 0 -> rk x = rk y -> x = y.
Proof. intros x y. unfold rk. destruct (Z.ltb_spec 0 x), (Z.ltb_spec 0 y); lia. Qed.
Lemma row_ok_rk : forall x y, x <> 0 -> row_ok x y -> rk x <= rk y.
Proof. intros x y Hx. unfold row_ok, rk. destruct (Z.ltb_spec 0 x), (Z.ltb_spec 0 y); lia. Qed.
Lemma column_ok_rk : forall x y, y <> 0 -> column_ok x y -> rk x <= rk y.
Proof. intros x y Hx. unfold column_ok, rk. destruct (Z.ltb_spec 0 x), (Z.ltb_spec 0 y); lia. Qed.

(* the computed test for a groupable cell *)
Definition gb (T : tab) (b : box) (x : Z) : bool := same_entry T (if 0 <? x then (fst b, snd b + 1) else (fst b - 1, snd b)) x.
Definition heads (T : tab) : list (box * Z) := map (fun cv => (fst cv, hd 0 (snd cv))) T.
Definition cellsL (T : tab) : cells := map (fun e => (Z.abs (snd e), gb T (fst e) (snd e))) (heads T).

Section Groups.
  Variable sh : bool.
  Variable pr : Z -> Z -> Prop.
  Variables (n : Z) (lam mu : list Z) (T : tab).
  Hypothesis Hm : part_b sh mu.
  Hypothesis Hl : part_b sh lam.
  Hypothesis HT : semistandard_filling (dcell sh) pr false n lam mu T.

  Lemma single : forall b l, In (b, l) T -> exists x, l = [x].
  Proof. destruct HT as (_ & _ & L & _). intros [i j] l H. destruct (L i j l H) as (_ & _ & X). specialize (X eq_refl). destruct l as [|x [|y l]]; try discriminate. exists x. reflexivity. Qed.
  Lemma keysT : NoDup (map fst T).
  Proof. destruct HT as ((S & _) & _). exact (sorted_NoDup _ S). Qed.
  Lemma heads_In : forall b x, In (b, x) (heads T) <-> holds T (fst b) (snd b) x.
  Proof.
    intros b x. unfold heads. rewrite in_map_iff. split.
    - intros ([b' l] & E & H). cbn [fst snd] in E. injection E as -> <-. destruct (single b l H) as (y & ->). exists [y]. split; [destruct b; exact H|left; reflexivity].
    - intros (l & H & Hx). destruct b as [i j]. cbn [fst snd] in *. destruct (single (i, j) l H) as (y & ->). destruct Hx as [->|[]]. exists ((i, j), [x]). split; [reflexivity|assumption].
  Qed.
  Lemma heads_NoDup : NoDup (map fst (heads T)).
  Proof. unfold heads. rewrite map_map. cbn [fst]. apply keysT. Qed.
  Lemma holds_fun : forall i j x y, holds T i j x -> holds T i j y -> x = y.
  Proof.
    intros i j x y (l & H & Hx) (l' & H' & Hy). assert (S : StronglySorted before (map fst T)) by apply HT.
    assert (E : l = l') by (pose proof (In_tlookup T (i, j) l S H); pose proof (In_tlookup T (i, j) l' S H'); congruence).
    subst l'. destruct (single _ _ H) as (z & ->). destruct Hx as [<-|[]], Hy as [<-|[]]. reflexivity.
  Qed.
  Lemma holds_nz : forall i j x, holds T i j x -> x <> 0.
  Proof. destruct HT as (_ & _ & _ & L & _). intros i j x H. destruct (L i j x H). lia. Qed.
  Lemma holds_cell : forall i j x, holds T i j x -> in_skew (dcell sh) mu lam i j.
  Proof. destruct HT as (_ & C & _). intros i j x (l & H & _). apply C. exists l. assumption. Qed.
  Lemma cell_holds : forall i j, in_skew (dcell sh) mu lam i j -> exists x, holds T i j x.
  Proof. destruct HT as (_ & C & _). intros i j H. apply C in H. destruct H as (l & H). destruct (single _ _ H) as (x & ->). exists x, [x]. split; [assumption|left; reflexivity]. Qed.

  Lemma row_between : forall i j k j', in_skew (dcell sh) mu lam i j -> in_skew (dcell sh) mu lam i j' -> j <= k <= j' -> in_skew (dcell sh) mu lam i k.
  Proof. intros i j k j' [A B] [C D] H. split; [|intro X; apply B]; clear -A C H X || clear -A C H; destruct sh; cbn [dcell] in *; unfold shifted_cell, cell in *; lia. Qed.
  Lemma dc_above : forall p, part_b sh p -> forall (d : nat) i j, dcell sh p (i + Z.of_nat d) j -> region sh (i, j) -> dcell sh p i j.
  Proof.
    intros p Hp. induction d as [|d IH]; intros i j H R; [rewrite Z.add_0_r in H; assumption|]. apply (dc_up sh p (i, j) Hp R). unfold dc, nextd. cbn [fst snd]. apply IH; [rewrite <- Z.add_assoc; replace (1 + Z.of_nat d) with (Z.of_nat (S d)) by lia; assumption|].
    pose proof (dc_region sh p (i + Z.of_nat (S d), j) H) as Q. unfold region in *. cbn [fst snd] in *. destruct sh; lia.
  Qed.
  Lemma col_between : forall i k i' j, in_skew (dcell sh) mu lam i j -> in_skew (dcell sh) mu lam i' j -> i <= k <= i' -> in_skew (dcell sh) mu lam k j.
  Proof.
    intros i k i' j [A B] [C D] H. pose proof (dc_region sh mu (i, j) A) as Ri. pose proof (dc_region sh mu (i', j) C) as Ri'. unfold region in *. cbn [fst snd] in *. split.
    - apply (dc_above mu Hm (Z.to_nat (i' - k))); [replace (k + Z.of_nat (Z.to_nat (i' - k))) with i' by lia; assumption|]. unfold region. cbn [fst snd]. destruct sh; lia.
    - intro X. apply B. apply (dc_above lam Hl (Z.to_nat (k - i))); [replace (i + Z.of_nat (Z.to_nat (k - i))) with k by lia; assumption|]. unfold region. cbn [fst snd]. assumption.
  Qed.
  Lemma row_rk : forall (d : nat) i j x y, holds T i j x -> holds T i (j + Z.of_nat d) y -> rk x <= rk y.
  Proof.
    induction d as [|d IH]; intros i j x y Hx Hy; [rewrite Z.add_0_r in Hy; rewrite (holds_fun _ _ _ _ Hx Hy); lia|].
    destruct (cell_holds i (j + Z.of_nat d)) as (z & Hz); [apply (row_between i j _ (j + Z.of_nat (S d))); [eapply holds_cell; eassumption|eapply holds_cell; eassumption|lia]|].
    etransitivity; [apply (IH i j x z Hx Hz)|]. destruct HT as (_ & _ & _ & _ & R & _). apply row_ok_rk; [eapply holds_nz; eassumption|]. apply (R i (j + Z.of_nat d)); [assumption|]. replace (j + Z.of_nat d + 1) with (j + Z.of_nat (S d)) by lia. assumption.
  Qed.
  Lemma col_rk : forall (d : nat) i j x y, holds T i j x -> holds T (i + Z.of_nat d) j y -> rk x <= rk y.
  Proof.
    induction d as [|d IH]; intros i j x y Hx Hy; [rewrite Z.add_0_r in Hy; rewrite (holds_fun _ _ _ _ Hx Hy); lia|].
    destruct (cell_holds (i + Z.of_nat d) j) as (z & Hz); [apply (col_between i _ (i + Z.of_nat (S d)) j); [eapply holds_cell; eassumption|eapply holds_cell; eassumption|lia]|].
    etransitivity; [apply (IH i j x z Hx Hz)|]. destruct HT as (_ & _ & _ & _ & _ & R). apply column_ok_rk; [eapply holds_nz; eassumption|]. apply (R (i + Z.of_nat d) j); [assumption|]. replace (i + Z.of_nat d + 1) with (i + Z.of_nat (S d)) by lia. assumption.
  Qed.

  Lemma same_entry_holds : forall c x, same_entry T c x = true <-> holds T (fst c) (snd c) x.
  Proof.
    intros [i j] x. unfold same_entry, tget. cbn [fst snd]. destruct (tlookup T (i, j)) as [l|] eqn:E.
    - pose proof (tlookup_In _ _ _ E) as I0. destruct (single _ _ I0) as (y & ->). rewrite Z.eqb_eq. split; [intros ->; exists [y]; split; [assumption|left; reflexivity]|].
      intro H. apply (holds_fun i j); [assumption|]. exists [y]. split; [assumption|left; reflexivity].
    - split; [discriminate|]. intros (l & H & _). exfalso. apply (In_tlookup T) in H; [congruence|]. apply HT.
  Qed.
  Lemma gb_groupable : forall i j x, holds T i j x -> (gb T (i, j) x = true <-> groupable T i j).
  Proof.
    intros i j x H. pose proof (holds_nz _ _ _ H) as Nx. unfold gb. rewrite same_entry_holds. unfold groupable. split.
    - intro X. exists x. split; [assumption|]. destruct (Z.ltb_spec 0 x); cbn [fst snd] in X; split; intro; first [assumption|lia].
    - intros (y & Hy & A & B). rewrite (holds_fun _ _ _ _ H Hy) in *. destruct (Z.ltb_spec 0 y); cbn [fst snd]; [apply A; assumption|apply B; lia].
  Qed.

  Let at_letter (x : Z) : list (box * Z) := filter (fun e => snd e =? x) (heads T).
  Lemma at_letter_NoDup : forall x, NoDup (at_letter x).
  Proof. intro x. apply NoDup_filter. apply (NoDup_map_inv fst). apply heads_NoDup. Qed.
  Lemma at_letter_In : forall x b y, In (b, y) (at_letter x) <-> holds T (fst b) (snd b) x /\ y = x.
  Proof. intros x b y. unfold at_letter. rewrite filter_In, heads_In. cbn [snd]. rewrite Z.eqb_eq. split; intros [A B]; subst; split; auto. Qed.

  Lemma rows_count : forall x, 0 < x -> distinct (map (fun e => fst (fst e)) (at_letter x)) = zlen (filter (fun e => negb (gb T (fst e) (snd e))) (at_letter x)).
  Proof.
    intros x Px. apply (ends_count _ _ (fun e => snd (fst e))); [apply at_letter_NoDup| | |].
    - intros [b y] He G. apply at_letter_In in He. destruct He as [He ->]. cbn [fst snd] in *. unfold gb in G. apply same_entry_holds in G. replace (0 <? x) with true in G by (symmetry; apply Z.ltb_lt; assumption). cbn [fst snd] in G.
      exists ((fst b, snd b + 1), x). split; [apply at_letter_In; split; [exact G|reflexivity]|]. cbn [fst snd]. split; [reflexivity|lia].
    - intros [[i j] y] [[i' j'] y'] He He' G E. apply at_letter_In in He, He'. destruct He as [He ->], He' as [He' ->]. cbn [fst snd] in *. subst i'. destruct (Z_le_gt_dec j' j) as [L|L]; [assumption|]. exfalso.
      assert (X : gb T (i, j) x = true); [|congruence]. unfold gb. apply same_entry_holds. replace (0 <? x) with true by (symmetry; apply Z.ltb_lt; assumption). cbn [fst snd].
      destruct (cell_holds i (j + 1)) as (z & Hz); [apply (row_between i j _ j'); [eapply holds_cell; eassumption|eapply holds_cell; eassumption|lia]|].
      assert (z = x); [|congruence]. apply rk_inj; [eapply holds_nz; eassumption|lia|]. apply Z.le_antisymm.
      + apply (row_rk (Z.to_nat (j' - (j + 1))) i (j + 1)); [assumption|]. replace (j + 1 + Z.of_nat (Z.to_nat (j' - (j + 1)))) with j' by lia. assumption.
      + apply (row_rk 1%nat i j); [assumption|exact Hz].
    - intros [[i j] y] [[i' j'] y'] He He' E1 E2. apply at_letter_In in He, He'. destruct He as [He ->], He' as [He' ->]. cbn [fst snd] in *. congruence.
  Qed.
  Lemma cols_count : forall x, x < 0 -> distinct (map (fun e => snd (fst e)) (at_letter x)) = zlen (filter (fun e => negb (gb T (fst e) (snd e))) (at_letter x)).
  Proof.
    intros x Px. apply (ends_count _ _ (fun e => - fst (fst e))); [apply at_letter_NoDup| | |].
    - intros [b y] He G. apply at_letter_In in He. destruct He as [He ->]. cbn [fst snd] in *. unfold gb in G. apply same_entry_holds in G. replace (0 <? x) with false in G by (symmetry; apply Z.ltb_ge; lia). cbn [fst snd] in G.
      exists ((fst b - 1, snd b), x). split; [apply at_letter_In; split; [exact G|reflexivity]|]. cbn [fst snd]. split; [reflexivity|lia].
    - intros [[i j] y] [[i' j'] y'] He He' G E. apply at_letter_In in He, He'. destruct He as [He ->], He' as [He' ->]. cbn [fst snd] in *. subst j'. destruct (Z_le_gt_dec i i') as [L|L]; [lia|]. exfalso.
      assert (X : gb T (i, j) x = true); [|congruence]. unfold gb. apply same_entry_holds. replace (0 <? x) with false by (symmetry; apply Z.ltb_ge; lia). cbn [fst snd].
      destruct (cell_holds (i - 1) j) as (z & Hz); [apply (col_between i' _ i j); [eapply holds_cell; eassumption|eapply holds_cell; eassumption|lia]|].
      assert (z = x); [|congruence]. apply rk_inj; [eapply holds_nz; eassumption|lia|]. apply Z.le_antisymm.
      + apply (col_rk 1%nat (i - 1) j); [assumption|]. replace (i - 1 + Z.of_nat 1) with i by lia. assumption.
      + apply (col_rk (Z.to_nat (i - 1 - i')) i' j); [assumption|]. replace (i' + Z.of_nat (Z.to_nat (i - 1 - i'))) with (i - 1) by lia. assumption.
    - intros [[i j] y] [[i' j'] y'] He He' E1 E2. apply at_letter_In in He, He'. destruct He as [He ->], He' as [He' ->]. cbn [fst snd] in *. assert (i = i') by lia. congruence.
  Qed.

  Lemma theads_eq : theads T = Ok (heads T).
  Proof.
    unfold theads, heads. pose proof single as S. revert S. generalize T. clear. intro t. induction t as [|[b l] t IH]; intro S; [reflexivity|]. cbn [rmap map fst snd].
    destruct (S b l (or_introl eq_refl)) as (x & ->). cbn [rbind hd]. rewrite IH by (intros b' l' H; apply (S b' l'); right; exact H). reflexivity.
  Qed.
  Lemma having_eq : forall x, having (Z.eqb x) (heads T) = map fst (at_letter x).
  Proof. intro x. unfold having, at_letter. f_equal. apply filter_ext. intro e. apply Z.eqb_sym. Qed.
  Lemma rows_having : forall x, 0 < x -> distinct (map fst (having (Z.eqb x) (heads T))) = zlen (filter (fun e => negb (gb T (fst e) (snd e))) (at_letter x)).
  Proof. intros x Hx. rewrite having_eq, map_map. exact (rows_count x Hx). Qed.
  Lemma cols_having : forall x, x < 0 -> distinct (map snd (having (Z.eqb x) (heads T))) = zlen (filter (fun e => negb (gb T (fst e) (snd e))) (at_letter x)).
  Proof. intros x Hx. rewrite having_eq, map_map. exact (cols_count x Hx). Qed.
  Lemma npick_letters : forall i b, 1 <= i -> Z.of_nat (npick i b (cellsL T)) =
    zlen (filter (fun e => Bool.eqb (gb T (fst e) (snd e)) b) (at_letter i)) + zlen (filter (fun e => Bool.eqb (gb T (fst e) (snd e)) b) (at_letter (- i))).
  Proof.
    intros i b Hi. unfold npick, cellsL, at_letter, zlen. clear at_letter. induction (heads T) as [|[c x] h IH]; [reflexivity|]. cbn [map filter fst snd].
    destruct (Z.eqb_spec (Z.abs x) i), (Z.eqb_spec x i), (Z.eqb_spec x (- i)); cbn [andb filter fst snd]; try lia; destruct (Bool.eqb (gb T c x) b); cbn [length]; lia.
  Qed.
  Lemma filter_split : forall (p : box * Z -> bool) l, zlen l = zlen (filter (fun e => Bool.eqb (p e) false) l) + zlen (filter (fun e => Bool.eqb (p e) true) l).
  Proof. intros p l. unfold zlen. induction l as [|e l IH]; [reflexivity|]. cbn [filter]. destruct (p e); cbn [Bool.eqb length]; lia. Qed.
  Lemma eqb_neg : forall (p : box * Z -> bool) l, filter (fun e => negb (p e)) l = filter (fun e => Bool.eqb (p e) false) l.
  Proof. intros. apply filter_ext. intro e. destruct (p e); reflexivity. Qed.

  Lemma stat_marked_ok : forall i, 1 <= i -> stat_marked (heads T) i = (Z.of_nat (npick i false (cellsL T)), Z.of_nat (npick i true (cellsL T))).
  Proof.
    intros i Hi. unfold stat_marked. rewrite (rows_having i) by lia. rewrite (cols_having (- i)) by lia. rewrite !npick_letters by assumption. rewrite !eqb_neg.
    assert (A : zlen (having (fun v => Z.abs v =? i) (heads T)) = zlen (at_letter i) + zlen (at_letter (- i))).
    { unfold having, at_letter, zlen. rewrite map_length. clear -Hi. induction (heads T) as [|[c x] h IH]; [reflexivity|]. cbn [filter fst snd]. destruct (Z.eqb_spec (Z.abs x) i), (Z.eqb_spec x i), (Z.eqb_spec x (- i)); cbn [length]; lia. }
    rewrite A. f_equal. rewrite (filter_split (fun e => gb T (fst e) (snd e)) (at_letter i)), (filter_split (fun e => gb T (fst e) (snd e)) (at_letter (- i))). lia.
  Qed.
  Lemma stat_plain_ok : (forall i j, ~ pr i j) -> forall i, 1 <= i -> stat_plain (heads T) i = (Z.of_nat (npick i false (cellsL T)), Z.of_nat (npick i true (cellsL T))).
  Proof.
    intros NP i Hi. unfold stat_plain. rewrite (rows_having i) by lia. rewrite having_eq. rewrite !npick_letters by assumption. rewrite !eqb_neg.
    assert (E : at_letter (- i) = []).
    { destruct (at_letter (- i)) as [|[b x] l] eqn:E; [reflexivity|]. exfalso. assert (I0 : In (b, x) (at_letter (- i))) by (rewrite E; left; reflexivity). apply at_letter_In in I0. destruct I0 as [I0 _]. destruct HT as (_ & _ & _ & L & _). destruct (L _ _ _ I0) as [_ X]. apply (NP (fst b) (snd b)). apply X. lia. }
    rewrite E. change (zlen (filter _ [])) with 0. change (zlen (filter _ [])) with 0. assert (Lm : zlen (map fst (at_letter i)) = zlen (at_letter i)) by (unfold zlen; rewrite map_length; reflexivity). rewrite Lm, (filter_split (fun e => gb T (fst e) (snd e)) (at_letter i)). f_equal; lia.
  Qed.
  Lemma cellsL_range : forall vb, In vb (cellsL T) -> 1 <= fst vb <= n.
  Proof. intros vb H. unfold cellsL in H. apply in_map_iff in H. destruct H as ([b x] & <- & H). cbn [fst snd]. apply heads_In in H. destruct HT as (_ & _ & _ & L & _). apply (L _ _ _ H). Qed.
End Groups.
