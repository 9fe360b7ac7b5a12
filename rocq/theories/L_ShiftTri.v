(* Weights of shifted tableaux are dominated by the shape, and the shape itself is a weight *)
From Coq Require Import List ZArith Lia Bool Permutation Arith Sorted.
From Verif Require Import PyBase FinSum M_Partitions S_Partitions L_Partitions L_PartBasic L_PartEnum L_Destand L_Destand2 M_Vectors L_Vectors M_Polynomials S_Polynomials L_Polynomials P_Polynomials L_PolySubst
  M_Tableaux S_Tableaux L_Tableaux S_Strips M_Semistandard S_Semistandard L_Strips2 L_Shape L_Semi L_Semi3 L_Semi4 L_Semi5 L_Count L_Count2 L_Count3 L_CountCache M_Symmetric S_Symmetric M_Expansion S_Expansion M_Slow M_Families
  L_SymPoly L_SymMul L_Growth L_Kostka L_Num L_Expand1 L_Expand2 L_Expand3 L_Expand4 L_Expand5 L_Expand6 P_Symmetric P_Expansion P_Semistandard P_Count L_Sym1 L_Sym2 L_Sym3 L_Sym4 L_Sym5 L_Sym6 L_Sym11 L_Slow P_Symmetry L_Insertion6 L_Families L_Families2.
Import ListNotations.
Local Open Scope Z_scope.
Local Notation sg := (nget smono_eqb).

Lemma strict_nil : strict_partition [].
Proof. split; [constructor|]. intros i H. cbn in H. lia. Qed.
Lemma no_cell : forall i j, ~ shifted_cell [] i j.
Proof. intros i j. unfold shifted_cell. assert (E : row [] (Z.to_nat (i - 1)) = 0) by (unfold row; destruct (Z.to_nat (i - 1)); reflexivity). rewrite E. lia. Qed.

(* entries of row i are at least i *)
Lemma row_bound : forall pr sv n mu T, strict_partition mu -> tableau_of shifted_cell pr sv n mu [] T -> forall i j x, holds T i j x -> i <= Z.abs x.
Proof.
  intros pr sv n mu T Hm (_ & W & D & L & H & R & C).
  assert (X : forall k : nat, forall j x, holds T (Z.of_nat k + 1) j x -> Z.of_nat k + 1 <= Z.abs x).
  { induction k as [|k IH]; intros j x Hx; [specialize (H _ _ _ Hx); lia|].
    assert (Hc : in_skew shifted_cell mu [] (Z.of_nat (S k) + 1) j) by (apply D; destruct Hx as (l & Hl & _); exists l; assumption).
    destruct Hc as [Hc _]. unfold shifted_cell in Hc. replace (Z.to_nat (Z.of_nat (S k) + 1 - 1)) with (S k) in Hc by lia.
    assert (Lk : (S k < length mu)%nat). { destruct (le_lt_dec (length mu) (S k)) as [G|G]; [|assumption]. assert (E : row mu (S k) = 0) by (unfold row; apply nth_overflow; assumption). lia. }
    destruct Hm as [_ Hs]. specialize (Hs k Lk).
    assert (Hold : forall j', Z.of_nat k + 1 <= j' <= Z.of_nat k + row mu k -> exists y, holds T (Z.of_nat k + 1) j' y).
    { intros j' Hj. assert (I : in_skew shifted_cell mu [] (Z.of_nat k + 1) j') by (split; [unfold shifted_cell; replace (Z.to_nat (Z.of_nat k + 1 - 1)) with k by lia; lia|apply no_cell]).
      apply D in I. destruct I as (l & Hl). destruct (L _ _ _ Hl) as [Nl _]. destruct l as [|y l]; [congruence|]. exists y, (y :: l). split; [assumption|left; reflexivity]. }
    destruct (Hold (j - 1) ltac:(lia)) as (a & Ha). destruct (Hold j ltac:(lia)) as (b & Hb). specialize (IH _ _ Ha).
    assert (Hb' : holds T (Z.of_nat k + 1) (j - 1 + 1) b) by (replace (j - 1 + 1) with j by lia; assumption).
    assert (Hx' : holds T (Z.of_nat k + 1 + 1) j x) by (replace (Z.of_nat k + 1 + 1) with (Z.of_nat (S k) + 1) by lia; assumption).
    pose proof (R _ _ _ _ Ha Hb') as X1. pose proof (C _ _ _ _ Hb Hx') as X2. unfold row_ok, column_ok in *. lia. }
  intros i j x Hx. assert (1 <= i). { destruct Hx as (l & Hl & _). apply W in Hl. cbn [fst] in Hl. lia. }
  specialize (X (Z.to_nat (i - 1)) j x). replace (Z.of_nat (Z.to_nat (i - 1)) + 1) with i in X by lia. apply X. assumption.
Qed.

Lemma occ_upto : forall k l, (forall x, In x l -> 1 <= Z.abs x) ->
  psum (fun m => Z.of_nat (length (filter (fun x => Z.abs x =? Z.of_nat m + 1) l))) k = zlen (filter (fun x => Z.abs x <=? Z.of_nat k) l).
Proof.
  induction k as [|k IH]; intros l H.
  - cbn [psum]. rewrite L_PartBasic.filter_none; [reflexivity|]. intros x Hx. apply Z.leb_gt. specialize (H x Hx). lia.
  - cbn [psum]. rewrite IH by assumption. clear IH H. unfold zlen. induction l as [|x l IHl]; [reflexivity|]. cbn [filter].
    destruct (Z.leb_spec (Z.abs x) (Z.of_nat k)), (Z.eqb_spec (Z.abs x) (Z.of_nat k + 1)), (Z.leb_spec (Z.abs x) (Z.of_nat (S k))); cbn [length]; lia.
Qed.

Lemma all_single : forall (T : tab), (forall i j l, In ((i, j), l) T -> l <> []) -> zlen (flat_map snd T) <= zlen T -> forall i j l, In ((i, j), l) T -> length l = 1%nat.
Proof.
  unfold zlen. induction T as [|[[i j] l] T IH]; intros H Le i' j' l' Hin; [destruct Hin|]. cbn [flat_map snd] in Le. rewrite app_length in Le. cbn [length] in Le.
  assert (N0 : (length l <> 0)%nat) by (intro E; apply (H i j l (or_introl eq_refl)); destruct l; [reflexivity|discriminate]).
  pose proof (flat_map_len T ltac:(intros a b c X; apply (H a b c); right; exact X)) as Ge. unfold zlen in Ge.
  destruct Hin as [E|Hin]; [injection E as <- <- <-; lia|]. apply (IH ltac:(intros a b c X; apply (H a b c); right; exact X) ltac:(lia) i' j' l' Hin).
Qed.
Lemma single_count : forall (T : tab) k, (forall i j l, In ((i, j), l) T -> length l = 1%nat /\ forall x, In x l -> i <= Z.abs x) ->
  zlen (filter (fun x => Z.abs x <=? k) (flat_map snd T)) <= zlen (filter (fun c => fst c <=? k) (map fst T)).
Proof.
  intros T k. unfold zlen. induction T as [|[[i j] l] T IH]; intro H; [cbn; lia|]. cbn [flat_map snd map fst filter]. rewrite filter_app, app_length.
  specialize (IH ltac:(intros a b c X; apply (H a b c); right; exact X)). destruct (H i j l (or_introl eq_refl)) as [E1 E2]. destruct l as [|x [|? ?]]; try discriminate. specialize (E2 x (or_introl eq_refl)). cbn [filter].
  destruct (Z.leb_spec (Z.abs x) k), (Z.leb_spec i k); cbn [length]; lia.
Qed.
Lemma strict_firstn : forall k mu, strict_partition mu -> strict_partition (firstn k mu).
Proof.
  intros k mu [P D]. split.
  - apply Forall_forall. intros x Hx. rewrite Forall_forall in P. apply P. rewrite <- (firstn_skipn k mu). apply in_app_iff. left. assumption.
  - intros i Hi. rewrite firstn_length in Hi. assert (R : forall j, (j < k)%nat -> row (firstn k mu) j = row mu j).
    { clear. intros j. unfold row. revert k mu. induction j as [|j IH]; intros [|k] [|a mu] H; try lia; try reflexivity. cbn [firstn nth]. apply IH. lia. }
    rewrite !R by lia. apply D. lia.
Qed.
Lemma row_firstn : forall k mu j, row (firstn k mu) j = if (j <? k)%nat then row mu j else 0.
Proof.
  intros k mu j. unfold row. revert k mu. induction j as [|j IH]; intros [|k] [|a mu]; try reflexivity.
  - cbn [firstn nth]. destruct (Nat.ltb _ _); reflexivity.
  - cbn [firstn nth]. rewrite IH. reflexivity.
Qed.
Lemma size_firstn : forall k mu, size (firstn k mu) = psum (row mu) k.
Proof.
  intros k mu. rewrite <- (size_padz (firstn k mu) k). rewrite size_psum_len, padz_length by (rewrite firstn_length; lia).
  apply psum_ext. intros i Hi. rewrite padz_row, row_firstn. replace (i <? k)%nat with true by (symmetry; apply Nat.ltb_lt; assumption). reflexivity.
Qed.
Lemma rows_count : forall k mu (d : list (Z * Z)), strict_partition mu -> NoDup d -> (forall a b, In (a, b) d <-> in_skew shifted_cell mu [] a b) ->
  zlen (filter (fun c => fst c <=? Z.of_nat k) d) = psum (row mu) k.
Proof.
  intros k mu d Hm Nd Hd. rewrite <- size_firstn. rewrite (cells_size true (firstn k mu) [] _ (strict_firstn k mu Hm) strict_nil); [change (size []) with 0; lia| |apply NoDup_filter; assumption|].
  - intros i j X. destruct (no_cell i j X).
  - intros a b. rewrite filter_In, Hd. cbn [fst]. unfold in_skew, shifted_cell. rewrite row_firstn, Z.leb_le. destruct (Nat.ltb_spec (Z.to_nat (a - 1)) k); split; intros; try tauto; try lia.
Qed.

Lemma tableau_cells : forall c pr sv n mu nu T, tableau_of c pr sv n mu nu T -> NoDup (map fst T) /\ forall a b, In (a, b) (map fst T) <-> in_skew c mu nu a b.
Proof.
  intros c pr sv n mu nu T (_ & W & D & _). split; [apply L_Tableaux.sorted_NoDup, W|]. intros a b. rewrite in_map_iff. rewrite <- (D a b). split.
  - intros ([x l] & E1 & E2). cbn [fst] in E1. subst x. exists l. assumption.
  - intros (l & X). exists ((a, b), l). split; [reflexivity|assumption].
Qed.
Lemma total_weight : forall c pr sv n mu nu T alpha, tableau_of c pr sv n mu nu T -> (length alpha <= n)%nat -> has_weight alpha T -> zlen (flat_map snd T) = size alpha.
Proof.
  intros c pr sv n mu nu T alpha (_ & W & D & L & H & _) La Hw.
  assert (Lt : forall x, In x (flat_map snd T) -> 1 <= Z.abs x <= Z.of_nat n).
  { intros x Hx. apply in_flat_map in Hx. destruct Hx as ([[i j] l] & H1 & H2). apply (H i j x). exists l. split; assumption. }
  rewrite (total_occ n (flat_map snd T) Lt). rewrite <- (size_padz alpha n), size_psum_len, padz_length by assumption. apply psum_ext. intros k _. rewrite padz_row. apply Hw.
Qed.

(* weights of tableaux of a strict shape *)
Theorem shifted_dominance : forall pr sv n mu T alpha, strict_partition mu -> partition alpha -> (length alpha <= n)%nat ->
  tableau_of shifted_cell pr sv n mu [] T -> has_weight alpha T ->
  size mu < size alpha \/ (size mu = size alpha /\ (alpha = mu \/ lex_ltb alpha mu = true)).
Proof.
  intros pr sv n mu T alpha Hm Pa La HT Hw. pose proof (total_weight _ _ _ _ _ _ _ _ HT La Hw) as E.
  destruct (tableau_cells _ _ _ _ _ _ _ HT) as [Nd Hd].
  pose proof (cells_size true mu [] (map fst T) Hm strict_nil ltac:(intros i j X; destruct (no_cell i j X)) Nd Hd) as C. change (size []) with 0 in C.
  assert (Lc : zlen (map fst T) = zlen T) by (unfold zlen; rewrite map_length; reflexivity).
  pose proof (row_bound _ _ _ _ _ Hm HT) as Rb. destruct HT as (Hi & W & D & L & H & Ho).
  pose proof (flat_map_len T ltac:(intros i j l X; apply (L i j l X))) as F.
  assert (Sz : size mu = zlen T) by (rewrite <- Lc; rewrite Z.sub_0_r in C; symmetry; exact C).
  assert (Fl : zlen T <= size alpha) by (rewrite <- E; exact F).
  destruct (Z.eq_dec (size mu) (size alpha)) as [Es|Es]; [|left; lia]. right. split; [assumption|].
  apply dominance_lex; [apply Pa|]. intro k. rewrite <- (rows_count k mu (map fst T) Hm Nd Hd).
  rewrite (psum_ext _ (fun m => Z.of_nat (length (filter (fun x => Z.abs x =? Z.of_nat m + 1) (flat_map snd T))))) by (intros m _; symmetry; apply Hw).
  rewrite occ_upto.
  - apply single_count. intros i j l Hl. split; [apply (all_single T ltac:(intros a b c X; apply (L a b c X)) ltac:(eapply Z.le_trans; [apply Z.eq_le_incl; exact E|]; rewrite <- Es, Sz; apply Z.le_refl) i j l Hl)|]. intros x Hx. apply (Rb i j). exists l. split; assumption.
  - intros x Hx. apply in_flat_map in Hx. destruct Hx as ([[i j] l] & H1 & H2). apply (H i j x). exists l. split; assumption.
Qed.

(* row i filled with i *)
Definition superstandard (mu : list Z) : tab :=
  flat_map (fun k => map (fun j => ((Z.of_nat k + 1, j), [Z.of_nat k + 1])) (zrange (Z.of_nat k + 1) (Z.of_nat k + 1 + row mu k))) (seq 0 (length mu)).
Lemma superstandard_In : forall mu i j l, strict_partition mu -> (In ((i, j), l) (superstandard mu) <-> shifted_cell mu i j /\ l = [i]).
Proof.
  intros mu i j l Hm. unfold superstandard. rewrite in_flat_map. split.
  - intros (k & Hk & Hx). apply in_map_iff in Hx. destruct Hx as (j' & E & Hj). injection E as <- <- <-. apply In_zrange in Hj. split; [|reflexivity]. unfold shifted_cell. replace (Z.to_nat (Z.of_nat k + 1 - 1)) with k by lia. lia.
  - intros [Hc ->]. unfold shifted_cell in Hc. exists (Z.to_nat (i - 1)). split.
    + apply in_seq. split; [lia|]. cbn [Nat.add]. destruct (le_lt_dec (length mu) (Z.to_nat (i - 1))) as [G|G]; [|assumption]. assert (E : row mu (Z.to_nat (i - 1)) = 0) by (unfold row; apply nth_overflow; assumption). lia.
    + apply in_map_iff. exists j. replace (Z.of_nat (Z.to_nat (i - 1)) + 1) with i by lia. split; [reflexivity|]. apply In_zrange. lia.
Qed.
Lemma StronglySorted_app : forall A (R : A -> A -> Prop) l1 l2, StronglySorted R l1 -> StronglySorted R l2 -> (forall a b, In a l1 -> In b l2 -> R a b) -> StronglySorted R (l1 ++ l2).
Proof.
  induction l1 as [|x l1 IH]; intros l2 S1 S2 H; [assumption|]. inversion S1 as [|? ? S3 F3]; subst. cbn [app]. constructor.
  - apply IH; [assumption|assumption|]. intros. apply H; [right; assumption|assumption].
  - apply Forall_app. split; [assumption|]. apply Forall_forall. intros b Hb. apply H; [left; reflexivity|assumption].
Qed.
Lemma zrange_sorted : forall a b, StronglySorted Z.lt (zrange a b).
Proof.
  intros a b. unfold zrange. generalize (Z.to_nat (b - a)) as m. intro m. rewrite <- (map_id (map _ _)), map_map. generalize 0%nat. induction m as [|m IH]; intro s; [constructor|]. cbn [seq map]. constructor; [apply IH|].
  apply Forall_forall. intros x Hx. apply in_map_iff in Hx. destruct Hx as (y & <- & Hy). apply in_seq in Hy. lia.
Qed.
Lemma superstandard_sorted : forall mu, StronglySorted before (map fst (superstandard mu)).
Proof.
  intro mu. unfold superstandard. generalize (length mu) as m. generalize 0%nat as s. intros s m. revert s. induction m as [|m IH]; intro s; [constructor|]. cbn [seq flat_map]. rewrite map_app. apply StronglySorted_app.
  - rewrite map_map. cbn [fst]. induction (zrange_sorted (Z.of_nat s + 1) (Z.of_nat s + 1 + row mu s)) as [|x l S1 IH1 F1]; [constructor|]. cbn [map]. constructor; [assumption|]. apply Forall_forall. intros y Hy. apply in_map_iff in Hy. destruct Hy as (z & <- & Hz). rewrite Forall_forall in F1. right. cbn [fst snd]. split; [reflexivity|apply F1; assumption].
  - apply IH.
  - intros a b Ha Hb. rewrite map_map in Ha. apply in_map_iff in Ha. destruct Ha as (j & <- & _). apply in_map_iff in Hb. destruct Hb as ([b' l] & <- & Hb). apply in_flat_map in Hb. destruct Hb as (k & Hk & Hb). apply in_map_iff in Hb. destruct Hb as (j' & E & _). injection E as <- _. apply in_seq in Hk. left. cbn [fst]. lia.
Qed.
Lemma superstandard_tableau : forall pr sv n mu, strict_partition mu -> (length mu <= n)%nat -> tableau_of shifted_cell pr sv n mu [] (superstandard mu).
Proof.
  intros pr sv n mu Hm Ln. split; [intros i j X; destruct (no_cell i j X)|].
  assert (Hh : forall i j x, holds (superstandard mu) i j x <-> shifted_cell mu i j /\ x = i).
  { intros i j x. unfold holds. split; [intros (l & H1 & H2); apply superstandard_In in H1; [|assumption]; destruct H1 as [H1 ->]; destruct H2 as [<-|[]]; split; [assumption|reflexivity]|].
    intros [H ->]. exists [i]. split; [apply superstandard_In; [assumption|split; [assumption|reflexivity]]|left; reflexivity]. }
  split; [split; [apply superstandard_sorted|]|split; [|split; [|split; [|split]]]].
  - intros [i j] l Hl. apply superstandard_In in Hl; [|assumption]. destruct Hl as [Hc ->]. unfold shifted_cell in Hc. cbn [fst snd]. split; [lia|]. split; [lia|]. repeat constructor.
  - intros i j. split; [intros (l & Hl); apply superstandard_In in Hl; [|assumption]; split; [apply Hl|apply no_cell]|]. intros [Hc _]. exists [i]. apply superstandard_In; [assumption|]. split; [assumption|reflexivity].
  - intros i j l Hl. apply superstandard_In in Hl; [|assumption]. destruct Hl as [_ ->]. split; [discriminate|]. split; [repeat constructor; intros []|reflexivity].
  - intros i j x Hx. apply Hh in Hx. destruct Hx as [Hc ->]. unfold shifted_cell in Hc. assert ((Z.to_nat (i - 1) < length mu)%nat).
    { destruct (le_lt_dec (length mu) (Z.to_nat (i - 1))) as [G|G]; [|assumption]. assert (E : row mu (Z.to_nat (i - 1)) = 0) by (unfold row; apply nth_overflow; assumption). lia. }
    split; [lia|]. lia.
  - intros i j x y Hx Hy. apply Hh in Hx, Hy. destruct Hx as [Hc ->], Hy as [_ ->]. unfold shifted_cell in Hc. right. lia.
  - intros i j x y Hx Hy. apply Hh in Hx, Hy. destruct Hx as [Hc ->], Hy as [_ ->]. unfold shifted_cell in Hc. left. lia.
Qed.
Lemma superstandard_weight : forall mu, strict_partition mu -> has_weight mu (superstandard mu).
Proof.
  intros mu Hm m. unfold occurrences. change (nth m mu 0) with (row mu m). unfold superstandard.
  assert (X : forall c s, Z.of_nat (length (filter (fun x => Z.abs x =? Z.of_nat m + 1) (flat_map snd (flat_map (fun k => map (fun j => ((Z.of_nat k + 1, j), [Z.of_nat k + 1])) (zrange (Z.of_nat k + 1) (Z.of_nat k + 1 + row mu k))) (seq s c)))))
    = if ((s <=? m) && (m <? s + c))%nat then row mu m else 0).
  { assert (N0 : forall k, 0 <= row mu k) by (intro k; apply partition_nonneg, strict_is_partition, Hm).
    induction c as [|c IH]; intro s.
    - cbn [seq flat_map filter length]. destruct (Nat.leb_spec s m), (Nat.ltb_spec m (s + 0)); cbn [andb]; lia.
    - cbn [seq flat_map]. rewrite flat_map_app, filter_app, app_length, Nat2Z.inj_add, IH.
      assert (Y : Z.of_nat (length (filter (fun x => Z.abs x =? Z.of_nat m + 1) (flat_map snd (map (fun j => ((Z.of_nat s + 1, j), [Z.of_nat s + 1])) (zrange (Z.of_nat s + 1) (Z.of_nat s + 1 + row mu s)))))) = if Nat.eqb s m then row mu s else 0).
      { assert (Zl : length (zrange (Z.of_nat s + 1) (Z.of_nat s + 1 + row mu s)) = Z.to_nat (row mu s)) by (unfold zrange; rewrite map_length, seq_length; f_equal; lia).
        assert (Q : forall l : list Z, length (filter (fun x => Z.abs x =? Z.of_nat m + 1) (flat_map snd (map (fun j => ((Z.of_nat s + 1, j), [Z.of_nat s + 1])) l))) = if Nat.eqb s m then length l else 0%nat).
        { induction l as [|a l IHl]; [destruct (Nat.eqb s m); reflexivity|]. cbn [map flat_map snd app filter]. destruct (Nat.eqb_spec s m) as [E|E], (Z.eqb_spec (Z.abs (Z.of_nat s + 1)) (Z.of_nat m + 1)) as [E'|E']; try lia; cbn [length]; rewrite IHl; reflexivity. }
        rewrite Q, Zl. specialize (N0 s). destruct (Nat.eqb s m); lia. }
      rewrite Y. destruct (Nat.eqb_spec s m) as [E|E]; [subst s|]; destruct (Nat.leb_spec (S m) m); try lia; repeat match goal with |- context [(?a <=? ?b)%nat] => destruct (Nat.leb_spec a b) | |- context [(?a <? ?b)%nat] => destruct (Nat.ltb_spec a b) end; cbn [andb]; try lia. }
  etransitivity; [exact (X (length mu) 0%nat)|]. cbn [Nat.leb andb Nat.add]. destruct (Nat.ltb_spec m (length mu)); [reflexivity|]. unfold row. rewrite nth_overflow by assumption. reflexivity.
Qed.
