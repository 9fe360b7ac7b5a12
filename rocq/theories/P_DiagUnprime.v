(* C104: set-valued column insertion and unpriming the diagonal *)
From Coq Require Import List ZArith Bool Lia Permutation Sorted.
From Verif Require Import PyBase M_Partitions S_Tableaux M_Tableaux L_Tableaux S_Semistandard S_Standardize M_DiagUnprime S_DiagUnprime L_DiagUnprime1 L_DiagUnprime2 L_DiagUnprime3 L_DiagUnprime4 L_DiagUnprime5.
From Verif Require L_Insertion3 L_Insertion4.
Import ListNotations.
Local Open Scope Z_scope.

Lemma look_occ : forall t i j, well_formed t -> (tlookup t (i, j) <> None <-> occupied t i j).
Proof.
  intros t i j [W _]. split.
  - intro H. destruct (tlookup t (i, j)) as [l|] eqn:E; [|congruence]. exists l. apply tlookup_In. exact E.
  - intros (l & H) E. rewrite (In_tlookup _ _ _ W H) in E. discriminate.
Qed.
Lemma lettered_nonempty : forall t, lettered t -> nonempty t.
Proof. intros t (W & N & _) c l H. apply (N c l). apply tlookup_In. exact H. Qed.
Lemma lettered_flat : forall t x, lettered t -> In x (flat_map snd t) -> x <> 0.
Proof. intros t x (_ & _ & Z0) H. apply in_flat_map in H. destruct H as ([[i j] l] & H & Hx). apply (Z0 i j x). exists l. split; assumption. Qed.
Lemma make_lettered : forall t, well_formed t -> nonempty t -> (forall x, In x (flat_map snd t) -> x <> 0) -> lettered t.
Proof.
  intros t W N Z0. split; [exact W|]. split; [intros c l H; apply (N c l); apply In_tlookup; [apply W|exact H]|]. intros i j x (l & H & Hx). apply Z0. apply in_flat_map. exists ((i, j), l). split; assumption.
Qed.

Definition olist (o : option (list Z)) : list Z := match o with Some l => l | None => [] end.
Lemma insert_ok : forall (t : tab) s col, lettered t -> s <> [] -> Forall (fun x => x <> 0) s -> 0 < col ->
  exists u o, setvalued_column_insert t s col = Ok (u, o) /\ lettered u /\ Forall (fun x => x <> 0) (olist o) /\
    (forall i j, j <> col -> tlookup u (i, j) = tlookup t (i, j)) /\
    (forall i j, tlookup t (i, j) <> None -> tlookup u (i, j) <> None) /\
    (forall i, tlookup t (i, col) = None -> tlookup u (i, col) <> None -> 1 <= i /\ forall k, 1 <= k < i -> tlookup t (k, col) <> None) /\
    Permutation (flat_map snd t ++ s) (flat_map snd u ++ olist o) /\
    (o = None <-> tlookup t (1, col) = None) /\ (o = None -> tlookup u (1, col) = Some (sorted s)).
Proof.
  intros t s col LT NS ZS Hc. pose proof (lettered_nonempty t LT) as NE. pose proof LT as (W & _).
  assert (ZZ : forall (u : tab) o, Permutation (flat_map snd t ++ s) (flat_map snd u ++ o) -> (forall x, In x (flat_map snd u) -> x <> 0) /\ Forall (fun x => x <> 0) o).
  { intros u o P. assert (Q : forall x, In x (flat_map snd u ++ o) -> x <> 0).
    { intros x Hx. apply (Permutation_in _ (Permutation_sym P)) in Hx. apply in_app_or in Hx. destruct Hx as [Hx|Hx]; [exact (lettered_flat t x LT Hx)|]. rewrite Forall_forall in ZS. exact (ZS x Hx). }
    split; [intros x Hx; apply Q; apply in_or_app; left; exact Hx|apply Forall_forall; intros x Hx; apply Q; apply in_or_app; right; exact Hx]. }
  destruct (tlookup t (1, col)) as [l1|] eqn:E1.
  - destruct (insert_shape t s col W NE NS Hc) as (n & bound & boxes & boxes' & ans & u & _ & Hn & PR & EN & _ & _ & _ & _ & _ & LE & _ & _ & EI & Wu & NU & LU & PM); [congruence|].
    exists u, (Some (decode ans)). destruct (ZZ u (decode ans) PM) as [Z1 Z2]. split; [exact EI|]. split; [apply make_lettered; assumption|]. split; [exact Z2|].
    assert (ZB : zlen boxes' = Z.of_nat n \/ zlen boxes' = Z.of_nat n + 1) by (unfold zlen; lia).
    split; [intros i j Hj; rewrite LU; rewrite (proj2 (Z.eqb_neq j col)) by exact Hj; reflexivity|].
    split; [|split; [|split; [exact PM|split; [split; discriminate|discriminate]]]].
    + intros i j H. rewrite LU. destruct ((j =? col) && ((0 <? i) && (i <=? zlen boxes'))) eqn:EB; [|exact H]. rewrite !andb_true_iff, Z.ltb_lt, Z.leb_le in EB.
      destruct (nth_error boxes' (Z.to_nat (i - 1))) eqn:X; [discriminate|]. apply nth_error_None in X. unfold zlen in EB. lia.
    + intros i A B. rewrite LU, Z.eqb_refl in B. cbn [andb] in B. destruct ((0 <? i) && (i <=? zlen boxes')) eqn:EB; [|congruence]. rewrite andb_true_iff, Z.ltb_lt, Z.leb_le in EB. split; [lia|]. intros k Hk. apply PR. lia.
  - exists (tput (1, col) (sorted s) t), None. assert (P1 : positive (1, col)) by (split; cbn [fst snd]; lia).
    pose proof (tput_wf t (1, col) (sorted s) W P1 (sorted_increasing s)) as W1.
    assert (PM : Permutation (flat_map snd t ++ s) (flat_map snd (tput (1, col) (sorted s) t) ++ [])).
    { apply perm_count. intro z. pose proof (put_count t (1, col) (sorted s) z W) as C. unfold old in C. rewrite E1 in C. change (cnt [] z) with 0%nat in C. rewrite !count_occ_app. change (cnt [] z) with 0%nat. rewrite (proj1 (Permutation_count_occ Z.eq_dec _ _) (sorted_perm s) z). unfold tab, box in *. lia. }
    destruct (ZZ _ [] PM) as [Z1 Z2].
    assert (LK : forall i j, tlookup (tput (1, col) (sorted s) t) (i, j) = if box_eqb (1, col) (i, j) then Some (sorted s) else tlookup t (i, j)) by (intros; apply tlookup_tput; apply W).
    split; [unfold setvalued_column_insert, tmem; rewrite E1; cbn [negb]; rewrite tset_put; [reflexivity|exact W|lia|exact Hc|apply sorted_increasing]|].
    split; [apply make_lettered; [exact W1| |exact Z1]|].
    { intros [i j] l H. rewrite LK in H. destruct (box_eqb (1, col) (i, j)); [injection H as <-|exact (NE _ _ H)]. intro X. pose proof (sorted_perm s) as Q. rewrite X in Q. apply Permutation_sym, Permutation_nil in Q. exact (NS Q). }
    split; [exact Z2|]. split; [intros i j Hj; rewrite LK; rewrite (proj2 (box_eqb_neq (1, col) (i, j))) by congruence; reflexivity|].
    split; [intros i j H; rewrite LK; destruct (box_eqb (1, col) (i, j)); [discriminate|exact H]|].
    split; [|split; [exact PM|split; [tauto|intros _; rewrite LK, box_eqb_refl; reflexivity]]].
    intros i A B. rewrite LK in B. destruct (box_eqb (1, col) (i, col)) eqn:EB; [|congruence]. apply box_eqb_eq in EB. injection EB as <-. split; [lia|]. intros k Hk. lia.
Qed.

(* set-valued column insertion never raises; it changes one column, keeps the cells, adds at most the next cell of the column, and loses no letter *)
Theorem C104_insert : forall (t : tab) s col, lettered t -> s <> [] -> Forall (fun x => x <> 0) s -> 0 < col ->
  exists u o, setvalued_column_insert t s col = Ok (u, o) /\ lettered u /\
    (forall i j l, j <> col -> In ((i, j), l) u <-> In ((i, j), l) t) /\
    (forall i j, occupied t i j -> occupied u i j) /\
    (forall i, occupied u i col -> ~ occupied t i col -> 1 <= i /\ forall k, 1 <= k < i -> occupied t k col) /\
    match o with
    | None => ~ occupied t 1 col /\ In ((1, col), sorted s) u /\ Permutation (flat_map snd t ++ s) (flat_map snd u)
    | Some b => occupied t 1 col /\ Forall (fun x => x <> 0) b /\ Permutation (flat_map snd t ++ s) (flat_map snd u ++ b)
    end.
Proof.
  intros t s col LT NS ZS Hc. destruct (insert_ok t s col LT NS ZS Hc) as (u & o & E & LU & ZO & A & B & C & P & D & F). exists u, o. pose proof LT as (W & _). pose proof LU as (Wu & _).
  split; [exact E|]. split; [exact LU|]. split.
  - intros i j l Hj. specialize (A i j Hj). split; intro H; apply tlookup_In; [rewrite <- A|rewrite A]; apply In_tlookup; [apply Wu|exact H|apply W|exact H].
  - split; [intros i j H; apply (look_occ u i j Wu), B, (look_occ t i j W), H|]. split.
    + intros i H1 H2. destruct (C i) as [C1 C2].
      * destruct (tlookup t (i, col)) eqn:X; [|reflexivity]. exfalso. apply H2, (look_occ t i col W). congruence.
      * apply (look_occ u i col Wu). exact H1.
      * split; [exact C1|]. intros k Hk. apply (look_occ t k col W), C2, Hk.
    + destruct o as [b|]; cbn [olist] in *.
      * split; [|split; assumption]. apply (look_occ t 1 col W). intro X. apply D in X. discriminate.
      * split; [|split; [apply tlookup_In; apply F; reflexivity|rewrite app_nil_r in P; exact P]]. intro X. apply (look_occ t 1 col W) in X. apply X. apply D. reflexivity.
Qed.
Print Assumptions C104_insert.

(* set-valued column insertion keeps an ordered column ordered, and the letters it passes on have no repeated unprimed letter *)
Theorem C104_column : forall (t : tab) s col, lettered t -> s <> [] -> Forall (fun x => x <> 0) s -> 0 < col -> ordered_column t col -> unprimed_once s ->
  exists u o, setvalued_column_insert t s col = Ok (u, o) /\ ordered_column u col /\ match o with None => True | Some b => unprimed_once b end.
Proof.
  intros t s col LT NS ZS Hc (OC1 & OC2 & OC3) US. destruct (insert_ok t s col LT NS ZS Hc) as (u & o & E & LTU & ZO & UA & UB & UC & UP & UD & UF). exists u, o. split; [exact E|].
  pose proof LT as (W & NEL & ZT). pose proof LTU as (Wu & _ & ZU). pose proof (lettered_nonempty t LT) as NE.
  destruct (tlookup t (1, col)) as [l1|] eqn:E1.
  - destruct (insert_shape t s col W NE NS Hc) as (n & bound & boxes & boxes' & ans & u' & EB & Hn & PR & EN & LBD & LB & GB & FB & EA & LE & NB' & PA & EI & _ & _ & LU & PM); [congruence|].
    rewrite E in EI. injection EI as <- ->.
    assert (NTH : forall a b, nth_error boxes a = Some b -> exists l, In ((Z.of_nat a + 1, col), l) t /\ b = encode l).
    { intros a b H. assert (Ha : (a < n)%nat) by (rewrite <- LB; apply nth_error_Some; congruence). rewrite EB, nth_zrange in H by exact Ha. injection H as <-. unfold old.
      destruct (tlookup t (Z.of_nat a + 1, col)) as [l|] eqn:X; [exists l; split; [apply tlookup_In; exact X|reflexivity]|]. exfalso. apply (PR (Z.of_nat a + 1)); [lia|exact X]. }
    assert (NZ : forall i l, In ((i, col), l) t -> Forall (fun x => x <> 0) l) by (intros i l H; apply Forall_forall; intros x Hx; apply (ZT i col x); exists l; split; assumption).
    assert (SB : StronglySorted cord (concat boxes)).
    { apply concat_sorted. split.
      - intros a b H. destruct (NTH a b H) as (l & Hl & ->). apply encode_sorted; [exact (NZ _ _ Hl)|exact (OC3 _ _ Hl)].
      - intros a b l m x y Hab Ha Hb Hx Hy. destruct (NTH a l Ha) as (l0 & Hl & ->). destruct (NTH b m Hb) as (m0 & Hm & ->). apply encode_In in Hx. apply encode_In in Hy. destruct Hx as (x0 & -> & Hx). destruct Hy as (y0 & -> & Hy).
        pose proof (NZ _ _ Hl) as N1. pose proof (NZ _ _ Hm) as N2. rewrite Forall_forall in N1, N2. apply cord_code; [exact (N1 _ Hx)|exact (N2 _ Hy)|]. apply (OC2 (Z.of_nat a + 1) (Z.of_nat b + 1)); [lia|exists l0; split; assumption|exists m0; split; assumption]. }
    assert (SV : StronglySorted cord (flat_map snd (find_bumps boxes (encode s)))) by (rewrite FB; apply encode_sorted; assumption).
    destruct (bumps_sorted boxes bound _ LBD GB SB SV boxes' ans EA) as (S1 & S2 & _).
    assert (CD : forall z, In z (concat boxes' ++ ans) -> exists x, z = code x).
    { intros z Hz. apply (Permutation_in _ (Permutation_sym PA)) in Hz. apply in_app_or in Hz. destruct Hz as [Hz|Hz].
      - apply in_concat in Hz. destruct Hz as (b & Hb & Hz). apply In_nth_error in Hb. destruct Hb as (a & Ha). destruct (NTH a b Ha) as (l & _ & ->). apply encode_In in Hz. destruct Hz as (x & -> & _). exists x. reflexivity.
      - apply encode_In in Hz. destruct Hz as (x & -> & _). exists x. reflexivity. }
    assert (CB : forall a b, nth_error boxes' a = Some b -> StronglySorted cord b /\ encode (decode b) = b).
    { intros a b H. pose proof (proj1 (proj1 (concat_sorted _ _) S1) a b H) as SBb. split; [exact SBb|]. apply decode_encode; [apply cord_increasing; exact SBb|]. intros z Hz. apply CD. apply in_or_app. left. apply in_concat. exists b. split; [exact (nth_error_In _ _ H)|exact Hz]. }
    assert (ZB : zlen boxes' = Z.of_nat n \/ zlen boxes' = Z.of_nat n + 1) by (unfold zlen; lia).
    assert (COL : forall i l, In ((i, col), l) u -> 1 <= i <= zlen boxes' /\ exists b, nth_error boxes' (Z.to_nat (i - 1)) = Some b /\ l = decode b).
    { intros i l H. pose proof (proj2 Wu _ _ H) as (Hi & _). cbn [fst] in Hi. apply In_tlookup in H; [|apply Wu]. rewrite LU, Z.eqb_refl in H. cbn [andb] in H. rewrite (proj2 (Z.ltb_lt 0 i)) in H by exact Hi. cbn [andb] in H. destruct (Z.leb_spec i (zlen boxes')) as [Hl|Hl].
      - split; [lia|]. destruct (nth_error boxes' (Z.to_nat (i - 1))) as [b|]; [|discriminate]. injection H as <-. exists b. split; reflexivity.
      - exfalso. assert (OI : occupied t i col) by (exists l; apply tlookup_In; exact H). assert (ON : occupied t (Z.of_nat n + 1) col) by (apply (OC1 (Z.of_nat n + 1) i); [lia|exact OI]). apply (look_occ t _ _ W) in ON. congruence. }
    split; [split; [|split]|].
    + intros i i' Hi (l & H). destruct (COL i' l H) as [Hi' _]. apply (look_occ u i col Wu). rewrite LU, Z.eqb_refl. rewrite (proj2 (Z.ltb_lt 0 i)), (proj2 (Z.leb_le i (zlen boxes'))) by lia. cbn [andb].
      destruct (nth_error boxes' (Z.to_nat (i - 1))) eqn:X; [discriminate|]. apply nth_error_None in X. unfold zlen in Hi'. lia.
    + intros i i' x y Hi (l & Hl & Hx) (m & Hm & Hy). destruct (COL i l Hl) as (R1 & b & Hb & ->). destruct (COL i' m Hm) as (R2 & b' & Hb' & ->).
      apply cord_code; [apply (ZU i col x); exists (decode b); split; assumption|apply (ZU i' col y); exists (decode b'); split; assumption|].
      apply (proj2 (proj1 (concat_sorted _ _) S1) (Z.to_nat (i - 1)) (Z.to_nat (i' - 1)) b b'); [lia|exact Hb|exact Hb'| |].
      * rewrite <- (proj2 (CB _ _ Hb)). apply In_encode. exact Hx.
      * rewrite <- (proj2 (CB _ _ Hb')). apply In_encode. exact Hy.
    + intros i l Hl. pose proof Hl as Hl0. destruct (COL i l Hl) as (R1 & b & Hb & ->). destruct (CB _ _ Hb) as [Q1 Q2]. apply encode_sorted; [apply Forall_forall; intros x Hx; apply (ZU i col x); exists (decode b); split; assumption|]. rewrite Q2. exact Q1.
    + apply encode_sorted; [exact ZO|]. rewrite decode_encode; [exact S2|apply cord_increasing; exact S2|]. intros z Hz. apply CD. apply in_or_app. right. exact Hz.
  - assert (o = None) by (apply UD; reflexivity). subst o. split; [|exact I].
    assert (NOC : forall i, ~ occupied t i col). { intros i H. pose proof H as (l & Hl). apply (proj2 W) in Hl. cbn [fst] in Hl. assert (X : occupied t 1 col) by (apply (OC1 1 i); [lia|exact H]). apply (look_occ t 1 col W) in X. congruence. }
    assert (ONE : forall i l, In ((i, col), l) u -> i = 1 /\ l = sorted s).
    { intros i l H. apply In_tlookup in H; [|apply Wu]. assert (Hi : i = 1).
      { destruct (UC i) as [A B]; [|congruence|].
        - destruct (tlookup t (i, col)) eqn:X; [|reflexivity]. exfalso. apply (NOC i), (look_occ t i col W). congruence.
        - destruct (Z.eq_dec i 1) as [|N]; [assumption|]. exfalso. apply (B 1); [lia|exact E1]. }
      subst i. rewrite (UF eq_refl) in H. injection H as <-. split; reflexivity. }
    split; [|split].
    + intros i i' Hi (l & H). destruct (ONE i' l H) as [-> ->]. replace i with 1 by lia. exists (sorted s). exact H.
    + intros i i' x y Hi (l & Hl & _) (m & Hm & _). destruct (ONE i l Hl) as [-> _]. destruct (ONE i' m Hm) as [-> _]. lia.
    + intros i l H. destruct (ONE i l H) as [-> ->]. intros x Hx. rewrite <- (proj1 (Permutation_count_occ Z.eq_dec _ _) (sorted_perm s) x). exact (US x Hx).
Qed.
Print Assumptions C104_column.

Lemma insert_all_ok : forall n fuel (t : tab) v j, (n < fuel)%nat -> lettered t -> Forall (fun x => x <> 0) v -> 0 < j ->
  (forall m, (m < n)%nat -> tlookup t (1, j + Z.of_nat m) <> None) -> tlookup t (1, j + Z.of_nat n) = None ->
  exists u, insert_all fuel t (Some v) j = Ok u /\ lettered u /\ (forall a b, b < j -> tlookup u (a, b) = tlookup t (a, b)) /\
    (forall a b, tlookup t (a, b) <> None -> tlookup u (a, b) <> None) /\ Permutation (flat_map snd t ++ v) (flat_map snd u).
Proof.
  assert (NIL : forall fuel (t : tab) j, lettered t -> exists u, insert_all fuel t (Some []) j = Ok u /\ lettered u /\ (forall a b, b < j -> tlookup u (a, b) = tlookup t (a, b)) /\
    (forall a b, tlookup t (a, b) <> None -> tlookup u (a, b) <> None) /\ Permutation (flat_map snd t ++ []) (flat_map snd u)).
  { intros fuel t j LT. exists t. split; [destruct fuel; reflexivity|]. split; [exact LT|]. split; [reflexivity|]. split; [tauto|]. rewrite app_nil_r. apply Permutation_refl. }
  induction n as [|n IH]; intros fuel t v j Hf LT ZV Hj PR AB; (destruct v as [|v0 v]; [apply NIL; exact LT|]); (destruct fuel as [|fuel]; [lia|]); cbn [insert_all];
    destruct (insert_ok t (v0 :: v) j LT ltac:(discriminate) ZV Hj) as (u & o & E & LU & ZO & A & B & C & P & D & F); rewrite E; cbn [rbind fst snd].
  - rewrite Z.add_0_r in AB. apply D in AB. subst o. exists u. split; [destruct fuel; reflexivity|]. split; [exact LU|]. split; [intros a b Hb; apply A; lia|]. split; [exact B|]. cbn [olist] in P. rewrite app_nil_r in P. exact P.
  - destruct o as [o|]. 2: { exfalso. apply (PR 0%nat); [lia|]. rewrite Z.add_0_r. apply D. reflexivity. } cbn [olist] in *.
    destruct (IH fuel u o (j + 1) ltac:(lia) LU ZO ltac:(lia)) as (u2 & E2 & L2 & A2 & B2 & P2).
    + intros m Hm. rewrite A by lia. replace (j + 1 + Z.of_nat m) with (j + Z.of_nat (S m)) by lia. apply PR. lia.
    + rewrite A by lia. replace (j + 1 + Z.of_nat n) with (j + Z.of_nat (S n)) by lia. exact AB.
    + exists u2. split; [exact E2|]. split; [exact L2|]. split; [intros a b Hb; rewrite A2 by lia; apply A; lia|]. split; [intros a b H; apply B2, B, H|].
      eapply Permutation_trans; [exact P|exact P2].
Qed.

Lemma unprime_box_ok : forall (t : tab) i u, lettered t -> 0 < i -> tlookup t (i, i) = Some u ->
  exists t1, unprime_box t i u = Ok t1 /\ lettered t1 /\ (forall a b, b < i \/ (b = i /\ a <> i) -> tlookup t1 (a, b) = tlookup t (a, b)) /\
    (forall a b, tlookup t (a, b) <> None -> tlookup t1 (a, b) <> None) /\ (exists l, tlookup t1 (i, i) = Some l /\ settled l) /\
    Permutation (map Z.abs (flat_map snd t)) (map Z.abs (flat_map snd t1)) /\ (forall a, 0 < a -> (cnt (flat_map snd t1) (- a) <= cnt (flat_map snd t) (- a))%nat) /\
    (settled u -> t1 = t).
Proof.
  intros t i u LT Hi LK. pose proof LT as (W & NEL & ZT). pose proof (lettered_nonempty t LT) as NE.
  pose proof (NE _ _ LK) as UN. destruct (wf_lookup _ _ _ W LK) as [_ UI].
  assert (UZ : Forall (fun x => x <> 0) u) by (apply Forall_forall; intros x Hx; apply (ZT i i x); exists u; split; [apply tlookup_In; exact LK|exact Hx]).
  assert (SAME : settled u -> exists t1, Ok t = Ok t1 /\ lettered t1 /\ (forall a b, b < i \/ (b = i /\ a <> i) -> tlookup t1 (a, b) = tlookup t (a, b)) /\
    (forall a b, tlookup t (a, b) <> None -> tlookup t1 (a, b) <> None) /\ (exists l, tlookup t1 (i, i) = Some l /\ settled l) /\
    Permutation (map Z.abs (flat_map snd t)) (map Z.abs (flat_map snd t1)) /\ (forall a, 0 < a -> (cnt (flat_map snd t1) (- a) <= cnt (flat_map snd t) (- a))%nat) /\ (settled u -> t1 = t)).
  { intro S. exists t. split; [reflexivity|]. split; [exact LT|]. split; [reflexivity|]. split; [tauto|]. split; [exists u; split; assumption|]. split; [apply Permutation_refl|]. split; [intros; lia|reflexivity]. }
  unfold unprime_box. pose proof (In_v u) as IV. pose proof (In_w u) as IW. pose proof (vw_perm u UZ) as VW. pose proof (settled_none u UZ) as SN. pose proof (settled_one u UI UZ UN) as SO. pose proof (settled_inv u) as SI. pose proof (moved u UZ) as MV. cbv zeta in *.
  set (v := sorted (map Z.opp (filter (fun x => x <? 0) u))) in *. set (w := sorted (filter (fun x => 0 <? x) u)) in *. clearbody v w.
  destruct ((1 <? zlen u) && match zmin u with Some m => m <? 0 | None => false end) eqn:EC.
  2: { apply SAME. apply andb_false_iff in EC. destruct EC as [EC|EC].
    - apply Z.ltb_ge in EC. unfold zlen in EC. destruct u as [|x [|y u']]; [congruence| |cbn [length] in EC; lia]. apply Forall_inv in UZ. destruct (Z.lt_ge_cases x 0).
      + right. exists (- x), []. split; [rewrite Z.opp_involutive; reflexivity|intros y []].
      + left. intros y [<-|[]]. lia.
    - left. intros x Hx. rewrite Forall_forall in UZ. specialize (UZ x Hx). destruct (L_Insertion4.zmin_spec u x Hx) as (m & Em & _ & Hm). rewrite Em in EC. apply Z.ltb_ge in EC. specialize (Hm x Hx). lia. }
  apply andb_true_iff in EC. destruct EC as [EC1 EC2]. apply Z.ltb_lt in EC1.
  assert (VN : v <> []).
  { destruct u as [|x u'] eqn:EU; [congruence|]. destruct (L_Insertion4.zmin_spec (x :: u') x (or_introl eq_refl)) as (m & Em & Im & _). rewrite Em in EC2. apply Z.ltb_lt in EC2. intro X. assert (H : In (- m) v) by (apply IV; split; [lia|rewrite Z.opp_involutive; exact Im]). rewrite X in H. destruct H. }
  destruct v as [|v0 v'] eqn:EV; [congruence|]. clear VN.
  assert (SM : exists small, (if zlen (v0 :: v') =? 1 then match zmax w with Some m => Ok (m <? v0) | None => Err ValueError end else Ok false) = Ok small /\ (small = true <-> settled u)).
  { destruct (Z.eqb_spec (zlen (v0 :: v')) 1) as [L1|L1].
    - assert (v' = []) by (unfold zlen in L1; cbn [length] in L1; destruct v'; [reflexivity|cbn [length] in L1; lia]). subst v'.
      destruct w as [|w0 w'] eqn:EW; [exfalso; apply Permutation_length in VW; cbn in VW; unfold zlen in EC1; lia|]. destruct (L_Insertion3.zmax_spec (w0 :: w') w0 (or_introl eq_refl)) as (m & Em & Im & Hm). rewrite Em. exists (m <? v0). split; [reflexivity|]. rewrite Z.ltb_lt. split.
      + intro H. apply (SO v0 eq_refl). intros x Hx. specialize (Hm x Hx). lia.
      + intro S. destruct (SI S ltac:(discriminate)) as (a & Ea & Ha). injection Ea as <-. apply Ha. exact Im.
    - exists false. split; [reflexivity|]. split; [discriminate|]. intro S. destruct (SI S ltac:(discriminate)) as (a & Ea & _). exfalso. apply L1. rewrite Ea. reflexivity. }
  destruct SM as (small & -> & SS). cbn [rbind]. destruct small; [apply SAME; apply SS; reflexivity|].
  assert (NSU : ~ settled u) by (intro X; apply SS in X; discriminate).
  destruct (MV v0 v' eq_refl) as (P0 & NN & NP & ZA & X & PX1 & PX2).
  set (newvalue := sorted (v0 :: filter (fun x => x <? v0) w)) in *. set (addvalue := sorted (map Z.opp v' ++ filter (fun x => v0 <=? x) w)) in *.
  assert (NI : increasing newvalue) by apply sorted_increasing. clearbody newvalue addvalue.
  rewrite tset_put by (assumption || lia). cbn [rbind]. assert (PI : positive (i, i)) by (split; exact Hi).
  set (t0 := tput (i, i) newvalue t). pose proof (tput_wf t (i, i) newvalue W PI NI) as W0. fold t0 in W0.
  assert (LK0 : forall a b, tlookup t0 (a, b) = if box_eqb (i, i) (a, b) then Some newvalue else tlookup t (a, b)) by (intros; apply tlookup_tput; apply W).
  assert (CT : forall z, (cnt (flat_map snd t0) z + cnt u z = cnt (flat_map snd t) z + cnt newvalue z)%nat). { intro z. pose proof (put_count t (i, i) newvalue z W) as Q. unfold old in Q. rewrite LK in Q. exact Q. }
  assert (P00 : Permutation (flat_map snd t0 ++ u) (flat_map snd t ++ newvalue)) by (apply perm_count; intro z; rewrite !count_occ_app; apply CT).
  assert (LT0 : lettered t0).
  { apply make_lettered; [exact W0| |].
    - intros [a b] l H. rewrite LK0 in H. destruct (box_eqb (i, i) (a, b)); [injection H as <-; exact NN|exact (NE _ _ H)].
    - intros x Hx. assert (H : In x (flat_map snd t ++ newvalue)) by (apply (Permutation_in _ P00); apply in_or_app; left; exact Hx). apply in_app_or in H. destruct H as [H|H]; [exact (lettered_flat t x LT H)|specialize (NP x H); lia]. }
  destruct (run_ends t0 (fun m => (1, i + 1 + Z.of_nat m))) as (n & Hn & EN & EP). { intros a b E. apply (f_equal snd) in E. cbn [snd] in E. lia. }
  destruct (insert_all_ok n (S (S (length t0))) t0 addvalue (i + 1)) as (t1 & E1 & L1 & A1 & B1 & P1); [unfold tab, box in *; lia|exact LT0|exact ZA|lia|exact EP|exact EN|].
  exists t1. split; [exact E1|]. split; [exact L1|].
  assert (PM : Permutation (flat_map snd t1 ++ u) (flat_map snd t ++ v0 :: X)).
  { apply perm_count. intro z. rewrite !count_occ_app. pose proof (proj1 (Permutation_count_occ Z.eq_dec _ _) P1 z) as Q1. rewrite count_occ_app in Q1. pose proof (proj1 (Permutation_count_occ Z.eq_dec _ _) PX1 z) as Q2. rewrite count_occ_app in Q2. specialize (CT z). unfold tab, box in *. lia. }
  assert (PN : Permutation (flat_map snd t1 ++ - v0 :: X) (flat_map snd t ++ v0 :: X)) by (eapply Permutation_trans; [apply Permutation_app_head, Permutation_sym; exact PX2|exact PM]).
  split; [|split; [|split; [|split; [|split]]]].
  - intros a b Hb. rewrite A1 by lia. rewrite LK0. rewrite (proj2 (box_eqb_neq (i, i) (a, b))); [reflexivity|]. intro Y. injection Y as Y1 Y2. lia.
  - intros a b H. apply B1. rewrite LK0. destruct (box_eqb (i, i) (a, b)); [discriminate|exact H].
  - exists newvalue. split; [rewrite A1, LK0, box_eqb_refl by lia; reflexivity|left; exact NP].
  - apply Permutation_sym. apply (Permutation_map Z.abs) in PN. rewrite !map_app in PN. cbn [map] in PN. rewrite Z.abs_opp in PN. apply Permutation_app_inv_r in PN. exact PN.
  - intros a Ha. pose proof (proj1 (Permutation_count_occ Z.eq_dec _ _) PN (- a)) as Q. rewrite !count_occ_app in Q. cbn [count_occ] in Q. destruct (Z.eq_dec v0 (- a)); [lia|]. destruct (Z.eq_dec (- v0) (- a)); lia.
  - intro S. contradiction.
Qed.

Lemma cells_content : forall t, lettered t -> (length t <= length (flat_map snd t))%nat.
Proof.
  intros t (_ & N & _). induction t as [|[c l] t IH]; [apply le_n|]. cbn [length flat_map snd]. rewrite app_length. assert (l <> []) by (apply (N c l); left; reflexivity). specialize (IH (fun c l H => N c l (or_intror H))). destruct l; [congruence|cbn [length] in *; lia].
Qed.
Lemma diagonal_bound : forall t n, lettered t -> (forall k, 1 <= k <= Z.of_nat n -> tlookup t (k, k) <> None) -> (n <= length (flat_map snd t))%nat.
Proof.
  intros t n LT H. pose proof (cells_content t LT) as C. destruct (run_ends t (fun m => (1 + Z.of_nat m, 1 + Z.of_nat m))) as (m & Hm & E & _). { intros a b E. apply (f_equal snd) in E. cbn [snd] in E. lia. }
  destruct (Nat.le_gt_cases n m); [exact (Nat.le_trans _ _ _ H0 (Nat.le_trans _ _ _ Hm C))|]. exfalso. apply (H (1 + Z.of_nat m)); [lia|exact E].
Qed.

Lemma unprime_loop_ok : forall fuel (t : tab) i, lettered t -> 1 <= i -> (forall k, 1 <= k < i -> exists l, tlookup t (k, k) = Some l /\ settled l) ->
  (length (flat_map snd t) < fuel + Z.to_nat (i - 1))%nat ->
  exists u, unprime_loop fuel t i = Ok u /\ lettered u /\ (forall a b, b < i -> tlookup u (a, b) = tlookup t (a, b)) /\ (forall a b, tlookup t (a, b) <> None -> tlookup u (a, b) <> None) /\
    Permutation (map Z.abs (flat_map snd t)) (map Z.abs (flat_map snd u)) /\ (forall a, 0 < a -> (cnt (flat_map snd u) (- a) <= cnt (flat_map snd t) (- a))%nat) /\
    (forall k l, diagonal_to u k -> In ((k, k), l) u -> settled l) /\
    ((forall k l, diagonal_to t k -> In ((k, k), l) t -> settled l) -> u = t).
Proof.
  induction fuel as [|fuel IH]; intros t i LT Hi DG HF; pose proof LT as (W & _).
  all: destruct (tlookup t (i, i)) as [l|] eqn:EL.
  2, 4: exists t; split; [cbn [unprime_loop]; rewrite EL; reflexivity|]; split; [exact LT|]; split; [reflexivity|]; split; [tauto|]; split; [apply Permutation_refl|]; split; [intros; lia|]; split; [|reflexivity];
    intros k m Dk Hm; destruct (Z.lt_ge_cases k i) as [L|L]; [pose proof (proj1 (proj2 W _ _ Hm)) as Hk; cbn [fst] in Hk; destruct (DG k ltac:(lia)) as (m' & E & S); apply In_tlookup in Hm; [|apply W]; rewrite E in Hm; injection Hm as <-; exact S
      |exfalso; specialize (Dk i ltac:(lia)); apply (look_occ t i i W) in Dk; congruence].
  - exfalso. assert (Z.to_nat i <= length (flat_map snd t))%nat; [|unfold tab, box in *; lia]. apply diagonal_bound; [exact LT|]. intros k Hk. destruct (Z.eq_dec k i) as [->|]; [congruence|]. destruct (DG k ltac:(lia)) as (m & E & _). congruence.
  - cbn [unprime_loop]. rewrite EL. destruct (unprime_box_ok t i l LT ltac:(lia) EL) as (t1 & E1 & L1 & A1 & B1 & (m & Em & Sm) & P1 & C1 & F1). rewrite E1. cbn [rbind].
    destruct (IH t1 (i + 1) L1 ltac:(lia)) as (u & E2 & L2 & A2 & B2 & P2 & C2 & D2 & F2).
    + intros k Hk. destruct (Z.eq_dec k i) as [->|]; [exists m; split; assumption|]. rewrite A1 by lia. apply DG. lia.
    + apply Permutation_length in P1. rewrite !map_length in P1. unfold tab, box in *. lia.
    + exists u. split; [exact E2|]. split; [exact L2|]. split; [intros a b Hb; rewrite A2 by lia; apply A1; lia|]. split; [intros a b H; apply B2, B1, H|]. split; [eapply Permutation_trans; [exact P1|exact P2]|]. split; [intros a Ha; specialize (C1 a Ha); specialize (C2 a Ha); unfold tab, box in *; lia|].
      split; [exact D2|]. intro HS. assert (S : settled l).
      { apply (HS i l); [|apply tlookup_In; exact EL]. intros k Hk. apply (look_occ t k k W). destruct (Z.eq_dec k i) as [->|]; [congruence|]. destruct (DG k ltac:(lia)) as (q & E & _). congruence. }
      specialize (F1 S). subst t1. apply F2. exact HS.
Qed.

(* unpriming the diagonal never raises and terminates; it keeps the cells and the letters up to primes, adds no prime, and leaves a settled diagonal *)
Theorem C104_unprime : forall t : tab, lettered t ->
  exists u, unprime_diagonal t = Ok u /\ lettered u /\ (forall i j, occupied t i j -> occupied u i j) /\
    Permutation (map Z.abs (flat_map snd t)) (map Z.abs (flat_map snd u)) /\
    (forall a, 0 < a -> (count_occ Z.eq_dec (flat_map snd u) (- a) <= count_occ Z.eq_dec (flat_map snd t) (- a))%nat) /\
    (forall k l, diagonal_to u k -> In ((k, k), l) u -> settled l).
Proof.
  intros t LT. destruct (unprime_loop_ok (S (length (flat_map snd t))) t 1 LT ltac:(lia)) as (u & E & LU & A & B & P & C & D & _); [intros; lia|lia|].
  exists u. split; [exact E|]. split; [exact LU|]. split; [intros i j H; apply (look_occ u i j (proj1 LU)), B, (look_occ t i j (proj1 LT)), H|]. split; [exact P|]. split; [exact C|exact D].
Qed.
Print Assumptions C104_unprime.

(* a tableau with a settled diagonal is returned as it is; so unpriming twice is unpriming once *)
Theorem C104_settled : forall t : tab, lettered t -> (forall k l, diagonal_to t k -> In ((k, k), l) t -> settled l) -> unprime_diagonal t = Ok t.
Proof.
  intros t LT HS. destruct (unprime_loop_ok (S (length (flat_map snd t))) t 1 LT ltac:(lia)) as (u & E & _ & _ & _ & _ & _ & _ & F); [intros; lia|lia|]. rewrite <- (F HS) at 2. exact E.
Qed.
Theorem C104_idempotent : forall t : tab, lettered t -> (do u <- unprime_diagonal t; unprime_diagonal u) = unprime_diagonal t.
Proof. intros t LT. destruct (C104_unprime t LT) as (u & E & LU & _ & _ & _ & D). rewrite E. cbn [rbind]. apply C104_settled; assumption. Qed.
Print Assumptions C104_idempotent.

(* the cell (1,1) holds 1' 1 2', and 1 2' are inserted into column 2; the cell (2,2) holds 3' 3 4 *)
Definition unprime_in : tab := [((1, 1), [-2; -1; 1]); ((1, 2), [2]); ((2, 2), [-3; 3; 4])].
Example C104_example : unprime_diagonal unprime_in = Ok [((1, 1), [1]); ((1, 2), [-2; 1]); ((1, 3), [2]); ((2, 2), [3]); ((2, 3), [3; 4])].
Proof. vm_compute. reflexivity. Qed.
Example C104_example_hypothesis : lettered unprime_in.
Proof.
  split; [split|split].
  - repeat constructor; unfold before; cbn; lia.
  - intros c l H. cbn in H. destruct H as [H|[H|[H|[]]]]; injection H as <- <-; cbn [fst snd]; (split; [lia|split; [lia|]]); repeat constructor; lia.
  - intros c l H. cbn in H. destruct H as [H|[H|[H|[]]]]; injection H as <- <-; discriminate.
  - intros i j x (l & H & Hx). cbn in H. destruct H as [H|[H|[H|[]]]]; injection H as <- <- <-; cbn in Hx; lia.
Qed.
(* column 2 of this tableau is ordered; inserting 2' 2 3 4 fills both cells anew and passes on 2 3 4 5 *)
Definition column_in : tab := [((1, 2), [2; 3]); ((2, 2), [-4; 4; 5])].
Example C104_column_example : setvalued_column_insert column_in [-2; 2; 3; 4] 2 = Ok ([((1, 2), [-2; 2]); ((2, 2), [-4; 3; 4])], Some [2; 3; 4; 5]).
Proof. vm_compute. reflexivity. Qed.
Example C104_column_hypotheses : ordered_column column_in 2 /\ unprimed_once [-2; 2; 3; 4].
Proof.
  assert (U : forall l : list Z, NoDup l -> unprimed_once l) by (intros l N x _; apply (proj1 (NoDup_count_occ Z.eq_dec l) N x)).
  split; [split; [|split]|apply U; repeat constructor; cbn; lia].
  - intros i i' Hi (l & H). cbn in H. assert (i = 1 \/ i = 2) by (destruct H as [H|[H|[]]]; injection H as <- <-; lia). destruct H0 as [->| ->]; [exists [2; 3]; left; reflexivity|exists [-4; 4; 5]; right; left; reflexivity].
  - intros i i' x y Hi (l & H & Hx) (m & G & Hy). cbn in H, G. destruct H as [H|[H|[]]], G as [G|[G|[]]]; injection H as <- <-; injection G as <- <-; try lia. cbn in Hx, Hy. unfold column_ok. lia.
  - intros i l H. cbn in H. apply U. destruct H as [H|[H|[]]]; injection H as <- <-; repeat constructor; cbn; lia.
Qed.
