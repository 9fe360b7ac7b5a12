(* An insertion step does not change the 0-Hecke class of the row reading word *)
From Coq Require Import List ZArith Bool Lia Sorted Permutation RelationClasses.
From Verif Require Import PyBase M_Partitions L_PartMore M_Tableaux S_Tableaux L_Tableaux P_Tableaux M_Insertion S_Insertion S_HeckeEquiv L_Insertion1 L_Insertion2 L_Insertion3 L_Insertion4 L_Insertion5 L_Insertion6 L_Insertion7 L_Insertion8.
Import ListNotations.
Local Open Scope Z_scope.

Lemma he_ctx : forall u v, hecke_equiv u v -> forall x y, hecke_equiv (x ++ u ++ y) (x ++ v ++ y).
Proof.
  intros u v H. induction H as [u|u v H IH|u v w H1 IH1 H2 IH2|u v a|u v a b Hab|u v a]; intros x y.
  - apply he_refl.
  - apply he_sym. apply IH.
  - eapply he_trans; [apply IH1|apply IH2].
  - pose proof (he_idem (x ++ u) (v ++ y) a) as K. rewrite <- !app_assoc in *. exact K.
  - pose proof (he_comm (x ++ u) (v ++ y) a b Hab) as K. rewrite <- !app_assoc in *. exact K.
  - pose proof (he_braid (x ++ u) (v ++ y) a) as K. rewrite <- !app_assoc in *. exact K.
Qed.
Lemma he_app : forall u u' v v', hecke_equiv u u' -> hecke_equiv v v' -> hecke_equiv (u ++ v) (u' ++ v').
Proof.
  intros u u' v v' H K. eapply he_trans; [exact (he_ctx u u' H [] v)|]. cbn [app]. pose proof (he_ctx v v' K u' []) as G. rewrite !app_nil_r in G. exact G.
Qed.
Lemma he_l : forall u v v', hecke_equiv v v' -> hecke_equiv (u ++ v) (u ++ v').
Proof. intros. apply he_app; [apply he_refl|assumption]. Qed.
Lemma he_r : forall u u' v, hecke_equiv u u' -> hecke_equiv (u ++ v) (u' ++ v).
Proof. intros. apply he_app; [assumption|apply he_refl]. Qed.
Lemma he_aa : forall a, hecke_equiv [a; a] [a].
Proof. intro a. exact (he_idem [] [] a). Qed.
Lemma he_ab : forall a b, 1 < Z.abs (a - b) -> hecke_equiv [a; b] [b; a].
Proof. intros a b H. exact (he_comm [] [] a b H). Qed.
(* a letter moves through a word of letters not adjacent to it *)
Lemma he_move : forall l a, (forall y, In y l -> 1 < Z.abs (y - a)) -> hecke_equiv (l ++ [a]) (a :: l).
Proof.
  induction l as [|y l IH]; intros a H; [apply he_refl|]. cbn [app]. eapply he_trans; [apply (he_l [y]); apply IH; intros; apply H; right; assumption|]. cbn [app].
  apply (he_r [y; a] [a; y] l). apply he_ab. apply H. left. reflexivity.
Qed.
Lemma he_aba : forall a b, a < b -> hecke_equiv [a; b; a] [b; a; b].
Proof.
  intros a b H. destruct (Z.eq_dec b (a + 1)) as [->|N]; [exact (he_braid [] [] a)|]. assert (K : 1 < Z.abs (a - b)) by lia.
  eapply he_trans; [exact (he_r [a; b] [b; a] [a] (he_ab a b K))|]. eapply he_trans; [exact (he_l [b] [a; a] [a] (he_aa a))|]. apply he_sym.
  eapply he_trans; [exact (he_l [b] [a; b] [b; a] (he_ab a b K))|]. exact (he_r [b; b] [b] [a] (he_aa b)).
Qed.

(* row i, and the rows i, ..., i + n - 1 from the lowest to the highest *)
Definition rowl (L : Z -> Z) (g : Z -> Z -> Z) (i : Z) : list Z := map (g i) (zrange 1 (L i + 1)).
Fixpoint rd (L : Z -> Z) (g : Z -> Z -> Z) (n : nat) (i : Z) : list Z :=
  match n with O => [] | S n' => rd L g n' (i + 1) ++ rowl L g i end.
Lemma rowl_ext : forall L g L' g' i, L' i = L i -> (forall j, 1 <= j <= L i -> g' i j = g i j) -> rowl L' g' i = rowl L g i.
Proof. intros L g L' g' i E H. unfold rowl. rewrite E. apply map_ext_in. intros j Hj. apply In_zrange in Hj. apply H. lia. Qed.
Lemma rd_ext : forall L g L' g' n i, (forall r, i <= r -> L' r = L r) -> (forall r j, i <= r -> 1 <= j <= L r -> g' r j = g r j) -> rd L' g' n i = rd L g n i.
Proof. intros L g L' g' n. induction n as [|n IH]; intros i E H; [reflexivity|]. cbn [rd]. rewrite IH; [|intros; apply E; lia|intros; apply H; [lia|assumption]]. f_equal. apply rowl_ext; [apply E; lia|intros; apply H; [lia|assumption]]. Qed.
Lemma rowl_split : forall L g i x, 1 <= x <= L i -> rowl L g i = map (g i) (zrange 1 x) ++ [g i x] ++ map (g i) (zrange (x + 1) (L i + 1)).
Proof. intros L g i x H. unfold rowl. rewrite (zrange_split 1 x (L i + 1)) by lia. rewrite (zrange_cons x) by lia. rewrite map_app. reflexivity. Qed.

(* moving through the left part of a row *)
Lemma he_absorb : forall L g i x b, Incr L g -> 1 <= i -> 1 <= x <= L i -> g i x = b -> (2 <= x -> g i (x - 1) < b - 1) -> hecke_equiv (b :: rowl L g i) (rowl L g i).
Proof.
  intros L g i x b I Hi Hx E H. rewrite (rowl_split L g i x Hx). rewrite E. set (u := map (g i) (zrange 1 x)). set (v := map (g i) (zrange (x + 1) (L i + 1))).
  assert (C : forall y, In y u -> 1 < Z.abs (y - b)).
  { intros y Hy. apply in_map_iff in Hy. destruct Hy as (j & <- & Hj). apply In_zrange in Hj. specialize (H ltac:(lia)). destruct (Z.eq_dec j (x - 1)) as [->|]; [lia|]. pose proof (row_mono L g i j (x - 1) I Hi ltac:(lia) ltac:(lia) ltac:(lia)). lia. }
  eapply he_trans; [exact (he_r (b :: u) (u ++ [b]) ([b] ++ v) (he_sym _ _ (he_move u b C)))|]. rewrite <- !app_assoc. apply he_l. exact (he_r [b; b] [b] v (he_aa b)).
Qed.

Definition above_row (L : Z -> Z) (g : Z -> Z -> Z) (i : Z) : list Z := if i =? 1 then [] else rowl L g (i - 1).

(* the letter is absorbed by the row above: it stands there in column x, right of a smaller entry *)
Lemma absorb_above : forall L g i x a, Inv L g i a -> 2 <= i -> 2 <= x -> x <= L (i - 1) -> x - 1 <= L i -> g (i - 1) x = a -> g i (x - 1) < a -> hecke_equiv (a :: above_row L g i) (above_row L g i).
Proof.
  intros L g i x a (S & I & Hi & _) H2 Hx HL HL2 E H. unfold above_row. destruct (Z.eqb_spec i 1); [lia|]. apply (he_absorb L g (i - 1) x a I); [lia|lia|exact E|]. intros _.
  pose proof (proj2 I (i - 1) (x - 1) ltac:(lia) ltac:(lia)) as K. replace (i - 1 + 1) with i in K by lia. specialize (K HL2). lia.
Qed.

Lemma he_bump : forall L g i a x, Inv L g i a -> bump_col L g i a x -> can_replace g i a x -> hecke_equiv (rowl L g i ++ [a]) (g i x :: rowl L (updg g i x a) i).
Proof.
  intros L g i a x (S & I & Hi & _) (B1 & B2 & B3) [C1 _]. rewrite (rowl_split L g i x B1), (rowl_split L (updg g i x a) i x B1), updg_same.
  rewrite (map_ext_in (updg g i x a i) (g i) (zrange 1 x)) by (intros y Hy; apply In_zrange in Hy; apply updg_other; lia).
  rewrite (map_ext_in (updg g i x a i) (g i) (zrange (x + 1) (L i + 1))) by (intros y Hy; apply In_zrange in Hy; apply updg_other; lia).
  set (u := map (g i) (zrange 1 x)). set (v := map (g i) (zrange (x + 1) (L i + 1))). set (b := g i x) in *.
  assert (Cv : forall y, In y v -> 1 < Z.abs (y - a)). { intros y Hy. apply in_map_iff in Hy. destruct Hy as (j & <- & Hj). apply In_zrange in Hj. pose proof (row_mono L g i x j I Hi ltac:(lia) ltac:(lia) ltac:(lia)). fold b in H. lia. }
  assert (Cu : forall y, In y u -> 1 < Z.abs (y - b)).
  { intros y Hy. apply in_map_iff in Hy. destruct Hy as (j & <- & Hj). apply In_zrange in Hj. destruct C1 as [->|C1]; [lia|]. destruct (Z.eq_dec j (x - 1)) as [->|]; [lia|]. pose proof (row_mono L g i j (x - 1) I Hi ltac:(lia) ltac:(lia) ltac:(lia)). lia. }
  rewrite <- !app_assoc. eapply he_trans; [apply he_l; apply he_l; exact (he_move v a Cv)|]. change (b :: u ++ [a] ++ v) with ((b :: u) ++ ([a] ++ v)). change (a :: v) with ([a] ++ v). rewrite app_assoc. apply he_r. exact (he_move u b Cu).
Qed.
Lemma he_neighbour : forall L g i a x, Incr L g -> 1 <= i -> bump_col L g i a x -> 2 <= x -> g i (x - 1) = a -> hecke_equiv (rowl L g i ++ [a]) (g i x :: rowl L g i).
Proof.
  intros L g i a x I Hi (B1 & B2 & B3) Hx E. rewrite (rowl_split L g i x B1). rewrite (zrange_snoc 1 x) by lia. rewrite map_app. cbn [map]. rewrite E.
  set (u := map (g i) (zrange 1 (x - 1))). set (v := map (g i) (zrange (x + 1) (L i + 1))). set (b := g i x) in *.
  assert (Cv : forall y, In y v -> 1 < Z.abs (y - a)). { intros y Hy. apply in_map_iff in Hy. destruct Hy as (j & <- & Hj). apply In_zrange in Hj. pose proof (row_mono L g i x j I Hi ltac:(lia) ltac:(lia) ltac:(lia)) as K. fold b in K. lia. }
  assert (Cu : forall y, In y u -> 1 < Z.abs (y - b)). { intros y Hy. apply in_map_iff in Hy. destruct Hy as (j & <- & Hj). apply In_zrange in Hj. pose proof (row_mono L g i j (x - 1) I Hi ltac:(lia) ltac:(lia) ltac:(lia)). lia. }
  rewrite <- !app_assoc. cbn [app]. eapply he_trans; [apply he_l; apply (he_l [a; b]); exact (he_move v a Cv)|]. cbn [app].
  eapply he_trans; [apply he_l; exact (he_r [a; b; a] [b; a; b] v (he_aba a b B2))|]. cbn [app].
  pose proof (he_r (u ++ [b]) (b :: u) (a :: b :: v) (he_move u b Cu)) as K. rewrite <- app_assoc in K. exact K.
Qed.

Lemma he_pass : forall L g i a x, Inv L g i a -> bump_col L g i a x -> ~ can_replace g i a x -> hecke_equiv (rowl L g i ++ [a] ++ above_row L g i) (g i x :: rowl L g i ++ above_row L g i).
Proof.
  intros L g i a x HI HB N. pose proof HI as (S & I & Hi & _). pose proof HB as (B1 & B2 & B3). destruct (pass_value L g i a x HI HB N) as (Hx & PV & P1).
  destruct (Z.eq_dec (g i (x - 1)) a) as [E|E].
  - pose proof (he_r _ _ (above_row L g i) (he_neighbour L g i a x I Hi HB Hx E)) as K. rewrite <- app_assoc in K. exact K.
  - assert (Hi2 : 2 <= i). { destruct (Z.eq_dec i 1) as [E1|]; [specialize (P1 E1); contradiction|lia]. }
    destruct (bump_below_above L g i a x HI HB) as [K|(_ & K1 & K2)]; [lia|]. specialize (B3 (x - 1) ltac:(lia)). replace (i =? 1) with false in PV by (symmetry; apply Z.eqb_neq; lia).
    assert (EA : g (i - 1) x = a) by lia.
    eapply he_trans; [apply he_l; exact (absorb_above L g i x a HI Hi2 Hx K1 ltac:(lia) EA ltac:(lia))|].
    apply he_sym. change (g i x :: rowl L g i ++ above_row L g i) with ((g i x :: rowl L g i) ++ above_row L g i). apply he_r. apply (he_absorb L g i x (g i x) I Hi B1 eq_refl). lia.
Qed.
Lemma he_stop : forall L g i a, Inv L g i a -> full_row L g i a -> ~ can_add L g i a -> hecke_equiv (rowl L g i ++ [a] ++ above_row L g i) (rowl L g i ++ above_row L g i).
Proof.
  intros L g i a HI F N. pose proof HI as (S & I & Hi & _). destruct (stop_value L g i a HI F N) as (Hx & PV & P1). destruct (Z.eq_dec (g i (L i)) a) as [E|E].
  - rewrite app_assoc. apply he_r. unfold rowl. rewrite (zrange_snoc 1 (L i + 1)) by lia. rewrite map_app. replace (L i + 1 - 1) with (L i) by lia. cbn [map]. rewrite E. rewrite <- app_assoc. apply he_l. apply he_aa.
  - assert (Hi2 : 2 <= i). { destruct (Z.eq_dec i 1) as [E1|]; [specialize (P1 E1); contradiction|lia]. }
    destruct (full_above L g i a HI F) as [K|(_ & K1 & K2 & _)]; [lia|]. replace (i =? 1) with false in PV by (symmetry; apply Z.eqb_neq; lia). pose proof (F (L i) ltac:(lia)) as F1.
    assert (EA : g (i - 1) (L i + 1) = a) by lia.
    apply he_l. apply (absorb_above L g i (L i + 1) a HI Hi2); [lia|lia|lia|exact EA|]. replace (L i + 1 - 1) with (L i) by lia. lia.
Qed.

Lemma above_S : forall L g i, 1 <= i -> above_row L g (i + 1) = rowl L g i.
Proof. intros L g i H. unfold above_row. destruct (Z.eqb_spec (i + 1) 1); [lia|]. replace (i + 1 - 1) with i by lia. reflexivity. Qed.
(* one insertion *)
Lemma Ins_equiv : forall L g i a L' g' c k, Ins L g i a L' g' c k -> forall n, (1 <= n)%nat -> (forall r, i + Z.of_nat n - 1 <= r -> L r = 0) ->
  hecke_equiv (rd L g n i ++ [a] ++ above_row L g i) (rd L' g' n i ++ above_row L g i) /\ (forall r, i + Z.of_nat n <= r -> L' r = 0).
Proof.
  intros L g i a L' g' c k H.
  induction H as [L g i a HI F C|L g i a HI F C|L g i a x L' g' c k HI B C H IH|L g i a x L' g' c k HI B C H IH]; intros n Hn Z0; (destruct n as [|n]; [lia|]); cbn [rd]; pose proof HI as (S & I & Hi & _).
  - split; [|intros r Hr; rewrite updr_other by lia; apply Z0; lia].
    rewrite (rd_ext L g (updr L i (L i + 1)) (updg g i (L i + 1) a) n (i + 1)); [|intros; apply updr_other; lia|intros; apply updg_other; lia].
    replace (rowl (updr L i (L i + 1)) (updg g i (L i + 1) a) i) with (rowl L g i ++ [a]); [rewrite <- !app_assoc; apply he_refl|].
    unfold rowl. rewrite updr_same. pose proof (proj1 S i Hi). rewrite (zrange_snoc 1 (L i + 1 + 1)) by lia. replace (L i + 1 + 1 - 1) with (L i + 1) by lia. rewrite map_app. cbn [map]. rewrite updg_same. f_equal.
    apply map_ext_in. intros y Hy. apply In_zrange in Hy. symmetry. apply updg_other. lia.
  - split; [|intros r Hr; apply Z0; lia]. rewrite <- !app_assoc. apply he_l. apply he_stop; assumption.
  - pose proof B as (B1 & _ & _). assert (Hn2 : (1 <= n)%nat). { destruct n; [|lia]. rewrite (Z0 i) in B1 by lia. lia. }
    destruct (IH n Hn2 ltac:(intros; apply Z0; lia)) as [IH1 IH2]. split; [|intros; apply IH2; lia]. rewrite (above_S L (updg g i x a) i Hi) in IH1.
    destruct (Ins_above _ _ _ _ _ _ _ _ H i ltac:(lia)) as [E1 E2]. replace (rowl L' g' i) with (rowl L (updg g i x a) i) by (symmetry; apply rowl_ext; [exact E1|intros; apply E2]).
    replace (rd L (updg g i x a) n (i + 1)) with (rd L g n (i + 1)) in IH1 by (symmetry; apply rd_ext; [reflexivity|intros; apply updg_other; lia]).
    eapply he_trans; [|apply he_r; exact IH1]. rewrite <- !app_assoc. apply he_l. rewrite !app_assoc. apply he_r. apply he_bump; assumption.
  - pose proof B as (B1 & _ & _). assert (Hn2 : (1 <= n)%nat). { destruct n; [|lia]. rewrite (Z0 i) in B1 by lia. lia. }
    destruct (IH n Hn2 ltac:(intros; apply Z0; lia)) as [IH1 IH2]. split; [|intros; apply IH2; lia]. rewrite (above_S L g i Hi) in IH1.
    destruct (Ins_above _ _ _ _ _ _ _ _ H i ltac:(lia)) as [E1 E2]. replace (rowl L' g' i) with (rowl L g i) by (symmetry; apply rowl_ext; [exact E1|intros; apply E2]).
    eapply he_trans; [|apply he_r; exact IH1]. rewrite <- !app_assoc. apply he_l. apply he_pass; assumption.
Qed.

(* a whole word *)
Lemma run_equiv : forall w L g p q k N, shape L -> Incr L g -> Rep L g None p -> QI L q (Z.of_nat k) -> (forall r, Z.of_nat k < r -> L r = 0) -> (k + length w < N)%nat ->
  exists p' q' L' g', rfold (fun pq a => push (fst pq) (snd pq) a) w (p, q) = Ok (p', q') /\ shape L' /\ Rep L' g' None p' /\ (forall r, Z.of_nat (k + length w) < r -> L' r = 0) /\
    hecke_equiv (rd L g N 1 ++ w) (rd L' g' N 1).
Proof.
  induction w as [|a w IH]; intros L g p q k N S I R Q Z0 HN.
  - exists p, q, L, g. split; [reflexivity|]. split; [exact S|]. split; [exact R|]. split; [intros r Hr; apply Z0; cbn [length] in Hr; lia|]. rewrite app_nil_r. apply he_refl.
  - cbn [length] in HN. cbn [rfold fst snd]. destruct (push_good L g p q _ a S I R Q) as (p1 & L1 & g1 & c & b & d & HI & Hd & S1 & I1 & R1 & Q1 & E). rewrite E. cbn [rbind].
    destruct (Ins_equiv _ _ _ _ _ _ _ _ HI (Datatypes.S k) ltac:(lia) ltac:(intros r Hr; apply Z0; lia)) as [_ Z1].
    destruct (Ins_equiv _ _ _ _ _ _ _ _ HI N ltac:(lia) ltac:(intros r Hr; apply Z0; lia)) as [EQ _]. unfold above_row in EQ. cbn [Z.eqb Pos.eqb] in EQ. rewrite !app_nil_r in EQ.
    destruct (IH L1 g1 p1 (record_put q d (Z.of_nat k)) (Datatypes.S k) N S1 I1 R1 ltac:(replace (Z.of_nat (Datatypes.S k)) with (Z.of_nat k + 1) by lia; exact Q1) ltac:(intros r Hr; apply Z1; lia) ltac:(lia)) as (p' & q' & L' & g' & E' & S' & R' & Z' & EQ').
    exists p', q', L', g'. split; [exact E'|]. split; [exact S'|]. split; [exact R'|]. split; [intros r Hr; apply Z'; cbn [length] in Hr; lia|].
    eapply he_trans; [|exact EQ']. change (a :: w) with ([a] ++ w). rewrite app_assoc. apply he_r. exact EQ.
Qed.

(* the explicit cells of a tableau, from the lowest row up *)
Fixpoint rcells (L : Z -> Z) (g : Z -> Z -> Z) (n : nat) (i : Z) : list (box * list Z) :=
  match n with O => [] | S n' => rcells L g n' (i + 1) ++ map (fun j => ((i, j), [g i j])) (zrange 1 (L i + 1)) end.
Lemma rcells_word : forall L g n i, flat_map snd (rcells L g n i) = rd L g n i.
Proof.
  intros L g n. induction n as [|n IH]; intro i; [reflexivity|]. cbn [rcells rd]. rewrite flat_map_app, IH. f_equal. unfold rowl. induction (zrange 1 (L i + 1)) as [|j l IHl]; [reflexivity|]. cbn [map flat_map snd app]. rewrite IHl. reflexivity.
Qed.
Lemma rcells_In : forall L g n i r j l, In ((r, j), l) (rcells L g n i) <-> i <= r < i + Z.of_nat n /\ 1 <= j <= L r /\ l = [g r j].
Proof.
  intros L g n. induction n as [|n IH]; intros i r j l; cbn [rcells]; [cbn [In]; split; [tauto|lia]|]. rewrite in_app_iff, IH, in_map_iff. split.
  - intros [H|(y & E & H)]; [split; [lia|apply H]|]. injection E as <- <- <-. apply In_zrange in H. split; [lia|]. split; [lia|reflexivity].
  - intros (A & B & ->). destruct (Z.eq_dec r i) as [->|]; [right; exists j; split; [reflexivity|apply In_zrange; lia]|left; split; [lia|split; [exact B|reflexivity]]].
Qed.
Definition rlt (x y : box * list Z) : Prop := fst (fst y) < fst (fst x) \/ (fst (fst x) = fst (fst y) /\ snd (fst x) < snd (fst y)).
Lemma sorted_app : forall (A : Type) (R : A -> A -> Prop) l m, StronglySorted R l -> StronglySorted R m -> (forall x y, In x l -> In y m -> R x y) -> StronglySorted R (l ++ m).
Proof.
  intros A R l m S S' H. induction S as [|x l S IH F]; [exact S'|]. cbn [app]. constructor; [apply IH; intros; apply H; [right|]; assumption|]. apply Forall_app. split; [exact F|]. apply Forall_forall. intros y Hy. apply H; [left; reflexivity|exact Hy].
Qed.
Lemma rcells_sorted : forall L g n i, StronglySorted rlt (rcells L g n i).
Proof.
  intros L g n. induction n as [|n IH]; intro i; cbn [rcells]; [constructor|]. apply sorted_app; [apply IH| |].
  - assert (G : forall m a, StronglySorted rlt (map (fun j => ((i, j), [g i j])) (zrange a (a + Z.of_nat m)))).
    { induction m as [|m IHm]; intro a; [rewrite zrange_nil by lia; constructor|]. rewrite zrange_cons by lia. cbn [map]. replace (a + Z.of_nat (Datatypes.S m)) with (a + 1 + Z.of_nat m) by lia. constructor; [apply IHm|].
      apply Forall_forall. intros y Hy. apply in_map_iff in Hy. destruct Hy as (j & <- & Hj). apply In_zrange in Hj. right. cbn [fst snd]. lia. }
    destruct (Z_lt_ge_dec (L i) 0) as [E|E]; [rewrite zrange_nil by lia; constructor|]. replace (L i + 1) with (1 + Z.of_nat (Z.to_nat (L i))) by lia. apply G.
  - intros [[r j] l] [[r' j'] l'] H H'. apply rcells_In in H. apply in_map_iff in H'. destruct H' as (y & E & _). injection E as <- _ _. left. cbn [fst]. lia.
Qed.
Lemma rlt_below : forall x y, rlt x y -> below row_order x y.
Proof.
  intros [[r j] l] [[r' j'] l'] H. unfold rlt in H. cbn [fst snd] in H. unfold below, row_order, box_ltb. cbn [fst snd]. split.
  - apply negb_true_iff. apply orb_false_iff. rewrite andb_false_iff, Z.ltb_ge, Z.eqb_neq, Z.ltb_ge. lia.
  - intro K. exfalso. apply negb_true_iff in K. apply orb_false_iff in K. rewrite andb_false_iff, Z.ltb_ge, Z.eqb_neq, Z.ltb_ge in K. lia.
Qed.
Lemma reading_rd : forall L g p N, shape L -> Rep L g None p -> (forall r, Z.of_nat N < r -> L r = 0) -> row_reading_word p = rd L g N 1.
Proof.
  intros L g p N S R Z0. pose proof R as [W RL]. unfold row_reading_word. rewrite (isort_unique row_order p (rcells L g N 1)); [apply rcells_word| |].
  - apply NoDup_Permutation.
    + apply (NoDup_map_inv fst). apply sorted_NoDup. apply W.
    + assert (G : forall l, StronglySorted rlt l -> NoDup l). { intros l G. induction G as [|x l G IH F]; constructor; [|exact IH]. intro K. rewrite Forall_forall in F. specialize (F x K). unfold rlt in F. lia. } apply G. apply rcells_sorted.
    + intros [[r j] l]. rewrite rcells_In. rewrite (Rep_cells L g None p (r, j) l R). rewrite RL. unfold base. cbn [fst snd]. destruct (inside L r j) eqn:E.
      * apply inside_iff in E. split; [intro K; injection K as <-|intros (_ & _ & ->); reflexivity]. split; [|split; [lia|reflexivity]]. destruct (Z_lt_ge_dec (Z.of_nat N) r) as [K|K]; [rewrite (Z0 r K) in E; lia|lia].
      * apply inside_false in E. split; [discriminate|]. intros (A & B & _). lia.
  - assert (G : forall l, StronglySorted rlt l -> StronglySorted (below row_order) l). { intros l G. induction G as [|x l G IH F]; constructor; [exact IH|]. rewrite Forall_forall in *. intros y Hy. apply rlt_below. apply F. exact Hy. } apply G. apply rcells_sorted.
Qed.

Theorem insertion_equiv : forall w p q, insertion_tableaux w = Ok (p, q) -> hecke_equiv w (row_reading_word p).
Proof.
  intros w p q E. destruct start as (S0 & I0 & R0 & Q0 & N0).
  destruct (run_equiv w _ _ [] [] 0%nat (Datatypes.S (length w)) S0 I0 R0 Q0 ltac:(reflexivity) ltac:(lia)) as (p' & q' & L' & g' & E' & S' & R' & Z' & EQ).
  assert (K : Ok (p, q) = Ok (p', q')) by (exact (eq_trans (eq_sym E) E')). injection K as <- <-. rewrite (reading_rd L' g' p (Datatypes.S (length w)) S' R' ltac:(intros r Hr; apply Z'; lia)).
  replace (rd (fun _ : Z => 0) (fun _ _ : Z => 0) (Datatypes.S (length w)) 1) with (@nil Z) in EQ; [exact EQ|].
  assert (G : forall n i, rd (fun _ : Z => 0) (fun _ _ : Z => 0) n i = []) by (induction n as [|n IH]; intro i; [reflexivity|]; cbn [rd]; rewrite IH; reflexivity). symmetry. apply G.
Qed.
