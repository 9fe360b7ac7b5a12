(* C101: Hecke insertion is a bijection onto pairs of tableaux of the same shape *)
From Coq Require Import List ZArith Bool Lia Sorted Permutation RelationClasses.
From Verif Require Import PyBase M_Partitions L_PartMore M_Tableaux S_Tableaux L_Tableaux P_Tableaux M_Insertion S_Insertion L_Insertion1 L_Insertion2 L_Insertion3 L_Insertion4 L_Insertion5 L_Insertion6 L_Insertion7 L_Insertion8 P_Insertion L_HeckeOnto L_HeckeOnto2 L_HeckeOnto3.
Import ListNotations.
Local Open Scope Z_scope.

Lemma number : forall (Q : tab) multi, well_formed Q -> straight Q -> semistandard_cells multi Q -> exists (q : tab) r D,
  well_formed q /\ (forall i j, cell q i j <-> cell Q i j) /\ length D = length r /\ Permutation (tag q) (combine (zrange 1 (zlen r + 1)) D) /\
  StronglySorted rec_below (combine r D) /\ standard_setvalued (zlen r) q /\ rename (rec_of r) q = Q /\ Permutation (flat_map snd Q) r /\
  forall n, (Datatypes.S n < length r)%nat -> nth n r 0 <= nth (Datatypes.S n) r 0 /\
    (nth n r 0 = nth (Datatypes.S n) r 0 -> ~ fst (nth n D (0, 0)) < fst (nth (Datatypes.S n) D (0, 0)) /\ (multi = false -> nth n D (0, 0) <> nth (Datatypes.S n) D (0, 0))).
Proof.
  intros Q multi W S SS. destruct (tle_sort (tag Q)) as (ST & P & SO).
  eexists. exists (map fst ST), (map snd ST). split; [exact (num_wf Q ST W SO)|]. split; [exact (num_cells Q ST W SO)|]. split; [rewrite !map_length; reflexivity|]. split; [exact (num_tag Q ST W P)|].
  split; [exact (num_below Q multi ST W S SS P SO)|]. split; [exact (num_standard Q multi ST W S SS P SO)|]. split; [exact (num_rename Q ST W P SO)|]. split; [rewrite <- flat_tag; apply Permutation_map; exact P|].
  exact (num_next Q multi ST W S SS P SO).
Qed.

Lemma combine_range_eq : forall (D D' : list box) a, length D = length D' ->
  Permutation (combine (zrange a (a + Z.of_nat (length D))) D) (combine (zrange a (a + Z.of_nat (length D))) D') -> D = D'.
Proof.
  induction D as [|d D IH]; intros [|d' D'] a L P; try discriminate; [reflexivity|]. cbn [length] in P. rewrite zrange_cons in P by lia. cbn [combine] in P.
  replace (a + Z.of_nat (Datatypes.S (length D))) with (a + 1 + Z.of_nat (length D)) in P by lia.
  assert (E : d = d').
  { pose proof (Permutation_in _ P (or_introl eq_refl)) as K. destruct K as [K|K]; [congruence|]. apply in_combine_l in K. apply In_zrange in K. lia. }
  subst d'. f_equal. apply Permutation_cons_inv in P. apply (IH D' (a + 1)); [injection L; auto|exact P].
Qed.
Lemma Sorted_nth : forall (A : Type) (R : A -> A -> Prop) (d : A) l, Sorted R l -> forall n, (Datatypes.S n < length l)%nat -> R (nth n l d) (nth (Datatypes.S n) l d).
Proof.
  intros A R d l H. induction H as [|x l H IH HD]; intros n Hn; cbn [length] in Hn; [lia|]. destruct n as [|n].
  - destruct l as [|y l]; [cbn [length] in Hn; lia|]. inversion HD; assumption.
  - cbn [nth]. apply IH. lia.
Qed.
(* the cells of a word's recording tableau *)
Lemma history : forall w p q, insertion_tableaux w = Ok (p, q) -> exists D, length D = length w /\ Permutation (tag q) (combine (zrange 1 (zlen w + 1)) D) /\ Sorted step_rel (combine w D).
Proof.
  intros w p q E. destruct start as (S0 & I0 & R0 & Q0 & N0).
  destruct (run w _ _ [] [] 0 S0 I0 R0 Q0) as (p' & q' & L & g & D & E' & S & I & R & Q & LD & P & SO & _ & _). cbn [tag flat_map app] in P.
  assert (K : Ok (p, q) = Ok (p', q')) by (exact (eq_trans (eq_sym E) E')). injection K as <- <-. exists D. split; [exact LD|]. split; [|exact SO].
  replace (0 + 1 + zlen w) with (zlen w + 1) in P by lia. replace (0 + 1) with 1 in P by lia. exact P.
Qed.

Lemma flip_flip : forall l : list box, map flip (map flip l) = l.
Proof. intro l. rewrite map_map. rewrite (map_ext _ (fun c => c)); [apply map_id|]. intros [i j]. reflexivity. Qed.
Lemma tag_flip : forall (a : list Z) (b : list box), map (fun vc => (fst vc, flip (snd vc))) (combine a b) = combine a (map flip b).
Proof. induction a as [|x a IH]; intros [|y b]; try reflexivity. cbn [combine map fst snd]. rewrite IH. reflexivity. Qed.

Lemma increasing_transpose : forall p pt, well_formed p -> well_formed pt -> (forall i j, tlookup pt (j, i) = tlookup p (i, j)) -> increasing_tableau p -> increasing_tableau pt.
Proof.
  intros p pt W Wt Lp (IP1 & IP2 & IP3 & IP4). pose proof (holds_transpose p pt W Wt Lp) as Hp.
  split; [apply (straight_transpose p); assumption|]. split; [intros i j l H; apply Hp in H; eapply IP2; exact H|].
  split; intros i j x y Hx Hy; apply Hp in Hx, Hy; [apply (IP4 j i)|apply (IP3 j i)]; assumption.
Qed.
Lemma standard_transpose : forall q qt k, well_formed q -> well_formed qt -> (forall i j, tlookup qt (j, i) = tlookup q (i, j)) -> standard_setvalued k q -> standard_setvalued k qt.
Proof.
  intros q qt k W Wt Lq (IQ1 & IQ2 & IQ3 & IQ4 & IQ5 & IQ6). pose proof (holds_transpose q qt W Wt Lq) as Hq. pose proof (flat_transpose q qt W Wt Lq) as FT.
  split; [apply (straight_transpose q); assumption|]. split; [intros i j l H; apply Hq in H; eapply IQ2; exact H|].
  split; [apply (Permutation_NoDup (Permutation_sym FT)); exact IQ3|]. split; [intro x; rewrite <- IQ4; split; apply Permutation_in; [exact FT|apply Permutation_sym; exact FT]|].
  split; intros i j l m x y Hl Hm; apply Hq in Hl, Hm; [eapply (IQ6 j i)|eapply (IQ5 j i)]; eassumption.
Qed.

(* the word of a pair, before any record is applied *)
Lemma word_exists : forall (multi : bool) (p q : tab) k, well_formed p -> well_formed q -> increasing_tableau p -> (forall i j x, holds p i j [x] -> 0 <= x) ->
  standard_setvalued k q -> (forall i j, cell p i j <-> cell q i j) -> 0 <= k ->
  exists w p1 q1 D, zlen w = k /\ Forall (fun x => 0 <= x) w /\ insertion_tableaux w = Ok (p1, q1) /\ (if multi then Ok p1 else ttranspose p1) = Ok p /\ (if multi then Ok q1 else ttranspose q1) = Ok q /\
    length D = length w /\ Permutation (tag q) (combine (zrange 1 (zlen w + 1)) (if multi then D else map flip D)) /\ Sorted step_rel (combine w D).
Proof.
  intros multi p q k Wp Wq IP NP SQ CC Hk. destruct multi.
  - destruct (onto_standard p q k Wp Wq IP NP SQ CC Hk) as (w & A & B & C). destruct (history w p q C) as (D & D1 & D2 & D3). exists w, p, q, D. repeat (split; [first [assumption|reflexivity]|]). exact D3.
  - destruct (C32_transpose p Wp) as (pt & Ep & Wpt & Lp & Bp). destruct (C32_transpose q Wq) as (qt & Eq & Wqt & Lq & Bq).
    pose proof (holds_transpose p pt Wp Wpt Lp) as Hp. pose proof (holds_transpose q qt Wq Wqt Lq) as Hq.
    assert (NP' : forall i j x, holds pt i j [x] -> 0 <= x) by (intros i j x H; apply Hp in H; exact (NP _ _ _ H)).
    assert (CC' : forall i j, cell pt i j <-> cell qt i j).
    { intros i j. specialize (CC j i). unfold cell in *. destruct CC as [CP1 CP2]. split; intros [l H]; [apply Hp in H|apply Hq in H].
      - destruct CP1 as [m Hm]; [exists l; exact H|]. exists m. apply Hq. exact Hm.
      - destruct CP2 as [m Hm]; [exists l; exact H|]. exists m. apply Hp. exact Hm. }
    destruct (onto_standard pt qt k Wpt Wqt (increasing_transpose p pt Wp Wpt Lp IP) NP' (standard_transpose q qt k Wq Wqt Lq SQ) CC' Hk) as (w & A & B & C). destruct (history w pt qt C) as (D & D1 & D2 & D3).
    exists w, pt, qt, D. repeat (split; [first [assumption|reflexivity]|]). split; [|exact D3].
    assert (LQ' : forall i j, tlookup q (j, i) = tlookup qt (i, j)) by (intros; symmetry; apply Lq).
    eapply Permutation_trans; [apply (transpose_tag qt q Wqt Wq LQ')|]. eapply Permutation_trans; [apply Permutation_map; exact D2|]. rewrite tag_flip. apply Permutation_refl.
Qed.

Lemma onto_record : forall multi (p Q : tab), well_formed p -> well_formed Q -> increasing_tableau p -> (forall i j x, holds p i j [x] -> 0 <= x) ->
  semistandard_cells multi Q -> (forall i j, cell p i j <-> cell Q i j) ->
  exists w r, Forall (fun x => 0 <= x) w /\ compatible multi w r /\ Permutation (flat_map snd Q) r /\ hecke w (Some r) multi = Ok (p, Q).
Proof.
  intros multi p Q Wp WQ IP NP SS CC.
  assert (SQ : straight Q). { intros i j H. apply CC in H. destruct (proj1 IP i j H) as (A & B & C). split; [exact A|]. split; [exact B|]. intros. apply CC. apply C; assumption. }
  destruct (number Q multi WQ SQ SS) as (q & r & D & Wq & Cq & LD & TP & RB & SV & RN & PR & NX).
  destruct (word_exists multi p q (zlen r) Wp Wq IP NP SV ltac:(intros; rewrite CC, Cq; reflexivity) ltac:(unfold zlen; lia)) as (w & p1 & q1 & D' & Lw & Fw & EI & Ep & Eq & LD' & TP' & SO).
  assert (LW : length w = length r) by (unfold zlen in Lw; lia).
  assert (ED : D = (if multi then D' else map flip D')).
  { apply (combine_range_eq D _ 1); [rewrite LD, <- LW, <- LD'; destruct multi; [reflexivity|symmetry; apply map_length]|].
    eapply Permutation_trans; [|eapply Permutation_trans; [exact TP'|]].
    - eapply Permutation_trans; [|apply Permutation_sym; exact TP]. replace (1 + Z.of_nat (length D)) with (zlen r + 1) by (unfold zlen; lia). apply Permutation_refl.
    - replace (1 + Z.of_nat (length D)) with (zlen w + 1) by (unfold zlen; lia). apply Permutation_refl. }
  assert (CP : compatible multi w r).
  { split; [congruence|]. intros n Hn. rewrite LW in Hn. destruct (NX n Hn) as [N1 N2]. split; [exact N1|]. intro H. destruct (Z_lt_ge_dec (nth n r 0) (nth (Datatypes.S n) r 0)) as [|G]; [assumption|]. exfalso.
    destruct (N2 ltac:(lia)) as [N3 N4]. clear N2.
    pose proof (Sorted_nth _ step_rel (0, (0, 0)) (combine w D') SO n ltac:(rewrite combine_length; lia)) as K. rewrite !combine_nth in K by (symmetry; exact LD'). destruct K as [K1 K2]. cbn [fst snd] in K1, K2. destruct multi.
    - specialize (K2 H). rewrite <- ED in K2. contradiction.
    - specialize (K1 H). assert (EN : forall m, nth m D (0, 0) = flip (nth m D' (0, 0))) by (intro m; rewrite ED; change (0, 0) with (flip (0, 0)) at 1; apply map_nth). rewrite !EN in N3, N4.
      destruct K1 as [K1|K1]; [apply N3; exact K1|apply (N4 eq_refl); f_equal; exact K1]. }
  exists w, r. split; [exact Fw|]. split; [exact CP|]. split; [exact PR|]. unfold hecke. rewrite (check_compatible w r multi CP). cbn [rbind]. rewrite EI. cbn [rbind fst snd]. rewrite Ep. cbn [rbind]. rewrite Eq. cbn [rbind].
  rewrite (record_apply q D r Wq LD TP RB). cbn [rbind]. f_equal. f_equal. exact RN.
Qed.

(* for every increasing tableau P with entries >= 0 and every semistandard (multi)set-valued tableau Q of the
   same shape with entries > 0 there is exactly one word with a compatible record giving (P, Q), and
   inverse_hecke returns it *)
Theorem C101_onto : forall multi p q, well_formed p -> well_formed q -> increasing_tableau p -> (forall i j x, holds p i j [x] -> 0 <= x) ->
  semistandard_cells multi q -> (forall i j l x, holds q i j l -> In x l -> 0 < x) -> (forall i j, cell p i j <-> cell q i j) ->
  exists w r, inverse_hecke p q multi = Ok (w, r) /\ Forall (fun x => 0 <= x) w /\ Forall (fun x => 0 < x) r /\ compatible multi w r /\ hecke w (Some r) multi = Ok (p, q) /\ Permutation (flat_map snd q) r /\
    forall w' r', Forall (fun x => 0 <= x) w' -> Forall (fun x => 0 < x) r' -> compatible multi w' r' -> hecke w' (Some r') multi = Ok (p, q) -> w' = w /\ r' = r.
Proof.
  intros multi p q Wp Wq IP NP SS PQ CC. destruct (onto_record multi p q Wp Wq IP NP SS CC) as (w & r & Fw & CP & PR & E).
  assert (Fr : Forall (fun x => 0 < x) r). { apply Forall_forall. intros x Hx. apply (Permutation_in _ (Permutation_sym PR)) in Hx. apply in_flat_map in Hx. destruct Hx as ([[i j] l] & H1 & H2). exact (PQ i j l x H1 H2). }
  exists w, r. split.
  - destruct (C45_inverse w r multi Fw Fr CP) as (p' & q' & E1 & E2). rewrite E in E1. injection E1 as <- <-. exact E2.
  - split; [exact Fw|]. split; [exact Fr|]. split; [exact CP|]. split; [exact E|]. split; [exact PR|]. intros w' r' Fw' Fr' CP' E'. apply (C45_injective w' r' w r multi); try assumption. rewrite E', E. reflexivity.
Qed.
(* without a record: Q runs over the standard set-valued tableaux *)
Theorem C101_standard : forall multi p q k, well_formed p -> well_formed q -> increasing_tableau p -> (forall i j x, holds p i j [x] -> 0 <= x) ->
  0 <= k -> standard_setvalued k q -> (forall i j, cell p i j <-> cell q i j) ->
  exists w, inverse_hecke p q multi = Ok (w, zrange 1 (k + 1)) /\ zlen w = k /\ Forall (fun x => 0 <= x) w /\ hecke w None multi = Ok (p, q) /\
    forall w', Forall (fun x => 0 <= x) w' -> hecke w' None multi = Ok (p, q) -> w' = w.
Proof.
  intros multi p q k Wp Wq IP NP Hk SQ CC. destruct (word_exists multi p q k Wp Wq IP NP SQ CC Hk) as (w & p1 & q1 & D & Lw & Fw & EI & Ep & Eq & LD & TP & SO).
  assert (E : hecke w None multi = Ok (p, q)).
  { destruct (C44_total w multi) as (p' & q' & E & _). destruct (hecke_core w None multi _ (check_default w multi)) as (p2 & q2 & D2 & E2 & W2 & _ & _ & _ & _ & _ & _ & SQ2 & _).
    unfold hecke in *. rewrite (check_default w multi) in *. cbn [rbind] in *. rewrite EI in *. cbn [rbind fst snd] in *. rewrite Ep in *. cbn [rbind] in *. rewrite Eq in *. cbn [rbind] in *.
    rewrite (tapply_res_rename (rmapping (zrange 1 (zlen w + 1))) (fun x => x) q Wq).
    - cbn [rbind]. f_equal. f_equal. apply rename_id. reflexivity.
    - intros x Hx. destruct SQ as (_ & _ & _ & R & _). apply R in Hx. assert (ZL : zlen (zrange 1 (zlen w + 1)) = zlen w) by (unfold zlen at 1; rewrite length_zrange; unfold zlen; lia). rewrite rmapping_ok by lia. unfold rec_of. rewrite L_Perm.nthz_zrange by lia. f_equal. lia.
    - intros; assumption. }
  destruct (C45_default w multi Fw) as (p' & q' & E1 & E2). rewrite E in E1. injection E1 as <- <-. rewrite Lw in E2. exists w. split; [exact E2|]. split; [exact Lw|]. split; [exact Fw|]. split; [exact E|].
  intros w' Fw' E'. destruct (C45_default w' multi Fw') as (p' & q' & E1 & E3). rewrite E' in E1. injection E1 as <- <-. pose proof (eq_trans (eq_sym E3) E2) as K. injection K as K _. exact K.
Qed.
(* the hypothesis on P cannot be dropped: a negative entry is confused with the default of a missing cell *)
Theorem C101_negative_refuted : exists p q w r, increasing_tableau p /\ semistandard_cells true q /\ (forall i j, cell p i j <-> cell q i j) /\
  inverse_hecke p q true = Ok (w, r) /\ hecke w (Some r) true <> Ok (p, q).
Proof.
  exists [((1, 1), [-1])], [((1, 1), [1; 2])], [-1; 0], [1; 2]. 
  assert (C : forall t (l : list Z), t = [((1, 1), l)] -> forall i j m, holds t i j m <-> i = 1 /\ j = 1 /\ m = l).
  { intros t l -> i j m. unfold holds. cbn [In]. split; [intros [K|[]]; injection K as <- <- <-; repeat split|intros (-> & -> & ->); left; reflexivity]. }
  pose proof (C _ [-1] eq_refl) as C1. pose proof (C _ [1; 2] eq_refl) as C2.
  split; [|split; [|split; [|split; [vm_compute; reflexivity|vm_compute; discriminate]]]].
  - split; [|split; [|split]].
    + intros i j [l H]. apply C1 in H. destruct H as (-> & -> & ->). split; [lia|]. split; [lia|]. intros r c Hr Hc. exists [-1]. apply C1. repeat split; lia.
    + intros i j l H. apply C1 in H. exists (-1). apply H.
    + intros i j x y H1 H2. apply C1 in H1, H2. lia.
    + intros i j x y H1 H2. apply C1 in H1, H2. lia.
  - split; [|split].
    + intros i j l H. apply C2 in H. destruct H as (_ & _ & ->). split; [discriminate|left; reflexivity].
    + intros i j l m x y H1 H2. apply C2 in H1, H2. lia.
    + intros i j l m x y H1 H2. apply C2 in H1, H2. lia.
  - intros i j. split; intros [l H]; [apply C1 in H; exists [1; 2]; apply C2|apply C2 in H; exists [-1]; apply C1]; repeat split; apply H.
Qed.

(* two rows; a pair with repeated recorded values *)
Definition ex_p : tab := [((1, 1), [1]); ((1, 2), [2]); ((2, 1), [3])].
Definition ex_q : tab := [((1, 1), [1; 1]); ((1, 2), [2]); ((2, 1), [2; 5])].
Example C101_example : well_formed ex_p /\ well_formed ex_q /\ increasing_tableau ex_p /\ (forall i j x, holds ex_p i j [x] -> 0 <= x) /\
  semistandard_cells true ex_q /\ (forall i j l x, holds ex_q i j l -> In x l -> 0 < x) /\ (forall i j, cell ex_p i j <-> cell ex_q i j) /\
  inverse_hecke ex_p ex_q true = Ok ([3; 3; 1; 3; 2], [1; 1; 2; 2; 5]) /\ hecke [3; 3; 1; 3; 2] (Some [1; 1; 2; 2; 5]) true = Ok (ex_p, ex_q) /\
  (do wr <- inverse_hecke ex_p [((1, 1), [1; 2]); ((1, 2), [2]); ((2, 1), [3; 5])] false; hecke (fst wr) (Some (snd wr)) false) = Ok (ex_p, [((1, 1), [1; 2]); ((1, 2), [2]); ((2, 1), [3; 5])]).
Proof.
  assert (WF : forall t, (t = ex_p \/ t = ex_q) -> well_formed t).
  { intros t [-> | ->]; (split; [repeat first [apply SSorted_cons|apply SSorted_nil|apply Forall_cons|apply Forall_nil]; unfold before; cbn; lia|]);
      intros c l H; cbn [ex_p ex_q In] in H; repeat (destruct H as [H|H]; [injection H as <- <-; split; [cbn; lia|split; [cbn; lia|repeat first [apply SSorted_cons|apply SSorted_nil|apply Forall_cons|apply Forall_nil]; lia]]|]); destruct H. }
  assert (HP : forall i j l, holds ex_p i j l <-> (i = 1 /\ j = 1 /\ l = [1]) \/ (i = 1 /\ j = 2 /\ l = [2]) \/ (i = 2 /\ j = 1 /\ l = [3])).
  { intros i j l. unfold holds, ex_p. cbn [In]. split; [intros [K|[K|[K|[]]]]; injection K as <- <- <-; tauto|]. intros [(-> & -> & ->)|[(-> & -> & ->)|(-> & -> & ->)]]; tauto. }
  assert (HQ : forall i j l, holds ex_q i j l <-> (i = 1 /\ j = 1 /\ l = [1; 1]) \/ (i = 1 /\ j = 2 /\ l = [2]) \/ (i = 2 /\ j = 1 /\ l = [2; 5])).
  { intros i j l. unfold holds, ex_q. cbn [In]. split; [intros [K|[K|[K|[]]]]; injection K as <- <- <-; tauto|]. intros [(-> & -> & ->)|[(-> & -> & ->)|(-> & -> & ->)]]; tauto. }
  assert (CP : forall i j, cell ex_p i j <-> (i = 1 /\ j = 1) \/ (i = 1 /\ j = 2) \/ (i = 2 /\ j = 1)).
  { intros i j. split; [intros [l H]; apply HP in H; tauto|]. intros [(-> & ->)|[(-> & ->)|(-> & ->)]]; eexists; apply HP; [left|right; left|right; right]; repeat split. }
  assert (CQ : forall i j, cell ex_q i j <-> (i = 1 /\ j = 1) \/ (i = 1 /\ j = 2) \/ (i = 2 /\ j = 1)).
  { intros i j. split; [intros [l H]; apply HQ in H; tauto|]. intros [(-> & ->)|[(-> & ->)|(-> & ->)]]; eexists; apply HQ; [left|right; left|right; right]; repeat split. }
  split; [apply WF; left; reflexivity|]. split; [apply WF; right; reflexivity|]. split; [|split; [|split; [|split; [|split]]]].
  - split; [|split; [|split]].
    + intros i j H. apply CP in H. split; [lia|]. split; [lia|]. intros r c Hr Hc. apply CP. lia.
    + intros i j l H. apply HP in H. destruct H as [(_ & _ & ->)|[(_ & _ & ->)|(_ & _ & ->)]]; eexists; reflexivity.
    + intros i j x y H1 H2. apply HP in H1, H2. destruct H1 as [(A & B & E)|[(A & B & E)|(A & B & E)]]; destruct H2 as [(A' & B' & E')|[(A' & B' & E')|(A' & B' & E')]]; try lia; injection E as ->; injection E' as ->; lia.
    + intros i j x y H1 H2. apply HP in H1, H2. destruct H1 as [(A & B & E)|[(A & B & E)|(A & B & E)]]; destruct H2 as [(A' & B' & E')|[(A' & B' & E')|(A' & B' & E')]]; try lia; injection E as ->; injection E' as ->; lia.
  - intros i j x H. apply HP in H. destruct H as [(_ & _ & E)|[(_ & _ & E)|(_ & _ & E)]]; injection E as ->; lia.
  - split; [|split].
    + intros i j l H. apply HQ in H. split; [|left; reflexivity]. destruct H as [(_ & _ & ->)|[(_ & _ & ->)|(_ & _ & ->)]]; discriminate.
    + intros i j l m x y H1 H2 Hx Hy. apply HQ in H1, H2. destruct H1 as [(A & B & ->)|[(A & B & ->)|(A & B & ->)]]; destruct H2 as [(A' & B' & ->)|[(A' & B' & ->)|(A' & B' & ->)]]; try lia; cbn [In] in Hx, Hy; lia.
    + intros i j l m x y H1 H2 Hx Hy. apply HQ in H1, H2. destruct H1 as [(A & B & ->)|[(A & B & ->)|(A & B & ->)]]; destruct H2 as [(A' & B' & ->)|[(A' & B' & ->)|(A' & B' & ->)]]; try lia; cbn [In] in Hx, Hy; lia.
  - intros i j l x H Hx. apply HQ in H. destruct H as [(_ & _ & ->)|[(_ & _ & ->)|(_ & _ & ->)]]; cbn [In] in Hx; lia.
  - intros i j. rewrite CP, CQ. reflexivity.
  - split; [|split]; vm_compute; reflexivity.
Qed.

Print Assumptions C101_onto.
Print Assumptions C101_standard.
Print Assumptions C101_negative_refuted.
