(* Shifted Hecke insertion of one letter *)
From Coq Require Import List ZArith Bool Lia Sorted.
From Verif Require Import PyBase M_Partitions L_PartMore M_Tableaux S_Tableaux L_Tableaux M_Insertion M_FState L_Insertion1 L_Insertion2 L_FState1 L_FState2 L_FState3.
Import ListNotations.
Local Open Scope Z_scope.

Lemma FIncr_replace : forall L g i x a, FIncr L g -> 1 <= i -> i <= x -> x <= L i -> a < g i x -> (i = x \/ g i (x - 1) < a) -> (i = 1 \/ g (i - 1) x < a) -> FIncr L (updg g i x a).
Proof.
  intros L g i x a [I1 I2] Hi Hx Hl B C1 C2. split.
  - intros r c Hr Hc Hcl. destruct (Z.eq_dec r i) as [->|Er]; [|rewrite !updg_other by lia; apply I1; assumption]. destruct (Z.eq_dec c x) as [->|Ec].
    + rewrite updg_same, updg_other by lia. specialize (I1 i x Hr Hc Hcl). lia.
    + destruct (Z.eq_dec (c + 1) x) as [Ec2|Ec2].
      * rewrite Ec2. rewrite updg_same, updg_other by lia. destruct C1 as [C1|C1]; [lia|]. replace c with (x - 1) by lia. exact C1.
      * rewrite !updg_other by lia. apply I1; assumption.
  - intros r c Hr Hc Hcl. destruct (Z.eq_dec c x) as [->|Ec]; [|rewrite !updg_other by lia; apply I2; assumption]. destruct (Z.eq_dec r i) as [->|Er].
    + rewrite updg_same, updg_other by lia. specialize (I2 i x Hr Hc Hcl). lia.
    + destruct (Z.eq_dec (r + 1) i) as [Er2|Er2].
      * rewrite Er2. rewrite updg_same, updg_other by lia. destruct C2 as [C2|C2]; [lia|]. replace r with (i - 1) by lia. exact C2.
      * rewrite !updg_other by lia. apply I2; assumption.
Qed.
Lemma fshape_add : forall L H i j, fshape L H -> 1 <= i -> i <= j -> L i = j - 1 -> H j = i - 1 -> fshape (updr L i j) (updr H j i).
Proof.
  intros L H i j (S1 & S2 & S3) Hi Hj E1 E2. split; [|split].
  - intros r Hr. unfold updr. destruct (Z.eqb_spec r i) as [->|n]; [lia|apply S1; assumption].
  - intros c Hc. unfold updr. destruct (Z.eqb_spec c j) as [->|n]; [lia|apply S2; assumption].
  - intros r c Hr Hc. unfold updr. specialize (S3 r c Hr Hc). destruct (Z.eqb_spec r i) as [->|n], (Z.eqb_spec c j) as [->|n2]; lia.
Qed.
Lemma FIncr_add : forall L H g i j a, fshape L H -> FIncr L g -> 1 <= i -> i <= j -> L i = j - 1 -> H j = i - 1 -> (i < j -> g i (j - 1) < a) -> (2 <= i -> g (i - 1) j < a) ->
  FIncr (updr L i j) (updg g i j a).
Proof.
  intros L H g i j a (S1 & S2 & S3) [I1 I2] Hi Hj E1 E2 C1 C2. split.
  - intros r c Hr Hc Hl. unfold updr in Hl. destruct (Z.eqb_spec r i) as [->|n].
    + rewrite (updg_other g i j a i c) by lia. destruct (Z.eq_dec (c + 1) j) as [E|E].
      * rewrite E, updg_same. replace c with (j - 1) by lia. apply C1. lia.
      * rewrite updg_other by lia. apply I1; lia.
    + rewrite !updg_other by lia. apply I1; assumption.
  - intros r c Hr Hc Hl. unfold updr in Hl. destruct (Z.eqb_spec (r + 1) i) as [e|n].
    + rewrite (updg_other g i j a r c) by lia. destruct (Z.eq_dec c j) as [->|E].
      * rewrite e, updg_same. replace r with (i - 1) by lia. apply C2. lia.
      * rewrite updg_other by lia. apply I2; [assumption|assumption|]. rewrite e. lia.
    + pose proof (proj1 (S3 (r + 1) c ltac:(lia) Hc) Hl) as K. rewrite (updg_other g i j a (r + 1) c) by lia.
      rewrite updg_other; [apply I2; assumption|]. destruct (Z.eq_dec r i) as [->|]; [right; intros ->; lia|left; assumption].
Qed.

(* the invariants along the path *)
Lemma RInv_replace : forall L H g i a x, RInv L H g i a -> r_bump L g i a x -> i < x -> r_rep g i a x -> RInv L H (updg g i x a) (i + 1) (g i x).
Proof.
  intros L H g i a x (S & I & Hi & _) (Hx & B1 & B2) h [C1 C2]. split; [exact S|]. split; [apply FIncr_replace; try assumption; try lia; right; assumption|]. split; [lia|]. right. split; [lia|].
  exists x. replace (i + 1 - 1) with i by lia. rewrite updg_same. split; [lia|]. split; [lia|]. split; [|split; [|lia]].
  - intro K. rewrite updg_other by lia. apply I; lia.
  - intro K. rewrite updg_other by lia. apply I; lia.
Qed.
Lemma RInv_pass : forall L H g i a x, RInv L H g i a -> r_bump L g i a x -> i < x -> ~ (x = i + 1 /\ L (i + 1) < i + 1) -> RInv L H g (i + 1) (g i x).
Proof.
  intros L H g i a x (S & I & Hi & _) (Hx & B1 & B2) h C. split; [exact S|]. split; [exact I|]. split; [lia|]. right. split; [lia|].
  exists x. replace (i + 1 - 1) with i by lia. split; [lia|]. split; [lia|]. split; [|split; [|lia]]; intro K; apply I; lia.
Qed.
Lemma CInv_d2 : forall L H g i a, RInv L H g i a -> r_bump L g i a i -> d_rep g i a -> CInv L H (updg g i i a) (i + 1) (g i i).
Proof.
  intros L H g i a (S & I & Hi & _) (Hx & B1 & B2) D. split; [exact S|]. split; [apply FIncr_replace; try assumption; try lia; left; reflexivity|]. split; [lia|].
  exists i. replace (i + 1 - 1) with i by lia. rewrite updg_same. pose proof S as (S1 & S2 & S3). pose proof (S2 i Hi). split; [split; [assumption|apply S3; lia]|]. split; [lia|]. split; [lia|]. split; [|lia].
  intro K. rewrite updg_other by lia. apply I; [lia|lia|]. apply S3; lia.
Qed.
Lemma CInv_d2' : forall L H g i a, RInv L H g i a -> r_bump L g i a i -> ~ d_rep g i a -> CInv L H g (i + 1) (g i i).
Proof.
  intros L H g i a (S & I & Hi & _) (Hx & B1 & B2) D. split; [exact S|]. split; [exact I|]. split; [lia|].
  exists i. replace (i + 1 - 1) with i by lia. pose proof S as (S1 & S2 & S3). pose proof (S2 i Hi). split; [split; [assumption|apply S3; lia]|]. split; [lia|]. split; [lia|]. split.
  - intro K. apply I; [lia|lia|]. apply S3; lia.
  - intros _. destruct (Z.eq_dec i 1) as [E|E]; [exfalso; apply D; left; exact E|lia].
Qed.
Lemma CInv_replace : forall L H g j a x, CInv L H g j a -> c_bump H g j a x -> c_rep g j a x -> CInv L H (updg g x j a) (j + 1) (g x j).
Proof.
  intros L H g j a x HI B [C1 C2]. pose proof (c_bump_left L H g j a x HI B) as (X1 & X2 & X3). destruct HI as (S & I & Hj & _). destruct B as (Hx & B1 & B2). pose proof S as (S1 & S2 & S3).
  assert (XL : j <= L x) by (apply S3; lia). split; [exact S|]. split; [apply FIncr_replace; try assumption; try lia; right; assumption|]. split; [lia|].
  exists x. replace (j + 1 - 1) with j by lia. rewrite updg_same. split; [lia|]. split; [lia|]. split; [|split; [|lia]].
  - intro K. rewrite updg_other by lia. pose proof (S2 j ltac:(lia)). apply I; [lia|lia|]. apply S3; lia.
  - intro K. rewrite updg_other by lia. apply I; [lia|lia|]. apply S3; lia.
Qed.
Lemma CInv_pass : forall L H g j a x, CInv L H g j a -> c_bump H g j a x -> ~ c_rep g j a x -> CInv L H g (j + 1) (g x j).
Proof.
  intros L H g j a x HI B C. pose proof (c_bump_left L H g j a x HI B) as (X1 & X2 & X3). destruct HI as (S & I & Hj & y & Hy & H1 & H2 & H3 & H4). destruct B as (Hx & B1 & B2). pose proof S as (S1 & S2 & S3).
  split; [exact S|]. split; [exact I|]. split; [lia|].
  exists x. replace (j + 1 - 1) with j by lia. split; [lia|]. split; [lia|]. split; [|split].
  - intro K. pose proof (S2 j ltac:(lia)). apply I; [lia|lia|]. apply S3; lia.
  - intro K. apply I; [lia|lia|]. apply S3; lia.
  - intros _. destruct (Z.eq_dec x 1) as [->|]; [|lia]. exfalso. apply C. split; [|left; reflexivity].
    destruct (Z.eq_dec y 1) as [->|Ey].
    + destruct (Z.eq_dec (g 1 (j - 1)) a) as [E|E]; [specialize (H4 E); lia|lia].
    + pose proof (S2 (j - 1) ltac:(lia)). assert (j - 1 <= L y) by (apply S3; lia). pose proof (fcol_mono L H g 1 y (j - 1) S I ltac:(lia) ltac:(lia) ltac:(lia) ltac:(lia)). lia.
Qed.

(* the course of an insertion.  The last three arguments are the final box of the bumping path, whether a box was
   added and (for rows) whether the insertion left the rows for the columns. *)
Inductive CIns : (Z -> Z) -> (Z -> Z) -> (Z -> Z -> Z) -> Z -> Z -> (Z -> Z) -> (Z -> Z) -> (Z -> Z -> Z) -> box -> bool -> Prop :=
| ci_add : forall L H g j a, CInv L H g j a -> c_full H g j a -> c_add H g j a ->
    CIns L H g j a (updr L (H j + 1) j) (updr H j (H j + 1)) (updg g (H j + 1) j a) (H j + 1, j) true
| ci_stop : forall L H g j a, CInv L H g j a -> c_full H g j a -> ~ c_add H g j a -> CIns L H g j a L H g (H j + 1, j) false
| ci_bump : forall L H g j a x L' H' g' c k, CInv L H g j a -> c_bump H g j a x -> c_rep g j a x ->
    CIns L H (updg g x j a) (j + 1) (g x j) L' H' g' c k -> CIns L H g j a L' H' g' c k
| ci_pass : forall L H g j a x L' H' g' c k, CInv L H g j a -> c_bump H g j a x -> ~ c_rep g j a x ->
    CIns L H g (j + 1) (g x j) L' H' g' c k -> CIns L H g j a L' H' g' c k.
Inductive RIns : (Z -> Z) -> (Z -> Z) -> (Z -> Z -> Z) -> Z -> Z -> (Z -> Z) -> (Z -> Z) -> (Z -> Z -> Z) -> box -> bool -> bool -> Prop :=
| ri_add : forall L H g i a, RInv L H g i a -> r_full L g i a -> r_add L g i a ->
    RIns L H g i a (updr L i (L i + 1)) (updr H (L i + 1) i) (updg g i (L i + 1) a) (i, L i + 1) true false
| ri_stop : forall L H g i a, RInv L H g i a -> r_full L g i a -> ~ r_add L g i a -> RIns L H g i a L H g (i, L i + 1) false false
| ri_bump : forall L H g i a x L' H' g' c k neg, RInv L H g i a -> r_bump L g i a x -> i < x -> r_rep g i a x ->
    RIns L H (updg g i x a) (i + 1) (g i x) L' H' g' c k neg -> RIns L H g i a L' H' g' c k neg
| ri_pass : forall L H g i a x L' H' g' c k neg, RInv L H g i a -> r_bump L g i a x -> i < x -> ~ r_rep g i a x -> ~ (x = i + 1 /\ L (i + 1) < i + 1) ->
    RIns L H g (i + 1) (g i x) L' H' g' c k neg -> RIns L H g i a L' H' g' c k neg
| ri_d1 : forall L H g i a, RInv L H g i a -> r_bump L g i a (i + 1) -> ~ r_rep g i a (i + 1) -> L (i + 1) < i + 1 ->
    RIns L H g i a L H g (i + 1, i + 1) false true
| ri_d2 : forall L H g i a L' H' g' c k, RInv L H g i a -> r_bump L g i a i -> d_rep g i a ->
    CIns L H (updg g i i a) (i + 1) (g i i) L' H' g' c k -> RIns L H g i a L' H' g' c k true
| ri_d2' : forall L H g i a L' H' g' c k, RInv L H g i a -> r_bump L g i a i -> ~ d_rep g i a ->
    CIns L H g (i + 1) (g i i) L' H' g' c k -> RIns L H g i a L' H' g' c k true.

Lemma r_add_good : forall L H g i a, RInv L H g i a -> r_full L g i a -> H (L i + 1) = i - 1 /\
  (r_add L g i a -> fshape (updr L i (L i + 1)) (updr H (L i + 1) i) /\ FIncr (updr L i (L i + 1)) (updg g i (L i + 1) a)).
Proof.
  intros L H g i a HI F. pose proof (row_full_above L H g i a HI F) as FA. destruct HI as (S & I & Hi & _). pose proof S as (S1 & S2 & S3). pose proof (S1 i Hi).
  assert (E : H (L i + 1) = i - 1).
  { pose proof (S3 i (L i + 1) Hi ltac:(lia)). pose proof (S2 (L i + 1) ltac:(lia)). destruct FA as [->|(F0 & F1 & F2 & F3)]; [lia|]. pose proof (proj1 (S3 (i - 1) (L i + 1) ltac:(lia) ltac:(lia)) F1). lia. }
  split; [exact E|]. intros [C1 C2]. split; [apply fshape_add; try assumption; lia|]. apply (FIncr_add L H); try assumption; try lia.
  - intro h. replace (L i + 1 - 1) with (L i) by lia. apply C1. lia.
Qed.
Lemma c_add_good : forall L H g j a, CInv L H g j a -> c_full H g j a -> c_add H g j a ->
  fshape (updr L (H j + 1) j) (updr H j (H j + 1)) /\ FIncr (updr L (H j + 1) j) (updg g (H j + 1) j a).
Proof.
  intros L H g j a HI F [C1 C2]. pose proof (col_full_left L H g j a HI F) as (F0 & F1 & F2 & F3 & F4 & F5). destruct HI as (S & I & Hj & _).
  split; [apply fshape_add; try assumption; lia|]. apply (FIncr_add L H); try assumption; try lia.
  intro h. replace (H j + 1 - 1) with (H j) by lia. apply C1. lia.
Qed.
Lemma CIns_good : forall L H g j a L' H' g' c k, CIns L H g j a L' H' g' c k -> fshape L' H' /\ FIncr L' g'.
Proof. intros L H g j a L' H' g' c k HI. induction HI as [L H g j a I F C|L H g j a I F C| |]; [apply c_add_good; assumption|split; apply I|assumption|assumption]. Qed.
Lemma RIns_good : forall L H g i a L' H' g' c k neg, RIns L H g i a L' H' g' c k neg -> fshape L' H' /\ FIncr L' g'.
Proof.
  intros L H g i a L' H' g' c k neg HI. induction HI as [L H g i a I F C|L H g i a I F C| | |L H g i a I|L H g i a L' H' g' c k I B D K|L H g i a L' H' g' c k I B D K].
  - apply r_add_good; assumption.
  - split; apply I.
  - assumption.
  - assumption.
  - split; apply I.
  - exact (CIns_good _ _ _ _ _ _ _ _ _ _ K).
  - exact (CIns_good _ _ _ _ _ _ _ _ _ _ K).
Qed.

(* parity *)
Definition Evn (L : Z -> Z) (g : Z -> Z -> Z) : Prop := forall r c, fin L r c = true -> g r c mod 2 = 0.
Lemma Evn_replace : forall L g i j a, Evn L g -> a mod 2 = 0 -> Evn L (updg g i j a).
Proof. intros L g i j a E Ea r c Hc. unfold updg. destruct ((r =? i) && (c =? j)); [exact Ea|apply E; exact Hc]. Qed.
Lemma Evn_add : forall L g i j a, Evn L g -> a mod 2 = 0 -> L i = j - 1 -> Evn (updr L i j) (updg g i j a).
Proof.
  intros L g i j a E Ea EL r c Hc. unfold updg. destruct (Z.eqb_spec r i) as [->|n], (Z.eqb_spec c j) as [->|n2]; cbn [andb]; try exact Ea; apply E; apply fin_iff; apply fin_iff in Hc; unfold updr in Hc.
  - rewrite Z.eqb_refl in Hc. lia.
  - rewrite (proj2 (Z.eqb_neq r i) n) in Hc. lia.
  - rewrite (proj2 (Z.eqb_neq r i) n) in Hc. lia.
Qed.
Lemma CIns_even : forall L H g j a L' H' g' c k, CIns L H g j a L' H' g' c k -> Evn L g -> a mod 2 = 0 -> Evn L' g'.
Proof.
  intros L H g j a L' H' g' c k HI. induction HI as [L H g j a I F C|L H g j a I F C|L H g j a x L' H' g' c k I B C K IH|L H g j a x L' H' g' c k I B C K IH]; intros E Ea.
  - pose proof (col_full_left L H g j a I F). apply Evn_add; [assumption|assumption|lia].
  - assumption.
  - pose proof (c_bump_left L H g j a x I B). apply IH; [apply Evn_replace; assumption|]. apply E. apply fin_iff. destruct B as (B & _). destruct I as ((S1 & S2 & S3) & _). split; [lia|]. apply S3; lia.
  - pose proof (c_bump_left L H g j a x I B). apply IH; [assumption|]. apply E. apply fin_iff. destruct B as (B & _). destruct I as ((S1 & S2 & S3) & _). split; [lia|]. apply S3; lia.
Qed.
Lemma bump_even : forall L H g i a x, RInv L H g i a -> r_bump L g i a x -> Evn L g -> g i x mod 2 = 0.
Proof. intros L H g i a x I B E. apply E. apply fin_iff. destruct B as (B & _). destruct I as (_ & _ & Hi & _). lia. Qed.
Lemma RIns_even : forall L H g i a L' H' g' c k neg, RIns L H g i a L' H' g' c k neg -> Evn L g -> a mod 2 = 0 -> Evn L' g'.
Proof.
  intros L H g i a L' H' g' c k neg HI. induction HI as [L H g i a I F C|L H g i a I F C|L H g i a x L' H' g' c k neg I B h C K IH|L H g i a x L' H' g' c k neg I B h C D K IH|L H g i a I|L H g i a L' H' g' c k I B D K|L H g i a L' H' g' c k I B D K]; intros E Ea.
  - apply Evn_add; [assumption|assumption|lia].
  - assumption.
  - apply IH; [apply Evn_replace; assumption|]. apply (bump_even L H g i a); assumption.
  - apply IH; [assumption|]. apply (bump_even L H g i a); assumption.
  - assumption.
  - apply (CIns_even _ _ _ _ _ _ _ _ _ _ K); [apply Evn_replace; assumption|]. apply (bump_even L H g i a); assumption.
  - apply (CIns_even _ _ _ _ _ _ _ _ _ _ K); [assumption|]. apply (bump_even L H g i a); assumption.
Qed.

(* what happened to the shape *)
Definition outcome (L H L' H' : Z -> Z) (c : box) (k neg : bool) : Prop :=
  1 <= fst c <= snd c /\ H (snd c) = fst c - 1 /\
  if k then L (fst c) = snd c - 1 /\ L' = updr L (fst c) (snd c) /\ H' = updr H (snd c) (fst c) /\ (neg = true -> fst c < snd c)
  else L' = L /\ H' = H /\ if neg then 2 <= fst c else L (fst c) = snd c - 1 /\ fst c < snd c.
Lemma CIns_outcome : forall L H g j a L' H' g' c k, CIns L H g j a L' H' g' c k -> outcome L H L' H' c k true.
Proof.
  intros L H g j a L' H' g' c k HI. induction HI as [L H g j a I F C|L H g j a I F C| |]; [| |assumption|assumption]; pose proof (col_full_left L H g j a I F) as (F0 & F1 & F2 & F3 & F4 & F5); unfold outcome; cbn [fst snd].
  - split; [lia|]. split; [lia|]. split; [exact F3|]. split; [reflexivity|]. split; [reflexivity|]. lia.
  - split; [lia|]. split; [lia|]. split; [reflexivity|]. split; [reflexivity|]. destruct (Z.eq_dec (H j) 0) as [E|E]; [|lia]. exfalso. apply C. split; [intros; lia|]. lia.
Qed.
Lemma RIns_outcome : forall L H g i a L' H' g' c k neg, RIns L H g i a L' H' g' c k neg -> outcome L H L' H' c k neg.
Proof.
  intros L H g i a L' H' g' c k neg HI. induction HI as [L H g i a I F C|L H g i a I F C| | |L H g i a I B C D|L H g i a L' H' g' c k I B D K|L H g i a L' H' g' c k I B D K]; try assumption.
  - pose proof (r_add_good L H g i a I F) as [E _]. destruct I as ((S1 & _) & _ & Hi & _). pose proof (S1 i Hi). unfold outcome. cbn [fst snd]. split; [lia|]. split; [exact E|]. split; [lia|]. split; [reflexivity|]. split; [reflexivity|discriminate].
  - pose proof (r_add_good L H g i a I F) as [E _]. pose proof (row_full_above L H g i a I F) as FA. destruct I as ((S1 & _) & _ & Hi & _). pose proof (S1 i Hi). unfold outcome. cbn [fst snd]. split; [lia|]. split; [exact E|]. split; [reflexivity|]. split; [reflexivity|]. split; [lia|].
    destruct (Z_le_gt_dec i (L i)) as [h|h]; [lia|]. exfalso. apply C. split; [intros; lia|]. destruct FA as [FA|(F0 & F1 & F2 & F3)]; [left; exact FA|right]. lia.
  - destruct I as ((S1 & S2 & S3) & _ & Hi & _). destruct B as (B1 & B2 & B3). unfold outcome. cbn [fst snd]. split; [lia|]. split.
    + pose proof (S2 (i + 1) ltac:(lia)). pose proof (proj1 (S3 i (i + 1) ltac:(lia) ltac:(lia)) ltac:(lia)). pose proof (S3 (i + 1) (i + 1) ltac:(lia) ltac:(lia)). lia.
    + split; [reflexivity|]. split; [reflexivity|]. lia.
  - apply (CIns_outcome _ _ _ _ _ _ _ _ _ _ K).
  - apply (CIns_outcome _ _ _ _ _ _ _ _ _ _ K).
Qed.
