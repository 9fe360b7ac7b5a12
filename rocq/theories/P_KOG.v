(* C90, C91: KOG and KLG tableaux of shifted rims, their counts and their dicts by shape. *)
From Coq Require Import List ZArith Lia Bool Permutation Sorted.
From Verif Require Import PyBase M_Partitions S_Partitions L_Partitions L_PartBasic L_PartEnum M_Tableaux S_Tableaux L_Tableaux M_Rims S_Rims L_Rims1 L_Rims2 L_Rims3 M_KOG S_KOG L_KOG1 L_KOG2 L_KOG3 L_KOG4 L_KOG5 L_KOG6.
Import ListNotations.
Local Open Scope Z_scope.

Lemma kog_ext : forall p C C' F F', (forall x, C x <-> C' x) -> (forall x, C x -> F x = F' x) -> kog_filling C p F -> kog_filling C' p F'.
Proof.
  intros p C C' F F' HC HF (A & B & (D1 & D2) & E). assert (HF' : forall x, C' x -> F' x = F x) by (intros x Hx; symmetry; apply HF; apply HC; exact Hx).
  split; [|split; [|split; [split|]]].
  - intros x Hx. rewrite HF' by exact Hx. apply A. apply HC. exact Hx.
  - intros v Hv. destruct (B v Hv) as (x & Hx & Ex). exists x. rewrite <- HF by exact Hx. split; [apply HC; exact Hx|exact Ex].
  - intros i j H1 H2. rewrite !HF' by assumption. apply D1; apply HC; assumption.
  - intros i j H1 H2. rewrite !HF' by assumption. apply D2; apply HC; assumption.
  - intros y Hy. rewrite HF' by exact Hy. destruct (E y (proj2 (HC y) Hy)) as [E1|E1]; [left|right]; intros x Hx Sx; rewrite HF' by exact Hx; apply E1; (apply HC; exact Hx) || exact Sx.
Qed.
Lemma klg_ext : forall p C C' F F', (forall x, C x <-> C' x) -> (forall x, C x -> F x = F' x) -> klg_filling C p F -> klg_filling C' p F'.
Proof.
  intros p C C' F F' HC HF (A & B & (D1 & D2) & E & G1 & G2). assert (HF' : forall x, C' x -> F' x = F x) by (intros x Hx; symmetry; apply HF; apply HC; exact Hx).
  split; [|split; [|split; [split|split; [|split]]]].
  - intros x Hx. rewrite HF' by exact Hx. apply A. apply HC. exact Hx.
  - intros v Hv. destruct (B v Hv) as (x & Hx & Ex). exists x. rewrite <- HF by exact Hx. split; [apply HC; exact Hx|exact Ex].
  - intros i j H1 H2. rewrite !HF' by assumption. apply D1; apply HC; assumption.
  - intros i j H1 H2. rewrite !HF' by assumption. apply D2; apply HC; assumption.
  - intros i H. rewrite HF' by exact H. apply E. apply HC. exact H.
  - intros y Hy L x Hx Sx. rewrite HF' in L by exact Hy. rewrite !HF' by assumption. apply G1; (apply HC; assumption) || assumption.
  - intros y Hy L x Hx Sx. rewrite HF' in L by exact Hy. rewrite !HF' by assumption. apply G2; (apply HC; assumption) || assumption.
Qed.
Lemma row1 : forall mu nu j, strict_partition mu -> (skew_cell nu mu (1, j) <-> 1 + row mu 0 <= j < 1 + row nu 0).
Proof. intros mu nu j H. unfold skew_cell. cbn [fst snd]. rewrite (skc mu nu H). replace (Z.to_nat (1 - 1)) with 0%nat by reflexivity. lia. Qed.
Lemma kog_bound : forall p mu nu F, 0 <= p -> strict_partition mu -> kog_filling (skew_cell nu mu) p F -> row nu 0 <= row mu 0 + Z.max 0 p.
Proof.
  intros p mu nu F Hp Hm (A & _ & (D & _) & _).
  assert (G : forall k, skew_cell nu mu (1, 1 + row mu 0 + Z.of_nat k) -> 1 + Z.of_nat k <= F (1, 1 + row mu 0 + Z.of_nat k)).
  { induction k as [|k IH]; intro H; [specialize (A _ H); lia|]. assert (H0 : skew_cell nu mu (1, 1 + row mu 0 + Z.of_nat k)) by (apply row1; [exact Hm|]; apply row1 in H; [lia|exact Hm]). specialize (IH H0). replace (1 + row mu 0 + Z.of_nat (S k)) with (1 + row mu 0 + Z.of_nat k + 1) in * by lia. specialize (D _ _ H0 H). cbv beta in D. lia. }
  destruct (Z_le_gt_dec (row nu 0) (row mu 0 + Z.max 0 p)) as [|Q]; [assumption|exfalso]. assert (H : skew_cell nu mu (1, 1 + row mu 0 + Z.of_nat (Z.to_nat p))) by (apply row1; [exact Hm|lia]). pose proof (G _ H). specialize (A _ H). lia.
Qed.
Lemma klg_bound : forall p mu nu F, 0 <= p -> strict_partition mu -> klg_filling (skew_cell nu mu) p F -> row nu 0 <= row mu 0 + Z.max 0 (p + 1).
Proof.
  intros p mu nu F Hp Hm (A & _ & (D & _) & _ & E & _).
  assert (P : forall j, skew_cell nu mu (1, j) -> skew_cell nu mu (1, j + 1) -> 0 < F (1, j + 1)).
  { intros j H1 H2. destruct (Z_lt_ge_dec 0 (F (1, j + 1))) as [|L]; [assumption|exfalso]. pose proof (A _ H2). specialize (E (1, j + 1) H2 ltac:(lia) (1, j) H1 ltac:(unfold southwest; cbn; lia)). specialize (D _ _ H1 H2). lia. }
  assert (G : forall k, skew_cell nu mu (1, 1 + row mu 0 + Z.of_nat (S k)) -> 1 + Z.of_nat k <= F (1, 1 + row mu 0 + Z.of_nat (S k))).
  { induction k as [|k IH]; intro H.
    - replace (1 + row mu 0 + Z.of_nat 1) with (1 + row mu 0 + 1) in * by lia. assert (H0 : skew_cell nu mu (1, 1 + row mu 0)) by (apply row1; [exact Hm|]; apply row1 in H; [lia|exact Hm]). pose proof (P _ H0 H). lia.
    - assert (H0 : skew_cell nu mu (1, 1 + row mu 0 + Z.of_nat (S k))) by (apply row1; [exact Hm|]; apply row1 in H; [lia|exact Hm]). specialize (IH H0). replace (1 + row mu 0 + Z.of_nat (S (S k))) with (1 + row mu 0 + Z.of_nat (S k) + 1) in * by lia. specialize (D _ _ H0 H). pose proof (P _ H0 H). unfold mark_rank in D. destruct (Z.ltb_spec 0 (F (1, 1 + row mu 0 + Z.of_nat (S k)))); destruct (Z.ltb_spec 0 (F (1, 1 + row mu 0 + Z.of_nat (S k) + 1))); lia. }
  destruct (Z_le_gt_dec (row nu 0) (row mu 0 + Z.max 0 (p + 1))) as [|Q]; [assumption|exfalso]. assert (H : skew_cell nu mu (1, 1 + row mu 0 + Z.of_nat (S (Z.to_nat p)))) by (apply row1; [exact Hm|lia]). pose proof (G _ H). specialize (A _ H). lia.
Qed.

Section Both.
  Variable cord : list box -> list box.
  Hypothesis cord_perm : forall l, Permutation (cord l) l.
  Variables (mu : list Z) (p : Z).
  Hypothesis Hm : strict_partition mu.
  Hypothesis Hp : 0 <= p.

  Lemma kaux : forall C, NoDup C -> let cs := kog_aux cord (Z.to_nat p) [] C in NoDup (map (wordof C) cs) /\ (forall c, In c cs -> Permutation (map fst c) C /\ NoDup (map fst c)) /\
    forall F, In (map F C) (map (wordof C) cs) <-> kog_filling (fun x => In x C) p F.
  Proof. intros C N. pose proof (kog_aux_ok cord cord_perm (Z.to_nat p) C N) as K. rewrite Z2Nat.id in K by exact Hp. exact K. Qed.
  Lemma laux : forall C, NoDup C -> let cs := klg_aux cord (Z.to_nat p) [] C in NoDup (map (wordof C) cs) /\ (forall c, In c cs -> Permutation (map fst c) C /\ NoDup (map fst c)) /\
    forall F, In (map F C) (map (wordof C) cs) <-> klg_filling (fun x => In x C) p F.
  Proof. intros C N. pose proof (klg_aux_ok cord cord_perm (Z.to_nat p) C N) as K. rewrite Z2Nat.id in K by exact Hp. exact K. Qed.
  Lemma kcnt : forall nu t, is_shape mu nu t -> kog_count (S (length t)) p t = Ok (zlen (kog_aux cord (Z.to_nat p) [] t)).
  Proof.
    intros nu t (Hn & HR & S & M). destruct (rim_path mu nu Hm Hn HR t (sorted_NoDup t S) M) as (R & HRim & _). pose proof (kog_count_ok (Datatypes.S (length t)) t R (Z.to_nat p) HRim) as K. rewrite Z2Nat.id in K by exact Hp.
    rewrite K.
    - f_equal. unfold zlen. f_equal. symmetry. destruct HRim as (RN & RM & RP). unfold N1. apply (aux_count (kog_aux cord (Z.to_nat p) []) (fun C F => kog_filling C p F) kaux (kog_ext p) t R (gen1 R (Z.to_nat p)) (conj RN (conj RM RP)) (gen1_NoDup R _)).
      + intro F. pose proof (fill1 (Z.to_nat p) F R RP) as Q. rewrite Z2Nat.id in Q by exact Hp. exact Q.
      + intros w Hw. apply gen1_ok in Hw. destruct Hw as [Hw _]. apply (wok_length _ _ _ _ Hw).
    - destruct HRim as (RN & RM & RP). assert (L : (length R <= length t)%nat) by (apply NoDup_incl_length; [apply rpath_NoDup; exact RP|intros x Hx; apply RM; exact Hx]). lia.
  Qed.
  Lemma lcnt : forall nu t, is_shape mu nu t -> klg_count (S (length t)) p t = Ok (zlen (klg_aux cord (Z.to_nat p) [] t)).
  Proof.
    intros nu t (Hn & HR & S & M). destruct (rim_path mu nu Hm Hn HR t (sorted_NoDup t S) M) as (R & HRim & HD). pose proof (klg_count_ok (Datatypes.S (length t)) t R (Z.to_nat p) HRim HD) as K. rewrite Z2Nat.id in K by exact Hp.
    rewrite K.
    - f_equal. unfold zlen. f_equal. symmetry. destruct HRim as (RN & RM & RP). unfold N2. apply (aux_count (klg_aux cord (Z.to_nat p) []) (fun C F => klg_filling C p F) laux (klg_ext p) t R (gen2 R (Z.to_nat p)) (conj RN (conj RM RP)) (gen2_NoDup R _)).
      + intro F. pose proof (fill2 (Z.to_nat p) F R RP HD) as Q. rewrite Z2Nat.id in Q by exact Hp. exact Q.
      + intros w Hw. apply gen2_ok in Hw. destruct Hw as [Hw _]. apply (wok_length _ _ _ _ Hw).
    - destruct HRim as (RN & RM & RP). assert (L : (length R <= length t)%nat) by (apply NoDup_incl_length; [apply rpath_NoDup; exact RP|intros x Hx; apply RM; exact Hx]). lia.
  Qed.
  Lemma KOG_enum : KOG cord p mu = enum_all (kog_aux cord (Z.to_nat p) []) mu p.
  Proof.
    unfold KOG, enum_all. destruct (rims mu p) as [shapes|e]; [|reflexivity]. cbn [rbind]. f_equal. induction shapes as [|t l IH]; [reflexivity|]. cbn [rmap]. unfold kog_helper at 1. replace (p <? 0) with false by (symmetry; apply Z.ltb_ge; exact Hp). cbn [rbind]. rewrite IH. reflexivity.
  Qed.
  Lemma KLG_enum : KLG cord p mu = enum_all (klg_aux cord (Z.to_nat p) []) mu (p + 1).
  Proof.
    unfold KLG, enum_all. destruct (rims mu (p + 1)) as [shapes|e]; [|reflexivity]. cbn [rbind]. f_equal. induction shapes as [|t l IH]; [reflexivity|]. cbn [rmap]. unfold klg_helper at 1. replace (p <? 0) with false by (symmetry; apply Z.ltb_ge; exact Hp). rewrite IH. reflexivity.
  Qed.
End Both.

(* KOG(p, mu) yields the KOG tableaux of content p on the rims nu/mu, once each, for every iteration order of the sets of
   corners *)
Theorem C90_KOG : forall cord p mu, (forall l, Permutation (cord l) l) -> strict_partition mu -> 0 <= p ->
  exists l, KOG cord p mu = Ok l /\ NoDup l /\ forall t, In t l <-> exists nu, strict_partition nu /\ is_rim nu mu /\ KOG_tableau nu mu p t.
Proof.
  intros cord p mu cp Hm Hp. rewrite (KOG_enum cord mu p Hp). apply (enum_ok _ (fun C F => kog_filling C p F) (kaux cord cp p Hp) (kog_ext p) mu p Hm). intros nu F _ _ HF. apply (kog_bound p mu nu F Hp Hm HF).
Qed.
Print Assumptions C90_KOG.
Theorem C90_KOG_negative : forall cord p mu, strict_partition mu -> p < 0 -> KOG cord p mu = Err AssertionError.
Proof.
  intros cord p mu Hm Hp. unfold KOG. destruct (rims_ok mu p Hm) as (shapes & E & _ & M). rewrite E. cbn [rbind]. destruct shapes as [|t l].
  - exfalso. assert (K : In [] (@nil (list box))); [|destruct K]. apply M. exists mu. split; [exact Hm|]. split; [|split; [lia|split; [constructor|]]].
    + intro i. pose proof (strows_step mu i Hm). lia.
    + intros i j. unfold shifted_skew_cell. split; [intros []|tauto].
  - cbn [rmap]. unfold kog_helper. replace (p <? 0) with true by (symmetry; apply Z.ltb_lt; exact Hp). reflexivity.
Qed.
Print Assumptions C90_KOG_negative.
(* KOG_counts(nu, mu, p) is the number of KOG tableaux of shape nu/mu and content p *)
Theorem C90_KOG_counts : forall nu mu p, strict_partition nu -> strict_partition mu -> is_rim nu mu -> 0 <= p ->
  exists l, NoDup l /\ (forall t, In t l <-> KOG_tableau nu mu p t) /\ KOG_counts nu mu p = Ok (zlen l).
Proof.
  intros nu mu p Hn Hm HR Hp.
  apply (count_ok (kog_aux (fun l => l) (Z.to_nat p) []) (fun C F => kog_filling C p F) (kaux _ (fun l => Permutation_refl l) p Hp) (kog_ext p) mu Hm (fun t => kog_count (S (length t)) p t) (kcnt _ (fun l => Permutation_refl l) mu p Hm Hp) nu Hn HR).
Qed.
Print Assumptions C90_KOG_counts.
Theorem C90_KOG_counts_negative : forall nu mu p, p < 0 -> KOG_counts nu mu p = Ok 0.
Proof. intros nu mu p H. apply kog_count_neg. exact H. Qed.
Print Assumptions C90_KOG_counts_negative.
(* KOG_by_shape(p, mu): the shapes nu with a tableau, each with its tableaux, once each; KOG_counts_by_shape(p, mu) is the
   dict of the lengths of these lists *)
Theorem C90_by_shape : forall cord p mu, (forall l, Permutation (cord l) l) -> strict_partition mu -> 0 <= p ->
  exists d, KOG_by_shape cord p mu = Ok d /\ NoDup (map fst d) /\
    (forall nu l, In (nu, l) d -> strict_partition nu /\ is_rim nu mu /\ l <> [] /\ NoDup l /\ forall t, In t l <-> KOG_tableau nu mu p t) /\
    (forall nu t, strict_partition nu -> is_rim nu mu -> KOG_tableau nu mu p t -> In nu (map fst d)) /\
    KOG_counts_by_shape p mu = Ok (map (fun kv => (fst kv, zlen (snd kv))) d).
Proof.
  intros cord p mu cp Hm Hp. unfold KOG_by_shape. rewrite (KOG_enum cord mu p Hp).
  apply (by_ok (kog_aux cord (Z.to_nat p) []) (fun C F => kog_filling C p F) (kaux cord cp p Hp) (kog_ext p) mu p Hm (fun nu F _ _ HF => kog_bound p mu nu F Hp Hm HF) (fun t => kog_count (S (length t)) p t) (kcnt cord cp mu p Hm Hp)).
Qed.
Print Assumptions C90_by_shape.
Example C90_ex : strict_partition [3; 1] /\
  KOG_counts_by_shape 3 [3; 1] = Ok [([6; 1], 1); ([5; 2], 2); ([6; 2], 2); ([4; 3], 1); ([5; 3], 2); ([6; 3], 1); ([4; 2; 1], 2); ([5; 2; 1], 3); ([6; 2; 1], 1); ([4; 3; 1], 2); ([5; 3; 1], 3); ([6; 3; 1], 1)] /\
  KOG (fun l => l) 2 [2] = Ok [[((1, 3), [1]); ((1, 4), [2])]; [((1, 3), [2]); ((2, 2), [1])]; [((1, 3), [1]); ((2, 2), [2])]; [((1, 3), [1]); ((1, 4), [2]); ((2, 2), [1])]; [((1, 3), [1]); ((1, 4), [2]); ((2, 2), [2])]; [((1, 3), [1]); ((2, 2), [1]); ((2, 3), [2])]; [((1, 3), [1]); ((1, 4), [2]); ((2, 2), [1]); ((2, 3), [2])]].
Proof. split; [split; [repeat (apply Forall_cons || apply Forall_nil); lia|intros [|[|i]] Hi; cbn in *; lia]|]. split; vm_compute; reflexivity. Qed.

(* KLG(p, mu) yields the KLG tableaux of content p on the rims nu/mu, once each *)
Theorem C91_KLG : forall cord p mu, (forall l, Permutation (cord l) l) -> strict_partition mu -> 0 <= p ->
  exists l, KLG cord p mu = Ok l /\ NoDup l /\ forall t, In t l <-> exists nu, strict_partition nu /\ is_rim nu mu /\ KLG_tableau nu mu p t.
Proof.
  intros cord p mu cp Hm Hp. rewrite (KLG_enum cord mu p Hp). apply (enum_ok _ (fun C F => klg_filling C p F) (laux cord cp p Hp) (klg_ext p) mu (p + 1) Hm). intros nu F _ _ HF. apply (klg_bound p mu nu F Hp Hm HF).
Qed.
Print Assumptions C91_KLG.
Theorem C91_KLG_counts : forall nu mu p, strict_partition nu -> strict_partition mu -> is_rim nu mu -> 0 <= p ->
  exists l, NoDup l /\ (forall t, In t l <-> KLG_tableau nu mu p t) /\ KLG_counts nu mu p = Ok (zlen l).
Proof.
  intros nu mu p Hn Hm HR Hp.
  apply (count_ok (klg_aux (fun l => l) (Z.to_nat p) []) (fun C F => klg_filling C p F) (laux _ (fun l => Permutation_refl l) p Hp) (klg_ext p) mu Hm (fun t => klg_count (S (length t)) p t) (lcnt _ (fun l => Permutation_refl l) mu p Hm Hp) nu Hn HR).
Qed.
Print Assumptions C91_KLG_counts.
Theorem C91_KLG_counts_negative : forall nu mu p, p < 0 -> KLG_counts nu mu p = Ok 0.
Proof. intros nu mu p H. apply klg_count_neg. exact H. Qed.
Print Assumptions C91_KLG_counts_negative.
Theorem C91_by_shape : forall cord p mu, (forall l, Permutation (cord l) l) -> strict_partition mu -> 0 <= p ->
  exists d, KLG_by_shape cord p mu = Ok d /\ NoDup (map fst d) /\
    (forall nu l, In (nu, l) d -> strict_partition nu /\ is_rim nu mu /\ l <> [] /\ NoDup l /\ forall t, In t l <-> KLG_tableau nu mu p t) /\
    (forall nu t, strict_partition nu -> is_rim nu mu -> KLG_tableau nu mu p t -> In nu (map fst d)) /\
    KLG_counts_by_shape p mu = Ok (map (fun kv => (fst kv, zlen (snd kv))) d).
Proof.
  intros cord p mu cp Hm Hp. unfold KLG_by_shape. rewrite (KLG_enum cord mu p Hp).
  apply (by_ok (klg_aux cord (Z.to_nat p) []) (fun C F => klg_filling C p F) (laux cord cp p Hp) (klg_ext p) mu (p + 1) Hm (fun nu F _ _ HF => klg_bound p mu nu F Hp Hm HF) (fun t => klg_count (S (length t)) p t) (lcnt cord cp mu p Hm Hp)).
Qed.
Print Assumptions C91_by_shape.
(* unlike KOG, KLG does not reject a negative p, and then disagrees with the counts *)
Theorem C91_negative_refuted : ~ (forall cord p mu l, (forall l, Permutation (cord l) l) -> strict_partition mu -> KLG cord p mu = Ok l -> p < 0 -> l = []).
Proof.
  intro H. specialize (H (fun l => l) (-1) [3; 1] [[((2, 3), [-1])]] (fun l => Permutation_refl l)). assert (X : [[((2, 3), [-1])]] = @nil tab); [|discriminate]. apply H; [|vm_compute; reflexivity|lia]. split; [repeat (apply Forall_cons || apply Forall_nil); lia|intros [|[|i]] Hi; cbn in *; lia].
Qed.
Print Assumptions C91_negative_refuted.
Example C91_ex : strict_partition [3; 1] /\
  KLG_counts_by_shape 2 [3; 1] = Ok [([5; 1], 2); ([6; 1], 1); ([4; 2], 4); ([5; 2], 6); ([6; 2], 2); ([4; 3], 3); ([5; 3], 4); ([6; 3], 1); ([3; 2; 1], 1); ([4; 2; 1], 4); ([5; 2; 1], 4); ([6; 2; 1], 1); ([4; 3; 1], 3); ([5; 3; 1], 4); ([6; 3; 1], 1)] /\
  KLG (fun l => l) 1 [2] = Ok [[((1, 3), [-1])]; [((1, 3), [1])]; [((1, 3), [-1]); ((1, 4), [1])]; [((2, 2), [1])]; [((1, 3), [-1]); ((2, 2), [1])]; [((1, 3), [1]); ((2, 2), [1])]; [((1, 3), [-1]); ((1, 4), [1]); ((2, 2), [1])]].
Proof. split; [split; [repeat (apply Forall_cons || apply Forall_nil); lia|intros [|[|i]] Hi; cbn in *; lia]|]. split; vm_compute; reflexivity. Qed.
