(* Decompositions of shifted shapes *)
From Coq Require Import List ZArith Lia Bool Permutation.
From Verif Require Import PyBase M_Partitions S_Partitions L_Partitions L_PartBasic M_Rims S_Rims.
Import ListNotations.
Local Open Scope Z_scope.

Definition strows (nu : list Z) : Prop := forall k, 0 <= row nu (S k) < row nu k \/ (row nu k = 0 /\ row nu (S k) = 0).
Lemma strows_zero : forall nu k j, strows nu -> row nu k = 0 -> (k <= j)%nat -> row nu j = 0.
Proof. intros nu k j H E L. induction L as [|j L IH]; [exact E|]. destruct (H j); lia. Qed.
Lemma strict_rows : forall nu, strict_partition nu <-> trimmed nu /\ strows nu.
Proof.
  intro nu. split.
  - intros [P S]. split; [apply pos_trimmed; exact P|]. intro k. pose proof (pos_nonneg nu P) as N. pose proof (row_nonneg nu (Datatypes.S k) N). destruct (Nat.lt_ge_cases k (length nu)) as [L|L].
    + left. pose proof (row_pos nu k P L). destruct (Nat.lt_ge_cases (Datatypes.S k) (length nu)) as [L'|L']; [specialize (S k L'); lia|]. rewrite (row_overflow nu (Datatypes.S k) L') in *. lia.
    + right. rewrite !row_overflow by lia. lia.
  - intros [T H]. assert (P : forall k, (k < length nu)%nat -> 0 < row nu k).
    { intros k L. destruct (Z.eq_dec (row nu k) 0) as [E|E].
      - exfalso. destruct T as [->|T]; [cbn in L; lia|]. apply T. assert (NE : nu <> []) by (intros ->; cbn in L; lia). rewrite last_row by exact NE. apply (strows_zero nu k); [exact H|exact E|lia].
      - destruct (H k); lia. }
    split.
    + apply Forall_forall. intros x Hx. destruct (In_nth nu x 0 Hx) as (k & L & <-). apply P. exact L.
    + intros i L. pose proof (P i ltac:(lia)). destruct (H i); lia.
Qed.
Lemma strict_trim : forall a nu, strict_partition nu -> row nu 0 < a \/ (a = 0 /\ nu = []) -> strict_partition (trim (a :: nu)).
Proof.
  intros a nu H K. apply strict_rows in H. destruct H as [T S]. apply strict_rows. split; [apply trimmed_trim|]. intro k. rewrite !trim_row. destruct k as [|k]; cbn [row nth].
  - change (nth 0 nu 0) with (row nu 0). destruct K as [K|[-> ->]]; [|right; split; reflexivity]. left. split; [destruct (S 0%nat); lia|exact K].
  - apply S.
Qed.
Lemma strict_split : forall nu, strict_partition nu -> nu = trim (row nu 0 :: tl nu) /\ strict_partition (tl nu) /\ (row (tl nu) 0 < row nu 0 \/ (row nu 0 = 0 /\ tl nu = [])).
Proof.
  intros [|a nu] H.
  - split; [reflexivity|]. split; [exact H|]. right. split; reflexivity.
  - pose proof (strict_tail a nu H) as H'. split; [cbn [tl row nth]; symmetry; apply trim_id; apply strict_rows; exact H|]. split; [exact H'|]. left. cbn [tl]. apply strict_rows in H. destruct H as [T S]. pose proof (S 0%nat) as K. cbn [row nth] in *. fold (row nu 0) in *. destruct K as [K|[K1 K2]]; [lia|]. exfalso. pose proof (pos_trimmed (a :: nu)). destruct T as [T|T]; [discriminate|]. apply T. rewrite last_row by discriminate. apply (strows_zero (a :: nu) 0%nat); [exact S|exact K1|lia].
Qed.
Lemma trim_cons_inj : forall a b nu la, trimmed nu -> trimmed la -> trim (a :: nu) = trim (b :: la) -> a = b /\ nu = la.
Proof.
  intros a b nu la T1 T2 E. split.
  - pose proof (f_equal (fun l => row l 0) E) as F. cbn beta in F. rewrite !trim_row in F. exact F.
  - apply trimmed_ext; [exact T1|exact T2|]. intro i. pose proof (f_equal (fun l => row l (S i)) E) as F. cbn beta in F. rewrite !trim_row in F. exact F.
Qed.

Lemma drims_ok : forall fuel mu, strict_partition mu -> (length mu < fuel)%nat -> exists l, drims_aux fuel mu = Ok l /\ NoDup l /\
  forall nu, In nu l <-> strict_partition nu /\ forall i, row mu (S i) <= row nu i <= row mu i.
Proof.
  induction fuel as [|fuel IH]; intros mu H L; [lia|]. cbn [drims_aux]. rewrite trim_id by (apply strict_rows; exact H). destruct mu as [|m0 r].
  - exists [[]]. split; [reflexivity|]. split; [repeat constructor; cbn; tauto|]. intro nu. split.
    + intros [<-|[]]. split; [exact H|]. intro i. rewrite !row_nil. lia.
    + intros [S K]. left. symmetry. apply trimmed_zero; [apply strict_rows; exact S|]. intro i. specialize (K i). rewrite !row_nil in K. lia.
  - pose proof (strict_tail m0 r H) as Hr. destruct (IH r Hr ltac:(cbn in L; lia)) as (l & E & N & M). rewrite E. cbn [rbind]. eexists. split; [reflexivity|].
    assert (B : match r with [] => 0 | m1 :: _ => m1 end = row r 0) by (destruct r; reflexivity). rewrite B.
    assert (A : forall nu : list Z, strict_partition nu -> forall a, (match nu with [] => 0 | n0 :: _ => n0 + 1 end <= a) <-> (row nu 0 < a \/ (a = 0 /\ nu = []))).
    { intros [|n0 nu] S a; cbn [row nth]; split; intro K; [|lia| |destruct K as [K|[_ K]]; [lia|discriminate]]; [|left; lia]. destruct (Z.eq_dec a 0); [right; auto|left; lia]. }
    split.
    + apply NoDup_flat_map; [exact N| |].
      * intros nu Hnu. apply NoDup_map_inj_in; [|apply NoDup_zrange]. intros a b _ _ Q. apply M in Hnu. destruct Hnu as [Hnu _]. apply strict_rows in Hnu. apply trim_cons_inj in Q; tauto.
      * intros nu la x Hn Hl H1 H2. apply in_map_iff in H1. apply in_map_iff in H2. destruct H1 as (a & <- & _). destruct H2 as (b & Q & _). apply M in Hn. apply M in Hl. destruct Hn as [Hn _]. destruct Hl as [Hl _]. apply strict_rows in Hn. apply strict_rows in Hl. apply trim_cons_inj in Q; [|tauto|tauto]. symmetry. tauto.
    + intro nu. rewrite in_flat_map. split.
      * intros (la & Hl & K). apply in_map_iff in K. destruct K as (a & <- & Ha). apply In_zrange in Ha. apply M in Hl. destruct Hl as [Sl Kl]. split; [apply strict_trim; [exact Sl|apply A; [exact Sl|lia]]|]. intro i. rewrite trim_row. destruct i as [|i]; cbn [row nth]; [fold (row r 0); lia|]. apply Kl.
      * intros [S K]. destruct (strict_split nu S) as (En & St & Ct). exists (tl nu). assert (Rt : forall i, row (tl nu) i = row nu (Datatypes.S i)) by (intro i; destruct nu; [cbn [tl]; rewrite !row_nil; reflexivity|reflexivity]). split.
        -- apply M. split; [exact St|]. intro i. rewrite Rt. apply (K (Datatypes.S i)).
        -- apply in_map_iff. exists (row nu 0). split; [symmetry; exact En|]. apply In_zrange. pose proof (K 0%nat) as K0. cbn [row nth] in K0. fold (row r 0) in K0. apply A in Ct; [|exact St]. split; [|unfold row in *; lia]. apply Z.max_lub; [exact Ct|apply K0].
Qed.

Lemma vrun_spec : forall mu m0 i, let n := vrun m0 i mu in (n <= length mu)%nat /\ (forall k, (k < n)%nat -> row mu k + i + Z.of_nat k = m0) /\ ((n < length mu)%nat -> row mu n + i + Z.of_nat n <> m0).
Proof.
  induction mu as [|a mu IH]; intros m0 i; cbn [vrun]; [cbn; split; [lia|]; split; intros; lia|]. destruct (Z.eqb_spec (a + i) m0) as [E|E].
  - destruct (IH m0 (i + 1)) as (A & B & C). cbn zeta in *. split; [cbn; lia|]. split.
    + intros [|k] K; cbn [row nth]; [lia|]. fold (row mu k). specialize (B k ltac:(lia)). lia.
    + intro K. cbn [length] in K. specialize (C ltac:(lia)). cbn [row nth]. fold (row mu (vrun m0 (i + 1) mu)). lia.
  - cbn zeta. split; [cbn; lia|]. split; [intros; lia|]. intros _. cbn [row nth]. lia.
Qed.
Lemma row_skipn : forall l n k, row (skipn n l) k = row l (n + k).
Proof. induction l as [|a l IH]; intros [|n] k; try reflexivity; [cbn [skipn]; rewrite !row_nil; reflexivity|]. cbn [skipn Nat.add row nth]. apply IH. Qed.
Lemma row_firstn : forall l n k, row (firstn n l) k = if (k <? n)%nat then row l k else 0.
Proof. induction l as [|a l IH]; intros [|n] k; cbn [firstn]; rewrite ?row_nil; try reflexivity; [destruct (Nat.ltb_spec k (S n)); reflexivity|]. destruct k as [|k]; [reflexivity|]. cbn [row nth]. fold (row (firstn n l) k). rewrite IH. reflexivity. Qed.
Lemma row_map_pred : forall l k, row (map (fun b => b - 1) l) k = if (k <? length l)%nat then row l k - 1 else 0.
Proof. induction l as [|a l IH]; intros [|k]; try reflexivity. cbn [map row nth length]. fold (row (map (fun b => b - 1) l) k). rewrite IH. reflexivity. Qed.
Lemma vrow : forall mu nu a i k, (a <= i)%nat -> (i <= length mu)%nat -> row (firstn a mu ++ map (fun b => b - 1) (skipn a (firstn i mu)) ++ nu) k =
  if (k <? a)%nat then row mu k else if (k <? i)%nat then row mu k - 1 else row nu (k - i).
Proof.
  intros mu nu a i k A I. rewrite app_row, firstn_length. replace (Nat.min a (length mu)) with a by lia. destruct (Nat.ltb_spec k a) as [K|K]; [rewrite row_firstn; destruct (Nat.ltb_spec k a); [reflexivity|lia]|].
  rewrite app_row, map_length, skipn_length, firstn_length. replace (Nat.min i (length mu) - a)%nat with (i - a)%nat by lia. destruct (Nat.ltb_spec (k - a) (i - a)) as [J|J].
  - rewrite row_map_pred, skipn_length, firstn_length. destruct (Nat.ltb_spec (k - a) (Nat.min i (length mu) - a)) as [_|]; [|lia]. rewrite row_skipn, row_firstn. replace (a + (k - a))%nat with k by lia. destruct (Nat.ltb_spec k i); [reflexivity|lia].
  - destruct (Nat.ltb_spec k i); [lia|]. f_equal. lia.
Qed.

Lemma vstrips_ok : forall fuel mu, strict_partition mu -> (length mu < fuel)%nat -> exists l, vstrips_aux fuel mu = Ok l /\ NoDup l /\
  forall nu, In nu l <-> strict_partition nu /\ vertical_strip mu nu.
Proof.
  induction fuel as [|fuel IH]; intros mu H L; [lia|]. cbn [vstrips_aux]. pose proof (proj1 (strict_rows mu) H) as [Tm Sm]. rewrite trim_id by exact Tm. destruct mu as [|m0 r] eqn:Em.
  - exists [[]]. split; [reflexivity|]. split; [repeat constructor; cbn; tauto|]. intro nu. unfold vertical_strip. split.
    + intros [<-|[]]. split; [exact H|]. intro i. rewrite !row_nil. lia.
    + intros [S K]. left. symmetry. apply trimmed_zero; [apply strict_rows; exact S|]. intro i. specialize (K i). rewrite row_nil in K. apply strict_rows in S. destruct S as [T S]. destruct (S i); lia.
  - rewrite <- Em in *. assert (M0 : row mu 0 = m0) by (rewrite Em; reflexivity). destruct (vrun_spec mu m0 0) as (I1 & I2 & I3). cbn zeta in *. set (i := vrun m0 0 mu) in *.
    assert (Ip : (0 < i)%nat) by (unfold i; rewrite Em; cbn [vrun]; rewrite Z.add_0_r, Z.eqb_refl; lia).
    assert (Hr : strict_partition (skipn i mu)).
    { apply strict_rows. split.
      - destruct (Nat.lt_ge_cases i (length mu)) as [J|J]; [|left; apply skipn_all2; exact J]. right. intro Z0. destruct Tm as [Tm|Tm]; [rewrite Tm in J; cbn in J; lia|]. apply Tm. rewrite last_row by (rewrite Em; discriminate). rewrite last_row in Z0; [|intro Q; apply (f_equal (@length Z)) in Q; rewrite skipn_length in Q; cbn in Q; lia]. rewrite row_skipn, skipn_length in Z0. replace (i + (length mu - i - 1))%nat with (length mu - 1)%nat in Z0 by lia. exact Z0.
      - intro k. rewrite !row_skipn. replace (i + Datatypes.S k)%nat with (Datatypes.S (i + k)) by lia. apply Sm. }
    destruct (IH (skipn i mu) Hr ltac:(rewrite skipn_length; lia)) as (l & E & N & M). rewrite E. cbn [rbind]. eexists. split; [reflexivity|].
    assert (Gap : row mu i + Z.of_nat i < m0 \/ row mu i = 0). { destruct (Nat.lt_ge_cases i (length mu)) as [J|J]; [|right; apply row_overflow; exact J]. left. specialize (I3 J). pose proof (I2 (i - 1)%nat ltac:(lia)) as Q. pose proof (Sm (i - 1)%nat) as S1. replace (Datatypes.S (i - 1)) with i in S1 by lia. pose proof (row_pos mu i (proj1 H) J). lia. }
    assert (Pi : forall k, (k < i)%nat -> 0 < row mu k) by (intros k K; apply row_pos; [apply H|lia]).
    split.
    + apply NoDup_flat_map; [apply seq_NoDup| |].
      * intros a Ha. apply in_seq in Ha. apply NoDup_map_inj_in; [|exact N]. intros x y Hx Hy Q. apply M in Hx. apply M in Hy. destruct Hx as [Hx _]. destruct Hy as [Hy _]. apply strict_rows in Hx. apply strict_rows in Hy. apply trimmed_ext; [tauto|tauto|]. intro k. pose proof (f_equal (fun l => row l (i + k)) Q) as F. cbn beta in F. rewrite !trim_row, !vrow in F by lia. destruct (Nat.ltb_spec (i + k) a); [lia|]. destruct (Nat.ltb_spec (i + k) i); [lia|]. replace (i + k - i)%nat with k in F by lia. exact F.
      * intros a b x Ha Hb Hx Hy. apply in_seq in Ha. apply in_seq in Hb. apply in_map_iff in Hx. apply in_map_iff in Hy. destruct Hx as (n1 & <- & _). destruct Hy as (n2 & Q & _).
        assert (F : forall k, (if (k <? b)%nat then row mu k else if (k <? i)%nat then row mu k - 1 else row n2 (k - i)) = (if (k <? a)%nat then row mu k else if (k <? i)%nat then row mu k - 1 else row n1 (k - i))).
        { intro k. pose proof (f_equal (fun l => row l k) Q) as F. cbn beta in F. rewrite !trim_row, !vrow in F by lia. exact F. }
        destruct (Nat.lt_trichotomy a b) as [K|[K|K]]; [exfalso|exact K|exfalso].
        -- specialize (F a). destruct (Nat.ltb_spec a b); [|lia]. destruct (Nat.ltb_spec a a); [lia|]. destruct (Nat.ltb_spec a i); lia.
        -- specialize (F b). destruct (Nat.ltb_spec b a); [|lia]. destruct (Nat.ltb_spec b b); [lia|]. destruct (Nat.ltb_spec b i); lia.
    + intro nu. rewrite in_flat_map. split.
      * intros (a & Ha & K). apply in_seq in Ha. apply in_map_iff in K. destruct K as (la & <- & Hla). apply M in Hla. destruct Hla as [Sl Kl]. apply strict_rows in Sl. destruct Sl as [Tl Sl].
        assert (R : forall k, row (trim (firstn a mu ++ map (fun b => b - 1) (skipn a (firstn i mu)) ++ la)) k = if (k <? a)%nat then row mu k else if (k <? i)%nat then row mu k - 1 else row la (k - i)) by (intro k; rewrite trim_row; apply vrow; lia).
        split.
        -- apply strict_rows. split; [apply trimmed_trim|]. intro k. rewrite !R. destruct (Nat.ltb_spec (Datatypes.S k) i) as [J|J].
           ++ pose proof (I2 k ltac:(lia)). pose proof (I2 (Datatypes.S k) ltac:(lia)). pose proof (Pi k ltac:(lia)). pose proof (Pi (Datatypes.S k) ltac:(lia)). destruct (Nat.ltb_spec (Datatypes.S k) a); destruct (Nat.ltb_spec k a); destruct (Nat.ltb_spec k i); lia.
           ++ destruct (Nat.ltb_spec (Datatypes.S k) a); [lia|]. destruct (Nat.ltb_spec k i) as [J'|J'].
              ** assert (Datatypes.S k = i) as <- by lia. replace (Datatypes.S k - Datatypes.S k)%nat with 0%nat by lia. pose proof (I2 k ltac:(lia)) as Q. specialize (Kl 0%nat). rewrite row_skipn in Kl. rewrite Nat.add_0_r in Kl. pose proof (Pi k ltac:(lia)). assert (0 <= row la 0) by (destruct (Sl 0%nat); lia). destruct (Nat.ltb_spec k a); lia.
              ** destruct (Nat.ltb_spec k a); [lia|]. replace (Datatypes.S k - i)%nat with (Datatypes.S (k - i)) by lia. apply Sl.
        -- intro k. rewrite R. destruct (Nat.ltb_spec k a); [lia|]. destruct (Nat.ltb_spec k i) as [J|J]; [lia|]. specialize (Kl (k - i)%nat). rewrite row_skipn in Kl. replace (i + (k - i))%nat with k in Kl by lia. exact Kl.
      * intros [Sn K]. pose proof (proj1 (strict_rows nu) Sn) as [Tn Rn].
        assert (Down : forall k j, (k <= j)%nat -> (j < i)%nat -> row nu k = row mu k - 1 -> row nu j = row mu j - 1).
        { intros k j L1. induction L1 as [|j L1 IHj]; intros L2 Q; [exact Q|]. specialize (IHj ltac:(lia) Q). pose proof (I2 j ltac:(lia)). pose proof (I2 (Datatypes.S j) ltac:(lia)). pose proof (K (Datatypes.S j)). pose proof (Pi (Datatypes.S j) L2). destruct (Rn j); lia. }
        assert (Ex : exists a, (a <= i)%nat /\ (forall k, (k < a)%nat -> row nu k = row mu k) /\ ((a < i)%nat -> row nu a = row mu a - 1)).
        { clear - K. induction i as [|i [a (A & B & C)]]; [exists 0%nat; repeat split; lia|]. destruct (Nat.eq_dec a i) as [->|NE].
          - destruct (Z.eq_dec (row nu i) (row mu i)) as [Q|Q].
            + exists (Datatypes.S i). split; [lia|]. split; [|lia]. intros k Hk. destruct (Nat.eq_dec k i) as [->|]; [exact Q|apply B; lia].
            + exists i. split; [lia|]. split; [exact B|]. intros _. specialize (K i). lia.
          - exists a. split; [lia|]. split; [exact B|]. intros _. apply C. lia. }
        destruct Ex as (a & A1 & A2 & A3). exists a. split; [apply in_seq; lia|]. apply in_map_iff. exists (skipn i nu). split.
        -- apply trimmed_ext; [apply trimmed_trim|exact Tn|]. intro k. rewrite trim_row, vrow by lia. destruct (Nat.ltb_spec k a) as [J|J]; [symmetry; apply A2; exact J|]. destruct (Nat.ltb_spec k i) as [J'|J']; [symmetry; apply (Down a k); [lia|lia|apply A3; lia]|]. rewrite row_skipn. f_equal. lia.
        -- apply M. split.
           ++ apply strict_rows. split.
              ** destruct (Nat.lt_ge_cases i (length nu)) as [J|J]; [|left; apply skipn_all2; exact J]. right. intro Z0. destruct Tn as [Tn|Tn]; [rewrite Tn in J; cbn in J; lia|]. apply Tn. rewrite last_row by (intros ->; cbn in J; lia). rewrite last_row in Z0; [|intro Q; apply (f_equal (@length Z)) in Q; rewrite skipn_length in Q; cbn in Q; lia]. rewrite row_skipn, skipn_length in Z0. replace (i + (length nu - i - 1))%nat with (length nu - 1)%nat in Z0 by lia. exact Z0.
              ** intro k. rewrite !row_skipn. replace (i + Datatypes.S k)%nat with (Datatypes.S (i + k)) by lia. apply Rn.
           ++ intro k. rewrite !row_skipn. apply K.
Qed.

(* rows of a rim *)
Lemma rim_rows : forall nu mu, strict_partition nu -> strict_partition mu -> (is_rim nu mu <-> forall i, row nu (S i) <= row mu i <= row nu i).
Proof.
  intros nu mu Hn Hm. apply strict_rows in Hn. apply strict_rows in Hm. destruct Hn as [_ Sn]. destruct Hm as [_ Sm]. unfold is_rim, shifted_skew_cell, shifted_cell. split.
  - intros [I D] i. split; [|apply I]. destruct (Z_le_gt_dec (row nu (S i)) (row mu i)) as [|G]; [assumption|exfalso]. pose proof (Sn i). pose proof (Sm i). apply (D (Z.of_nat i + 1) (Z.of_nat i + row nu (S i))). replace (Z.to_nat (Z.of_nat i + 1 - 1)) with i by lia. replace (Z.to_nat (Z.of_nat i + 1 + 1 - 1)) with (S i) by lia. lia.
  - intro H. split; [intro i; apply H|]. intros i j ((C1 & C2) & (C3 & C4)). specialize (H (Z.to_nat (i - 1))). pose proof (Sn (Z.to_nat (i - 1))). replace (Z.to_nat (i + 1 - 1)) with (S (Z.to_nat (i - 1))) in * by lia. lia.
Qed.
