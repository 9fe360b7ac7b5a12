(* Ordered columns of tableaux as sorted lists of codes *)
From Coq Require Import List ZArith Bool Lia Permutation Sorted.
From Verif Require Import PyBase M_Partitions S_Tableaux M_Tableaux L_Tableaux S_Semistandard S_Standardize M_DiagUnprime S_DiagUnprime L_DiagUnprime1 L_DiagUnprime2 L_DiagUnprime3.
Import ListNotations.
Local Open Scope Z_scope.

Lemma code_neg : forall v, v < 0 -> code v = -1 - 2 * v.
Proof. intros v H. unfold code. rewrite (proj2 (Z.ltb_lt v 0)) by exact H. reflexivity. Qed.
Lemma code_pos : forall v, 0 <= v -> code v = 2 * v.
Proof. intros v H. unfold code. rewrite (proj2 (Z.ltb_ge v 0)) by exact H. reflexivity. Qed.
Lemma odd_code : forall v, code v mod 2 <> 0 <-> v < 0.
Proof.
  intro v. destruct (Z.lt_ge_cases v 0).
  - rewrite code_neg by assumption. replace (-1 - 2 * v) with (1 + (- v - 1) * 2) by lia. rewrite Z.mod_add by lia. change (1 mod 2) with 1. split; [intros _; assumption|intros _; discriminate].
  - rewrite code_pos by assumption. replace (2 * v) with (v * 2) by lia. rewrite Z.mod_mul by lia. split; [congruence|lia].
Qed.
Lemma cord_code : forall x y, x <> 0 -> y <> 0 -> (cord (code x) (code y) <-> column_ok x y).
Proof.
  intros x y Hx Hy. unfold cord, column_ok. rewrite odd_code. destruct (Z.lt_ge_cases x 0), (Z.lt_ge_cases y 0); rewrite ?(code_neg x), ?(code_neg y), ?(code_pos x), ?(code_pos y) by assumption; lia.
Qed.
Lemma code_inj : forall x y, code x = code y -> x = y.
Proof. intros x y H. rewrite <- (code_uncode x), <- (code_uncode y), H. reflexivity. Qed.
Lemma code_cnt : forall l x, cnt (map code l) (code x) = cnt l x.
Proof.
  induction l as [|y l IH]; intro x; [reflexivity|]. cbn [map count_occ]. rewrite IH. destruct (Z.eq_dec (code y) (code x)) as [E|N], (Z.eq_dec y x) as [E'|N']; try reflexivity; exfalso; [apply N', code_inj, E|apply N; congruence].
Qed.
Lemma cord_sorted : forall b, increasing b -> (StronglySorted cord b <-> forall z, z mod 2 = 0 -> (cnt b z <= 1)%nat).
Proof.
  intros b I. induction I as [|x b I IH F]; [split; [cbn; lia|constructor]|]. split.
  - intros S z Hz. inversion S as [|? ? S1 F1]; subst. cbn [count_occ]. destruct (Z.eq_dec x z) as [->|N]; [|exact (proj1 IH S1 z Hz)].
    assert (cnt b z = 0)%nat; [|lia]. apply count_occ_not_In. intro H. rewrite Forall_forall in F1. destruct (F1 z H) as [A|[_ A]]; [lia|congruence].
  - intro H. constructor.
    + apply IH. intros z Hz. specialize (H z Hz). cbn [count_occ] in H. destruct (Z.eq_dec x z); lia.
    + apply Forall_forall. intros y Hy. rewrite Forall_forall in F. specialize (F y Hy). destruct (Z.eq_dec x y) as [->|N]; [|left; lia]. right. split; [reflexivity|]. intro E. specialize (H y E). cbn [count_occ] in H. destruct (Z.eq_dec y y); [|congruence].
      apply (count_occ_In Z.eq_dec) in Hy. lia.
Qed.
Lemma cord_increasing : forall b, StronglySorted cord b -> increasing b.
Proof. intros b S. induction S as [|x b S IH F]; constructor; [exact IH|]. eapply Forall_impl; [|exact F]. intros y [A|[A _]]; lia. Qed.
Lemma encode_perm : forall l, Permutation (encode l) (map code l).
Proof. intro l. apply Permutation_sym, sorted_perm. Qed.
Lemma encode_sorted : forall l, Forall (fun x => x <> 0) l -> (StronglySorted cord (encode l) <-> unprimed_once l).
Proof.
  intros l N. rewrite (cord_sorted (encode l) (sorted_increasing _)).
  assert (C : forall z, cnt (encode l) z = cnt (map code l) z) by (apply Permutation_count_occ, encode_perm). split.
  - intros H x Hx. rewrite <- code_cnt, <- C. apply H. destruct (Z.eq_dec (code x mod 2) 0) as [E|E]; [exact E|]. apply odd_code in E. lia.
  - intros H z Hz. rewrite C. destruct (in_dec Z.eq_dec z (map code l)) as [I|I].
    + apply in_map_iff in I. destruct I as (x & <- & Hx). rewrite code_cnt. apply H. rewrite Forall_forall in N. specialize (N x Hx). destruct (Z.lt_ge_cases x 0) as [L|L]; [apply odd_code in L; congruence|lia].
    + apply (count_occ_not_In Z.eq_dec) in I. lia.
Qed.
Lemma codes_map : forall b, (forall z, In z b -> exists x, z = code x) -> b = map code (map uncode b).
Proof. intros b H. rewrite map_map. rewrite <- (map_id b) at 1. apply map_ext_in. intros z Hz. destruct (H z Hz) as (x & ->). rewrite code_uncode. reflexivity. Qed.
Lemma decode_encode : forall b, increasing b -> (forall z, In z b -> exists x, z = code x) -> encode (decode b) = b.
Proof.
  intros b I H. apply increasing_perm_eq; [apply sorted_increasing|exact I|]. eapply Permutation_trans; [apply encode_perm|]. rewrite (codes_map b H) at 2. apply Permutation_map, decode_cnt.
Qed.
Lemma In_encode : forall l x, In x l -> In (code x) (encode l).
Proof. intros l x H. apply (Permutation_in _ (Permutation_sym (encode_perm l))). apply in_map. exact H. Qed.
Lemma encode_In : forall l z, In z (encode l) -> exists x, z = code x /\ In x l.
Proof. intros l z H. apply (Permutation_in _ (encode_perm l)) in H. apply in_map_iff in H. destruct H as (x & <- & H). exists x. split; [reflexivity|exact H]. Qed.

Lemma concat_sorted : forall (R : Z -> Z -> Prop) L, StronglySorted R (concat L) <->
  (forall a l, nth_error L a = Some l -> StronglySorted R l) /\ (forall a b l m x y, (a < b)%nat -> nth_error L a = Some l -> nth_error L b = Some m -> In x l -> In y m -> R x y).
Proof.
  intro R. induction L as [|l L IH].
  - split; [|constructor]. intros _. split; [intros [|a]; discriminate|intros [|a] b ? ? ? ? ? E; discriminate].
  - cbn [concat]. rewrite sorted_app, IH. split.
    + intros (A & (B1 & B2) & C). split.
      * intros [|a] m E; [injection E as <-; exact A|exact (B1 a m E)].
      * intros [|a] [|b] m m' x y H E E' Hx Hy; try lia; [|apply (B2 a b m m' x y); [lia|assumption..]]. injection E as <-. apply C; [exact Hx|]. apply in_concat. exists m'. split; [exact (nth_error_In L b E')|exact Hy].
    + intros [A B]. split; [apply (A 0%nat); reflexivity|]. split; [split; [intros a m E; apply (A (S a)); exact E|intros a b m m' x y H; apply (B (S a) (S b)); lia]|].
      intros x y Hx Hy. apply in_concat in Hy. destruct Hy as (m & Hm & Hy). apply In_nth_error in Hm. destruct Hm as (b & Hb). apply (B 0%nat (S b) l m x y); [lia|reflexivity|exact Hb|exact Hx|exact Hy].
Qed.
Lemma nth_zrange : forall (A : Type) (f : Z -> A) n a, (a < n)%nat -> nth_error (map f (zrange 0 (Z.of_nat n))) a = Some (f (Z.of_nat a)).
Proof.
  intros A f n a H. unfold zrange. rewrite map_map, Z.sub_0_r, Nat2Z.id.
  assert (G : forall k m q, (m < k)%nat -> nth_error (map (fun x => f (0 + Z.of_nat x)) (seq q k)) m = Some (f (Z.of_nat (q + m)))).
  { induction k as [|k IH]; intros m q Hm; [lia|]. destruct m as [|m]; cbn [seq map nth_error]; [rewrite Nat.add_0_r; reflexivity|]. rewrite IH by lia. f_equal. f_equal. lia. }
  rewrite G by exact H. reflexivity.
Qed.
