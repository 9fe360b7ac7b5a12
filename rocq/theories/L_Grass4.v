From Coq Require Import List ZArith Bool Lia Permutation Sorted.
From Verif Require Import PyBase M_Partitions S_Partitions L_PartMore M_Perm M_PermGroth M_Bruhat S_Perm S_Bruhat L_Words2 L_Perm L_PermLen L_PermWord L_PermMisc L_LevelsInst L_InvLen L_InvLen2 L_InvLen4 L_InvLen6 L_Bruhat L_Bruhat2 L_PermEnum2 M_Grass S_Grass L_Grass1 L_Grass2 L_Grass3.
From Verif Require L_PartBasic L_Partitions L_Tableaux P_Partitions L_Generate.
Import ListNotations.
Local Open Scope Z_scope.

Lemma strict_lt : forall mu i j, strict_partition mu -> (i < j < length mu)%nat -> row mu j < row mu i.
Proof. intros mu i j [_ M] [Hi Hj]. induction j as [|j IH]; [lia|]. specialize (M j Hj). destruct (Nat.eq_dec i j) as [->|n]; [exact M|]. specialize (IH ltac:(lia) ltac:(lia)). lia. Qed.
Lemma strict_pos : forall mu i, strict_partition mu -> (i < length mu)%nat -> 0 < row mu i.
Proof. intros mu i [F _] Hi. rewrite Forall_forall in F. apply F. unfold row. apply nth_In. exact Hi. Qed.
Lemma strict_part : forall mu, strict_partition mu -> partition mu.
Proof.
  intros mu M. split; [apply M|]. intro i. destruct (Nat.lt_ge_cases (S i) (length mu)) as [h|h]; [pose proof (strict_lt mu i (S i) M ltac:(lia)); lia|]. unfold row at 1. rewrite nth_overflow by exact h. destruct (Nat.lt_ge_cases i (length mu)) as [h2|h2]; [pose proof (strict_pos mu i M h2); lia|]. unfold row. rewrite nth_overflow by exact h2. lia.
Qed.
Lemma strict_row_le0 : forall mu i, strict_partition mu -> row mu i <= row mu 0.
Proof. intros mu i M. apply partition_row_le. apply strict_part. exact M. Qed.
Lemma partition_ext : forall a b, Forall (fun x => 0 < x) a -> Forall (fun x => 0 < x) b -> (forall i, row a i = row b i) -> a = b.
Proof.
  induction a as [|x a IH]; intros [|y b] Fa Fb H; [reflexivity| | |].
  - specialize (H 0%nat). inversion Fb; subst. unfold row in H. cbn in H. lia.
  - specialize (H 0%nat). inversion Fa; subst. unfold row in H. cbn in H. lia.
  - inversion Fa; inversion Fb; subst. f_equal; [apply (H 0%nat)|]. apply IH; [assumption|assumption|]. intro i. apply (H (S i)).
Qed.
Lemma nth_skipn : forall k i (l : list Z), nth i (skipn k l) 0 = nth (k + i) l 0.
Proof. induction k as [|k IH]; intros i [|a l]; [reflexivity|reflexivity|destruct i; reflexivity|apply IH]. Qed.
Lemma skipn_strict : forall mu k x, strict_partition mu -> (k < length mu)%nat -> (In x (skipn (S k) mu) <-> In x mu /\ x < row mu k).
Proof.
  intros mu k x M Hk. split.
  - intro H. split; [rewrite <- (firstn_skipn (S k) mu); apply in_or_app; right; exact H|]. apply (In_nth _ _ 0) in H. destruct H as (i & Hi & <-). rewrite skipn_length in Hi.
    rewrite nth_skipn. apply (strict_lt mu k (S k + i) M). lia.
  - intros [H L]. apply (In_nth _ _ 0) in H. destruct H as (i & Hi & E). destruct (Nat.le_gt_cases i k) as [h|h].
    + exfalso. destruct (Nat.eq_dec i k) as [->|n]; [unfold row in L; lia|]. pose proof (strict_lt mu i k M ltac:(lia)) as Q. unfold row in Q, L. lia.
    + rewrite <- E. replace i with (S k + (i - S k))%nat by lia. rewrite <- nth_skipn. apply nth_In. rewrite skipn_length. lia.
Qed.

Lemma code_rows : forall e mu n cd, 0 <= e <= 1 -> strict_partition mu -> (mu <> [] -> zlen mu + e + row mu 0 <= n) -> 0 <= n ->
  (forall i, 1 <= i <= zlen mu -> cd i = i - e) -> (forall x, In x mu -> cd (zlen mu + e + x) = 0) ->
  (forall i, zlen mu < i <= n -> ~ In (i - zlen mu - e) mu -> cd i = L_PartBasic.cnt mu (i - zlen mu - e)) ->
  forall k, cnt (fun i => Z.of_nat k <? cd i) (zrange 1 (n + 1)) = row mu k.
Proof.
  intros e mu n cd He M Hn Hn0 H1 H2 H3 k. set (r := zlen mu) in *. assert (R0 : 0 <= r) by apply zlen_nonneg.
  assert (Wk : weak_partition mu) by (apply L_Partitions.partition_weak, strict_part, M).
  assert (Hmain : forall i, In (i - r - e) mu -> cd i = 0). { intros i Hi. replace i with (r + e + (i - r - e)) by lia. apply H2. exact Hi. }
  assert (Hhi : forall i, r < i <= n -> (Z.of_nat k <? cd i) = negb (memz (i - r - e) mu) && (i - r - e <? row mu k)).
  { intros i Hi. destruct (memz (i - r - e) mu) eqn:E.
    - apply memz_In in E. rewrite (Hmain i E). cbn [negb andb]. apply Z.ltb_ge. lia.
    - assert (E' : ~ In (i - r - e) mu) by (intro Q; apply memz_In in Q; congruence). rewrite (H3 i Hi E'). cbn [negb andb]. pose proof (L_PartBasic.cnt_spec mu Wk k (i - r - e) ltac:(lia)) as Q. destruct (Z.ltb_spec (Z.of_nat k) (L_PartBasic.cnt mu (i - r - e))), (Z.ltb_spec (i - r - e) (row mu k)); lia. }
  destruct (Nat.lt_ge_cases k (length mu)) as [Hk|Hk].
  - assert (Ne : mu <> []) by (intros ->; cbn in Hk; lia). specialize (Hn Ne). pose proof (strict_pos mu k M Hk) as Pk. pose proof (strict_row_le0 mu k M) as Lk. assert (Kr : Z.of_nat k < r) by (unfold r, zlen; lia).
    rewrite (zrange_app 1 (Z.of_nat k + e + 1) (n + 1)) by lia. rewrite (zrange_app (Z.of_nat k + e + 1) (r + 1) (n + 1)) by lia. rewrite (zrange_app (r + 1) (r + e + row mu k) (n + 1)) by lia. rewrite !cnt_app.
    rewrite (cnt_zero _ (zrange 1 (Z.of_nat k + e + 1))). 2:{ intros i Hi. apply In_zrange in Hi. rewrite H1 by lia. lia. }
    rewrite (cnt_full _ (zrange (Z.of_nat k + e + 1) (r + 1))). 2:{ intros i Hi. apply In_zrange in Hi. rewrite H1 by lia. lia. }
    rewrite (cnt_zero _ (zrange (r + e + row mu k) (n + 1))). 2:{ intros i Hi. apply In_zrange in Hi. rewrite Hhi by lia. rewrite andb_comm. replace (i - r - e <? row mu k) with false by lia. reflexivity. }
    rewrite zlen_zrange by lia.
    assert (T : cnt (fun i => Z.of_nat k <? cd i) (zrange (r + 1) (r + e + row mu k)) + cnt (fun i => memz (i - r - e) mu) (zrange (r + 1) (r + e + row mu k)) = zlen (zrange (r + 1) (r + e + row mu k))).
    { rewrite <- (cnt_full (fun _ => true)) by reflexivity. symmetry. apply cnt_add. intros i Hi. apply In_zrange in Hi. rewrite Hhi by lia. replace (i - r - e <? row mu k) with true by lia. destruct (memz (i - r - e) mu); reflexivity. }
    rewrite zlen_zrange in T by lia.
    assert (S0 : cnt (fun i => memz (i - r - e) mu) (zrange (r + 1) (r + e + row mu k)) = r - 1 - Z.of_nat k).
    { unfold cnt. assert (P : Permutation (filter (fun i => memz (i - r - e) mu) (zrange (r + 1) (r + e + row mu k))) (map (fun x => x + (r + e)) (skipn (S k) mu))).
      { apply NoDup_Permutation; [apply NoDup_filter, NoDup_zrange| |].
        - apply FinFun.Injective_map_NoDup; [intros a b; lia|]. pose proof (strict_NoDup mu M) as N. rewrite <- (firstn_skipn (S k) mu) in N. clear - N. induction (firstn (S k) mu) as [|a l IH]; [exact N|]. inversion N; subst. apply IH. assumption.
        - intro x. rewrite filter_In, in_map_iff, In_zrange, memz_In. split.
          + intros [A B]. exists (x - r - e). split; [lia|]. apply skipn_strict; [exact M|exact Hk|]. split; [exact B|lia].
          + intros (y & <- & Hy). apply skipn_strict in Hy; [|exact M|exact Hk]. replace (y + (r + e) - r - e) with y by lia. split; [|apply Hy]. destruct Hy as [Hy Ly]. destruct M as [F _]. rewrite Forall_forall in F. specialize (F y Hy). lia. }
      unfold zlen at 1. rewrite (Permutation_length P), map_length, skipn_length. unfold r, zlen. lia. }
    lia.
  - assert (Z0 : row mu k = 0) by (unfold row; apply nth_overflow; exact Hk). rewrite Z0. assert (Kr : r <= Z.of_nat k) by (unfold r, zlen; lia). apply cnt_zero. intros i Hi. apply In_zrange in Hi. destruct (Z_le_gt_dec i r) as [h|h]; [rewrite H1 by lia; lia|]. rewrite Hhi by lia. rewrite Z0. destruct (memz (i - r - e) mu); cbn [negb andb]; [reflexivity|lia].
Qed.

(* products of disjoint transpositions *)
Lemma swaps_ok : forall (A B : Z -> Z) l u, canonical u -> positive u -> (forall i, In i l -> 1 <= A i /\ 1 <= B i) -> NoDup (flat_map (fun i => [A i; B i]) l) ->
  (forall i, In i l -> pcall u (A i) = A i /\ pcall u (B i) = B i) ->
  exists v, rfold (fun ans i => do t <- transposition (A i) (B i); pmul ans t) l u = Ok v /\ canonical v /\ positive v /\
  (forall i, In i l -> pcall v (A i) = B i /\ pcall v (B i) = A i) /\ forall x, 0 < x -> (forall i, In i l -> x <> A i /\ x <> B i) -> pcall v x = pcall u x.
Proof.
  induction l as [|a l IH]; intros u Cu Pu H1 N Hf.
  - exists u. split; [reflexivity|]. split; [exact Cu|]. split; [exact Pu|]. split; [intros i []|reflexivity].
  - cbn [flat_map app] in N. inversion N as [|? ? N1 N2]; subst. inversion N2 as [|? ? N3 N4]; subst. destruct (H1 a (or_introl eq_refl)) as [Aa Ba]. destruct (Hf a (or_introl eq_refl)) as [Fa Fb].
    assert (D : A a <> B a) by (intro E; apply N1; left; congruence).
    destruct (transposition_any (A a) (B a) Aa Ba D) as (t & Et & Ct & Vt).
    assert (U : forall x, pcall (mulp u t) x = pcall u (refl (A a) (B a) x)) by (intro x; rewrite mulp_call by (apply Cu || apply Ct); rewrite Vt; reflexivity).
    assert (Off : forall i, In i l -> A i <> A a /\ A i <> B a /\ B i <> A a /\ B i <> B a).
    { intros i Hi. assert (Q1 : In (A i) (flat_map (fun i => [A i; B i]) l)) by (apply in_flat_map; exists i; split; [exact Hi|left; reflexivity]). assert (Q2 : In (B i) (flat_map (fun i => [A i; B i]) l)) by (apply in_flat_map; exists i; split; [exact Hi|right; left; reflexivity]).
      repeat split; intro E; [apply N1; right; congruence|apply N3; congruence|apply N1; right; congruence|apply N3; congruence]. }
    destruct (IH (mulp u t)) as (v & Ev & Cv & Pv & V1 & V2).
    + apply mulp_canonical; [apply Cu|apply Ct].
    + apply pos_word. intros i Hi. rewrite U. apply pos_call; [exact Pu|]. rewrite refl_pos by lia. destruct (i =? A a); [lia|]. destruct (i =? B a); lia.
    + intros i Hi. apply H1. right. exact Hi.
    + exact N4.
    + intros i Hi. destruct (Off i Hi) as (? & ? & ? & ?). destruct (H1 i (or_intror Hi)) as [? ?]. rewrite !U, !refl_other by lia. apply Hf. right. exact Hi.
    + exists v. cbn [rfold]. rewrite Et. cbn [rbind]. rewrite pmul_ok by (apply Cu || apply Ct). cbn [rbind]. split; [exact Ev|]. split; [exact Cv|]. split; [exact Pv|]. split.
      * intros i [<-|Hi]; [|apply V1; exact Hi]. split.
        -- rewrite V2; [rewrite U, refl_a; exact Fb|lia|]. intros i Hi. destruct (Off i Hi) as (? & ? & ? & ?). split; congruence.
        -- rewrite V2; [rewrite U, refl_b; exact Fa|lia|]. intros i Hi. destruct (Off i Hi) as (? & ? & ? & ?). split; congruence.
      * intros x Hx Hn. rewrite V2; [|exact Hx|intros i Hi; apply Hn; right; exact Hi]. destruct (Hn a (or_introl eq_refl)). rewrite U, refl_other by lia. reflexivity.
Qed.
Lemma longest_ok : forall n, 0 <= n -> exists w0, longest_unsigned n = Ok w0 /\ canonical w0 /\ forall x, 0 < x -> pcall w0 x = if x <=? n then n + 1 - x else x.
Proof.
  intros n Hn. set (l := rev (zrange 1 (n + 1))). assert (Ll : zlen l = n) by (unfold l, zlen; rewrite rev_length, length_zrange; lia).
  assert (S : signed_word l). { unfold signed_word. rewrite Ll. replace (map Z.abs l) with l; [apply Permutation_sym, Permutation_rev|]. symmetry. rewrite <- (map_id l) at 2. apply map_ext_in. intros x Hx. apply in_rev in Hx. apply In_zrange in Hx. lia. }
  exists (strip l). split; [apply mkperm_ok; exact S|]. split; [apply strip_canonical; exact S|]. intros x Hx. rewrite pcall_strip. destruct (Z.leb_spec x n) as [h|h]; [|apply pcall_out; lia].
  rewrite pcall_pos by lia. unfold l, nthz. rewrite rev_nth by (rewrite length_zrange; lia). rewrite length_zrange. replace (nth (Z.to_nat (n + 1 - 1) - Datatypes.S (Z.to_nat (x - 1))) (zrange 1 (n + 1)) 0) with (nthz (zrange 1 (n + 1)) (n - x)) by (unfold nthz; f_equal; lia). rewrite nthz_zrange by lia. lia.
Qed.
(* conjugating by the reversal of 1, ..., n *)
Lemma flip_ok : forall n u, 0 <= n -> canonical u -> positive u -> zlen u <= n -> exists z, (do w0 <- longest_unsigned n; do a <- pmul w0 u; pmul a w0) = Ok z /\ canonical z /\ positive z /\
  (forall x, 1 <= x <= n -> pcall z x = n + 1 - pcall u (n + 1 - x)) /\ forall x, n < x -> pcall z x = x.
Proof.
  intros n u Hn Cu Pu Lu. destruct (longest_ok n Hn) as (w0 & E & C0 & V). rewrite E. cbn [rbind]. rewrite pmul_ok by (apply C0 || apply Cu). cbn [rbind]. pose proof (mulp_canonical w0 u (proj1 C0) (proj1 Cu)) as C1. rewrite pmul_ok by (apply C1 || apply C0).
  assert (U : forall x, pcall (mulp (mulp w0 u) w0) x = pcall w0 (pcall u (pcall w0 x))) by (intro x; rewrite !mulp_call by (apply C0 || apply Cu || apply C1); reflexivity).
  assert (Ur : forall x, 1 <= x <= n -> 1 <= pcall u x <= n).
  { intros x Hx. pose proof (pos_call u x Pu ltac:(lia)). destruct (Z_le_gt_dec x (zlen u)) as [h|h]; [pose proof (pcall_abs u x (proj1 Cu) ltac:(lia)); lia|rewrite pcall_out by lia; lia]. }
  assert (V1 : forall x, 1 <= x <= n -> pcall (mulp (mulp w0 u) w0) x = n + 1 - pcall u (n + 1 - x)).
  { intros x Hx. rewrite U. rewrite (V x) by lia. replace (x <=? n) with true by lia. pose proof (Ur (n + 1 - x) ltac:(lia)) as Q. rewrite V by lia. replace (pcall u (n + 1 - x) <=? n) with true by lia. reflexivity. }
  assert (V2 : forall x, n < x -> pcall (mulp (mulp w0 u) w0) x = x).
  { intros x Hx. rewrite U. rewrite (V x) by lia. replace (x <=? n) with false by lia. rewrite (pcall_out u) by lia. rewrite V by lia. replace (x <=? n) with false by lia. reflexivity. }
  exists (mulp (mulp w0 u) w0). split; [reflexivity|]. split; [apply mulp_canonical; [apply C1|apply C0]|]. split; [|split; assumption].
  apply pos_word. intros i Hi. destruct (Z_le_gt_dec i n) as [h|h]; [rewrite V1 by lia; pose proof (Ur (n + 1 - i) ltac:(lia)); lia|rewrite V2 by lia; lia].
Qed.
