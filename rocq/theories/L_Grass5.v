From Coq Require Import List ZArith Bool Lia Permutation Sorted.
From Verif Require Import PyBase M_Partitions S_Partitions L_PartMore M_Perm M_PermGroth M_Bruhat S_Perm S_Bruhat L_Words2 L_Perm L_PermLen L_PermWord L_PermMisc L_LevelsInst L_InvLen L_InvLen2 L_InvLen4 L_InvLen6 L_Bruhat L_Bruhat2 L_PermEnum2 M_Grass S_Grass L_Grass1 L_Grass2 L_Grass3 L_Grass4.
From Verif Require L_PartBasic L_Partitions L_Tableaux P_Partitions L_Generate.
Import ListNotations.
Local Open Scope Z_scope.

Definition iarcs (mu : list Z) (z : list Z) : Prop :=
  canonical z /\ positive z /\ main_arcs 0 mu (pcall z) /\ forall x, zlen mu < x -> ~ In (x - zlen mu) mu -> pcall z x = x.
Lemma In_row : forall x mu, In x mu <-> exists t, (t < length mu)%nat /\ row mu t = x.
Proof. intros x mu. split; [intro H; apply (In_nth _ _ 0) in H; exact H|intros (t & Ht & <-); unfold row; apply nth_In; exact Ht]. Qed.
Lemma nthz_row : forall mu i, 0 <= i -> nthz mu i = row mu (Z.to_nat i).
Proof. reflexivity. Qed.
Lemma strict_inj : forall mu i j, strict_partition mu -> (i < length mu)%nat -> (j < length mu)%nat -> row mu i = row mu j -> i = j.
Proof. intros mu i j M Hi Hj E. destruct (Nat.lt_total i j) as [L|[L|L]]; [pose proof (strict_lt mu i j M ltac:(lia)); lia|exact L|pose proof (strict_lt mu j i M ltac:(lia)); lia]. Qed.
Lemma NoDup_arcs : forall (A B : Z -> Z) l, NoDup l -> (forall i j, In i l -> In j l -> A i = A j -> i = j) -> (forall i j, In i l -> In j l -> B i = B j -> i = j) -> (forall i j, In i l -> In j l -> A i <> B j) -> NoDup (flat_map (fun i => [A i; B i]) l).
Proof.
  induction l as [|a l IH]; intros N HA HB HAB; [constructor|]. inversion N as [|? ? N1 N2]; subst. cbn [flat_map app]. assert (I2 : NoDup (flat_map (fun i => [A i; B i]) l)) by (apply IH; [exact N2|intros i j Hi Hj; apply HA; right; assumption|intros i j Hi Hj; apply HB; right; assumption|intros i j Hi Hj; apply HAB; right; assumption]).
  assert (Q : forall x, In x (flat_map (fun i => [A i; B i]) l) -> exists i, In i l /\ (x = A i \/ x = B i)). { intros x Hx. apply in_flat_map in Hx. destruct Hx as (i & Hi & [<-|[<-|[]]]); exists i; tauto. }
  constructor; [|constructor; [|exact I2]].
  - intros [E|E]; [exact (HAB a a (or_introl eq_refl) (or_introl eq_refl) (eq_sym E))|]. apply Q in E. destruct E as (i & Hi & [E|E]); [apply N1; rewrite (HA a i (or_introl eq_refl) (or_intror Hi) E); exact Hi|exact (HAB a i (or_introl eq_refl) (or_intror Hi) E)].
  - intro E. apply Q in E. destruct E as (i & Hi & [E|E]); [exact (HAB i a (or_intror Hi) (or_introl eq_refl) (eq_sym E))|apply N1; rewrite (HB a i (or_introl eq_refl) (or_intror Hi) E); exact Hi].
Qed.
Lemma head0_row : forall mu, head0 mu = row mu 0.
Proof. intros [|a mu]; reflexivity. Qed.

(* the transpositions both constructions start from *)
Lemma arcs_product : forall o c mu, 0 <= o -> 1 <= c -> strict_partition mu -> exists u, rfold (fun ans i => do t <- transposition (o + 1 + head0 mu - nthz mu i) (o + i + c + head0 mu); pmul ans t) (zrange 0 (zlen mu)) pid = Ok u /\ canonical u /\ positive u /\
  (forall t, (t < length mu)%nat -> pcall u (o + 1 + row mu 0 - row mu t) = o + Z.of_nat t + c + row mu 0 /\ pcall u (o + Z.of_nat t + c + row mu 0) = o + 1 + row mu 0 - row mu t) /\
  (forall x, 0 < x -> (forall t, (t < length mu)%nat -> x <> o + 1 + row mu 0 - row mu t /\ x <> o + Z.of_nat t + c + row mu 0) -> pcall u x = x).
Proof.
  intros o c mu Ho Hc M. rewrite head0_row. pose proof (fun t => strict_row_le0 mu t M) as L0. pose proof (fun t => strict_pos mu t M) as P0.
  assert (Ix : forall i, In i (zrange 0 (zlen mu)) -> 0 <= i /\ (Z.to_nat i < length mu)%nat) by (intros i Hi; apply In_zrange in Hi; unfold zlen in Hi; lia).
  destruct (swaps_ok (fun i => o + 1 + row mu 0 - nthz mu i) (fun i => o + i + c + row mu 0) (zrange 0 (zlen mu)) pid) as (u & Eu & Cu & Pu & V1 & V2).
  - exact nil_canonical.
  - constructor.
  - intros i Hi. destruct (Ix i Hi) as [Hi0 Hi1]. rewrite nthz_row by exact Hi0. specialize (L0 (Z.to_nat i)). specialize (P0 _ Hi1). lia.
  - apply NoDup_arcs; [apply NoDup_zrange| | |].
    + intros i j Hi Hj E. destruct (Ix i Hi) as [Hi0 Hi1]. destruct (Ix j Hj) as [Hj0 Hj1]. rewrite !nthz_row in E by assumption. pose proof (strict_inj mu _ _ M Hi1 Hj1 ltac:(lia)). lia.
    + intros i j _ _. lia.
    + intros i j Hi Hj E. destruct (Ix i Hi) as [Hi0 Hi1]. destruct (Ix j Hj) as [Hj0 Hj1]. rewrite !nthz_row in E by assumption. specialize (P0 _ Hi1). lia.
  - intros i Hi. split; apply pcall_nil.
  - exists u. split; [exact Eu|]. split; [exact Cu|]. split; [exact Pu|]. split.
    + intros t Ht. specialize (V1 (Z.of_nat t)). rewrite nthz_row in V1 by lia. rewrite Nat2Z.id in V1. apply V1. apply In_zrange. unfold zlen. lia.
    + intros x Hx H. rewrite V2; [apply pcall_nil|exact Hx|]. intros i Hi. destruct (Ix i Hi) as [Hi0 Hi1]. rewrite nthz_row by exact Hi0. specialize (H _ Hi1). rewrite Z2Nat.id in H by exact Hi0. exact H.
Qed.
Lemma arcs_rank : forall o c mu u, 0 <= o -> 1 <= c -> strict_partition mu -> canonical u -> (forall x, 0 < x -> (forall t, (t < length mu)%nat -> x <> o + 1 + row mu 0 - row mu t /\ x <> o + Z.of_nat t + c + row mu 0) -> pcall u x = x) -> zlen u <= o + c - 1 + zlen mu + row mu 0.
Proof.
  intros o c mu u Ho Hc M Cu H. assert (R0 : 0 <= row mu 0) by (destruct mu; [unfold row; cbn; lia|apply Z.lt_le_incl; apply strict_pos; [exact M|cbn; lia]]). apply zlen_fixed; [exact Cu|unfold zlen; lia|]. intros x Hx. apply H; [unfold zlen in Hx; lia|]. intros t Ht. pose proof (strict_pos mu t M Ht). unfold zlen in Hx. lia.
Qed.
Lemma is_strict_true : forall mu, strict_partition mu -> is_strict_partition mu = true.
Proof. intros mu M. apply L_Generate.is_strict_partition_spec; [apply M|exact M]. Qed.
Lemma get_inv_ok : forall mu, strict_partition mu -> exists z, get_inv_grassmannian mu = Ok z /\ iarcs mu z.
Proof.
  intros mu M. unfold get_inv_grassmannian. rewrite is_strict_true by exact M. destruct (arcs_product 0 1 mu ltac:(lia) ltac:(lia) M) as (u & Eu & Cu & Pu & V1 & V2).
  change (fun (ans : list Z) i => do t <- transposition (1 + head0 mu - nthz mu i) (i + 1 + head0 mu); pmul ans t) with (fun (ans : list Z) i => do t <- transposition (0 + 1 + head0 mu - nthz mu i) (0 + i + 1 + head0 mu); pmul ans t). rewrite Eu. cbn [rbind].
  rewrite head0_row. assert (R0 : 0 <= row mu 0) by (destruct mu; [unfold row; cbn; lia|apply Z.lt_le_incl; apply strict_pos; [exact M|cbn; lia]]). pose proof (zlen_nonneg _ mu) as Z0. pose proof (arcs_rank 0 1 mu u ltac:(lia) ltac:(lia) M Cu V2) as Lu.
  destruct (flip_ok (zlen mu + row mu 0) u ltac:(lia) Cu Pu ltac:(lia)) as (z & Ez & Cz & Pz & F1 & F2). exists z. split; [exact Ez|]. split; [exact Cz|]. split; [exact Pz|].
  assert (Inn : forall t, (t < length mu)%nat -> 0 < row mu t <= row mu 0 /\ 1 <= zlen mu - Z.of_nat t). { intros t Ht. pose proof (strict_pos mu t M Ht). pose proof (strict_row_le0 mu t M). unfold zlen. lia. }
  split.
  - intros t Ht. destruct (Inn t Ht) as [I1 I2]. destruct (V1 t Ht) as [Va Vb]. rewrite !F1 by lia. split.
    + replace (zlen mu + row mu 0 + 1 - (zlen mu - Z.of_nat t)) with (0 + Z.of_nat t + 1 + row mu 0) by lia. rewrite Vb. lia.
    + replace (zlen mu + row mu 0 + 1 - (zlen mu + 0 + row mu t)) with (0 + 1 + row mu 0 - row mu t) by lia. rewrite Va. lia.
  - intros x Hx N. destruct (Z_le_gt_dec x (zlen mu + row mu 0)) as [h|h]; [|apply F2; lia]. rewrite F1 by lia. rewrite V2; [lia|lia|]. intros t Ht. destruct (Inn t Ht) as [I1 I2]. split; [|lia]. intro E. apply N. apply In_row. exists t. split; [exact Ht|lia].
Qed.
Lemma iarcs_cases : forall mu z x, iarcs mu z -> 0 < x -> (exists t, (t < length mu)%nat /\ x = zlen mu - Z.of_nat t) \/ (exists t, (t < length mu)%nat /\ x = zlen mu + 0 + row mu t) \/ (zlen mu < x /\ ~ In (x - zlen mu) mu).
Proof.
  intros mu z x H Hx. destruct (Z_le_gt_dec x (zlen mu)) as [h|h]; [left; exists (Z.to_nat (zlen mu - x)); unfold zlen in *; lia|right]. destruct (in_dec Z.eq_dec (x - zlen mu) mu) as [i|i]; [left|right; split; [lia|exact i]]. apply In_row in i. destruct i as (t & Ht & E). exists t. split; [exact Ht|lia].
Qed.
Lemma iarcs_unique : forall mu y z, iarcs mu y -> iarcs mu z -> y = z.
Proof.
  intros mu y z Hy Hz. apply canonical_ext; [apply Hy|apply Hz|]. assert (P : forall x, 0 < x -> pcall y x = pcall z x).
  { intros x Hx. destruct Hy as (Cy & Py & Ay & By) eqn:EHy. destruct Hz as (Cz & Pz & Az & Bz). destruct (iarcs_cases mu y x Hy Hx) as [(t & Ht & ->)|[(t & Ht & ->)|[h i]]].
    - rewrite (proj1 (Ay t Ht)), (proj1 (Az t Ht)). reflexivity.
    - rewrite (proj2 (Ay t Ht)), (proj2 (Az t Ht)). reflexivity.
    - rewrite By, Bz by assumption. reflexivity. }
  intro x. destruct (Z.lt_total x 0) as [L|[->|L]]; [|rewrite !pcall_zero; reflexivity|apply P; exact L]. specialize (P (- x) ltac:(lia)). rewrite !pcall_odd in P. lia.
Qed.
Lemma iarcs_invol : forall mu z, iarcs mu z -> invol z.
Proof.
  intros mu z H. split; [apply H|]. assert (P : forall x, 0 < x -> pcall z (pcall z x) = x).
  { intros x Hx. pose proof (iarcs_cases mu z x H Hx) as K. destruct H as (C & Pz & A & B). destruct K as [(t & Ht & ->)|[(t & Ht & ->)|[h i]]].
    - rewrite (proj1 (A t Ht)). apply A. exact Ht.
    - rewrite (proj2 (A t Ht)). apply A. exact Ht.
    - rewrite (B x) by assumption. apply B; assumption. }
  intro x. destruct (Z.lt_total x 0) as [L|[->|L]]; [|rewrite !pcall_zero; reflexivity|apply P; exact L]. specialize (P (- x) ltac:(lia)). rewrite !pcall_odd in P. lia.
Qed.
Lemma iarcs_rank : forall mu z, strict_partition mu -> iarcs mu z -> zlen z = zlen mu + row mu 0.
Proof.
  intros mu z M (C & P & A & B). pose proof (zlen_nonneg _ mu) as Z0. assert (R0 : 0 <= row mu 0) by (destruct mu; [unfold row; cbn; lia|apply Z.lt_le_incl; apply strict_pos; [exact M|cbn; lia]]).
  assert (L : zlen z <= zlen mu + row mu 0). { apply zlen_fixed; [exact C|lia|]. intros x Hx. apply B; [lia|]. intro K. apply In_row in K. destruct K as (t & Ht & E). pose proof (strict_row_le0 mu t M). lia. }
  destruct mu as [|a mu'] eqn:Em; [unfold zlen, row in *; cbn in *; lia|]. rewrite <- Em in *. assert (H0 : (0 < length mu)%nat) by (rewrite Em; cbn; lia). destruct (A 0%nat H0) as [A1 A2]. destruct (Z_lt_ge_dec (zlen z) (zlen mu + row mu 0)) as [h|h]; [|lia]. rewrite (pcall_out z (zlen mu + 0 + row mu 0)) in A2 by lia. pose proof (strict_pos mu 0 M H0). lia.
Qed.
Lemma iarcs_left : forall mu z i, strict_partition mu -> iarcs mu z -> 1 <= i <= zlen mu -> zlen mu < pcall z i.
Proof. intros mu z i M (C & P & A & B) Hi. set (t := Z.to_nat (zlen mu - i)). assert (Ht : (t < length mu)%nat) by (unfold t, zlen in *; lia). replace i with (zlen mu - Z.of_nat t) by (unfold t; lia). rewrite (proj1 (A t Ht)). pose proof (strict_pos mu t M Ht). lia. Qed.
Lemma iarcs_right : forall mu z i, strict_partition mu -> iarcs mu z -> zlen mu < i -> pcall z i <= i.
Proof.
  intros mu z i M H Hi. pose proof (zlen_nonneg _ mu). pose proof (iarcs_cases mu z i H ltac:(lia)) as K. destruct H as (C & P & A & B). destruct K as [(t & Ht & E)|[(t & Ht & E)|[h n]]]; [lia| |rewrite B by assumption; lia].
  rewrite E, (proj2 (A t Ht)). pose proof (strict_pos mu t M Ht). lia.
Qed.
Lemma iarcs_dep : forall mu z i, strict_partition mu -> iarcs mu z -> 0 <= i <= zlen mu -> dep z i = i.
Proof.
  intros mu z i M H [H0 Hi]. pose proof (iarcs_invol mu z H) as V. pose proof (proj1 (proj2 H)) as P. pose proof (iarcs_rank mu z M H) as L. assert (R0 : 0 <= row mu 0) by (destruct mu; [unfold row; cbn; lia|apply Z.lt_le_incl; apply strict_pos; [exact M|cbn; lia]]).
  revert Hi. apply (natlike_ind (fun i => i <= zlen mu -> dep z i = i)); [|  |exact H0].
  - intros _. apply dep_zero; assumption.
  - intros d Hd IH Hi. unfold Z.succ in *. rewrite dep_step by (assumption || lia). replace (d + 1 - 1) with d by lia. rewrite IH by lia. pose proof (iarcs_left mu z (d + 1) M H ltac:(lia)). unfold ind. replace (d + 1 <? pcall z (d + 1)) with true by lia. replace (pcall z (d + 1) <? d + 1) with false by lia. lia.
Qed.
(* counting right ends beyond i *)
Lemma ends_beyond : forall (e : Z) mu (z : list Z) i, 0 <= e -> strict_partition mu -> 0 <= i - zlen mu - e -> (mu <> [] -> zlen mu + e + row mu 0 <= zlen z) ->
  cnt (fun j => (i <? j) && memz (j - zlen mu - e) mu) (zrange 1 (zlen z + 1)) = L_PartBasic.cnt mu (i - zlen mu - e).
Proof.
  intros e mu z i He M Hi Hn. unfold cnt, L_PartBasic.cnt. set (q := i - zlen mu - e) in *.
  assert (P : Permutation (filter (fun j => (i <? j) && memz (j - zlen mu - e) mu) (zrange 1 (zlen z + 1))) (map (fun x => x + (zlen mu + e)) (filter (fun a => q <? a) mu))).
  { apply NoDup_Permutation; [apply NoDup_filter, NoDup_zrange|apply FinFun.Injective_map_NoDup; [intros a b; lia|apply NoDup_filter, strict_NoDup, M]|].
    intro x. rewrite filter_In, in_map_iff, In_zrange, andb_true_iff, memz_In. split.
    - intros [A [B C]]. exists (x - zlen mu - e). split; [lia|]. apply filter_In. split; [exact C|]. unfold q. lia.
    - intros (y & <- & Hy). apply filter_In in Hy. destruct Hy as [Hy Ly]. replace (y + (zlen mu + e) - zlen mu - e) with y by lia. split; [|split; [unfold q in *; lia|exact Hy]]. pose proof (zlen_nonneg _ mu). assert (Ne : mu <> []) by (intros ->; destruct Hy). specialize (Hn Ne). pose proof Hy as Hy'. apply In_row in Hy'. destruct Hy' as (t & Ht & Et). pose proof (strict_row_le0 mu t M). unfold q in *. lia. }
  unfold zlen at 1. rewrite (Permutation_length P), map_length. reflexivity.
Qed.
Lemma iarcs_code_fix : forall mu z i, strict_partition mu -> iarcs mu z -> zlen mu < i -> ~ In (i - zlen mu) mu -> icode z i = L_PartBasic.cnt mu (i - zlen mu).
Proof.
  intros mu z i M H Hi N. pose proof (iarcs_rank mu z M H) as L. pose proof (ends_beyond 0 mu z i ltac:(lia) M ltac:(lia)) as K. rewrite Z.sub_0_r in K. rewrite <- K by lia. unfold icode. apply cnt_ext. intros j Hj. apply In_zrange in Hj. rewrite Z.sub_0_r.
  destruct (Z.ltb_spec i j) as [h|h]; [|reflexivity]. cbn [andb]. assert (Ei : pcall z i = i) by (apply H; assumption). rewrite Ei. destruct (memz (j - zlen mu) mu) eqn:E.
  - apply memz_In in E. apply In_row in E. destruct E as (t & Ht & Et). replace j with (zlen mu + 0 + row mu t) by lia. rewrite (proj2 (proj1 (proj2 (proj2 H)) t Ht)). lia.
  - assert (E' : ~ In (j - zlen mu) mu) by (intro Q; apply memz_In in Q; congruence). rewrite (proj2 (proj2 (proj2 H)) j ltac:(lia) E'). lia.
Qed.
Lemma iarcs_code_end : forall mu z x, strict_partition mu -> iarcs mu z -> In x mu -> icode z (zlen mu + 0 + x) = 0.
Proof.
  intros mu z x M H Hx. apply In_row in Hx. destruct Hx as (t & Ht & <-). apply cnt_zero. intros j Hj. rewrite (proj2 (proj1 (proj2 (proj2 H)) t Ht)). destruct (Z.ltb_spec (zlen mu + 0 + row mu t) j) as [h|h]; [|reflexivity]. cbn [andb].
  pose proof (zlen_nonneg _ mu) as Z0. pose proof (strict_pos mu t M Ht) as P0. destruct (iarcs_cases mu z j H ltac:(lia)) as [(s & Hs & ->)|[(s & Hs & ->)|[h1 n1]]].
  - lia.
  - rewrite (proj2 (proj1 (proj2 (proj2 H)) s Hs)). assert (Ls : (s < t)%nat) by (destruct (Nat.lt_total s t) as [q|[q|q]]; [exact q|subst s; lia|pose proof (strict_lt mu t s M ltac:(lia)); lia]). lia.
  - rewrite (proj2 (proj2 (proj2 H)) j ltac:(lia) n1). lia.
Qed.
Lemma icode_nonneg : forall z l, Forall (fun x => 0 <= x) (map (icode z) l).
Proof. intros z l. apply Forall_forall. intros x Hx. apply in_map_iff in Hx. destruct Hx as (i & <- & _). apply cnt_nonneg. Qed.
Lemma involution_shape_ok : forall z, invol z -> positive z -> involution_shape z = Ok (transpose (psort (map (icode z) (zrange 1 (zlen z + 1))) true)).
Proof. intros z V P. unfold involution_shape. rewrite is_involution_true by exact V. cbn [rbind]. rewrite icode_ok by assumption. reflexivity. Qed.
Lemma iarcs_shape : forall mu z, strict_partition mu -> iarcs mu z -> involution_shape z = Ok mu.
Proof.
  intros mu z M H. pose proof (iarcs_invol mu z H) as V. pose proof (proj1 (proj2 H)) as P. pose proof (iarcs_rank mu z M H) as L. rewrite involution_shape_ok by assumption. f_equal. set (c := map (icode z) (zrange 1 (zlen z + 1))). pose proof (icode_nonneg z (zrange 1 (zlen z + 1))) as F. fold c in F.
  destruct (shape_strict c F) as [S _]; [intros x v; apply icode_values; assumption|]. apply partition_ext; [apply S|apply M|]. intro k. rewrite shape_row by exact F. unfold c. rewrite cnt_map. rewrite <- (code_rows 0 mu (zlen z) (icode z)) with (k := k).
  - reflexivity.
  - lia.
  - exact M.
  - lia.
  - apply zlen_nonneg.
  - intros i Hi. rewrite icode_dep by (try assumption; pose proof (iarcs_left mu z i M H Hi); lia). rewrite (iarcs_dep mu) by (assumption || lia). lia.
  - intros x Hx. apply iarcs_code_end; assumption.
  - intros i Hi N. rewrite Z.sub_0_r in *. apply iarcs_code_fix; [exact M|exact H|lia|exact N].
Qed.
Lemma strict_of_rows : forall mu, Forall (fun x => 0 < x) mu -> (forall i, (S i < length mu)%nat -> row mu (S i) < row mu i) -> strict_partition mu.
Proof. intros mu F H. split; assumption. Qed.
Lemma initial_iarcs : forall r z, invol z -> positive z -> initial_arcs r (pcall z) -> exists mu, strict_partition mu /\ zlen mu = r /\ iarcs mu z.
Proof.
  intros r z V P (R0 & H1 & H2 & H3). set (mu := map (fun s => pcall z (r - s) - r) (zrange 0 r)). assert (Lm : zlen mu = r) by (unfold mu; rewrite zlen_map, zlen_zrange; lia).
  assert (Rm : forall t, (t < length mu)%nat -> row mu t = pcall z (r - Z.of_nat t) - r /\ Z.of_nat t < r).
  { intros t Ht. assert (T : Z.of_nat t < r) by (rewrite <- Lm; unfold zlen; lia). split; [|exact T]. replace (row mu t) with (nthz mu (Z.of_nat t)) by (rewrite nthz_row by lia; rewrite Nat2Z.id; reflexivity). unfold mu. rewrite (nthz_map (fun s => pcall z (r - s) - r)) by (rewrite zlen_zrange; lia). rewrite nthz_zrange by lia. replace (0 + Z.of_nat t) with (Z.of_nat t) by lia. reflexivity. }
  assert (Mu : strict_partition mu).
  { split.
    - apply Forall_forall. intros x Hx. apply In_row in Hx. destruct Hx as (t & Ht & <-). destruct (Rm t Ht) as [-> T]. specialize (H1 (r - Z.of_nat t) ltac:(lia)). lia.
    - intros i Hi. destruct (Rm i ltac:(lia)) as [-> T]. destruct (Rm (S i) Hi) as [-> T2]. specialize (H2 (r - Z.of_nat (S i)) ltac:(lia)). replace (r - Z.of_nat (S i) + 1) with (r - Z.of_nat i) in H2 by lia. lia. }
  exists mu. split; [exact Mu|]. split; [exact Lm|]. split; [apply V|]. split; [exact P|]. split.
  - intros t Ht. destruct (Rm t Ht) as [E T]. rewrite Lm, E. replace (r + 0 + (pcall z (r - Z.of_nat t) - r)) with (pcall z (r - Z.of_nat t)) by lia. split; [reflexivity|apply V].
  - intros x Hx N. rewrite Lm in Hx, N. pose proof (H3 x Hx) as K. destruct (Z.eq_dec (pcall z x) x) as [E|E]; [exact E|exfalso]. pose proof (pos_call z x P ltac:(lia)) as Px. destruct (Z_le_gt_dec (pcall z x) r) as [h|h].
    + apply N. apply In_row. exists (Z.to_nat (r - pcall z x)). assert (Ht : (Z.to_nat (r - pcall z x) < length mu)%nat) by (rewrite <- Lm in h |- *; unfold zlen in *; lia). split; [exact Ht|]. rewrite (proj1 (Rm _ Ht)). replace (r - Z.of_nat (Z.to_nat (r - pcall z x))) with (pcall z x) by lia. rewrite (proj2 V). reflexivity.
    + specialize (H3 (pcall z x) ltac:(lia)). rewrite (proj2 V) in H3. lia.
Qed.
Lemma iarcs_initial : forall mu z, strict_partition mu -> iarcs mu z -> initial_arcs (zlen mu) (pcall z).
Proof.
  intros mu z M H. split; [apply zlen_nonneg|]. split; [intros i Hi; apply iarcs_left; assumption|]. split; [|intros i Hi; apply (iarcs_right mu); assumption].
  intros i Hi. destruct H as (C & P & A & B). set (t := Z.to_nat (zlen mu - (i + 1))). assert (Ht : (S t < length mu)%nat) by (unfold t, zlen in *; lia). pose proof (A t ltac:(lia)) as [A1 _]. pose proof (A (S t) Ht) as [A2 _]. replace (zlen mu - Z.of_nat t) with (i + 1) in A1 by (unfold t; lia). replace (zlen mu - Z.of_nat (S t)) with i in A2 by (unfold t; lia). rewrite A1, A2. pose proof (strict_lt mu t (S t) M ltac:(lia)). lia.
Qed.
Lemma is_inv_ok : forall z, invol z -> positive z -> exists mu y, strict_partition mu /\ iarcs mu y /\ involution_shape z = Ok mu /\ is_inv_grassmannian z = Ok (peq y z).
Proof.
  intros z V P. unfold is_inv_grassmannian. rewrite involution_shape_ok by assumption. cbn [rbind]. set (c := map (icode z) (zrange 1 (zlen z + 1))). destruct (shape_strict c (icode_nonneg z _)) as [S _]; [intros x v; apply icode_values; assumption|].
  destruct (get_inv_ok _ S) as (y & Ey & Hy). eexists. exists y. split; [exact S|]. split; [exact Hy|]. split; [reflexivity|]. rewrite Ey. reflexivity.
Qed.
Lemma peq_refl : forall z, peq z z = true.
Proof. intro z. unfold peq. apply zlist_eqb_eq. reflexivity. Qed.
Lemma is_inv_true : forall mu z, strict_partition mu -> iarcs mu z -> is_inv_grassmannian z = Ok true.
Proof.
  intros mu z M H. unfold is_inv_grassmannian. rewrite (iarcs_shape mu z M H). cbn [rbind]. destruct (get_inv_ok mu M) as (y & Ey & Hy). rewrite Ey. cbn [rbind]. rewrite (iarcs_unique mu y z Hy H), peq_refl. reflexivity.
Qed.
Lemma range_down2_row : forall a k, row (range_down2 a) k = Z.max 0 (a - 2 * Z.of_nat k).
Proof.
  intros a k. unfold range_down2, row. pose proof (Z.div_mod (a + 1) 2 ltac:(lia)). pose proof (Z.mod_pos_bound (a + 1) 2 ltac:(lia)).
  destruct (Nat.lt_ge_cases k (length (map (fun i => a - 2 * i) (zrange 0 ((a + 1) / 2))))) as [h|h].
  - rewrite map_length, length_zrange in h. replace (nth k (map (fun i => a - 2 * i) (zrange 0 ((a + 1) / 2))) 0) with (nthz (map (fun i => a - 2 * i) (zrange 0 ((a + 1) / 2))) (Z.of_nat k)) by (unfold nthz; rewrite Nat2Z.id; reflexivity). rewrite (nthz_map (fun i => a - 2 * i)) by (rewrite zlen_zrange; lia). rewrite nthz_zrange by lia. lia.
  - rewrite nth_overflow by exact h. rewrite map_length, length_zrange in h. lia.
Qed.
Lemma range_down2_weak : forall a, weak_partition (range_down2 a).
Proof.
  intro a. split; [|intro i; rewrite !range_down2_row; lia]. apply Forall_forall. intros x Hx. apply In_row in Hx. destruct Hx as (t & _ & <-). rewrite range_down2_row. lia.
Qed.
Lemma included_down2 : forall a mu, strict_partition mu -> (included mu (range_down2 a) <-> forall i, (i < length mu)%nat -> row mu i <= a - 2 * Z.of_nat i).
Proof.
  intros a mu M. unfold included, cell. split.
  - intros H i Hi. pose proof (strict_pos mu i M Hi) as P. specialize (H (Z.of_nat i + 1) (row mu i)). replace (Z.to_nat (Z.of_nat i + 1 - 1)) with i in H by lia. rewrite range_down2_row in H. destruct H as [_ H]; lia.
  - intros H i j [Hi Hj]. split; [exact Hi|]. rewrite range_down2_row. destruct (Nat.lt_ge_cases (Z.to_nat (i - 1)) (length mu)) as [h|h]; [specialize (H _ h); lia|]. unfold row in Hj. rewrite nth_overflow in Hj by exact h. lia.
Qed.
Lemma strict_gap : forall mu i, strict_partition mu -> (i < length mu)%nat -> row mu i <= row mu 0 - Z.of_nat i.
Proof. intros mu i M. induction i as [|i IH]; intro Hi; [lia|]. specialize (IH ltac:(lia)). pose proof (strict_lt mu i (S i) M ltac:(lia)). lia. Qed.
