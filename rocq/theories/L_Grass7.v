From Coq Require Import List ZArith Bool Lia Permutation Sorted.
From Verif Require Import PyBase M_Partitions S_Partitions L_PartMore M_Perm M_PermGroth M_Bruhat S_Perm S_Bruhat L_Words2 L_Perm L_PermLen L_PermWord L_PermMisc L_LevelsInst L_PermActs L_PermGroth7 L_InvLen L_InvLen2 L_InvLen4 L_InvLen6 L_Bruhat L_Bruhat2 L_PermEnum2 M_Grass S_Grass L_Grass1 L_Grass2 L_Grass3 L_Grass4 L_Grass5 L_Grass6.
From Verif Require L_PartBasic L_Partitions L_Tableaux P_Partitions L_Generate.
Import ListNotations.
Local Open Scope Z_scope.

Definition frank (mu : list Z) : Z := match mu with [] => 0 | a :: _ => (if (zlen mu + 1 + a) mod 2 =? 0 then 0 else 1) + 1 + zlen mu + a end.
Lemma frank_even : forall mu, strict_partition mu -> frank mu mod 2 = 0 /\ 0 <= frank mu /\ (mu <> [] -> zlen mu + 1 + row mu 0 <= frank mu <= zlen mu + 2 + row mu 0).
Proof.
  intros [|a mu] M; [split; [reflexivity|]; split; [cbn; lia|congruence]|]. unfold frank. pose proof (strict_pos _ 0 M ltac:(cbn; lia)) as P. unfold row in *. cbn [nth] in *. pose proof (zlen_nonneg _ (a :: mu)). set (r := zlen (a :: mu)) in *. pose proof (Z.div_mod (r + 1 + a) 2 ltac:(lia)). pose proof (Z.mod_pos_bound (r + 1 + a) 2 ltac:(lia)).
  destruct (Z.eqb_spec ((r + 1 + a) mod 2) 0) as [e|e]; (split; [|split; [lia|intros _; lia]]).
  - replace (0 + 1 + r + a) with (r + 1 + a) by lia. exact e.
  - replace (1 + 1 + r + a) with (((r + 1 + a) / 2 + 1) * 2) by lia. apply Z_mod_mult.
Qed.
Definition farcs (mu : list Z) (z : list Z) : Prop :=
  invol z /\ positive z /\ zlen z = frank mu /\ main_arcs 1 mu (pcall z) /\ neighbours_matched (frank mu) mu (pcall z).
Lemma even_fixed : forall u n, 0 <= n -> n mod 2 = 0 -> invol u -> positive u -> zlen u <= n -> exists k, length (fixl u n) = (2 * k)%nat /\ Z.of_nat (2 * k) <= n.
Proof.
  intros u n H0 Hn V P L. set (mv := filter (fun i => negb (pcall u i =? i)) (zrange 1 (n + 1))).
  assert (T : zlen (fixl u n) + zlen mv = n).
  { pose proof (cnt_add (fun _ => true) (fun i => pcall u i =? i) (fun i => negb (pcall u i =? i)) (zrange 1 (n + 1))) as K. rewrite cnt_full in K by reflexivity. rewrite zlen_zrange in K by lia. unfold cnt in K. unfold fixl, mv. rewrite <- K; [lia|]. intros x _. destruct (pcall u x =? x); reflexivity. }
  destruct (even_orbits (pcall u) (length mv) mv (le_n _)) as (j & Ej).
  - apply NoDup_filter, NoDup_zrange.
  - intros x Hx. unfold mv in Hx. apply filter_In in Hx. destruct Hx as [Hx Nx]. apply In_zrange in Hx. assert (Nx' : pcall u x <> x) by lia. split; [|split; [exact Nx'|apply V]]. apply filter_In. assert (R : 1 <= x <= zlen u) by (destruct (Z_le_gt_dec x (zlen u)); [lia|rewrite pcall_out in Nx' by lia; lia]). pose proof (pcall_abs u x (proj1 (proj1 V)) R). pose proof (pos_call u x P ltac:(lia)). split; [apply In_zrange; lia|]. rewrite (proj2 V). lia.
  - unfold zlen in T. pose proof (Z.div_mod n 2 ltac:(lia)) as D. exists (Z.to_nat (n / 2 - Z.of_nat j)). split; lia.
Qed.
Lemma pair_up_mono : forall f g u v, pair_up f u = Ok v -> (f <= g)%nat -> pair_up g u = Ok v.
Proof.
  induction f as [|f IH]; intros g u v E L; [discriminate|]. destruct g as [|g]; [lia|]. cbn [pair_up] in *. destruct (is_fpf_involution u) as [b|]; [|exact E]. cbn [rbind] in *. destruct b; [exact E|]. destruct (filter (fun i => pcall u i =? i) (zrange 1 (zlen u + 2))) as [|a [|b F]]; [exact E|exact E|]. destruct (transposition a b) as [t|]; [|exact E]. cbn [rbind] in *. destruct (pmul u t) as [w|]; [|exact E]. cbn [rbind] in *. apply IH; [exact E|lia].
Qed.
Lemma get_fpf_ok : forall mu, strict_partition mu -> exists z, (forall fuel, (Z.to_nat (frank mu) < fuel)%nat -> get_fpf_grassmannian fuel mu = Ok z) /\ farcs mu z.
Proof.
  intros mu M. destruct mu as [|a0 mu0] eqn:Em.
  - exists []. split; [intros [|fuel] Hf; [cbn in Hf; lia|reflexivity]|]. split; [split; [exact nil_canonical|intro x; rewrite !pcall_nil; reflexivity]|]. split; [constructor|]. split; [reflexivity|]. split; [intros t Ht; cbn in Ht; lia|]. intros x [Hx _]. unfold zlen, frank in Hx. cbn in Hx. lia.
  - rewrite <- Em in *. assert (Ne : mu <> []) by (rewrite Em; discriminate). pose proof (frank_even mu M) as (Fe & F0 & Fb). specialize (Fb Ne). set (n := frank mu) in *.
    assert (En : exists o, 0 <= o <= 1 /\ n = o + 1 + zlen mu + row mu 0 /\ match mu with [] => 0 | a :: _ => if (zlen mu + 1 + a) mod 2 =? 0 then 0 else 1 end = o).
    { unfold n, frank. rewrite Em. eexists. split; [|split; [|reflexivity]]; [destruct ((zlen (a0 :: mu0) + 1 + a0) mod 2 =? 0); lia|]. unfold row. cbn [nth]. reflexivity. }
    destruct En as (o & Ho & En & Eo). destruct (arcs_product o 2 mu ltac:(lia) ltac:(lia) M) as (u & Eu & Cu & Pu & V1 & V2). pose proof (arcs_rank o 2 mu u ltac:(lia) ltac:(lia) M Cu V2) as Lu.
    assert (Inn : forall t, (t < length mu)%nat -> 0 < row mu t <= row mu 0 /\ 1 <= zlen mu - Z.of_nat t). { intros t Ht. pose proof (strict_pos mu t M Ht). pose proof (strict_row_le0 mu t M). unfold zlen. lia. }
    assert (Cases : forall x, 0 < x -> (exists t, (t < length mu)%nat /\ x = o + 1 + row mu 0 - row mu t) \/ (exists t, (t < length mu)%nat /\ x = o + Z.of_nat t + 2 + row mu 0) \/ pcall u x = x /\ (forall t, (t < length mu)%nat -> x <> o + 1 + row mu 0 - row mu t /\ x <> o + Z.of_nat t + 2 + row mu 0)).
    { intros x Hx. destruct (in_dec Z.eq_dec (o + 1 + row mu 0 - x) mu) as [i|i]; [left; apply In_row in i; destruct i as (t & Ht & E); exists t; split; [exact Ht|lia]|]. destruct (Z_le_gt_dec (o + 2 + row mu 0) x) as [h|h].
      - destruct (Z_lt_ge_dec x (o + 2 + row mu 0 + zlen mu)) as [h2|h2]; [right; left; exists (Z.to_nat (x - o - 2 - row mu 0)); unfold zlen in h2; lia|]. right. right. assert (K : forall t, (t < length mu)%nat -> x <> o + 1 + row mu 0 - row mu t /\ x <> o + Z.of_nat t + 2 + row mu 0) by (intros t Ht; pose proof (Inn t Ht); lia). split; [apply V2; assumption|exact K].
      - right. right. assert (K : forall t, (t < length mu)%nat -> x <> o + 1 + row mu 0 - row mu t /\ x <> o + Z.of_nat t + 2 + row mu 0) by (intros t Ht; split; [intro E; apply i; apply In_row; exists t; split; [exact Ht|lia]|lia]). split; [apply V2; assumption|exact K]. }
    assert (Vu : invol u).
    { split; [exact Cu|]. assert (Q : forall x, 0 < x -> pcall u (pcall u x) = x).
      { intros x Hx. destruct (Cases x Hx) as [(t & Ht & ->)|[(t & Ht & ->)|[E _]]]; [rewrite (proj1 (V1 t Ht)); apply V1; exact Ht|rewrite (proj2 (V1 t Ht)); apply V1; exact Ht|rewrite E; exact E]. }
      intro x. destruct (Z.lt_total x 0) as [h|[->|h]]; [|rewrite !pcall_zero; reflexivity|apply Q; exact h]. specialize (Q (- x) ltac:(lia)). rewrite !pcall_odd in Q. lia. }
    assert (L1 : (length mu - 1 < length mu)%nat) by (rewrite Em; cbn; lia).
    assert (Zu : zlen u = n). { destruct (Z_lt_ge_dec (zlen u) n) as [h|h]; [exfalso|lia]. destruct (V1 _ L1) as [_ Vb]. pose proof (Inn _ L1). rewrite pcall_out in Vb by (unfold zlen in *; lia). lia. }
    destruct (even_fixed u n F0 Fe Vu Pu ltac:(lia)) as (k & Lk & Bk).
    assert (Ev : exists v, (forall fuel, (Z.to_nat n < fuel)%nat -> pair_up fuel u = Ok v) /\ invol v /\ positive v /\ zlen v = n /\ (forall x, 1 <= x <= n -> pcall u x <> x -> pcall v x = pcall u x) /\ matched n u v).
    { destruct (pair_up_ok k (S (Z.to_nat n)) u Vu Pu) as (v & Ev & R1 & R2 & R3 & R4 & R5); [rewrite Zu; exact Lk|lia|]. rewrite Zu in *. exists v. split; [|tauto]. intros fuel Hf.
      apply (pair_up_mono (S (Z.to_nat n))); [exact Ev|lia]. }
    destruct Ev as (v & Ev & Vv & Pv & Zv & Av & Mv).
    destruct (flip_ok n v F0 (proj1 Vv) Pv ltac:(lia)) as (z & Ez & Cz & Pz & F1 & F2). exists z. split.
    { intros fuel Hf. unfold get_fpf_grassmannian. rewrite is_strict_true by exact M. rewrite Eo. rewrite Eu. cbn [rbind]. rewrite (Ev fuel Hf). cbn [rbind]. rewrite head0_row. replace (o + 1 + zlen mu + row mu 0) with n by lia. exact Ez. }
    assert (Vr : forall x, 1 <= x <= n -> 1 <= pcall v x <= n). { intros x Hx. pose proof (pos_call v x Pv ltac:(lia)). pose proof (pcall_abs v x (proj1 (proj1 Vv)) ltac:(lia)). lia. }
    assert (Vz : invol z).
    { split; [exact Cz|]. assert (Q : forall x, 0 < x -> pcall z (pcall z x) = x).
      { intros x Hx. destruct (Z_le_gt_dec x n) as [h|h]; [|rewrite (F2 x) by lia; apply F2; lia]. pose proof (Vr (n + 1 - x) ltac:(lia)). rewrite (F1 x) by lia. rewrite F1 by lia. replace (n + 1 - (n + 1 - pcall v (n + 1 - x))) with (pcall v (n + 1 - x)) by lia. rewrite (proj2 Vv). lia. }
      intro x. destruct (Z.lt_total x 0) as [h|[->|h]]; [|rewrite !pcall_zero; reflexivity|apply Q; exact h]. specialize (Q (- x) ltac:(lia)). rewrite !pcall_odd in Q. lia. }
    split; [exact Vz|]. split; [exact Pz|].
    assert (Moved : forall t, (t < length mu)%nat -> pcall v (o + 1 + row mu 0 - row mu t) = o + Z.of_nat t + 2 + row mu 0 /\ pcall v (o + Z.of_nat t + 2 + row mu 0) = o + 1 + row mu 0 - row mu t).
    { intros t Ht. destruct (Inn t Ht) as [I1 I2]. destruct (V1 t Ht) as [Va Vb]. rewrite !Av by lia. split; assumption. }
    assert (Main : main_arcs 1 mu (pcall z)).
    { intros t Ht. destruct (Inn t Ht) as [I1 I2]. destruct (Moved t Ht) as [Va Vb]. rewrite !F1 by lia. split.
      - replace (n + 1 - (zlen mu - Z.of_nat t)) with (o + Z.of_nat t + 2 + row mu 0) by lia. rewrite Vb. lia.
      - replace (n + 1 - (zlen mu + 1 + row mu t)) with (o + 1 + row mu 0 - row mu t) by lia. rewrite Va. lia. }
    assert (Oth : forall x, other_points n mu x <-> 1 <= x <= n /\ pcall u (n + 1 - x) = n + 1 - x).
    { intro x. unfold other_points. pose proof (zlen_nonneg _ mu). split.
      - intros [Hx N]. split; [lia|]. apply V2; [lia|]. intros t Ht. destruct (Inn t Ht) as [I1 I2]. split; [|lia]. intro E. apply N. apply In_row. exists t. split; [exact Ht|lia].
      - intros [Hx E]. destruct (Cases (n + 1 - x) ltac:(lia)) as [(t & Ht & Q)|[(t & Ht & Q)|[_ Q]]].
        + rewrite Q, (proj1 (V1 t Ht)) in E. pose proof (Inn t Ht). lia.
        + rewrite Q, (proj2 (V1 t Ht)) in E. pose proof (Inn t Ht). lia.
        + split.
          * destruct (Z_lt_ge_dec (zlen mu) x) as [h|h]; [lia|exfalso]. destruct (Q (Z.to_nat (zlen mu - x))) as [_ Q2]; [unfold zlen in *; lia|]. lia.
          * intro K. apply In_row in K. destruct K as (t & Ht & Et). destruct (Q t Ht) as [Q1 _]. lia. }
    split; [|split; [exact Main|]].
    + assert (N1 : 1 <= n) by (pose proof (Inn _ L1); pose proof (zlen_nonneg _ mu); lia). assert (K : zlen z <= n) by (apply zlen_fixed; [exact Cz|exact F0|intros x Hx; apply F2; lia]). destruct (Z_lt_ge_dec (zlen z) n) as [h|h]; [exfalso|lia]. pose proof (pcall_out z n ltac:(lia)) as E.
      destruct (Z.eq_dec (pcall u 1) 1) as [e|e].
      * destruct (Mv 1 ltac:(lia) e) as (M1 & _). rewrite F1 in E by lia. replace (n + 1 - n) with 1 in E by lia. lia.
      * rewrite F1 in E by lia. replace (n + 1 - n) with 1 in E by lia. rewrite Av in E by lia. lia.
    + fold n. intros x Hx. apply Oth in Hx. destruct Hx as [Hx Ex]. destruct (Mv (n + 1 - x) ltac:(lia) Ex) as (M1 & M2 & M3 & M4). rewrite F1 by lia. split; [lia|]. split; [apply Oth; split; [lia|]; replace (n + 1 - (n + 1 - pcall v (n + 1 - x))) with (pcall v (n + 1 - x)) by lia; exact M3|].
      intros y Hy. apply Oth in Hy. destruct Hy as [Hy Ey]. pose proof (M4 (n + 1 - y) ltac:(lia) Ey). lia.
Qed.
Lemma farcs_left : forall mu z i, strict_partition mu -> farcs mu z -> 1 <= i <= zlen mu -> zlen mu < pcall z i.
Proof. intros mu z i M (V & P & L & A & B) Hi. set (t := Z.to_nat (zlen mu - i)). assert (Ht : (t < length mu)%nat) by (unfold t, zlen in *; lia). replace i with (zlen mu - Z.of_nat t) by (unfold t; lia). rewrite (proj1 (A t Ht)). pose proof (strict_pos mu t M Ht). lia. Qed.
Lemma farcs_dep : forall mu z i, strict_partition mu -> farcs mu z -> 0 <= i <= zlen mu -> dep z i = i.
Proof.
  intros mu z i M H [H0 Hi]. pose proof H as (V & P & L & A & B). pose proof (frank_even mu M) as (_ & F0 & Fb).
  revert Hi. apply (natlike_ind (fun i => i <= zlen mu -> dep z i = i)); [|  |exact H0].
  - intros _. apply dep_zero; assumption.
  - intros d Hd IH Hi. unfold Z.succ in *. assert (Ne : mu <> []) by (intros ->; unfold zlen in Hi; cbn in Hi; lia). specialize (Fb Ne). pose proof (strict_pos mu 0 M ltac:(destruct mu; [congruence|cbn; lia])). rewrite dep_step by (assumption || lia). replace (d + 1 - 1) with d by lia. rewrite IH by lia. pose proof (farcs_left mu z (d + 1) M H ltac:(lia)). unfold ind. replace (d + 1 <? pcall z (d + 1)) with true by lia. replace (pcall z (d + 1) <? d + 1) with false by lia. lia.
Qed.
Lemma farcs_code_fix : forall mu z i, strict_partition mu -> farcs mu z -> other_points (frank mu) mu i -> fcode z i = L_PartBasic.cnt mu (i - zlen mu - 1).
Proof.
  intros mu z i M H Hi. pose proof H as (V & P & L & A & B). pose proof (frank_even mu M) as (_ & F0 & Fb). destruct Hi as [Hr N] eqn:EHi. rewrite <- (ends_beyond 1 mu z i) by (try exact M; try lia; intro Ne; specialize (Fb Ne); lia). unfold fcode. apply cnt_ext. intros j Hj. apply In_zrange in Hj.
  destruct (Z.ltb_spec i j) as [h|h]; [|reflexivity]. cbn [andb]. destruct (B i Hi) as (B1 & B2 & B3). destruct (memz (j - zlen mu - 1) mu) eqn:E.
  - apply memz_In in E. apply In_row in E. destruct E as (t & Ht & Et). replace j with (zlen mu + 1 + row mu t) by lia. rewrite (proj2 (A t Ht)). destruct B2 as [B2 _]. lia.
  - assert (E' : ~ In (j - zlen mu - 1) mu) by (intro Q; apply memz_In in Q; congruence). assert (Oj : other_points (frank mu) mu j) by (split; [lia|exact E']). destruct (B j Oj) as (_ & _ & K). specialize (K i Hi). lia.
Qed.
Lemma farcs_code_end : forall mu z x, strict_partition mu -> farcs mu z -> In x mu -> fcode z (zlen mu + 1 + x) = 0.
Proof.
  intros mu z x M H Hx. pose proof H as (V & P & L & A & B). apply In_row in Hx. destruct Hx as (t & Ht & <-). apply cnt_zero. intros j Hj. apply In_zrange in Hj. rewrite (proj2 (A t Ht)). destruct (Z.ltb_spec (zlen mu + 1 + row mu t) j) as [h|h]; [|reflexivity]. cbn [andb].
  pose proof (strict_pos mu t M Ht) as P0. destruct (in_dec Z.eq_dec (j - zlen mu - 1) mu) as [i|i].
  - apply In_row in i. destruct i as (s & Hs & Es). replace j with (zlen mu + 1 + row mu s) by lia. rewrite (proj2 (A s Hs)). assert (Ls : (s < t)%nat) by (destruct (Nat.lt_total s t) as [q|[q|q]]; [exact q|subst s; lia|pose proof (strict_lt mu t s M ltac:(lia)); lia]). lia.
  - assert (Oj : other_points (frank mu) mu j) by (split; [lia|exact i]). destruct (B j Oj) as (_ & [K _] & _). lia.
Qed.
Lemma fcode_nonneg : forall z l, Forall (fun x => 0 <= x) (map (fcode z) l).
Proof. intros z l. apply Forall_forall. intros x Hx. apply in_map_iff in Hx. destruct Hx as (i & <- & _). apply cnt_nonneg. Qed.
Lemma fpf_shape_ok : forall z, invol z -> positive z -> is_fpf_involution z = Ok true -> fpf_involution_shape z = Ok (transpose (psort (map (fcode z) (zrange 1 (zlen z + 1))) true)).
Proof. intros z V P F. unfold fpf_involution_shape. rewrite F. cbn [rbind]. rewrite fcode_ok by assumption. reflexivity. Qed.
Lemma farcs_nofix : forall mu z x, strict_partition mu -> farcs mu z -> 1 <= x <= zlen z -> pcall z x <> x.
Proof.
  intros mu z x M H Hx. pose proof H as (V & P & L & A & B). destruct (Z_le_gt_dec x (zlen mu)) as [h|h]; [pose proof (farcs_left mu z x M H ltac:(lia)); lia|]. destruct (in_dec Z.eq_dec (x - zlen mu - 1) mu) as [i|i].
  - apply In_row in i. destruct i as (t & Ht & Et). replace x with (zlen mu + 1 + row mu t) by lia. rewrite (proj2 (A t Ht)). pose proof (strict_pos mu t M Ht). lia.
  - apply B. split; [lia|exact i].
Qed.
Lemma nofix_true : forall z, invol z -> (forall x, 1 <= x <= zlen z -> pcall z x <> x) -> is_fpf_involution z = Ok true.
Proof. intros z V H. apply fpf_fixl; [exact V|]. destruct (fixl z (zlen z)) as [|a l] eqn:E; [reflexivity|]. assert (K : In a (fixl z (zlen z))) by (rewrite E; left; reflexivity). apply fixl_In in K. destruct K as [K1 K2]. exfalso. exact (H a K1 K2). Qed.
Lemma farcs_shape : forall mu z, strict_partition mu -> farcs mu z -> fpf_involution_shape z = Ok mu.
Proof.
  intros mu z M H. pose proof H as (V & P & L & A & B). pose proof (frank_even mu M) as (_ & F0 & Fb). rewrite fpf_shape_ok; [|exact V|exact P|apply nofix_true; [exact V|intros x Hx; apply (farcs_nofix mu); assumption]]. f_equal. set (c := map (fcode z) (zrange 1 (zlen z + 1))). pose proof (fcode_nonneg z (zrange 1 (zlen z + 1))) as F. fold c in F.
  destruct (shape_strict c F) as [S _]; [intros x v; apply fcode_values; [exact V|exact P|]; intros i Hi; apply (farcs_nofix mu); assumption|]. apply partition_ext; [apply S|apply M|]. intro k. rewrite shape_row by exact F. unfold c. rewrite cnt_map. rewrite <- (code_rows 1 mu (zlen z) (fcode z)) with (k := k).
  - reflexivity.
  - lia.
  - exact M.
  - intro Ne. specialize (Fb Ne). lia.
  - apply zlen_nonneg.
  - intros i Hi. assert (Ne : mu <> []) by (intros ->; unfold zlen in Hi; cbn in Hi; lia). specialize (Fb Ne). pose proof (strict_pos mu 0 M ltac:(destruct mu; [congruence|cbn; lia])). pose proof (farcs_left mu z i M H Hi). rewrite fcode_dep by (assumption || lia). rewrite (farcs_dep mu) by (assumption || lia). lia.
  - intros x Hx. apply farcs_code_end; assumption.
  - intros i Hi N. apply farcs_code_fix; [exact M|exact H|]. split; [lia|exact N].
Qed.
