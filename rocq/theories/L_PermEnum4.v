(* involutions(n) and involutions(n, fpf=True) *)
From Coq Require Import List ZArith Lia Bool Permutation Arith.
From Verif Require Import PyBase M_Partitions M_Symmetric L_PartEnum M_Perm S_Perm L_Perm L_PermLen L_PermWord L_PermMisc S_Bruhat S_InvWords L_InvLen4 M_Bruhat L_Bruhat L_Bruhat2 M_PermEnum L_PermEnum1 L_PermEnum2 L_PermEnum3.
Import ListNotations.
Local Open Scope Z_scope.

Lemma rfold_collect : forall (A B : Type) (f : nat -> list B -> A -> res (list B)) (P : A -> B -> Prop) (N : nat) (l : list A),
  NoDup l -> (forall x y w, In x l -> In y l -> P x w -> P y w -> x = y) ->
  (forall x, In x l -> exists R, NoDup R /\ (forall w, In w R <-> P x w) /\ forall fuel acc, (N <= fuel)%nat -> f fuel acc x = Ok (acc ++ R)) ->
  exists R, NoDup R /\ (forall w, In w R <-> exists x, In x l /\ P x w) /\ forall fuel acc, (N <= fuel)%nat -> rfold (f fuel) l acc = Ok (acc ++ R).
Proof.
  intros A B f P N. induction l as [|x l IH]; intros Nl Ex Hf.
  - exists []. split; [constructor|]. split; [intro w; split; [intros []|intros (y & [] & _)]|]. intros fuel acc _. cbn [rfold]. rewrite app_nil_r. reflexivity.
  - inversion Nl as [|? ? Nx Nl']; subst. destruct (Hf x (or_introl eq_refl)) as (R1 & N1 & C1 & F1). destruct IH as (R2 & N2 & C2 & F2); [exact Nl'|intros y z w Hy Hz; apply Ex; right; assumption|intros y Hy; apply Hf; right; exact Hy|].
    exists (R1 ++ R2). split; [|split].
    + apply NoDup_app_intro; [exact N1|exact N2|]. intros w H1 H2. apply C1 in H1. apply C2 in H2. destruct H2 as (y & Hy & Py). apply Nx. rewrite (Ex x y w); [exact Hy|left; reflexivity|right; exact Hy|exact H1|exact Py].
    + intro w. rewrite in_app_iff, C1, C2. split.
      * intros [H|(y & Hy & Py)]; [exists x; split; [left; reflexivity|exact H]|exists y; split; [right; exact Hy|exact Py]].
      * intros (y & [<-|Hy] & Py); [left; exact Py|right; exists y; split; assumption].
    + intros fuel acc Hf'. cbn [rfold]. rewrite F1 by exact Hf'. cbn [rbind]. rewrite F2 by exact Hf'. rewrite app_assoc. reflexivity.
Qed.
Lemma even_support : forall f k (S : list Z), (length S <= k)%nat -> NoDup S -> (forall x, In x S -> In (f x) S /\ f x <> x /\ f (f x) = x) -> exists m, length S = (2 * m)%nat.
Proof.
  intros f k. induction k as [|k IH]; intros S L N H.
  - exists 0%nat. lia.
  - destruct S as [|x S]; [exists 0%nat; reflexivity|]. destruct (H x (or_introl eq_refl)) as (Hf & Nf & Ff). destruct Hf as [E|Hf]; [congruence|]. destruct (in_split _ _ Hf) as (p & q & ->). inversion N as [|? ? Nx N']; subst. pose proof (NoDup_remove_2 _ _ _ N') as Nb. apply NoDup_remove_1 in N'.
    cbn [length] in L. rewrite app_length in L. cbn [length] in L. destruct (IH (p ++ q)) as (m & Em).
    + rewrite app_length. lia.
    + exact N'.
    + intros y Hy. assert (Hy' : In y (x :: p ++ f x :: q)) by (right; rewrite in_app_iff in *; cbn [In]; tauto). destruct (H y Hy') as (If & Nf' & Ff'). split; [|split; assumption].
      destruct If as [E|If]; [exfalso; apply Nb; replace (f x) with y; [exact Hy|]; congruence|]. apply in_app_iff in If. apply in_app_iff. cbn [In] in If. destruct If as [I|[E|I]]; [left; exact I| |right; exact I].
      exfalso. apply Nx. assert (E2 : x = y) by congruence. apply in_app_iff in Hy. apply in_app_iff. cbn [In]. rewrite <- E2 in Hy. tauto.
    + exists (Datatypes.S m). cbn [length]. rewrite app_length in *. cbn [length]. lia.
Qed.
Lemma filter_memz : forall (l s : list Z), NoDup l -> sublist s l -> filter (fun x => memz x s) l = s.
Proof.
  intros l s N H. apply (sublist_ext _ l); [exact N|apply sublist_filter|exact H|]. intro x. rewrite filter_In, memz_In. split; [tauto|]. intro I. split; [exact (sublist_incl _ _ _ H x I)|exact I].
Qed.
Lemma filter_compl_len : forall (f : Z -> bool) l, (length (filter f l) + length (filter (fun x => negb (f x)) l) = length l)%nat.
Proof. intros f l. induction l as [|x l IH]; [reflexivity|]. cbn [filter]. destruct (f x); cbn [negb length]; lia. Qed.
Lemma boxl_mono : forall m k, (m <= k)%nat -> (length (boxl m) <= length (boxl k))%nat.
Proof.
  intros m k H. induction H as [|k H IH]; [lia|]. cbn [boxl]. rewrite zrange_cons by lia. cbn [flat_map]. rewrite app_length, map_length. lia.
Qed.
Lemma down_two_In : forall n k, 0 <= n -> (In k (down_two n (-1)) <-> 0 <= k <= n /\ exists j, n = k + 2 * j).
Proof.
  intros n k Hn. unfold down_two. rewrite in_map_iff. replace (n - -1 + 1) with (n + 1 * 2) by lia. rewrite Z.div_add by lia. pose proof (Z.div_mod n 2 ltac:(lia)). pose proof (Z.mod_pos_bound n 2 ltac:(lia)). split.
  - intros (j & <- & Hj). apply In_zrange in Hj. split; [lia|]. exists j. lia.
  - intros [Hk (j & ->)]. exists j. split; [lia|]. apply In_zrange. lia.
Qed.
Lemma down_two_NoDup : forall a b, NoDup (down_two a b).
Proof. intros a b. unfold down_two. apply NoDup_map_inj_in; [intros; lia|apply NoDup_zrange]. Qed.

Definition compl (n : Z) (fixed : list Z) : list Z := filter (fun i => negb (memz i fixed)) (zrange 1 (n + 1)).
Lemma compl_In : forall n fixed x, In x (compl n fixed) <-> 1 <= x <= n /\ ~ In x fixed.
Proof. intros n fixed x. unfold compl. rewrite filter_In, In_zrange, negb_true_iff. rewrite <- (memz_In x fixed). destruct (memz x fixed); intuition (try congruence; lia). Qed.
Lemma compl_len : forall n fixed, 0 <= n -> sublist fixed (zrange 1 (n + 1)) -> zlen (compl n fixed) = n - zlen fixed.
Proof.
  intros n fixed Hn H. pose proof (filter_compl_len (fun x => memz x fixed) (zrange 1 (n + 1))) as E. rewrite filter_memz in E by (try exact H; apply NoDup_zrange). rewrite length_zrange in E. unfold compl, zlen. lia.
Qed.
Lemma compl_inj : forall n a b w, sublist a (zrange 1 (n + 1)) -> sublist b (zrange 1 (n + 1)) -> supp_inv (compl n a) w -> supp_inv (compl n b) w -> a = b.
Proof.
  intros n a b w Ha Hb (_ & _ & Sa) (_ & _ & Sb). apply (sublist_ext _ (zrange 1 (n + 1))); [apply NoDup_zrange|exact Ha|exact Hb|].
  assert (E : forall x, 1 <= x <= n -> (In x a <-> In x b)). { intros x Hx. specialize (Sa x ltac:(lia)). specialize (Sb x ltac:(lia)). rewrite compl_In in Sa, Sb. destruct (in_dec Z.eq_dec x a); destruct (in_dec Z.eq_dec x b); tauto. }
  intro x. split; intro I; [pose proof (sublist_incl _ _ _ Ha x I) as J|pose proof (sublist_incl _ _ _ Hb x I) as J]; apply In_zrange in J; apply E; auto; lia.
Qed.
Lemma fix_len : forall n w, 0 <= n -> canonical w -> (forall x, n < x -> pcall w x = x) -> zlen w <= n.
Proof.
  intros n w Hn Hw H0. assert (H : forall x, n < Z.abs x -> pcall w x = x) by (intros x Hx; destruct (Z_lt_ge_dec 0 x); [apply H0; lia|]; replace x with (- - x) by lia; rewrite pcall_odd, H0; lia).
  destruct (strip_full (line (pcall w) n)) as [C L].
  - apply (signed_map_line (pcall w) n); [apply pcall_signed_map; apply Hw|exact Hn|exact H].
  - rewrite zlen_line in L by lia. replace w with (strip (line (pcall w) n)); [exact L|]. apply canonical_ext; [exact C|exact Hw|]. intro x. rewrite pcall_strip. apply (signed_map_line (pcall w) n); [apply pcall_signed_map; apply Hw|exact Hn|exact H].
Qed.
Lemma supp_len : forall n S w, 0 <= n -> (forall x, In x S -> x <= n) -> supp_inv S w -> zlen w <= n.
Proof. intros n S w Hn HS Sw. apply fix_len; [exact Hn|apply Sw|]. intros x Hx. apply (supp_fix S); [exact Sw|lia|]. intro I. apply HS in I. lia. Qed.

Section Unsigned.
  Variable n : Z.
  Hypothesis Hn : 0 <= n.
  Let bound : nat := length (boxl (Z.to_nat n)).
  Lemma block_ok : forall k fixed, 0 <= k <= n -> (exists j, n = k + 2 * j) -> In fixed (combinations (zrange 1 (n + 1)) (Z.to_nat k)) ->
    exists R, NoDup R /\ (forall w, In w R <-> supp_inv (compl n fixed) w) /\
      forall fuel acc, (bound <= fuel)%nat -> delta_loop fuel [down_two (n - k - 1) 0] [] (compl n fixed) acc = Ok (acc ++ R).
  Proof.
    intros k fixed Hk (j & Ej) Hf. apply combinations_sublist in Hf. destruct Hf as [Lf Sf]. pose proof (compl_len n fixed Hn Sf) as Lc.
    assert (HL : length (compl n fixed) = (2 * Z.to_nat j)%nat) by (unfold zlen in Lc; lia).
    destruct (delta_loop_ok (compl n fixed) (Z.to_nat j)) as (R & E & N & C); [exact HL|apply NoDup_filter; apply NoDup_zrange|apply Forall_forall; intros x Hx; apply compl_In in Hx; lia|].
    exists R. split; [exact N|]. split; [exact C|]. intros fuel acc Hb. replace (n - k - 1) with (2 * Z.of_nat (Z.to_nat j) - 1) by lia. rewrite down_two_top. apply E. apply Nat.le_trans with bound; [apply boxl_mono; lia|exact Hb].
  Qed.
  Lemma blocks_ok : forall ks, NoDup ks -> (forall k, In k ks -> 0 <= k <= n /\ exists j, n = k + 2 * j) ->
    exists R, NoDup R /\ (forall w, In w R <-> exists k, In k ks /\ exists fixed, In fixed (combinations (zrange 1 (n + 1)) (Z.to_nat k)) /\ supp_inv (compl n fixed) w) /\
      forall fuel acc, (bound <= fuel)%nat ->
        rfold (fun ans k => rfold (fun ans fixed => let numbers := filter (fun i => negb (memz i fixed)) (zrange 1 (n + 1)) in delta_loop fuel [down_two (n - k - 1) 0] [] numbers ans) (combinations (zrange 1 (n + 1)) (Z.to_nat k)) ans) ks acc = Ok (acc ++ R).
  Proof.
    intros ks Nk Hk. apply (rfold_collect Z (list Z) (fun fuel ans k => rfold (fun ans fixed => delta_loop fuel [down_two (n - k - 1) 0] [] (compl n fixed) ans) (combinations (zrange 1 (n + 1)) (Z.to_nat k)) ans)
      (fun k w => exists fixed, In fixed (combinations (zrange 1 (n + 1)) (Z.to_nat k)) /\ supp_inv (compl n fixed) w)); [exact Nk| |].
    - intros k k' w Ik Ik' (a & Ia & Sa) (b & Ib & Sb). apply combinations_sublist in Ia, Ib. destruct Ia as [La Ia], Ib as [Lb Ib]. rewrite (compl_inj n a b w Ia Ib Sa Sb) in La. apply Hk in Ik, Ik'. lia.
    - intros k Ik. destruct (Hk k Ik) as [Bk Jk]. apply (rfold_collect (list Z) (list Z) (fun fuel ans fixed => delta_loop fuel [down_two (n - k - 1) 0] [] (compl n fixed) ans) (fun fixed w => supp_inv (compl n fixed) w)).
      + apply combinations_NoDup. apply NoDup_zrange.
      + intros a b w Ia Ib. apply combinations_sublist in Ia, Ib. apply compl_inj; tauto.
      + intros fixed If. apply block_ok; assumption.
  Qed.
  Lemma unsigned_ok : exists R, NoDup R /\ (forall w, In w R <-> canonical w /\ involution_map (pcall w) /\ zlen w <= n) /\ forall fuel, (bound <= fuel)%nat -> involutions_unsigned fuel n false = Ok R.
  Proof.
    destruct (blocks_ok (down_two n (-1))) as (R & N & C & F); [apply down_two_NoDup|intros k Hk; apply down_two_In; assumption|]. exists R. split; [exact N|]. split.
    - intro w. rewrite C. split.
      + intros (k & Ik & fixed & If & Sw). split; [apply Sw|]. split; [apply Sw|]. apply (supp_len n (compl n fixed)); [exact Hn|intros x Hx; apply compl_In in Hx; lia|exact Sw].
      + intros (Cw & Iw & Lw). pose proof Iw as [Iw1 Iw2]. set (fixed := filter (fun x => pcall w x =? x) (zrange 1 (n + 1))).
        assert (Ifx : forall x, In x fixed <-> 1 <= x <= n /\ pcall w x = x) by (intro x; unfold fixed; rewrite filter_In, In_zrange, Z.eqb_eq; intuition lia).
        assert (Sf : sublist fixed (zrange 1 (n + 1))) by apply sublist_filter. pose proof (compl_len n fixed Hn Sf) as Lc.
        assert (Bd : forall x, 1 <= x <= n -> 1 <= pcall w x <= n). { intros x Hx. specialize (Iw2 x ltac:(lia)). destruct (Z_le_gt_dec (pcall w x) n); [lia|]. exfalso. assert (E : pcall w (pcall w x) = pcall w x) by (apply pcall_out; lia). rewrite Iw1 in E. lia. }
        destruct (even_support (pcall w) _ (compl n fixed) (le_n _)) as (m & Em).
        { apply NoDup_filter. apply NoDup_zrange. }
        { intros x Hx. rewrite compl_In, Ifx in *. destruct Hx as [Hx Nx]. rewrite Iw1. split; [|split; [tauto|reflexivity]]. split; [apply Bd; exact Hx|]. intros [_ E]. apply Nx. split; [exact Hx|congruence]. }
        exists (zlen fixed). split.
        * apply down_two_In; [exact Hn|]. pose proof (zlen_nonneg _ fixed). unfold zlen in *. split; [lia|]. exists (Z.of_nat m). lia.
        * exists fixed. split; [apply combinations_sublist; split; [unfold zlen; lia|exact Sf]|]. split; [exact Cw|]. split; [exact Iw|]. intros x Hx. rewrite compl_In, Ifx. destruct (Z_le_gt_dec x n); [split; [intro H; split; [lia|tauto]|intros [_ H] E; apply H; split; [lia|exact E]]|]. rewrite pcall_out by lia. split; [congruence|lia].
    - intros fuel Hb. unfold involutions_unsigned. rewrite andb_false_r. rewrite F by exact Hb. reflexivity.
  Qed.
  Lemma unsigned_fpf_ok : exists R, NoDup R /\ (forall w, In w R <-> canonical w /\ fpf_on n (pcall w) /\ zlen w <= n) /\ forall fuel, (bound <= fuel)%nat -> involutions_unsigned fuel n true = Ok R.
  Proof.
    assert (Full : forall x, In x (compl n []) <-> 1 <= x <= n) by (intro x; rewrite compl_In; cbn [In]; tauto).
    assert (Char : forall w, supp_inv (compl n []) w <-> canonical w /\ fpf_on n (pcall w) /\ zlen w <= n).
    { intro w. split.
      - intros Sw. split; [apply Sw|]. split; [|apply (supp_len n (compl n [])); [exact Hn|intros x Hx; apply Full in Hx; lia|exact Sw]]. destruct Sw as (Cw & [I1 I2] & S). split; [exact I1|]. intros x Hx. split; [apply I2; lia|apply S; [lia|apply Full; exact Hx]].
      - intros (Cw & [I1 I2] & L). split; [exact Cw|]. assert (P : forall x, 0 < x -> 0 < pcall w x) by (intros x Hx; destruct (Z_le_gt_dec x n); [apply I2; lia|rewrite pcall_out by lia; exact Hx]). split; [split; [exact I1|exact P]|].
        intros x Hx. rewrite Full. destruct (Z_le_gt_dec x n); [split; [intros _; lia|intros _; apply I2; lia]|]. rewrite pcall_out by lia. split; [congruence|lia]. }
    destruct (Z.eq_dec (n mod 2) 0) as [Ev|Od].
    - destruct (blocks_ok [0]) as (R & N & C & F); [repeat constructor; intros []|intros k [<-|[]]; split; [lia|]; exists (n / 2); pose proof (Z.div_mod n 2 ltac:(lia)); lia|]. exists R. split; [exact N|]. split.
      + intro w. rewrite C, <- Char. split; [intros (k & [<-|[]] & fixed & If & Sw)|intro Sw; exists 0; split; [left; reflexivity|]; exists []; split; [|exact Sw]].
        * change (Z.to_nat 0) with 0%nat in If. assert (fixed = []) by (destruct (zrange 1 (n + 1)); destruct If as [<-|[]]; reflexivity). subst fixed. exact Sw.
        * change (Z.to_nat 0) with 0%nat. destruct (zrange 1 (n + 1)); left; reflexivity.
      + intros fuel Hb. unfold involutions_unsigned. rewrite Ev. cbn [Z.eqb negb andb]. rewrite F by exact Hb. reflexivity.
    - exists []. split; [constructor|]. split.
      + intro w. split; [intros []|]. intro H. apply Char in H. destruct H as (_ & [I1 I2] & S). destruct (even_support (pcall w) _ (compl n []) (le_n _)) as (m & Em).
        * apply NoDup_filter. apply NoDup_zrange.
        * intros x Hx. rewrite I1. assert (Hx' : 0 < x) by (apply Full in Hx; lia). pose proof (proj2 (S x Hx') Hx) as Nx. split; [|split; [exact Nx|reflexivity]]. apply S; [apply I2; exact Hx'|]. rewrite I1. congruence.
        * assert (L : zlen (compl n []) = n - zlen (@nil Z)) by (apply compl_len; [exact Hn|apply sublist_nil]). apply Od. change (zlen (@nil Z)) with 0 in L. unfold zlen in L. symmetry. apply Z.mod_unique with (Z.of_nat m); lia.
      + intros fuel _. unfold involutions_unsigned. destruct (Z.eqb_spec (n mod 2) 0); [contradiction|]. reflexivity.
  Qed.
End Unsigned.
