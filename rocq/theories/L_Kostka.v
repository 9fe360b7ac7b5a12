(* Kostka numbers and their set-valued analogues: the coefficients of Schur polynomials and of stable
   Grothendieck polynomials are unitriangular *)
From Coq Require Import List ZArith Lia Bool Permutation Sorted Arith.
From Verif Require Import PyBase M_Rref M_Partitions S_Partitions L_Partitions L_PartBasic L_Growth L_PartMore M_Tableaux M_Strips S_Strips L_Strips L_Strips2 P_Strips
  M_Semistandard S_Semistandard L_Fill L_Shape L_Semi L_Semi2 L_Semi3 L_Semi4 L_Semi5 L_Count L_Count2 L_Count3.
Import ListNotations.
Local Open Scope Z_scope.

Lemma partition_nil : partition [].
Proof. split; [constructor|]. intro i. destruct i; cbn; lia. Qed.

Lemma skew_count : forall mu nu (d : list (Z * Z)), partition mu -> partition nu -> (forall i, row nu i <= row mu i) -> NoDup d ->
  (forall a b, In (a, b) d <-> in_skew cell mu nu a b) -> zlen d = size mu - size nu.
Proof.
  intros mu nu d Pm Pn Le N H.
  set (cs := fun k => map (fun j => (Z.of_nat k + 1, j)) (zrange (row nu k + 1) (row mu k + 1))).
  assert (P : Permutation d (flat_map cs (seq 0 (length mu)))).
  { apply NoDup_Permutation; [assumption| |].
    - apply NoDup_flat_map; [apply seq_NoDup| |].
      + intros k _. unfold cs. apply NoDup_map_inj_in; [intros x y _ _ E; injection E; auto|]. unfold zrange. apply NoDup_map_inj_in; [intros; lia|apply seq_NoDup].
      + intros x y b _ _ H1 H2. unfold cs in *. apply in_map_iff in H1. apply in_map_iff in H2. destruct H1 as (? & <- & _). destruct H2 as (? & E & _). injection E. lia.
    - intros [a b]. rewrite H, in_flat_map. unfold in_skew, cell, cs. pose proof (partition_nonneg nu) as Nn. split.
      + intros [(A1 & A2) A3]. exists (Z.to_nat (a - 1)). split.
        * apply in_seq. split; [lia|]. destruct (le_lt_dec (length mu) (Z.to_nat (a - 1))) as [C|C]; [|lia]. unfold row in A2. rewrite (nth_overflow mu) in A2 by assumption. lia.
        * apply in_map_iff. exists b. split; [f_equal; lia|]. apply In_zrange. lia.
      + intros (k & Hk & Hb). apply in_map_iff in Hb. destruct Hb as (j & E & Hj). injection E as <- <-. apply In_zrange in Hj. replace (Z.to_nat (Z.of_nat k + 1 - 1)) with k by lia. pose proof (Nn k Pn). lia. }
  unfold zlen. rewrite (Permutation_length P).
  assert (G : forall n, Z.of_nat (length (flat_map cs (seq 0 n))) = psum (row mu) n - psum (row nu) n).
  { induction n as [|n IH]; [reflexivity|]. rewrite seq_S, flat_map_app, app_length, Nat2Z.inj_add, IH. cbn [flat_map psum Nat.add]. rewrite app_nil_r. unfold cs. rewrite map_length. unfold zrange. rewrite map_length, seq_length. pose proof (Le n). lia. }
  rewrite G, <- size_psum_len. f_equal. symmetry. rewrite (size_psum nu (length mu)); [reflexivity|].
  destruct (le_lt_dec (length nu) (length mu)) as [C|C]; [assumption|]. exfalso. destruct Pn as [Fn _]. pose proof (Le (length mu)) as L. unfold row in L. rewrite (nth_overflow mu) in L by lia.
  rewrite Forall_forall in Fn. specialize (Fn (nth (length mu) nu 0) (nth_In nu 0 C)). lia.
Qed.

Lemma strip_length : forall mu nu, partition mu -> partition nu -> (forall i, row nu i <= row mu i) -> (length nu <= length mu)%nat.
Proof.
  intros mu nu _ [Fn _] Le. destruct (le_lt_dec (length nu) (length mu)) as [C|C]; [assumption|]. exfalso. pose proof (Le (length mu)) as L. unfold row in L. rewrite (nth_overflow mu) in L by lia.
  rewrite Forall_forall in Fn. specialize (Fn (nth (length mu) nu 0) (nth_In nu 0 C)). lia.
Qed.

(* the horizontal strips below mu *)
Lemma hstrips_below : forall ord mu, (forall l, Permutation (ord l) l) -> partition mu ->
  exists r, horizontal_strips ord mu [] = Ok r /\ NoDup (map (fun s => fst (fst s)) r) /\
    (forall nu, (exists d c, In (nu, d, c) r) <-> partition nu /\ hstrip nu mu) /\
    forall nu d c, In (nu, d, c) r -> partition nu /\ hstrip nu mu /\ zlen d = size mu - size nu /\ (nu = [] -> c = []).
Proof.
  intros ord mu Ho Pm. destruct (C33_horizontal ord mu [] Ho Pm partition_nil) as [X _].
  destruct X as (r & E & N & K & D).
  { intros i j [H1 H2]. unfold row in H2. destruct (Z.to_nat (i - 1)); cbn in H2; lia. }
  assert (K' : forall nu, (exists d c, In (nu, d, c) r) <-> partition nu /\ hstrip nu mu).
  { intro nu. rewrite <- K. split.
    - intros (Pn & [B1 B2] & C). split; [assumption|]. assert (Le : forall i, row nu i <= row mu i).
      { apply (dcell_incl false nu mu (fun i => partition_nonneg _ i Pn) (fun i => partition_nonneg _ i Pm)). assumption. }
      intro i. split; [|apply Le]. apply (column_free_rows mu nu Pm Pn Le). assumption.
    - intros [Pn Hs]. assert (Le : forall i, row nu i <= row mu i) by (intro i; apply Hs). split; [assumption|]. split.
      + split; [intros i j [H1 H2]; unfold row in H2; destruct (Z.to_nat (i - 1)); cbn in H2; lia|]. apply (dcell_incl false nu mu (fun i => partition_nonneg _ i Pn) (fun i => partition_nonneg _ i Pm)). assumption.
      + apply (column_free_rows mu nu Pm Pn Le). intro i. apply Hs. }
  exists r. split; [assumption|]. split; [assumption|]. split; [assumption|].
  intros nu d c H. destruct (proj1 (K' nu) (ex_intro _ d (ex_intro _ c H))) as [Pn Hs]. split; [assumption|]. split; [assumption|].
  destruct (D nu d c H) as (Nd & Hd & _ & Hc). split; [apply skew_count; try assumption; intro i; apply Hs|].
  intros ->. destruct c as [|[a b] c]; [reflexivity|]. exfalso. destruct (proj1 (Hc a b) (or_introl eq_refl)) as [(H1 & H2) _]. unfold row in H2. destruct (Z.to_nat (a - 1)); cbn in H2; lia.
Qed.

Section Kostka.
  Variable ord : list (list Z) -> list (list Z).
  Hypothesis ord_perm : forall l, Permutation (ord l) l.
  Variable sv : bool.

  Definition kdict (n : nat) (mu : list Z) : cdict := match count_semistandard ord n mu [] sv with Ok d => d | Err _ => [] end.
  Definition kostka (n : nat) (mu alpha : list Z) : Z := cget (kdict n mu) alpha.

  Lemma kdict_ok : forall n mu, partition mu -> count_semistandard ord n mu [] sv = Ok (kdict n mu) /\ good n (kdict n mu).
  Proof.
    intros n mu Pm. destruct (count_semistandard_ok ord ord_perm sv [] partition_nil n mu Pm) as (d & E & [G _]).
    - intros [i j] [H1 H2]. cbn in *. destruct (Z.to_nat (i - 1)); cbn in H2; lia.
    - unfold kdict. rewrite E. split; [reflexivity|assumption].
  Qed.

  Lemma kostka_nil : forall n alpha, kostka n [] alpha = if zlist_eqb [] alpha then 1 else 0.
  Proof. intros n alpha. unfold kostka, kdict. destruct n; destruct alpha; reflexivity. Qed.
  Lemma kostka_zero : forall mu alpha, mu <> [] -> kostka 0 mu alpha = 0.
  Proof. intros [|a mu] alpha H; [congruence|reflexivity]. Qed.

  Lemma kostka_rec : forall n mu, partition mu -> mu <> [] -> exists r, NoDup (map (fun s => fst (fst s)) r) /\
    (forall nu, (exists d c, In (nu, d, c) r) <-> partition nu /\ hstrip nu mu) /\
    (forall nu d c, In (nu, d, c) r -> partition nu /\ hstrip nu mu /\ zlen d = size mu - size nu /\ (nu = [] -> c = [])) /\
    forall alpha, partition alpha -> (length alpha <= S n)%nat ->
      kostka (S n) mu alpha = zs (fun s : strip => match s with (nu, d, c) =>
        zs (fun i => nchoosek (zlen c) i * (if zlen d + i =? tail_of n alpha then kostka n nu (head_of n alpha) else 0)) (corner_range c sv) end) r.
  Proof.
    intros n mu Pm Ne. destruct (hstrips_below ord mu ord_perm Pm) as (r & E & N & K & D). exists r. split; [assumption|]. split; [assumption|]. split; [assumption|].
    intros alpha Ha Hl. unfold kostka at 1, kdict. cbn [count_semistandard].
    destruct (zlist_eqb mu []) eqn:Em; [apply zlist_eqb_eq in Em; contradiction|]. replace (contains mu []) with true by (destruct mu; reflexivity).
    rewrite E. cbn [rbind].
    destruct (rfold_counts n strip (fun ans s => match s with (nu, diff, corners) =>
                 do d <- count_semistandard ord n nu [] sv;
                 Ok (fold_left (fun ans pc =>
                   count_loop (S n) (fst pc) (snd pc) (zlen diff) (nchoosek (zlen corners)) (corner_range corners sv) ans) d ans) end)
                (fun s alpha => match s with (nu, d, c) =>
        zs (fun i => nchoosek (zlen c) i * (if zlen d + i =? tail_of n alpha then kostka n nu (head_of n alpha) else 0)) (corner_range c sv) end) r [] (good_nil _))
      as (d & Ed & Gd & Hd).
    { intros [[nu diff] corners] ans Hs Ga. destruct (D _ _ _ Hs) as (Pn & _ & _). destruct (kdict_ok n nu Pn) as [X1 X2]. rewrite X1. cbn [rbind]. eexists. split; [reflexivity|].
      destruct (strip_items n diff corners sv (kdict n nu) ans X2 Ga) as [G1 G2]. split; [exact G1|]. intros al Pal Lal. apply (G2 al Pal Lal). }
    etransitivity; [|exact (Hd alpha Ha Hl)]. f_equal. unfold strip in *. cbn [rbind] in Ed. rewrite Ed. reflexivity.
  Qed.

  Lemma zs_nonzero : forall A (f : A -> Z) l, zs f l <> 0 -> exists x, In x l /\ f x <> 0.
  Proof.
    intros A f. induction l as [|a l IH]; intro H; [exfalso; apply H; reflexivity|]. rewrite zs_cons in H. destruct (Z.eq_dec (f a) 0) as [E|E].
    - destruct IH as (x & Hx & Fx); [lia|]. exists x. split; [right; assumption|assumption].
    - exists a. split; [left; reflexivity|assumption].
  Qed.

  Lemma psum_mono : forall f g n, (forall k, f k <= g k) -> psum f n <= psum g n.
  Proof. intros f g n H. induction n as [|n IH]; cbn [psum]; [lia|]. specialize (H n). lia. Qed.
  Lemma psum_nonneg_mono : forall f n m, (forall k, 0 <= f k) -> (n <= m)%nat -> psum f n <= psum f m.
  Proof. intros f n m H L. induction L as [|m L IH]; [lia|]. cbn [psum]. specialize (H m). lia. Qed.

  (* alpha with its last part split off *)
  Lemma head_row : forall n alpha, (length alpha <= S n)%nat -> (forall i, (i < n)%nat -> row (head_of n alpha) i = row alpha i) /\ tail_of n alpha = row alpha n /\ (length (head_of n alpha) <= n)%nat.
  Proof.
    intros n alpha L. unfold head_of, tail_of. destruct (length alpha =? S n)%nat eqn:E.
    - apply Nat.eqb_eq in E. destruct (exists_last (l := alpha)) as (q & a & ->); [intros ->; discriminate|]. rewrite removelast_last, last_last. rewrite app_length in E. cbn [length] in E.
      split; [|split; [|lia]].
      + intros i Hi. rewrite row_snoc. replace (i <? length q)%nat with true by (symmetry; apply Nat.ltb_lt; lia). reflexivity.
      + rewrite row_snoc. replace (n <? length q)%nat with false by (symmetry; apply Nat.ltb_ge; lia). replace (n =? length q)%nat with true by (symmetry; apply Nat.eqb_eq; lia). reflexivity.
    - apply Nat.eqb_neq in E. split; [reflexivity|]. split; [|lia]. unfold row. rewrite nth_overflow by lia. reflexivity.
  Qed.
  Lemma row_over : forall (l : list Z) i, (length l <= i)%nat -> row l i = 0.
  Proof. intros. apply nth_overflow. assumption. Qed.

  Lemma hstrip_len : forall nu mu n, partition mu -> hstrip nu mu -> (length nu <= n)%nat -> (length mu <= S n)%nat.
  Proof.
    intros nu mu n [Fm _] Hs Ln. destruct (le_lt_dec (length mu) (S n)) as [C|C]; [assumption|]. exfalso. destruct (Hs n) as [H _]. rewrite (row_over nu n Ln) in H.
    rewrite Forall_forall in Fm. specialize (Fm (nth (S n) mu 0) (nth_In mu 0 C)). unfold row in H. lia.
  Qed.

  Theorem kostka_dominance : forall n mu alpha, partition mu -> partition alpha -> (length alpha <= n)%nat -> kostka n mu alpha <> 0 ->
    size mu <= size alpha /\ (length mu <= n)%nat /\ row alpha 0 <= row mu 0 /\ (sv = false -> size mu = size alpha) /\ (size alpha = size mu -> forall i, psum (row alpha) i <= psum (row mu) i).
  Proof.
    assert (Base : forall n alpha, kostka n [] alpha <> 0 -> size [] <= size alpha /\ (length (@nil Z) <= n)%nat /\ row alpha 0 <= row [] 0 /\ (sv = false -> size [] = size alpha) /\ (size alpha = size [] -> forall i, psum (row alpha) i <= psum (row []) i)).
    { intros n alpha K. rewrite kostka_nil in K. destruct (zlist_eqb [] alpha) eqn:E; [|congruence]. apply zlist_eqb_eq in E. subst alpha. cbn. repeat split; lia. }
    induction n as [|n IH]; intros mu alpha Pm Pa La K.
    - destruct mu as [|m mu]; [apply Base; assumption|exfalso; apply K; apply kostka_zero; discriminate].
    - destruct mu as [|m mu0] eqn:Em; [apply Base; assumption|]. rewrite <- Em in *. assert (Ne : mu <> []) by congruence. clear Em m mu0.
      destruct (kostka_rec n mu Pm Ne) as (r & N & Kr & D & H). rewrite (H alpha Pa La) in K.
      apply zs_nonzero in K. destruct K as ([[nu d] c] & Hin & K). apply zs_nonzero in K. destruct K as (k & Hk & K). apply corner_range_In in Hk as Hk'.
      destruct (zlen d + k =? tail_of n alpha) eqn:Ed; [|exfalso; apply K; lia]. apply Z.eqb_eq in Ed. assert (Kn : kostka n nu (head_of n alpha) <> 0) by (intro X; apply K; rewrite X; lia).
      destruct (D nu d c Hin) as (Pn & Hs & Sz & Hc). destruct (head_tail n alpha Pa La) as (Ph & Lh & _). destruct (head_row n alpha La) as (R1 & R2 & _).
      destruct (IH nu (head_of n alpha) Pn Ph Lh Kn) as (I1 & I2 & I3 & I4 & I5).
      assert (Lm : (length mu <= S n)%nat) by (eapply hstrip_len; eassumption).
      assert (E1 : psum (row alpha) n = size (head_of n alpha)).
      { rewrite (psum_ext (row alpha) (row (head_of n alpha))) by (intros; symmetry; apply R1; assumption). rewrite <- size_psum by assumption. reflexivity. }
      assert (E2 : size alpha = size (head_of n alpha) + size mu - size nu + k).
      { rewrite (size_psum alpha (S n) La). cbn [psum]. rewrite E1, <- R2, <- Ed, Sz. lia. }
      split; [lia|]. split; [assumption|]. split.
      { destruct n as [|n0].
        - assert (nu = []) by (destruct nu; [reflexivity|cbn in I2; lia]). subst nu. specialize (Hc eq_refl). subst c. change (zlen (@nil (Z * Z))) with 0 in Hk'. rewrite <- R2, <- Ed, Sz. rewrite (size_psum mu 1 Lm). cbn [psum]. change (size []) with 0. lia.
        - rewrite <- (R1 0%nat) by lia. destruct (Hs 0%nat). lia. }
      split.
      { intro Esv. specialize (I4 Esv). assert (k = 0); [|lia]. rewrite Esv in Hk. unfold corner_range in Hk. apply In_zrange in Hk. lia. }
      intros Eq i. assert (K0 : k = 0) by lia. assert (Es : size (head_of n alpha) = size nu) by lia. specialize (I5 Es).
      destruct (le_lt_dec i n) as [C|C].
      * rewrite (psum_ext (row alpha) (row (head_of n alpha)) i) by (intros; symmetry; apply R1; lia). etransitivity; [apply I5|]. apply psum_mono. intro k'. apply Hs.
      * rewrite <- !size_psum by lia. lia.
  Qed.

  Lemma zs_unique : forall A (f : A -> Z) (g : A -> list Z) r x, NoDup (map g r) -> In x r -> (forall y, In y r -> g y <> g x -> f y = 0) -> zs f r = f x.
  Proof.
    intros A f g. induction r as [|a r IHr]; intros x N Hx H; [destruct Hx|]. cbn [map] in N. inversion N as [|? ? N1 N2]; subst. rewrite zs_cons. destruct Hx as [->|Hx].
    - rewrite zs_zero; [lia|]. intros y Hy. apply H; [right; assumption|]. intro E. apply N1. rewrite <- E. apply in_map. assumption.
    - rewrite (IHr x N2 Hx) by (intros; apply H; [right; assumption|assumption]). rewrite (H a (or_introl eq_refl)); [lia|]. intro E. apply N1. rewrite E. apply in_map. assumption.
  Qed.

  Theorem kostka_diagonal : forall n mu, partition mu -> (length mu <= n)%nat -> kostka n mu mu = 1.
  Proof.
    induction n as [|n IH]; intros mu Pm Lm.
    - destruct mu; [reflexivity|cbn in Lm; lia].
    - destruct mu as [|m mu0] eqn:Em; [reflexivity|]. rewrite <- Em in *. assert (Ne : mu <> []) by congruence. clear Em m mu0.
      destruct (kostka_rec n mu Pm Ne) as (r & N & Kr & D & H). rewrite (H mu Pm Lm). destruct (head_tail n mu Pm Lm) as (Ph & Lh & _). destruct (head_row n mu Lm) as (R1 & R2 & _).
      set (nu := head_of n mu) in *.
      assert (Rn : forall i, row nu i = if (i <? n)%nat then row mu i else 0).
      { intro i. destruct (i <? n)%nat eqn:E; [apply R1; apply Nat.ltb_lt; assumption|apply row_over; apply Nat.ltb_ge in E; lia]. }
      assert (Hs : hstrip nu mu).
      { intro k. rewrite Rn. pose proof (partition_nonneg mu k Pm). destruct Pm as [Fm Hm]. specialize (Hm k). destruct (k <? n)%nat eqn:E; [lia|]. apply Nat.ltb_ge in E. rewrite (row_over mu (S k)) by lia. lia. }
      destruct (proj2 (Kr nu) (conj Ph Hs)) as (d & c & Hin). destruct (D nu d c Hin) as (_ & _ & Sz & _).
      assert (Et : zlen d = tail_of n mu). { rewrite Sz, (size_psum mu (S n) Lm), (size_psum nu n Lh). cbn [psum]. rewrite R2. rewrite (psum_ext (row nu) (row mu)); [lia|]. intros; apply R1; assumption. }
      rewrite (zs_unique _ _ (fun s => fst (fst s)) r (nu, d, c) N Hin).
      + rewrite (zs_unique _ _ (fun i => [i]) _ 0).
        * rewrite nchoosek_0, Z.add_0_r, Et, Z.eqb_refl, Z.mul_1_l. apply IH; assumption.
        * apply NoDup_map_inj_in; [intros x y _ _ E; injection E; auto|]. unfold corner_range, zrange. apply NoDup_map_inj_in; [intros; lia|apply seq_NoDup].
        * unfold corner_range. apply In_zrange. pose proof (zlen_nonneg _ c). destruct sv; lia.
        * intros y Hy Hne. apply corner_range_In in Hy. replace (zlen d + y =? tail_of n mu) with false; [lia|]. symmetry. apply Z.eqb_neq. intro E. apply Hne. f_equal. lia.
      + intros [[rho d'] c'] Hy Hne. cbn [fst] in Hne. apply zs_zero. intros k Hk. apply corner_range_In in Hk. destruct (zlen d' + k =? tail_of n mu) eqn:E; [|lia]. apply Z.eqb_eq in E.
        destruct (Z.eq_dec (kostka n rho nu) 0) as [Z0|Z0]; [rewrite Z0; lia|]. exfalso. apply Hne.
        destruct (D rho d' c' Hy) as (Pr & Hr & Sr & _). destruct (kostka_dominance n rho nu Pr Ph Lh Z0) as (I1 & I2 & _ & _ & I3).
        assert (Es : size nu = size rho) by lia. specialize (I3 Es).
        assert (Eq : forall i, (i <= n)%nat -> psum (row rho) i = psum (row mu) i).
        { intros i Hi. assert (psum (row rho) i <= psum (row mu) i) by (apply psum_mono; intro k'; apply Hr). specialize (I3 i). rewrite (psum_ext (row nu) (row mu)) in I3 by (intros; apply R1; lia). lia. }
        apply trimmed_ext; [apply partition_trimmed; assumption|apply partition_trimmed; assumption|]. intro i. destruct (le_lt_dec n i) as [C|C].
        * rewrite !row_over by lia. reflexivity.
        * rewrite Rn. replace (i <? n)%nat with true by (symmetry; apply Nat.ltb_lt; assumption). pose proof (Eq i ltac:(lia)) as E1. pose proof (Eq (S i) ltac:(lia)) as E2. cbn [psum] in E2. lia.
  Qed.

  Lemma dominance_lex : forall alpha mu, Forall (fun a => 0 < a) alpha -> (forall i, psum (row alpha) i <= psum (row mu) i) -> alpha = mu \/ lex_ltb alpha mu = true.
  Proof.
    induction alpha as [|a alpha IH]; intros [|m mu] F H; [left; reflexivity|right; reflexivity| |].
    - exfalso. specialize (H 1%nat). cbn in H. inversion F. lia.
    - inversion F as [|? ? F1 F2]; subst. pose proof (H 1%nat) as H1. cbn in H1. cbn [lex_ltb]. destruct (Z_lt_le_dec a m) as [C|C]; [right; apply orb_true_iff; left; apply Z.ltb_lt; assumption|].
      assert (a = m) by lia. subst m. destruct (IH mu F2) as [->|L].
      + intro i. specialize (H (S i)). rewrite !psum_shift in H. cbn [row nth] in H. unfold row in *. lia.
      + left. reflexivity.
      + right. rewrite L, Z.eqb_refl, orb_true_r. reflexivity.
  Qed.
  Theorem kostka_lex : forall n mu alpha, partition mu -> partition alpha -> (length alpha <= n)%nat -> kostka n mu alpha <> 0 ->
    size mu < size alpha \/ (size mu = size alpha /\ (alpha = mu \/ lex_ltb alpha mu = true)).
  Proof.
    intros n mu alpha Pm Pa La K. destruct (kostka_dominance n mu alpha Pm Pa La K) as (H1 & _ & _ & _ & H3). destruct (Z.eq_dec (size alpha) (size mu)) as [E|E]; [|left; lia].
    right. split; [lia|]. apply dominance_lex; [apply Pa|]. apply H3. assumption.
  Qed.
End Kostka.
