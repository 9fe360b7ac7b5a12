(* From rims to tableaux, counts and dicts by shape. *)
From Coq Require Import List ZArith Lia Bool Permutation Sorted.
From Verif Require Import PyBase M_Partitions S_Partitions L_Partitions L_PartBasic L_PartEnum M_Tableaux S_Tableaux L_Tableaux L_Trans3 M_Rims S_Rims L_Rims1 L_Rims2 L_Rims3 M_KOG S_KOG L_KOG1 L_KOG2 L_KOG3 L_KOG4 L_KOG5.
Import ListNotations.
Local Open Scope Z_scope.

Lemma nodup_map_finer : forall A B C (f : A -> B) (g : A -> C) l, (forall x y, In x l -> In y l -> g x = g y -> f x = f y) -> NoDup (map f l) -> NoDup (map g l).
Proof.
  intros A B C f g. induction l as [|x l IH]; intros H N; [constructor|]. cbn [map] in *. inversion N as [|? ? N1 N2]; subst. constructor.
  - intro K. apply in_map_iff in K. destruct K as (y & E & Hy). apply N1. apply in_map_iff. exists y. split; [apply H; [right; exact Hy|left; reflexivity|exact E]|exact Hy].
  - apply IH; [|exact N2]. intros a b Ha Hb. apply H; right; assumption.
Qed.
Lemma lk_combine : forall (R : list box) w, NoDup R -> length w = length R -> map (lk (combine R w)) R = w.
Proof.
  induction R as [|x R IH]; intros [|v w] N L; try discriminate; [reflexivity|]. inversion N as [|? ? N1 N2]; subst. cbn [combine map lk]. rewrite box_eqb_refl. f_equal. transitivity (map (lk (combine R w)) R); [|apply IH; [exact N2|cbn in L; lia]]. apply map_ext_in. intros y Hy. cbn [lk]. destruct (box_eqb x y) eqn:E; [|reflexivity]. apply box_eqb_eq in E. subst y. tauto.
Qed.

(* ---------- the geometry of a rim ---------- *)
Section Geometry.
  Variables mu nu : list Z.
  Hypothesis Hm : strict_partition mu.
  Hypothesis Hn : strict_partition nu.
  Hypothesis HR : forall i, row nu (S i) <= row mu i <= row nu i.

  Lemma rown_nonneg : forall l k, strict_partition l -> 0 <= row l k.
  Proof. intros l k H. apply row_nonneg. apply pos_nonneg. apply H. Qed.
  Lemma strows_step : forall l k, strict_partition l -> row l (S k) < row l k \/ (row l k = 0 /\ row l (S k) = 0).
  Proof. intros l k H. apply strict_rows in H. destruct H as [_ H]. specialize (H k). unfold strows in *. lia. Qed.
  Lemma strows_mono : forall l k j, strict_partition l -> (k <= j)%nat -> row l j = 0 \/ row l j + Z.of_nat j <= row l k + Z.of_nat k.
  Proof.
    intros l k j H L. induction L as [|j L IH]; [right; lia|]. pose proof (strows_step l j H). pose proof (rown_nonneg l (S j) H). lia.
  Qed.
  Lemma skc : forall i j, shifted_skew_cell nu mu i j <-> 1 <= i /\ i + row mu (Z.to_nat (i - 1)) <= j < i + row nu (Z.to_nat (i - 1)).
  Proof. intros i j. unfold shifted_skew_cell, shifted_cell. pose proof (rown_nonneg mu (Z.to_nat (i - 1)) Hm). lia. Qed.
  Lemma sk_row : forall i j j' k, shifted_skew_cell nu mu i j -> shifted_skew_cell nu mu i j' -> j <= k <= j' -> shifted_skew_cell nu mu i k.
  Proof. intros i j j' k. rewrite !skc. lia. Qed.
  Lemma sk_north : forall i j i' j', shifted_skew_cell nu mu i j -> shifted_skew_cell nu mu i' j' -> i < i' -> j' <= j.
  Proof.
    intros i j i' j' A B L. rewrite skc in A, B. destruct A as (A1 & A2 & A3), B as (B1 & B2 & B3). pose proof (HR (Z.to_nat (i - 1))) as [H _]. pose proof (rown_nonneg mu (Z.to_nat (i' - 1)) Hm). destruct (strows_mono nu (S (Z.to_nat (i - 1))) (Z.to_nat (i' - 1)) Hn ltac:(lia)); lia.
  Qed.
  Lemma sk_col : forall i i' j, shifted_skew_cell nu mu i j -> shifted_skew_cell nu mu i' j -> i < i' -> shifted_skew_cell nu mu (i' - 1) j.
  Proof.
    intros i i' j A B L. rewrite skc in *. destruct A as (A1 & A2 & A3), B as (B1 & B2 & B3). replace (Z.to_nat (i' - 1)) with (S (Z.to_nat (i' - 1 - 1))) in * by lia. pose proof (HR (Z.to_nat (i' - 1 - 1))) as [H _]. pose proof (strows_step nu (Z.to_nat (i' - 1 - 1)) Hn). pose proof (rown_nonneg mu (Z.to_nat (i' - 1 - 1)) Hm). pose proof (rown_nonneg mu (S (Z.to_nat (i' - 1 - 1))) Hm). pose proof (strows_mono mu (Z.to_nat (i - 1)) (Z.to_nat (i' - 1 - 1)) Hm ltac:(lia)). lia.
  Qed.
  Definition plt (a b : box) : Prop := fst b < fst a \/ (fst a = fst b /\ snd a < snd b).
  Lemma rpath_intro : forall R pre, (forall c, skew_cell nu mu c <-> In c (pre ++ R)) -> StronglySorted (fun a b => plt b a) (pre ++ R) -> rpath R.
  Proof.
    induction R as [|x R IH]; intros pre M S; [exact I|]. split.
    - apply (IH (pre ++ [x])); rewrite <- app_assoc; assumption.
    - destruct R as [|y R]; [exact I|].
      assert (Q : forall a, skew_cell nu mu a -> plt y a -> plt x a \/ a = x).
      { intros a Ha L. apply M in Ha. clear M. apply in_app_iff in Ha. assert (SS : forall l, StronglySorted (fun a b => plt b a) (l ++ x :: y :: R) -> (forall u, In u l -> plt x u) /\ (forall u, In u R -> plt u y)).
        { clear. induction l as [|b l IHl]; intro S; cbn [app] in S; inversion S as [|? ? S1 S2]; subst.
          - split; [intros u []|]. inversion S1 as [|? ? S3 S4]; subst. rewrite Forall_forall in S4. exact S4.
          - destruct (IHl S1) as [A B]. split; [|exact B]. intros u [<-|Hu]; [|apply A; exact Hu]. rewrite Forall_forall in S2. apply S2. apply in_or_app. right. left. reflexivity. }
        destruct (SS pre S) as [A B]. destruct Ha as [Ha|[Ha|[Ha|Ha]]]; [left; apply A; exact Ha|right; congruence|subst a; unfold plt in L; lia|]. specialize (B a Ha). unfold plt in *. lia. }
      assert (Cx : skew_cell nu mu x) by (apply M; apply in_or_app; right; left; reflexivity).
      assert (Cy : skew_cell nu mu y) by (apply M; apply in_or_app; right; right; left; reflexivity).
      assert (L : plt y x).
      { clear - S. induction pre as [|b pre IHp]; cbn [app] in S; inversion S as [|? ? S1 S2]; subst; [|apply IHp; exact S1]. rewrite Forall_forall in S2. apply S2. left. reflexivity. }
      destruct x as [a b], y as [c d]. unfold skew_cell in *. cbn [fst snd] in *. unfold plt in L. cbn [fst snd] in L. destruct L as [L|[E L]].
      + pose proof (sk_north a b c d Cx Cy L). destruct (Z.eq_dec d b) as [->|N]; [|right; right; lia]. right. left. pose proof (sk_col a c b Cx Cy L) as K. destruct (Q (c - 1, b) K) as [Q1|Q1]; [unfold plt; cbn; lia|unfold plt in Q1; cbn in Q1; lia|]. pose proof (f_equal fst Q1) as Q2. cbn in Q2. lia.
      + subst c. left. pose proof (sk_row a d b (d + 1) Cy Cx ltac:(lia)) as K. destruct (Q (a, d + 1) K) as [Q1|Q1]; [unfold plt; cbn; lia|unfold plt in Q1; cbn in Q1; lia|]. pose proof (f_equal snd Q1) as Q2. cbn in Q2. lia.
  Qed.
  Lemma rim_path : forall t, NoDup t -> (forall i j, In (i, j) t <-> shifted_skew_cell nu mu i j) -> exists R, Rim t R /\ diag_end R.
  Proof.
    intros t N M. exists (rev (path_sort t)).
    assert (IP : forall x, In x (path_sort t) <-> In x t).
    { intro x. assert (K : In (neg1 x) (map neg1 (path_sort t)) <-> In (neg1 x) (map neg1 t)) by (rewrite path_sort_neg; apply bsort_In). rewrite !in_map_iff in K. split; intro H.
      - destruct (proj1 K) as (y & E & Hy); [exists x; tauto|]. apply neg1_inj in E. subst y. exact Hy.
      - destruct (proj2 K) as (y & E & Hy); [exists x; tauto|]. apply neg1_inj in E. subst y. exact Hy. }
    assert (M' : forall x, In x (rev (path_sort t)) <-> In x t) by (intro x; rewrite <- in_rev; apply IP).
    split; [split; [exact N|split; [intro x; symmetry; apply M'|]]|].
    - apply (rpath_intro _ []).
      + intros [i j]. cbn [app]. rewrite M', M. reflexivity.
      + cbn [app]. assert (S : StronglySorted before (map neg1 (path_sort t))) by (rewrite path_sort_neg; apply bsort_sorted; apply NoDup_map_inj_in; [intros; apply neg1_inj; assumption|exact N]).
        clear IP M'. induction (path_sort t) as [|x l IH]; [constructor|]. cbn [map] in S. inversion S as [|? ? S1 S2]; subst. cbn [rev].
        assert (G : forall l a, StronglySorted (fun a b => plt b a) l -> (forall y, In y l -> plt a y) -> StronglySorted (fun a b => plt b a) (l ++ [a])).
        { clear. induction l as [|b l IHl]; intros a S H; [repeat constructor|]. inversion S as [|? ? S1 S2]; subst. cbn [app]. constructor; [apply IHl; [exact S1|intros y Hy; apply H; right; exact Hy]|]. apply Forall_forall. intros y Hy. apply in_app_iff in Hy. destruct Hy as [Hy|[<-|[]]]; [rewrite Forall_forall in S2; apply S2; exact Hy|apply H; left; reflexivity]. }
        apply G; [apply IH; exact S1|]. intros y Hy. rewrite <- in_rev in Hy. rewrite Forall_forall in S2. specialize (S2 (neg1 y) (in_map neg1 l y Hy)). unfold before, neg1, plt in *. cbn [fst snd] in S2. lia.
    - intros [k l] [i j] Hz Hw [S1 S2] E. apply M' in Hz, Hw. apply M in Hz, Hw. cbn [fst snd] in *. subst j. rewrite skc in Hz, Hw. pose proof (rown_nonneg mu (Z.to_nat (k - 1)) Hm). f_equal; lia.
  Qed.
  (* the boxes added to mu give nu *)
  Lemma add_rim_ok : forall t, NoDup t -> (forall i j, In (i, j) t <-> shifted_skew_cell nu mu i j) -> add_rim mu t = Ok nu.
  Proof.
    intros t N M. unfold add_rim.
    assert (G : forall l nu0, length nu0 = S (length mu) -> (forall x, In x l -> 1 <= fst x <= Z.of_nat (S (length mu))) -> exists nu', rfold (fun nu ij => if (0 <? fst ij) && (fst ij <=? zlen nu) then Ok (upd nu (Z.to_nat (fst ij - 1)) (nthz nu (fst ij - 1) + 1)) else Err IndexError) l nu0 = Ok nu' /\
      forall k, row nu' k = row nu0 k + zlen (filter (fun x : box => fst x =? Z.of_nat k + 1) l)).
    { induction l as [|x l IH]; intros nu0 L B; cbn [rfold].
      - exists nu0. split; [reflexivity|]. intro k. cbn. lia.
      - pose proof (B x (or_introl eq_refl)) as Bx. replace ((0 <? fst x) && (fst x <=? zlen nu0)) with true by (symmetry; apply andb_true_iff; split; [apply Z.ltb_lt; lia|apply Z.leb_le; unfold zlen; rewrite L; lia]). cbn [rbind].
        destruct (IH (upd nu0 (Z.to_nat (fst x - 1)) (nthz nu0 (fst x - 1) + 1))) as (nu' & E & K); [rewrite upd_length; exact L|intros y Hy; apply B; right; exact Hy|]. exists nu'. split; [exact E|]. intro k. rewrite K, upd_row by lia. cbn [filter]. rewrite nthz_row'. destruct (Nat.eqb_spec k (Z.to_nat (fst x - 1))) as [->|Q].
        + replace (fst x =? Z.of_nat (Z.to_nat (fst x - 1)) + 1) with true by (symmetry; apply Z.eqb_eq; lia). unfold zlen. cbn [length]. lia.
        + replace (fst x =? Z.of_nat k + 1) with false by (symmetry; apply Z.eqb_neq; lia). lia. }
    assert (Z0 : forall k, (length mu < k)%nat -> row nu k = 0).
    { intros k L. destruct k as [|k]; [lia|]. pose proof (HR k). rewrite (row_overflow mu k) in * by lia. pose proof (rown_nonneg nu (S k) Hn). lia. }
    destruct (G t (mu ++ [0])) as (nu' & E & K); [rewrite app_length; cbn; lia| |].
    - intros [i j] Hx. apply M in Hx. rewrite skc in Hx. cbn [fst]. destruct (Z_le_gt_dec i (Z.of_nat (S (length mu)))); [lia|]. exfalso. pose proof (rown_nonneg mu (Z.to_nat (i - 1)) Hm). rewrite (Z0 (Z.to_nat (i - 1))) in Hx by lia. lia.
    - rewrite E. cbn [rbind]. f_equal. apply trimmed_ext; [apply trimmed_trim|apply strict_rows; exact Hn|]. intro k. rewrite trim_row, K.
      assert (RM : row (mu ++ [0]) k = row mu k). { rewrite app_row. destruct (Nat.ltb_spec k (length mu)); [reflexivity|]. rewrite (row_overflow mu) by lia. destruct (k - length mu)%nat as [|[|m]]; reflexivity. }
      rewrite RM. assert (P : Permutation (filter (fun x : box => fst x =? Z.of_nat k + 1) t) (map (fun j => (Z.of_nat k + 1, j)) (zrange (Z.of_nat k + 1 + row mu k) (Z.of_nat k + 1 + row nu k)))).
      { apply NoDup_Permutation; [apply NoDup_filter; exact N|apply NoDup_map_inj_in; [intros; congruence|apply NoDup_zrange]|]. intros [i j]. rewrite filter_In, M, skc, in_map_iff, Z.eqb_eq. cbn [fst]. split.
        - intros [H1 H2]. exists j. split; [congruence|]. apply In_zrange. subst i. replace (Z.to_nat (Z.of_nat k + 1 - 1)) with k in H1 by lia. lia.
        - intros (u & E1 & Hu). injection E1 as <- <-. apply In_zrange in Hu. replace (Z.to_nat (Z.of_nat k + 1 - 1)) with k by lia. split; [|reflexivity]. lia. }
      unfold zlen. apply Permutation_length in P. rewrite P, map_length. pose proof (HR k). unfold zrange. rewrite map_length, seq_length. lia.
  Qed.
End Geometry.

(* ---------- tableaux ---------- *)
Definition tabfun (c : list fcell) : tab := fold_left (fun t cv => tput (fst cv) (tuplize (snd cv)) t) (map (fun ca => (fst ca, VInt (snd ca))) c) [].
Lemma mlookup_vint : forall (c : list fcell) (x : box), NoDup (map fst c) -> mlookup (map (fun ca : fcell => (fst ca, VInt (snd ca))) c) x = if bmem x (map fst c) then Some (VInt (lk c x)) else None.
Proof.
  induction c as [|[y a] c IH]; intros x N; [reflexivity|]. cbn [map fst snd mlookup lk]. cbn [map fst] in N. inversion N as [|? ? N1 N2]; subst. unfold bmem. cbn [existsb]. destruct (box_eqb y x) eqn:E.
  - apply box_eqb_eq in E. subst y. rewrite box_eqb_refl. reflexivity.
  - replace (box_eqb x y) with false; [apply IH; exact N2|]. symmetry. apply box_neqb. intro K. subst y. rewrite box_eqb_refl in E. discriminate.
Qed.
Lemma tab_of_ok : forall (c : list fcell), NoDup (map fst c) -> (forall x, In x (map fst c) -> 0 < fst x /\ 0 < snd x) -> tab_of c = Ok (tabfun c) /\ holds (tabfun c) (fun x => In x (map fst c)) (lk c).
Proof.
  intros c N P. 
  destruct (tinit_spec (map (fun ca => (fst ca, VInt (snd ca))) c)) as (t & E & W & L); [rewrite map_map; exact N|intros x Hx; rewrite map_map in Hx; unfold positive; apply P; exact Hx|].
  assert (ET : t = tabfun c). { unfold tab_of, tinit in E. destruct (forallb _ _); [injection E as <-; reflexivity|discriminate]. } subst t. split; [exact E|]. destruct W as [S _]. split; [exact S|]. intros x l. split.
  - change box in x. intro H. apply (In_tlookup _ _ _ S) in H. rewrite L, mlookup_vint in H by exact N. destruct (bmem _ _) eqn:B in H; [|discriminate]. cbn in H. injection H as <-. apply bmem_In in B. tauto.
  - intros [H ->]. apply tlookup_In. rewrite L, mlookup_vint by exact N. apply bmem_In in H. rewrite H. reflexivity.
Qed.
Lemma holds_ext : forall t C C' F F', (forall x, C x <-> C' x) -> (forall x, C x -> F x = F' x) -> holds t C F -> holds t C' F'.
Proof.
  intros t C C' F F' HC HF [S H]. split; [exact S|]. intros c l. rewrite H. split; intros [A ->].
  - split; [apply HC; exact A|]. rewrite (HF c A). reflexivity.
  - apply HC in A. split; [exact A|]. rewrite (HF c A). reflexivity.
Qed.
Lemma holds_unique : forall t t' C F, holds t C F -> holds t' C F -> t = t'.
Proof.
  intros t t' C F [S H] [S' H']. apply tab_ext; [exact S|exact S'|]. intro c. destruct (tlookup t c) as [l|] eqn:E.
  - apply tlookup_In in E. apply H, H' in E. symmetry. apply (In_tlookup _ _ _ S'). exact E.
  - destruct (tlookup t' c) as [l|] eqn:E'; [|reflexivity]. apply tlookup_In in E'. apply H', H in E'. apply (In_tlookup _ _ _ S) in E'. congruence.
Qed.
Lemma holds_fun : forall t C F G, holds t C F -> holds t C G -> forall x, C x -> F x = G x.
Proof. intros t C F G [S H] [_ H'] x Hx. assert (K : In (x, [F x]) t) by (apply H; tauto). apply H' in K. destruct K as [_ K]. congruence. Qed.
Lemma holds_cells : forall t C F x, holds t C F -> (In x (map fst t) <-> C x).
Proof.
  intros t C F x [S H]. rewrite in_map_iff. split; [intros ([c l] & <- & K); apply H in K; apply K|]. intro K. exists (x, [F x]). split; [reflexivity|]. apply H. tauto.
Qed.

Section Enumerate.
  Variable aux : list box -> list (list fcell).
  Variable Fil : (place -> Prop) -> (place -> Z) -> Prop.
  Hypothesis aux_ok : forall C, NoDup C -> NoDup (map (wordof C) (aux C)) /\ (forall c, In c (aux C) -> Permutation (map fst c) C /\ NoDup (map fst c)) /\
    forall F, In (map F C) (map (wordof C) (aux C)) <-> Fil (fun x => In x C) F.
  Hypothesis Fil_ext : forall C C' F F', (forall x, C x <-> C' x) -> (forall x, C x -> F x = F' x) -> Fil C F -> Fil C' F'.

  (* the number of results is the number of words along the path *)
  Lemma aux_count : forall t R (L : list (list Z)), Rim t R -> NoDup L -> (forall F, Fil (fun c => In c R) F <-> In (map F R) L) -> (forall w, In w L -> length w = length R) -> length (aux t) = length L.
  Proof.
    intros t R L (N & M & P) NL HL LL. destruct (aux_ok t N) as (A & B & D). rewrite <- (map_length (fun c => map (lk c) R) (aux t)). apply Permutation_length. apply NoDup_Permutation; [|exact NL|].
    - eapply nodup_map_finer; [|exact A]. intros c d Hc Hd E. unfold wordof. apply map_ext_in. intros x Hx. apply M in Hx. apply (map_ext_inv _ _ _ _ R x E Hx).
    - intro w. rewrite in_map_iff. split.
      + intros (c & <- & Hc). apply HL. apply (Fil_ext (fun x => In x t) _ (lk c)); [exact M|reflexivity|]. apply D. apply in_map_iff. exists c. split; [reflexivity|exact Hc].
      + intro Hw. pose proof (lk_combine R w (rpath_NoDup R P) (LL w Hw)) as E. rewrite <- E in Hw. apply HL in Hw. apply (Fil_ext _ (fun x => In x t) _ (lk (combine R w))) in Hw; [|intro x; symmetry; apply M|reflexivity]. apply D in Hw. apply in_map_iff in Hw. destruct Hw as (c & Ec & Hc). exists c. split; [|exact Hc]. rewrite <- E. apply map_ext_in. intros x Hx. apply M in Hx. apply (map_ext_inv _ _ _ _ t x Ec Hx).
  Qed.

  Variables (mu : list Z) (b : Z).
  Hypothesis Hm : strict_partition mu.
  Definition Tab (nu : list Z) (t : tab) : Prop := exists F, Fil (skew_cell nu mu) F /\ holds t (skew_cell nu mu) F.
  Hypothesis bound : forall nu F, strict_partition nu -> (forall i, row nu (S i) <= row mu i <= row nu i) -> Fil (skew_cell nu mu) F -> row nu 0 <= row mu 0 + Z.max 0 b.

  Definition is_shape (nu : list Z) (t : list box) : Prop := strict_partition nu /\ (forall i, row nu (S i) <= row mu i <= row nu i) /\ StronglySorted before t /\ forall i j, In (i, j) t <-> shifted_skew_cell nu mu i j.
  Lemma shape_tabs : forall nu t, is_shape nu t -> rmap tab_of (aux t) = Ok (map tabfun (aux t)) /\ NoDup (map tabfun (aux t)) /\ forall tb, In tb (map tabfun (aux t)) <-> Tab nu tb.
  Proof.
    intros nu t (Hn & HR & S & M). pose proof (sorted_NoDup t S) as N. destruct (aux_ok t N) as (A & B & D).
    assert (SK : forall x, In x t <-> skew_cell nu mu x) by (intros [i j]; apply M).
    assert (Pos : forall x, In x t -> 0 < fst x /\ 0 < snd x). { intros [i j] Hx. apply M in Hx. rewrite (skc mu nu Hm) in Hx. cbn [fst snd]. pose proof (rown_nonneg mu (Z.to_nat (i - 1)) Hm). lia. }
    assert (TO : forall c, In c (aux t) -> tab_of c = Ok (tabfun c) /\ holds (tabfun c) (skew_cell nu mu) (lk c)).
    { intros c Hc. destruct (B c Hc) as [Pc Nc]. assert (MC : forall x, In x (map fst c) <-> In x t) by (intro x; split; intro K; [apply (Permutation_in x Pc)|apply (Permutation_in x (Permutation_sym Pc))]; exact K). destruct (tab_of_ok c Nc) as [E H]; [intros x Hx; apply Pos; apply MC; exact Hx|]. split; [exact E|]. eapply holds_ext; [|reflexivity|exact H]. intro x. cbv beta. rewrite MC. apply SK. }
    split; [|split].
    - clear - TO. induction (aux t) as [|c l IH]; [reflexivity|]. cbn [rmap map]. rewrite (proj1 (TO c (or_introl eq_refl))). cbn [rbind]. rewrite IH; [reflexivity|]. intros d Hd. apply TO. right. exact Hd.
    - eapply nodup_map_finer; [|exact A]. intros c d Hc Hd E. unfold wordof. apply map_ext_in. intros x Hx. destruct (TO c Hc) as [_ H1]. destruct (TO d Hd) as [_ H2]. rewrite E in H1. apply (holds_fun _ _ _ _ H1 H2). apply SK. exact Hx.
    - intro tb. rewrite in_map_iff. split.
      + intros (c & <- & Hc). exists (lk c). split; [|apply (TO c Hc)]. apply (Fil_ext (fun x => In x t) _ (lk c)); [exact SK|reflexivity|]. apply D. apply in_map_iff. exists c. split; [reflexivity|exact Hc].
      + intros (F & HF & H). apply (Fil_ext _ (fun x => In x t) _ F) in HF; [|intro x; symmetry; apply SK|reflexivity]. apply D in HF. apply in_map_iff in HF. destruct HF as (c & Ec & Hc). exists c. split; [|exact Hc]. destruct (TO c Hc) as [_ H1]. apply (holds_unique _ _ (skew_cell nu mu) F); [|exact H]. eapply holds_ext; [reflexivity| |exact H1]. intros x Hx. apply SK in Hx. apply (map_ext_inv _ _ _ _ t x Ec Hx).
  Qed.
  Lemma shape_unique : forall nu nu' t, is_shape nu t -> is_shape nu' t -> nu = nu'.
  Proof.
    intros nu nu' t (Hn & HR & S & M) (Hn' & HR' & _ & M'). pose proof (add_rim_ok mu nu Hm Hn HR t (sorted_NoDup t S) M) as E. rewrite (add_rim_ok mu nu' Hm Hn' HR' t (sorted_NoDup t S) M') in E. congruence.
  Qed.
  Lemma tab_shape : forall nu t tb, is_shape nu t -> Tab nu tb -> map fst tb = t.
  Proof.
    intros nu t tb (Hn & HR & S & M) (F & _ & H). apply sorted_same; [apply H|exact S|]. intros [i j]. rewrite (holds_cells _ _ _ (i, j) H), M. reflexivity.
  Qed.
  Lemma shape_of : forall nu, strict_partition nu -> (forall i, row nu (S i) <= row mu i <= row nu i) -> is_shape nu (bsort (skew nu mu true)).
  Proof.
    intros nu Hn HR. split; [exact Hn|]. split; [exact HR|]. split; [apply bsort_sorted; rewrite skew_gshape; apply gshape_NoDup|]. intros i j. rewrite bsort_In. apply skew_shifted_In. apply pos_nonneg. apply Hm.
  Qed.

  Definition enum_all : res (list tab) := do shapes <- rims mu b; do parts <- rmap (fun shape => rmap tab_of (aux shape)) shapes; Ok (concat parts).
  Lemma enum_parts : exists shapes, rims mu b = Ok shapes /\ NoDup shapes /\ (forall t, In t shapes -> exists nu, is_shape nu t) /\
    (forall nu tb, strict_partition nu -> (forall i, row nu (S i) <= row mu i <= row nu i) -> Tab nu tb -> exists t, In t shapes /\ is_shape nu t) /\
    enum_all = Ok (concat (map (fun t => map tabfun (aux t)) shapes)).
  Proof.
    destruct (rims_ok mu b Hm) as (shapes & E & N & M). exists shapes. split; [exact E|]. split; [exact N|].
    assert (A : forall t, In t shapes -> exists nu, is_shape nu t). { intros t Ht. apply M in Ht. destruct Ht as (nu & H1 & H2 & H3 & H4 & H5). exists nu. split; [exact H1|]. split; [exact H2|]. split; [exact H4|exact H5]. }
    split; [exact A|]. split.
    - intros nu tb Hn HR (F & HF & H). pose proof (shape_of nu Hn HR) as Q. exists (bsort (skew nu mu true)). split; [|exact Q]. apply M. exists nu. destruct Q as (_ & _ & Q1 & Q2). split; [exact Hn|]. split; [exact HR|]. split; [apply (bound nu F Hn HR HF)|]. split; [exact Q1|exact Q2].
    - unfold enum_all. rewrite E. cbn [rbind]. replace (rmap (fun shape => rmap tab_of (aux shape)) shapes) with (Ok (map (fun t => map tabfun (aux t)) shapes)); [reflexivity|]. clear - A aux_ok Fil_ext Hm. induction shapes as [|t l IH]; [reflexivity|]. cbn [rmap map]. destruct (A t (or_introl eq_refl)) as (nu & Q). rewrite (proj1 (shape_tabs nu t Q)). cbn [rbind]. rewrite <- IH; [reflexivity|]. intros u Hu. apply A. right. exact Hu.
  Qed.
  Theorem enum_ok : exists l, enum_all = Ok l /\ NoDup l /\ forall tb, In tb l <-> exists nu, strict_partition nu /\ is_rim nu mu /\ Tab nu tb.
  Proof.
    destruct enum_parts as (shapes & E & N & A & C & EE). exists (concat (map (fun t => map tabfun (aux t)) shapes)). split; [exact EE|]. rewrite <- flat_map_concat_map. split.
    - apply NoDup_flat_map; [exact N|intros t Ht; destruct (A t Ht) as (nu & Q); apply (shape_tabs nu t Q)|]. intros t u tb Ht Hu H1 H2. destruct (A t Ht) as (nu & Q). destruct (A u Hu) as (nu' & Q'). apply (shape_tabs nu t Q) in H1. apply (shape_tabs nu' u Q') in H2. rewrite <- (tab_shape nu t tb Q H1). apply (tab_shape nu' u tb Q' H2).
    - intro tb. rewrite in_flat_map. split.
      + intros (t & Ht & H). destruct (A t Ht) as (nu & Q). apply (shape_tabs nu t Q) in H. exists nu. destruct Q as (Q1 & Q2 & _). split; [exact Q1|]. split; [exact (proj2 (rim_rows nu mu Q1 Hm) Q2)|exact H].
      + intros (nu & Hn & HR & H). pose proof (proj1 (rim_rows nu mu Hn Hm) HR) as HR0. clear HR. rename HR0 into HR. destruct (C nu tb Hn HR H) as (t & Ht & Q). exists t. split; [exact Ht|]. apply (shape_tabs nu t Q). exact H.
  Qed.

  (* ---------- by shape ---------- *)
  Definition nuof (t : list box) : list Z := match add_rim mu t with Ok nu => nu | Err _ => [] end.
  Lemma nuof_ok : forall nu t, is_shape nu t -> add_rim mu t = Ok nu /\ nuof t = nu.
  Proof. intros nu t (Hn & HR & S & M). pose proof (add_rim_ok mu nu Hm Hn HR t (sorted_NoDup t S) M) as E. split; [exact E|]. unfold nuof. rewrite E. reflexivity. Qed.
  Definition by_dict (shapes : list (list box)) : list (list Z * list tab) := flat_map (fun t => match map tabfun (aux t) with [] => [] | l => [(nuof t, l)] end) shapes.
  Lemma dset_last : forall V (d : list (list Z * V)) k v v', ~ In k (map fst d) -> dset zlist_eqb (d ++ [(k, v)]) k v' = d ++ [(k, v')].
  Proof.
    intros V. induction d as [|[a c] d IH]; intros k v v' H; cbn [app dset]; [rewrite zlist_eqb_refl; reflexivity|]. destruct (zlist_eqb a k) eqn:E; [apply zlist_eqb_eq in E; subst a; exfalso; apply H; left; reflexivity|]. rewrite IH; [reflexivity|]. intro K. apply H. right. exact K.
  Qed.
  Lemma dset_new : forall V (d : list (list Z * V)) k v, ~ In k (map fst d) -> dset zlist_eqb d k v = d ++ [(k, v)].
  Proof.
    intros V. induction d as [|[a c] d IH]; intros k v H; cbn [app dset]; [reflexivity|]. destruct (zlist_eqb a k) eqn:E; [apply zlist_eqb_eq in E; subst a; exfalso; apply H; left; reflexivity|]. rewrite IH; [reflexivity|]. intro K. apply H. right. exact K.
  Qed.
  Lemma dget_last : forall V (d : list (list Z * V)) k v, ~ In k (map fst d) -> dget zlist_eqb (d ++ [(k, v)]) k = Some v.
  Proof.
    intros V. induction d as [|[a c] d IH]; intros k v H; cbn [app dget]; [rewrite zlist_eqb_refl; reflexivity|]. destruct (zlist_eqb a k) eqn:E; [apply zlist_eqb_eq in E; subst a; exfalso; apply H; left; reflexivity|]. apply IH. intro K. apply H. right. exact K.
  Qed.
  Lemma dget_absent : forall V (d : list (list Z * V)) k, ~ In k (map fst d) -> dget zlist_eqb d k = None.
  Proof.
    intros V. induction d as [|[a c] d IH]; intros k H; cbn [app dget]; [reflexivity|]. destruct (zlist_eqb a k) eqn:E; [apply zlist_eqb_eq in E; subst a; exfalso; apply H; left; reflexivity|]. apply IH. intro K. apply H. right. exact K.
  Qed.
  Lemma by_dict_keys : forall shapes nu, In nu (map fst (by_dict shapes)) -> exists t, In t shapes /\ nuof t = nu.
  Proof.
    intros shapes nu H. apply in_map_iff in H. destruct H as ([k l] & <- & H). unfold by_dict in H. apply in_flat_map in H. destruct H as (t & Ht & H). exists t. split; [exact Ht|]. destruct (map tabfun (aux t)); [destruct H|]. destruct H as [E|[]]. injection E as -> _. reflexivity.
  Qed.
  Lemma rfold_app' : forall A B (f : A -> B -> res A) l1 l2 a, rfold f (l1 ++ l2) a = do x <- rfold f l1 a; rfold f l2 x.
  Proof. intros A B f. induction l1 as [|x l1 IH]; intros l2 a; cbn [app rfold]; [reflexivity|]. destruct (f a x) as [y|e]; cbn [rbind]; [apply IH|reflexivity]. Qed.
  Definition bstep (d : list (list Z * list tab)) (t : tab) : res (list (list Z * list tab)) := do nu <- add_rim mu (map fst t); Ok (group d nu t).
  Lemma by_shape_part : forall nu part d, ~ In nu (map fst d) -> (forall tb, In tb part -> add_rim mu (map fst tb) = Ok nu) -> by_shape mu part = by_shape mu part ->
    rfold bstep part d = Ok (d ++ match part with [] => [] | _ => [(nu, part)] end).
  Proof.
    intros nu part d H K _. destruct part as [|tb part]; [cbn; rewrite app_nil_r; reflexivity|]. cbn [rfold]. unfold bstep at 1. rewrite (K tb (or_introl eq_refl)). cbn [rbind]. unfold group. rewrite (dget_absent _ d nu H), (dset_new _ d nu _ H).
    assert (G : forall l acc, (forall x, In x l -> add_rim mu (map fst x) = Ok nu) -> rfold bstep l (d ++ [(nu, acc)]) = Ok (d ++ [(nu, acc ++ l)])).
    { induction l as [|x l IH]; intros acc Q; cbn [rfold]; [rewrite app_nil_r; reflexivity|]. unfold bstep at 1. rewrite (Q x (or_introl eq_refl)). cbn [rbind]. unfold group. rewrite (dget_last _ d nu acc H), (dset_last _ d nu _ _ H). rewrite IH; [rewrite <- app_assoc; reflexivity|]. intros y Hy. apply Q. right. exact Hy. }
    apply (G part [tb]). intros x Hx. apply K. right. exact Hx.
  Qed.
  Lemma by_shape_ok : forall shapes, NoDup shapes -> (forall t, In t shapes -> exists nu, is_shape nu t) -> by_shape mu (concat (map (fun t => map tabfun (aux t)) shapes)) = Ok (by_dict shapes).
  Proof.
    intros shapes N A.
    assert (G : forall l pre, NoDup (pre ++ l) -> (forall t, In t (pre ++ l) -> exists nu, is_shape nu t) -> rfold bstep (concat (map (fun t => map tabfun (aux t)) l)) (by_dict pre) = Ok (by_dict (pre ++ l))).
    { induction l as [|t l IH]; intros pre ND AA; cbn [map concat]; [rewrite app_nil_r; reflexivity|]. rewrite rfold_app'. destruct (AA t) as (nu & Q); [apply in_or_app; right; left; reflexivity|]. rewrite (by_shape_part nu).
      - cbn [rbind]. assert (St : by_dict (pre ++ [t]) = by_dict pre ++ match map tabfun (aux t) with [] => [] | l => [(nu, l)] end) by (unfold by_dict; rewrite flat_map_app; cbn [flat_map]; rewrite app_nil_r, (proj2 (nuof_ok nu t Q)); reflexivity).
        specialize (IH (pre ++ [t])). rewrite <- app_assoc in IH. cbn [app] in IH. specialize (IH ND AA). rewrite St in IH. destruct (map tabfun (aux t)); exact IH.
      - intro K. apply by_dict_keys in K. destruct K as (u & Hu & Eu). destruct (AA u) as (nu' & Q'); [apply in_or_app; left; exact Hu|]. rewrite (proj2 (nuof_ok nu' u Q')) in Eu. subst nu'. assert (u = t). { destruct Q as (_ & _ & S & M), Q' as (_ & _ & S' & M'). apply sorted_same; [exact S'|exact S|]. intros [i j]. rewrite M, M'. tauto. } subst u. apply NoDup_remove_2 in ND. apply ND. apply in_or_app. left. exact Hu.
      - intros tb Hb. apply (shape_tabs nu t Q) in Hb. rewrite (tab_shape nu t tb Q Hb). apply (nuof_ok nu t Q).
      - reflexivity. }
    apply (G shapes [] N A).
  Qed.

  Variable cnt : list box -> res Z.
  Hypothesis cnt_ok : forall nu t, is_shape nu t -> cnt t = Ok (zlen (aux t)).
  Definition counts_by : res (list (list Z * Z)) := do shapes <- rims mu b; rfold (fun d rim => do count <- cnt rim; if count =? 0 then Ok d else do nu <- add_rim mu rim; Ok (dset zlist_eqb d nu count)) shapes [].
  Lemma counts_by_ok : forall shapes, NoDup shapes -> (forall t, In t shapes -> exists nu, is_shape nu t) ->
    rfold (fun d rim => do count <- cnt rim; if count =? 0 then Ok d else do nu <- add_rim mu rim; Ok (dset zlist_eqb d nu count)) shapes [] = Ok (map (fun kv => (fst kv, zlen (snd kv))) (by_dict shapes)).
  Proof.
    intros shapes N A.
    assert (G : forall l pre, NoDup (pre ++ l) -> (forall t, In t (pre ++ l) -> exists nu, is_shape nu t) -> rfold (fun d rim => do count <- cnt rim; if count =? 0 then Ok d else do nu <- add_rim mu rim; Ok (dset zlist_eqb d nu count)) l (map (fun kv => (fst kv, zlen (snd kv))) (by_dict pre)) = Ok (map (fun kv => (fst kv, zlen (snd kv))) (by_dict (pre ++ l)))).
    { induction l as [|t l IH]; intros pre ND AA; cbn [rfold]; [rewrite app_nil_r; reflexivity|]. destruct (AA t) as (nu & Q); [apply in_or_app; right; left; reflexivity|]. rewrite (cnt_ok nu t Q). cbn [rbind].
      assert (St : by_dict (pre ++ [t]) = by_dict pre ++ match map tabfun (aux t) with [] => [] | l => [(nu, l)] end) by (unfold by_dict; rewrite flat_map_app; cbn [flat_map]; rewrite app_nil_r, (proj2 (nuof_ok nu t Q)); reflexivity).
      assert (Fr : ~ In nu (map fst (by_dict pre))).
      { intro K. apply by_dict_keys in K. destruct K as (u & Hu & Eu). destruct (AA u) as (nu' & Q'); [apply in_or_app; left; exact Hu|]. rewrite (proj2 (nuof_ok nu' u Q')) in Eu. subst nu'. assert (u = t). { destruct Q as (_ & _ & S & M), Q' as (_ & _ & S' & M'). apply sorted_same; [exact S'|exact S|]. intros [i j]. rewrite M, M'. tauto. } subst u. apply NoDup_remove_2 in ND. apply ND. apply in_or_app. left. exact Hu. }
      specialize (IH (pre ++ [t])). rewrite <- app_assoc in IH. cbn [app] in IH. specialize (IH ND AA). rewrite St in IH. destruct (aux t) as [|c cs].
      - cbn [map] in IH. rewrite app_nil_r in IH. exact IH.
      - replace (zlen (c :: cs) =? 0) with false by (symmetry; apply Z.eqb_neq; unfold zlen; cbn [length]; lia). rewrite (proj1 (nuof_ok nu t Q)). cbn [rbind]. rewrite dset_new by (rewrite map_map; exact Fr). cbn [map] in IH. rewrite map_app in IH. cbn [map fst snd] in IH. unfold zlen in IH at 2. cbn [length] in IH. rewrite map_length in IH. exact IH. }
    apply (G shapes [] N A).
  Qed.
  Theorem by_ok : exists d, (do l <- enum_all; by_shape mu l) = Ok d /\ NoDup (map fst d) /\
    (forall nu l, In (nu, l) d -> strict_partition nu /\ is_rim nu mu /\ l <> [] /\ NoDup l /\ forall tb, In tb l <-> Tab nu tb) /\
    (forall nu tb, strict_partition nu -> is_rim nu mu -> Tab nu tb -> In nu (map fst d)) /\
    counts_by = Ok (map (fun kv => (fst kv, zlen (snd kv))) d).
  Proof.
    destruct enum_parts as (shapes & E & N & A & C & EE). exists (by_dict shapes). rewrite EE. cbn [rbind]. split; [apply by_shape_ok; assumption|]. split; [|split; [|split]].
    - unfold by_dict. rewrite flat_map_concat_map, concat_map, map_map, <- flat_map_concat_map. apply NoDup_flat_map; [exact N|intros t _; destruct (map tabfun (aux t)); repeat constructor; cbn; tauto|].
      intros t u nu0 Ht Hu H1 H2. assert (X : forall t, In nu0 (map fst match map tabfun (aux t) with [] => [] | l => [(nuof t, l)] end) -> nuof t = nu0). { intros v K. destruct (map tabfun (aux v)); [destruct K|]. destruct K as [K|[]]. exact K. }
      apply X in H1, H2. destruct (A t Ht) as (nu & Q), (A u Hu) as (nu' & Q'). rewrite (proj2 (nuof_ok nu t Q)) in H1. rewrite (proj2 (nuof_ok nu' u Q')) in H2. subst nu nu'. destruct Q as (_ & _ & S & M), Q' as (_ & _ & S' & M'). apply sorted_same; [exact S|exact S'|]. intros [i j]. rewrite M, M'. tauto.
    - intros nu l H. unfold by_dict in H. apply in_flat_map in H. destruct H as (t & Ht & H). destruct (A t Ht) as (nu' & Q). destruct (shape_tabs nu' t Q) as (_ & ST1 & ST2). destruct (map tabfun (aux t)) as [|tb rest] eqn:ET; [destruct H|]. destruct H as [H|[]]. injection H as H1 H2. rewrite (proj2 (nuof_ok nu' t Q)) in H1. subst nu' l. destruct Q as (Q1 & Q2 & _). split; [exact Q1|]. split; [exact (proj2 (rim_rows nu mu Q1 Hm) Q2)|]. split; [discriminate|]. split; [exact ST1|exact ST2].
    - intros nu tb Hn HR H. pose proof (proj1 (rim_rows nu mu Hn Hm) HR) as HR0. clear HR. rename HR0 into HR. destruct (C nu tb Hn HR H) as (t & Ht & Q). destruct (shape_tabs nu t Q) as (_ & _ & ST). apply ST in H. unfold by_dict. rewrite flat_map_concat_map, concat_map, map_map, <- flat_map_concat_map. apply in_flat_map. exists t. split; [exact Ht|]. destruct (map tabfun (aux t)); [destruct H|]. left. apply (nuof_ok nu t Q).
    - unfold counts_by. rewrite E. cbn [rbind]. apply counts_by_ok; assumption.
  Qed.
  Theorem count_ok : forall nu, strict_partition nu -> is_rim nu mu -> exists l, NoDup l /\ (forall tb, In tb l <-> Tab nu tb) /\ cnt (bsort (skew nu mu true)) = Ok (zlen l).
  Proof.
    intros nu Hn HR. pose proof (proj1 (rim_rows nu mu Hn Hm) HR) as HR0. clear HR. rename HR0 into HR. pose proof (shape_of nu Hn HR) as Q. exists (map tabfun (aux (bsort (skew nu mu true)))). destruct (shape_tabs nu _ Q) as (_ & A & B). split; [exact A|]. split; [exact B|]. rewrite (cnt_ok nu _ Q). unfold zlen. rewrite map_length. reflexivity.
  Qed.
End Enumerate.
