(* Partition.from_skew on skew shapes *)
From Coq Require Import List ZArith Bool Lia.
From Verif Require Import PyBase M_Partitions S_Partitions L_Partitions M_FromSkew S_SkewKey.
Import ListNotations.
Local Open Scope Z_scope.

Lemma lmin_spec : forall l x a b, (forall y, In y (x :: l) <-> a < y <= b) -> lmin x l = a + 1.
Proof.
  intros l x a b H.
  assert (IN : forall l x, In (lmin x l) (x :: l) /\ forall y, In y (x :: l) -> lmin x l <= y).
  { clear. unfold lmin. induction l as [|z l IH]; intro x; [split; [left; reflexivity|intros y [<-|[]]; cbn; lia]|]. cbn [fold_left]. destruct (IH (Z.min x z)) as [A B]. split.
    - destruct A as [A|A]; [rewrite <- A; destruct (Z.min_spec x z) as [[_ ->]|[_ ->]]; [left; reflexivity|right; left; reflexivity]|right; right; exact A].
    - intros y [<-|[<-|I]]; [specialize (B _ (or_introl eq_refl)); lia|specialize (B _ (or_introl eq_refl)); lia|apply B; right; exact I]. }
  destruct (IN l x) as [A B]. apply H in A. assert (C : In (a + 1) (x :: l)) by (apply H; lia). apply B in C. lia.
Qed.
Lemma lmax_spec : forall l x a b, (forall y, In y (x :: l) <-> a < y <= b) -> lmax x l = b.
Proof.
  intros l x a b H.
  assert (IN : forall l x, In (lmax x l) (x :: l) /\ forall y, In y (x :: l) -> y <= lmax x l).
  { clear. unfold lmax. induction l as [|z l IH]; intro x; [split; [left; reflexivity|intros y [<-|[]]; cbn; lia]|]. cbn [fold_left]. destruct (IH (Z.max x z)) as [A B]. split.
    - destruct A as [A|A]; [rewrite <- A; destruct (Z.max_spec x z) as [[_ ->]|[_ ->]]; [right; left; reflexivity|left; reflexivity]|right; right; exact A].
    - intros y [<-|[<-|I]]; [specialize (B _ (or_introl eq_refl)); lia|specialize (B _ (or_introl eq_refl)); lia|apply B; right; exact I]. }
  destruct (IN l x) as [A B]. apply H in A. assert (C : In b (x :: l)) by (apply H; lia). apply B in C. lia.
Qed.

Section S.
  Variable sh : bool.
  Variables f g : nat -> Z. (* outer and inner rows *)
  Let s := if sh then 1 else 0.
  Variable ps : list (Z * Z).
  Variable n : nat. (* number of rows *)
  Hypothesis CELL : forall i j, In (i, j) ps <-> exists k, (k < n)%nat /\ i = Z.of_nat k + 1 /\ g k < j - s * Z.of_nat k <= f k.
  Hypothesis LAST : forall k, S k = n -> g k < f k.
  Hypothesis Gpos : forall k, 0 <= g k <= f k.
  Definition raw (k : nat) : Z * Z := if g k <? f k then (g k, f k) else (-1, -1).
  Lemma row_at : forall k, (k < n)%nat -> forall y, In y (map snd (filter (fun p => fst p =? Z.of_nat k + 1) ps)) <-> g k + s * Z.of_nat k < y <= f k + s * Z.of_nat k.
  Proof.
    intros k Hk y. rewrite in_map_iff. split.
    - intros ([i j] & E & I). cbn [snd] in E. subst j. apply filter_In in I. destruct I as [I E]. cbn [fst] in E. apply Z.eqb_eq in E. apply CELL in I. destruct I as (k' & _ & Ei & R). assert (k' = k) by lia. subst k'. lia.
    - intro R. exists (Z.of_nat k + 1, y). split; [reflexivity|]. apply filter_In. split; [|cbn [fst]; apply Z.eqb_refl]. apply CELL. exists k. split; [exact Hk|]. split; [reflexivity|lia].
  Qed.
  Lemma rows_from : forall d k fuel, (k + d = n)%nat -> (d <= fuel)%nat -> fs_rows fuel sh ps (Z.of_nat k + 1) = Ok (map raw (seq k d)).
  Proof.
    induction d as [|d IH]; intros k fuel Hk Hf.
    - assert (E : existsb (fun p => Z.of_nat k + 1 <=? fst p) ps = false).
      { apply not_true_is_false. intro X. apply existsb_exists in X. destruct X as ([i j] & I & X). cbn [fst] in X. apply Z.leb_le in X. apply CELL in I. destruct I as (k' & H & -> & _). lia. }
      destruct fuel; cbn [fs_rows]; rewrite E; reflexivity.
    - destruct fuel as [|fuel]; [lia|].
      assert (E : existsb (fun p => Z.of_nat k + 1 <=? fst p) ps = true).
      { apply existsb_exists. pose proof (LAST (n - 1) ltac:(lia)). exists (Z.of_nat (n - 1) + 1, f (n - 1)%nat + s * Z.of_nat (n - 1)). split; [|cbn [fst]; apply Z.leb_le; lia]. apply CELL. exists (n - 1)%nat. split; [lia|]. split; [reflexivity|lia]. }
      cbn [fs_rows seq map]. rewrite E. replace (Z.of_nat k + 1 + 1) with (Z.of_nat (S k) + 1) by lia. rewrite IH by lia. cbn [rbind]. f_equal. f_equal.
      pose proof (row_at k ltac:(lia)) as R. unfold raw. destruct (map snd (filter (fun p => fst p =? Z.of_nat k + 1) ps)) as [|b l].
      + destruct (Z.ltb_spec (g k) (f k)) as [L|L]; [|reflexivity]. exfalso. apply (R (f k + s * Z.of_nat k)). lia.
      + rewrite (lmin_spec l b _ _ R), (lmax_spec l b _ _ R). specialize (R b). destruct (Z.ltb_spec (g k) (f k)) as [L|L]; [|exfalso; pose proof (proj1 R (or_introl eq_refl)); lia].
        unfold s. destruct sh; f_equal; lia.
  Qed.
  Hypothesis Fdec : forall k, (S k < n)%nat -> f (S k) + s <= f k.
  Lemma s01 : 0 <= s <= 1. Proof using. clear. unfold s. destruct sh; lia. Qed.
  Notation o R i := (snd (nth i R (0, 0))).
  Notation q R i := (fst (nth i R (0, 0))).
  Lemma fill_spec : forall d k, (k + d = n)%nat ->
    let R := fs_fill sh (map raw (seq k d)) in
    length R = S d /\ o R d = 0 /\ q R d = 0 /\
    forall i, (i < d)%nat -> 0 < o R i <= f (k + i) /\ 0 <= q R i /\ (g (k + i)%nat < f (k + i)%nat -> nth i R (0, 0) = (g (k + i)%nat, f (k + i)%nat)) /\
      (f (k + i)%nat <= g (k + i)%nat -> q R i = o R i) /\
      ((S i < d)%nat -> o R (S i) + s <= o R i).
  Proof using LAST Gpos Fdec. clear CELL.
    induction d as [|d IH]; intros k Hk; cbv zeta.
    - cbn. split; [reflexivity|]. split; [reflexivity|]. split; [reflexivity|]. intros i Hi. lia.
    - destruct (IH (S k) ltac:(lia)) as (L & O0 & Q0 & C). unfold fs_fill in *. cbn [seq map fold_right].
      set (R := fold_right _ [(0, 0)] (map raw (seq (S k) d))) in *. clearbody R.
      assert (EH : snd (hd (0, 0) R) = o R 0) by (destruct R; reflexivity).
      assert (X : exists x y, (if snd (raw k) =? -1 then let m := snd (hd (0, 0) R) + (if sh then 1 else 0) in (m, m) :: R else raw k :: R) = (x, y) :: R /\
        0 < y <= f k /\ 0 <= x /\ (g k < f k -> (x, y) = (g k, f k)) /\ (f k <= g k -> x = y) /\ ((0 < d)%nat -> o R 0 + s <= y)).
      { pose proof s01. pose proof (Gpos k). unfold raw. destruct (Z.ltb_spec (g k) (f k)) as [A|A]; cbn [snd].
        - destruct (Z.eqb_spec (f k) (-1)); [lia|]. exists (g k), (f k). split; [reflexivity|]. split; [lia|]. split; [lia|]. split; [reflexivity|]. split; [lia|].
          intro D. destruct (C 0%nat D) as (P & _). rewrite Nat.add_0_r in P. pose proof (Fdec k ltac:(lia)). lia.
        - cbn [Z.eqb Pos.eqb]. rewrite EH. fold s. exists (o R 0 + s), (o R 0 + s). destruct d as [|d].
          + exfalso. pose proof (LAST k ltac:(lia)). lia.
          + destruct (C 0%nat ltac:(lia)) as (P & _). rewrite Nat.add_0_r in P. pose proof (Fdec k ltac:(lia)). split; [reflexivity|]. split; [lia|]. split; [lia|]. split; [lia|]. split; [reflexivity|intros; lia]. }
      destruct X as (x & y & EX & P1 & P2 & P3 & P4 & P5). match goal with |- length ?t = _ /\ _ => replace t with ((x, y) :: R) by (symmetry; exact EX) end. split; [cbn [length]; lia|]. split; [exact O0|]. split; [exact Q0|].
      intros [|i] Hi; cbn [nth fst snd].
      + rewrite Nat.add_0_r. split; [exact P1|]. split; [exact P2|]. split; [exact P3|]. split; [exact P4|]. intro D. apply P5. lia.
      + destruct (C i ltac:(lia)) as (C1 & C2 & C3 & C4 & C5). replace (k + S i)%nat with (S k + i)%nat by lia.
        split; [exact C1|]. split; [exact C2|]. split; [exact C3|]. split; [exact C4|]. intro D. apply C5. lia.
  Qed.
End S.

Definition ws (sh : bool) : Z := if sh then 1 else 0.
Definition wpart (sh : bool) (l : list Z) : Prop := (forall i, 0 <= row l i) /\ forall i, row l (S i) + ws sh <= row l i \/ row l (S i) = 0.
Lemma ws01 : forall sh, 0 <= ws sh <= 1. Proof. intros []; cbn; lia. Qed.
Lemma pos_row : forall l i, Forall (fun a => 0 < a) l -> ((i < length l)%nat <-> 0 < row l i).
Proof.
  intros l i F. split; intro H.
  - rewrite Forall_forall in F. apply F. apply nth_In. exact H.
  - destruct (le_lt_dec (length l) i) as [G|G]; [|exact G]. unfold row in H. rewrite nth_overflow in H by exact G. lia.
Qed.
Lemma length_unique : forall l n, Forall (fun a => 0 < a) l -> (forall i, (i < n)%nat <-> 0 < row l i) -> length l = n.
Proof.
  intros l n F H. destruct (lt_eq_lt_dec (length l) n) as [[G|G]|G]; [|exact G|].
  - apply H in G. apply (pos_row l _ F) in G. lia.
  - apply (pos_row l _ F) in G. apply H in G. lia.
Qed.
Lemma row_above : forall l i, (length l <= i)%nat -> row l i = 0.
Proof. intros l i H. unfold row. apply nth_overflow. exact H. Qed.
Lemma part_wpart : forall sh l, part_b sh l -> wpart sh l.
Proof.
  intros sh l P. assert (F : Forall (fun a => 0 < a) l) by (destruct sh; apply P). split.
  - intro i. destruct (le_lt_dec (length l) i) as [G|G]; [rewrite row_above by exact G; lia|apply (pos_row l i F) in G; lia].
  - intro i. destruct (le_lt_dec (length l) (S i)) as [G|G]; [right; apply row_above; exact G|left]. destruct sh; cbn [ws]; destruct P as [_ P]; [specialize (P i G); lia|specialize (P i); lia].
Qed.
Lemma wpart_le : forall sh l d i, wpart sh l -> row l (d + i) <= row l i.
Proof.
  intros sh l d i [A B]. pose proof (ws01 sh). induction d as [|d IH]; [cbn; lia|]. specialize (B (d + i)%nat). pose proof (A (d + i)%nat). cbn [Nat.add]. lia.
Qed.
Lemma wpart_trim : forall sh l, wpart sh l -> part_b sh (trim l).
Proof.
  intros sh l W. pose proof (ws01 sh) as H01.
  assert (F : Forall (fun a => 0 < a) (trim l)).
  { apply Forall_forall. intros x I. destruct (In_nth _ _ 0 I) as (i & Hi & E). change (row (trim l) i = x) in E. rewrite trim_row in E.
    destruct (trimmed_trim l) as [T|T]; [rewrite T in Hi; cbn in Hi; lia|].
    assert (L : last (trim l) 0 = row l (length (trim l) - 1)).
    { rewrite <- trim_row. unfold row. destruct (exists_last (l := trim l)) as (m & z & E1); [destruct (trim l); [cbn in Hi; lia|discriminate]|]. rewrite E1, last_last, app_length. cbn [length]. replace (length m + 1 - 1)%nat with (length m) by lia. rewrite app_nth2, Nat.sub_diag by lia. reflexivity. }
    rewrite L in T. pose proof (proj1 W (length (trim l) - 1)%nat). pose proof (wpart_le sh l (length (trim l) - 1 - i) i W) as D. replace (length (trim l) - 1 - i + i)%nat with (length (trim l) - 1)%nat in D by lia. lia. }
  destruct sh; cbn [part_b]; (split; [exact F|]).
  - intros i Hi. rewrite !trim_row. apply (pos_row _ _ F) in Hi. rewrite trim_row in Hi. destruct (proj2 W i) as [D|D]; cbn [ws] in *; lia.
  - intro i. rewrite !trim_row. pose proof (proj1 W i). destruct (proj2 W i) as [D|D]; cbn [ws] in *; lia.
Qed.
Lemma row_pred : forall l i, row (map (fun a => a - 1) l) i = if (i <? length l)%nat then row l i - 1 else 0.
Proof.
  intros l i. unfold row. destruct (Nat.ltb_spec i (length l)) as [H|H].
  - rewrite (nth_indep _ 0 (0 - 1)) by (rewrite map_length; exact H). rewrite (map_nth (fun a => a - 1)). reflexivity.
  - apply nth_overflow. rewrite map_length. exact H.
Qed.
Lemma wpart_pred : forall sh l, part_b sh l -> wpart sh (map (fun a => a - 1) l).
Proof.
  intros sh l P. pose proof (part_wpart sh l P) as W. assert (F : Forall (fun a => 0 < a) l) by (destruct sh; apply P). pose proof (ws01 sh). split; intro i; rewrite ?row_pred.
  - destruct (Nat.ltb_spec i (length l)) as [H0|H0]; [|lia]. apply (pos_row l i F) in H0. lia.
  - destruct (Nat.ltb_spec (S i) (length l)) as [H1|H1]; [|right; reflexivity]. destruct (Nat.ltb_spec i (length l)); [|lia]. apply (pos_row l _ F) in H1. destruct (proj2 W i); lia.
Qed.
Lemma part_length_le : forall l l', Forall (fun a => 0 < a) l -> Forall (fun a => 0 < a) l' -> (forall i, row l i <= row l' i) -> (length l <= length l')%nat.
Proof.
  intros l l' F F' H. destruct (le_lt_dec (length l) (length l')) as [G|G]; [exact G|]. apply (pos_row l _ F) in G. specialize (H (length l')). rewrite (row_above l') in H by lia. lia.
Qed.
Lemma part_pos : forall sh l, part_b sh l -> Forall (fun a => 0 < a) l.
Proof. intros [] l P; apply P. Qed.

Lemma loop_spec : forall sh fuel nu mu m, part_b sh nu -> part_b sh mu -> length nu = S m -> (forall k, row mu k <= row nu k) -> row mu m < row nu m -> (Z.to_nat (row mu m) <= fuel)%nat ->
  exists nu' mu', fs_loop fuel nu mu = Ok (nu', mu') /\ part_b sh nu' /\ part_b sh mu' /\ length nu' = S m /\ row mu' m = 0 /\
    (forall k, (k <= m)%nat -> row nu' k = row nu k - row mu m /\ row mu' k = row mu k - row mu m).
Proof.
  intros sh. induction fuel as [|fuel IH]; intros nu mu m P Q L S D F; pose proof (part_pos sh nu P) as FP; pose proof (part_pos sh mu Q) as FQ; pose proof (part_length_le mu nu FQ FP S) as LE;
    pose proof (proj1 (part_wpart sh mu Q) m) as NN; cbn [fs_loop]; unfold zlen.
  - destruct (Z.eqb_spec (Z.of_nat (length nu)) (Z.of_nat (length mu))) as [E|E].
    + exfalso. assert (H : (m < length mu)%nat) by lia. apply (pos_row mu m FQ) in H. lia.
    + exists nu, mu. rewrite (row_above mu m) by lia. split; [reflexivity|]. split; [exact P|]. split; [exact Q|]. split; [exact L|]. split; [reflexivity|]. intros k _. lia.
  - destruct (Z.eqb_spec (Z.of_nat (length nu)) (Z.of_nat (length mu))) as [E|E].
    + assert (H : (m < length mu)%nat) by lia. pose proof (proj1 (pos_row mu m FQ) H) as PM.
      assert (RN : forall k, row (trim (map (fun a => a - 1) nu)) k = if (k <? Datatypes.S m)%nat then row nu k - 1 else 0) by (intro k; rewrite trim_row, row_pred, L; reflexivity).
      assert (RM : forall k, row (trim (map (fun a => a - 1) mu)) k = if (k <? Datatypes.S m)%nat then row mu k - 1 else 0) by (intro k; rewrite trim_row, row_pred; replace (length mu) with (Datatypes.S m) by lia; reflexivity).
      pose proof (wpart_trim sh _ (wpart_pred sh nu P)) as P1. pose proof (wpart_trim sh _ (wpart_pred sh mu Q)) as Q1.
      destruct (IH (trim (map (fun a => a - 1) nu)) (trim (map (fun a => a - 1) mu)) m P1 Q1) as (nu' & mu' & E1 & P2 & Q2 & L2 & Z2 & R2).
      * apply length_unique; [apply (part_pos sh); exact P1|]. intro i. rewrite RN. destruct (Nat.ltb_spec i (Datatypes.S m)) as [G|G]; [|lia]. split; [intros _|lia].
        pose proof (wpart_le sh nu (m - i) i (part_wpart sh nu P)) as W. replace (m - i + i)%nat with m in W by lia. lia.
      * intro k. rewrite RN, RM. specialize (S k). destruct (k <? Datatypes.S m)%nat; lia.
      * rewrite RN, RM. destruct (Nat.ltb_spec m (Datatypes.S m)); lia.
      * rewrite RM. destruct (Nat.ltb_spec m (Datatypes.S m)); lia.
      * exists nu', mu'. split; [exact E1|]. split; [exact P2|]. split; [exact Q2|]. split; [exact L2|]. split; [exact Z2|]. intros k Hk. destruct (R2 k Hk) as [A B]. rewrite RN, RM in A. rewrite !RM in B.
        destruct (Nat.ltb_spec m (Datatypes.S m)); [|lia]. destruct (Nat.ltb_spec k (Datatypes.S m)); [|lia]. lia.
    + exists nu, mu. rewrite (row_above mu m) by lia. split; [reflexivity|]. split; [exact P|]. split; [exact Q|]. split; [exact L|]. split; [reflexivity|]. intros k _. lia.
Qed.

Lemma skew_cell_iff : forall sh lam mu i j, (forall k, 0 <= row mu k) -> (skew_cell sh lam mu i j <-> exists k, i = Z.of_nat k + 1 /\ row mu k < j - ws sh * Z.of_nat k <= row lam k).
Proof.
  intros sh lam mu i j P. split.
  - intro H. exists (Z.to_nat (i - 1)). assert (1 <= i) by (destruct sh; apply H). split; [lia|]. destruct sh; cbn [skew_cell] in H; unfold cell, shifted_cell in H; cbn [ws]; lia.
  - intros (k & -> & H). specialize (P k). destruct sh; cbn [skew_cell]; unfold cell, shifted_cell; cbn [ws] in H; replace (Z.to_nat (Z.of_nat k + 1 - 1)) with k by lia; lia.
Qed.
Lemma last_such : forall (P : nat -> Prop) N, (forall k, {P k} + {~ P k}) -> (exists k, P k /\ (k < N)%nat) -> exists m, P m /\ (m < N)%nat /\ forall k, (m < k < N)%nat -> ~ P k.
Proof.
  intros P N DEC. induction N as [|N IH]; intros (k & H & L); [lia|]. destruct (DEC N) as [Y|Y].
  - exists N. split; [exact Y|]. split; [lia|]. intros; lia.
  - destruct IH as (m & A & B & C). { exists k. split; [exact H|]. assert (k <> N) by (intros ->; contradiction). lia. } exists m. split; [exact A|]. split; [lia|]. intros x Hx. destruct (Nat.eq_dec x N) as [->|]; [exact Y|apply C; lia].
Qed.
Lemma zmax_ge : forall l x, In x l -> x <= zmax_list l.
Proof. induction l as [|y l IH]; intros x []; cbn [zmax_list fold_right]; [subst; lia|]. specialize (IH x H). unfold zmax_list in IH. lia. Qed.
Lemma row_map : forall (R : list (Z * Z)) (h : Z * Z -> Z) i, h (0, 0) = 0 -> row (map h R) i = h (nth i R (0, 0)).
Proof. intros R h i H. unfold row. rewrite <- H at 1. apply map_nth. Qed.

Lemma from_skew_spec : forall sh lam mu ps, part_b sh lam -> part_b sh mu -> (forall k, row mu k <= row lam k) -> ps <> [] ->
  (forall i j, In (i, j) ps <-> skew_cell sh lam mu i j) ->
  exists nu' mu' m c, from_skew ps sh = Ok (nu', mu') /\ part_b sh nu' /\ part_b sh mu' /\ length nu' = S m /\ row mu' m = 0 /\ 0 <= c /\ row mu m = c /\ row mu m < row lam m /\
    (forall k, (m < k)%nat -> row lam k <= row mu k) /\ (forall k, row mu' k <= row nu' k) /\
    (forall k j, (row mu' k < j <= row nu' k <-> row mu k < j + c <= row lam k)).
Proof.
  intros sh lam mu ps P Q S NE EQ. pose proof (part_wpart sh lam P) as WL. pose proof (part_wpart sh mu Q) as WM. pose proof (ws01 sh) as H01.
  assert (EX : exists m, row mu m < row lam m /\ (m < length lam)%nat /\ forall k, (m < k < length lam)%nat -> ~ row mu k < row lam k).
  { apply (last_such (fun k => row mu k < row lam k)); [intro k; apply Z_lt_dec|]. destruct ps as [|[i j] ps]; [congruence|]. pose proof (proj1 (EQ i j) (or_introl eq_refl)) as C. apply skew_cell_iff in C; [|apply WM].
    destruct C as (k & _ & C). exists k. split; [lia|]. apply (pos_row lam k (part_pos sh lam P)). pose proof (proj1 WM k). lia. }
  destruct EX as (m & Hm & ML & MX).
  assert (MX' : forall k, (m < k)%nat -> row lam k <= row mu k).
  { intros k Hk. destruct (le_lt_dec (length lam) k) as [G|G]; [rewrite row_above by exact G; apply WM|]. specialize (MX k ltac:(lia)). lia. }
  assert (CELL : forall i j, In (i, j) ps <-> exists k, (k < Datatypes.S m)%nat /\ i = Z.of_nat k + 1 /\ row mu k < j - (if sh then 1 else 0) * Z.of_nat k <= row lam k).
  { intros i j. rewrite EQ, skew_cell_iff by apply WM. fold (ws sh). split; intros (k & H); exists k; [|split; [apply H|apply H]]. split; [|exact H]. destruct (le_lt_dec (Datatypes.S m) k) as [G|G]; [|exact G]. pose proof (MX' k ltac:(lia)). lia. }
  assert (LAST : forall k, Datatypes.S k = Datatypes.S m -> row mu k < row lam k) by (intros k E; injection E as ->; exact Hm).
  assert (GP : forall k, 0 <= row mu k <= row lam k) by (intro k; split; [apply WM|apply S]).
  assert (FD : forall k, (Datatypes.S k < Datatypes.S m)%nat -> row lam (Datatypes.S k) + (if sh then 1 else 0) <= row lam k).
  { intros k Hk. fold (ws sh). destruct (proj2 WL k) as [D|D]; [exact D|]. exfalso. assert (X : (Datatypes.S k < length lam)%nat) by lia. apply (pos_row lam _ (part_pos sh lam P)) in X. lia. }
  pose proof (rows_from sh (row lam) (row mu) ps (Datatypes.S m) CELL LAST (Datatypes.S m) 0 (Z.to_nat (zmax_list (map fst ps))) ltac:(lia)) as RW.
  assert (RW' : fs_rows (Z.to_nat (zmax_list (map fst ps))) sh ps 1 = Ok (map (raw (row lam) (row mu)) (seq 0 (Datatypes.S m)))).
  { apply RW. assert (I : In (Z.of_nat m + 1) (map fst ps)).
    { apply in_map_iff. exists (Z.of_nat m + 1, row lam m + (if sh then 1 else 0) * Z.of_nat m). split; [reflexivity|]. apply CELL. exists m. split; [lia|]. split; [reflexivity|lia]. }
    apply zmax_ge in I. lia. }
  destruct (fill_spec sh (row lam) (row mu) (Datatypes.S m) LAST GP FD (Datatypes.S m) 0 ltac:(lia)) as (LR & O0 & Q0 & C).
  unfold from_skew. rewrite RW'. cbn [rbind]. clear RW RW'. set (R := fs_fill sh (map (raw (row lam) (row mu)) (seq 0 (Datatypes.S m)))) in *. clearbody R. fold (ws sh) in C. cbn [Nat.add] in C.
  assert (RN : forall i, row (map snd R) i = snd (nth i R (0, 0))) by (intro i; apply row_map; reflexivity).
  assert (RM : forall i, row (map fst R) i = fst (nth i R (0, 0))) by (intro i; apply row_map; reflexivity).
  assert (BIG : forall i, (m < i)%nat -> snd (nth i R (0, 0)) = 0 /\ fst (nth i R (0, 0)) = 0).
  { intros i Hi. destruct (Nat.eq_dec i (Datatypes.S m)) as [->|]; [split; assumption|]. rewrite nth_overflow by lia. split; reflexivity. }
  assert (WN : wpart sh (map snd R)).
  { split; intro i; rewrite !RN.
    - destruct (le_lt_dec i m) as [G|G]; [destruct (C i ltac:(lia)) as (C1 & _); lia|destruct (BIG i G) as [-> _]; lia].
    - destruct (le_lt_dec (Datatypes.S i) m) as [G|G]; [left; destruct (C i ltac:(lia)) as (_ & _ & _ & _ & C5); apply C5; lia|right; apply (BIG _ G)]. }
  assert (GG : forall i, fst (nth i R (0, 0)) <= snd (nth i R (0, 0))).
  { intro i. destruct (le_lt_dec i m) as [G|G]; [|destruct (BIG i G); lia]. destruct (C i ltac:(lia)) as (C1 & C2 & C3 & C4 & _). destruct (Z_lt_le_dec (row mu i) (row lam i)) as [A|A]; [rewrite (C3 A); cbn [fst snd]; lia|rewrite (C4 A); lia]. }
  assert (WG : wpart sh (map fst R)).
  { split; intro i; rewrite !RM.
    - destruct (le_lt_dec i m) as [G|G]; [destruct (C i ltac:(lia)) as (C1 & C2 & _); lia|destruct (BIG i G) as [_ ->]; lia].
    - destruct (le_lt_dec (Datatypes.S i) m) as [G|G]; [|right; apply (BIG _ G)].
      destruct (C i ltac:(lia)) as (A1 & A2 & A3 & A4 & A5). destruct (C (Datatypes.S i) ltac:(lia)) as (B1 & B2 & B3 & B4 & _). specialize (A5 ltac:(lia)). pose proof (GG (Datatypes.S i)).
      destruct (Z_lt_le_dec (row mu i) (row lam i)) as [A|A].
      + rewrite (A3 A). cbn [fst]. destruct (proj2 WM i) as [D|D]; destruct (Z_lt_le_dec (row mu (Datatypes.S i)) (row lam (Datatypes.S i))) as [B|B]; [rewrite (B3 B); cbn [fst]; lia|left; lia|rewrite (B3 B); cbn [fst]; lia|].
        exfalso. lia.
      + left. rewrite (A4 A). lia. }
  destruct (C m ltac:(lia)) as (M1 & M2 & M3 & _). specialize (M3 Hm).
  assert (LN : length (trim (map snd R)) = Datatypes.S m).
  { apply length_unique; [apply (part_pos sh), wpart_trim, WN|]. intro i. rewrite trim_row, RN. split; [intro Hi; destruct (C i Hi) as (C1 & _); lia|]. intro Hi. destruct (le_lt_dec (Datatypes.S m) i) as [G|G]; [|exact G]. destruct (BIG i ltac:(lia)); lia. }
  pose proof (wpart_trim sh _ WN) as P1. pose proof (wpart_trim sh _ WG) as Q1.
  destruct (loop_spec sh (Z.to_nat (last (trim (map fst R)) 0)) (trim (map snd R)) (trim (map fst R)) m P1 Q1 LN) as (nu' & mu' & E & P2 & Q2 & L2 & Z2 & R2).
  - intro k. rewrite !trim_row, RN, RM. apply GG.
  - rewrite !trim_row, RN, RM, M3. exact Hm.
  - assert (LE : (length (trim (map fst R)) <= Datatypes.S m)%nat) by (rewrite <- LN; apply part_length_le; [apply (part_pos sh); exact Q1|apply (part_pos sh); exact P1|intro k; rewrite !trim_row, RN, RM; apply GG]).
    destruct (le_lt_dec (length (trim (map fst R))) m) as [G|G]; [rewrite (row_above _ _ G); cbn; lia|].
    destruct (exists_last (l := trim (map fst R))) as (l0 & z & E1); [destruct (trim (map fst R)); [cbn in G; lia|discriminate]|]. rewrite E1 in *. rewrite last_last. rewrite app_length in *. cbn [length] in *. unfold row. rewrite app_nth2 by lia. replace (m - length l0)%nat with 0%nat by lia. cbn. lia.
  - rewrite !trim_row, !RM, M3 in R2. cbn [fst] in R2. exists nu', mu', m, (row mu m). split; [exact E|]. split; [exact P2|]. split; [exact Q2|]. split; [exact L2|]. split; [exact Z2|]. split; [apply WM|]. split; [reflexivity|]. split; [exact Hm|]. split; [exact MX'|].
    assert (R3 : forall k, (k <= m)%nat -> row nu' k = snd (nth k R (0, 0)) - row mu m /\ row mu' k = fst (nth k R (0, 0)) - row mu m).
    { intros k Hk. specialize (R2 k Hk). rewrite !trim_row, RN, RM in R2. exact R2. }
    assert (ABOVE : forall k, (m < k)%nat -> row nu' k = 0 /\ row mu' k = 0).
    { intros k Hk. split; [apply row_above; lia|]. pose proof (wpart_le sh mu' (k - m) m (part_wpart sh mu' Q2)) as W. replace (k - m + m)%nat with k in W by lia. pose proof (proj1 (part_wpart sh mu' Q2) k). lia. }
    split.
    + intro k. destruct (le_lt_dec k m) as [G|G]; [destruct (R3 k G); pose proof (GG k); lia|destruct (ABOVE k G); lia].
    + intros k j. destruct (le_lt_dec k m) as [G|G].
      * destruct (R3 k G) as [-> ->]. destruct (C k ltac:(lia)) as (C1 & C2 & C3 & C4 & _). destruct (Z_lt_le_dec (row mu k) (row lam k)) as [A|A]; [rewrite (C3 A); cbn [fst snd]; lia|]. rewrite (C4 A). lia.
      * destruct (ABOVE k G) as [-> ->]. pose proof (MX' k G). lia.
Qed.
