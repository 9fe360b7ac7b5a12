(* growth diagrams: the table computed is the one given by the local rule *)
From Coq Require Import List ZArith Lia Bool Arith.
From Verif Require Import PyBase M_Partitions S_Partitions L_Partitions L_PartBasic L_PartEnum L_PartMore.
Import ListNotations.
Local Open Scope Z_scope.

Lemma pos_trim : forall l, Forall (fun a => 0 < a) l -> trim l = l.
Proof. intros. apply trim_id, pos_trimmed. assumption. Qed.

(* the local rule *)
Definition lrule (rho mu nu : list Z) (c : Z) : list Z :=
  match growth_cell (S (length mu + length nu)) rho mu nu c 1 with Ok l => trim l | Err _ => [] end.

Lemma gval_sym : forall rho mu nu c k, gval rho mu nu c k = gval rho nu mu c k.
Proof. intros. unfold gval. destruct k; lia. Qed.

Record square (rho mu nu : list Z) : Prop := {
  sq_rho : partition rho; sq_mu : partition mu; sq_nu : partition nu;
  sq_1 : hstrip rho mu; sq_2 : hstrip rho nu }.

Lemma lrule_ok : forall rho mu nu c, square rho mu nu -> 0 <= c ->
  exists l, growth_cell (S (length mu + length nu)) rho mu nu c 1 = Ok l /\ trim l = lrule rho mu nu c /\
   Forall (fun a => 0 < a) (lrule rho mu nu c) /\ forall j, row (lrule rho mu nu c) j = gval rho mu nu c j.
Proof.
  intros rho mu nu c [H1 H2 H3 H4 H5] Hc.
  destruct (growth_cell_spec rho mu nu c H1 H2 H3 H4 H5 Hc (S (length mu + length nu)) 0 c) as (l & E & Hp & Hr); [lia|reflexivity|].
  change (Z.of_nat 0 + 1) with 1 in E. exists l. split; [assumption|]. unfold lrule. rewrite E.
  rewrite (pos_trim l Hp). auto.
Qed.

Lemma lrule_sym : forall rho mu nu c, square rho mu nu -> 0 <= c -> lrule rho mu nu c = lrule rho nu mu c.
Proof.
  intros rho mu nu c H Hc. destruct (lrule_ok rho mu nu c H Hc) as (l & _ & _ & Hp & Hr).
  assert (H' : square rho nu mu) by (destruct H; constructor; assumption).
  destruct (lrule_ok rho nu mu c H' Hc) as (l' & _ & _ & Hp' & Hr').
  apply pos_ext; [assumption|assumption|]. intro k. rewrite Hr, Hr'. apply gval_sym.
Qed.

Lemma lrule_partition : forall rho mu nu c, square rho mu nu -> 0 <= c ->
  partition (lrule rho mu nu c) /\ hstrip mu (lrule rho mu nu c) /\ hstrip nu (lrule rho mu nu c).
Proof.
  intros rho mu nu c H Hc. destruct (lrule_ok rho mu nu c H Hc) as (l & _ & _ & Hp & Hr). destruct H as [H1 H2 H3 H4 H5].
  assert (A : forall k, row (lrule rho mu nu c) (S k) <= Z.min (row mu k) (row nu k)).
  { intro k. rewrite Hr. unfold gval. specialize (H4 k). specialize (H5 k). lia. }
  assert (B : forall k, Z.max (row mu k) (row nu k) <= row (lrule rho mu nu c) k).
  { intro k. rewrite Hr. unfold gval. destruct k as [|k]; [lia|]. specialize (H4 k). specialize (H5 k). lia. }
  split; [|split].
  - split; [assumption|]. intro k. specialize (A k). specialize (B k). lia.
  - intro k. specialize (A k). specialize (B k). lia.
  - intro k. specialize (A k). specialize (B k). lia.
Qed.

Lemma psum_ext : forall f g n, (forall k, (k < n)%nat -> f k = g k) -> psum f n = psum g n.
Proof. induction n; intro H; simpl; [reflexivity|]. rewrite IHn by (intros; apply H; lia). rewrite H by lia. reflexivity. Qed.
Lemma psum_zero_tail : forall f n m, (forall k, (n <= k)%nat -> f k = 0) -> (n <= m)%nat -> psum f m = psum f n.
Proof.
  intros f n m H Hnm. induction m as [|m IH]; [replace n with O by lia; reflexivity|].
  destruct (Nat.eq_dec n (S m)) as [E|E]; [subst; reflexivity|]. simpl. rewrite IH by lia. rewrite H by lia. lia.
Qed.
Lemma psum_shift : forall f n, psum f (S n) = f O + psum (fun k => f (S k)) n.
Proof. induction n as [|n IH]; simpl in *; [lia|]. rewrite IH. lia. Qed.
Lemma size_psum_len : forall mu, size mu = psum (row mu) (length mu).
Proof.
  induction mu as [|a mu IH]; [reflexivity|]. cbn [size length]. rewrite psum_shift, IH. reflexivity.
Qed.
Lemma size_psum : forall mu n, (length mu <= n)%nat -> size mu = psum (row mu) n.
Proof. intros. rewrite size_psum_len. symmetry. apply psum_zero_tail; [|assumption]. intros. apply row_overflow. assumption. Qed.
Lemma psum_add : forall f g n, psum (fun k => f k + g k) n = psum f n + psum g n.
Proof. induction n; simpl; [reflexivity|]. lia. Qed.
Lemma psum_sub : forall f g n, psum (fun k => f k - g k) n = psum f n - psum g n.
Proof. induction n; simpl; [reflexivity|]. lia. Qed.

Lemma lrule_size : forall rho mu nu c, square rho mu nu -> 0 <= c ->
  size (lrule rho mu nu c) = size mu + size nu - size rho + c.
Proof.
  intros rho mu nu c H Hc. destruct (lrule_ok rho mu nu c H Hc) as (l & _ & _ & Hp & Hr).
  set (lam := lrule rho mu nu c) in *. set (N := (length lam + length mu + length nu + length rho)%nat).
  rewrite (size_psum lam (S N)) by (unfold N; lia). rewrite (psum_ext _ (gval rho mu nu c) (S N)) by (intros; apply Hr).
  transitivity (psum (fun k => Z.max (row mu k) (row nu k)) (S N) + (c + psum (fun k => Z.min (row mu k) (row nu k) - row rho k) N)).
  { rewrite <- (psum_shift (fun k => match k with O => c | S k' => Z.min (row mu k') (row nu k') - row rho k' end) N).
    rewrite <- psum_add. reflexivity. }
  assert (E : psum (fun k => Z.max (row mu k) (row nu k)) (S N) = psum (fun k => Z.max (row mu k) (row nu k)) N).
  { simpl. rewrite !row_overflow by (unfold N; lia). simpl. lia. }
  rewrite E, psum_sub. rewrite (size_psum mu N), (size_psum nu N), (size_psum rho N) by (unfold N; lia).
  assert (E2 : psum (fun k => Z.max (row mu k) (row nu k)) N + psum (fun k => Z.min (row mu k) (row nu k)) N = psum (row mu) N + psum (row nu) N).
  { rewrite <- !psum_add. apply psum_ext. intros. lia. }
  change (psum (fun k => row rho k) N) with (psum (row rho) N). lia.
Qed.

Section TABLE.
  Variable D : nat -> nat -> Z.
  Hypothesis HD : forall i j, 0 <= D i j.

  Fixpoint gg (i : nat) : nat -> list Z :=
    match i with
    | O => fun _ => []
    | S i' => fix inner (j : nat) : list Z :=
        match j with
        | O => []
        | S j' => lrule (gg i' j') (gg i' (S j')) (inner j') (D (S i') (S j'))
        end
    end.

  Lemma gg_SS : forall i j, gg (S i) (S j) = lrule (gg i j) (gg i (S j)) (gg (S i) j) (D (S i) (S j)).
  Proof. reflexivity. Qed.
  Lemma gg_0_r : forall i, gg i 0 = [].
  Proof. destruct i; reflexivity. Qed.

  Lemma partition_nil : partition [].
  Proof. split; [constructor|]. intro. rewrite !row_nil. lia. Qed.
  Lemma hstrip_nil_refl : hstrip [] [].
  Proof. intro. rewrite !row_nil. lia. Qed.

  Lemma gg_step : forall i, (forall j, partition (gg i j) /\ hstrip (gg i j) (gg i (S j))) ->
    forall j, partition (gg (S i) j) /\ hstrip (gg i j) (gg (S i) j).
  Proof.
    intros i H. induction j as [|j IHj].
    - rewrite !gg_0_r. split; [exact partition_nil|exact hstrip_nil_refl].
    - rewrite gg_SS. destruct IHj as [A B]. destruct (H j) as [C E]. destruct (H (S j)) as [F _].
      split; apply lrule_partition; try apply HD; constructor; assumption.
  Qed.

  Lemma gg_row_inv : forall i j, partition (gg i j) /\ hstrip (gg i j) (gg i (S j)).
  Proof.
    induction i as [|i IHi]; intro j.
    - split; [exact partition_nil|exact hstrip_nil_refl].
    - split; [apply (gg_step i IHi)|]. rewrite (gg_SS i j). destruct (gg_step i IHi j) as [A B].
      destruct (IHi j) as [C E]. destruct (IHi (S j)) as [F _].
      apply lrule_partition; [constructor; assumption|apply HD].
  Qed.

  Lemma gg_inv : forall i j, partition (gg i j) /\ hstrip (gg i j) (gg (S i) j) /\ hstrip (gg i j) (gg i (S j)).
  Proof.
    intros i j. split; [apply gg_row_inv|]. split; [|apply gg_row_inv]. apply (gg_step i (gg_row_inv i)).
  Qed.

  Lemma gg_square : forall i j, square (gg i j) (gg i (S j)) (gg (S i) j).
  Proof. intros. constructor; apply gg_inv. Qed.

  Definition rect (i j : nat) : Z := psum (fun a => psum (fun b => D (S a) (S b)) j) i.

  Lemma gg_size : forall i j, size (gg i j) = rect i j.
  Proof.
    induction i as [|i IHi]; intro j; [reflexivity|]. induction j as [|j IHj].
    - rewrite gg_0_r. unfold rect. simpl. symmetry.
      assert (Hz : forall n, psum (fun _ : nat => 0) n = 0) by (induction n as [|n IHn]; simpl; lia).
      rewrite Hz. reflexivity.
    - rewrite gg_SS, lrule_size; [|apply gg_square|apply HD]. rewrite IHj, !IHi. unfold rect. simpl.
      assert (E : forall n, psum (fun a => psum (fun b => D (S a) (S b)) j + D (S a) (S j)) n =
                  psum (fun a => psum (fun b => D (S a) (S b)) j) n + psum (fun a => D (S a) (S j)) n) by (intro n; apply (psum_add _ _ n)).
      rewrite E. lia.
  Qed.
End TABLE.

Lemma gg_transpose : forall D, (forall i j, 0 <= D i j) -> forall i j, gg (fun a b => D b a) i j = gg D j i.
Proof.
  intros D HD. induction i as [|i IHi]; intro j; [rewrite gg_0_r; reflexivity|].
  induction j as [|j IHj]; [reflexivity|]. rewrite !gg_SS, IHj, !IHi.
  symmetry. apply lrule_sym; [apply gg_square; assumption|apply HD].
Qed.

(* ---------- the code computes gg ---------- *)
Definition Dof (d : list (Z * Z * Z)) (i j : nat) : Z := mat_get d (Z.of_nat i) (Z.of_nat j).

Lemma growth_row_cons : forall d i j rho mu r left,
  growth_row d i j (rho :: mu :: r) left =
  rbind (growth_cell (S (length mu + length left)) rho mu left (mat_get d i j) 1) (fun lam =>
  rbind (growth_row d i (j + 1) (mu :: r) (trim lam)) (fun rest => Ok (trim lam :: rest))).
Proof. reflexivity. Qed.

Lemma growth_row_spec : forall d, (forall i j, 0 <= Dof d i j) -> forall i cnt j0,
  growth_row d (Z.of_nat (S i)) (Z.of_nat (S j0)) (map (gg (Dof d) i) (seq j0 (S cnt))) (gg (Dof d) (S i) j0) =
  Ok (map (gg (Dof d) (S i)) (seq (S j0) cnt)).
Proof.
  intros d HD i. induction cnt as [|cnt IH]; intro j0; [reflexivity|].
  change (map (gg (Dof d) i) (seq j0 (S (S cnt)))) with (gg (Dof d) i j0 :: gg (Dof d) i (S j0) :: map (gg (Dof d) i) (seq (S (S j0)) cnt)).
  rewrite growth_row_cons.
  destruct (lrule_ok _ _ _ (Dof d (S i) (S j0)) (gg_square (Dof d) HD i j0) (HD _ _)) as (l & E & Et & _).
  change (mat_get d (Z.of_nat (S i)) (Z.of_nat (S j0))) with (Dof d (S i) (S j0)). rewrite E. cbn [rbind]. rewrite Et. rewrite <- gg_SS.
  replace (Z.of_nat (S j0) + 1) with (Z.of_nat (S (S j0))) by lia.
  specialize (IH (S j0)).
  change (map (gg (Dof d) i) (seq (S j0) (S cnt))) with (gg (Dof d) i (S j0) :: map (gg (Dof d) i) (seq (S (S j0)) cnt)) in IH.
  rewrite IH. reflexivity.
Qed.

Lemma growth_rows_spec : forall d, (forall i j, 0 <= Dof d i j) -> forall m rows i,
  growth_rows d (Z.of_nat (S i)) rows (map (gg (Dof d) i) (seq 0 (S m))) =
  Ok (map (fun a => map (gg (Dof d) a) (seq 0 (S m))) (seq (S i) rows)).
Proof.
  intros d HD m. induction rows as [|rows IH]; intro i; [reflexivity|]. cbn [growth_rows].
  pose proof (growth_row_spec d HD i m 0) as E. rewrite gg_0_r in E. change (Z.of_nat 1) with 1 in E. rewrite E. cbn [rbind].
  change ([] :: map (gg (Dof d) (S i)) (seq 1 m)) with (map (gg (Dof d) (S i)) (seq 0 (S m))).
  replace (Z.of_nat (S i) + 1) with (Z.of_nat (S (S i))) by lia. rewrite IH. reflexivity.
Qed.

Definition growth_dim (x : option Z) (l : list Z) : Z := match x with None => zmax_list l | Some n => n end.

Lemma map_const_repeat : forall A B (b : B) (l : list A), map (fun _ => b) l = repeat b (length l).
Proof. induction l; simpl; congruence. Qed.

Lemma growth_diagram_spec : forall d m n, (forall i j, 0 <= Dof d i j) ->
  let M := growth_dim m (map (fun kv => snd (fst kv)) d) in
  let N := growth_dim n (map (fun kv => fst (fst kv)) d) in
  0 <= M -> 0 <= N ->
  growth_diagram d m n = Ok (map (fun a => map (gg (Dof d) a) (seq 0 (S (Z.to_nat M)))) (seq 0 (S (Z.to_nat N)))).
Proof.
  intros d m n HD M N HM HN. unfold growth_diagram. fold (growth_dim m (map (fun kv => snd (fst kv)) d)).
  fold (growth_dim n (map (fun kv => fst (fst kv)) d)). fold M. fold N.
  assert (E0 : repeat [] (Z.to_nat (M + 1)) = map (gg (Dof d) 0) (seq 0 (S (Z.to_nat M)))).
  { change (gg (Dof d) 0) with (fun _ : nat => @nil Z). rewrite map_const_repeat, seq_length. f_equal. lia. }
  rewrite E0. pose proof (growth_rows_spec d HD (Z.to_nat M) (Z.to_nat N) 0) as E. change (Z.of_nat 1) with 1 in E.
  rewrite E. reflexivity.
Qed.
