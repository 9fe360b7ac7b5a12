From Coq Require Import List ZArith Lia Bool Permutation Sorted Ring.
From Verif Require Import PyBase FinSum M_Vectors L_Vectors M_Perm M_Partitions S_Partitions L_Partitions L_PartBasic L_PartMore L_PartCorners
  M_Operators S_Operators L_Operators L_Operators2.
Import ListNotations.
Local Open Scope Z_scope.

Lemma bump_comm : forall i j mu, strict_partition mu -> 0 <= i -> 0 <= j -> i <> j -> i <> j + 1 -> j <> i + 1 ->
  ~ In (i + 1) mu -> ~ In (j + 1) mu -> bump_part i (bump_part j mu) = bump_part j (bump_part i mu).
Proof.
  intros i j mu Hs Hi Hj N1 N2 N3 Ai Aj.
  destruct (bump_part_spec i mu Hs Hi Ai) as [Si Ii]. destruct (bump_part_spec j mu Hs Hj Aj) as [Sj Ij].
  assert (Ai' : ~ In (i + 1) (bump_part j mu)) by (rewrite Ij; intros [C|[C _]]; [lia|contradiction]).
  assert (Aj' : ~ In (j + 1) (bump_part i mu)) by (rewrite Ii; intros [C|[C _]]; [lia|contradiction]).
  destruct (bump_part_spec i _ Sj Hi Ai') as [Sij Iij]. destruct (bump_part_spec j _ Si Hj Aj') as [Sji Iji].
  apply strict_ext_set; [assumption|assumption|]. intro v. rewrite Iij, Iji, Ii, Ij. split; intros [C|C]; intuition lia.
Qed.

Lemma T_other : forall i j mu, strict_partition mu -> 0 <= i -> 0 <= j -> i <> j -> i <> j + 1 -> j <> i + 1 -> ~ In (i + 1) mu ->
  T j (bump_part i mu) = match T j mu with
                         | None => None
                         | Some (true, _) => Some (true, bump_part i mu)
                         | Some (false, _) => Some (false, bump_part j (bump_part i mu))
                         end.
Proof.
  intros i j mu Hs Hi Hj N1 N2 N3 Ai. destruct (bump_part_spec i mu Hs Hi Ai) as [Si Ii].
  assert (M1 : In (j + 1) (bump_part i mu) <-> In (j + 1) mu) by (rewrite Ii; intuition lia).
  assert (M0 : In j (bump_part i mu) <-> In j mu) by (rewrite Ii; intuition lia).
  destruct (T_cases j mu) as [(A & B & C)|[(A & B & C)|(A & B & C)]]; rewrite C.
  - apply T_beta; [rewrite M1|rewrite M0]; assumption.
  - apply T_add; [rewrite M1|rewrite M0]; assumption.
  - apply T_none; [assumption|]. rewrite M0, M1. assumption.
Qed.

Section Relations.
  Context {R : Type} (rO rI : R) (radd rmul rsub : R -> R -> R) (ropp : R -> R) (beta : R).
  Hypothesis Rth : ring_theory rO rI radd rmul rsub ropp (@eq R).
  Add Ring Rring : Rth.
  Local Notation Tdual := (Tdual rO rI rmul beta).

  Lemma Tdual_beta : forall d F mu, In (d + 1) mu -> (d = 0 \/ ~ In d mu) -> Tdual d F mu = rmul beta (F mu).
  Proof. intros d F mu A B. unfold L_Operators2.Tdual. rewrite (T_beta d mu A B). reflexivity. Qed.
  Lemma Tdual_add : forall d F mu, ~ In (d + 1) mu -> (d = 0 \/ In d mu) -> Tdual d F mu = F (bump_part d mu).
  Proof. intros d F mu A B. unfold L_Operators2.Tdual. rewrite (T_add d mu A B). ring. Qed.
  Lemma Tdual_none : forall d F mu, d <> 0 -> (In (d + 1) mu <-> In d mu) -> Tdual d F mu = rO.
  Proof. intros d F mu A B. unfold L_Operators2.Tdual. rewrite (T_none d mu A B). reflexivity. Qed.

  Lemma Tdual_quad : forall d F mu, strict_partition mu -> 0 <= d -> Tdual d (Tdual d F) mu = rmul beta (Tdual d F mu).
  Proof.
    intros d F mu Hs Hd. unfold L_Operators2.Tdual at 1 3. destruct (T d mu) as [[b nu]|] eqn:E; [|ring].
    unfold L_Operators2.Tdual. rewrite (T_idem d mu b nu Hd Hs E). ring.
  Qed.

  Lemma Tdual_comm : forall i j F mu, strict_partition mu -> 0 <= i -> 0 <= j -> i <> j -> i <> j + 1 -> j <> i + 1 ->
    Tdual i (Tdual j F) mu = Tdual j (Tdual i F) mu.
  Proof.
    intros i j F mu Hs Hi Hj N1 N2 N3. unfold L_Operators2.Tdual.
    destruct (T_cases i mu) as [(A & B & C)|[(A & B & C)|(A & B & C)]];
    destruct (T_cases j mu) as [(A' & B' & C')|[(A' & B' & C')|(A' & B' & C')]]; 
      repeat (cbv beta iota; first [rewrite C|rewrite C'|rewrite (T_other i j mu) by (assumption || lia)
                                  |rewrite (T_other j i mu) by (assumption || lia)]); try ring.
    rewrite (bump_comm i j mu) by (assumption || lia). ring.
  Qed.

  (* i, i + 1, i *)
  Lemma Tdual_braid1 : forall i F mu, strict_partition mu -> 1 <= i -> Tdual i (Tdual (i + 1) (Tdual i F)) mu = rO.
  Proof.
    intros i F mu Hs Hi. set (G := Tdual i F).
    destruct (T_cases i mu) as [(A & B & _)|[(A & B & _)|(A & B & _)]].
    - rewrite Tdual_beta by assumption. destruct B as [B|B]; [lia|].
      destruct (in_dec Z.eq_dec (i + 1 + 1) mu) as [C|C].
      + rewrite Tdual_none; [ring|lia|tauto].
      + rewrite Tdual_add by tauto. destruct (bump_part_spec (i + 1) mu Hs ltac:(lia) C) as [S1 I1].
        unfold G. rewrite Tdual_none; [ring|lia|]. rewrite !I1. intuition lia.
    - rewrite Tdual_add by assumption. destruct B as [B|B]; [lia|].
      destruct (bump_part_spec i mu Hs ltac:(lia) A) as [S1 I1].
      destruct (in_dec Z.eq_dec (i + 1 + 1) mu) as [C|C].
      + rewrite Tdual_none; [ring|lia|]. rewrite !I1. split; [intros _; left; reflexivity|intros _; right; split; [assumption|lia]].
      + assert (C' : ~ In (i + 1 + 1) (bump_part i mu)) by (rewrite I1; intros [D|[D _]]; [lia|contradiction]).
        rewrite Tdual_add; [|assumption|right; apply I1; left; reflexivity].
        destruct (bump_part_spec (i + 1) _ S1 ltac:(lia) C') as [S2 I2].
        unfold G. rewrite Tdual_none; [ring|lia|]. rewrite !I2, !I1. split.
        * intros [D|[_ D]]; [lia|]. exfalso. apply D. lia.
        * intros [D|[[D|[_ D]] _]]; [lia|lia|contradiction].
    - apply Tdual_none; assumption.
  Qed.

  (* i + 1, i, i + 1; also for i = 0 *)
  Lemma Tdual_braid2 : forall i F mu, strict_partition mu -> 0 <= i -> Tdual (i + 1) (Tdual i (Tdual (i + 1) F)) mu = rO.
  Proof.
    intros i F mu Hs Hi. set (G := Tdual (i + 1) F).
    assert (HG : forall nu, In (i + 1) nu -> In (i + 1 + 1) nu -> G nu = rO).
    { intros nu H1 H2. unfold G. apply Tdual_none; [lia|tauto]. }
    assert (HT : forall nu, strict_partition nu -> ~ In (i + 1) nu -> In (i + 1 + 1) nu -> Tdual i G nu = rO).
    { intros nu S1 H1 H2. destruct (Z.eq_dec i 0) as [I0|I0].
      - rewrite Tdual_add by tauto. destruct (bump_part_spec i nu S1 Hi H1) as [S2 I2].
        apply HG; apply I2; [left; reflexivity|right; split; [assumption|lia]].
      - destruct (in_dec Z.eq_dec i nu) as [C|C].
        + rewrite Tdual_add by tauto. destruct (bump_part_spec i nu S1 Hi H1) as [S2 I2].
          apply HG; apply I2; [left; reflexivity|right; split; [assumption|lia]].
        + apply Tdual_none; tauto. }
    destruct (T_cases (i + 1) mu) as [(A & B & _)|[(A & B & _)|(A & B & _)]].
    - rewrite Tdual_beta by assumption. destruct B as [B|B]; [lia|]. rewrite HT by assumption. ring.
    - rewrite Tdual_add by assumption. destruct (bump_part_spec (i + 1) mu Hs ltac:(lia) A) as [S1 I1].
      apply HT; [assumption| |]; rewrite I1; [intros [D|[_ D]]; [lia|]; exfalso; apply D; reflexivity|left; reflexivity].
    - apply Tdual_none; assumption.
  Qed.
End Relations.
