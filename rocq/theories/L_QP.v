(* Shifted marked tableaux with and without primes on the diagonal *)
From Coq Require Import List ZArith Lia Bool Permutation Arith Sorting.Sorted.
From Verif Require Import PyBase FinSum M_Partitions S_Partitions L_Partitions M_Tableaux S_Tableaux S_Strips S_Semistandard L_Families P_Families.
Import ListNotations.
Local Open Scope Z_scope.

Section QP.
  Notation entry := ((Z * Z) * list Z)%type.
  Definition dg (b : Z * Z) : bool := fst b =? snd b.
  Fixpoint toggle (T : list entry) : list (list entry) :=
    match T with
    | [] => [[]]
    | (b, l) :: r => if dg b then map (cons (b, map Z.abs l)) (toggle r) ++ map (cons (b, map (fun x => - Z.abs x) l)) (toggle r) else map (cons (b, l)) (toggle r)
    end.
  Definition plain (T : list entry) : list entry := map (fun e => if dg (fst e) then (fst e, map Z.abs (snd e)) else e) T.
  (* the same tableau up to signs on the diagonal *)
  Definition sime (u t : entry) : Prop := fst u = fst t /\ map Z.abs (snd u) = map Z.abs (snd t) /\ (dg (fst t) = false -> snd u = snd t).
  Definition sim (U T : list entry) : Prop := Forall2 sime U T.

  Lemma sime_sym : forall u t, sime u t -> sime t u.
  Proof. intros u t (H1 & H2 & H3). split; [symmetry; assumption|]. split; [symmetry; assumption|]. rewrite H1. intro H. symmetry. apply H3, H. Qed.
  Lemma sim_sym : forall U T, sim U T -> sim T U.
  Proof. intros U T H. induction H; constructor; [apply sime_sym; assumption|assumption]. Qed.
  Lemma sim_fst : forall U T, sim U T -> map fst U = map fst T.
  Proof. intros U T H. induction H as [|u t U T (E & _) H IH]; [reflexivity|]. cbn [map]. rewrite E, IH. reflexivity. Qed.
  Lemma sim_abs : forall U T, sim U T -> map Z.abs (flat_map snd U) = map Z.abs (flat_map snd T).
  Proof. intros U T H. induction H as [|u t U T (_ & E & _) H IH]; [reflexivity|]. cbn [flat_map]. rewrite !map_app, E, IH. reflexivity. Qed.
  Lemma sim_In : forall U T e, sim U T -> In e U -> exists t, In t T /\ sime e t.
  Proof. intros U T e H. induction H as [|u t U T E H IH]; [intros []|]. intros [<-|I]; [exists t; split; [left; reflexivity|assumption]|]. destruct (IH I) as (t' & I' & E'). exists t'. split; [right; assumption|assumption]. Qed.
  Lemma abs_map_abs : forall l, map Z.abs (map Z.abs l) = map Z.abs l.
  Proof. intro l. rewrite map_map. apply map_ext. intro. lia. Qed.
  Lemma abs_map_opp : forall l, map Z.abs (map (fun x => - Z.abs x) l) = map Z.abs l.
  Proof. intro l. rewrite map_map. apply map_ext. intro. lia. Qed.
  Lemma plain_sim : forall T, sim (plain T) T.
  Proof. induction T as [|[b l] T IH]; [constructor|]. constructor; [|exact IH]. unfold sime. cbn [fst snd]. destruct (dg b); cbn [fst snd]; [|repeat split; reflexivity]. split; [reflexivity|]. split; [apply abs_map_abs|discriminate]. Qed.
  Lemma toggle_sim : forall T U, In U (toggle T) -> sim U T.
  Proof.
    induction T as [|[b l] T IH]; intros U H; [destruct H as [<-|[]]; constructor|]. cbn [toggle] in H. destruct (dg b) eqn:D.
    - apply in_app_or in H. destruct H as [H|H]; apply in_map_iff in H; destruct H as (V & <- & HV); (constructor; [|apply IH; assumption]); unfold sime; cbn [fst snd]; (split; [reflexivity|]); (split; [|congruence]); [apply abs_map_abs|apply abs_map_opp].
    - apply in_map_iff in H. destruct H as (V & <- & HV). constructor; [|apply IH; assumption]. repeat split; reflexivity.
  Qed.
  (* singletons of nonzero letters *)
  Definition single (T : list entry) : Prop := Forall (fun e => exists x, snd e = [x] /\ x <> 0) T.
  Lemma sim_toggle : forall T U, single U -> sim U T -> In U (toggle T).
  Proof.
    intros T U S H. induction H as [|u t U T E H IH]; [left; reflexivity|]. inversion S as [|? ? (x & Ex & Nx) S2]; subst. specialize (IH S2). destruct t as [b l]. destruct u as [b' l']. destruct E as (E1 & E2 & E3). cbn [fst snd] in *. subst b' l'.
    cbn [toggle]. destruct (dg b) eqn:D.
    - destruct l as [|y [|? l]]; try discriminate. cbn [map] in E2. injection E2 as E2. apply in_or_app. cbn [map]. destruct (Z_lt_ge_dec x 0); [right|left]; apply in_map_iff; exists U; (split; [|assumption]); f_equal; f_equal; f_equal; lia.
    - rewrite (E3 eq_refl). apply in_map. assumption.
  Qed.
  Lemma toggle_NoDup : forall T, single T -> NoDup (toggle T).
  Proof.
    induction T as [|[b l] T IH]; intro S; [repeat constructor; intros []|]. inversion S as [|? ? (x & Ex & Nx) S2]; subst. cbn [snd] in Ex. subst l. specialize (IH S2). cbn [toggle].
    assert (J : forall e : entry, NoDup (map (cons e) (toggle T))) by (intro e; apply FinFun.Injective_map_NoDup; [intros a c X; injection X; auto|assumption]).
    destruct (dg b); [|apply J]. apply NoDup_app_intro; [apply J|apply J|]. intros U H1 H2. apply in_map_iff in H1, H2. destruct H1 as (V & <- & _). destruct H2 as (W & X & _). cbn [map] in X. injection X as X _. lia.
  Qed.
  Lemma toggle_length : forall T, length (toggle T) = (2 ^ length (filter dg (map fst T)))%nat.
  Proof.
    induction T as [|[b l] T IH]; [reflexivity|]. cbn [toggle map filter fst]. destruct (dg b); [|rewrite map_length; exact IH]. rewrite app_length, !map_length, IH. cbn [length Nat.pow]. lia.
  Qed.

  Lemma sim_single : forall U T, sim U T -> single T -> single U.
  Proof.
    intros U T H. induction H as [|u t U T (_ & E & _) H IH]; intro S; [constructor|]. inversion S as [|? ? (x & Ex & Nx) S2]; subst. constructor; [|apply IH; assumption].
    rewrite Ex in E. destruct (snd u) as [|y [|? ?]]; try discriminate. cbn [map] in E. injection E as E. exists y. split; [reflexivity|lia].
  Qed.
  Lemma tableau_single : forall c pr n mu nu T, tableau_of c pr false n mu nu T -> single T.
  Proof.
    intros c pr n mu nu T (_ & _ & _ & L & R & _). apply Forall_forall. intros [[i j] l] I. destruct (L i j l I) as (_ & _ & L1). specialize (L1 eq_refl). destruct l as [|x [|? ?]]; try discriminate. exists x. split; [reflexivity|].
    destruct (R i j x) as [B _]; [exists [x]; split; [assumption|left; reflexivity]|]. lia.
  Qed.
  Lemma sim_holds : forall U T i j x, sim U T -> single U -> single T -> holds U i j x -> exists y, holds T i j y /\ Z.abs x = Z.abs y /\ (i <> j -> x = y).
  Proof.
    intros U T i j x H S1 S2 (l & I & Ix). destruct (sim_In U T _ H I) as ([b l'] & I' & E1 & E2 & E3). cbn [fst snd] in *. subst b. unfold single in *. rewrite Forall_forall in S1, S2. destruct (S1 _ I) as (x' & Ex & _). destruct (S2 _ I') as (y & Ey & _). cbn [snd] in *. subst l l'. destruct Ix as [<-|[]].
    exists y. split; [exists [y]; split; [assumption|left; reflexivity]|]. cbn [map] in E2. injection E2 as E2. split; [assumption|]. intro N. assert (D : dg (i, j) = false) by (unfold dg; cbn [fst snd]; apply Z.eqb_neq; assumption). specialize (E3 D). congruence.
  Qed.
  Lemma sim_tableau : forall n mu nu U T, strict_partition mu -> sim U T -> tableau_of shifted_cell anywhere false n mu nu T -> tableau_of shifted_cell anywhere false n mu nu U.
  Proof.
    intros n mu nu U T Hm H HT. pose proof (tableau_single _ _ _ _ _ _ HT) as ST. pose proof (sim_single _ _ H ST) as SU. destruct HT as (I & (W1 & W2) & D & L & R & Q1 & Q2). split; [assumption|].
    assert (DU : forall i j, (exists l, In ((i, j), l) U) <-> in_skew shifted_cell mu nu i j).
    { intros i j. rewrite <- D. split; intros (l & Il).
      - destruct (sim_In _ _ _ H Il) as ([b l'] & I' & E & _). cbn [fst] in E. subst b. exists l'. assumption.
      - destruct (sim_In _ _ _ (sim_sym _ _ H) Il) as ([b l'] & I' & E & _). cbn [fst] in E. subst b. exists l'. assumption. }
    assert (Hc : forall i j x, holds U i j x -> i <= j). { intros i j x (l & Il & _). destruct (proj1 (DU i j) (ex_intro _ l Il)) as [C _]. unfold shifted_cell in C. lia. }
    split; [split; [rewrite (sim_fst _ _ H); exact W1|]|].
    { intros c l Il. destruct (sim_In _ _ _ H Il) as ([b l'] & I' & E & _). cbn [fst] in E. subst b. destruct (W2 _ _ I') as (A1 & A2 & _). split; [assumption|]. split; [assumption|]. unfold single in SU. rewrite Forall_forall in SU. destruct (SU _ Il) as (x & Ex & _). cbn [snd] in Ex. subst l. repeat constructor. }
    split; [exact DU|]. split.
    { intros i j l Il. unfold single in SU. rewrite Forall_forall in SU. destruct (SU _ Il) as (x & Ex & _). cbn [snd] in Ex. subst l. split; [discriminate|]. split; [repeat constructor; intros []|reflexivity]. }
    split; [|split].
    - intros i j x Hx. destruct (sim_holds _ _ _ _ _ H SU ST Hx) as (y & Hy & E & _). destruct (R i j y Hy) as [B _]. split; [lia|]. intros _. exact Logic.I.
    - intros i j x y Hx Hy. pose proof (Hc _ _ _ Hx). destruct (sim_holds _ _ _ _ _ H SU ST Hx) as (x0 & Hx0 & Ex & _). destruct (sim_holds _ _ _ _ _ H SU ST Hy) as (y0 & Hy0 & _ & Ey). rewrite (Ey ltac:(lia)). specialize (Q1 _ _ _ _ Hx0 Hy0). unfold row_ok in *. lia.
    - intros i j x y Hx Hy. pose proof (Hc _ _ _ Hy). destruct (sim_holds _ _ _ _ _ H SU ST Hx) as (x0 & Hx0 & _ & Ex). destruct (sim_holds _ _ _ _ _ H SU ST Hy) as (y0 & Hy0 & Ey & _). rewrite (Ex ltac:(lia)). specialize (Q2 _ _ _ _ Hx0 Hy0). unfold column_ok in *. lia.
  Qed.
  Lemma off_any : forall n mu nu T, tableau_of shifted_cell off_diagonal false n mu nu T <-> tableau_of shifted_cell anywhere false n mu nu T /\ plain T = T.
  Proof.
    intros n mu nu T. split.
    - intros HT. pose proof (tableau_single _ _ _ _ _ _ HT) as ST. destruct HT as (I & W & D & L & R & Q). split; [split; [assumption|]; split; [assumption|]; split; [assumption|]; split; [assumption|]; split; [|assumption]; intros i j x Hx; split; [apply (R i j x Hx)|intros _; exact Logic.I]|].
      unfold plain. rewrite <- (map_id T) at 2. apply map_ext_in. intros [[i j] l] Il. cbn [fst snd]. unfold dg. cbn [fst snd]. destruct (Z.eqb_spec i j) as [E|E]; [|reflexivity]. f_equal.
      unfold single in ST. rewrite Forall_forall in ST. destruct (ST _ Il) as (x & Ex & _). cbn [snd] in Ex. subst l. cbn [map]. f_equal. destruct (R i j x) as [_ B]; [exists [x]; split; [assumption|left; reflexivity]|]. destruct (Z_lt_ge_dec x 0) as [X|X]; [destruct (B X E)|lia].
    - intros [(I & W & D & L & R & Q) P]. split; [assumption|]. split; [assumption|]. split; [assumption|]. split; [assumption|]. split; [|assumption]. intros i j x Hx. split; [apply (R i j x Hx)|]. intros Nx E. subst j.
      destruct Hx as (l & Il & Ix). assert (X : In ((i, i), l) (plain T)) by (rewrite P; assumption). unfold plain in X. apply in_map_iff in X. destruct X as ([b l'] & X & _). cbn [fst snd] in X. destruct (dg b) eqn:Db; [|injection X as -> ->; unfold dg in Db; cbn [fst snd] in Db; rewrite Z.eqb_refl in Db; discriminate].
      injection X as -> <-. apply in_map_iff in Ix. destruct Ix as (y & <- & _). lia.
  Qed.
  Lemma plain_of_sim : forall U T, sim U T -> plain U = plain T.
  Proof.
    intros U T H. induction H as [|u t U T (E1 & E2 & E3) H IH]; [reflexivity|]. cbn [plain map]. unfold plain in IH. rewrite IH, E1. f_equal. destruct (dg (fst t)) eqn:D; [rewrite E2; reflexivity|]. destruct u, t. cbn [fst snd] in *. rewrite (E3 eq_refl), E1. reflexivity.
  Qed.

  Lemma diagonal_cells : forall c pr n mu nu T, strict_partition mu -> strict_partition nu -> c = shifted_cell -> tableau_of c pr false n mu nu T -> length (filter dg (map fst T)) = (length mu - length nu)%nat /\ (length nu <= length mu)%nat.
  Proof.
    intros c pr n mu nu T Hm Hn -> (I & (W1 & _) & D & _).
    assert (X : forall lam i, strict_partition lam -> (shifted_cell lam i i <-> 1 <= i <= Z.of_nat (length lam))).
    { intros lam i [P _]. unfold shifted_cell, row. split; intro H.
      - destruct H as (H1 & _ & H2). split; [lia|]. destruct (Z_le_gt_dec i (Z.of_nat (length lam))); [assumption|]. rewrite nth_overflow in H2 by lia. lia.
      - split; [lia|]. split; [lia|]. rewrite Forall_forall in P. assert (0 < nth (Z.to_nat (i - 1)) lam 0) by (apply P, nth_In; lia). lia. }
    assert (Le : (length nu <= length mu)%nat).
    { destruct (Nat.eq_dec (length nu) 0); [lia|]. pose proof (proj2 (X nu (Z.of_nat (length nu)) Hn) ltac:(lia)) as C. apply I in C. apply (X mu) in C; [lia|assumption]. }
    split; [|assumption]. set (L := map (fun k => (Z.of_nat k + 1, Z.of_nat k + 1)) (seq (length nu) (length mu - length nu))).
    assert (Ll : length L = (length mu - length nu)%nat) by (unfold L; rewrite map_length, seq_length; reflexivity). rewrite <- Ll. apply Permutation_length, NoDup_Permutation.
    - apply NoDup_filter. clear -W1. induction W1 as [|a l W IH F]; constructor; [|assumption]. intro H. rewrite Forall_forall in F. specialize (F a H). unfold before in F. lia.
    - unfold L. apply FinFun.Injective_map_NoDup; [intros a b E; injection E; lia|apply seq_NoDup].
    - intros [i j]. rewrite filter_In. unfold dg, L. cbn [fst snd]. rewrite Z.eqb_eq, !in_map_iff. split.
      + intros [H <-]. destruct H as ([b l] & E & Il). cbn [fst] in E. subst b. destruct (proj1 (D i i) (ex_intro _ l Il)) as [C1 C2]. apply (X mu i Hm) in C1. exists (Z.to_nat (i - 1)). split; [f_equal; lia|]. apply in_seq.
        assert (~ (1 <= i <= Z.of_nat (length nu))) by (intro C; apply C2, X; assumption). lia.
      + intros (k & E & Hk). injection E as <- <-. apply in_seq in Hk. split; [|reflexivity]. destruct (proj2 (D (Z.of_nat k + 1) (Z.of_nat k + 1))) as (l & Il).
        * split; [apply X; [assumption|lia]|]. intro C. apply X in C; [lia|assumption].
        * exists ((Z.of_nat k + 1, Z.of_nat k + 1), l). split; [reflexivity|assumption].
  Qed.

  (* counting by any property that does not see the signs on the diagonal *)
  Lemma power_of_two : forall n mu nu (W : list entry -> Prop) N, strict_partition mu -> strict_partition nu -> (forall U T, sim U T -> W T -> W U) ->
    cardinality (fun T => tableau_of shifted_cell off_diagonal false n mu nu T /\ W T) N ->
    cardinality (fun T => tableau_of shifted_cell anywhere false n mu nu T /\ W T) (2 ^ (Z.of_nat (length mu) - Z.of_nat (length nu)) * N).
  Proof.
    intros n mu nu W N Hm Hn HW (l & Nl & Hl & El). exists (flat_map toggle l). split; [|split].
    - assert (Q : forall T, In T l -> single T /\ plain T = T) by (intros T IT; apply Hl in IT; destruct IT as [IT _]; split; [apply (tableau_single _ _ _ _ _ _ IT)|apply off_any in IT; apply IT]).
      clear Hl El HW. induction l as [|T l IH]; [constructor|]. cbn [flat_map]. inversion Nl as [|? ? N1 N2]; subst. apply NoDup_app_intro; [apply toggle_NoDup, Q; left; reflexivity|apply IH; [assumption|intros; apply Q; right; assumption]|].
      intros U H1 H2. apply in_flat_map in H2. destruct H2 as (T' & I' & H2). apply toggle_sim, plain_of_sim in H1. apply toggle_sim, plain_of_sim in H2. rewrite (proj2 (Q T (or_introl eq_refl))) in H1. rewrite (proj2 (Q T' (or_intror I'))) in H2. apply N1. congruence.
    - intro U. rewrite in_flat_map. split.
      + intros (T & IT & IU). apply Hl in IT. destruct IT as [IT WT]. apply toggle_sim in IU. apply off_any in IT. split; [apply (sim_tableau n mu nu U T Hm IU); apply IT|apply (HW U T IU WT)].
      + intros [HU WU]. pose proof (tableau_single _ _ _ _ _ _ HU) as SU. exists (plain U). split.
        * apply Hl. split; [apply off_any; split; [apply (sim_tableau n mu nu _ U Hm (plain_sim U) HU)|apply plain_of_sim, plain_sim]|apply (HW _ U (plain_sim U) WU)].
        * apply sim_toggle; [assumption|]. apply sim_sym, plain_sim.
    - rewrite <- El. clear El Nl. assert (Q : forall T, In T l -> length (toggle T) = (2 ^ (length mu - length nu))%nat /\ (length nu <= length mu)%nat).
      { intros T IT. apply Hl in IT. destruct IT as [IT _]. destruct (diagonal_cells _ _ _ _ _ _ Hm Hn eq_refl IT) as [E Le]. rewrite toggle_length, E. split; [reflexivity|assumption]. }
      clear Hl. induction l as [|T l IH]; [cbn; lia|]. cbn [flat_map length]. rewrite app_length. destruct (Q T (or_introl eq_refl)) as [E Le]. rewrite E, Nat2Z.inj_add, IH by (intros; apply Q; right; assumption). rewrite Nat2Z.inj_pow. replace (Z.of_nat (length mu - length nu)) with (Z.of_nat (length mu) - Z.of_nat (length nu)) by lia. change (Z.of_nat 2) with 2. lia.
  Qed.
  Lemma weight_sim : forall alpha U T, sim U T -> has_weight alpha T -> has_weight alpha U.
  Proof.
    intros alpha U T H HW k. rewrite <- (HW k). unfold occurrences. f_equal.
    assert (X : forall l, length (filter (fun x => Z.abs x =? Z.of_nat k + 1) l) = length (filter (fun x => x =? Z.of_nat k + 1) (map Z.abs l))).
    { induction l as [|a l IH]; [reflexivity|]. cbn [map filter]. destruct (Z.abs a =? Z.of_nat k + 1); cbn [length]; rewrite IH; reflexivity. }
    rewrite !X, (sim_abs _ _ H). reflexivity.
  Qed.
End QP.
