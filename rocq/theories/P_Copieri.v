(* C107: shifted_setvalued_copieri sorts the set-valued tableaux with letters 1' and 1 of the shapes nu/mu, mu = lam minus some
   corners, by their number of entries. *)
From Coq Require Import List ZArith Lia Bool Permutation.
From Verif Require Import PyBase M_Partitions S_Partitions P_Partitions M_Tableaux S_Tableaux M_Strips S_Strips
  M_Semistandard S_Semistandard P_Semistandard P_Count P_Families L_Semi4 M_Copieri.
Import ListNotations.
Local Open Scope Z_scope.

(* number of entries *)
Definition entries (T : tab) : Z := Z.of_nat (length (flat_map snd T)).
Definition copieri_tableau (diagonal_primes : bool) (nu lam : list Z) (T : list ((Z * Z) * list Z)) : Prop :=
  exists mu, shifted_corners_removed lam mu /\ (forall i j, shifted_cell mu i j -> shifted_cell nu i j) /\
    semistandard_filling shifted_cell (fun i j => diagonal_primes = true \/ i <> j) true 1 mu nu T.

Lemma dset_keys : forall V (d : list (Z * V)) k v x, In x (map fst (dset Z.eqb d k v)) <-> x = k \/ In x (map fst d).
Proof.
  intros V. induction d as [|[a b] d IH]; intros k v x; cbn [dset map fst In]; [intuition congruence|]. destruct (Z.eqb_spec a k) as [->|N]; cbn [map fst In]; [intuition congruence|]. rewrite IH. tauto.
Qed.
Lemma dset_NoDup : forall V (d : list (Z * V)) k v, NoDup (map fst d) -> NoDup (map fst (dset Z.eqb d k v)).
Proof.
  intros V. induction d as [|[a b] d IH]; intros k v N; cbn [dset map fst]; [repeat constructor; intros []|]. inversion N as [|? ? A B]; subst. destruct (Z.eqb_spec a k) as [->|E]; cbn [map fst]; constructor; [exact A|exact B| |apply IH; exact B].
  rewrite dset_keys. intros [C|C]; [congruence|contradiction].
Qed.
Lemma dget_In : forall V (d : list (Z * V)) k v, NoDup (map fst d) -> (In (k, v) d <-> dget Z.eqb d k = Some v).
Proof.
  intros V. induction d as [|[a b] d IH]; intros k v N; cbn [dget In]; [split; [intros []|discriminate]|]. inversion N as [|? ? A B]; subst. destruct (Z.eqb_spec a k) as [->|E].
  - split; [intros [X|X]; [injection X as ->; reflexivity|exfalso; apply A; apply (in_map fst) in X; exact X]|intro X; injection X as ->; left; reflexivity].
  - rewrite <- IH by exact B. split; [intros [X|X]; [congruence|exact X]|right; assumption].
Qed.
Lemma dget_dset : forall V (d : list (Z * V)) k v x, dget Z.eqb (dset Z.eqb d k v) x = if k =? x then Some v else dget Z.eqb d x.
Proof.
  intros V. induction d as [|[a b] d IH]; intros k v x; cbn [dset dget]; [reflexivity|]. destruct (Z.eqb_spec a k) as [->|E]; cbn [dget]; [destruct (k =? x); reflexivity|]. rewrite IH. destruct (Z.eqb_spec a x) as [->|]; [|reflexivity]. destruct (Z.eqb_spec k x); [congruence|reflexivity].
Qed.
Lemma strict_cells_ext : forall a b, strict_partition a -> strict_partition b -> (forall i j, shifted_cell a i j <-> shifted_cell b i j) -> a = b.
Proof.
  intros a b [Fa _] [Fb _] H. destruct (C20_shapes a [] (Forall_nil _)) as (_ & N & _ & _ & _ & E & _).
  destruct (C20_from_shape_round_trip a (shifted_shape a) Fa) as [_ A]. destruct (C20_from_shape_round_trip b (shifted_shape a) Fb) as [_ B].
  rewrite <- (A N E). apply B; [exact N|]. intros i j. rewrite E. apply H.
Qed.

(* the dict holds the tableaux of L sorted by size *)
Definition sorted_by_size (d : list (Z * list tab)) (L : list tab) : Prop :=
  NoDup (map fst d) /\ forall r, dget Z.eqb d r = match filter (fun T : tab => entries T =? r) L with [] => None | l => Some l end.
Lemma all_ones : forall l, (forall x, In x l -> Z.abs x = 1) -> length (filter (fun x => Z.abs x =? Z.of_nat 0 + 1) l) = length l.
Proof. induction l as [|x l IH]; intro A; [reflexivity|]. cbn [filter]. rewrite (A x (or_introl eq_refl)). cbn [Z.eqb Z.of_nat Z.add Pos.eqb length]. f_equal. apply IH. intros y I. apply A. right. exact I. Qed.
Lemma add_step : forall (d : list (Z * list tab)) (L : list tab) (T : tab), sorted_by_size d L -> (forall x, In x (flat_map snd T) -> Z.abs x = 1) -> exists d', copieri_add d T = Ok d' /\ sorted_by_size d' (L ++ [T]).
Proof.
  intros d L T [N H] A. destruct (C35_weight T 1) as (w & E & LW & HW); [intros x I; rewrite (A x I); lia|].
  destruct w as [|r [|]]; try discriminate. assert (ER : r = entries T).
  { specialize (HW 0%nat). cbn [nth] in HW. rewrite <- HW. unfold occurrences, entries. f_equal. apply all_ones. exact A. }
  unfold copieri_add. change (Z.of_nat 1) with 1 in E. rewrite E. cbn [rbind]. eexists. split; [reflexivity|]. split; [apply dset_NoDup; exact N|].
  intro x. rewrite dget_dset, filter_app. cbn [filter]. rewrite <- ER. destruct (Z.eqb_spec r x) as [->|NE].
  - rewrite H. destruct (filter (fun T : tab => entries T =? x) L); reflexivity.
  - rewrite app_nil_r. apply H.
Qed.
Lemma add_list : forall ts d L, sorted_by_size d L -> (forall T x, In T ts -> In x (flat_map snd T) -> Z.abs x = 1) -> exists d', rfold copieri_add ts d = Ok d' /\ sorted_by_size d' (L ++ ts).
Proof.
  induction ts as [|T ts IH]; intros d L S A; [exists d; rewrite app_nil_r; split; [reflexivity|exact S]|]. cbn [rfold].
  destruct (add_step d L T S) as (d1 & E1 & S1); [intros x I; apply (A T x (or_introl eq_refl) I)|]. rewrite E1. cbn [rbind].
  destruct (IH d1 (L ++ [T]) S1) as (d2 & E2 & S2); [intros T' x I; apply A; right; exact I|]. exists d2. split; [exact E2|]. rewrite <- app_assoc in S2. exact S2.
Qed.

Section Statements.
  Variable ord : list (list Z) -> list (list Z).
  Variable bord : list (Z * Z) -> list (Z * Z).
  Variable tord : list (list ((Z * Z) * list Z)) -> list (list ((Z * Z) * list Z)).
  Hypothesis ord_perm : forall l, Permutation (ord l) l.
  Hypothesis bord_perm : forall l, Permutation (bord l) l.
  Hypothesis tord_perm : forall l, Permutation (tord l) l.

  Lemma one_shape : forall dp nu mu, strict_partition nu -> strict_partition mu ->
    exists r, semistandard_shifted_marked ord bord tord 1 nu mu dp true = Ok r /\ NoDup r /\
      forall T, In T r <-> (forall i j, shifted_cell mu i j -> shifted_cell nu i j) /\ semistandard_filling shifted_cell (fun i j => dp = true \/ i <> j) true 1 mu nu T.
  Proof.
    intros dp nu mu Hn Hm. destruct (contains nu mu) eqn:C.
    - assert (I : forall i j, shifted_cell mu i j -> shifted_cell nu i j) by (intros i j; apply (proj1 (L_Semi4.contains_incl true nu mu Hn Hm) C (i, j))).
      destruct (C51_shifted_marked ord bord tord ord_perm bord_perm tord_perm 1 nu mu dp true Hn Hm I) as (r & E & N & H). exists r. split; [exact E|]. split; [exact N|]. intro T. rewrite H. cbn [Z.of_nat Pos.of_succ_nat]. tauto.
    - assert (I : ~ forall i j, shifted_cell mu i j -> shifted_cell nu i j).
      { intro I. assert (contains nu mu = true); [|congruence]. apply (proj2 (L_Semi4.contains_incl true nu mu Hn Hm)). intros [i j]. apply I. }
      exists []. split; [apply (C51_shifted_not_contained ord bord tord); assumption|]. split; [constructor|]. intro T. split; [intros []|intros [X _]; contradiction].
  Qed.
  Lemma filling_letters : forall dp nu mu T x, semistandard_filling shifted_cell (fun i j => dp = true \/ i <> j) true 1 mu nu T -> In x (flat_map snd T) -> Z.abs x = 1.
  Proof.
    intros dp nu mu T x (_ & _ & _ & H & _) I. apply in_flat_map in I. destruct I as ([[i j] l] & I & J). cbn [snd] in J. destruct (H i j x) as [A _]; [exists l; split; assumption|]. lia.
  Qed.

  Theorem C107_copieri : forall nu lam diagonal_primes, strict_partition nu -> strict_partition lam ->
    exists d, shifted_setvalued_copieri ord bord tord nu lam diagonal_primes = Ok d /\ NoDup (map fst d) /\
      (forall r l, In (r, l) d -> l <> [] /\ NoDup l /\ forall T, In T l <-> copieri_tableau diagonal_primes nu lam T /\ entries T = r) /\
      (forall T, copieri_tableau diagonal_primes nu lam T -> exists l, In (entries T, l) d /\ In T l).
  Proof.
    intros nu lam dp Hn Hl. destruct (C18_remove_shifted_inner_corners lam Hl) as (out & E & N & H).
    unfold shifted_setvalued_copieri. rewrite E. cbn [rbind].
    set (fill := fun mu T => (forall i j, shifted_cell mu i j -> shifted_cell nu i j) /\ semistandard_filling shifted_cell (fun i j => dp = true \/ i <> j) true 1 mu nu T).
    assert (UNI : forall mu mu' T, strict_partition mu -> strict_partition mu' -> fill mu T -> fill mu' T -> mu = mu').
    { intros mu mu' T Hm Hm' [I F] [I' F']. apply strict_cells_ext; [exact Hm|exact Hm'|]. intros i j. destruct F as (_ & F & _), F' as (_ & F' & _). specialize (F i j). specialize (F' i j). rewrite F in F'. unfold in_skew in F'.
      pose proof (I i j). pose proof (I' i j).
      assert (DECc : forall m, shifted_cell m i j \/ ~ shifted_cell m i j) by (intro m; unfold shifted_cell; lia). destruct (DECc mu), (DECc mu'); tauto. }
    assert (MAIN : forall ms d L, NoDup ms -> (forall mu, In mu ms -> strict_partition mu) -> sorted_by_size d L -> NoDup L -> (forall T, In T L -> forall mu, In mu ms -> ~ fill mu T) ->
      exists d' L', rfold (fun ans omu => match omu with None => Err TypeError | Some mu => do ts <- semistandard_shifted_marked ord bord tord 1 nu mu dp true; rfold copieri_add (tord ts) ans end) (map Some ms) d = Ok d' /\
        sorted_by_size d' L' /\ NoDup L' /\ forall T, In T L' <-> In T L \/ exists mu, In mu ms /\ fill mu T).
    { induction ms as [|mu ms IH]; intros d L NM SM S NL DIS.
      - exists d, L. split; [reflexivity|]. split; [exact S|]. split; [exact NL|]. intro T. split; [left; assumption|intros [X|(mu & [] & _)]; exact X].
      - inversion NM as [|? ? NM1 NM2]; subst. cbn [map rfold]. destruct (one_shape dp nu mu Hn (SM mu (or_introl eq_refl))) as (ts & Et & Nt & Ht). rewrite Et. cbn [rbind].
        pose proof (tord_perm ts) as PT.
        destruct (add_list (tord ts) d L S) as (d1 & E1 & S1).
        { intros T x I. apply (Permutation_in _ PT) in I. apply Ht in I. apply (filling_letters dp nu mu T x (proj2 I)). }
        rewrite E1. cbn [rbind].
        destruct (IH d1 (L ++ tord ts) NM2 (fun m I => SM m (or_intror I)) S1) as (d2 & L2 & E2 & S2 & N2 & H2).
        + apply NoDup_app_intro; [exact NL|apply (Permutation_NoDup (Permutation_sym PT)); exact Nt|]. intros T I J. apply (Permutation_in _ PT) in J. apply Ht in J. exact (DIS T I mu (or_introl eq_refl) J).
        + intros T I m Im F. apply in_app_or in I. destruct I as [I|I]; [exact (DIS T I m (or_intror Im) F)|]. apply (Permutation_in _ PT) in I. apply Ht in I.
          assert (mu = m) by (apply (UNI mu m T); [apply SM; left; reflexivity|apply SM; right; exact Im|exact I|exact F]). subst. contradiction.
        + exists d2, L2. split; [exact E2|]. split; [exact S2|]. split; [exact N2|]. intro T. rewrite H2, in_app_iff.
          assert (X : In T (tord ts) <-> fill mu T) by (transitivity (In T ts); [split; apply Permutation_in; [exact PT|apply Permutation_sym; exact PT]|exact (Ht T)]).
          rewrite X. split; [intros [[A|A]|(m & A & B)]; [left; exact A|right; exists mu; split; [left; reflexivity|exact A]|right; exists m; split; [right; exact A|exact B]]|].
          intros [A|(m & [<-|A] & B)]; [left; left; exact A|left; right; exact B|right; exists m; split; assumption]. }
    destruct (MAIN out [] []) as (d & L & E2 & [ND S] & NL & HL); [exact N|intros mu I; apply H in I; apply I|split; [constructor|reflexivity]|constructor|intros T []|].
    assert (HT : forall T, In T L <-> copieri_tableau dp nu lam T).
    { intro T. rewrite HL. unfold copieri_tableau. split; [intros [[]|(mu & I & F & G)]; exists mu; split; [apply H; exact I|split; assumption]|intros (mu & I & F & G); right; exists mu; split; [apply H; exact I|split; assumption]]. }
    exists d. split; [exact E2|]. split; [exact ND|]. split.
    - intros r l I. apply (dget_In _ _ _ _ ND) in I. rewrite S in I. assert (EL : l = filter (fun T : tab => entries T =? r) L /\ l <> []) by (destruct (filter (fun T : tab => entries T =? r) L); [discriminate|injection I as <-; split; [reflexivity|discriminate]]).
      destruct EL as [-> NE]. split; [exact NE|]. split; [apply NoDup_filter; exact NL|]. intro T. rewrite filter_In, HT, Z.eqb_eq. reflexivity.
    - intros T C. apply HT in C. assert (I : In T (filter (fun T' : tab => entries T' =? entries T) L)) by (apply filter_In; split; [exact C|apply Z.eqb_refl]).
      specialize (S (entries T)). destruct (filter (fun T' : tab => entries T' =? entries T) L) as [|t l]; [destruct I|]. exists (t :: l). split; [apply dget_In; [exact ND|exact S]|exact I].
  Qed.
End Statements.
Print Assumptions C107_copieri.

(* mu = (2) gives two tableaux with one entry and one with two, mu = (1) two with two entries and one with three *)
Example C107_example : exists d, shifted_setvalued_copieri (fun l => l) (fun l => l) (fun l => l) [3] [2] false = Ok d /\ map (fun rl => (fst rl, length (snd rl))) d = [(1, 2%nat); (2, 3%nat); (3, 1%nat)].
Proof. eexists. split; [vm_compute; reflexivity|vm_compute; reflexivity]. Qed.
Example C107_hypotheses : strict_partition [3] /\ strict_partition [2].
Proof. repeat split; try (repeat constructor); intros i Hi; cbn in Hi; lia. Qed.
