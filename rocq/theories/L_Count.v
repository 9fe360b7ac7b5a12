(* Cardinalities of sets of tableaux, and how one letter changes them *)
From Coq Require Import List ZArith Lia Bool Permutation Sorted.
From Verif Require Import PyBase M_Rref P_Rref M_Partitions S_Partitions L_Partitions M_Tableaux S_Tableaux L_Tableaux M_Strips S_Strips L_Strips2
  M_Semistandard S_Semistandard L_Fill L_Shape L_Semi L_Semi2 L_Semi3 L_Semi4.
Import ListNotations.
Local Open Scope Z_scope.

(* sums *)
Definition zs {A} (f : A -> Z) (l : list A) : Z := zsum (map f l).
Lemma zs_nil : forall A (f : A -> Z), zs f [] = 0.
Proof. reflexivity. Qed.
Lemma zs_cons : forall A (f : A -> Z) a l, zs f (a :: l) = f a + zs f l.
Proof. reflexivity. Qed.
Lemma zs_app : forall A (f : A -> Z) a b, zs f (a ++ b) = zs f a + zs f b.
Proof. intros. unfold zs. rewrite map_app. apply zsum_app. Qed.
Lemma zs_ext : forall A (f g : A -> Z) l, (forall x, In x l -> f x = g x) -> zs f l = zs g l.
Proof. intros A f g l H. unfold zs. f_equal. apply map_ext_in. assumption. Qed.
Lemma zs_zero : forall A (f : A -> Z) l, (forall x, In x l -> f x = 0) -> zs f l = 0.
Proof. induction l as [|a l IH]; intro H; [reflexivity|]. rewrite zs_cons, (H a (or_introl eq_refl)), IH; [reflexivity|]. intros x Hx. apply H. right. assumption. Qed.
Lemma zs_plus : forall A (f g : A -> Z) l, zs (fun x => f x + g x) l = zs f l + zs g l.
Proof. induction l as [|a l IH]; [reflexivity|]. rewrite !zs_cons, IH. lia. Qed.
Lemma zs_scale : forall A c (f : A -> Z) l, zs (fun x => c * f x) l = c * zs f l.
Proof. induction l as [|a l IH]; [rewrite !zs_nil; lia|]. rewrite !zs_cons, IH. lia. Qed.
Lemma zs_swap : forall A B (f : A -> B -> Z) l m, zs (fun x => zs (f x) m) l = zs (fun y => zs (fun x => f x y) l) m.
Proof.
  induction l as [|a l IH]; intro m; [rewrite zs_nil; symmetry; apply zs_zero; reflexivity|]. rewrite zs_cons, IH, <- zs_plus. apply zs_ext. intros y _. rewrite zs_cons. reflexivity.
Qed.
Lemma zs_map : forall A B (g : A -> B) (f : B -> Z) l, zs f (map g l) = zs (fun x => f (g x)) l.
Proof. intros. unfold zs. rewrite map_map. reflexivity. Qed.

(* the set of the elements with property P has N elements *)
Definition counts {A} (P : A -> Prop) (N : Z) : Prop := exists l, NoDup l /\ (forall x, In x l <-> P x) /\ Z.of_nat (length l) = N.
Lemma counts_unique : forall A (P : A -> Prop) N M, counts P N -> counts P M -> N = M.
Proof.
  intros A P N M (l & N1 & H1 & <-) (m & N2 & H2 & <-). f_equal. apply Permutation_length. apply NoDup_Permutation; [assumption|assumption|]. intro x. rewrite H1, H2. reflexivity.
Qed.
Lemma counts_ext : forall A (P Q : A -> Prop) N M, (forall x, P x <-> Q x) -> N = M -> counts P N -> counts Q M.
Proof. intros A P Q N M E <- (l & N1 & H & L). exists l. split; [assumption|]. split; [|assumption]. intro x. rewrite H. apply E. Qed.
Lemma counts_empty : forall A (P : A -> Prop), (forall x, ~ P x) -> counts P 0.
Proof. intros A P H. exists []. split; [constructor|]. split; [|reflexivity]. intro x. split; [intros []|apply H]. Qed.
Lemma counts_image : forall A B (f : A -> B) (P : A -> Prop) N, (forall x y, P x -> P y -> f x = f y -> x = y) -> counts P N -> counts (fun y => exists x, P x /\ y = f x) N.
Proof.
  intros A B f P N I (l & N1 & H & L). exists (map f l). split; [|split].
  - apply NoDup_map_inj_in; [|assumption]. intros x y Hx Hy. apply I; apply H; assumption.
  - intro y. rewrite in_map_iff. split; [intros (x & <- & Hx); exists x; split; [apply H; assumption|reflexivity]|intros (x & Hx & ->); exists x; split; [reflexivity|apply H; assumption]].
  - rewrite map_length. assumption.
Qed.
Lemma counts_union : forall I A (P : I -> A -> Prop) (N : I -> Z) L, NoDup L -> (forall i, In i L -> counts (P i) (N i)) ->
  (forall i j x, In i L -> In j L -> P i x -> P j x -> i = j) -> counts (fun x => exists i, In i L /\ P i x) (zs N L).
Proof.
  induction L as [|i L IH]; intros ND H D.
  - apply counts_empty. intros x (i & [] & _).
  - inversion ND as [|? ? N1 N2]; subst. destruct IH as (l & ND1 & H1 & L1); [assumption|intros j Hj; apply H; right; assumption|intros j k x Hj Hk; apply D; right; assumption|].
    destruct (H i (or_introl eq_refl)) as (m & ND2 & H2 & L2). exists (m ++ l). split; [|split].
    + apply NoDup_app_intro; [assumption|assumption|]. intros x X1 X2. apply H2 in X1. apply H1 in X2. destruct X2 as (j & Hj & X2).
      assert (i = j) by (apply (D i j x); [left; reflexivity|right; assumption|assumption|assumption]). subst. contradiction.
    + intro x. rewrite in_app_iff, H1, H2. split.
      * intros [X|(j & Hj & X)]; [exists i; split; [left; reflexivity|assumption]|exists j; split; [right; assumption|assumption]].
      * intros (j & [<-|Hj] & X); [left; assumption|right; exists j; split; assumption].
    + rewrite app_length, Nat2Z.inj_add, zs_cons. lia.
Qed.

(* number of sublists of a given length *)
Lemma nchoosek_fact_cancel : forall k x y, x * Z.of_nat (fact k) = y * Z.of_nat (fact k) -> x = y.
Proof. intros k x y H. apply Z.mul_reg_r in H; [assumption|]. pose proof (lt_O_fact k). lia. Qed.
Lemma nchoosek_0 : forall m, nchoosek m 0 = 1.
Proof. intro m. apply (nchoosek_fact_cancel 0). pose proof (nchoosek_spec m 0) as E. change (Z.of_nat 0) with 0 in E. rewrite E. reflexivity. Qed.
Lemma nchoosek_pascal : forall m (k : nat), nchoosek (m + 1) (Z.of_nat (S k)) = nchoosek m (Z.of_nat (S k)) + nchoosek m (Z.of_nat k).
Proof.
  intros m k. apply (nchoosek_fact_cancel (S k)). rewrite Z.mul_add_distr_r, !nchoosek_spec, falling_pascal. f_equal.
  change (fact (S k)) with (S k * fact k)%nat. rewrite Nat2Z.inj_mul. rewrite <- nchoosek_spec. lia.
Qed.
Lemma nchoosek_big : forall m k : nat, (m < k)%nat -> nchoosek (Z.of_nat m) (Z.of_nat k) = 0.
Proof. apply C11_nchoosek. Qed.

Lemma sum_pascal : forall (m : nat) (f : Z -> Z),
  zs (fun i => nchoosek (Z.of_nat m + 1) i * f i) (zrange 0 (Z.of_nat m + 2)) =
  zs (fun i => nchoosek (Z.of_nat m) i * f i) (zrange 0 (Z.of_nat m + 1)) + zs (fun i => nchoosek (Z.of_nat m) i * f (i + 1)) (zrange 0 (Z.of_nat m + 1)).
Proof.
  intros m f.
  replace (Z.of_nat m + 2) with (Z.of_nat (S (S m))) by lia. replace (zrange 0 (Z.of_nat m + 1)) with (zrange 0 (Z.of_nat (S m))) by (f_equal; lia).
  rewrite !zrange_seq, !zs_map.
  assert (G : forall j, (j <= S m)%nat -> zs (fun x => nchoosek (Z.of_nat m + 1) (Z.of_nat x) * f (Z.of_nat x)) (seq 0 (S j)) =
     zs (fun x => nchoosek (Z.of_nat m) (Z.of_nat x) * f (Z.of_nat x)) (seq 0 (S j)) + zs (fun x => nchoosek (Z.of_nat m) (Z.of_nat x) * f (Z.of_nat x + 1)) (seq 0 j)).
  { induction j as [|j IH]; intro Hj; [cbn [seq]; rewrite !zs_cons, !zs_nil; cbn [Z.of_nat]; rewrite !nchoosek_0; lia|].
    rewrite (seq_S (S j)), !zs_app, IH by lia. rewrite (seq_S j), !zs_app, !zs_cons, !zs_nil. rewrite !Nat.add_0_l. rewrite nchoosek_pascal.
    replace (Z.of_nat j + 1) with (Z.of_nat (S j)) by lia. lia. }
  rewrite (G (S m)) by lia. f_equal. rewrite seq_S, zs_app, zs_cons, zs_nil, Nat.add_0_l, nchoosek_big by lia. lia.
Qed.
Lemma sum_sublists : forall A (l : list A) (f : Z -> Z), zs (fun C => f (zlen C)) (sublists l) = zs (fun i => nchoosek (zlen l) i * f i) (zrange 0 (zlen l + 1)).
Proof.
  induction l as [|a l IH]; intro f.
  - change (zrange 0 (zlen (@nil A) + 1)) with [0]. cbn [sublists]. rewrite !zs_cons, !zs_nil, nchoosek_0. change (zlen (@nil A)) with 0. lia.
  - cbn [sublists]. rewrite zs_app, zs_map, IH.
    rewrite (zs_ext _ (fun x => f (zlen (a :: x))) (fun x => f (zlen x + 1))) by (intros x _; rewrite zlen_cons; reflexivity).
    rewrite (IH (fun i => f (i + 1))). rewrite zlen_cons. replace (zlen l + 1 + 1) with (zlen l + 2) by lia. unfold zlen. symmetry. apply sum_pascal.
Qed.
Lemma sum_choose : forall sv (l : list (Z * Z)) (f : Z -> Z), zs (fun C => f (zlen C)) (choose sv l) = zs (fun i => nchoosek (zlen l) i * f i) (corner_range l sv).
Proof.
  intros [|] l f; unfold corner_range; cbn [choose]; [apply sum_sublists|].
  change (zrange 0 1) with [0]. rewrite !zs_cons, !zs_nil, nchoosek_0. change (zlen (@nil (Z * Z))) with 0. lia.
Qed.

(* number of occurrences *)
Definition ind (b : bool) : Z := if b then 1 else 0.
Lemma occurrences_cons : forall m b l T, occurrences m ((b, l) :: T) = Z.of_nat (length (filter (fun x => Z.abs x =? m) l)) + occurrences m T.
Proof. intros. unfold occurrences. cbn [flat_map snd]. rewrite filter_app, app_length. lia. Qed.
Lemma occurrences_nil : forall m, occurrences m [] = 0.
Proof. reflexivity. Qed.
Lemma occ_sinsert : forall m v l, Z.of_nat (length (filter (fun x => Z.abs x =? m) (sinsert v l))) = Z.of_nat (length (filter (fun x => Z.abs x =? m) l)) + ind (Z.abs v =? m).
Proof.
  intros m v l. assert (P : Permutation (sinsert v l) (v :: l)).
  { induction l as [|a l IH]; [reflexivity|]. cbn [sinsert]. destruct (v <=? a); [reflexivity|]. rewrite IH. apply perm_swap. }
  assert (Q : forall a b : list Z, Permutation a b -> length (filter (fun x => Z.abs x =? m) a) = length (filter (fun x => Z.abs x =? m) b)).
  { intros a b H. induction H as [|x a b H IH|x y a|a b c H1 IH1 H2 IH2]; cbn [filter]; try destruct (Z.abs x =? m); try destruct (Z.abs y =? m); cbn [length]; congruence. }
  rewrite (Q _ _ P). cbn [filter]. unfold ind. destruct (Z.abs v =? m); cbn [length]; lia.
Qed.
Lemma occ_tput : forall m v b T, well_formed T -> occurrences m (tput b (sinsert v (entries T b)) T) = occurrences m T + ind (Z.abs v =? m).
Proof.
  intros m v b T W. destruct W as [W _]. induction T as [|[d w] T IH].
  - unfold entries. cbn [tlookup tput]. rewrite occurrences_cons, occ_sinsert. cbn. lia.
  - cbn [map fst] in W. inversion W as [|? ? W1 W2]; subst. cbn [tput]. destruct (box_ltb b d) eqn:E1.
    + assert (E : entries ((d, w) :: T) b = []).
      { unfold entries. destruct (tlookup ((d, w) :: T) b) as [l|] eqn:E; [|reflexivity]. exfalso. apply tlookup_In in E.
        rewrite Forall_forall in W2. apply box_ltb_before in E1. destruct E as [E|E].
        - injection E as -> ->. unfold before in E1. lia.
        - assert (X : before d b) by (apply W2; apply (in_map fst) in E; exact E). unfold before in *. lia. }
      rewrite E, occurrences_cons, occ_sinsert. cbn [filter length]. lia.
    + destruct (box_eqb b d) eqn:E2.
      * apply box_eqb_eq in E2. subst d. rewrite !occurrences_cons. unfold entries. cbn [tlookup]. rewrite box_eqb_refl, occ_sinsert. lia.
      * rewrite !occurrences_cons.
        assert (E : entries ((d, w) :: T) b = entries T b) by (unfold entries; cbn [tlookup]; destruct (box_eqb d b) eqn:E3; [apply box_eqb_eq in E3; subst; rewrite box_eqb_refl in E2; discriminate|reflexivity]).
        rewrite E, IH by assumption. lia.
Qed.
Lemma occ_addv : forall A m v T, proper T -> NoDup A -> (forall b, In b A -> positive b /\ ~ Hd T b v) -> occurrences m (addv v A T) = occurrences m T + ind (Z.abs v =? m) * zlen A.
Proof.
  induction A as [|b A IH]; intros m v T HP N H; [unfold addv; cbn [fold_left]; change (zlen []) with 0; lia|].
  inversion N as [|? ? N1 N2]; subst. destruct (H b (or_introl eq_refl)) as [Pb Nb]. destruct (put_letter T b v HP Pb Nb) as [PU HU].
  change (addv v (b :: A) T) with (addv v A (tput b (sinsert v (entries T b)) T)). rewrite IH; [|assumption|assumption|].
  - rewrite occ_tput by apply HP. rewrite zlen_cons. lia.
  - intros c Hc. destruct (H c (or_intror Hc)) as [Pc Nc]. split; [assumption|]. rewrite HU. intros [X|[_ X]]; [contradiction|]. subst. contradiction.
Qed.

(* counting fillings with given weight *)
Definition weighted (sh : bool) (pr : box -> Prop) (sv : bool) (lam : list Z) (k : Z) (mu : list Z) (w : Z -> Z) (T : tab) : Prop :=
  full sh pr sv lam k mu T /\ forall m, occurrences m T = w m.

Lemma layer_NoDup : forall sh pr lam k mu r, layer_ok sh pr lam k mu r -> NoDup r.
Proof. intros sh pr lam k mu r [N _]. eapply NoDup_map_inv. exact N. Qed.

Lemma half_count : forall sh pr sv lam k mu r w (N : strip -> list box -> Z), 1 <= k -> part_b sh lam -> part_b sh mu -> (forall b, dc sh lam b -> dc sh mu b) ->
  layer_ok sh pr lam k mu r ->
  (forall nu d c C, In (nu, d, c) r -> In C (choose sv c) ->
     counts (weighted sh pr sv lam (k - 1) nu (fun m => w m - ind (Z.abs (letter k) =? m) * zlen (d ++ C))) (N (nu, d, c) C)) ->
  counts (weighted sh pr sv lam k mu w) (zs (fun s => zs (N s) (choose sv (snd s))) r).
Proof.
  intros sh pr sv lam k mu r w N Hk Hl Hm Hi L H.
  assert (Occ : forall nu d c C T m, In (nu, d, c) r -> In C (choose sv c) -> full sh pr sv lam (k - 1) nu T ->
     occurrences m (addv (letter k) (d ++ C) T) = occurrences m T + ind (Z.abs (letter k) =? m) * zlen (d ++ C)).
  { intros nu d c C T m Hr HC F. destruct (aug_ok sh pr sv lam k mu r L nu d c C Hr HC) as (ND & _ & _ & P). apply occ_addv; [apply F|assumption|].
    intros b Hb. split; [apply (region_positive sh); apply P; assumption|eapply no_letter; eassumption]. }
  apply (counts_ext _ (fun T => exists s, In s r /\ match s with (nu, d, c) => exists C, In C (choose sv c) /\
      exists T', weighted sh pr sv lam (k - 1) nu (fun m => w m - ind (Z.abs (letter k) =? m) * zlen (d ++ C)) T' /\ T = addv (letter k) (d ++ C) T' end) _ (zs (fun s => zs (N s) (choose sv (snd s))) r)); [|reflexivity|].
  - intro T. split.
    + intros ([[nu d] c] & Hs & C & HC & T' & [F W] & ->). split; [apply (half_up sh pr sv lam k Hk mu r Hi L nu d c C T'); assumption|].
      intro m. rewrite (Occ nu d c C T' m Hs HC F), W. lia.
    + intros [F W]. destruct (half_down sh pr sv lam Hl k Hk mu r Hm Hi L T F) as (nu & d & c & C & T' & Hr & HC & F' & ->).
      exists (nu, d, c). split; [assumption|]. exists C. split; [assumption|]. exists T'. split; [|reflexivity]. split; [assumption|].
      intro m. rewrite <- W, (Occ nu d c C T' m Hr HC F'). lia.
  - apply counts_union; [eapply layer_NoDup; eassumption| |].
    + intros [[nu d] c] Hs. cbn [snd]. apply counts_union.
      * apply choose_NoDup. destruct L as (_ & _ & D). apply (D _ _ _ Hs).
      * intros C HC. apply counts_image; [|apply H; assumption]. intros T1 T2 [F1 _] [F2 _] E.
        destruct (half_unique sh pr sv lam k Hk mu r L nu d c C T1 nu d c C T2 Hs HC F1 Hs HC F2 E) as (_ & _ & X). exact X.
      * intros C1 C2 T HC1 HC2 (T1 & [F1 _] & E1) (T2 & [F2 _] & E2). rewrite E1 in E2.
        destruct (half_unique sh pr sv lam k Hk mu r L nu d c C1 T1 nu d c C2 T2 Hs HC1 F1 Hs HC2 F2 E2) as (_ & X & _). exact X.
    + intros [[nu1 d1] c1] [[nu2 d2] c2] T H1 H2 (C1 & HC1 & T1 & [F1 _] & E1) (C2 & HC2 & T2 & [F2 _] & E2). rewrite E1 in E2.
      destruct (half_unique sh pr sv lam k Hk mu r L nu1 d1 c1 C1 T1 nu2 d2 c2 C2 T2 H1 HC1 F1 H2 HC2 F2 E2) as (X & _). exact X.
Qed.
