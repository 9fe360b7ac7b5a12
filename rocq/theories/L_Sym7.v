(* Commuting products of operators U_0, U_1, ... with U_d^2 = e U_d, U_d U_d' = U_d' U_d for |d - d'| > 1,
   U_d U_{d+1} U_d = 0 for d > 0 and U_{d+1} U_d U_{d+1} = 0, acting on functions of states *)
From Coq Require Import List ZArith Lia Bool Setoid Morphisms Permutation.
Import ListNotations.
Local Open Scope Z_scope.

Section Ops.
  Variable S : Type.
  Variable ok : S -> Prop.
  Variable c : nat -> S -> bool.
  Variable r : nat -> S -> S.
  Variable e : Z.
  Hypothesis r_ok : forall d s, ok s -> c d s = true -> ok (r d s).
  Hypothesis H1 : forall d s, ok s -> c d s = true -> c d (r d s) = false.
  Hypothesis H2 : forall d d' s, ok s -> (d + 1 < d' \/ d' + 1 < d)%nat -> c d s = true -> c d' (r d s) = c d' s.
  Hypothesis H2r : forall d d' s, ok s -> (d + 1 < d')%nat -> c d s = true -> c d' s = true -> r d (r d' s) = r d' (r d s).
  Hypothesis H3 : forall d s, ok s -> c d s = true -> c (d + 1) s = false.
  Hypothesis H4 : forall d s, ok s -> (1 <= d)%nat -> c d s = true -> c (d + 1) (r d s) = true -> c d (r (d + 1) (r d s)) = false.
  Hypothesis H5 : forall d s, ok s -> c (d + 1) s = true -> c d (r (d + 1) s) = true -> c (d + 1) (r d (r (d + 1) s)) = false.

  Definition U (d : nat) (F : S -> Z) (s : S) : Z := if c d s then F (r d s) + e * F s else 0.
  Definition factor : Type := (nat * Z * Z)%type.
  Definition app1 (f : factor) (F : S -> Z) (s : S) : Z := match f with (d, a, b) => a * F s + b * U d F s end.
  Definition ev (w : list factor) (F : S -> Z) : S -> Z := fold_right app1 F w.

  Definition feq (F G : S -> Z) : Prop := forall s, ok s -> F s = G s.
  Lemma app1_feq : forall f F G, feq F G -> feq (app1 f F) (app1 f G).
  Proof.
    intros [[d a] b] F G H s Hs. unfold app1, U. rewrite (H s Hs). destruct (c d s) eqn:E; [rewrite (H (r d s)) by (apply r_ok; assumption)|]; reflexivity.
  Qed.
  Lemma ev_feq : forall w F G, feq F G -> feq (ev w F) (ev w G).
  Proof. induction w as [|f w IH]; intros F G H; [exact H|]. cbn [ev fold_right]. apply app1_feq. apply IH. assumption. Qed.
  Lemma ev_app : forall v w F, ev (v ++ w) F = ev v (ev w F).
  Proof. intros. unfold ev. apply fold_right_app. Qed.

  Definition weq (v w : list factor) : Prop := forall F, feq (ev v F) (ev w F).
  Global Instance weq_equiv : Equivalence weq.
  Proof.
    split.
    - intros w F s _. reflexivity.
    - intros v w H F s Hs. symmetry. apply H. assumption.
    - intros u v w H K F s Hs. rewrite (H F s Hs). apply K. assumption.
  Qed.
  Global Instance app_weq : Proper (weq ==> weq ==> weq) (@app factor).
  Proof.
    intros v v' Hv w w' Hw F s Hs. rewrite !ev_app. rewrite (Hv _ s Hs). apply ev_feq; [|assumption]. apply Hw.
  Qed.
  Global Instance cons_weq : Proper (eq ==> weq ==> weq) (@cons factor).
  Proof. intros f f' <- w w' H. apply (app_weq [f] [f] (reflexivity _) w w' H). Qed.

  (* the factor a + b U_d, and scalars *)
  Definition sc (k : Z) : factor := (0%nat, k, 0).
  Lemma ev_sc : forall k w F s, ev (sc k :: w) F s = k * ev w F s.
  Proof. intros. unfold ev; cbn [fold_right]. unfold app1 at 1, sc at 1. ring. Qed.
  Lemma app1_scale : forall f k F s, app1 f (fun t => k * F t) s = k * app1 f F s.
  Proof. intros [[d a] b] k F s. unfold app1, U. destruct (c d s); ring. Qed.
  Lemma sc_swap : forall k f, weq [f; sc k] [sc k; f].
  Proof.
    intros k f F s Hs. rewrite ev_sc. cbn [ev fold_right]. rewrite <- app1_scale. apply app1_feq; [|assumption]. intros t _. unfold app1, sc. ring.
  Qed.
  Lemma sc_move : forall w k, weq (w ++ [sc k]) (sc k :: w).
  Proof.
    induction w as [|f w IH]; intro k; [reflexivity|]. cbn [app]. rewrite IH. change (weq ([f; sc k] ++ w) ([sc k; f] ++ w)). rewrite sc_swap. reflexivity.
  Qed.
  Lemma sc_cancel : forall k v w, k <> 0 -> weq (sc k :: v) (sc k :: w) -> weq v w.
  Proof. intros k v w Hk H F s Hs. specialize (H F s Hs). rewrite !ev_sc in H. apply Z.mul_cancel_l with (p := k); assumption. Qed.
  Lemma sc_one : weq [sc 1] [].
  Proof. intros F s Hs. rewrite ev_sc. cbn [ev fold_right]. lia. Qed.
  Lemma sc_mul : forall k l, weq [sc k; sc l] [sc (k * l)].
  Proof. intros k l F s Hs. rewrite !ev_sc. cbn [ev fold_right]. lia. Qed.

  (* relations *)
  Lemma fuse : forall d a b a' b', weq [(d, a, b); (d, a', b')] [(d, a * a', a * b' + b * a' + e * b * b')].
  Proof.
    intros d a b a' b' F s Hs. unfold ev, app1, U; cbn [fold_right]. destruct (c d s) eqn:E; [rewrite (H1 d s Hs E)|]; ring.
  Qed.
  Lemma far : forall d a b d' a' b', (d + 1 < d' \/ d' + 1 < d)%nat -> weq [(d, a, b); (d', a', b')] [(d', a', b'); (d, a, b)].
  Proof.
    assert (G : forall d a b d' a' b', (d + 1 < d')%nat -> weq [(d, a, b); (d', a', b')] [(d', a', b'); (d, a, b)]).
    { intros d a b d' a' b' L F s Hs. unfold ev, app1, U; cbn [fold_right].
      destruct (c d s) eqn:E, (c d' s) eqn:E'.
      - rewrite (H2 d d' s Hs (or_introl L) E), E'. rewrite (H2 d' d s Hs (or_intror L) E'), E. rewrite (H2r d d' s Hs L E E'). ring.
      - rewrite (H2 d d' s Hs (or_introl L) E), E'. ring.
      - rewrite (H2 d' d s Hs (or_intror L) E'), E. ring.
      - ring. }
    intros d a b d' a' b' [L|L]; [apply G; assumption|symmetry; apply G; assumption].
  Qed.
  Lemma far_move : forall w d a b, (forall f, In f w -> (d + 1 < fst (fst f) \/ fst (fst f) + 1 < d)%nat) -> weq (w ++ [(d, a, b)]) ((d, a, b) :: w).
  Proof.
    induction w as [|[[d' a'] b'] w IH]; intros d a b H; [reflexivity|]. cbn [app]. rewrite IH by (intros f Hf; apply H; right; assumption).
    change (weq ([(d', a', b'); (d, a, b)] ++ w) ([(d, a, b); (d', a', b')] ++ w)). rewrite (far d a b d' a' b'); [reflexivity|]. apply (H (d', a', b')). left. reflexivity.
  Qed.

  (* g: h(a,b) g = s h(a',b') *)
  Definition gq (d : nat) (a b a' b' : Z) : factor := (d, a' * (a + e * b), a * b' - b * a').
  Definition gs (a b : Z) : Z := a * (a + e * b).
  Lemma g_left : forall d a b a' b', weq [(d, a, b); gq d a b a' b'] [sc (gs a b); (d, a', b')].
  Proof. intros. unfold gq. rewrite fuse. intros F s Hs. rewrite ev_sc. unfold ev, app1, gs; cbn [fold_right]. ring. Qed.
  Lemma g_right : forall d a b a' b', weq [gq d a b a' b'; (d, a, b)] [sc (gs a b); (d, a', b')].
  Proof. intros. unfold gq. rewrite fuse. intros F s Hs. rewrite ev_sc. unfold ev, app1, gs; cbn [fold_right]. ring. Qed.

  Lemma ybe : forall d a b a' b', (1 <= d)%nat ->
    weq [(d, a, b); ((d + 1)%nat, a', b'); gq d a b a' b'] [gq (d + 1) a b a' b'; (d, a', b'); ((d + 1)%nat, a, b)].
  Proof.
    intros d a b a' b' L F s Hs. unfold ev, gq, app1, U; cbn [fold_right].
    destruct (c d s) eqn:E.
    - pose proof (H3 d s Hs E) as E3. rewrite E3. rewrite (H1 d s Hs E). destruct (c (d + 1) (r d s)) eqn:E1.
      + pose proof (H1 _ _ (r_ok _ _ Hs E) E1) as E2. rewrite ?E2, (H4 d s Hs L E E1). ring.
      + ring.
    - destruct (c (d + 1) s) eqn:E3.
      + rewrite (H1 _ s Hs E3). destruct (c d (r (d + 1) s)) eqn:E1.
        * pose proof (H1 _ _ (r_ok _ _ Hs E3) E1) as E2. rewrite ?E2, (H5 d s Hs E3 E1). ring.
        * ring.
      + ring.
  Qed.

  (* the product with decreasing diagonals n, ..., 1 and its inverse up to scalars *)
  Fixpoint A (n : nat) (a b : Z) : list factor := match n with O => [] | Datatypes.S n' => (n, a, b) :: A n' a b end.
  Fixpoint B (n : nat) (a b : Z) : list factor := match n with O => [] | Datatypes.S n' => B n' a b ++ [(n, a, b)] end.
  Lemma A_In : forall n a b f, In f (A n a b) -> (1 <= fst (fst f) <= n)%nat.
  Proof. induction n as [|n IH]; intros a b f H; [destruct H|]. destruct H as [<-|H]; [cbn [fst]; lia|]. apply IH in H. lia. Qed.
  Lemma B_In : forall n a b f, In f (B n a b) -> (1 <= fst (fst f) <= n)%nat.
  Proof. induction n as [|n IH]; intros a b f H; [destruct H|]. cbn [B] in H. apply in_app_iff in H. destruct H as [H|[<-|[]]]; [apply IH in H; lia|cbn [fst]; lia]. Qed.

  Lemma A_shift : forall n a b a' b', weq (A n a b ++ A (n + 1) a' b' ++ [sc (gs a b)]) (gq (n + 1) a b a' b' :: A n a' b' ++ A (n + 1) a b).
  Proof.
    induction n as [|n IH]; intros a b a' b'.
    - cbn [A app plus]. rewrite (sc_swap (gs a b)). rewrite <- g_right. reflexivity.
    - cbn [A plus]. replace (n + 1)%nat with (Datatypes.S n) in IH by lia. cbn [A] in IH. replace (Datatypes.S (n + 1)) with (Datatypes.S n + 1)%nat by lia. replace (n + 1)%nat with (Datatypes.S n) by lia. cbn [A].
      set (k := Datatypes.S n) in *.
      assert (FM : forall x y u v, weq (A n x y ++ ((k + 1)%nat, u, v) :: A k x y) (((k + 1)%nat, u, v) :: A n x y ++ A k x y)).
      { intros x y u v. change (weq (A n x y ++ [((k + 1)%nat, u, v)] ++ A k x y) (((k + 1)%nat, u, v) :: A n x y ++ A k x y)). rewrite app_assoc.
        rewrite far_move; [reflexivity|]. intros f Hf. apply A_In in Hf. unfold k. lia. }
      assert (FM2 : forall x y u v w, weq (A n x y ++ ((k + 1)%nat, u, v) :: w) (((k + 1)%nat, u, v) :: A n x y ++ w)).
      { intros x y u v w. change (weq (A n x y ++ [((k + 1)%nat, u, v)] ++ w) (((k + 1)%nat, u, v) :: A n x y ++ w)). rewrite app_assoc.
        rewrite far_move; [reflexivity|]. intros f Hf. apply A_In in Hf. unfold k. lia. }
      cbn [app]. rewrite (FM2 a b a' b'). cbn [app] in IH. rewrite IH.
      change (weq ([(k, a, b); ((k + 1)%nat, a', b'); gq k a b a' b'] ++ (A n a' b' ++ (k, a, b) :: A n a b))
        (gq (k + 1) a b a' b' :: (k, a', b') :: A n a' b' ++ ((k + 1)%nat, a, b) :: (k, a, b) :: A n a b)).
      rewrite ybe by (unfold k; lia). rewrite (FM2 a' b' a b). reflexivity.
  Qed.

  Lemma AA : forall n a b a' b', gs a b <> 0 -> weq (A n a b ++ A n a' b') (A n a' b' ++ A n a b).
  Proof.
    intros [|n] a b a' b' N; [reflexivity|]. apply (sc_cancel (gs a b) _ _ N).
    rewrite <- sc_move. rewrite <- app_assoc. pose proof (A_shift n a b a' b') as K. replace (n + 1)%nat with (Datatypes.S n) in K by lia.
    change (A (Datatypes.S n) a b) with ((Datatypes.S n, a, b) :: A n a b) at 1. cbn [app]. rewrite K.
    change (weq ([(Datatypes.S n, a, b); gq (Datatypes.S n) a b a' b'] ++ (A n a' b' ++ A (Datatypes.S n) a b)) (sc (gs a b) :: A (Datatypes.S n) a' b' ++ A (Datatypes.S n) a b)).
    rewrite g_left. reflexivity.
  Qed.

  (* inverses *)
  Definition ia (a b : Z) : Z := a + e * b.
  Lemma inv1 : forall d a b, weq [(d, a, b); (d, ia a b, - b)] [sc (gs a b)].
  Proof. intros. rewrite fuse. intros F s Hs. rewrite ev_sc. unfold ev, app1, gs, ia; cbn [fold_right]. ring. Qed.
  Lemma inv2 : forall d a b, weq [(d, ia a b, - b); (d, a, b)] [sc (gs a b)].
  Proof. intros. rewrite fuse. intros F s Hs. rewrite ev_sc. unfold ev, app1, gs, ia; cbn [fold_right]. ring. Qed.
  Lemma BA_inv : forall n a b, weq (B n a b ++ A n (ia a b) (- b)) [sc (gs a b ^ Z.of_nat n)].
  Proof.
    induction n as [|n IH]; intros a b; [cbn [B A app]; change (gs a b ^ Z.of_nat 0) with 1; symmetry; apply sc_one|].
    cbn [B A]. rewrite <- app_assoc. cbn [app].
    change (weq (B n a b ++ [(Datatypes.S n, a, b); (Datatypes.S n, ia a b, - b)] ++ A n (ia a b) (- b)) [sc (gs a b ^ Z.of_nat (Datatypes.S n))]).
    rewrite inv1. rewrite app_assoc, sc_move. cbn [app]. rewrite IH. rewrite sc_mul. rewrite Nat2Z.inj_succ, Z.pow_succ_r by lia. reflexivity.
  Qed.
  Lemma AB_inv : forall n a b, weq (A n (ia a b) (- b) ++ B n a b) [sc (gs a b ^ Z.of_nat n)].
  Proof.
    induction n as [|n IH]; intros a b; [cbn [B A app]; change (gs a b ^ Z.of_nat 0) with 1; symmetry; apply sc_one|].
    cbn [B A app]. rewrite app_assoc. rewrite IH. cbn [app].
    change (weq ([(Datatypes.S n, ia a b, - b); sc (gs a b ^ Z.of_nat n)] ++ [(Datatypes.S n, a, b)]) [sc (gs a b ^ Z.of_nat (Datatypes.S n))]).
    rewrite sc_swap. cbn [app]. rewrite inv2. rewrite sc_mul. rewrite Nat2Z.inj_succ, Z.pow_succ_r by lia. rewrite (Z.mul_comm (gs a b)). reflexivity.
  Qed.
  Lemma gs_pow : forall a b n, gs a b <> 0 -> gs a b ^ Z.of_nat n <> 0.
  Proof. intros. apply Z.pow_nonzero; [assumption|lia]. Qed.

  Lemma sc_through : forall u v k, weq (u ++ sc k :: v) (sc k :: u ++ v).
  Proof. intros u v k. change (weq (u ++ [sc k] ++ v) (sc k :: u ++ v)). rewrite app_assoc, sc_move. reflexivity. Qed.

  (* A(a,b) B(a',b') = B(a',b') A(a,b) *)
  Lemma AB : forall n a b a' b', gs a b <> 0 -> gs a' b' <> 0 -> weq (A n a b ++ B n a' b') (B n a' b' ++ A n a b).
  Proof.
    intros n a b a' b' N N'. set (k := gs a' b' ^ Z.of_nat n). assert (Nk : k <> 0) by (apply gs_pow; assumption).
    apply (sc_cancel k _ _ Nk). set (A' := A n (ia a' b') (- b')).
    transitivity (B n a' b' ++ A' ++ A n a b ++ B n a' b').
    - rewrite (app_assoc (B n a' b') A'). unfold A'. rewrite BA_inv. reflexivity.
    - rewrite (app_assoc A'). unfold A'. rewrite <- (AA n a b (ia a' b') (- b') N). rewrite <- (app_assoc (A n a b)). rewrite AB_inv. fold k.
      rewrite (sc_move (A n a b) k). rewrite sc_through. reflexivity.
  Qed.
  Lemma BB : forall n a b a' b', gs a b <> 0 -> gs a' b' <> 0 -> weq (B n a b ++ B n a' b') (B n a' b' ++ B n a b).
  Proof.
    intros n a b a' b' N N'. set (k := gs a' b' ^ Z.of_nat n). assert (Nk : k <> 0) by (apply gs_pow; assumption).
    apply (sc_cancel k _ _ Nk). set (A' := A n (ia a' b') (- b')).
    assert (N2 : gs (ia a' b') (- b') <> 0).
    { unfold gs, ia. replace ((a' + e * b') * (a' + e * b' + e * - b')) with (gs a' b') by (unfold gs; ring). assumption. }
    transitivity (B n a' b' ++ A' ++ B n a b ++ B n a' b').
    - rewrite (app_assoc (B n a' b') A'). unfold A'. rewrite BA_inv. reflexivity.
    - rewrite (app_assoc A'). unfold A'. rewrite (AB n (ia a' b') (- b') a b N2 N). rewrite <- (app_assoc (B n a b)). rewrite AB_inv. fold k.
      rewrite (sc_move (B n a b) k). rewrite sc_through. reflexivity.
  Qed.

  (* first half: decreasing diagonals after increasing ones *)
  Definition TS (n : nat) (x : Z) : list factor := A n 1 x ++ B n 1 x.
  Hypothesis e_nonneg : 0 <= e.
  Lemma gs_pos : forall x, 0 <= x -> gs 1 x <> 0.
  Proof. intros x Hx. unfold gs. nia. Qed.
  Theorem TS_comm : forall n x y, 0 <= x -> 0 <= y -> weq (TS n x ++ TS n y) (TS n y ++ TS n x).
  Proof.
    intros n x y Hx Hy. unfold TS. pose proof (gs_pos x Hx) as Gx. pose proof (gs_pos y Hy) as Gy.
    rewrite <- !app_assoc. rewrite (app_assoc (B n 1 x) (A n 1 y)). rewrite <- (AB n 1 y 1 x Gy Gx). rewrite <- (app_assoc (A n 1 y)). rewrite (app_assoc (A n 1 x)).
    rewrite (AA n 1 x 1 y Gx). rewrite (BB n 1 x 1 y Gx Gy). rewrite <- (app_assoc (A n 1 y)). rewrite (app_assoc (A n 1 x) (B n 1 y)). rewrite (AB n 1 x 1 y Gx Gy).
    rewrite <- (app_assoc (B n 1 y)). reflexivity.
  Qed.

  (* the diagonal 0 *)
  Variable f : Z -> Z.
  Hypothesis f_law : forall x y, (1 + e * y) * (x + y + e * x * y) * f x =
    (x - y) * f x + (x - y) * f y + (1 + e * y) * (x + y + e * x * y) * f y + e * (x - y) * f x * f y + e * (x - y) * (x + y + e * x * y) * f y.
  Definition kk (x : Z) : factor := (0%nat, 1, f x).
  Definition hp (x y : Z) : factor := (1%nat, 1, x + y + e * x * y).
  Definition hm (x y : Z) : factor := (1%nat, 1 + e * y, x - y).
  Lemma reflection : forall x y, weq [hm x y; kk x; hp x y; kk y] [kk y; hp x y; kk x; hm x y].
  Proof.
    intros x y F s Hs. pose proof (f_law x y) as FL. unfold ev, hm, hp, kk, app1, U; cbn [fold_right].
    set (z := x + y + e * x * y) in *. set (p := f x) in *. set (q := f y) in *. set (m := x - y) in *. set (w := 1 + e * y) in *.
    assert (M : w * z * p = m * p + m * q + w * z * q + e * m * p * q + e * m * z * q) by exact FL. clearbody z p q m w. clear FL.
    destruct (c 0 s) eqn:E0.
    - pose proof (H3 0%nat s Hs E0) as E1. change (0 + 1)%nat with 1%nat in E1. rewrite E1. rewrite (H1 0%nat s Hs E0). destruct (c 1 (r 0 s)) eqn:E2.
      + pose proof (r_ok _ _ Hs E0) as O1. rewrite (H1 1%nat _ O1 E2). destruct (c 0 (r 1 (r 0 s))) eqn:E3.
        * pose proof (r_ok _ _ O1 E2) as O2. pose proof (H5 0%nat (r 0 s) O1) as X5. change (0 + 1)%nat with 1%nat in X5. rewrite ?(X5 E2 E3), ?(H1 0%nat _ O2 E3).
          generalize (F s) (F (r 0 s)) (F (r 1 (r 0 s))) (F (r 0 (r 1 (r 0 s)))). intros. ring [M].
        * ring [M].
      + ring [M].
    - destruct (c 1 s) eqn:E1.
      + rewrite (H1 1%nat s Hs E1). destruct (c 0 (r 1 s)) eqn:E2.
        * pose proof (r_ok _ _ Hs E1) as O1. rewrite (H1 0%nat _ O1 E2). pose proof (H5 0%nat s Hs) as X5. change (0 + 1)%nat with 1%nat in X5. rewrite (X5 E1 E2). ring [M].
        * ring [M].
      + ring [M].
  Qed.

  Fixpoint A2 (m : nat) (a b : Z) : list factor := match m with O => [] | Datatypes.S m' => (Datatypes.S m, a, b) :: A2 m' a b end.
  Fixpoint B2 (m : nat) (a b : Z) : list factor := match m with O => [] | Datatypes.S m' => B2 m' a b ++ [(Datatypes.S m, a, b)] end.
  Lemma A_A2 : forall m a b, A (Datatypes.S m) a b = A2 m a b ++ [(1%nat, a, b)].
  Proof. induction m as [|m IH]; intros a b; [reflexivity|]. change (A (Datatypes.S (Datatypes.S m)) a b) with ((Datatypes.S (Datatypes.S m), a, b) :: A (Datatypes.S m) a b). rewrite IH. reflexivity. Qed.
  Lemma B_B2 : forall m a b, B (Datatypes.S m) a b = (1%nat, a, b) :: B2 m a b.
  Proof. induction m as [|m IH]; intros a b; [reflexivity|]. change (B (Datatypes.S (Datatypes.S m)) a b) with (B (Datatypes.S m) a b ++ [(Datatypes.S (Datatypes.S m), a, b)]). rewrite IH. reflexivity. Qed.
  Lemma A2_In : forall m a b g, In g (A2 m a b) -> (2 <= fst (fst g))%nat.
  Proof. induction m as [|m IH]; intros a b g H; [destruct H|]. destruct H as [<-|H]; [cbn [fst]; lia|]. apply (IH _ _ _ H). Qed.
  Lemma B2_In : forall m a b g, In g (B2 m a b) -> (2 <= fst (fst g))%nat.
  Proof. induction m as [|m IH]; intros a b g H; [destruct H|]. cbn [B2] in H. apply in_app_iff in H. destruct H as [H|[<-|[]]]; [apply (IH _ _ _ H)|cbn [fst]; lia]. Qed.
  Lemma A2_kk : forall m a b x w, weq (A2 m a b ++ kk x :: w) (kk x :: A2 m a b ++ w).
  Proof.
    intros m a b x w. change (weq (A2 m a b ++ [kk x] ++ w) (kk x :: A2 m a b ++ w)). rewrite app_assoc. unfold kk. rewrite far_move; [reflexivity|].
    intros g Hg. apply A2_In in Hg. lia.
  Qed.
  Lemma B2_kk : forall m a b x w, weq (B2 m a b ++ kk x :: w) (kk x :: B2 m a b ++ w).
  Proof.
    intros m a b x w. change (weq (B2 m a b ++ [kk x] ++ w) (kk x :: B2 m a b ++ w)). rewrite app_assoc. unfold kk. rewrite far_move; [reflexivity|].
    intros g Hg. apply B2_In in Hg. lia.
  Qed.
  Lemma hh : forall x y, weq [(1%nat, 1, y); (1%nat, 1, x)] [hp x y].
  Proof. intros x y. rewrite fuse. intros F s Hs. unfold ev, app1, hp; cbn [fold_right]. ring. Qed.
  Lemma h_inv : forall x y, weq [(1%nat, 1, x); (1%nat, 1 + e * y, - y)] [hm x y].
  Proof. intros x y. rewrite fuse. intros F s Hs. unfold ev, app1, hm; cbn [fold_right]. ring. Qed.
  Lemma inv_h : forall x y, weq [(1%nat, 1 + e * y, - y); (1%nat, 1, x)] [hm x y].
  Proof. intros x y. rewrite fuse. intros F s Hs. unfold ev, app1, hm; cbn [fold_right]. ring. Qed.
  Lemma hm_same : forall y, weq [hm y y] [sc (1 + e * y)].
  Proof. intros y F s Hs. rewrite ev_sc. unfold ev, app1, hm; cbn [fold_right]. ring. Qed.

  Lemma claim1 : forall m x y, 0 <= x -> 0 <= y ->
    weq (sc (1 + e * y) :: A (Datatypes.S m) 1 x ++ A2 m 1 y) (A (Datatypes.S m) 1 y ++ A2 m 1 x ++ [hm x y]).
  Proof.
    intros m x y Hx Hy. rewrite <- sc_move. rewrite <- (hm_same y). rewrite <- (h_inv y y). rewrite <- (h_inv x y).
    pose proof (AA (Datatypes.S m) 1 x 1 y (gs_pos x Hx)) as K.
    rewrite (A_A2 m 1 y) in K at 1. rewrite (A_A2 m 1 x) in K at 2.
    change [(1%nat, 1, y); (1%nat, 1 + e * y, - y)] with ([(1%nat, 1, y)] ++ [(1%nat, 1 + e * y, - y)]).
    change [(1%nat, 1, x); (1%nat, 1 + e * y, - y)] with ([(1%nat, 1, x)] ++ [(1%nat, 1 + e * y, - y)]).
    rewrite (app_assoc (A2 m 1 x)). rewrite (app_assoc (A (Datatypes.S m) 1 y)). rewrite <- K. rewrite <- !app_assoc. reflexivity.
  Qed.
  Lemma claim2 : forall m x y, 0 <= x -> 0 <= y ->
    weq (hm x y :: B2 m 1 x ++ B (Datatypes.S m) 1 y) (sc (1 + e * y) :: B2 m 1 y ++ B (Datatypes.S m) 1 x).
  Proof.
    intros m x y Hx Hy. pose proof (BB (Datatypes.S m) 1 x 1 y (gs_pos x Hx) (gs_pos y Hy)) as K.
    rewrite (B_B2 m 1 x) in K at 1. rewrite (B_B2 m 1 y) in K at 2. cbn [app] in K.
    change (weq ([hm x y] ++ (B2 m 1 x ++ B (Datatypes.S m) 1 y)) ([sc (1 + e * y)] ++ (B2 m 1 y ++ B (Datatypes.S m) 1 x))).
    rewrite <- (hm_same y). rewrite <- (inv_h y y). rewrite <- (inv_h x y). cbn [app]. rewrite K. reflexivity.
  Qed.

  Definition TQ (n : nat) (x : Z) : list factor := A n 1 x ++ kk x :: B n 1 x.
  Lemma TQ_pair : forall m x y, 0 <= x -> 0 <= y ->
    weq (TQ (Datatypes.S m) x ++ TQ (Datatypes.S m) y) (A (Datatypes.S m) 1 x ++ A2 m 1 y ++ kk x :: hp x y :: kk y :: B2 m 1 x ++ B (Datatypes.S m) 1 y).
  Proof.
    intros m x y Hx Hy. unfold TQ. rewrite <- app_assoc. cbn [app]. rewrite (app_assoc (B (Datatypes.S m) 1 x)).
    rewrite <- (AB (Datatypes.S m) 1 y 1 x (gs_pos y Hy) (gs_pos x Hx)). rewrite <- app_assoc.
    rewrite (A_A2 m 1 y). rewrite (B_B2 m 1 x). rewrite <- (app_assoc (A2 m 1 y)). cbn [app]. rewrite (B2_kk m 1 x y). rewrite <- (A2_kk m 1 y x).
    change (weq (A (Datatypes.S m) 1 x ++ A2 m 1 y ++ [kk x] ++ [(1%nat, 1, y); (1%nat, 1, x)] ++ (kk y :: B2 m 1 x ++ B (Datatypes.S m) 1 y))
      (A (Datatypes.S m) 1 x ++ A2 m 1 y ++ kk x :: hp x y :: kk y :: B2 m 1 x ++ B (Datatypes.S m) 1 y)).
    rewrite hh. reflexivity.
  Qed.
  Theorem TQ_comm : forall n x y, 0 <= x -> 0 <= y -> weq (TQ n x ++ TQ n y) (TQ n y ++ TQ n x).
  Proof.
    intros [|m] x y Hx Hy.
    - unfold TQ, kk. cbn [A B app]. rewrite !fuse. intros F s Hs. unfold ev, app1; cbn [fold_right]. ring.
    - rewrite (TQ_pair m x y Hx Hy), (TQ_pair m y x Hy Hx).
      assert (N : 1 + e * y <> 0) by nia. apply (sc_cancel (1 + e * y) _ _ N).
      rewrite (app_assoc (A (Datatypes.S m) 1 x)).
      change (weq ((sc (1 + e * y) :: A (Datatypes.S m) 1 x ++ A2 m 1 y) ++ kk x :: hp x y :: kk y :: B2 m 1 x ++ B (Datatypes.S m) 1 y)
        (sc (1 + e * y) :: A (Datatypes.S m) 1 y ++ A2 m 1 x ++ kk y :: hp y x :: kk x :: B2 m 1 y ++ B (Datatypes.S m) 1 x)).
      rewrite (claim1 m x y Hx Hy). rewrite <- !app_assoc. cbn [app].
      change (weq (A (Datatypes.S m) 1 y ++ A2 m 1 x ++ [hm x y; kk x; hp x y; kk y] ++ (B2 m 1 x ++ B (Datatypes.S m) 1 y))
        (sc (1 + e * y) :: A (Datatypes.S m) 1 y ++ A2 m 1 x ++ kk y :: hp y x :: kk x :: B2 m 1 y ++ B (Datatypes.S m) 1 x)).
      rewrite reflection. cbn [app]. rewrite (claim2 m x y Hx Hy).
      replace (hp y x) with (hp x y) by (unfold hp; f_equal; ring).
      change (weq (A (Datatypes.S m) 1 y ++ A2 m 1 x ++ [kk y; hp x y; kk x] ++ sc (1 + e * y) :: (B2 m 1 y ++ B (Datatypes.S m) 1 x))
        (sc (1 + e * y) :: A (Datatypes.S m) 1 y ++ A2 m 1 x ++ [kk y; hp x y; kk x] ++ B2 m 1 y ++ B (Datatypes.S m) 1 x)).
      rewrite !sc_through. reflexivity.
  Qed.
End Ops.
