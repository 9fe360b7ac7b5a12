(* Set-valued crystal operators: signatures, and one step on an abstract set-valued filling. *)
From Coq Require Import List ZArith Lia Bool Sorted Permutation.
From Verif Require Import PyBase FinSum M_Partitions M_Vectors M_Words S_Words L_Words M_Tableaux M_TabCrystal.
Import ListNotations.
Local Open Scope Z_scope.

(* ---------- cancellation on triples is cancellation on words ---------- *)
Definition relab (g : Z -> box) (p : Z * Z) : box * Z := (g (fst p), snd p).
Lemma tcancel1_map : forall g s, tcancel1 (map (relab g) s) = option_map (map (relab g)) (cancel1 s).
Proof.
  intros g. induction s as [|p s IH]; [reflexivity|]. destruct s as [|q s]; [reflexivity|]. cbn [map tcancel1 cancel1] in *. unfold relab at 1 2. cbn [snd]. destruct (snd q <? snd p); [reflexivity|]. rewrite IH. destruct (match s with [] => None | _ => _ end); reflexivity.
Qed.
Lemma tcancel_map : forall g fuel s, tcancel fuel (map (relab g) s) = do r <- cancel fuel s; Ok (map (relab g) r).
Proof.
  intros g. induction fuel as [|f IH]; intro s; cbn [tcancel cancel]; rewrite tcancel1_map; destruct (cancel1 s); cbn [option_map rbind]; try reflexivity. apply IH.
Qed.
Lemma relab_enum : forall (s : list (box * Z)) (pre : list box), s = map (relab (fun j => nth (Z.to_nat j) (pre ++ map fst s) (0, 0))) (wenum (zlen pre) (map snd s)).
Proof.
  induction s as [|[c v] s IH]; intro pre; [reflexivity|]. cbn [map wenum fst snd]. f_equal.
  - unfold relab. cbn [fst snd]. f_equal. unfold zlen. rewrite Nat2Z.id, app_nth2 by lia. rewrite Nat.sub_diag. reflexivity.
  - rewrite (IH (pre ++ [c])) at 1. rewrite <- app_assoc. cbn [app]. replace (zlen pre + 1) with (zlen (pre ++ [c])) by (unfold zlen; rewrite app_length; cbn; lia). reflexivity.
Qed.
Lemma map_split : forall A B (f : A -> B) s x y, map f s = x ++ y -> exists s1 s2, s = s1 ++ s2 /\ map f s1 = x /\ map f s2 = y.
Proof.
  intros A B f s x. revert s. induction x as [|a x IH]; intros s y E; [exists [], s; tauto|]. destruct s as [|b s]; [discriminate|]. cbn in E. injection E as E1 E2. destruct (IH s y E2) as (s1 & s2 & -> & F1 & F2). exists (b :: s1), s2. cbn. subst. tauto.
Qed.

Section Sig.
  Variable i : Z.
  Definition letters (s : list (box * Z)) : Prop := forall p, In p s -> snd p = i \/ snd p = i + 1.
  Lemma letters_all : forall s k, letters s -> filter (fun p => (snd p =? i) || (snd p =? i + 1)) (wenum k (map snd s)) = wenum k (map snd s).
  Proof.
    induction s as [|p s IH]; intros k H; [reflexivity|]. cbn [map wenum filter snd]. replace ((snd p =? i) || (snd p =? i + 1)) with true.
    - f_equal. apply IH. intros q Hq. apply H. right. exact Hq.
    - symmetry. apply orb_true_iff. rewrite !Z.eqb_eq. apply H. left. reflexivity.
  Qed.
  Definition at_mark (v : Z) (s : list (box * Z)) (b : box) : Prop :=
    exists X Y, s = X ++ (b, v) :: Y /\ closed_right i (map snd X) /\ closed_left i (map snd Y).
  Lemma run : forall s, letters s -> exists us ps, tcancel (length s) s = Ok (us ++ rev ps) /\ Forall (fun p => snd p = i) us /\ Forall (fun p => snd p = i + 1) ps /\
    match rev us with [] => closed_left i (map snd s) | (b, _) :: _ => at_mark i s b end /\
    match rev ps with [] => closed_right i (map snd s) | (b, _) :: _ => at_mark (i + 1) s b end.
  Proof.
    intros s H. set (g := fun j => nth (Z.to_nat j) (map fst s) (0, 0)). pose proof (relab_enum s []) as R. cbn [app] in R. fold g in R. change (zlen (@nil box)) with 0 in R.
    set (w := map snd s) in *. assert (CL : crystal_letters i w = wenum 0 w) by (apply letters_all; exact H).
    assert (OK : okl i (wenum 0 w)) by (rewrite <- CL; apply okl_letters).
    assert (LW : length (wenum 0 w) = length s) by (rewrite R at 1; rewrite map_length; reflexivity).
    pose proof (crun_inv i w) as V. cbv zeta in V. rewrite CL in V. pose proof (cancel_spec i (length s) (wenum 0 w) ltac:(lia) OK) as CS. destruct (crun i (wenum 0 w) ([], [])) as [us ps]. cbn [fst snd] in V. destruct V as (V1 & V2 & V3 & V4).
    exists (map (relab g) us), (map (relab g) ps). split; [|split; [|split; [|split]]].
    - rewrite R at 2. rewrite tcancel_map, CS. cbn [rbind]. unfold cnf. cbn [fst snd]. rewrite map_app, map_rev. reflexivity.
    - apply Forall_forall. intros p Hp. apply in_map_iff in Hp. destruct Hp as (q & <- & Hq). rewrite Forall_forall in V3. apply (V3 q Hq).
    - apply Forall_forall. intros p Hp. apply in_map_iff in Hp. destruct Hp as (q & <- & Hq). rewrite Forall_forall in V4. apply (V4 q Hq).
    - rewrite <- map_rev. unfold us_ok in V1. destruct (rev us) as [|[j b] t]; [apply V1|]. cbn [map relab fst snd]. destruct V1 as (x & y & E & Ej & Cx & Cy & _). destruct (map_split _ _ snd s x (i :: y) E) as (X & Z0 & ES & EX & EZ). destruct Z0 as [|[c v] Y]; [discriminate|]. cbn in EZ. injection EZ as EV EY. subst v.
      exists X, Y. split; [|split; [rewrite EX; exact Cx|rewrite EY; exact Cy]]. unfold g. rewrite ES, map_app. cbn [map fst]. rewrite Ej, <- EX. unfold zlen. rewrite Nat2Z.id, app_nth2; rewrite !map_length; [|lia]. rewrite Nat.sub_diag. reflexivity.
    - rewrite <- map_rev. unfold ps_ok in V2. destruct (rev ps) as [|[j b] t]; [apply V2|]. cbn [map relab fst snd]. destruct V2 as (x & y & E & Ej & Cx & Cy & _). destruct (map_split _ _ snd s x ((i + 1) :: y) E) as (X & Z0 & ES & EX & EZ). destruct Z0 as [|[c v] Y]; [discriminate|]. cbn in EZ. injection EZ as EV EY. subst v.
      exists X, Y. split; [|split; [rewrite EX; exact Cx|rewrite EY; exact Cy]]. unfold g. rewrite ES, map_app. cbn [map fst]. rewrite Ej, <- EX. unfold zlen. rewrite Nat2Z.id, app_nth2; rewrite !map_length; [|lia]. rewrite Nat.sub_diag. reflexivity.
  Qed.
  Lemma at_mark_unique : forall v s b c, v = i \/ v = i + 1 -> at_mark v s b -> at_mark v s c -> b = c.
  Proof.
    intros v s b c Hv (X & Y & E & A & B) (X' & Y' & E' & A' & B'). rewrite E in E'. pose proof (f_equal (map snd) E') as M. rewrite !map_app in M. cbn [map snd] in M. destruct (rule_unique i v _ _ _ _ Hv M A B A' B') as [M1 _].
    assert (L : length X = length X') by (rewrite <- (map_length snd X), <- (map_length snd X'), M1; reflexivity). clear - E' L. revert X' L E'. induction X as [|p X IH]; intros [|q X'] L E; cbn in L; try lia; cbn in E; injection E as E1 E2; [congruence|]. apply (IH X'); [lia|exact E2].
  Qed.
  (* the signature has no unbracketed i, or a last one *)
  Lemma sig_f : forall s, letters s -> exists r, tcancel (length s) s = Ok r /\
    ((rev (filter (fun p => snd p =? i) r) = [] /\ closed_left i (map snd s)) \/ exists b l, rev (filter (fun p => snd p =? i) r) = (b, i) :: l /\ at_mark i s b).
  Proof.
    intros s H. destruct (run s H) as (us & ps & E & U & P & M & _). exists (us ++ rev ps). split; [exact E|]. rewrite filter_app. rewrite Forall_forall in U, P.
    rewrite (filter_all _ _ us) by (intros p Hp; apply Z.eqb_eq; apply U; exact Hp). rewrite (filter_none _ _ (rev ps)) by (intros p Hp; apply Z.eqb_neq; rewrite <- in_rev in Hp; rewrite (P p Hp); lia). rewrite app_nil_r.
    destruct (rev us) as [|[b v] l] eqn:ER; [left; tauto|]. right. exists b, l. split; [|exact M]. assert (K : In (b, v) us) by (rewrite in_rev, ER; left; reflexivity). apply U in K. cbn in K. subst v. reflexivity.
  Qed.
  Lemma sig_e : forall s, letters s -> exists r, tcancel (length s) s = Ok r /\
    ((filter (fun p => snd p =? i + 1) r = [] /\ closed_right i (map snd s)) \/ exists b l, filter (fun p => snd p =? i + 1) r = (b, i + 1) :: l /\ at_mark (i + 1) s b).
  Proof.
    intros s H. destruct (run s H) as (us & ps & E & U & P & _ & M). exists (us ++ rev ps). split; [exact E|]. rewrite filter_app. rewrite Forall_forall in U, P.
    rewrite (filter_none _ _ us) by (intros p Hp; apply Z.eqb_neq; rewrite (U p Hp); lia). rewrite (filter_all _ _ (rev ps)) by (intros p Hp; apply Z.eqb_eq; rewrite <- in_rev in Hp; apply P; exact Hp). cbn [app].
    destruct (rev ps) as [|[b v] l] eqn:ER; [left; tauto|]. right. exists b, l. split; [|exact M]. assert (K : In (b, v) ps) by (rewrite in_rev, ER; left; reflexivity). apply P in K. cbn in K. subst v. reflexivity.
  Qed.
  Lemma mark_not_left : forall s b, at_mark i s b -> ~ closed_left i (map snd s).
  Proof.
    intros s b (X & Y & -> & A & _) K. rewrite map_app in K. cbn [map snd] in K. specialize (A [] (map snd X) eq_refl). specialize (K (map snd X ++ [i]) (map snd Y)). rewrite <- app_assoc in K. specialize (K eq_refl). rewrite !occ_app in K. unfold occ in *. cbn [count_occ] in K. destruct (Z.eq_dec i i); [|tauto]. destruct (Z.eq_dec i (i + 1)); [lia|]. lia.
  Qed.
  Lemma mark_not_right : forall s b, at_mark (i + 1) s b -> ~ closed_right i (map snd s).
  Proof.
    intros s b (X & Y & -> & _ & B) K. rewrite map_app in K. cbn [map snd] in K. specialize (B (map snd Y) [] ltac:(rewrite app_nil_r; reflexivity)). specialize (K (map snd X) ((i + 1) :: map snd Y) eq_refl). unfold occ in *. cbn [count_occ] in K. destruct (Z.eq_dec (i + 1) (i + 1)); [|tauto]. destruct (Z.eq_dec (i + 1) i); [lia|]. lia.
  Qed.

  (* ---------- abstract fillings ---------- *)
  Definition klt (a b : box * Z) : Prop :=
    snd (fst a) < snd (fst b) \/ (snd (fst a) = snd (fst b) /\ (fst (fst b) < fst (fst a) \/ (fst (fst a) = fst (fst b) /\ snd b < snd a))).
  Lemma klt_irrefl : forall a, ~ klt a a. Proof. intros a. unfold klt. lia. Qed.
  Lemma klt_trans : forall a b c, klt a b -> klt b c -> klt a c. Proof. intros a b c. unfold klt. lia. Qed.
  Record SSV (D : Z -> Z -> Prop) (H : Z -> Z -> Z -> Prop) : Prop := {
    ssv_cell : forall x y v, H x y v -> D x y;
    ssv_full : forall x y, D x y -> exists v, H x y v;
    ssv_row : forall x y v u, H x y v -> H x (y + 1) u -> v <= u;
    ssv_col : forall x y v u, H x y v -> H (x + 1) y u -> v < u;
    ssv_conv : forall x x' y k, D x y -> D x' y -> x <= k <= x' -> D k y;
    ssv_sq : forall x y, D x y -> D (x + 1) (y + 1) -> D (x + 1) y /\ D x (y + 1)
  }.
  Definition Sig (s : list (box * Z)) (H : Z -> Z -> Z -> Prop) : Prop :=
    StronglySorted klt s /\ forall x y v, In ((x, y), v) s <-> H x y v /\ (v = i \/ v = i + 1).
  Lemma col_strict : forall D H, SSV D H -> forall k x y v u, H x y v -> H (x + Z.of_nat (S k)) y u -> v + Z.of_nat (S k) <= u.
  Proof.
    intros D H S. induction k as [|k IH]; intros x y v u A B.
    - replace (x + Z.of_nat 1) with (x + 1) in B by lia. pose proof (ssv_col D H S x y v u A B). lia.
    - assert (C : D (x + Z.of_nat (Datatypes.S k)) y) by (apply (ssv_conv D H S x (x + Z.of_nat (Datatypes.S (Datatypes.S k)))); [apply (ssv_cell D H S x y v A)|apply (ssv_cell D H S _ y u B)|lia]).
      destruct (ssv_full D H S _ _ C) as (w & Hw). specialize (IH x y v w A Hw). replace (x + Z.of_nat (Datatypes.S (Datatypes.S k))) with (x + Z.of_nat (Datatypes.S k) + 1) in B by lia. pose proof (ssv_col D H S _ _ _ _ Hw B). lia.
  Qed.
  Lemma col_lt : forall D H, SSV D H -> forall x x' y v u, H x y v -> H x' y u -> x < x' -> v + (x' - x) <= u.
  Proof. intros D H S x x' y v u A B L. replace x' with (x + Z.of_nat (Datatypes.S (Z.to_nat (x' - x - 1)))) in B by lia. pose proof (col_strict D H S _ _ _ _ _ A B). lia. Qed.
  Lemma sorted_split : forall (X Y : list (box * Z)) c, StronglySorted klt (X ++ c :: Y) -> (forall d, In d X -> klt d c) /\ (forall d, In d Y -> klt c d) /\ StronglySorted klt X /\ StronglySorted klt Y.
  Proof.
    induction X as [|p X IH]; intros Y c S; cbn [app] in S; inversion S as [|? ? S1 S2]; subst.
    - rewrite Forall_forall in S2. split; [intros d []|]. split; [exact S2|]. split; [constructor|exact S1].
    - destruct (IH Y c S1) as (A & B & C & E). rewrite Forall_forall in S2. split; [|split; [exact B|split; [|exact E]]].
      + intros d [<-|Hd]; [apply S2; apply in_or_app; right; left; reflexivity|apply A; exact Hd].
      + constructor; [exact C|]. apply Forall_forall. intros d Hd. apply S2. apply in_or_app. left. exact Hd.
  Qed.
  Lemma sorted_join : forall (X Y : list (box * Z)), StronglySorted klt X -> StronglySorted klt Y -> (forall a b, In a X -> In b Y -> klt a b) -> StronglySorted klt (X ++ Y).
  Proof.
    induction X as [|p X IH]; intros Y A B C; [exact B|]. inversion A as [|? ? A1 A2]; subst. cbn [app]. constructor.
    - apply IH; [exact A1|exact B|]. intros a b Ha Hb. apply C; [right; exact Ha|exact Hb].
    - apply Forall_forall. intros q Hq. apply in_app_iff in Hq. destruct Hq as [Hq|Hq]; [rewrite Forall_forall in A2; apply A2; exact Hq|apply C; [left; reflexivity|exact Hq]].
  Qed.
  Lemma sorted_unique : forall s s' : list (box * Z), StronglySorted klt s -> StronglySorted klt s' -> (forall c, In c s <-> In c s') -> s = s'.
  Proof.
    induction s as [|a s IH]; intros [|b s'] A B M; [reflexivity|exfalso; apply (M b); left; reflexivity|exfalso; apply (M a); left; reflexivity|]. inversion A as [|? ? A1 A2]; subst. inversion B as [|? ? B1 B2]; subst. rewrite Forall_forall in A2, B2.
    assert (a = b). { destruct (proj1 (M a) (or_introl eq_refl)) as [|K]; [congruence|]. destruct (proj2 (M b) (or_introl eq_refl)) as [|L]; [congruence|]. exfalso. apply (klt_irrefl a). apply (klt_trans _ b); [apply A2; exact L|apply B2; exact K]. }
    subst b. f_equal. apply IH; [exact A1|exact B1|]. intro c. split; intro K.
    - destruct (proj1 (M c) (or_intror K)) as [<-|L]; [exfalso; apply (klt_irrefl a); apply A2; exact K|exact L].
    - destruct (proj2 (M c) (or_intror K)) as [<-|L]; [exfalso; apply (klt_irrefl a); apply B2; exact K|exact L].
  Qed.

  Lemma sorted_two : forall a b (l : list (box * Z)), StronglySorted klt (a :: b :: l) -> klt a b /\ StronglySorted klt (a :: l) /\ (forall d, In d l -> klt b d).
  Proof.
    intros a b l S. apply StronglySorted_inv in S. destruct S as [S1 S2]. apply StronglySorted_inv in S1. destruct S1 as [S3 S4]. split; [apply (Forall_inv S2)|]. split; [constructor; [exact S3|apply (Forall_inv_tail S2)]|]. rewrite Forall_forall in S4. exact S4.
  Qed.

  (* H with (a, b, v) removed and (x, y, u) added *)
  Definition swap (H : Z -> Z -> Z -> Prop) (a b v x y u : Z) (p q w : Z) : Prop := (H p q w /\ ~ (p = a /\ q = b /\ w = v)) \/ (p = x /\ q = y /\ w = u).

  Section Step.
    Variables (D : Z -> Z -> Prop) (H : Z -> Z -> Z -> Prop) (s : list (box * Z)) (x y : Z) (X Y : list (box * Z)).
    Hypothesis HS : SSV D H.
    Hypothesis HG : Sig s H.
    Hypothesis HE : s = X ++ ((x, y), i) :: Y.
    Hypothesis HX : closed_right i (map snd X).
    Hypothesis HY : closed_left i (map snd Y).

    Lemma st_parts : (forall d, In d X -> klt d ((x, y), i)) /\ (forall d, In d Y -> klt ((x, y), i) d) /\ StronglySorted klt X /\ StronglySorted klt Y.
    Proof. destruct HG as [S _]. rewrite HE in S. apply sorted_split. exact S. Qed.
    Lemma st_in : forall a b v, In ((a, b), v) X \/ (a = x /\ b = y /\ v = i) \/ In ((a, b), v) Y <-> H a b v /\ (v = i \/ v = i + 1).
    Proof.
      intros a b v. destruct HG as [_ M]. rewrite <- M, HE, in_app_iff. cbn [In]. split.
      - intros [K|[(-> & -> & ->)|K]]; [tauto|right; left; reflexivity|tauto].
      - intros [K|[K|K]]; [tauto| |tauto]. injection K as -> -> ->. tauto.
    Qed.
    Lemma st_here : H x y i. Proof. apply (st_in x y i). right. left. tauto. Qed.
    Lemma st_none : forall x', ~ H x' y (i + 1).
    Proof.
      intros x' K. pose proof st_here as K0. destruct st_parts as (PX & PY & SX & _).
      assert (Hx : x' = x \/ x' = x + 1).
      { destruct (Z_lt_ge_dec x' x) as [L|L]; [pose proof (col_lt D H HS _ _ _ _ _ K K0 L); lia|]. destruct (Z.eq_dec x' x); [tauto|]. pose proof (col_lt D H HS _ _ _ _ _ K0 K ltac:(lia)). lia. }
      assert (KX : In ((x', y), i + 1) X).
      { destruct (proj2 (st_in x' y (i + 1)) (conj K (or_intror eq_refl))) as [Q|[Q|Q]]; [exact Q|lia|]. apply PY in Q. unfold klt in Q. cbn [fst snd] in Q. lia. }
      apply in_split in KX. destruct KX as (X1 & X2 & EX). assert (E2 : X2 = []).
      { destruct X2 as [|[[a b] v] X2]; [reflexivity|exfalso]. rewrite EX in SX. destruct (sorted_split _ _ _ SX) as (_ & S2 & _). pose proof (S2 ((a, b), v) (or_introl eq_refl)) as L1. assert (IX : In ((a, b), v) X) by (rewrite EX; apply in_or_app; right; right; left; reflexivity).
        pose proof (PX _ IX) as L2. destruct (proj1 (st_in a b v) (or_introl IX)) as [Hv Ev]. unfold klt in L1, L2. cbn [fst snd] in L1, L2. assert (b = y) by lia. subst b. destruct Ev as [-> | ->].
        - destruct (Z.eq_dec a x) as [->|Na]; [lia|]. destruct (Z_lt_ge_dec a x) as [L|L]; [pose proof (col_lt D H HS _ _ _ _ _ Hv K0 L)|pose proof (col_lt D H HS _ _ _ _ _ K0 Hv ltac:(lia))]; lia.
        - destruct (Z.eq_dec a x') as [->|Na]; [lia|]. destruct (Z_lt_ge_dec a x') as [L|L]; [pose proof (col_lt D H HS _ _ _ _ _ Hv K L)|pose proof (col_lt D H HS _ _ _ _ _ K Hv ltac:(lia))]; lia. }
      subst X2. specialize (HX (map snd X1) [i + 1]). rewrite EX, map_app in HX. specialize (HX eq_refl). unfold occ in HX. cbn [count_occ] in HX. destruct (Z.eq_dec (i + 1) (i + 1)); [|tauto]. destruct (Z.eq_dec (i + 1) i); lia.
    Qed.
    Lemma st_right : H x (y + 1) i -> H x (y + 1) (i + 1) /\ exists Y', Y = ((x, y + 1), i + 1) :: ((x, y + 1), i) :: Y'.
    Proof.
      intro K. pose proof st_here as K0. destruct st_parts as (PX & PY & SX & SY).
      assert (IY : In ((x, y + 1), i) Y).
      { destruct (proj2 (st_in x (y + 1) i) (conj K (or_introl eq_refl))) as [Q|[Q|Q]]; [|lia|exact Q]. apply PX in Q. unfold klt in Q. cbn [fst snd] in Q. lia. }
      pose proof IY as IY0. apply in_split in IY. destruct IY as (Y1 & Y2 & EY). pose proof SY as SY0. rewrite EY in SY0. destruct (sorted_split _ _ _ SY0) as (B1 & B2 & S1 & _).
      assert (M : forall a b v, In ((a, b), v) Y1 -> b = y + 1 /\ v = i + 1 /\ (a = x \/ a = x + 1)).
      { intros a b v Hd. pose proof (B1 _ Hd) as L2. assert (IYd : In ((a, b), v) Y) by (rewrite EY; apply in_or_app; left; exact Hd). pose proof (PY _ IYd) as L1. destruct (proj1 (st_in a b v) (or_intror (or_intror IYd))) as [Hv Ev]. unfold klt in L1, L2. cbn [fst snd] in L1, L2. destruct (Z.eq_dec b y) as [->|Nb].
        - exfalso. assert (La : a <= x) by lia. destruct (Z.eq_dec a x) as [->|Na]; [lia|]. pose proof (col_lt D H HS _ _ _ _ _ Hv K0 ltac:(lia)). lia.
        - assert (b = y + 1) by lia. subst b. split; [reflexivity|]. destruct Ev as [-> | ->].
          + destruct (Z.eq_dec a x) as [->|Na]; [lia|]. destruct (Z_lt_ge_dec a x) as [L|L]; [pose proof (col_lt D H HS _ _ _ _ _ Hv K L)|pose proof (col_lt D H HS _ _ _ _ _ K Hv ltac:(lia))]; lia.
          + split; [reflexivity|]. destruct (Z.eq_dec a x); [tauto|]. pose proof (col_lt D H HS _ _ _ _ _ K Hv ltac:(lia)). lia. }
      destruct Y1 as [|[[a b] v] Y1'].
      - exfalso. specialize (HY [i] (map snd Y2)). rewrite EY in HY. specialize (HY eq_refl). unfold occ in HY. cbn [count_occ] in HY. destruct (Z.eq_dec i i); [|tauto]. destruct (Z.eq_dec i (i + 1)); lia.
      - destruct (M a b v (or_introl eq_refl)) as (-> & -> & Ha).
        assert (E1 : Y1' = []).
        { destruct Y1' as [|[[a' b'] v'] Y1']; [reflexivity|exfalso]. destruct (M a' b' v' (or_intror (or_introl eq_refl))) as (-> & -> & Ha'). destruct (sorted_two _ _ _ S1) as (S5 & _). unfold klt in S5. cbn [fst snd] in S5.
          assert (Q1 : H a (y + 1) (i + 1)) by (apply (st_in a (y + 1) (i + 1)); right; right; rewrite EY; left; reflexivity). assert (Q2 : H a' (y + 1) (i + 1)) by (apply (st_in a' (y + 1) (i + 1)); right; right; rewrite EY; right; left; reflexivity). pose proof (col_lt D H HS _ _ _ _ _ Q2 Q1 ltac:(lia)). lia. }
        subst Y1'. assert (Q : H a (y + 1) (i + 1)) by (apply (st_in a (y + 1) (i + 1)); right; right; rewrite EY; left; reflexivity).
        destruct Ha as [-> | ->]; [split; [exact Q|exists Y2; exact EY]|]. exfalso. destruct (ssv_sq D H HS x y (ssv_cell D H HS _ _ _ K0) (ssv_cell D H HS _ _ _ Q)) as [C _]. destruct (ssv_full D H HS _ _ C) as (w & Hw). pose proof (ssv_col D H HS _ _ _ _ K0 Hw). pose proof (ssv_row D H HS _ _ _ _ Hw Q). assert (w = i + 1) by lia. subst w. apply (st_none _ Hw).
    Qed.
    Lemma st_left : forall v, H x (y - 1) v -> v <= i.
    Proof. intros v K. pose proof st_here as Q. replace y with (y - 1 + 1) in Q by lia. apply (ssv_row D H HS _ _ _ _ K Q). Qed.
    Lemma st_below : forall v, H (x + 1) y v -> i + 1 < v.
    Proof. intros v K. pose proof (ssv_col D H HS _ _ _ _ st_here K). destruct (Z.eq_dec v (i + 1)) as [->|N]; [exfalso; apply (st_none _ K)|lia]. Qed.

    Definition HA := swap H x (y + 1) i x y (i + 1).
    Definition HB := swap H x y i x y (i + 1).
    Lemma st_A : H x (y + 1) i -> SSV D HA /\ exists Y', Y = ((x, y + 1), i + 1) :: ((x, y + 1), i) :: Y' /\ Sig (X ++ ((x, y), i + 1) :: ((x, y), i) :: ((x, y + 1), i + 1) :: Y') HA.
    Proof.
      intro K. destruct (st_right K) as (K1 & Y' & EY). pose proof st_here as K0. split.
      - split.
        + intros a b v [[Q _]|(-> & -> & ->)]; [apply (ssv_cell D H HS _ _ _ Q)|apply (ssv_cell D H HS _ _ _ K0)].
        + intros a b C. destruct (Z.eq_dec a x) as [->|Na]; [destruct (Z.eq_dec b (y + 1)) as [->|Nb]|]; [exists (i + 1); left; split; [exact K1|lia]| |]; (destruct (ssv_full D H HS _ _ C) as (w & Hw); exists w; left; split; [exact Hw|lia]).
        + intros a b v u [[Q1 N1]|(-> & -> & ->)] [[Q2 N2]|(Ea & Eb & Eu)].
          * apply (ssv_row D H HS _ _ _ _ Q1 Q2).
          * subst. assert (v <= i); [|lia]. apply (ssv_row D H HS _ _ _ _ Q1 K0).
          * assert (i <= u) by apply (ssv_row D H HS _ _ _ _ K0 Q2). destruct (Z.eq_dec u i); [exfalso; apply N2; tauto|lia].
          * lia.
        + intros a b v u [[Q1 N1]|(-> & -> & ->)] [[Q2 N2]|(Ea & Eb & Eu)].
          * apply (ssv_col D H HS _ _ _ _ Q1 Q2).
          * subst. pose proof (ssv_col D H HS _ _ _ _ Q1 K0). lia.
          * apply (st_below _ Q2).
          * lia.
        + apply (ssv_conv D H HS).
        + apply (ssv_sq D H HS).
      - exists Y'. split; [exact EY|]. destruct st_parts as (PX & PY & SX & SY). rewrite EY in SY, PY. split.
        + assert (SY' : StronglySorted klt (((x, y + 1), i + 1) :: Y')). { destruct (sorted_two _ _ _ SY) as (_ & SQ & _). exact SQ. }
          apply sorted_join; [exact SX| |].
          * constructor; [constructor; [exact SY'|]|].
            -- constructor; [unfold klt; cbn; lia|]. apply Forall_forall. intros d Hd. apply PY. right. right. exact Hd.
            -- constructor; [unfold klt; cbn; lia|]. constructor; [unfold klt; cbn; lia|]. apply Forall_forall. intros d Hd. apply (klt_trans _ ((x, y), i)); [unfold klt; cbn; lia|]. apply PY. right. right. exact Hd.
          * assert (TX : forall d, In d X -> klt d ((x, y), i + 1)).
            { intros [[a b] v] Hd. pose proof (PX _ Hd) as L. destruct (proj1 (st_in a b v) (or_introl Hd)) as [Hv Ev]. unfold klt in *. cbn [fst snd] in *. destruct (Z.eq_dec b y) as [->|]; [|lia]. destruct (Z.eq_dec a x) as [->|]; [|lia]. destruct Ev as [-> | ->]; [lia|]. exfalso. apply (st_none _ Hv). }
            intros a c Ha [<-|[<-|[<-|Hc]]]; [apply TX; exact Ha|apply PX; exact Ha|apply (klt_trans _ ((x, y), i)); [apply PX; exact Ha|unfold klt; cbn; lia]|apply (klt_trans _ ((x, y), i)); [apply PX; exact Ha|apply PY; right; right; exact Hc]].
        + intros a b v. pose proof (st_in a b v) as M. rewrite EY in M. rewrite in_app_iff. cbn [In] in *. unfold HA, swap. destruct (sorted_two _ _ _ SY) as (_ & _ & S4).
          assert (NY : ~ In ((x, y + 1), i) Y') by (intro Q; apply S4 in Q; apply (klt_irrefl _ Q)). assert (NX : ~ In ((x, y + 1), i) X) by (intro Q; apply PX in Q; unfold klt in Q; cbn in Q; lia).
          split.
          * intros [Q|[Q|[Q|[Q|Q]]]].
            -- destruct (proj1 M (or_introl Q)) as [M1 M2]. split; [left; split; [exact M1|]|exact M2]. intros (-> & -> & ->). tauto.
            -- injection Q as <- <- <-. split; [right; tauto|tauto].
            -- injection Q as <- <- <-. split; [left; split; [exact K0|lia]|tauto].
            -- injection Q as <- <- <-. split; [left; split; [exact K1|lia]|tauto].
            -- destruct (proj1 M) as [M1 M2]; [tauto|]. split; [left; split; [exact M1|]|exact M2]. intros (-> & -> & ->). tauto.
          * intros [[[Q N]|(-> & -> & ->)] Ev]; [|tauto]. destruct (proj2 M (conj Q Ev)) as [Q1|[(-> & -> & ->)|[Q1|[Q1|Q1]]]]; [tauto|tauto|tauto| |tauto]. injection Q1 as <- <- <-. exfalso. apply N. tauto.
    Qed.
    Lemma st_B : ~ H x (y + 1) i -> SSV D HB /\ Sig (X ++ ((x, y), i + 1) :: Y) HB.
    Proof.
      intro K. pose proof st_here as K0. split.
      - split.
        + intros a b v [[Q _]|(-> & -> & ->)]; [apply (ssv_cell D H HS _ _ _ Q)|apply (ssv_cell D H HS _ _ _ K0)].
        + intros a b C. destruct (Z.eq_dec a x) as [->|Na]; [destruct (Z.eq_dec b y) as [->|Nb]|]; [exists (i + 1); right; tauto| |]; (destruct (ssv_full D H HS _ _ C) as (w & Hw); exists w; left; split; [exact Hw|lia]).
        + intros a b v u [[Q1 N1]|(-> & -> & ->)] [[Q2 N2]|(Ea & Eb & Eu)].
          * apply (ssv_row D H HS _ _ _ _ Q1 Q2).
          * subst. pose proof (ssv_row D H HS _ _ _ _ Q1 K0). lia.
          * pose proof (ssv_row D H HS _ _ _ _ K0 Q2). destruct (Z.eq_dec u i) as [->|]; [tauto|lia].
          * lia.
        + intros a b v u [[Q1 N1]|(-> & -> & ->)] [[Q2 N2]|(Ea & Eb & Eu)].
          * apply (ssv_col D H HS _ _ _ _ Q1 Q2).
          * subst. pose proof (ssv_col D H HS _ _ _ _ Q1 K0). lia.
          * apply (st_below _ Q2).
          * lia.
        + apply (ssv_conv D H HS).
        + apply (ssv_sq D H HS).
      - destruct st_parts as (PX & PY & SX & SY). split.
        + apply sorted_join; [exact SX| |].
          * constructor; [exact SY|]. apply Forall_forall. intros d Hd. apply (klt_trans _ ((x, y), i)); [unfold klt; cbn; lia|]. apply PY. exact Hd.
          * assert (TX : forall d, In d X -> klt d ((x, y), i + 1)).
            { intros [[a b] v] Hd. pose proof (PX _ Hd) as L. destruct (proj1 (st_in a b v) (or_introl Hd)) as [Hv Ev]. unfold klt in *. cbn [fst snd] in *. destruct (Z.eq_dec b y) as [->|]; [|lia]. destruct (Z.eq_dec a x) as [->|]; [|lia]. destruct Ev as [-> | ->]; [lia|]. exfalso. apply (st_none _ Hv). }
            intros a c Ha [<-|Hc]; [apply TX; exact Ha|]. apply (klt_trans _ ((x, y), i)); [apply PX; exact Ha|apply PY; exact Hc].
        + intros a b v. pose proof (st_in a b v) as M. rewrite in_app_iff. cbn [In]. unfold HB, swap.
          assert (NY : ~ In ((x, y), i) Y) by (intro Q; apply PY in Q; apply (klt_irrefl _ Q)). assert (NX : ~ In ((x, y), i) X) by (intro Q; apply PX in Q; apply (klt_irrefl _ Q)).
          split.
          * intros [Q|[Q|Q]].
            -- destruct (proj1 M (or_introl Q)) as [M1 M2]. split; [left; split; [exact M1|]|exact M2]. intros (-> & -> & ->). tauto.
            -- injection Q as <- <- <-. split; [right; tauto|tauto].
            -- destruct (proj1 M) as [M1 M2]; [tauto|]. split; [left; split; [exact M1|]|exact M2]. intros (-> & -> & ->). tauto.
          * intros [[[Q N]|(-> & -> & ->)] Ev]; [|tauto]. destruct (proj2 M (conj Q Ev)) as [Q1|[Q1|Q1]]; tauto.
    Qed.
  End Step.
End Sig.
