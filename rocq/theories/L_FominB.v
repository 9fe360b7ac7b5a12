(* The reflection equation: the chains for words decreasing and then increasing commute. *)
From Coq Require Import List ZArith Lia Bool Permutation Arith.
From Verif Require Import PyBase L_Fomin L_FominWords.
Import ListNotations.
Local Open Scope Z_scope.

Section TypeB.
  Variable P : Type.
  Variable valid : P -> Prop.
  Variable act : P -> Z -> option P.
  Hypothesis act_valid : forall p i q, valid p -> 0 <= i -> act p i = Some q -> valid q.
  Notation U := (U P act).
  Notation eqv := (eqv P valid).
  Hypothesis U_idem : forall i F p, valid p -> 0 <= i -> U i (U i F) p = U i F p.
  Hypothesis U_braid : forall i F p, valid p -> 1 <= i -> U i (U (i + 1) (U i F)) p = U (i + 1) (U i (U (i + 1) F)) p.
  Hypothesis U_braid4 : forall F p, valid p -> U 0 (U 1 (U 0 (U 1 F))) p = U 1 (U 0 (U 1 (U 0 F))) p.
  Hypothesis U_comm : forall i j F p, valid p -> 0 <= i -> i + 1 < j -> U i (U j F) p = U j (U i F) p.

  Fixpoint Ul (l : list Z) (F : P -> Z) : P -> Z := match l with [] => F | i :: l' => U i (Ul l' F) end.
  Lemma U_pw : forall i F G p, (forall q, F q = G q) -> U i F p = U i G p.
  Proof. intros i F G p E. unfold L_Fomin.U. destruct (act p i); [apply E|reflexivity]. Qed.
  Lemma Ub_ext : forall i F G, 0 <= i -> eqv F G -> eqv (U i F) (U i G).
  Proof. intros i F G Hi E p Hp. unfold L_Fomin.U. destruct (act p i) as [q|] eqn:A; [|reflexivity]. apply E. eapply act_valid; eassumption. Qed.
  Lemma Ul_h : forall l j x F p, Ul l (h P act j x F) p = Ul l F p + x * Ul (l ++ [j]) F p.
  Proof.
    induction l as [|i l IH]; intros j x F p; [reflexivity|]. cbn [Ul app]. rewrite (U_pw i _ (fun q => Ul l F q + x * Ul (l ++ [j]) F q) p (IH j x F)). apply U_lin.
  Qed.
  Lemma h_Ul : forall i x F p, h P act i x F p = F p + x * Ul [i] F p.
  Proof. reflexivity. Qed.

  (* an operator 1 + x u_i; letters below 0 are ignored *)
  Definition hg (i x : Z) (F : P -> Z) : P -> Z := if 0 <=? i then h P act i x F else F.
  Fixpoint hw (l : list (Z * Z)) (F : P -> Z) : P -> Z := match l with [] => F | (i, x) :: l' => hg i x (hw l' F) end.
  Definition weq (l l' : list (Z * Z)) : Prop := forall F, eqv (hw l F) (hw l' F).
  Lemma hg_ext : forall i x F G, eqv F G -> eqv (hg i x F) (hg i x G).
  Proof.
    intros i x F G E p Hp. unfold hg. destruct (Z.leb_spec 0 i); [|apply E; assumption]. unfold h. rewrite (E p Hp), (Ub_ext i F G H E p Hp). reflexivity.
  Qed.
  Lemma hw_ext : forall l F G, eqv F G -> eqv (hw l F) (hw l G).
  Proof. induction l as [|[i x] l IH]; intros F G E; [assumption|]. cbn [hw]. apply hg_ext. auto. Qed.
  Lemma hw_app : forall a b F, hw (a ++ b) F = hw a (hw b F).
  Proof. induction a as [|[i x] a IH]; intros; cbn [app hw]; [reflexivity|]. rewrite IH. reflexivity. Qed.
  Lemma weq_refl : forall l, weq l l. Proof. intros l F p Hp. reflexivity. Qed.
  Lemma weq_sym : forall l m, weq l m -> weq m l. Proof. intros l m H F p Hp. symmetry. apply H. assumption. Qed.
  Lemma weq_trans : forall l m n, weq l m -> weq m n -> weq l n. Proof. intros l m n H1 H2 F p Hp. rewrite (H1 F p Hp). apply H2. assumption. Qed.
  Lemma weq_app : forall a a' b b', weq a a' -> weq b b' -> weq (a ++ b) (a' ++ b').
  Proof. intros a a' b b' H1 H2 F p Hp. rewrite !hw_app. rewrite (H1 (hw b F) p Hp). apply hw_ext; [apply H2|assumption]. Qed.
  Lemma weq_ctx : forall a b l l', weq l l' -> weq (a ++ l ++ b) (a ++ l' ++ b).
  Proof. intros. apply weq_app; [apply weq_refl|]. apply weq_app; [assumption|apply weq_refl]. Qed.

  Definition op (x y : Z) : Z := x + y + x * y.
  Lemma weq_merge : forall i x y, 0 <= i -> weq [(i, x); (i, y)] [(i, op x y)].
  Proof.
    intros i x y Hi F p Hp. cbn [hw]. unfold hg. replace (0 <=? i) with true by lia. rewrite !h_Ul, !Ul_h. cbn [app Ul]. rewrite (U_idem i F p Hp Hi). unfold op. ring.
  Qed.
  Lemma weq_comm : forall i j x y, 0 <= i -> i + 1 < j -> weq [(i, x); (j, y)] [(j, y); (i, x)].
  Proof.
    intros i j x y Hi Hj F p Hp. cbn [hw]. unfold hg. replace (0 <=? i) with true by lia. replace (0 <=? j) with true by lia. rewrite !h_Ul, !Ul_h. cbn [app Ul].
    rewrite (U_comm i j F p Hp Hi Hj). ring.
  Qed.
  Lemma weq_braid : forall i x y, 1 <= i -> weq [(i, x); (i + 1, op x y); (i, y)] [(i + 1, y); (i, op x y); (i + 1, x)].
  Proof.
    intros i x y Hi F p Hp. cbn [hw]. unfold hg. replace (0 <=? i) with true by lia. replace (0 <=? i + 1) with true by lia.
    set (j := i + 1).
    assert (R1 : Ul [i; i] F p = Ul [i] F p) by (apply U_idem; [assumption|lia]).
    assert (R2 : Ul [j; j] F p = Ul [j] F p) by (apply U_idem; [assumption|unfold j; lia]).
    assert (R3 : Ul [i; j; i] F p = Ul [j; i; j] F p) by (apply U_braid; assumption).
    rewrite ?h_Ul, ?Ul_h, ?h_Ul, ?Ul_h. cbn [app]. rewrite R1, R2, R3. unfold op. ring.
  Qed.
  Lemma weq_base : forall x t, let y := op x t in
    weq [(0, op x x); (1, op x y); (0, op y y); (1, t)] [(1, t); (0, op y y); (1, op x y); (0, op x x)].
  Proof.
    intros x t y F p Hp. cbn [hw]. unfold hg. replace (0 <=? 0) with true by lia. replace (0 <=? 1) with true by lia.
    assert (Z0 : 0 <= 0) by lia. assert (Z1 : 0 <= 1) by lia.
    assert (E0 : forall F p, valid p -> Ul [0; 0] F p = Ul [0] F p) by (intros; apply U_idem; assumption).
    assert (E1 : forall F p, valid p -> Ul [1; 1] F p = Ul [1] F p) by (intros; apply U_idem; assumption).
    assert (R1 : Ul [0; 0] F p = Ul [0] F p) by auto.
    assert (R2 : Ul [1; 1] F p = Ul [1] F p) by auto.
    assert (R3 : Ul [0; 0; 1] F p = Ul [0; 1] F p) by (apply (E0 (U 1 F)); assumption).
    assert (R4 : Ul [1; 1; 0] F p = Ul [1; 0] F p) by (apply (E1 (U 0 F)); assumption).
    assert (R5 : Ul [0; 1; 1] F p = Ul [0; 1] F p) by (apply (Ub_ext 0 (Ul [1; 1] F) (Ul [1] F) Z0); [intros q Hq; auto|assumption]).
    assert (R6 : Ul [1; 0; 0] F p = Ul [1; 0] F p) by (apply (Ub_ext 1 (Ul [0; 0] F) (Ul [0] F) Z1); [intros q Hq; auto|assumption]).
    assert (R7 : Ul [0; 1; 0; 1] F p = Ul [1; 0; 1; 0] F p) by (apply U_braid4; assumption).
    assert (EX : forall a b c d i j k l, h P act i a (h P act j b (h P act k c (h P act l d F))) p =
      F p + d * Ul [l] F p + c * (Ul [k] F p + d * Ul [k; l] F p) + b * (Ul [j] F p + d * Ul [j; l] F p + c * (Ul [j; k] F p + d * Ul [j; k; l] F p)) +
      a * (Ul [i] F p + d * Ul [i; l] F p + c * (Ul [i; k] F p + d * Ul [i; k; l] F p) + b * (Ul [i; j] F p + d * Ul [i; j; l] F p + c * (Ul [i; j; k] F p + d * Ul [i; j; k; l] F p)))).
    { intros. rewrite ?h_Ul, ?Ul_h, ?h_Ul, ?Ul_h, ?h_Ul, ?Ul_h. cbn [app]. reflexivity. }
    rewrite !EX. rewrite R1, R2, R3, R4, R5, R6, R7. unfold y, op. ring.
  Qed.

  (* the chain m, ..., 1, 0, 0, 1, ..., m *)
  Fixpoint kl (m : nat) : list Z := match m with O => [0; 0] | S m' => Z.of_nat m :: kl m' ++ [Z.of_nat m] end.
  Definition Kx (m : nat) (x : Z) : list (Z * Z) := map (fun i => (i, x)) (kl m).
  Lemma Kx_S : forall m x, Kx (S m) x = [(Z.of_nat (S m), x)] ++ Kx m x ++ [(Z.of_nat (S m), x)].
  Proof. intros. unfold Kx. cbn [kl map]. rewrite map_app. reflexivity. Qed.
  Lemma kl_bound : forall m i, In i (kl m) -> 0 <= i <= Z.of_nat m.
  Proof.
    induction m as [|m IH]; intros i Hi; [destruct Hi as [<-|[<-|[]]]; lia|]. cbn [kl] in Hi. destruct Hi as [<-|Hi]; [lia|]. apply in_app_iff in Hi. destruct Hi as [Hi|[<-|[]]]; [apply IH in Hi; lia|lia].
  Qed.
  Lemma list_comm : forall l j y, (forall i x, In (i, x) l -> 0 <= i /\ i + 1 < j) -> weq (l ++ [(j, y)]) ([(j, y)] ++ l).
  Proof.
    induction l as [|[i x] l IH]; intros j y H; [apply weq_refl|].
    change (((i, x) :: l) ++ [(j, y)]) with ([(i, x)] ++ (l ++ [(j, y)])).
    eapply weq_trans; [apply weq_app; [apply weq_refl|]; apply IH; intros i' x' Hi; apply (H i' x'); right; assumption|].
    change ([(i, x)] ++ [(j, y)] ++ l) with ([(i, x); (j, y)] ++ l). change ([(j, y)] ++ (i, x) :: l) with ([(j, y); (i, x)] ++ l).
    destruct (H i x (or_introl eq_refl)). apply weq_app; [apply weq_comm; assumption|apply weq_refl].
  Qed.
  Lemma Kx_comm : forall m j x y, Z.of_nat m + 1 < j -> weq (Kx m x ++ [(j, y)]) ([(j, y)] ++ Kx m x).
  Proof. intros m j x y Hj. apply list_comm. intros i z Hi. unfold Kx in Hi. apply in_map_iff in Hi. destruct Hi as (i' & E & Hi). injection E as -> _. apply kl_bound in Hi. lia. Qed.

  Lemma op_comm : forall x y, op x y = op y x. Proof. intros. unfold op. ring. Qed.
  Ltac norm := rewrite <- ?app_assoc; cbn [app]; reflexivity.
  Ltac step m := eapply weq_trans; [|exact m].
  Lemma reflection : forall m x t, let y := op x t in let j := Z.of_nat (S m) in
    weq (Kx m x ++ [(j, op x y)] ++ Kx m y ++ [(j, t)]) ([(j, t)] ++ Kx m y ++ [(j, op x y)] ++ Kx m x).
  Proof.
    induction m as [|m IH]; intros x t y j.
    - unfold j. change (Z.of_nat 1) with 1.
      assert (M : forall z, weq (Kx 0 z) [(0, op z z)]) by (intro z; apply (weq_merge 0 z z); lia).
      eapply weq_trans; [apply weq_app; [apply M|]; apply weq_app; [apply weq_refl|]; apply weq_app; [apply M|apply weq_refl]|].
      eapply weq_trans; [apply (weq_base x t)|]. fold y.
      apply weq_sym. eapply weq_trans; [apply weq_app; [apply weq_refl|]; apply weq_app; [apply M|]; apply weq_app; [apply weq_refl|apply M]|]. apply weq_refl.
    - set (i := Z.of_nat (S m)). assert (Ej : j = i + 1) by (unfold j, i; lia). assert (Hi : 1 <= i) by (unfold i; lia).
      specialize (IH x t). cbv zeta in IH. fold y i in IH. rewrite !Kx_S. fold i.
      set (A := Kx m x) in *. set (B := Kx m y) in *.
      assert (Ca : forall z, weq (A ++ [(j, z)]) ([(j, z)] ++ A)) by (intro z; apply Kx_comm; unfold j; lia).
      assert (Cb : forall z, weq (B ++ [(j, z)]) ([(j, z)] ++ B)) by (intro z; apply Kx_comm; unfold j; lia).
      assert (Y1 : weq [(i, x); (j, op x y); (i, y)] [(j, y); (i, op x y); (j, x)]) by (rewrite Ej; apply weq_braid; assumption).
      assert (Y2 : weq [(j, x); (i, y); (j, t)] [(i, t); (j, y); (i, x)]).
      { apply weq_sym. rewrite Ej. replace y with (op t x) by (unfold y; apply op_comm). apply weq_braid. assumption. }
      assert (Y3 : weq [(i, x); (j, y); (i, t)] [(j, t); (i, y); (j, x)]) by (rewrite Ej; apply weq_braid; assumption).
      assert (Y4 : weq [(j, x); (i, op x y); (j, y)] [(i, y); (j, op x y); (i, x)]).
      { apply weq_sym. rewrite Ej, (op_comm x y). apply weq_braid. assumption. }
      eapply weq_trans; [|eapply weq_trans; [|eapply weq_trans; [|eapply weq_trans; [|eapply weq_trans]]]].
      + (* the middle factors *)
        replace (([(i, x)] ++ A ++ [(i, x)]) ++ [(j, op x y)] ++ ([(i, y)] ++ B ++ [(i, y)]) ++ [(j, t)])
          with (([(i, x)] ++ A) ++ [(i, x); (j, op x y); (i, y)] ++ (B ++ [(i, y); (j, t)])) by norm.
        apply weq_ctx. exact Y1.
      + replace (([(i, x)] ++ A) ++ [(j, y); (i, op x y); (j, x)] ++ (B ++ [(i, y); (j, t)]))
          with ([(i, x)] ++ (A ++ [(j, y)]) ++ [(i, op x y)] ++ ([(j, x)] ++ B) ++ [(i, y); (j, t)]) by norm.
        apply weq_app; [apply weq_refl|]. apply weq_app; [apply Ca|]. apply weq_app; [apply weq_refl|]. apply weq_app; [apply weq_sym; apply Cb|apply weq_refl].
      + replace ([(i, x)] ++ ([(j, y)] ++ A) ++ [(i, op x y)] ++ (B ++ [(j, x)]) ++ [(i, y); (j, t)])
          with (([(i, x); (j, y)] ++ A ++ [(i, op x y)] ++ B) ++ [(j, x); (i, y); (j, t)] ++ []) by norm.
        apply weq_ctx. exact Y2.
      + replace (([(i, x); (j, y)] ++ A ++ [(i, op x y)] ++ B) ++ [(i, t); (j, y); (i, x)] ++ [])
          with ([(i, x); (j, y)] ++ (A ++ [(i, op x y)] ++ B ++ [(i, t)]) ++ [(j, y); (i, x)]) by norm.
        apply weq_ctx. exact IH.
      + replace ([(i, x); (j, y)] ++ ([(i, t)] ++ B ++ [(i, op x y)] ++ A) ++ [(j, y); (i, x)])
          with ([(i, x); (j, y); (i, t)] ++ B ++ [(i, op x y)] ++ (A ++ [(j, y)]) ++ [(i, x)]) by norm.
        apply weq_app; [exact Y3|]. apply weq_app; [apply weq_refl|]. apply weq_app; [apply weq_refl|]. apply weq_app; [apply Ca|apply weq_refl].
      + eapply weq_trans.
        * replace ([(j, t); (i, y); (j, x)] ++ B ++ [(i, op x y)] ++ ([(j, y)] ++ A) ++ [(i, x)])
            with ([(j, t); (i, y)] ++ ([(j, x)] ++ B) ++ ([(i, op x y); (j, y)] ++ A ++ [(i, x)])) by norm.
          apply weq_ctx. apply weq_sym. apply Cb.
        * replace ([(j, t); (i, y)] ++ (B ++ [(j, x)]) ++ ([(i, op x y); (j, y)] ++ A ++ [(i, x)]))
            with (([(j, t); (i, y)] ++ B) ++ [(j, x); (i, op x y); (j, y)] ++ (A ++ [(i, x)])) by norm.
          replace ([(j, t)] ++ ([(i, y)] ++ B ++ [(i, y)]) ++ [(j, op x y)] ++ [(i, x)] ++ A ++ [(i, x)])
            with (([(j, t); (i, y)] ++ B) ++ [(i, y); (j, op x y); (i, x)] ++ (A ++ [(i, x)])) by norm.
          apply weq_ctx. exact Y4.
  Qed.
  Theorem Kx_sym : forall m x t, let y := op x t in weq (Kx m x ++ Kx m y) (Kx m y ++ Kx m x).
  Proof.
    intros [|m] x t y.
    - assert (M : forall z, weq (Kx 0 z) [(0, op z z)]) by (intro z; apply (weq_merge 0 z z); lia).
      assert (G : forall a b, weq (Kx 0 a ++ Kx 0 b) [(0, op (op a a) (op b b))]).
      { intros a b. eapply weq_trans; [apply weq_app; apply M|]. apply (weq_merge 0); lia. }
      eapply weq_trans; [apply G|]. rewrite op_comm. apply weq_sym. apply G.
    - set (i := Z.of_nat (S m)). assert (Hi : 0 <= i) by (unfold i; lia). rewrite !Kx_S. fold i. set (A := Kx m x). set (B := Kx m y).
      eapply weq_trans; [|eapply weq_trans; [|eapply weq_trans; [|eapply weq_trans]]].
      + replace (([(i, x)] ++ A ++ [(i, x)]) ++ [(i, y)] ++ B ++ [(i, y)]) with (([(i, x)] ++ A) ++ [(i, x); (i, y)] ++ (B ++ [(i, y)])) by norm.
        apply weq_ctx. apply weq_merge. assumption.
      + replace (([(i, x)] ++ A) ++ [(i, op x y)] ++ (B ++ [(i, y)])) with (([(i, x)] ++ A ++ [(i, op x y)] ++ B) ++ [(i, y)] ++ []) by norm.
        apply weq_ctx. replace y with (op t x) at 1 by (unfold y; apply op_comm). apply weq_sym. apply (weq_merge i t x). assumption.
      + replace (([(i, x)] ++ A ++ [(i, op x y)] ++ B) ++ [(i, t); (i, x)] ++ []) with ([(i, x)] ++ (A ++ [(i, op x y)] ++ B ++ [(i, t)]) ++ [(i, x)]) by norm.
        apply weq_ctx. apply (reflection m x t).
      + fold y i A B. replace ([(i, x)] ++ ([(i, t)] ++ B ++ [(i, op x y)] ++ A) ++ [(i, x)]) with ([] ++ [(i, x); (i, t)] ++ (B ++ [(i, op x y)] ++ A ++ [(i, x)])) by norm.
        apply weq_ctx. apply weq_merge. assumption.
      + fold y. replace ([] ++ [(i, y)] ++ (B ++ [(i, op x y)] ++ A ++ [(i, x)])) with (([(i, y)] ++ B) ++ [(i, op x y)] ++ (A ++ [(i, x)])) by norm.
        replace (([(i, y)] ++ B ++ [(i, y)]) ++ [(i, x)] ++ A ++ [(i, x)]) with (([(i, y)] ++ B) ++ [(i, y); (i, x)] ++ (A ++ [(i, x)])) by norm.
        apply weq_ctx. rewrite op_comm. apply weq_sym. apply weq_merge. assumption.
  Qed.
  Lemma hc_hw : forall x l F p, Forall (fun i => 0 <= i) l -> hc P act x l F p = hw (map (fun i => (i, x)) l) F p.
  Proof.
    intros x l F p H. revert p. induction H as [|i l Hi H IH]; intro p; [reflexivity|]. cbn [hc map hw]. unfold hg. replace (0 <=? i) with true by lia. unfold h. rewrite IH. f_equal. f_equal.
    apply U_pw. exact IH.
  Qed.
  Lemma kl_nonneg : forall m, Forall (fun i => 0 <= i) (kl m).
  Proof. intro m. apply Forall_forall. intros i Hi. apply kl_bound in Hi. lia. Qed.
  Theorem kl_comm : forall m x t F, eqv (hc P act x (kl m) (hc P act (x + t + x * t) (kl m) F)) (hc P act (x + t + x * t) (kl m) (hc P act x (kl m) F)).
  Proof.
    intros m x t F p Hp. assert (G : forall a b, hc P act a (kl m) (hc P act b (kl m) F) p = hw (Kx m a ++ Kx m b) F p).
    { intros a b. rewrite (hc_hw a (kl m) _ p (kl_nonneg m)), hw_app. fold (Kx m a). apply hw_ext; [|assumption]. intros q Hq. apply hc_hw. apply kl_nonneg. }
    rewrite !G. apply (Kx_sym m x t). assumption.
  Qed.

  (* words decreasing: the chain m, ..., 1 *)
  Fixpoint dl (m : nat) : list Z := match m with O => [] | S m' => Z.of_nat m :: dl m' end.
End TypeB.
