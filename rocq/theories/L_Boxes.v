From Coq Require Import List ZArith Lia Bool Ring.
From Verif Require Import PyBase FinSum M_Vectors L_Vectors M_Perm M_Partitions L_Perm M_Boxes.
Import ListNotations.
Local Open Scope Z_scope.

(* no two adjacent letters are equal or opposite *)
Definition normal_word (w : list Z) : Prop := forall u a b v, w = u ++ a :: b :: v -> a <> b /\ a <> - b.

Lemma bkey_eqb_eq : forall a b, bkey_eqb a b = true <-> a = b.
Proof.
  intros [b u] [c w]. unfold bkey_eqb. cbn [fst snd]. rewrite andb_true_iff, Z.eqb_eq, zlist_eqb_eq. split.
  - intros [-> ->]. reflexivity.
  - intro E. injection E as -> ->. split; reflexivity.
Qed.

Lemma nthz_app_r : forall u v i, nthz (u ++ v) (zlen u + Z.of_nat i) = nth i v 0.
Proof.
  intros u v i. unfold nthz, zlen. rewrite <- Nat2Z.inj_add, Nat2Z.id. rewrite app_nth2 by lia. f_equal. lia.
Qed.

Lemma split_at : forall w i, 0 <= i < zlen w - 1 -> exists u v, w = u ++ nthz w i :: nthz w (i + 1) :: v.
Proof.
  intros w i Hi. exists (firstn (Z.to_nat i) w), (skipn (Z.to_nat i + 2) w). unfold nthz, zlen in *.
  replace (Z.to_nat (i + 1)) with (Z.to_nat i + 1)%nat by lia.
  assert (Hn : (Z.to_nat i + 1 < length w)%nat) by lia. revert Hn. generalize (Z.to_nat i). clear.
  intro n. revert w. induction n as [|n IH]; intros w Hn.
  - destruct w as [|a [|b w]]; [simpl in Hn; lia|simpl in Hn; lia|]. reflexivity.
  - destruct w as [|a w]; [simpl in Hn; lia|]. simpl in Hn. cbn [firstn Nat.add nth skipn app]. f_equal. apply IH. lia.
Qed.

Lemma relations_spec : forall w, (normal_word w -> box_operator_relations w = [w]) /\ (~ normal_word w -> box_operator_relations w = []).
Proof.
  intro w. unfold box_operator_relations.
  destruct (existsb (fun i => nthz w i =? nthz w (i + 1)) (zrange 0 (zlen w - 1))) eqn:E1;
  [|destruct (existsb (fun i => (nthz w i =? - nthz w (i + 1)) && (0 <=? Z.abs (nthz w i))) (zrange 0 (zlen w - 1))) eqn:E2].
  - split; [|reflexivity]. intro N. exfalso. apply existsb_exists in E1. destruct E1 as (i & Hi & E). apply In_zrange in Hi.
    apply Z.eqb_eq in E. destruct (split_at w i Hi) as (u & v & S). destruct (N _ _ _ _ S). contradiction.
  - split; [|reflexivity]. intro N. exfalso. apply existsb_exists in E2. destruct E2 as (i & Hi & E). apply In_zrange in Hi.
    apply andb_true_iff in E. destruct E as [E _]. apply Z.eqb_eq in E. destruct (split_at w i Hi) as (u & v & S).
    destruct (N _ _ _ _ S). contradiction.
  - split; [reflexivity|]. intro N. exfalso. apply N. intros u a b v ->.
    assert (L : In (zlen u) (zrange 0 (zlen (u ++ a :: b :: v) - 1))).
    { apply In_zrange. rewrite zlen_app, !zlen_cons. pose proof (zlen_nonneg _ u). pose proof (zlen_nonneg _ v). lia. }
    pose proof (nthz_app_r u (a :: b :: v) 0) as A. pose proof (nthz_app_r u (a :: b :: v) 1) as B.
    cbn [nth] in A, B. replace (zlen u + Z.of_nat 0) with (zlen u) in A by lia. replace (zlen u + Z.of_nat 1) with (zlen u + 1) in B by lia.
    split; intro C.
    + apply not_true_iff_false in E1. apply E1. apply existsb_exists. exists (zlen u). split; [assumption|].
      rewrite A, B. apply Z.eqb_eq. assumption.
    + apply not_true_iff_false in E2. apply E2. apply existsb_exists. exists (zlen u). split; [assumption|].
      rewrite A, B. apply andb_true_iff. split; [apply Z.eqb_eq; assumption|apply Z.leb_le; lia].
Qed.

Fixpoint normalb (w : list Z) : bool :=
  match w with
  | a :: ((b :: _) as t) => negb (a =? b) && negb (a =? - b) && normalb t
  | _ => true
  end.

Lemma normalb_spec : forall w, normalb w = true <-> normal_word w.
Proof.
  induction w as [|a w IH]; [split; [intros _ u a b v C; destruct u; discriminate|reflexivity]|].
  destruct w as [|b w]; [split; [intros _ u x y v C; destruct u as [|c [|d u]]; discriminate|reflexivity]|].
  assert (E : normalb (a :: b :: w) = negb (a =? b) && negb (a =? - b) && normalb (b :: w)) by reflexivity.
  rewrite E, !andb_true_iff, !negb_true_iff, !Z.eqb_neq, IH. split.
  - intros [[H1 H2] H3] u x y v S. destruct u as [|c u].
    + injection S as -> -> _. split; assumption.
    + injection S as _ S. apply (H3 u x y v S).
  - intro N. destruct (N [] a b w eq_refl) as [H1 H2]. repeat split; try assumption;
      destruct (N (a :: u) a0 b0 v) as [H3 H4]; (rewrite H; reflexivity) || assumption.
Qed.

Lemma relations_normalb : forall w, box_operator_relations w = if normalb w then [w] else [].
Proof.
  intro w. destruct (relations_spec w) as [H1 H2]. destruct (normalb w) eqn:E.
  - apply H1, normalb_spec, E.
  - apply H2. rewrite <- normalb_spec, E. discriminate.
Qed.

Lemma normal_sub : forall u v w, normal_word (u ++ v ++ w) -> normal_word v.
Proof.
  intros u v w N p a b q E. apply (N (u ++ p) a b (q ++ w)). rewrite E, <- !app_assoc. reflexivity.
Qed.


Section BoxFacts.
  Context {R : Type} (rO rI : R) (radd rmul rsub : R -> R -> R) (ropp : R -> R) (rzero : R -> bool).
  Hypothesis Rth : ring_theory rO rI radd rmul rsub ropp (@eq R).
  Hypothesis Hz : forall x, rzero x = true <-> x = rO.
  Add Ring Rring : Rth.
  Local Notation vwf := (@vwf bkey R rO).
  Local Notation vget := (@vget bkey R bkey_eqb rO).
  Local Notation lin := (@lin R rO radd rmul bkey).
  Local Notation bmul := (bmul rO rI radd rmul rzero).
  Local Notation bone := (bone rI rzero).
  Local Notation mcoef := (mcoef bkey_eqb rO radd (box_mult rI)).

  Lemma box_mult_eq : forall a b, box_mult rI a b = if normalb (snd a ++ snd b) then [((fst a + fst b, snd a ++ snd b), rI)] else [].
  Proof. intros a b. unfold box_mult. rewrite relations_normalb. destruct (normalb (snd a ++ snd b)); reflexivity. Qed.

  Lemma box_mcoef : forall a b m, mcoef a b m =
    if normalb (snd a ++ snd b) then if bkey_eqb (fst a + fst b, snd a ++ snd b) m then rI else rO else rO.
  Proof.
    intros a b m. unfold L_Vectors.mcoef. rewrite box_mult_eq. destruct (normalb (snd a ++ snd b)); cbn; [|reflexivity].
    destruct (bkey_eqb _ m); ring.
  Qed.

  Lemma box_mult_assoc : mult_assoc bkey_eqb rO radd rmul (box_mult rI).
  Proof.
    intros a b c m. rewrite !box_mult_eq.
    assert (L : forall (l : bool) (G : bkey -> R) k, lsum rO radd (fun ab => rmul (snd ab) (G (fst ab))) (if l then [(k, rI)] else []) = if l then G k else rO).
    { intros l G k. destruct l; cbn; ring. }
    rewrite (L (normalb (snd a ++ snd b)) (fun x => mcoef x c m)), (L (normalb (snd b ++ snd c)) (fun x => mcoef a x m)).
    rewrite !box_mcoef. cbn [fst snd]. rewrite <- app_assoc, Z.add_assoc.
    destruct (normalb (snd a ++ snd b ++ snd c)) eqn:N.
    - apply normalb_spec in N.
      assert (N1 : normalb (snd a ++ snd b) = true) by (apply normalb_spec, (normal_sub [] _ (snd c)); rewrite <- app_assoc; exact N).
      assert (N2 : normalb (snd b ++ snd c) = true) by (apply normalb_spec, (normal_sub (snd a) _ []); rewrite app_nil_r; exact N).
      rewrite N1, N2. reflexivity.
    - destruct (normalb (snd a ++ snd b)), (normalb (snd b ++ snd c)); reflexivity.
  Qed.

  Lemma word_wf : forall k, vwf (vmake rzero [(k, rI)]).
  Proof. intro k. apply vmake_wf; [assumption|]. repeat constructor. intros []. Qed.

  Lemma word_eq : forall k : bkey, rI <> rO -> vmake rzero [(k, rI)] = [(k, rI)].
  Proof.
    intros k H. unfold vmake. cbn [filter snd]. destruct (rzero rI) eqn:E; [|reflexivity]. apply Hz in E. contradiction.
  Qed.

  Lemma lin_word : forall k F, rI <> rO -> lin (vmake rzero [(k, rI)]) F = F k.
  Proof. intros k F H. rewrite (word_eq k H). unfold FinSum.lin, lsum. cbn. ring. Qed.

  Lemma vget_lin : forall v k, vwf v -> vget v k = lin v (fun x => if bkey_eqb x k then rI else rO).
  Proof. intros v k H. apply (dget0_lin rO rI radd rmul rsub ropp Rth bkey_eqb bkey_eqb_eq). apply H. Qed.

  Lemma bmul_get : forall u v m, vget (bmul u v) m = lin u (fun a => lin v (fun b => mcoef a b m)).
  Proof. intros. apply (vmul_get_lin bkey_eqb bkey_eqb_eq rO rI radd rmul rsub ropp rzero Rth Hz). Qed.

  Lemma lin_select : forall v m, vwf v ->
    lin v (fun b => if normalb (snd b) then if bkey_eqb b m then rI else rO else rO) = if normalb (snd m) then vget v m else rO.
  Proof.
    intros v m Hv. rewrite (vget_lin v m Hv). destruct (normalb (snd m)) eqn:N.
    - apply lin_F_ext. intros k _. destruct (bkey_eqb k m) eqn:E; [|destruct (normalb (snd k)); reflexivity].
      apply bkey_eqb_eq in E. subst k. rewrite N. reflexivity.
    - unfold FinSum.lin. apply (lsum_zero rO rI radd rmul rsub ropp Rth). intros [k x] _. cbn [fst snd].
      destruct (bkey_eqb k m) eqn:E; [|destruct (normalb (snd k)); ring].
      apply bkey_eqb_eq in E. subst k. rewrite N. ring.
  Qed.

  Lemma one_mul_get : forall v m, vwf v -> rI <> rO -> vget (bmul bone v) m = if normalb (snd m) then vget v m else rO.
  Proof.
    intros v m Hv H1. rewrite bmul_get. unfold M_Boxes.bone. rewrite lin_word by assumption. rewrite <- (lin_select v m Hv).
    apply lin_F_ext. intros [b w] _. rewrite box_mcoef. reflexivity.
  Qed.

  Lemma mul_one_get : forall v m, vwf v -> rI <> rO -> vget (bmul v bone) m = if normalb (snd m) then vget v m else rO.
  Proof.
    intros v m Hv H1. rewrite bmul_get. rewrite <- (lin_select v m Hv).
    apply lin_F_ext. intros [b w] _. unfold M_Boxes.bone. rewrite lin_word by assumption. rewrite box_mcoef. cbn [fst snd].
    rewrite app_nil_r, Z.add_0_r. reflexivity.
  Qed.

  Lemma unit_iff : forall v w, vwf v -> vwf w -> (forall m, vget w m = if normalb (snd m) then vget v m else rO) ->
    (beq rO rsub rzero w v = true <-> forall b x, In (b, x) (map fst v) -> normal_word x).
  Proof.
    intros v w Hv Hw H. unfold beq. rewrite (veq_spec bkey_eqb bkey_eqb_eq rO rI radd rmul rsub ropp rzero Rth Hz w v Hw Hv). split.
    - intros E b x Hin. destruct (normalb x) eqn:N; [apply normalb_spec; assumption|]. exfalso.
      specialize (E (b, x)). rewrite H in E. cbn [snd] in E. rewrite N in E.
      apply in_map_iff in Hin. destruct Hin as ([k c] & Ek & Hin). cbn [fst] in Ek. subst k.
      destruct Hv as [Hnd Hnz]. rewrite Forall_forall in Hnz. apply (Hnz _ Hin). cbn [snd].
      unfold M_Vectors.vget, dget0 in E. rewrite (In_dget bkey_eqb bkey_eqb_eq v (b, x) c Hnd Hin) in E. symmetry. assumption.
    - intros N m. rewrite H. destruct (normalb (snd m)) eqn:E; [reflexivity|].
      symmetry. apply (vget_notin bkey_eqb bkey_eqb_eq). intro Hin. destruct m as [b x]. specialize (N b x Hin).
      apply normalb_spec in N. cbn [snd] in E. rewrite N in E. discriminate.
  Qed.

  Lemma word_mul_get : forall b u c w m, rI <> rO ->
    vget (bmul (vmake rzero [((b, u), rI)]) (vmake rzero [((c, w), rI)])) m =
    if normalb (u ++ w) then if bkey_eqb (b + c, u ++ w) m then rI else rO else rO.
  Proof. intros b u c w m H1. rewrite bmul_get, !lin_word by assumption. rewrite box_mcoef. reflexivity. Qed.

  Lemma lin_vsub : forall u v F, vwf u -> vwf v ->
    lin (vsub bkey_eqb rO rsub rzero u v) F = rsub (lin u F) (lin v F).
  Proof.
    intros u v F Hu Hv.
    assert (E : lin u F = radd (lin (vsub bkey_eqb rO rsub rzero u v) F) (lin v F)).
    { apply (lin_plus_get rO rI radd rmul rsub ropp Rth bkey_eqb bkey_eqb_eq).
      - apply Hu.
      - apply (vsub_wf bkey_eqb bkey_eqb_eq rO rsub rzero Hz); assumption.
      - apply Hv.
      - intro k. change (vget u k = radd (vget (vsub bkey_eqb rO rsub rzero u v) k) (vget v k)).
        rewrite (vsub_get bkey_eqb bkey_eqb_eq rO rI radd rmul rsub ropp rzero Rth Hz) by assumption. ring. }
    rewrite E. ring.
  Qed.
End BoxFacts.
