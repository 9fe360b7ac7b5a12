(* Two consecutive letters: the generating function of the pairs of horizontal strips
   kappa -> tau -> mu is symmetric in the two letters (row by row). *)
From Coq Require Import List ZArith Lia Bool Permutation.
From Verif Require Import PyBase L_Count.
Import ListNotations.
Local Open Scope Z_scope.

Lemma zs_perm : forall A (f : A -> Z) l m, Permutation l m -> zs f l = zs f m.
Proof. intros A f l m P. induction P; rewrite ?zs_cons; lia. Qed.

Lemma zs_same : forall A (f : A -> Z) l m, NoDup l -> NoDup m -> (forall x, In x l <-> In x m) -> zs f l = zs f m.
Proof. intros A f l m Nl Nm H. apply zs_perm. apply NoDup_Permutation; assumption. Qed.

Lemma zs_reflect : forall (f : Z -> Z) a b, zs f (zrange a (b + 1)) = zs (fun t => f (a + b - t)) (zrange a (b + 1)).
Proof.
  intros f a b. rewrite <- (zs_map _ _ (fun t => a + b - t) f). apply zs_same; [apply NoDup_zrange| |].
  - apply FinFun.Injective_map_NoDup; [|apply NoDup_zrange]. intros x y H. lia.
  - intro t. rewrite in_map_iff, In_zrange. split.
    + intro H. exists (a + b - t). split; [lia|]. apply In_zrange. lia.
    + intros (u & <- & H). apply In_zrange in H. lia.
Qed.
Lemma zs_shift : forall (f : Z -> Z) a b, zs (fun t => f (t + 1)) (zrange a b) = zs f (zrange (a + 1) (b + 1)).
Proof.
  intros f a b. rewrite <- (zs_map _ _ (fun t => t + 1) f). apply zs_same; [|apply NoDup_zrange|].
  - apply FinFun.Injective_map_NoDup; [|apply NoDup_zrange]. intros x y H. lia.
  - intro t. rewrite in_map_iff, In_zrange. split.
    + intros (u & <- & H). apply In_zrange in H. lia.
    + intro H. exists (t - 1). split; [lia|]. apply In_zrange. lia.
Qed.

Definition pw (b : bool) (z : Z) : Z := if b then z else 1.

Section Two.
  Variable e : Z.

  Definition G (a b : bool) (x y : Z) (A B : Z) : Z :=
    zs (fun t => y ^ (t - A) * x ^ (B - t) * pw (a && (A <? t)) (1 + e * x) * pw (b && (t <? B)) (1 + e * y)) (zrange A (B + 1)).

  Lemma G_reflect : forall a b x y A B, G a b x y A B = G b a y x A B.
  Proof.
    intros a b x y A B. unfold G. rewrite zs_reflect. apply zs_ext. intros t Ht.
    replace (A + B - t - A) with (B - t) by lia. replace (B - (A + B - t)) with (t - A) by lia.
    replace (A <? A + B - t) with (t <? B) by (apply eq_true_iff_eq; rewrite !Z.ltb_lt; lia).
    replace (A + B - t <? B) with (A <? t) by (apply eq_true_iff_eq; rewrite !Z.ltb_lt; lia). lia.
  Qed.
  Lemma G_tf : forall x y A B, G true false x y A B = G false true x y A B.
  Proof.
    intros x y A B. unfold G. destruct (Z_lt_le_dec B A) as [C|C]; [rewrite zrange_nil by lia; reflexivity|].
    set (h := fun t => y ^ (t - A) * x ^ (B - t)).
    transitivity (zs h (zrange A (B + 1)) + e * zs (fun t => y ^ (t - A) * x ^ (B - t + 1)) (zrange (A + 1) (B + 1))).
    - rewrite (zrange_cons A (B + 1)) by lia. rewrite !zs_cons. rewrite Z.ltb_irrefl. cbn [andb pw]. rewrite <- zs_scale, <- Z.add_assoc, <- zs_plus. f_equal; [subst h; cbn; lia|].
      apply zs_ext. intros t Ht. apply In_zrange in Ht. replace (A <? t) with true by (symmetry; apply Z.ltb_lt; lia). cbn [pw]. unfold h. rewrite Z.pow_add_r by lia. lia.
    - symmetry. rewrite (zrange_snoc A (B + 1)) by lia. replace (B + 1 - 1) with B by lia. rewrite !zs_app, !zs_cons, !zs_nil. rewrite Z.ltb_irrefl. cbn [andb pw].
      rewrite <- (zs_shift (fun t => y ^ (t - A) * x ^ (B - t + 1)) A B), <- zs_scale.
      transitivity (zs (fun t => h t + e * (y ^ (t + 1 - A) * x ^ (B - (t + 1) + 1))) (zrange A B) + h B); [|rewrite zs_plus; lia].
      f_equal; [|subst h; cbn; lia]. apply zs_ext. intros t Ht. apply In_zrange in Ht. replace (t <? B) with true by (symmetry; apply Z.ltb_lt; lia). cbn [pw]. unfold h.
      replace (t + 1 - A) with (t - A + 1) by lia. replace (B - (t + 1) + 1) with (B - t) by lia. rewrite Z.pow_add_r by lia. lia.
  Qed.
  Lemma G_sym : forall a b x y A B, G a b x y A B = G a b y x A B.
  Proof.
    intros a b x y A B. rewrite G_reflect. destruct a, b; [reflexivity|apply eq_sym, G_tf|apply G_tf|reflexivity].
  Qed.

  (* the previous row: its length in kappa and in lam *)
  Definition corner (prev : option (Z * Z)) (t : Z) : bool := match prev with None => false | Some (k, l) => Z.max t l <? k end.
  Definition cap (prev : option (Z * Z)) (m : Z) : Z := match prev with None => m | Some (k, _) => Z.min m k end.
  Definition over (prev : option (Z * Z)) (m : Z) : Z := match prev with None => 0 | Some (k, _) => Z.max 0 (m - k) end.
  Definition okp (prev : option (Z * Z)) : Prop := match prev with None => True | Some (k, l) => 0 <= l <= k end.

  Definition hd0 (l : list Z) : Z := match l with [] => 0 | a :: _ => a end.
  Definition rowsum (x y : Z) (prev : option (Z * Z)) (l k m m' : Z) : Z :=
    zs (fun t => y ^ (t - k) * x ^ (m - t) * pw (Z.max m' l <? t) (1 + e * x) * pw (corner prev t) (1 + e * y)) (zrange (Z.max k m') (cap prev m + 1)).
  Fixpoint two (x y : Z) (prev : option (Z * Z)) (lam kap mu : list Z) : Z :=
    match lam, kap, mu with
    | l :: lam', k :: kap', m :: mu' => rowsum x y prev l k m (hd0 mu') * two x y (Some (k, l)) lam' kap' mu'
    | _, _, _ => pw (corner prev 0) (1 + e * y)
    end.

  Lemma rowsum_G : forall x y prev l k m m', okp prev -> l <= k -> Z.max k m' <= cap prev m ->
    rowsum x y prev l k m m' = y ^ over (Some (k, l)) m' * x ^ over prev m * pw (corner (Some (k, l)) m') (1 + e * x) * pw (corner prev m) (1 + e * y) *
      G (negb (corner (Some (k, l)) m')) (match prev with None => false | Some (kp, lp) => negb (corner prev m) && (lp <? kp) end) x y (Z.max k m') (cap prev m).
  Proof.
    intros x y prev l k m m' Hp Hl HAB. unfold rowsum, G. rewrite <- zs_scale. apply zs_ext. intros t Ht. apply In_zrange in Ht.
    remember (Z.max k m') as A eqn:EA. remember (cap prev m) as B eqn:EB.
    assert (E1 : y ^ (t - k) = y ^ over (Some (k, l)) m' * y ^ (t - A)) by (rewrite <- Z.pow_add_r; [f_equal; cbn [over]; lia|cbn [over]; lia|lia]).
    assert (E2 : x ^ (m - t) = x ^ over prev m * x ^ (B - t)).
    { rewrite <- Z.pow_add_r; [f_equal; rewrite EB; destruct prev as [[kp lp]|]; cbn [over cap]; lia|destruct prev as [[kp lp]|]; cbn [over]; lia|lia]. }
    assert (E3 : pw (Z.max m' l <? t) (1 + e * x) = pw (corner (Some (k, l)) m') (1 + e * x) * pw (negb (corner (Some (k, l)) m') && (A <? t)) (1 + e * x)).
    { cbn [corner]. destruct (Z.ltb_spec (Z.max m' l) k) as [C|C]; cbn [negb andb pw].
      - replace (Z.max m' l <? t) with true by (symmetry; apply Z.ltb_lt; lia). cbn [pw]. lia.
      - assert (EE : (A <? t) = (Z.max m' l <? t)) by (destruct (Z.ltb_spec A t), (Z.ltb_spec (Z.max m' l) t); try reflexivity; exfalso; clear - EA Hl C Ht H H0; lia).
        rewrite EE. ring. }
    assert (E4 : pw (corner prev t) (1 + e * y) = pw (corner prev m) (1 + e * y) *
      pw ((match prev with None => false | Some (kp, lp) => negb (corner prev m) && (lp <? kp) end) && (t <? B)) (1 + e * y)).
    { clear E1 E2 E3 HAB. destruct prev as [[kp lp]|]; [|cbn; lia]. cbn [corner okp cap] in Hp, EB |- *. destruct (Z.ltb_spec (Z.max m lp) kp) as [C|C]; cbn [negb andb pw].
      - replace (Z.max t lp <? kp) with true by (symmetry; apply Z.ltb_lt; lia). cbn [pw]. lia.
      - destruct (Z.ltb_spec lp kp) as [D|D]; cbn [andb].
        + assert (EE : (t <? B) = (Z.max t lp <? kp)) by (destruct (Z.ltb_spec t B), (Z.ltb_spec (Z.max t lp) kp); try reflexivity; exfalso; clear - EB Hp C D Ht H H0; lia).
          rewrite EE. ring.
        + replace (Z.max t lp <? kp) with false by (symmetry; apply Z.ltb_ge; lia). cbn [pw]. lia. }
    rewrite E1, E2, E3, E4. ring.
  Qed.

  Lemma two_sym : forall x y lam kap mu prev, length lam = length mu -> length kap = length mu -> okp prev -> Forall2 (fun l k => 0 <= l <= k) lam kap ->
    y ^ over prev (hd0 mu) * pw (corner prev (hd0 mu)) (1 + e * x) * two x y prev lam kap mu =
    x ^ over prev (hd0 mu) * pw (corner prev (hd0 mu)) (1 + e * y) * two y x prev lam kap mu.
  Proof.
    intros x y. induction lam as [|l lam IH]; intros [|k kap] [|m mu] prev L1 L2 Hp F; try discriminate.
    - cbn [two hd0]. destruct prev as [[kp lp]|]; [|cbn; lia]. cbn [over okp] in *. replace (Z.max 0 (0 - kp)) with 0 by lia. lia.
    - inversion F as [|? ? ? ? F1 F2]; subst. cbn [two hd0]. specialize (IH kap mu (Some (k, l)) ltac:(cbn in *; lia) ltac:(cbn in *; lia) F1 F2).
      destruct (Z_lt_le_dec (cap prev m) (Z.max k (hd0 mu))) as [C|C].
      { unfold rowsum. rewrite zrange_nil by lia. rewrite !zs_nil. lia. }
      rewrite !rowsum_G by (assumption || lia). rewrite (G_sym _ _ y x).
      set (g := G _ _ x y _ _). set (d := over prev m). set (d' := over (Some (k, l)) (hd0 mu)) in *. set (p := corner prev m). set (p' := corner (Some (k, l)) (hd0 mu)) in *.
      set (tx := two x y (Some (k, l)) lam kap mu) in *. set (ty := two y x (Some (k, l)) lam kap mu) in *.
      transitivity (y ^ d * x ^ d * pw p (1 + e * x) * pw p (1 + e * y) * g * (y ^ d' * pw p' (1 + e * x) * tx)); [ring|]. rewrite IH. ring.
  Qed.

  (* one strip kappa -> mu *)
  Fixpoint hw (x : Z) (lam kap mu : list Z) : Z :=
    match lam, kap, mu with
    | l :: lam', k :: kap', m :: mu' => x ^ (m - k) * pw (Z.max (hd0 mu') l <? k) (1 + e * x) * hw x lam' kap' mu'
    | _, _, _ => 1
    end.
  Fixpoint strips (lam mu : list Z) : list (list Z) :=
    match lam, mu with
    | l :: lam', m :: mu' => flat_map (fun k => map (cons k) (strips lam' mu')) (zrange (Z.max (hd0 mu') l) (m + 1))
    | _, _ => [[]]
    end.
  (* what lies between kappa and mu *)
  Fixpoint mids (prev : option (Z * Z)) (kap mu : list Z) : list (list Z) :=
    match kap, mu with
    | k :: kap', m :: mu' => flat_map (fun t => map (cons t) (mids (Some (k, 0)) kap' mu')) (zrange (Z.max k (hd0 mu')) (cap prev m + 1))
    | _, _ => [[]]
    end.

  Lemma zs_flat_map : forall A B (f : B -> Z) (g : A -> list B) l, zs f (flat_map g l) = zs (fun a => zs f (g a)) l.
  Proof. intros A B f g l. induction l as [|a l IH]; [reflexivity|]. cbn [flat_map]. rewrite zs_app, zs_cons, IH. reflexivity. Qed.

  Lemma cap_fst : forall k l l' m, cap (Some (k, l)) m = cap (Some (k, l')) m.
  Proof. reflexivity. Qed.
  Lemma mids_fst : forall k l l' kap mu, mids (Some (k, l)) kap mu = mids (Some (k, l')) kap mu.
  Proof. intros k l l' [|a kap] [|m mu]; reflexivity. Qed.

  Lemma two_spec : forall x y lam kap mu prev, length lam = length mu -> length kap = length mu ->
    zs (fun t => pw (corner prev (hd0 t)) (1 + e * y) * hw x lam t mu * hw y lam kap t) (mids prev kap mu) = two x y prev lam kap mu.
  Proof.
    intros x y. induction lam as [|l lam IH]; intros [|k kap] [|m mu] prev L1 L2; try discriminate.
    - cbn [mids two]. rewrite zs_cons, zs_nil. cbn [hd0 hw]. lia.
    - cbn [mids two]. rewrite zs_flat_map. unfold rowsum. rewrite (Z.mul_comm (zs _ _)), <- zs_scale. apply zs_ext. intros t Ht.
      rewrite zs_map. rewrite <- (IH kap mu (Some (k, l)) ltac:(cbn in *; lia) ltac:(cbn in *; lia)), (mids_fst k 0 l).
      rewrite (Z.mul_comm (zs _ _)), <- zs_scale. apply zs_ext. intros ts Hts. cbn [hw hd0 corner]. ring.
  Qed.
End Two.
