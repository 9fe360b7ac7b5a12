(* Commuting families of decreasing words for actions of the 0-Hecke monoid. *)
From Coq Require Import List ZArith Lia Bool Permutation Arith.
From Verif Require Import PyBase.
Import ListNotations.
Local Open Scope Z_scope.

(* ---- integer polynomials vanishing everywhere ---- *)
Fixpoint zpol (c : list Z) (x : Z) : Z := match c with [] => 0 | a :: c' => a + x * zpol c' x end.
Lemma zpol_zero : forall c, (forall x, 0 < x -> zpol c x = 0) -> Forall (fun a => a = 0) c.
Proof.
  induction c as [|a c IH]; intro H; [constructor|]. cbn [zpol] in H.
  assert (a = 0).
  { specialize (H (Z.abs a + 1) ltac:(lia)). set (q := zpol c (Z.abs a + 1)) in H.
    destruct (Z.eq_dec q 0) as [E|E]; [rewrite E in H; lia|].
    destruct (Z.abs_spec a) as [[_ Ea]|[_ Ea]]; rewrite Ea in H; destruct (Z_lt_ge_dec 0 q); nia. }
  constructor; [assumption|]. apply IH. intros x Hx. specialize (H x Hx). subst a. cbn in H. nia.
Qed.
Fixpoint sumn (n : nat) (f : nat -> Z) : Z := match n with O => f 0%nat | S k => sumn k f + f (S k) end.
Lemma sumn_ext : forall n f g, (forall i, (i <= n)%nat -> f i = g i) -> sumn n f = sumn n g.
Proof. induction n as [|n IH]; intros f g H; cbn [sumn]; [apply H; lia|]. rewrite (IH f g) by (intros; apply H; lia). rewrite H by lia. reflexivity. Qed.
Lemma sumn_add : forall n f g, sumn n (fun i => f i + g i) = sumn n f + sumn n g.
Proof. induction n as [|n IH]; intros; cbn [sumn]; [reflexivity|]. rewrite IH. ring. Qed.
Lemma sumn_mul : forall n c f, sumn n (fun i => c * f i) = c * sumn n f.
Proof. induction n as [|n IH]; intros; cbn [sumn]; [reflexivity|]. rewrite IH. ring. Qed.
Lemma sumn_head : forall n f, sumn (S n) f = f 0%nat + sumn n (fun i => f (S i)).
Proof. induction n as [|n IH]; intro f; [reflexivity|]. cbn [sumn] in *. rewrite IH. cbn [sumn]. ring. Qed.
Lemma sumn_zpol : forall n c x, sumn n (fun i => x ^ Z.of_nat i * c i) = zpol (map c (seq 0 (S n))) x.
Proof.
  assert (G : forall n c x k, zpol (map c (seq k (S n))) x = sumn n (fun i => x ^ Z.of_nat i * c (k + i)%nat)).
  { induction n as [|n IH]; intros c x k.
    - cbn [seq map zpol sumn]. replace (k + 0)%nat with k by lia. change (Z.of_nat 0) with 0. rewrite Z.pow_0_r. ring.
    - rewrite sumn_head. change (zpol (map c (seq k (S (S n)))) x) with (c k + x * zpol (map c (seq (S k) (S n))) x). rewrite IH, <- sumn_mul.
      replace (k + 0)%nat with k by lia. change (Z.of_nat 0) with 0. rewrite Z.pow_0_r, Z.mul_1_l. f_equal. apply sumn_ext. intros i _. rewrite Nat2Z.inj_succ, Z.pow_succ_r by lia.
      replace (k + S i)%nat with (S k + i)%nat by lia. ring. }
  intros n c x. rewrite G. apply sumn_ext. intros. reflexivity.
Qed.
Lemma sumn_zero : forall n c, (forall x, 0 < x -> sumn n (fun i => x ^ Z.of_nat i * c i) = 0) -> forall i, (i <= n)%nat -> c i = 0.
Proof.
  intros n c H i Hi. assert (F : Forall (fun a => a = 0) (map c (seq 0 (S n)))) by (apply zpol_zero; intros x Hx; rewrite <- sumn_zpol; auto).
  rewrite Forall_forall in F. apply F. apply in_map. apply in_seq. lia.
Qed.
Lemma sumn2_eq : forall n c d, (forall x y, 0 < x -> 0 < y -> sumn n (fun i => x ^ Z.of_nat i * sumn n (fun j => y ^ Z.of_nat j * c i j)) = sumn n (fun i => x ^ Z.of_nat i * sumn n (fun j => y ^ Z.of_nat j * d i j))) ->
  forall i j, (i <= n)%nat -> (j <= n)%nat -> c i j = d i j.
Proof.
  intros n c d H i j Hi Hj. assert (E : forall y, 0 < y -> sumn n (fun j => y ^ Z.of_nat j * (c i j - d i j)) = 0).
  { intros y Hy. pattern i. match goal with |- ?P i => set (Q := P) end. revert i Hi. subst Q. cbv beta. apply sumn_zero. intros x Hx. specialize (H x y Hx Hy).
    rewrite (sumn_ext _ _ (fun i => x ^ Z.of_nat i * sumn n (fun j => y ^ Z.of_nat j * c i j) + -1 * (x ^ Z.of_nat i * sumn n (fun j => y ^ Z.of_nat j * d i j)))).
    - rewrite sumn_add, sumn_mul, H. ring.
    - intros i _. rewrite (sumn_ext _ (fun j => y ^ Z.of_nat j * (c i j - d i j)) (fun j => y ^ Z.of_nat j * c i j + -1 * (y ^ Z.of_nat j * d i j))) by (intros; ring).
      rewrite sumn_add, sumn_mul. ring. }
  pose proof (sumn_zero n (fun j => c i j - d i j) E j Hj). cbv beta in *. lia.
Qed.

(* ---- the operators ---- *)
Section Action.
  Variable P : Type.
  Variable valid : P -> Prop.
  Variable act : P -> Z -> option P.
  Variable N : nat.                       (* letters 1, ..., N *)
  Definition letter (i : Z) : Prop := 1 <= i <= Z.of_nat N.
  Hypothesis act_valid : forall p i q, valid p -> letter i -> act p i = Some q -> valid q.

  Definition U (i : Z) (F : P -> Z) (p : P) : Z := match act p i with Some q => F q | None => 0 end.
  Hypothesis U_idem : forall i F p, valid p -> letter i -> U i (U i F) p = U i F p.
  Hypothesis U_braid : forall i F p, valid p -> letter i -> letter (i + 1) -> U i (U (i + 1) (U i F)) p = U (i + 1) (U i (U (i + 1) F)) p.
  Hypothesis U_comm : forall i j F p, valid p -> letter i -> letter j -> i + 1 < j -> U i (U j F) p = U j (U i F) p.

  Definition eqv (F G : P -> Z) : Prop := forall p, valid p -> F p = G p.
  Lemma U_ext : forall i F G, letter i -> eqv F G -> eqv (U i F) (U i G).
  Proof. intros i F G Hi E p Hp. unfold U. destruct (act p i) as [q|] eqn:A; [|reflexivity]. apply E. eapply act_valid; eassumption. Qed.
  Lemma U_lin : forall i F G c p, U i (fun p => F p + c * G p) p = U i F p + c * U i G p.
  Proof. intros. unfold U. destruct (act p i); ring. Qed.
  Lemma U_scale : forall i c F p, U i (fun p => c * F p) p = c * U i F p.
  Proof. intros. unfold U. destruct (act p i); ring. Qed.

  Definition h (i x : Z) (F : P -> Z) (p : P) : Z := F p + x * U i F p.
  Lemma h_ext : forall i x F G, letter i -> eqv F G -> eqv (h i x F) (h i x G).
  Proof. intros i x F G Hi E p Hp. unfold h. rewrite (E p Hp), (U_ext i F G Hi E p Hp). reflexivity. Qed.
  Lemma U_h : forall i j x F p, U i (h j x F) p = U i F p + x * U i (U j F) p.
  Proof. intros. unfold h. apply (U_lin i F (U j F) x). Qed.

  Fixpoint Dx (m : nat) (x : Z) (F : P -> Z) : P -> Z :=
    match m with O => F | S m' => h (Z.of_nat m) x (Dx m' x F) end.
  Lemma Dx_ext : forall m x F G, (m <= N)%nat -> eqv F G -> eqv (Dx m x F) (Dx m x G).
  Proof. induction m as [|m IH]; intros x F G Hm E; [exact E|]. cbn [Dx]. apply h_ext; [unfold letter; lia|]. apply IH; [lia|assumption]. Qed.

  Lemma h_comm : forall i j x y F, letter i -> letter j -> i + 1 < j -> eqv (h i x (h j y F)) (h j y (h i x F)).
  Proof. intros i j x y F Hi Hj Hl p Hp. unfold h at 1 3. rewrite !U_h. unfold h. rewrite (U_comm i j F p Hp Hi Hj Hl). ring. Qed.
  Lemma Dx_comm : forall m j x y F, letter j -> (m <= N)%nat -> Z.of_nat m + 1 < j -> eqv (Dx m x (h j y F)) (h j y (Dx m x F)).
  Proof.
    induction m as [|m IH]; intros j x y F Hj Hm Hl p Hp; [reflexivity|]. cbn [Dx].
    rewrite (h_ext (Z.of_nat (S m)) x _ _ ltac:(unfold letter; lia) (IH j x y F Hj ltac:(lia) ltac:(lia)) p Hp).
    apply h_comm; [unfold letter; lia|assumption|lia|assumption].
  Qed.

  (* the factor of one more letter *)
  Lemma exchange : forall b x y G p, valid p -> letter b -> letter (b + 1) ->
    let a := b + 1 in
    h a x (h b x (h a y G)) p =
    (let K := h b x G in K p + (x + y + x * y) * U a K p + x * y * (U b (U a K) p - U a (U b K) p)).
  Proof.
    intros b x y G p Hp Hb Ha a. cbv zeta. fold a in Ha.
    assert (R1 : U a (U a G) p = U a G p) by (apply U_idem; assumption).
    assert (R2 : U a (U b (U b G)) p = U a (U b G) p) by (apply U_ext; [assumption| |assumption]; intros q Hq; apply U_idem; assumption).
    assert (R3 : U b (U a (U b G)) p = U a (U b (U a G)) p) by (apply U_braid; assumption).
    assert (L3 : U a (h b x (h a y G)) p = U a (h a y G) p + x * U a (U b (h a y G)) p) by apply U_h.
    assert (L4 : U a (U b (h a y G)) p = U a (U b G) p + y * U a (U b (U a G)) p).
    { rewrite (U_ext a (U b (h a y G)) (fun q => U b G q + y * U b (U a G) q) Ha (fun q _ => U_h b a y G q) p Hp). apply U_lin. }
    assert (L5 : U a (U b (h b x G)) p = U a (U b G) p + x * U a (U b (U b G)) p).
    { rewrite (U_ext a (U b (h b x G)) (fun q => U b G q + x * U b (U b G) q) Ha (fun q _ => U_h b b x G q) p Hp). apply U_lin. }
    assert (L6 : U b (U a (h b x G)) p = U b (U a G) p + x * U b (U a (U b G)) p).
    { rewrite (U_ext b (U a (h b x G)) (fun q => U a G q + x * U a (U b G) q) Hb (fun q _ => U_h a b x G q) p Hp). apply U_lin. }
    change (h a x (h b x (h a y G)) p) with ((G p + y * U a G p + x * U b (h a y G) p) + x * U a (h b x (h a y G)) p).
    rewrite L3, L4, L5, L6. rewrite !U_h. unfold h. rewrite R1, R2, R3. ring.
  Qed.
  Definition Ex (m : nat) (x y : Z) (K : P -> Z) (p : P) : Z :=
    match m with
    | O => K p
    | S O => K p + (x + y + x * y) * U 1 K p
    | S m' => K p + (x + y + x * y) * U (Z.of_nat m) K p + x * y * (U (Z.of_nat m') (U (Z.of_nat m) K) p - U (Z.of_nat m) (U (Z.of_nat m') K) p)
    end.
  Lemma Ex_ext : forall m x y F G, (m <= N)%nat -> eqv F G -> eqv (Ex m x y F) (Ex m x y G).
  Proof.
    intros [|[|m]] x y F G Hm E p Hp; [apply E; assumption| |].
    - cbn [Ex]. rewrite (E p Hp), (U_ext 1 F G ltac:(unfold letter; lia) E p Hp). reflexivity.
    - cbn [Ex]. assert (A : letter (Z.of_nat (S (S m)))) by (unfold letter; lia). assert (B : letter (Z.of_nat (S m))) by (unfold letter; lia).
      rewrite (E p Hp), (U_ext _ F G A E p Hp), (U_ext _ _ _ B (U_ext _ F G A E) p Hp), (U_ext _ _ _ A (U_ext _ F G B E) p Hp). reflexivity.
  Qed.
  Lemma Ex_sym : forall m x y K p, Ex m x y K p = Ex m y x K p.
  Proof. intros [|[|m]] x y K p; cbn [Ex]; ring. Qed.

  Lemma Dx_peel : forall m x y F, (S m <= N)%nat -> eqv (Dx (S m) x (Dx (S m) y F)) (Ex (S m) x y (Dx m x (Dx m y F))).
  Proof.
    intros [|m] x y F Hm p Hp.
    - cbn [Dx Ex]. unfold h at 1. change (Z.of_nat 1) with 1. rewrite U_h. unfold h. rewrite (U_idem 1 F p Hp) by (unfold letter; lia). ring.
    - assert (A : letter (Z.of_nat (S (S m)))) by (unfold letter; lia). assert (B : letter (Z.of_nat (S m))) by (unfold letter; lia).
      set (a := Z.of_nat (S (S m))) in *. set (b := Z.of_nat (S m)) in *. assert (Eab : a = b + 1) by (unfold a, b; lia).
      set (G := Dx m x (Dx (S m) y F)).
      change (Dx (S (S m)) x (Dx (S (S m)) y F)) with (h a x (h b x (Dx m x (h a y (Dx (S m) y F))))).
      change (Dx (S m) x (Dx (S m) y F)) with (h b x G).
      rewrite (h_ext a x _ _ A (h_ext b x _ _ B (Dx_comm m a x y (Dx (S m) y F) A ltac:(lia) ltac:(unfold a; lia))) p Hp). fold G.
      rewrite Eab in *. rewrite (exchange b x y G p Hp B A). cbv zeta. unfold Ex. fold b. fold a. rewrite Eab. reflexivity.
  Qed.
  Theorem Dx_sym : forall m x y F, (m <= N)%nat -> eqv (Dx m x (Dx m y F)) (Dx m y (Dx m x F)).
  Proof.
    induction m as [|m IH]; intros x y F Hm p Hp; [reflexivity|]. rewrite (Dx_peel m x y F Hm p Hp), (Dx_peel m y x F Hm p Hp).
    rewrite (Ex_ext (S m) x y _ _ Hm (IH x y F ltac:(lia)) p Hp). apply Ex_sym.
  Qed.

  (* decreasing words of length k *)
  Fixpoint dk (m k : nat) (F : P -> Z) (p : P) : Z :=
    match m with
    | O => match k with O => F p | S _ => 0 end
    | S m' => dk m' k F p + match k with O => 0 | S k' => U (Z.of_nat m) (dk m' k' F) p end
    end.
  Lemma dk_big : forall m k F p, (m < k)%nat -> dk m k F p = 0.
  Proof.
    induction m as [|m IH]; intros [|k] F p Hk; try lia; cbn [dk]; [reflexivity|]. rewrite IH by lia. unfold U. destruct (act p _); [rewrite IH by lia|]; reflexivity.
  Qed.
  Lemma dk_zero : forall m F p, dk m 0 F p = F p.
  Proof. induction m as [|m IH]; intros F p; cbn [dk]; [reflexivity|]. rewrite IH. ring. Qed.
  Lemma U_sumn : forall i n (f : nat -> P -> Z) p, U i (fun q => sumn n (fun k => f k q)) p = sumn n (fun k => U i (f k) p).
  Proof.
    intros i n f p. unfold U. destruct (act p i) as [q|]; [reflexivity|]. induction n as [|n IH]; [reflexivity|]. cbn [sumn]. rewrite <- IH. reflexivity.
  Qed.
  Lemma Dx_dk : forall m x F, (m <= N)%nat -> eqv (Dx m x F) (fun p => sumn N (fun k => x ^ Z.of_nat k * dk m k F p)).
  Proof.
    induction m as [|m IH]; intros x F Hm p Hp.
    - cbn [Dx dk]. assert (G : forall n, sumn n (fun k => x ^ Z.of_nat k * match k with O => F p | S _ => 0 end) = F p).
      { induction n as [|n IHn]; cbn [sumn]; [change (Z.of_nat 0) with 0; rewrite Z.pow_0_r; ring|rewrite IHn; ring]. }
      rewrite G. reflexivity.
    - assert (A : letter (Z.of_nat (S m))) by (unfold letter; lia).
      change (Dx (S m) x F p) with (h (Z.of_nat (S m)) x (Dx m x F) p). rewrite (h_ext _ x _ _ A (IH x F ltac:(lia)) p Hp). unfold h.
      assert (N <> 0)%nat by lia. destruct N as [|n] eqn:En; [lia|]. rewrite <- En in *.
      rewrite (U_sumn _ N (fun k q => x ^ Z.of_nat k * dk m k F q)). rewrite <- sumn_mul.
      rewrite (sumn_ext N (fun k => x ^ Z.of_nat k * dk (S m) k F p) (fun k => x ^ Z.of_nat k * dk m k F p + x ^ Z.of_nat k * match k with O => 0 | S k' => U (Z.of_nat (S m)) (dk m k' F) p end)) by (intros; cbn [dk]; ring).
      rewrite sumn_add. f_equal. rewrite En. rewrite (sumn_head n (fun k => x ^ Z.of_nat k * match k with O => 0 | S k' => _ end)). rewrite Z.mul_0_r, Z.add_0_l.
      cbn [sumn]. rewrite (U_scale (Z.of_nat (S m)) (x ^ Z.of_nat (S n)) (dk m (S n) F)).
      assert (Z0 : U (Z.of_nat (S m)) (dk m (S n) F) p = 0) by (unfold U; destruct (act p _); [apply dk_big; lia|reflexivity]). rewrite Z0, !Z.mul_0_r, Z.add_0_r.
      apply sumn_ext. intros i _. rewrite U_scale, (Nat2Z.inj_succ i), Z.pow_succ_r by lia. ring.
  Qed.
  Lemma dk_ext : forall m k F G, (m <= N)%nat -> eqv F G -> eqv (dk m k F) (dk m k G).
  Proof.
    induction m as [|m IH]; intros [|k] F G Hm E p Hp; cbn [dk]; try reflexivity; [apply E; assumption| |].
    - rewrite (IH 0%nat F G ltac:(lia) E p Hp). reflexivity.
    - rewrite (IH (S k) F G ltac:(lia) E p Hp), (U_ext (Z.of_nat (S m)) _ _ ltac:(unfold letter; lia) (IH k F G ltac:(lia) E) p Hp). reflexivity.
  Qed.
  Lemma dk_sumn : forall m k n (f : nat -> P -> Z) p, dk m k (fun q => sumn n (fun j => f j q)) p = sumn n (fun j => dk m k (f j) p).
  Proof.
    induction m as [|m IH]; intros [|k] n f p; cbn [dk]; [reflexivity| | |].
    - induction n as [|n IHn]; cbn [sumn]; [reflexivity|lia].
    - rewrite IH. rewrite Z.add_0_r. apply sumn_ext. intros. ring.
    - rewrite sumn_add, IH. f_equal. rewrite <- (U_sumn _ n (fun j => dk m k (f j))). unfold U. destruct (act p _); [apply IH|reflexivity].
  Qed.
  Lemma dk_scale : forall m k c F p, dk m k (fun q => c * F q) p = c * dk m k F p.
  Proof.
    induction m as [|m IH]; intros [|k] c F p; cbn [dk]; [reflexivity|ring|rewrite IH; ring|].
    rewrite IH. rewrite Z.mul_add_distr_l. f_equal. unfold U. destruct (act p _); [apply IH|ring].
  Qed.

  (* words of lengths a and b in either order *)
  Theorem dk_comm : forall a b F, eqv (dk N a (dk N b F)) (dk N b (dk N a F)).
  Proof.
    intros a b F p Hp.
    destruct (le_lt_dec a N) as [Ha|Ha].
    2:{ rewrite (dk_big N a) by lia. assert (E : eqv (dk N a F) (fun _ => 0 * F p)) by (intros q Hq; rewrite dk_big by lia; ring). rewrite (dk_ext N b _ _ ltac:(lia) E p Hp). rewrite (dk_scale N b 0 (fun _ => F p)). ring. }
    destruct (le_lt_dec b N) as [Hb|Hb].
    2:{ rewrite (dk_big N b) by lia. assert (E : eqv (dk N b F) (fun _ => 0 * F p)) by (intros q Hq; rewrite dk_big by lia; ring). rewrite (dk_ext N a _ _ ltac:(lia) E p Hp). rewrite (dk_scale N a 0 (fun _ => F p)). ring. }
    assert (G : forall x y, Dx N x (Dx N y F) p = sumn N (fun i => x ^ Z.of_nat i * sumn N (fun j => y ^ Z.of_nat j * dk N i (dk N j F) p))).
    { intros x y. rewrite (Dx_dk N x (Dx N y F) ltac:(lia) p Hp). apply sumn_ext. intros i _. f_equal. rewrite (dk_ext N i _ _ ltac:(lia) (Dx_dk N y F ltac:(lia)) p Hp).
      rewrite (dk_sumn N i N (fun j q => y ^ Z.of_nat j * dk N j F q)). apply sumn_ext. intros j _. apply dk_scale. }
    apply (sumn2_eq N (fun i j => dk N i (dk N j F) p) (fun i j => dk N j (dk N i F) p)); [|assumption|assumption].
    intros x y Hx Hy. rewrite <- (G x y). rewrite (Dx_sym N x y F ltac:(lia) p Hp), (G y x).
    assert (Sw : forall n m (g : nat -> nat -> Z), sumn n (fun i => sumn m (fun j => g i j)) = sumn m (fun j => sumn n (fun i => g i j))).
    { clear. induction n as [|n IH]; intros m g; cbn [sumn]; [reflexivity|]. rewrite IH. symmetry. apply sumn_add. }
    rewrite (sumn_ext N _ (fun i => sumn N (fun j => y ^ Z.of_nat i * (x ^ Z.of_nat j * dk N i (dk N j F) p)))) by (intros; rewrite <- sumn_mul; reflexivity). rewrite Sw.
    apply sumn_ext. intros i _. rewrite <- sumn_mul. apply sumn_ext. intros j _. ring.
  Qed.

  (* tuples of decreasing words of lengths ks *)
  Fixpoint dks (ks : list nat) (F : P -> Z) : P -> Z := match ks with [] => F | k :: ks' => dk N k (dks ks' F) end.
  Theorem dks_perm : forall ks ks' F, Permutation ks ks' -> eqv (dks ks F) (dks ks' F).
  Proof.
    intros ks ks' F H. induction H as [|k l l' H IH|a b l|l l' l'' H1 IH1 H2 IH2]; intros p Hp; [reflexivity| | |].
    - cbn [dks]. apply dk_ext; [lia|assumption|assumption].
    - cbn [dks]. apply dk_comm. assumption.
    - rewrite (IH1 p Hp). apply IH2. assumption.
  Qed.
End Action.
