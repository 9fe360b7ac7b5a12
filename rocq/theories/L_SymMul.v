(* Lemmas for C38: SymmetricPolynomial products against Polynomial products *)
From Coq Require Import List ZArith Lia Bool Permutation Sorted Arith InitialRing.
From Verif Require Import PyBase FinSum M_Partitions S_Partitions L_Partitions L_PartBasic L_PartEnum M_Vectors M_Polynomials L_Polynomials M_Semistandard M_Symmetric L_CountCache L_Count L_Count2 L_Destand L_Destand2 L_SymPoly.
Import ListNotations.
Local Open Scope Z_scope.

Lemma zs_fub : forall A B (K : A -> B -> Z) l m, zs (fun a => zs (fun b => K a b) m) l = zs (fun b => zs (fun a => K a b) l) m.
Proof.
  intros A B K. induction l as [|a l IH]; intro m; [symmetry; apply zs_zero; intros; reflexivity|]. rewrite zs_cons, IH, <- zs_plus. apply zs_ext. intros b _. rewrite zs_cons. reflexivity.
Qed.
Lemma ev_zs_swap : forall B (K : mono -> B -> Z) p m, ev p (fun u => zs (fun b => K u b) m) = zs (fun b => ev p (fun u => K u b)) m.
Proof.
  intros B K p m. rewrite ev_zs. erewrite zs_ext; [|intros x _; apply (eq_sym (zs_scale _ (snd x) (fun b => K (fst x) b) m))]. rewrite zs_fub. apply zs_ext. intros b _. rewrite ev_zs. reflexivity.
Qed.

Lemma ev_scale : forall p c F, ev p (fun u => c * F u) = c * ev p F.
Proof. intros p c F. rewrite !ev_zs, <- zs_scale. apply zs_ext. intros x _. lia. Qed.

(* a weighted sum depends only on the total weight of each point *)
Definition ws (W : list (list Z * Z)) (G : list Z -> Z) : Z := zs (fun xw => snd xw * G (fst xw)) W.
Lemma ws_group : forall U G W, NoDup U -> incl (map fst W) U -> ws W G = zs (fun e => ws W (fun x => ind (zlist_eqb x e)) * G e) U.
Proof.
  intros U G W N. induction W as [|[x w] W IH]; intro I; unfold ws in *.
  - rewrite zs_nil. symmetry. apply zs_zero. intros e _. rewrite zs_nil. reflexivity.
  - rewrite zs_cons, IH by (intros y Hy; apply I; right; assumption). cbn [fst snd].
    transitivity (zs (fun e => w * (ind (zlist_eqb x e) * G e)) U + zs (fun e => zs (fun xw => snd xw * ind (zlist_eqb (fst xw) e)) W * G e) U).
    + f_equal. rewrite zs_scale. f_equal. assert (Hx : In x U) by (apply I; left; reflexivity). clear -N Hx. induction U as [|a U IHU]; [destruct Hx|]. inversion N as [|? ? N1 N2]; subst. rewrite zs_cons. destruct Hx as [->|Hx].
      * replace (zlist_eqb x x) with true by (symmetry; apply zlist_eqb_eq; reflexivity). rewrite zs_zero; [unfold ind; lia|]. intros y Hy. destruct (zlist_eqb x y) eqn:E; [|unfold ind; lia]. apply zlist_eqb_eq in E. subst y. contradiction.
      * rewrite <- IHU by assumption. destruct (zlist_eqb x a) eqn:E; [apply zlist_eqb_eq in E; subst; contradiction|]. unfold ind. lia.
    + rewrite <- zs_plus. apply zs_ext. intros e _. rewrite zs_cons. cbn [fst snd]. lia.
Qed.
Lemma ws_ext : forall W1 W2 G, (forall e, In e (map fst W1 ++ map fst W2) -> ws W1 (fun x => ind (zlist_eqb x e)) = ws W2 (fun x => ind (zlist_eqb x e))) -> ws W1 G = ws W2 G.
Proof.
  intros W1 W2 G H. set (U := dedup zlist_eqb (map fst W1 ++ map fst W2)).
  assert (N : NoDup U) by apply (dedup_NoDup zlist_eqb zlist_eqb_eq).
  assert (I : forall x, In x U <-> In x (map fst W1 ++ map fst W2)) by (intro x; apply (dedup_In zlist_eqb zlist_eqb_eq)).
  rewrite (ws_group U G W1 N), (ws_group U G W2 N).
  - apply zs_ext. intros e He. rewrite H by (apply I; assumption). reflexivity.
  - intros x Hx. apply I, in_app_iff. right. assumption.
  - intros x Hx. apply I, in_app_iff. left. assumption.
Qed.
Lemma zs_flat : forall A B (f : A -> list B) (g : B -> Z) l, zs g (flat_map f l) = zs (fun a => zs g (f a)) l.
Proof. induction l as [|a l IH]; [reflexivity|]. cbn [flat_map]. rewrite zs_app, zs_cons, IH. reflexivity. Qed.

Definition mp (isx : bool) (m : smono) (F : mono -> Z) : Z := zs (fun e => F (vmon isx e)) (destandardize (fst m) (snd m)).

Lemma vmon_plus : forall isx a b, length a = length b -> mmul (vmon isx a) (vmon isx b) = vmon isx (vplus a b).
Proof.
  intros isx a b L. apply mwf_ext; [apply mmul_wf|apply smon_wf|]. intro t. unfold vmon. rewrite mget_mmul, !smon_get. rewrite vplus_length by assumption. rewrite <- L.
  generalize (zrange 1 (Z.of_nat (length a) + 1)). revert b L. induction a as [|x a IH]; intros [|y b] L [|i l]; try discriminate; try reflexivity.
  unfold vplus. cbn [combine map fst snd]. rewrite !zs_cons. cbn [fst snd]. cbn [length] in L. specialize (IH b ltac:(lia) l). unfold vplus in IH. rewrite <- IH. destruct (svar isx i =? t); lia.
Qed.

Lemma mp_mul : forall isx n mu nu H, partition mu -> partition nu ->
  mp isx (n, mu) (fun a => mp isx (n, nu) (fun b => H (mmul a b))) = zs (fun gc => snd gc * mp isx (n, fst gc) H) (mdict mu nu (Nat.min n (length mu + length nu))).
Proof.
  intros isx n mu nu H Pm Pn. apply partition_desc in Pm. apply partition_desc in Pn. destruct Pm as [Fm Dm]. destruct Pn as [Fn Dn].
  set (W1 := flat_map (fun a => map (fun b => (vplus a b, 1)) (destandardize n nu)) (destandardize n mu)).
  set (D := mdict mu nu (Nat.min n (length mu + length nu))).
  set (W2 := flat_map (fun gc => map (fun a => (a, snd gc)) (destandardize n (fst gc))) D).
  assert (Lm : forall a, In a (destandardize n mu) -> length a = n) by (intros a Ha; apply (destandardize_spec n mu Fm Dm) in Ha; apply Ha).
  assert (Ln : forall a, In a (destandardize n nu) -> length a = n) by (intros a Ha; apply (destandardize_spec n nu Fn Dn) in Ha; apply Ha).
  destruct (mdict_loop mu nu Fm Dm Fn Dn (Nat.min n (length mu + length nu))) as [[ND Gd] _]. fold D in ND, Gd.
  assert (E1 : forall G, ws W1 G = zs (fun a => zs (fun b => G (vplus a b)) (destandardize n nu)) (destandardize n mu)).
  { intro G. unfold ws, W1. rewrite zs_flat. apply zs_ext. intros a _. rewrite zs_map. apply zs_ext. intros b _. cbn [fst snd]. lia. }
  assert (E2 : forall G, ws W2 G = zs (fun gc => snd gc * zs G (destandardize n (fst gc))) D).
  { intro G. unfold ws, W2. rewrite zs_flat. apply zs_ext. intros gc _. rewrite zs_map. cbn [fst snd]. apply zs_scale. }
  transitivity (ws W1 (fun e => H (vmon isx e))).
  - rewrite E1. unfold mp. cbn [fst snd]. apply zs_ext. intros a Ha. apply zs_ext. intros b Hb. rewrite vmon_plus; [reflexivity|]. rewrite (Lm a Ha), (Ln b Hb). reflexivity.
  - rewrite (ws_ext W1 W2).
    + rewrite E2. reflexivity.
    + intros e He. assert (Le : length e = n).
      { apply in_app_iff in He. destruct He as [He|He]; apply in_map_iff in He; destruct He as ([x w] & <- & He); cbn [fst]; apply in_flat_map in He; destruct He as (a & Ha & He); apply in_map_iff in He; destruct He as (b & Eb & Hb); injection Eb as <- <-.
        - rewrite vplus_length; [apply Lm; assumption|]. rewrite (Lm a Ha), (Ln b Hb). reflexivity.
        - destruct a as [g c]. destruct (Gd g c Ha) as (Pg & _). apply partition_desc in Pg. destruct Pg as [Fg Dg]. apply (destandardize_spec n g Fg Dg) in Hb. apply Hb. }
      rewrite E1, E2. symmetry. apply mdict_full; assumption.
Qed.

Section Coefficients.
  Context {R : Type} (rO : R) (radd rmul : R -> R -> R) (rzero : R -> bool) (rint : Z -> R) (coef : R -> poly) (rok : R -> Prop).
  Definition cev (c : R) (F : mono -> Z) : Z := ev (coef c) F.
  Hypothesis rok_O : rok rO.
  Hypothesis rok_add : forall a b, rok a -> rok b -> rok (radd a b).
  Hypothesis rok_mul : forall a b, rok a -> rok b -> rok (rmul a b).
  Hypothesis rok_int : forall z, z <> 0 -> rok (rint z).
  Hypothesis rok_NoDup : forall a, rok a -> NoDup (map fst (coef a)).
  Hypothesis cev_O : forall F, cev rO F = 0.
  Hypothesis cev_add : forall a b F, rok a -> rok b -> cev (radd a b) F = cev a F + cev b F.
  Hypothesis cev_mul : forall a b F, rok a -> rok b -> cev (rmul a b) F = cev a (fun u => cev b (fun v => F (mmul u v))).
  Hypothesis cev_int : forall z F, cev (rint z) F = z * F [].
  Hypothesis cev_zero : forall a F, rok a -> rzero a = true -> cev a F = 0.
  Variable ord : list (list Z) -> list (list Z).
  Hypothesis ord_perm : forall l, Permutation (ord l) l.
  Variable isx : bool.

  Definition SV (d : list (smono * R)) (F : mono -> Z) : Z := zs (fun mc => mp isx (fst mc) (fun a => cev (snd mc) (fun u => F (mmul a u)))) d.
  (* all keys have n variables and a partition of at most n rows; all values are legal coefficients *)
  Definition keyed (n : nat) (d : list (smono * R)) : Prop :=
    forall m c, In (m, c) d -> fst m = n /\ partition (snd m) /\ (length (snd m) <= n)%nat /\ rok c.

  Lemma spolynomial_ok : forall n f, keyed n f -> exists S, spolynomial coef ord isx f = Ok S /\ pwf S /\ forall F, ev S F = SV f F.
  Proof.
    intros n f K. unfold spolynomial.
    assert (G : forall l ans, keyed n l -> pwf ans -> exists S, rfold (fun ans mc => do p <- mpolynomial ord isx (fst mc); Ok (padd ans (pmul p (coef (snd mc))))) l ans = Ok S /\ pwf S /\ forall F, ev S F = ev ans F + SV l F).
    { induction l as [|[m c] l IH]; intros ans Kl W; cbn [rfold].
      - exists ans. split; [reflexivity|]. split; [assumption|]. intro F. unfold SV. rewrite zs_nil. lia.
      - destruct (Kl m c (or_introl eq_refl)) as (En & Pm & Lm & Rc). destruct m as [n' mu]. cbn [fst snd] in *. subst n'.
        destruct (mpolynomial_ok ord ord_perm isx n mu Pm) as (p & Ep & Wp & Hp). rewrite Ep. cbn [rbind].
        destruct (IH (padd ans (pmul p (coef c)))) as (S & ES & WS & HS); [intros m1 c1 H1; apply Kl; right; assumption|apply padd_wf; [assumption|apply pmul_wf]|].
        exists S. split; [assumption|]. split; [assumption|]. intro F. rewrite HS, ev_padd by (try assumption; apply pmul_wf). rewrite ev_pmul by (try (apply Wp); apply rok_NoDup; assumption).
        unfold SV. rewrite zs_cons. cbn [fst snd]. rewrite Hp. unfold mp, cev. cbn [fst snd]. lia. }
    destruct (G f [] K) as (S & E & W & H); [split; [constructor|split; constructor]|]. exists S. split; [exact E|]. split; [assumption|]. intro F. rewrite H. reflexivity.
  Qed.

  Lemma SV_incr : forall d m t F, rok t -> Forall (fun mc => rok (snd mc)) d ->
    SV (dset smono_eqb d m (radd (dget0 rO smono_eqb d m) t)) F = SV d F + mp isx m (fun a => cev t (fun u => F (mmul a u))).
  Proof.
    intros d m t F Ht. induction d as [|[k c] d IH]; intro Fd.
    - unfold dget0. cbn [dget dset]. unfold SV. rewrite zs_cons, zs_nil. cbn [fst snd]. unfold mp. rewrite Z.add_0_r, Z.add_0_l. apply zs_ext. intros e _. rewrite cev_add by assumption. rewrite cev_O. lia.
    - inversion Fd as [|? ? F1 F2]; subst. cbn [snd] in F1. unfold dget0 in *. cbn [dget dset]. destruct (smono_eqb k m) eqn:E.
      + apply smono_eqb_eq in E. subst k. unfold SV. rewrite !zs_cons. cbn [fst snd]. unfold mp at 1. erewrite zs_ext; [|intros e _; apply cev_add; assumption]. rewrite zs_plus. unfold mp. lia.
      + unfold SV in *. rewrite !zs_cons. rewrite IH by assumption. lia.
  Qed.
  Lemma dset_in : forall (d : list (smono * R)) m v x, In x (dset smono_eqb d m v) -> x = (m, v) \/ In x d.
  Proof.
    induction d as [|[k c] d IH]; intros m v x H; cbn [dset] in H; [destruct H as [<-|[]]; left; reflexivity|]. destruct (smono_eqb k m) eqn:E.
    - apply smono_eqb_eq in E. subst k. destruct H as [<-|H]; [left; reflexivity|right; right; assumption].
    - destruct H as [<-|H]; [right; left; reflexivity|]. apply IH in H. destruct H as [->|H]; [left; reflexivity|right; right; assumption].
  Qed.
  Lemma dget0_ok : forall (d : list (smono * R)) m, Forall (fun mc => rok (snd mc)) d -> rok (dget0 rO smono_eqb d m).
  Proof.
    intros d m. unfold dget0. induction d as [|[k c] d IH]; intro F; cbn [dget]; [assumption|]. inversion F; subst. destruct (smono_eqb k m); auto.
  Qed.
  Lemma keyed_ok : forall n d, keyed n d -> Forall (fun mc => rok (snd mc)) d.
  Proof. intros n d K. apply Forall_forall. intros [m c] H. cbn [snd]. apply (K m c H). Qed.

  Lemma psort_partition : forall mu, partition mu -> psort mu true = mu.
  Proof.
    intros mu Pm. pose proof Pm as Pm'. apply partition_desc in Pm'. destruct Pm' as [Fm Dm].
    assert (E : psort mu false = mu) by (apply desc_unique; [apply psort_sorted|assumption|apply psort_perm; assumption]).
    change (trim (psort mu false) = mu). rewrite E. apply trim_id, partition_trimmed. assumption.
  Qed.

  Lemma smul_inner : forall n x y prods ans, rok x -> rok y -> good n prods -> keyed n ans -> NoDup (map fst ans) ->
    exists r, rfold (fun ans gc => do m <- smake n (fst gc); Ok (dset smono_eqb ans m (radd (dget0 rO smono_eqb ans m) (rmul (rmul x y) (rint (snd gc)))))) prods ans = Ok r /\
      keyed n r /\ NoDup (map fst r) /\ forall F, SV r F = SV ans F + zs (fun gc => snd gc * mp isx (n, fst gc) (fun a => cev x (fun u => cev y (fun v => F (mmul a (mmul u v)))))) prods.
  Proof.
    intros n x y prods. induction prods as [|[g c] prods IH]; intros ans Rx Ry [Ng Gp] K N; cbn [rfold].
    - exists ans. split; [reflexivity|]. split; [assumption|]. split; [assumption|]. intro F. rewrite zs_nil. lia.
    - destruct (Gp g c (or_introl eq_refl)) as (Pg & Lg & Pc). unfold smake. cbn [fst snd]. replace (Nat.leb (length g) n) with true by (symmetry; apply Nat.leb_le; assumption).
      rewrite psort_partition by assumption. cbn [rbind].
      assert (Rt : rok (rmul (rmul x y) (rint c))) by (apply rok_mul; [apply rok_mul; assumption|apply rok_int; lia]).
      assert (Ra : rok (dget0 rO smono_eqb ans (n, g))) by (apply dget0_ok, (keyed_ok n), K).
      destruct (IH (dset smono_eqb ans (n, g) (radd (dget0 rO smono_eqb ans (n, g)) (rmul (rmul x y) (rint c)))) Rx Ry) as (r & Er & Kr & Nr & Hr).
      + split; [inversion Ng; assumption|]. intros p q Hp. apply Gp. right. assumption.
      + intros m v Hm. apply dset_in in Hm. destruct Hm as [Hm|Hm]; [|apply K; assumption]. injection Hm as -> ->. cbn [fst snd]. split; [reflexivity|]. split; [assumption|]. split; [assumption|]. apply rok_add; assumption.
      + apply (dset_NoDup smono_eqb smono_eqb_eq). assumption.
      + exists r. split; [exact Er|]. split; [assumption|]. split; [assumption|]. intro F. rewrite Hr, SV_incr by (try assumption; apply (keyed_ok n), K). rewrite zs_cons. cbn [fst snd].
        assert (E : mp isx (n, g) (fun a => cev (rmul (rmul x y) (rint c)) (fun u => F (mmul a u))) = c * mp isx (n, g) (fun a => cev x (fun u => cev y (fun v => F (mmul a (mmul u v)))))).
        { unfold mp. rewrite <- zs_scale. apply zs_ext. intros e _. rewrite cev_mul; [|apply rok_mul; assumption|apply rok_int; lia].
          unfold cev at 1. erewrite ev_ext; [|intro u; apply cev_int]. rewrite ev_scale. f_equal. change (cev (rmul x y) (fun u => F (mmul (vmon isx e) (mmul u []))) = cev x (fun u => cev y (fun v => F (mmul (vmon isx e) (mmul u v))))).
          rewrite cev_mul by assumption. apply ev_ext. intro u. apply ev_ext. intro v. rewrite mmul_nil_r by apply mmul_wf. reflexivity. }
        rewrite E. lia.
  Qed.

  (* the contribution of two terms to the product of the two polynomials *)
  Definition pterm (mx my : smono * R) (F : mono -> Z) : Z :=
    mp isx (fst mx) (fun a => cev (snd mx) (fun u => mp isx (fst my) (fun b => cev (snd my) (fun v => F (mmul (mmul a u) (mmul b v)))))).
  Lemma pterm_eq : forall n mu nu x y F, partition mu -> partition nu ->
    pterm ((n, mu), x) ((n, nu), y) F = zs (fun gc => snd gc * mp isx (n, fst gc) (fun a => cev x (fun u => cev y (fun v => F (mmul a (mmul u v)))))) (mdict mu nu (Nat.min n (length mu + length nu))).
  Proof.
    intros n mu nu x y F Pm Pn. rewrite <- mp_mul by assumption. unfold pterm. cbn [fst snd]. unfold mp. apply zs_ext. intros a _. unfold cev at 1. rewrite ev_zs_swap. apply zs_ext. intros b _.
    apply ev_ext. intro u. apply ev_ext. intro v. f_equal. rewrite !mmul_assoc. f_equal. rewrite <- !mmul_assoc. f_equal. apply mmul_comm.
  Qed.

  Theorem smul_ok : forall n f g, keyed n f -> keyed n g -> exists h, smul rO radd rmul rzero rint f g = Ok h /\ keyed n h /\ NoDup (map fst h) /\
    Forall (fun mc => rzero (snd mc) = false) h /\ forall F, SV h F = SV f (fun a => SV g (fun b => F (mmul a b))).
  Proof.
    intros n f g Kf Kg. unfold smul.
    assert (G2 : forall mx x, fst mx = n -> partition (snd mx) -> rok x -> forall l ans, keyed n l -> keyed n ans -> NoDup (map fst ans) ->
      exists r, rfold (fun ans by_ => do prods <- smultiply mx (fst by_);
        rfold (fun ans gc => do m <- smake (fst mx) (fst gc); Ok (dset smono_eqb ans m (radd (dget0 rO smono_eqb ans m) (rmul (rmul x (snd by_)) (rint (snd gc)))))) prods ans) l ans = Ok r /\
        keyed n r /\ NoDup (map fst r) /\ forall F, SV r F = SV ans F + zs (fun my => pterm (mx, x) my F) l).
    { intros [n' mu] x En Pm Rx. cbn [fst snd] in *. subst n'. induction l as [|[[n' nu] y] l IH]; intros ans Kl K N; cbn [rfold].
      - exists ans. split; [reflexivity|]. split; [assumption|]. split; [assumption|]. intro F. rewrite zs_nil. lia.
      - destruct (Kl _ _ (or_introl eq_refl)) as (En & Pn & Ln & Ry). cbn [fst snd] in *. subst n'. unfold smultiply at 1. cbn [fst snd]. rewrite Nat.eqb_refl. cbn [rbind].
        pose proof Pm as Pm'. pose proof Pn as Pn'. apply partition_desc in Pm'. apply partition_desc in Pn'. destruct Pm' as [Fm Dm]. destruct Pn' as [Fn Dn].
        destruct (mdict_loop mu nu Fm Dm Fn Dn (Nat.min n (length mu + length nu))) as [[ND Gd] _].
        destruct (smul_inner n x y (mdict mu nu (Nat.min n (length mu + length nu))) ans Rx Ry) as (r1 & E1 & K1 & N1 & H1); [|assumption|assumption|].
        { split; [assumption|]. intros p c Hp. destruct (Gd p c Hp) as (P1 & P2 & P3). split; [assumption|]. split; [lia|assumption]. }
        change (exists r : sym, rbind (rfold (fun ans gc => do m <- smake n (fst gc); Ok (dset smono_eqb ans m (radd (dget0 rO smono_eqb ans m) (rmul (rmul x y) (rint (snd gc)))))) (mdict mu nu (Nat.min n (length mu + length nu))) ans) (fun b' => rfold (fun ans by_ => do prods <- smultiply (n, mu) (fst by_);
        rfold (fun ans gc => do m <- smake n (fst gc); Ok (dset smono_eqb ans m (radd (dget0 rO smono_eqb ans m) (rmul (rmul x (snd by_)) (rint (snd gc)))))) prods ans) l b') = Ok r /\
        keyed n r /\ NoDup (map fst r) /\ forall F, SV r F = SV ans F + zs (fun my => pterm ((n, mu), x) my F) (((n, nu), y) :: l)).
        rewrite E1. cbn [rbind]. destruct (IH r1) as (r & E & Kr & Nr & H); [intros m c Hm; apply Kl; right; assumption|assumption|assumption|].
        exists r. split; [exact E|]. split; [assumption|]. split; [assumption|]. intro F. rewrite H, H1, zs_cons, pterm_eq by assumption. symmetry. apply Z.add_assoc. }
    assert (G1 : forall l ans, keyed n l -> keyed n ans -> NoDup (map fst ans) ->
      exists r, rfold (fun ans ax => rfold (fun ans by_ => do prods <- smultiply (fst ax) (fst by_);
        rfold (fun ans gc => do m <- smake (fst (fst ax)) (fst gc); Ok (dset smono_eqb ans m (radd (dget0 rO smono_eqb ans m) (rmul (rmul (snd ax) (snd by_)) (rint (snd gc)))))) prods ans) g ans) l ans = Ok r /\
        keyed n r /\ NoDup (map fst r) /\ forall F, SV r F = SV ans F + zs (fun mx => zs (fun my => pterm mx my F) g) l).
    { induction l as [|[mx x] l IH]; intros ans Kl K N; cbn [rfold].
      - exists ans. split; [reflexivity|]. split; [assumption|]. split; [assumption|]. intro F. rewrite zs_nil. lia.
      - destruct (Kl _ _ (or_introl eq_refl)) as (En & Pn & Ln & Rx). cbn [fst snd]. destruct (G2 mx x En Pn Rx g ans Kg K N) as (r1 & E1 & K1 & N1 & H1). rewrite E1. cbn [rbind].
        destruct (IH r1) as (r & E & Kr & Nr & H); [intros m c Hm; apply Kl; right; assumption|assumption|assumption|].
        exists r. split; [exact E|]. split; [assumption|]. split; [assumption|]. intro F. rewrite H, H1, zs_cons. symmetry. apply Z.add_assoc. }
    destruct (G1 f [] Kf) as (r & E & Kr & Nr & Hr); [intros m c []|constructor|]. rewrite E. cbn [rbind]. exists (vmake rzero r).
    assert (Kv : keyed n (vmake rzero r)) by (intros m c Hm; apply filter_In in Hm; apply Kr; apply Hm).
    split; [reflexivity|]. split; [assumption|]. split.
    - unfold vmake. clear -Nr. induction r as [|[k c] r IH]; [constructor|]. inversion Nr; subst. cbn [filter map snd]. destruct (negb (rzero c)); [|auto]. cbn [map fst]. constructor; [|auto]. intro X. apply in_map_iff in X. destruct X as (z & Ez & Hz). apply filter_In in Hz. apply H1. rewrite <- Ez. apply in_map. apply Hz.
    - split.
      + apply Forall_forall. intros [m c] Hm. apply filter_In in Hm. destruct Hm as [_ Hm]. cbn [snd] in *. apply negb_true_iff in Hm. assumption.
      + intro F. transitivity (SV r F).
        * unfold vmake. unfold SV. symmetry. apply zs_filter. intros [m c] Hm Hz. cbn [fst snd] in *. apply negb_false_iff in Hz. apply zs_zero. intros e _. apply cev_zero; [apply (Kr m c Hm)|assumption].
        * rewrite Hr. change (SV [] F) with 0. rewrite Z.add_0_l. unfold SV at 1. apply zs_ext. intros [mx x] _. cbn [fst snd]. unfold pterm. cbn [fst snd].
          unfold mp at 3. unfold mp at 1. rewrite zs_fub. apply zs_ext. intros e _. unfold SV. unfold cev at 3. rewrite ev_zs_swap. reflexivity.
  Qed.
End Coefficients.
