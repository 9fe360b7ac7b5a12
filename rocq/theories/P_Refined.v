(* C108: the refined dual stable Grothendieck polynomials.
   The parameters ord, bord, tord are the unspecified iteration orders of Python sets. *)
From Coq Require Import List ZArith Lia Bool Permutation Arith Sorting.Sorted.
From Verif Require Import PyBase FinSum M_Partitions S_Partitions L_Partitions L_PartBasic L_PartMore L_PartEnum L_Destand L_Destand2 M_Vectors L_Vectors M_Polynomials S_Polynomials L_Polynomials P_Polynomials L_PolySubst
  M_Tableaux S_Tableaux L_Tableaux S_Strips M_RPP S_RPP M_Semistandard S_Semistandard L_Strips2 L_Shape L_Semi L_Semi2 L_Semi3 L_Semi4 L_Semi5 L_Count L_Count2 L_Count3 L_CountCache M_Symmetric S_Symmetric M_Expansion S_Expansion M_Slow M_Families M_Dual
  L_SymPoly L_SymMul L_Growth L_Kostka L_Num L_Expand1 L_Expand2 L_Expand3 L_Expand4 L_Expand5 L_Expand6 L_Expand7 P_Symmetric P_Expansion P_Semistandard P_Count L_Sym1 L_Sym2 L_Sym3 L_Sym4 L_Sym5 L_Sym6 L_Sym8 L_Sym11 L_Slow P_Symmetry L_Insertion6 L_Families L_Families2 P_Families L_ShiftTri L_RPP1 L_RPP2 L_RPP3 L_RPP4 P_RPP L_RPP6 L_Dual L_Dual2 S_Dual L_Dual3 P_Dual M_Refined S_Refined L_Refined.
Import ListNotations.
Local Open Scope Z_scope.
Local Notation sg := (nget smono_eqb).

Section C108.
  Variable ord : list (list Z) -> list (list Z).
  Variable bord : list (Z * Z) -> list (Z * Z).
  Variable tord : list tab -> list tab.
  Hypothesis ord_perm : forall l, Permutation (ord l) l.
  Hypothesis bord_perm : forall l, Permutation (bord l) l.
  Hypothesis tord_perm : forall l, Permutation (tord l) l.

  Lemma refined_main : forall dnp n mu nu, strict_partition mu -> strict_partition nu ->
    exists V, refined_dual ord bord tord dnp n mu nu = Ok V /\ NoDup (map fst V) /\ (forall key f, In (key, f) V -> f <> []) /\
      forall key, dual_coefficients n (size mu - size nu) marked_weight (fun T => marked_rpp_of dnp n mu nu T /\ diagonal_is T key)
        (match dget zlist_eqb V key with Some f => f | None => [] end).
  Proof.
    intros dnp n mu nu Pm Pn. destruct (marked_pack ord bord tord ord_perm bord_perm tord_perm dnp n mu nu Pm Pn) as (d & r & g & _ & Er & _ & Nr & Hr & _ & _ & B & C).
    assert (IR : forall T, In T (tord r) <-> marked_rpp_of dnp n mu nu T). { intro T. rewrite <- Hr. split; intro H; [exact (Permutation_in _ (tord_perm r) H)|exact (Permutation_in _ (Permutation_sym (tord_perm r)) H)]. }
    assert (NR : NoDup (tord r)) by (apply (Permutation_NoDup (Permutation_sym (tord_perm r))); assumption).
    assert (WF : forall T, In T (tord r) -> well_formed T /\ (forall i j l, In ((i, j), l) T -> length l = 1%nat)). { intros T HT. apply IR in HT. destruct HT as [_ (H1 & _ & H2 & _)]. split; assumption. }
    assert (DK : forall T, In T (tord r) -> diag_vector T = Ok (dkey T) /\ forall key, diagonal_is T key <-> dkey T = key).
    { intros T HT. destruct (WF T HT) as [W1 W2]. destruct (diag_vector_spec T W1 W2) as (k & Ek & Hk). unfold dkey. rewrite Ek. split; [reflexivity|]. intro key. split; [intro H; exact (diagonal_unique T k key W1 W2 Hk H)|intros <-; exact Hk]. }
    set (k0 := zsum mu - zsum nu).
    set (G := fun key => filter (fun t => zlist_eqb (dkey t) key) (tord r)).
    assert (GI : forall key T, In T (G key) <-> marked_rpp_of dnp n mu nu T /\ diagonal_is T key).
    { intros key T. unfold G. rewrite filter_In, zlist_eqb_eq, <- IR. split; intros [H1 H2]; (split; [exact H1|]); apply (proj2 (DK T H1)); exact H2. }
    assert (GV : forall key, exists f, slow_vectorize_by marked_rpp_weight n (G key) (Some neg_inv_beta_pow) false = Ok f /\
      dual_coefficients n k0 marked_weight (fun T => marked_rpp_of dnp n mu nu T /\ diagonal_is T key) (nvscale smono_eqb f (NP (neg_beta_pow k0)))).
    { intro key. destruct (slow_by_false marked_rpp_weight n marked_weight (G key)) as (f & N & Ef & Wf & Kf & HC & HN).
      - intros T HT. apply GI in HT. destruct HT as [[_ HT] _]. destruct (C67_marked_rpp_weight dnp n nu mu T HT) as (w & Ew & Lw & Ww). exists w. split; [assumption|]. split; [assumption|]. split; [exact (marked_nonneg w T Ww)|].
        apply weight_is; [assumption|assumption|]. intros a b k Ha Hb. exact (marked_unique a b k T Ha Hb).
      - apply NoDup_filter. exact NR.
      - exists f. split; [exact Ef|]. assert (CN : forall p, fits n p -> cardinality (fun T => (marked_rpp_of dnp n mu nu T /\ diagonal_is T key) /\ marked_weight p T) (N p)).
        { intros p Fp. refine (cardinality_ext _ _ _ _ (HC p Fp)). intro T. rewrite GI, marked_padz. reflexivity. }
        assert (BN : forall p, fits n p -> N p <> 0 -> zsum p <= k0).
        { intros p Fp Np. apply B; [exact Fp|]. destruct (CN p Fp) as (l & _ & Hl & Ll). destruct l as [|T l]; [cbn [length] in Ll; lia|]. destruct (proj1 (Hl T) (or_introl eq_refl)) as [[HT _] HW].
          destruct (C p Fp) as (l2 & _ & Hl2 & Ll2). destruct l2 as [|T2 l2]; [exfalso; exact (proj2 (Hl2 T) (conj HT HW))|]. cbn [length] in Ll2. lia. }
        apply (dual_coeffs n k0 N); [apply scaled_counts; assumption|exact CN|exact BN]. }
    destruct (group_spec (tord r) []) as (D & ED & ND & GD); [intros T HT; exists (dkey T); apply DK; exact HT|constructor|].
    set (val := fun kv : list Z * list tab => (fst kv, match slow_vectorize_by marked_rpp_weight n (snd kv) (Some neg_inv_beta_pow) false with Ok f => nvscale smono_eqb f (NP (neg_beta_pow k0)) | Err _ => [] end) : list Z * nsym).
    assert (DG : forall key l, dget zlist_eqb D key = Some l -> l = G key). { intros key l H. specialize (GD key). unfold gl in GD. rewrite H in GD. exact GD. }
    assert (EM : rmap (fun kv => do f <- slow_vectorize_by marked_rpp_weight n (snd kv) (Some neg_inv_beta_pow) false; Ok (fst kv, nvscale smono_eqb f (NP (neg_beta_pow (zsum mu - zsum nu))))) D = Ok (map val D)).
    { apply L_PartCorners.rmap_ok. intros [key l] H. cbn [fst snd]. pose proof (In_dget zlist_eqb zlist_eqb_eq D key l ND H) as H'. apply DG in H'. subst l. destruct (GV key) as (f & Ef & _). rewrite Ef. cbn [rbind]. unfold val. cbn [fst snd]. rewrite Ef. reflexivity. }
    assert (KM : map fst (map val D) = map fst D) by (rewrite map_map; apply map_ext; intro; reflexivity).
    exists (filter (fun kv => negb (nsym_falsy (snd kv))) (map val D)). split; [|split; [|split]].
    - unfold refined_dual. rewrite Er. cbn [rbind]. unfold group_diag. rewrite ED. cbn [rbind]. rewrite EM. reflexivity.
    - rewrite <- KM in ND. clear -ND. induction (map val D) as [|[a f] m IH]; [constructor|]. cbn [map fst] in ND. inversion ND as [|? ? N1 N2]; subst. cbn [filter]. destruct (negb _); [|apply IH; assumption]. cbn [map fst]. constructor; [|apply IH; assumption].
      intro H. apply N1. apply in_map_iff in H. destruct H as (x & <- & Hx). apply filter_In in Hx. apply in_map, Hx.
    - intros key f H. apply filter_In in H. destruct H as [_ H]. cbn [snd] in H. intros ->. discriminate.
    - intro key. rewrite dget_truthy by (rewrite KM; exact ND).
      assert (EG : dget zlist_eqb (map val D) key = option_map (fun l => snd (val (key, l))) (dget zlist_eqb D key)).
      { clear. induction D as [|[a l] D IH]; [reflexivity|]. cbn [map dget]. unfold val at 1. cbn [fst]. destruct (zlist_eqb a key) eqn:E; [|exact IH]. reflexivity. }
      rewrite EG. destruct (dget zlist_eqb D key) as [l|] eqn:Ek; cbn [option_map].
      + rewrite (DG key l Ek). destruct (GV key) as (f & Ef & H). unfold val. cbn [fst snd]. rewrite Ef. exact H.
      + specialize (GD key). unfold gl in GD. rewrite Ek in GD. cbn [dget app] in GD. change (match dget zlist_eqb (@nil (list Z * list tab)) key with Some l => l | None => [] end) with (@nil tab) in GD. cbn [app] in GD.
        apply (dual_coeffs n k0 (fun _ => 0)).
        * split; [split; constructor|]. split; [intros m []|]. split; [constructor|]. intros p G0 _. rewrite nget_nil. cbn [nev]. lia.
        * intros p Fp. exists []. split; [constructor|]. split; [|reflexivity]. intro T. split; [intros []|]. intros [H _]. apply GI in H. unfold G in H. rewrite <- GD in H. exact H.
        * intros p _ H. congruence.
  Qed.

  Theorem C108_refined_p : forall n mu nu, strict_partition mu -> strict_partition nu ->
    exists V, refined_dual_p ord bord tord n mu nu = Ok V /\ NoDup (map fst V) /\ (forall key f, In (key, f) V -> f <> []) /\
      forall key, dual_coefficients n (size mu - size nu) marked_weight (fun T => marked_rpp_of false n mu nu T /\ diagonal_is T key)
        (match dget zlist_eqb V key with Some f => f | None => [] end).
  Proof. exact (refined_main false). Qed.
  Theorem C108_refined_q : forall n mu nu, strict_partition mu -> strict_partition nu ->
    exists V, refined_dual_q ord bord tord n mu nu = Ok V /\ NoDup (map fst V) /\ (forall key f, In (key, f) V -> f <> []) /\
      forall key, dual_coefficients n (size mu - size nu) marked_weight (fun T => marked_rpp_of true n mu nu T /\ diagonal_is T key)
        (match dget zlist_eqb V key with Some f => f | None => [] end).
  Proof. exact (refined_main true). Qed.
End C108.

(* every marked reverse plane partition is counted under exactly one key *)
Theorem C108_one_key : forall dnp n mu nu T, marked_rpp_of dnp n mu nu T -> exists key, diagonal_is T key /\ forall key', diagonal_is T key' -> key' = key.
Proof.
  intros dnp n mu nu T [_ (H1 & _ & H2 & _)]. destruct (diag_vector_spec T H1 H2) as (key & _ & Hk). exists key. split; [exact Hk|]. intros key' H. exact (diagonal_unique T key' key H1 H2 H Hk).
Qed.

(* the values add up to the polynomials that the fast methods return *)
Local Notation total := (fold_right Z.add 0).
Lemma one_hit : forall (K : list (list Z)) k, NoDup K -> In k K -> total (map (fun a => if zlist_eqb k a then 1 else 0) K) = 1.
Proof.
  induction K as [|a K IH]; intros k N H; [destruct H|]. inversion N as [|? ? N1 N2]; subst. cbn [map fold_right]. destruct (zlist_eqb k a) eqn:E.
  - apply zlist_eqb_eq in E. subst a. assert (Z0 : total (map (fun a => if zlist_eqb k a then 1 else 0) K) = 0); [|lia]. clear -N1. induction K as [|b K IH]; [reflexivity|]. cbn [map fold_right]. destruct (zlist_eqb k b) eqn:E; [apply zlist_eqb_eq in E; subst b; exfalso; apply N1; left; reflexivity|]. rewrite IH; [reflexivity|]. intro X. apply N1. right. exact X.
  - destruct H as [->|H]; [rewrite zlist_eqb_refl in E; discriminate|]. rewrite (IH k N2 H). reflexivity.
Qed.
Lemma split_len : forall (K : list (list Z)) (l : list tab), NoDup K -> (forall T, In T l -> In (dkey T) K) -> total (map (fun a => Z.of_nat (length (filter (fun t => zlist_eqb (dkey t) a) l))) K) = Z.of_nat (length l).
Proof.
  intros K l NK. induction l as [|T l IH]; intro H.
  - cbn [filter length]. clear. induction K as [|a K IH]; [reflexivity|]. cbn [map fold_right]. rewrite IH. reflexivity.
  - pose proof (IH (fun U HU => H U (or_intror HU))) as E1. pose proof (one_hit K (dkey T) NK (H T (or_introl eq_refl))) as E2. clear IH H NK.
    assert (E3 : total (map (fun a => Z.of_nat (length (filter (fun t => zlist_eqb (dkey t) a) (T :: l)))) K) = total (map (fun a => if zlist_eqb (dkey T) a then 1 else 0) K) + total (map (fun a => Z.of_nat (length (filter (fun t => zlist_eqb (dkey t) a) l))) K)).
    { clear. induction K as [|a K IH]; [reflexivity|]. cbn [map fold_right]. rewrite IH. cbn [filter]. destruct (zlist_eqb (dkey T) a); cbn [length]; lia. }
    rewrite E3, E1, E2. cbn [length]. lia.
Qed.
Lemma coefficients_term : forall n k W Q f (D : dual_coefficients n k W Q f) alpha N m, fits n alpha -> cardinality (fun T => Q T /\ W alpha T) N -> canon_mono m ->
  ((forall t, expo m t = if t =? 0 then k - size alpha else 0) -> ncoeff (sg f (n, alpha)) m = signed (k - size alpha) N) /\ (~ (forall t, expo m t = if t =? 0 then k - size alpha else 0) -> ncoeff (sg f (n, alpha)) m = 0).
Proof.
  intros n k W Q f [_ D] alpha N m [Pa La] C Cm. destruct (D alpha Pa La) as (N' & C' & _ & Bt). rewrite (card_unique _ _ _ _ C C'). exact (Bt m Cm).
Qed.
Lemma coefficients_other : forall (f : nsym) c m, ~ In c (map fst f) -> ncoeff (sg f c) m = 0.
Proof.
  intros f c m H. unfold nget, vget, dget0. destruct (dget smono_eqb f c) as [x|] eqn:E; [|rewrite ncoeff_nev by exact I; cbn [nev]; lia]. exfalso. apply H. apply (dget_In smono_eqb smono_eqb_eq) in E. apply (in_map fst) in E. exact E.
Qed.
Lemma total_zero : forall (A : Type) (h : A -> Z) l, (forall x, In x l -> h x = 0) -> total (map h l) = 0.
Proof. induction l as [|x l IH]; intro H; [reflexivity|]. cbn [map fold_right]. rewrite (H x (or_introl eq_refl)), IH by (intros; apply H; right; assumption). reflexivity. Qed.
Lemma total_ext : forall (A : Type) (h h' : A -> Z) l, (forall x, In x l -> h x = h' x) -> total (map h l) = total (map h' l).
Proof. induction l as [|x l IH]; intro H; [reflexivity|]. cbn [map fold_right]. rewrite (H x (or_introl eq_refl)), IH by (intros; apply H; right; assumption). reflexivity. Qed.
Lemma total_signed : forall (A : Type) e (h : A -> Z) l, total (map (fun x => signed e (h x)) l) = signed e (total (map h l)).
Proof. intros A e h l. unfold signed. destruct (Z.even e); [reflexivity|]. induction l as [|x l IH]; [reflexivity|]. cbn [map fold_right]. rewrite IH. lia. Qed.

Lemma add_up : forall dnp n k mu nu V g, NoDup (map fst V) ->
  (forall key, dual_coefficients n k marked_weight (fun T => marked_rpp_of dnp n mu nu T /\ diagonal_is T key) (match dget zlist_eqb V key with Some f => f | None => [] end)) ->
  dual_coefficients n k marked_weight (marked_rpp_of dnp n mu nu) g ->
  forall c m, canon_mono m -> total (map (fun kv => ncoeff (sg (snd kv) c) m) V) = ncoeff (sg g c) m.
Proof.
  intros dnp n k mu nu V g NV HV Hg c m Cm.
  assert (HVI : forall kv, In kv V -> dual_coefficients n k marked_weight (fun T => marked_rpp_of dnp n mu nu T /\ diagonal_is T (fst kv)) (snd kv)).
  { intros [key f] H. specialize (HV key). rewrite (In_dget zlist_eqb zlist_eqb_eq V key f NV H) in HV. exact HV. }
  assert (Dec : (fst c = n /\ partition (snd c) /\ (length (snd c) <= n)%nat) \/ (~ In c (map fst g) /\ forall kv, In kv V -> ~ In c (map fst (snd kv)))).
  { assert (SC : forall f, sym_canon beta_num n f -> In c (map fst f) -> fst c = n /\ partition (snd c) /\ (length (snd c) <= n)%nat).
    { intros f [_ S] I. apply in_map_iff in I. destruct I as ([[i a] x] & <- & I). apply S in I. cbn [fst snd]. destruct I as (-> & P & L & _). split; [reflexivity|split; assumption]. }
    destruct (in_dec (keq_dec smono_eqb smono_eqb_eq) c (map fst g)) as [I|I]; [left; exact (SC g (proj1 Hg) I)|].
    destruct (in_dec (keq_dec smono_eqb smono_eqb_eq) c (flat_map (fun kv => map fst (snd kv)) V)) as [J|J].
    - left. apply in_flat_map in J. destruct J as (kv & J1 & J2). exact (SC (snd kv) (proj1 (HVI kv J1)) J2).
    - right. split; [exact I|]. intros kv H1 H2. apply J. apply in_flat_map. exists kv. split; assumption. }
  destruct Dec as [(En & Pa & La)|[D1 D2]]; [|rewrite (coefficients_other g c m D1); apply total_zero; intros kv H; exact (coefficients_other (snd kv) c m (D2 kv H))].
  destruct c as [i alpha]. cbn [fst snd] in *. subst i. assert (Fa : fits n alpha) by (split; assumption).
  destruct (proj2 Hg alpha Pa La) as (N & (l & Nl & Hl & Ll) & _).
  assert (DK : forall T, In T l -> forall key, diagonal_is T key <-> dkey T = key).
  { intros T HT key. apply Hl in HT. destruct HT as [[_ (W1 & _ & W2 & _)] _]. destruct (diag_vector_spec T W1 W2) as (k1 & Ek & Hk). unfold dkey. rewrite Ek. split; [intro H; exact (diagonal_unique T k1 key W1 W2 Hk H)|intros <-; exact Hk]. }
  set (cnt := fun key : list Z => Z.of_nat (length (filter (fun t => zlist_eqb (dkey t) key) l))).
  assert (CK : forall key, cardinality (fun T => (marked_rpp_of dnp n mu nu T /\ diagonal_is T key) /\ marked_weight alpha T) (cnt key)).
  { intro key. exists (filter (fun t => zlist_eqb (dkey t) key) l). split; [apply NoDup_filter; exact Nl|]. split; [|reflexivity]. intro T. rewrite filter_In, zlist_eqb_eq. split.
    - intros [H1 H2]. pose proof (proj2 (DK T H1 key) H2) as H. apply Hl in H1. destruct H1 as [H1 H3]. exact (conj (conj H1 H) H3).
    - intros [[H1 H2] H3]. assert (I : In T l) by (apply Hl; split; assumption). split; [exact I|]. apply (DK T I). exact H2. }
  assert (Cg : cardinality (fun T => marked_rpp_of dnp n mu nu T /\ marked_weight alpha T) (Z.of_nat (length l))) by (exists l; split; [exact Nl|split; [exact Hl|reflexivity]]).
  assert (KV : forall T, In T l -> In (dkey T) (map fst V)).
  { intros T HT. destruct (in_dec (keq_dec zlist_eqb zlist_eqb_eq) (dkey T) (map fst V)) as [I|I]; [exact I|exfalso].
    specialize (HV (dkey T)). destruct (dget zlist_eqb V (dkey T)) as [f|] eqn:Ed; [apply (dget_In zlist_eqb zlist_eqb_eq) in Ed; apply (in_map fst) in Ed; exact (I Ed)|].
    destruct (coefficients_term n k _ _ _ HV alpha (cnt (dkey T)) (mvar 0 (k - zsum alpha)) Fa (CK _) (mvar_wf _ _)) as [X _].
    assert (Y : signed (k - size alpha) (cnt (dkey T)) = 0). { rewrite <- X; [apply coefficients_other; intros []|]. apply (canon_mvar _ _ (mvar_wf _ _)). reflexivity. }
    assert (0 < cnt (dkey T)); [|unfold signed in Y; destruct (Z.even _); lia]. unfold cnt. destruct (filter (fun t => zlist_eqb (dkey t) (dkey T)) l) as [|u r] eqn:F; [|cbn [length]; lia].
    exfalso. assert (Q : In T (filter (fun t => zlist_eqb (dkey t) (dkey T)) l)) by (apply filter_In; split; [exact HT|apply zlist_eqb_eq; reflexivity]). rewrite F in Q. destruct Q. }
  destruct (coefficients_term n k _ _ g Hg alpha _ m Fa Cg Cm) as [G1 G2].
  assert (HD : (forall t, expo m t = if t =? 0 then k - size alpha else 0) \/ ~ (forall t, expo m t = if t =? 0 then k - size alpha else 0)) by (destruct (meqb m (mvar 0 (k - size alpha))) eqn:Em; [left; apply (canon_mvar m _ Cm); apply meqb_spec; exact Em|right; intro X; apply (canon_mvar m _ Cm) in X; apply meqb_spec in X; congruence]).
  destruct HD as [HD|HD].
  - rewrite (G1 HD). transitivity (signed (k - size alpha) (total (map cnt (map fst V)))); [|f_equal; exact (split_len (map fst V) l NV KV)]. rewrite map_map, <- total_signed. apply total_ext. intros kv H. exact (proj1 (coefficients_term n k _ _ _ (HVI kv H) alpha _ m Fa (CK (fst kv)) Cm) HD).
  - rewrite (G2 HD). apply total_zero. intros kv H. exact (proj2 (coefficients_term n k _ _ _ (HVI kv H) alpha _ m Fa (CK (fst kv)) Cm) HD).
Qed.

Theorem C108_sum : forall ord bord tord, (forall l, Permutation (ord l) l) -> (forall l, Permutation (bord l) l) -> (forall l, Permutation (tord l) l) ->
  forall n mu nu, strict_partition mu -> strict_partition nu ->
  (exists V g, refined_dual_p ord bord tord n mu nu = Ok V /\ dual_stable_grothendieck_p ord n mu nu = Ok g /\
     forall c m, canon_mono m -> fold_right Z.add 0 (map (fun kv => ncoeff (nget smono_eqb (snd kv) c) m) V) = ncoeff (nget smono_eqb g c) m) /\
  (exists V g, refined_dual_q ord bord tord n mu nu = Ok V /\ dual_stable_grothendieck_q ord n mu nu = Ok g /\
     forall c m, canon_mono m -> fold_right Z.add 0 (map (fun kv => ncoeff (nget smono_eqb (snd kv) c) m) V) = ncoeff (nget smono_eqb g c) m).
Proof.
  intros ord bord tord H1 H2 H3 n mu nu Pm Pn. split.
  - destruct (C108_refined_p ord bord tord H1 H2 H3 n mu nu Pm Pn) as (V & EV & NV & _ & HV). destruct (C70_dual_stable_grothendieck_p ord H1 n mu nu Pm Pn) as (g & Eg & Hg). exists V, g. split; [exact EV|]. split; [exact Eg|]. exact (add_up false n _ mu nu V g NV HV Hg).
  - destruct (C108_refined_q ord bord tord H1 H2 H3 n mu nu Pm Pn) as (V & EV & NV & _ & HV). destruct (C70_dual_stable_grothendieck_q ord H1 n mu nu Pm Pn) as (g & Eg & Hg). exists V, g. split; [exact EV|]. split; [exact Eg|]. exact (add_up true n _ mu nu V g NV HV Hg).
Qed.

(* the shape (2, 1) in two variables has the diagonals (1, 1) and (1, 2); the skew shape (3, 1)/(1) has no box (1, 1), so only the empty key *)
Example C108_example_p : exists V, refined_dual_p idl idl idl 2 [2; 1] [] = Ok V /\ (1 < length V)%nat /\ existsb (fun kv => zlist_eqb (fst kv) [1; 2]) V = true.
Proof. eexists. split; [vm_compute; reflexivity|]. split; [vm_compute; repeat constructor|vm_compute; reflexivity]. Qed.
Example C108_example_q : exists V, refined_dual_q idl idl idl 2 [3; 1] [1] = Ok V /\ (0 < length V)%nat.
Proof. eexists. split; [vm_compute; reflexivity|]. vm_compute; repeat constructor. Qed.
Example C108_hypotheses : strict_partition [2; 1] /\ strict_partition [] /\ exists T, marked_rpp_of false 2 [2; 1] [] T /\ diagonal_is T [1; 2].
Proof.
  assert (S1 : strict_partition [2; 1]) by (split; [repeat constructor|intros [|[|i]] H; cbn in *; lia]).
  split; [exact S1|]. split; [exact strict_nil|]. exists [((1, 1), [-1]); ((1, 2), [-1]); ((2, 2), [-2])].
  destruct (marked_pack idl idl idl (fun l => Permutation_refl l) (fun l => Permutation_refl l) (fun l => Permutation_refl l) false 2 [2; 1] [] S1 strict_nil) as (d & r & g & _ & Er & _ & _ & Hr & _).
  split.
  - apply Hr. vm_compute in Er. injection Er as <-. repeat (first [left; reflexivity|right]).
  - split; [intros [|[|m]] H; cbn in H; [exists (-1); split; [exists [-1]; split; [left; reflexivity|left; reflexivity]|reflexivity]|exists (-2); split; [exists [-2]; split; [right; right; left; reflexivity|left; reflexivity]|reflexivity]|lia]|].
    intros x (l & H & _). cbn in H. repeat (destruct H as [H|H]; [discriminate|]). exact H.
Qed.

Print Assumptions C108_refined_p.
Print Assumptions C108_refined_q.
Print Assumptions C108_one_key.
Print Assumptions C108_sum.
