(* Symmetric polynomials as polynomials: coefficients of single monomials *)
From Coq Require Import List ZArith Lia Bool Permutation Arith.
From Verif Require Import PyBase FinSum M_Partitions S_Partitions L_Partitions L_PartBasic L_PartEnum L_Destand L_Destand2 M_Vectors L_Vectors M_Polynomials S_Polynomials L_Polynomials P_Polynomials L_PolySubst
  M_Tableaux M_Semistandard M_Symmetric S_Symmetric M_Expansion S_Expansion L_Count L_Count2 L_CountCache L_SymPoly L_SymMul L_Kostka L_Num L_Expand1 L_Expand2 L_Expand3 L_Expand4 L_Expand5 L_Expand6 P_Symmetric.
Import ListNotations.
Local Open Scope Z_scope.
Local Notation sg := (nget smono_eqb).

Lemma vmon_zero : forall isx e, mget (vmon isx e) 0 = 0.
Proof.
  intros isx e. unfold vmon. rewrite smon_get. apply zs_zero. intros [i a] H. cbn [fst snd]. apply in_combine_l in H. apply In_zrange in H. replace (svar isx i =? 0) with false; [reflexivity|]. symmetry. apply Z.eqb_neq. unfold svar. destruct isx; lia.
Qed.
Lemma beta_exponents : forall isx e k, exponents isx (length e) (mmul (vmon isx e) (mvar 0 k)) = e.
Proof.
  intros isx e k. rewrite <- (vmon_exponents isx e) at 3. unfold exponents. apply map_ext_in. intros i Hi. rewrite !expo_mget, mget_mmul, mget_mvar. apply in_seq in Hi.
  replace (0 =? variable isx i) with false; [lia|]. symmetry. apply Z.eqb_neq. unfold variable. destruct isx; lia.
Qed.

(* the nonzero entries, sorted *)
Lemma trim_nz : forall l, desc l -> Forall (fun x => 0 <= x) l -> trim l = filter nz l.
Proof.
  induction l as [|a l IH]; intros D F; [reflexivity|]. inversion D as [|? ? D1 D2]; subst. inversion F as [|? ? F1 F2]; subst. rewrite trim_cons, (IH D1 F2). cbn [filter]. unfold nz at 2.
  destruct (filter nz l) as [|b r] eqn:E.
  - destruct (a =? 0) eqn:Ea; reflexivity.
  - assert (B : In b l /\ nz b = true) by (apply filter_In; rewrite E; left; reflexivity). destruct B as [B1 B2]. rewrite Forall_forall in D2, F2. specialize (D2 b B1). specialize (F2 b B1). unfold nz in B2. apply negb_true_iff, Z.eqb_neq in B2.
    replace (a =? 0) with false by (symmetry; apply Z.eqb_neq; lia). reflexivity.
Qed.
Lemma filter_perm : forall A (f : A -> bool) l m, Permutation l m -> Permutation (filter f l) (filter f m).
Proof.
  intros A f l m P. induction P; cbn [filter].
  - constructor.
  - destruct (f x); [constructor|]; assumption.
  - destruct (f x), (f y); try apply Permutation_refl. constructor.
  - etransitivity; eassumption.
Qed.
Lemma zsum_perm : forall l m, Permutation l m -> zsum l = zsum m.
Proof. intros l m P. induction P; cbn [zsum fold_right] in *; unfold zsum in *; cbn [fold_right]; lia. Qed.
Lemma zsum_nz : forall l, zsum (filter nz l) = zsum l.
Proof. induction l as [|a l IH]; [reflexivity|]. cbn [filter]. unfold nz at 1. destruct (a =? 0) eqn:E; cbn [negb]; unfold zsum in *; cbn [fold_right]; rewrite IH; [apply Z.eqb_eq in E; lia|reflexivity]. Qed.
Lemma sort_arr : forall n e, length e = n -> Forall (fun x => 0 <= x) e -> fits n (psort e true) /\ arr n (psort e true) e /\ zsum (psort e true) = zsum e /\ Permutation (padz (psort e true) n) e.
Proof.
  intros n e L F. change (psort e true) with (trim (psort e false)). pose proof (psort_perm e) as P. assert (F' : Forall (fun x => 0 <= x) (psort e false)) by (eapply Permutation_Forall; [apply Permutation_sym; exact P|assumption]).
  assert (D : desc (psort e false)) by apply psort_sorted. assert (W : weak_partition (psort e false)) by (split; [assumption|]; pose proof (proj1 (desc_row _) D) as D0; intro i; destruct (le_lt_dec (length (psort e false)) (S i)) as [C|C]; [rewrite row_overflow by assumption; apply row_nonneg; assumption|apply D0; assumption]).
  assert (Ll : length (psort e false) = n) by (rewrite (Permutation_length P); assumption).
  split; [split; [apply weak_trim_partition; assumption|rewrite <- Ll; apply trim_length]|]. split; [split; [assumption|]|split].
  - rewrite trim_nz by assumption. apply filter_perm, Permutation_sym, P.
  - rewrite trim_nz by assumption. rewrite zsum_nz. apply zsum_perm. assumption.
  - assert (E : padz (trim (psort e false)) n = psort e false); [|rewrite E; assumption].
    apply row_ext_len; [rewrite padz_length; [symmetry; assumption|rewrite <- Ll; apply trim_length]|]. intro i. rewrite padz_row. apply trim_row.
Qed.
Lemma arr_sort : forall n p e, partition p -> arr n p e -> Forall (fun x => 0 <= x) e /\ psort e true = p /\ zsum p = zsum e.
Proof.
  intros n p e Pp [L P]. assert (F : Forall (fun x => 0 <= x) e).
  { apply Forall_forall. intros x Hx. destruct (Z.eq_dec x 0) as [->|N]; [lia|]. assert (I : In x p) by (eapply Permutation_in; [exact P|]; apply filter_In; split; [assumption|unfold nz; apply negb_true_iff, Z.eqb_neq; assumption]).
    destruct Pp as [Q _]. rewrite Forall_forall in Q. specialize (Q x I). lia. }
  split; [assumption|]. split.
  - destruct (sort_arr n e L F) as ((Q1 & _) & (_ & Q2) & _). apply partition_desc in Q1. apply partition_desc in Pp. apply desc_unique; [apply Q1|apply Pp|]. etransitivity; [apply Permutation_sym; exact Q2|exact P].
  - rewrite <- (zsum_nz e). symmetry. apply zsum_perm. assumption.
Qed.

Lemma nsym_polynomial : forall ord isx n (f : nsym) (N : list Z -> Z) (h : Z -> Z), (forall l, Permutation (ord l) l) -> nvwf f ->
  (forall m, In m (map fst f) -> fst m = n /\ fits n (snd m)) ->
  (forall p G, fits n p -> nev (sg f (n, p)) G = N p * G (mvar 0 (h (zsum p)))) ->
  exists P, spolynomial num_terms ord isx f = Ok P /\ canon P /\ forall m, canon_mono m ->
    (Forall (fun x => 0 <= x) (exponents isx n m) -> m = mmul (vmon isx (exponents isx n m)) (mvar 0 (h (zsum (exponents isx n m)))) -> coeff P m = N (psort (exponents isx n m) true)) /\
    (~ (Forall (fun x => 0 <= x) (exponents isx n m) /\ m = mmul (vmon isx (exponents isx n m)) (mvar 0 (h (zsum (exponents isx n m))))) -> coeff P m = 0).
Proof.
  intros ord isx n f N h Ho Wf Kf Hf.
  assert (Kd : keyed nok n f). { intros m c Hin. destruct (Kf m) as [K1 [K2 K3]]; [apply (in_map fst) in Hin; exact Hin|]. split; [assumption|]. split; [assumption|]. split; [assumption|]. destruct Wf as [_ Wf]. rewrite Forall_forall in Wf. apply (Wf _ Hin). }
  destruct (spolynomial_ok num_terms nok) with (ord := ord) (isx := isx) (n := n) (f := f) as (P & EP & WP & HP).
  { intros [z|p] O; cbn [num_terms]; [repeat constructor; intros []|apply O]. }
  { assumption. } { assumption. }
  exists P. split; [assumption|]. split; [exact WP|]. intros m C. set (e0 := exponents isx n m). assert (L0 : length e0 = n) by (unfold e0, exponents; rewrite map_length, seq_length; reflexivity).
  assert (T : forall k c, In (k, c) f -> mp isx k (fun a => cev num_terms c (fun u => ind (meqb (mmul a u) m))) =
     zs (fun e => N (snd k) * ind (meqb (mmul (vmon isx e) (mvar 0 (h (zsum (snd k))))) m)) (destandardize n (snd k))).
  { intros [k p] c Hin. destruct (Kf (k, p)) as [K1 K2]; [apply (in_map fst) in Hin; exact Hin|]. cbn [fst snd] in K1, K2. subst k. unfold mp. cbn [fst snd]. apply zs_ext. intros e _. unfold cev. rewrite <- nev_terms.
    rewrite <- (Hf p (fun u => ind (meqb (mmul (vmon isx e) u) m)) K2). rewrite (nget_In smono_eqb smono_eqb_eq f (n, p) c (proj1 Wf) Hin). reflexivity. }
  assert (M : forall p e, fits n p -> In e (destandardize n p) -> meqb (mmul (vmon isx e) (mvar 0 (h (zsum p)))) m = true ->
     e = e0 /\ Forall (fun x => 0 <= x) e0 /\ p = psort e0 true /\ m = mmul (vmon isx e0) (mvar 0 (h (zsum e0)))).
  { intros p e Fp He Hm. apply meqb_spec in Hm. pose proof (proj1 (partition_desc p) (proj1 Fp)) as [Q1 Q2]. apply (destandardize_spec n p Q1 Q2) in He. pose proof (proj1 He) as Le. assert (Ee : e = e0).
    { unfold e0. rewrite <- Hm, <- Le. symmetry. apply beta_exponents. }
    rewrite Ee in He, Hm. destruct (arr_sort n p e0 (proj1 Fp) He) as (A1 & A2 & A3). split; [exact Ee|]. split; [assumption|]. split; [symmetry; assumption|]. rewrite <- A3. symmetry. assumption. }
  unfold coeff. rewrite ev_get by apply WP. rewrite HP. unfold SV. split.
  - intros F0 E0. destruct (sort_arr n e0 L0 F0) as (Fp & Ar & Sz & _). set (p0 := psort e0 true) in *.
    destruct (in_dec (keq_dec smono_eqb smono_eqb_eq) (n, p0) (map fst f)) as [I|I].
    + apply in_map_iff in I. destruct I as ([k c] & Ek & Hin). cbn [fst] in Ek. subst k.
      assert (U : forall (fl : nsym), NoDup (map fst fl) -> In ((n, p0), c) fl -> (forall k x, In (k, x) fl -> k <> (n, p0) -> mp isx k (fun a => cev num_terms x (fun u => ind (meqb (mmul a u) m))) = 0) ->
        zs (fun mc => mp isx (fst mc) (fun a => cev num_terms (snd mc) (fun u => ind (meqb (mmul a u) m)))) fl = mp isx (n, p0) (fun a => cev num_terms c (fun u => ind (meqb (mmul a u) m)))).
      { induction fl as [|[k x] fl IH]; intros Nd Hi Hz; [destruct Hi|]. cbn [map fst] in Nd. apply NoDup_cons_iff in Nd. destruct Nd as [N1 N2]. rewrite zs_cons. cbn [fst snd]. destruct Hi as [Hi|Hi].
        - injection Hi as -> ->. rewrite zs_zero; [lia|]. intros [k' x'] Hk. cbn [fst snd]. apply Hz; [right; assumption|]. intros ->. apply N1. apply (in_map fst) in Hk. exact Hk.
        - rewrite (IH N2 Hi) by (intros k' x' H1 H2; apply Hz; [right; assumption|assumption]). rewrite (Hz k x (or_introl eq_refl)); [lia|]. intros ->. apply N1. apply (in_map fst) in Hi. exact Hi. }
      rewrite (U f (proj1 Wf) Hin).
      * rewrite (T _ _ Hin). cbn [snd]. rewrite zs_scale. pose proof (proj1 (partition_desc p0) (proj1 Fp)) as [Q1 Q2]. destruct (destandardize_spec n p0 Q1 Q2) as [Nd Dd].
        rewrite (zs_unique _ _ (fun e => e) _ e0).
        -- rewrite Sz, <- E0, meqb_refl. cbn [ind]. lia.
        -- rewrite map_id. assumption.
        -- apply Dd. assumption.
        -- intros e He Ne. destruct (meqb (mmul (vmon isx e) (mvar 0 (h (zsum p0)))) m) eqn:X; [|reflexivity]. destruct (M p0 e Fp He X) as [X1 _]. contradiction.
      * intros k x Hk Nk. rewrite (T k x Hk). apply zs_zero. intros e He. destruct (Kf k) as [K1 K2]; [apply (in_map fst) in Hk; exact Hk|]. destruct (meqb (mmul (vmon isx e) (mvar 0 (h (zsum (snd k))))) m) eqn:X; [|cbn [ind]; lia].
        destruct (M (snd k) e K2 He X) as (_ & _ & Ep & _). exfalso. apply Nk. destruct k as [k p]. cbn [fst snd] in *. rewrite K1, Ep. reflexivity.
    + pose proof (Hf p0 (fun _ => 1) Fp) as Z0. rewrite (nget_notin smono_eqb smono_eqb_eq f) in Z0 by assumption. cbn [nev] in Z0. transitivity 0; [|lia].
      apply zs_zero. intros [k x] Hk. cbn [fst snd]. rewrite (T k x Hk). apply zs_zero. intros e He. destruct (Kf k) as [K1 K2]; [apply (in_map fst) in Hk; exact Hk|]. destruct (meqb (mmul (vmon isx e) (mvar 0 (h (zsum (snd k))))) m) eqn:X; [|cbn [ind]; lia].
      destruct (M (snd k) e K2 He X) as (_ & _ & Ep & _). exfalso. apply I. fold p0 in Ep. destruct k as [k p]. cbn [fst snd] in *. rewrite K1, Ep in Hk. apply (in_map fst) in Hk. exact Hk.
  - intro No. apply zs_zero. intros [k x] Hk. cbn [fst snd]. rewrite (T k x Hk). apply zs_zero. intros e He. destruct (Kf k) as [K1 K2]; [apply (in_map fst) in Hk; exact Hk|]. destruct (meqb (mmul (vmon isx e) (mvar 0 (h (zsum (snd k))))) m) eqn:X; [|cbn [ind]; lia].
    destruct (M (snd k) e K2 He X) as (_ & A1 & _ & A3). exfalso. apply No. split; assumption.
Qed.
