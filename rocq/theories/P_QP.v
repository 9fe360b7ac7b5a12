(* C78: Schur Q-polynomials are multiples of Schur P-polynomials by powers of two (README: 8 * P(n, mu) == Q(n, mu)).
   The parameters ord, bord, tord are the unspecified iteration orders of Python sets. *)
From Coq Require Import List ZArith Lia Bool Permutation Arith Sorting.Sorted.
From Verif Require Import PyBase FinSum M_Partitions S_Partitions L_Partitions L_PartBasic L_PartMore L_PartEnum L_Destand L_Destand2 M_Vectors L_Vectors M_Polynomials S_Polynomials L_Polynomials P_Polynomials L_PolySubst
  M_Tableaux S_Tableaux L_Tableaux S_Strips M_Semistandard S_Semistandard L_Strips2 L_Shape L_Semi L_Semi2 L_Semi3 L_Semi4 L_Semi5 L_Count L_Count2 L_Count3 L_CountCache M_Symmetric S_Symmetric M_Expansion S_Expansion M_Slow M_Families
  L_SymPoly L_SymMul L_Growth L_Kostka L_Num L_Expand1 L_Expand2 L_Expand3 L_Expand4 L_Expand5 L_Expand6 L_Expand7 P_Symmetric P_Expansion P_Semistandard P_Count L_Sym1 L_Sym2 L_Sym3 L_Sym4 L_Sym5 L_Sym6 L_Sym8 L_Sym11 L_Slow P_Symmetry L_Insertion6 L_Families L_Families2 P_Families P_RPP L_QP.
Import ListNotations.
Local Open Scope Z_scope.
Local Notation sg := (nget smono_eqb).

Section Statements.
  Variable ord : list (list Z) -> list (list Z).
  Variable bord : list (Z * Z) -> list (Z * Z).
  Variable tord : list tab -> list tab.
  Hypothesis ord_perm : forall l, Permutation (ord l) l.
  Hypothesis bord_perm : forall l, Permutation (bord l) l.
  Hypothesis tord_perm : forall l, Permutation (tord l) l.

  (* c * f and f == g for symmetric polynomials with int coefficients *)
  Local Notation scale := (vscale smono_eqb 0 Z.mul (fun c => c =? 0)).
  Local Notation equal := (veq smono_eqb 0 Z.sub (fun c => c =? 0)).

  Lemma schur_p_at : forall dp n mu nu, strict_partition mu -> strict_partition nu -> exists f, (do d <- count_semistandard_shifted_marked ord n mu nu dp false; vectorize n d) = Ok f /\
    NoDup (map fst f) /\ Forall (fun mc => snd mc <> 0) f /\ (forall m, sget f m <> 0 -> fst m = n /\ fits n (snd m)) /\
    forall p, fits n p -> cardinality (fun T => tableau_of shifted_cell (pprime dp) false n mu nu T /\ has_weight p T) (sget f (n, p)).
  Proof.
    intros dp n mu nu Hm Hn. destruct (pack_shifted' ord idl idl ord_perm idl_perm idl_perm n mu nu dp false Hm Hn) as (r & d & _ & Ed & (Nr & HQ & Lt & Sy) & (Gd & HN)). rewrite Ed. cbn [rbind].
    destruct (vectorize_short n d (good_short _ _ Gd)) as (f & Ef & Nf & Zf & _). destruct (schur_vec n d Gd) as (f0 & E0 & W & K & Gt & H). assert (f0 = f) by congruence. subst f0. cbv zeta in *.
    exists f. split; [assumption|]. split; [assumption|]. split; [assumption|]. split.
    - intros m Nz. apply K. rewrite map_map. cbn [fst]. unfold sget, dget0 in Nz. destruct (dget smono_eqb f m) as [c|] eqn:Eg; [|destruct (Nz eq_refl)]. apply (dget_In smono_eqb smono_eqb_eq) in Eg. exact (in_map fst _ _ Eg).
    - intros p Fp. assert (E : sget f (n, p) = cget d p). { specialize (H p (fun _ => 1) Fp). rewrite Gt in H. cbn [nev] in H. lia. }
      rewrite E, (HN p Fp). refine (counts_ext _ (fun T => In T r /\ has_weight (padz p n) T) _ _ _ _ eq_refl _); [intro T; rewrite has_weight_padz, HQ; reflexivity|].
      apply wcount_cardinality; [assumption|apply padz_length, Fp|]. intros T m HT Hgt. apply (occ_above n); [apply Lt; assumption|assumption].
  Qed.

  Theorem C78_Q_is_multiple_of_P : forall n mu nu, strict_partition mu -> strict_partition nu ->
    exists f g, schur_p ord n mu nu = Ok f /\ schur_q ord n mu nu = Ok g /\
      equal (scale f (2 ^ (Z.of_nat (length mu) - Z.of_nat (length nu)))) g = true /\
      forall m, sget g m = 2 ^ (Z.of_nat (length mu) - Z.of_nat (length nu)) * sget f m.
  Proof.
    intros n mu nu Hm Hn. destruct (schur_p_at false n mu nu Hm Hn) as (f & Ef & Nf & Zf & Kf & Hf). destruct (schur_p_at true n mu nu Hm Hn) as (g & Eg & Ng & Zg & Kg & Hg).
    exists f, g. split; [exact Ef|]. split; [exact Eg|]. set (k := 2 ^ (Z.of_nat (length mu) - Z.of_nat (length nu))).
    assert (E : forall m, sget g m = k * sget f m).
    { intro m. assert (X : fst m = n /\ fits n (snd m) -> sget g m = k * sget f m).
      { destruct m as [n' p]. cbn [fst snd]. intros [-> Fp]. refine (card_unique _ _ _ _ (Hg p Fp) _). exact (power_of_two n mu nu _ _ Hm Hn (weight_sim p) (Hf p Fp)). }
      destruct (Z.eq_dec (sget g m) 0) as [G0|G0]; [|apply X, Kg; assumption]. destruct (Z.eq_dec (sget f m) 0) as [F0|F0]; [lia|apply X, Kf; assumption]. }
    split; [|exact E].
    assert (Rz : forall x : Z, (x =? 0) = true <-> x = 0) by (intro x; apply Z.eqb_eq).
    assert (Wf : vwf 0 f) by (split; assumption). assert (Wg : vwf 0 g) by (split; assumption).
    apply (veq_spec smono_eqb smono_eqb_eq 0 1 Z.add Z.mul Z.sub Z.opp (fun c => c =? 0) InitialRing.Zth Rz); [apply (vscale_wf smono_eqb 0 Z.mul (fun c => c =? 0) Rz); assumption|assumption|].
    intro m. rewrite (vscale_get smono_eqb smono_eqb_eq 0 1 Z.add Z.mul Z.sub Z.opp (fun c => c =? 0) InitialRing.Zth Rz) by assumption. change (vget smono_eqb 0 f m) with (sget f m). change (vget smono_eqb 0 g m) with (sget g m). rewrite E. lia.
  Qed.
  (* the enumerators: 2^k times as many tableaux with primes on the diagonal *)
  Theorem C78_tableaux : forall n mu nu, strict_partition mu -> strict_partition nu ->
    exists r q, semistandard_shifted_marked ord bord tord n mu nu false false = Ok r /\ semistandard_shifted_marked ord bord tord n mu nu true false = Ok q /\
      zlen q = 2 ^ (Z.of_nat (length mu) - Z.of_nat (length nu)) * zlen r.
  Proof.
    intros n mu nu Hm Hn. destruct (pack_shifted' ord bord tord ord_perm bord_perm tord_perm n mu nu false false Hm Hn) as (r & _ & Er & _ & (Nr & Hr & _) & _).
    destruct (pack_shifted' ord bord tord ord_perm bord_perm tord_perm n mu nu true false Hm Hn) as (q & _ & Eq & _ & (Nq & Hq & _) & _).
    exists r, q. split; [assumption|]. split; [assumption|].
    assert (C : cardinality (fun T => tableau_of shifted_cell off_diagonal false n mu nu T /\ True) (zlen r)) by (exists r; split; [assumption|]; split; [|reflexivity]; intro T; rewrite Hr; unfold pprime; tauto).
    apply (power_of_two n mu nu (fun _ => True) _ Hm Hn (fun _ _ _ H => H)) in C. refine (card_unique _ _ _ _ _ C). exists q. split; [assumption|]. split; [|reflexivity]. intro T. rewrite Hq. unfold pprime. tauto.
  Qed.
End Statements.

Example C78_example : strict_partition [3; 2; 1] /\ exists f g, schur_p idl 3 [3; 2; 1] [] = Ok f /\ schur_q idl 3 [3; 2; 1] [] = Ok g /\
  sget f (3%nat, [3; 2; 1]) = 1 /\ sget g (3%nat, [3; 2; 1]) = 8 /\ veq smono_eqb 0 Z.sub (fun c => c =? 0) (vscale smono_eqb 0 Z.mul (fun c => c =? 0) f 8) g = true.
Proof.
  split; [split; [repeat constructor; lia|intros [|[|[|i]]]; cbn; lia]|]. eexists. eexists. split; [vm_compute; reflexivity|]. split; [vm_compute; reflexivity|]. repeat split; vm_compute; reflexivity.
Qed.
(* the other comparison in the README, GP(n, (3,)) - GP(n, (4,)) == GQ(n, (3,)), is false *)
Theorem C78_readme_GP_refuted : exists f g h, stable_grothendieck_p idl 1 [3] [] None = Ok f /\ stable_grothendieck_p idl 1 [4] [] None = Ok g /\ stable_grothendieck_q idl 1 [3] [] None = Ok h /\
  nveq smono_eqb (nvsub smono_eqb f g) h = false.
Proof. eexists. eexists. eexists. split; [vm_compute; reflexivity|]. split; [vm_compute; reflexivity|]. split; [vm_compute; reflexivity|]. vm_compute. reflexivity. Qed.

Print Assumptions C78_Q_is_multiple_of_P.
Print Assumptions C78_tableaux.
Print Assumptions C78_readme_GP_refuted.
