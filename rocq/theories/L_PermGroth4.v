(* The sum over the words of a generator, made symmetric. *)
From Coq Require Import List ZArith Lia Bool Permutation Arith.
From Verif Require Import PyBase FinSum M_Partitions S_Partitions L_Partitions L_PartBasic L_PartEnum L_Destand L_Destand2 M_Vectors M_Polynomials S_Polynomials L_Polynomials L_PolySubst
  M_Symmetric M_Expansion L_Count L_SymMul L_Num L_Expand1 L_Expand4 L_Expand5 L_Sym6 M_Words S_Words P_Words L_FominWords L_FominSym L_PermGroth2 M_PermGroth L_PermGroth3.
Import ListNotations.
Local Open Scope Z_scope.
Local Notation lg := (nget zlist_eqb).
Local Notation sg := (nget smono_eqb).

Lemma zs_subset : forall (f : list Z -> Z) l m, NoDup l -> NoDup m -> incl m l -> (forall v, In v l -> ~ In v m -> f v = 0) -> zs f l = zs f m.
Proof.
  intros f l m Nl Nm Hi Hz. rewrite (zs_set _ f m (filter (fun v => existsb (zlist_eqb v) m) l)).
  - rewrite zs_filter_ind. apply zs_ext. intros v Hv. destruct (existsb (zlist_eqb v) m) eqn:E; [lia|]. rewrite Hz; [lia|exact Hv|]. intro Hm. assert (existsb (zlist_eqb v) m = true); [|congruence]. apply existsb_exists. exists v. split; [exact Hm|apply zlist_eqb_eq; reflexivity].
  - exact Nm.
  - apply NoDup_filter. exact Nl.
  - intro v. rewrite filter_In, existsb_exists. split.
    + intro Hv. split; [apply Hi; exact Hv|]. exists v. split; [exact Hv|apply zlist_eqb_eq; reflexivity].
    + intros [_ (u & Hu & E)]. apply zlist_eqb_eq in E. subst u. exact Hu.
Qed.
Lemma cut_zeros : forall zeta k a v, zeta [] = 1 -> nsum a = length v -> zprod (map zeta (cut (a ++ repeat 0%nat k) v)) = zprod (map zeta (cut a v)).
Proof.
  intros zeta k a. induction a as [|x a IH]; intros v Hz E.
  - destruct v; [|discriminate]. rewrite cut_nil by exact Hz. reflexivity.
  - cbn [nsum fold_right] in E. fold (nsum a) in E. cbn [app cut map zprod fold_right]. fold (zprod (map zeta (cut (a ++ repeat 0%nat k) (skipn x v)))). fold (zprod (map zeta (cut a (skipn x v)))). rewrite IH; [reflexivity|exact Hz|]. rewrite skipn_length. lia.
Qed.

Section Glue.
  Variable zeta : list Z -> Z.
  Variables H B : list Z -> Prop.
  Variables b0 ell : Z.
  Variable n : nat.
  Variable words : list (list Z).
  Hypothesis zeta_nil : zeta [] = 1.
  Hypothesis H_sym : sym_words zeta H.
  Hypothesis H_fin : forall k, exists l, lists H k l.
  Hypothesis cover : forall a v, (length a <= n)%nat -> nsum a = length v -> H v -> zprod (map zeta (cut a v)) <> 0 -> B v.
  Hypothesis words_nd : NoDup words.
  Hypothesis words_in : forall v, In v words <-> (H v /\ B v) /\ (0 <= b0 -> zlen v <= b0).
  Definition cc (a : list Z) : Z := zs (qc zeta a) words.
  Definition beyond (s : Z) : bool := (0 <=? b0) && (b0 <? s).
  Lemma qc_nonzero : forall a v, qc zeta a v <> 0 -> Forall (fun x => 0 < x) a /\ nsum (nats a) = length v.
  Proof. intros a v Hq. unfold qc in Hq. destruct (posb a) eqn:E; [|cbn in Hq; congruence]. destruct (nsum (nats a) =? length v)%nat eqn:E2; [|cbn in Hq; congruence]. apply posb_spec in E. apply Nat.eqb_eq in E2. auto. Qed.
  Lemma cc_get : forall a G, zs (fun v => qc zeta a v * G (mvar 0 (zlen v - ell))) words = cc a * G (mvar 0 (zsum a - ell)).
  Proof.
    intros a G. unfold cc. rewrite Z.mul_comm, <- zs_scale. apply zs_ext. intros v _. destruct (Z.eq_dec (qc zeta a v) 0) as [E|E]; [rewrite E; lia|].
    apply qc_nonzero in E. destruct E as [E1 E2]. rewrite <- (nsum_nats a (pos_nonneg a E1)), E2. unfold zlen. lia.
  Qed.
  Lemma cc_pos : forall a, cc a <> 0 -> Forall (fun x => 0 < x) a.
  Proof.
    intros a Ha. destruct (posb a) eqn:E; [apply posb_spec; exact E|]. exfalso. apply Ha. unfold cc. apply zs_zero. intros v _. unfold qc. rewrite E. reflexivity.
  Qed.
  Lemma cc_value : forall a l, Forall (fun x => 0 < x) a -> (length a <= n)%nat -> lists H (nsum (nats a)) l -> cc a = if beyond (zsum a) then 0 else wsum zeta (nats a) l.
  Proof.
    intros a l Ha La [Nl Hl]. unfold cc. pose proof (nsum_nats a (pos_nonneg a Ha)) as Es.
    assert (E : zs (qc zeta a) words = zs (fun v => zprod (map zeta (cut (nats a) v))) (filter (fun v => (nsum (nats a) =? length v)%nat) words)).
    { rewrite zs_filter_ind. apply zs_ext. intros v _. unfold qc. rewrite (proj2 (posb_spec a) Ha). cbn [andb]. destruct (nsum (nats a) =? length v)%nat; lia. }
    rewrite E. clear E. unfold beyond. destruct ((0 <=? b0) && (b0 <? zsum a)) eqn:Eb.
    - apply andb_true_iff in Eb. destruct Eb as [E1 E2]. apply Z.leb_le in E1. apply Z.ltb_lt in E2. apply zs_zero. intros v Hv. exfalso. apply filter_In in Hv. destruct Hv as [Hv E]. apply Nat.eqb_eq in E. apply words_in in Hv. destruct Hv as [_ Hv]. specialize (Hv E1). unfold zlen in Hv. lia.
    - unfold wsum. symmetry. apply zs_subset; [exact Nl|apply NoDup_filter; exact words_nd| |].
      + intros v Hv. apply filter_In in Hv. destruct Hv as [Hv E]. apply Nat.eqb_eq in E. apply words_in in Hv. apply Hl. split; [tauto|lia].
      + intros v Hv Nv. apply Hl in Hv. destruct Hv as [Hv Ev]. destruct (Z.eq_dec (zprod (map zeta (cut (nats a) v))) 0) as [Z0|Z0]; [exact Z0|exfalso]. apply Nv. apply filter_In. split; [|apply Nat.eqb_eq; lia].
        apply words_in. split; [split; [exact Hv|]|].
        * apply (cover (nats a) v); [unfold nats; rewrite map_length; exact La|lia|exact Hv|exact Z0].
        * intro H0. apply andb_false_iff in Eb. unfold zlen. destruct Eb as [Eb|Eb]; [apply Z.leb_gt in Eb; lia|apply Z.ltb_ge in Eb; lia].
  Qed.
  Lemma cc_sym : forall a b, Permutation a b -> (length a <= n)%nat -> cc a = cc b.
  Proof.
    intros a b P La. destruct (posb a) eqn:E.
    - apply posb_spec in E. assert (Eb : Forall (fun x => 0 < x) b) by (eapply Permutation_Forall; eassumption).
      destruct (H_fin (nsum (nats a))) as (l & Hl). destruct (H_fin (nsum (nats b))) as (m & Hm).
      rewrite (cc_value a l E La Hl), (cc_value b m Eb); [|rewrite <- (Permutation_length P); exact La|exact Hm]. rewrite (zsum_perm a b P). destruct (beyond (zsum b)); [reflexivity|]. apply H_sym; [apply Permutation_map; exact P|exact Hl|exact Hm].
    - destruct (Z.eq_dec (cc a) 0) as [Z0|Z0]; [|apply cc_pos, posb_spec in Z0; congruence]. destruct (Z.eq_dec (cc b) 0) as [Z1|Z1]; [congruence|]. apply cc_pos in Z1.
      assert (Forall (fun x => 0 < x) a) by (eapply Permutation_Forall; [apply Permutation_sym; exact P|exact Z1]). apply posb_spec in H0. congruence.
  Qed.
  Lemma glue : exists vec f, word_total zeta ell words = Ok vec /\ symmetrize vec n = Ok f /\ nvwf f /\ (forall m, In m (map fst f) -> fst m = n /\ fits n (snd m)) /\
    (forall p G, fits n p -> nev (sg f (n, p)) G = cc p * G (mvar 0 (zsum p - ell))) /\
    forall e l, length e = n -> Forall (fun x => 0 <= x) e -> lists H (nsum (nats e)) l -> cc (psort e true) = if beyond (zsum e) then 0 else wsum zeta (nats e) l.
  Proof.
    destruct (word_total_ok zeta ell words) as (vec & E1 & W1 & V1). destruct (symmetrize_ok vec n ell cc W1) as (f & E2 & W2 & K2 & V2).
    - intros a G. rewrite V1. apply cc_get.
    - apply cc_pos.
    - apply cc_sym.
    - exists vec, f. split; [exact E1|]. split; [exact E2|]. split; [exact W2|]. split; [exact K2|]. split; [exact V2|]. intros e l Le Fe Hl.
      destruct (sort_arr n e Le Fe) as (Fp & _ & Es & Pp). destruct Fp as [Pa La].
      assert (Fpos : Forall (fun x => 0 < x) (psort e true)) by apply Pa.
      assert (En : nsum (nats (psort e true)) = nsum (nats e)). { apply Nat2Z.inj. rewrite (nsum_nats _ (pos_nonneg _ Fpos)), (nsum_nats e Fe). exact Es. }
      assert (Hl' : lists H (nsum (nats (psort e true))) l) by (rewrite En; exact Hl).
      rewrite (cc_value _ l Fpos La Hl'), Es. destruct (beyond (zsum e)); [reflexivity|].
      assert (Ep : nats (padz (psort e true) n) = nats (psort e true) ++ repeat 0%nat (n - length (psort e true))).
      { unfold padz, nats. rewrite map_app. f_equal. clear. induction (n - length (psort e true))%nat as [|k IH]; [reflexivity|]. cbn [repeat map]. rewrite IH. reflexivity. }
      assert (Hl2 : lists H (nsum (nats (padz (psort e true) n))) l). { rewrite (nsum_perm _ (nats e)); [exact Hl|]. apply Permutation_map. exact Pp. }
      rewrite <- (H_sym (nats (padz (psort e true) n)) (nats e) l l (Permutation_map _ Pp) Hl2 Hl). rewrite Ep. unfold wsum. apply zs_ext. intros v Hv. apply Hl' in Hv. symmetry. apply cut_zeros; [exact zeta_nil|]. symmetry. apply Hv.
  Qed.
End Glue.
