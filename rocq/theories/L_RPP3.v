(* The enumerators and counters of reverse plane partitions are exact *)
From Coq Require Import List ZArith Lia Permutation Bool.
From Verif Require Import PyBase M_Partitions M_Rref M_Tableaux M_Strips M_Semistandard M_RPP S_Partitions S_Tableaux S_Strips S_Semistandard S_Standard S_RPP
  L_Partitions L_PartBasic L_PartMore L_PartEnum L_Generate L_Tableaux L_Destand L_Operators L_Strips L_Strips2 L_Strips3 L_Shape L_Semi L_Semi2 L_Semi3 L_Semi4 L_Standard L_Sym8
  L_Count L_Count2 L_Count3 L_RPP1 L_RPP2.
Import ListNotations.
Local Open Scope Z_scope.

Definition al_plain (b : box) (x : Z) : Prop := 0 < x.
Definition alb_plain (b : box) (x : Z) : bool := 0 <? x.
Definition al_marked (dnp : bool) (b : box) (x : Z) : Prop := dnp = false -> fst b = snd b -> x < 0.
Definition alb_marked (dnp : bool) (b : box) (x : Z) : bool := dnp || negb (fst b =? snd b) || (x <? 0).
Lemma alb_plain_spec : forall b x, alb_plain b x = true <-> al_plain b x.
Proof. intros b x. apply Z.ltb_lt. Qed.
Lemma alb_marked_spec : forall dnp b x, alb_marked dnp b x = true <-> al_marked dnp b x.
Proof.
  intros dnp b x. unfold alb_marked, al_marked. rewrite !orb_true_iff, negb_true_iff, Z.eqb_neq, Z.ltb_lt. destruct dnp; [intuition congruence|].
  destruct (Z.eq_dec (fst b) (snd b)); intuition congruence.
Qed.
Lemma letter_2n : forall n, letter (2 * n) = n.
Proof. exact letter_even. Qed.
Lemma letter_2n1 : forall n, letter (2 * n - 1) = - n.
Proof. exact letter_odd. Qed.
Lemma even_2n' : forall n, Z.even (2 * n) = true.
Proof. intro. rewrite Z.even_mul. reflexivity. Qed.
Lemma odd_2n1 : forall n, Z.even (2 * n - 1) = false.
Proof. intro n. rewrite Z.even_sub, Z.even_mul. reflexivity. Qed.
Lemma okd_plain : forall n d, 0 < n -> okd al_plain (2 * n) d.
Proof. intros n d H b _. rewrite letter_even. exact H. Qed.
Lemma okd_prime : forall dnp n d, 0 < n -> okd (al_marked dnp) (2 * n - 1) d.
Proof. intros dnp n d H b _. rewrite letter_odd. intros _ _. lia. Qed.
Lemma okd_top : forall dnp n d, 0 < n -> (okdb (alb_marked dnp) (2 * n) d = dnp || negb (existsb (fun c => fst c =? snd c) d)).
Proof.
  intros dnp n d H. unfold okdb. induction d as [|b d IH]; cbn [forallb existsb]; [rewrite orb_true_r; reflexivity|]. rewrite IH. unfold alb_marked. rewrite letter_even.
  replace (n <? 0) with false by (symmetry; apply Z.ltb_ge; lia). destruct dnp; [reflexivity|]. cbn [orb]. destruct (fst b =? snd b); reflexivity.
Qed.

Section Enum.
  Variable ord : list (list Z) -> list (list Z).
  Variable bord : list box -> list box.
  Variable tord : list tab -> list tab.
  Hypothesis ord_perm : forall l, Permutation (ord l) l.
  Hypothesis bord_perm : forall l, Permutation (bord l) l.
  Hypothesis tord_perm : forall l, Permutation (tord l) l.

  Lemma add_layer : forall v d T, proper T -> NoDup d -> (forall b, In b d -> positive b /\ ~ Hd T b v) ->
    add_all (bord d) v T = Ok (addv v d T) /\ proper (addv v d T).
  Proof.
    intros v d T P N H. assert (Pd : Permutation d (bord d)) by (apply Permutation_sym, bord_perm).
    assert (H' : forall b, In b (bord d) -> positive b) by (intros b Hb; apply H; apply (Permutation_in _ (Permutation_sym Pd)); assumption).
    split; [|apply (addv_spec d v T P N H)]. rewrite (proj1 (add_all_ok (bord d) v T (proj1 P) H')). f_equal. symmetry. apply addv_perm; assumption.
  Qed.
  Lemma contains_false : forall sh mu lam, part_b sh mu -> part_b sh lam -> contains mu lam = false -> ~ okS sh lam mu.
  Proof. intros sh mu lam Pm Pl E [_ I]. apply (proj2 (contains_incl sh mu lam Pm Pl)) in I. congruence. Qed.

  Lemma rpp_full : forall lam, partition lam -> forall n mu, partition mu ->
    exists r, semistandard_rpp ord bord tord n mu lam = Ok r /\ NoDup r /\ forall T, In T r <-> pfill false al_plain lam (2 * Z.of_nat n) mu T.
  Proof.
    intros lam Hl. induction n as [|n IH]; intros mu Hm; cbn [semistandard_rpp]; (destruct (zlist_eqb mu lam) eqn:E; [apply zlist_eqb_eq in E; subst mu; exists [[]]; split; [reflexivity|]; split; [repeat constructor; intros []|]; intro T; rewrite (pf_equal false al_plain lam Hl); cbn [In]; intuition congruence|]).
    - exists []. split; [reflexivity|]. split; [constructor|]. intro T. split; [intros []|]. intro F. apply pf_zero in F; [|exact Hl]. subst mu. rewrite zlist_eqb_refl in E. discriminate.
    - destruct (contains mu lam) eqn:C.
      + assert (Inc : forall b, dc false lam b -> dc false mu b) by (apply (contains_incl false mu lam); assumption).
        assert (Om : okS false lam mu) by (split; [exact Hm|assumption]).
        destruct (vertical_spec ord ord_perm mu lam Hm Hl) as (strips & Es & Hs & _). specialize (Hs Inc). rewrite Es. cbn [rbind].
        pose proof (strips_layers false lam lam mu strips (fun b H => H) Hs) as L.
        set (k := 2 * Z.of_nat (S n)). assert (Hk : 1 <= k) by (subst k; lia).
        assert (Lk : letter k = Z.of_nat (S n)) by apply letter_even.
        assert (Sk : forall nu T, pfill false al_plain lam (k - 1) nu T <-> pfill false al_plain lam (2 * Z.of_nat n) nu T).
        { intros nu T. rewrite (pf_skip false al_plain lam (k - 1) nu T) by (try (subst k; lia); intros b X; unfold al_plain in X; subst k; rewrite letter_odd in X; lia).
          replace (k - 1 - 1) with (2 * Z.of_nat n) by (subst k; lia). reflexivity. }
        assert (Add : forall nu d T, In (nu, d) strips -> pfill false al_plain lam (2 * Z.of_nat n) nu T -> add_all (bord d) (Z.of_nat (S n)) T = Ok (addv (letter k) d T)).
        { intros nu d T Hd' F. apply Sk in F. rewrite Lk. apply add_layer; [apply F|apply (proj1 (proj2 L) nu d Hd')|].
          intros b Hb. split; [eapply (layer_positive false al_plain); eassumption|apply (layer_fresh false al_plain lam k mu strips nu d T b Hk L Hd' F Hb)]. }
        destruct (rconcat_ok _ _ (fun s => match s with (nu, diff) => do tabs <- semistandard_rpp ord bord tord n nu lam; rmap (add_all (bord diff) (Z.of_nat (S n))) (tord tabs) end) strips) as (ans & Ea & Ha).
        { intros [nu d] Hd'. assert (Pn : part_b false nu) by apply (proj1 (proj2 L) nu d Hd'). destruct (IH nu Pn) as (tabs & Et & Nt & Ht). rewrite Et. cbn [rbind].
          destruct (rmap_ok _ _ (add_all (bord d) (Z.of_nat (S n))) (tord tabs)) as (ys & Ey & _); [|exists ys; exact Ey].
          intros T HT. exists (addv (letter k) d T). apply (Add nu d T Hd'). apply Ht. apply (Permutation_in _ (tord_perm tabs)). assumption. }
        rewrite Ea. cbn [rbind]. exists (set_tab ans). split; [reflexivity|]. split; [apply set_tab_NoDup|].
        intro T. rewrite set_tab_In, Ha. rewrite (half_set false al_plain lam Hl k mu strips T Hk Om L). split.
        * intros ([nu d] & ys & Hd' & Ey & HT). assert (Pn : part_b false nu) by apply (proj1 (proj2 L) nu d Hd'). destruct (IH nu Pn) as (tabs & Et & Nt & Ht). rewrite Et in Ey. cbn [rbind] in Ey.
          destruct (rmap_ok _ _ (add_all (bord d) (Z.of_nat (S n))) (tord tabs)) as (ys' & Ey' & Hy).
          { intros T' HT'. exists (addv (letter k) d T'). apply (Add nu d T' Hd'). apply Ht. apply (Permutation_in _ (tord_perm tabs)). assumption. }
          rewrite Ey' in Ey. injection Ey as <-. apply Hy in HT. destruct HT as (T' & HT' & E'). apply (Permutation_in _ (tord_perm tabs)) in HT'. apply Ht in HT'.
          rewrite (Add nu d T' Hd' HT') in E'. injection E' as <-. exists nu, d, T'. split; [assumption|]. split; [apply okd_plain; lia|]. split; [apply Sk; assumption|reflexivity].
        * intros (nu & d & T' & Hd' & _ & F & ->). apply Sk in F. assert (Pn : part_b false nu) by apply (proj1 (proj2 L) nu d Hd'). destruct (IH nu Pn) as (tabs & Et & Nt & Ht).
          destruct (rmap_ok _ _ (add_all (bord d) (Z.of_nat (S n))) (tord tabs)) as (ys' & Ey' & Hy).
          { intros T2 HT'. exists (addv (letter k) d T2). apply (Add nu d T2 Hd'). apply Ht. apply (Permutation_in _ (tord_perm tabs)). assumption. }
          exists (nu, d), ys'. split; [assumption|]. split; [rewrite Et; exact Ey'|]. apply Hy. exists T'. split; [|apply (Add nu); assumption]. apply (Permutation_in _ (Permutation_sym (tord_perm tabs))). apply Ht. assumption.
      + exists []. split; [reflexivity|]. split; [constructor|]. intro T. split; [intros []|]. intro F. apply (contains_false false mu lam Hm Hl C). apply F.
  Qed.

  Section Marked.
    Variable dnp : bool.
    Variable lam : list Z.
    Hypothesis Hl : strict_partition lam.
    Notation pf := (pfill true (al_marked dnp) lam).
    Definition strips1 (mu : list Z) : list (list Z * list box) := match shifted_rpp_horizontal_strips ord mu with Ok r => r | Err _ => [] end.
    Definition strips2 (mu : list Z) : list (list Z * list box) := match shifted_rpp_vertical_strips ord mu with Ok r => r | Err _ => [] end.
    Lemma strips1_ok : forall mu, strict_partition mu -> shifted_rpp_horizontal_strips ord mu = Ok (strips1 mu) /\ layers true lam mu (strips1 mu).
    Proof.
      intros mu P. destruct (shifted_horizontal_spec ord ord_perm mu P) as (r & E & H). unfold strips1. rewrite E. split; [reflexivity|].
      apply (strips_layers true lam []); [intros b Hb; exfalso; apply (dc_nil true b Hb)|assumption].
    Qed.
    Lemma strips2_ok : forall mu, strict_partition mu -> shifted_rpp_vertical_strips ord mu = Ok (strips2 mu) /\ layers true lam mu (strips2 mu).
    Proof.
      intros mu P. destruct (shifted_vertical_spec ord ord_perm mu P) as (r & E & H). unfold strips2. rewrite E. split; [reflexivity|].
      apply (strips_layers true lam []); [intros b Hb; exfalso; apply (dc_nil true b Hb)|assumption].
    Qed.
    Lemma step1 : forall mu nu d, strict_partition mu -> In (nu, d) (strips1 mu) -> strict_partition nu.
    Proof. intros mu nu d P H. destruct (strips1_ok mu P) as [_ (_ & L & _)]. apply (L nu d H). Qed.
    Lemma step2 : forall mu nu d, strict_partition mu -> In (nu, d) (strips2 mu) -> strict_partition nu.
    Proof. intros mu nu d P H. destruct (strips2_ok mu P) as [_ (_ & L & _)]. apply (L nu d H). Qed.

    (* two half steps *)
    Lemma full_set : forall n mu T, 0 < n -> okS true lam mu ->
      (pf (2 * n) mu T <-> exists nu1 d1 nu2 d2 T', In (nu1, d1) (strips1 mu) /\ In (nu2, d2) (strips2 nu1) /\ dnp || negb (existsb (fun c => fst c =? snd c) d1) = true /\
         pf (2 * n - 2) nu2 T' /\ T = addv n d1 (addv (- n) d2 T')).
    Proof.
      intros n mu T Hn Om. destruct (strips1_ok mu (proj1 Om)) as [_ L1]. rewrite (half_set true (al_marked dnp) lam Hl (2 * n) mu (strips1 mu) T) by (try assumption; lia). split.
      - intros (nu1 & d1 & T1 & H1 & A1 & F1 & ->). pose proof (step1 mu nu1 d1 (proj1 Om) H1) as P1. destruct (strips2_ok nu1 P1) as [_ L2].
        apply (half_set true (al_marked dnp) lam Hl (2 * n - 1) nu1 (strips2 nu1) T1) in F1; [|lia|apply F1|assumption]. destruct F1 as (nu2 & d2 & T2 & H2 & A2 & F2 & ->).
        exists nu1, d1, nu2, d2, T2. split; [assumption|]. split; [assumption|]. split; [rewrite <- (okd_top dnp n d1) by assumption; apply (okdb_spec _ _ (alb_marked_spec dnp)); assumption|].
        replace (2 * n - 1 - 1) with (2 * n - 2) in F2 by lia. rewrite letter_even, letter_odd. tauto.
      - intros (nu1 & d1 & nu2 & d2 & T2 & H1 & H2 & A1 & F2 & ->). pose proof (step1 mu nu1 d1 (proj1 Om) H1) as P1. destruct (strips2_ok nu1 P1) as [_ L2].
        exists nu1, d1, (addv (- n) d2 T2). split; [assumption|]. split; [apply (okdb_spec _ _ (alb_marked_spec dnp)); rewrite okd_top by assumption; assumption|]. split; [|rewrite letter_even; reflexivity].
        assert (O1 : okS true lam nu1).
        { split; [assumption|]. intros b Hb. destruct (proj1 (proj2 L2) nu2 d2 H2) as (_ & J2 & _). apply J2. destruct F2 as ([_ I2] & _). apply I2. assumption. }
        apply (half_set true (al_marked dnp) lam Hl (2 * n - 1) nu1 (strips2 nu1)); [lia|assumption|assumption|]. exists nu2, d2, T2. split; [assumption|]. split; [apply okd_prime; assumption|].
        replace (2 * n - 1 - 1) with (2 * n - 2) by lia. rewrite letter_odd. tauto.
    Qed.
    Lemma add_two : forall n mu nu1 d1 nu2 d2 T, 0 < n -> strict_partition mu -> In (nu1, d1) (strips1 mu) -> In (nu2, d2) (strips2 nu1) -> pf (2 * n - 2) nu2 T ->
      (do t1 <- add_all (bord d1) n T; add_all (bord d2) (- n) t1) = Ok (addv n d1 (addv (- n) d2 T)).
    Proof.
      intros n mu nu1 d1 nu2 d2 T Hn P H1 H2 F. pose proof (step1 mu nu1 d1 P H1) as P1. destruct (strips1_ok mu P) as [_ L1]. destruct (strips2_ok nu1 P1) as [_ L2].
      destruct (proj1 (proj2 L1) nu1 d1 H1) as (_ & I1 & N1 & C1). destruct (proj1 (proj2 L2) nu2 d2 H2) as (_ & I2 & N2 & C2).
      assert (X1 : forall b, In b d1 -> positive b /\ forall v, ~ Hd T b v).
      { intros b Hb. split; [apply (layer_positive true (al_marked dnp) lam mu (strips1 mu) nu1 d1); assumption|]. intros v Hv. apply C1 in Hb. destruct F as (_ & _ & Cells & _).
        assert (Y : exists x, Hd T b x) by (exists v; assumption). apply Cells in Y. destruct Y as [Y _]. apply I2 in Y. tauto. }
      assert (X2 : forall b, In b d2 -> positive b /\ forall v, ~ Hd T b v).
      { intros b Hb. split; [apply (layer_positive true (al_marked dnp) lam nu1 (strips2 nu1) nu2 d2); assumption|]. intros v Hv. apply C2 in Hb. destruct F as (_ & _ & Cells & _).
        assert (Y : exists x, Hd T b x) by (exists v; assumption). apply Cells in Y. tauto. }
      assert (PT : proper T) by apply F.
      assert (Y1 : forall b, In b d1 -> positive b /\ ~ Hd T b n) by (intros b Hb; destruct (X1 b Hb) as [A B]; split; [assumption|apply B]).
      destruct (add_layer n d1 T PT N1 Y1) as [E1 Q1]. rewrite E1. cbn [rbind].
      destruct (add_layer (- n) d2 (addv n d1 T) Q1 N2) as [E2 _].
      - intros b Hb. destruct (X2 b Hb) as [A B]. split; [assumption|]. intro X. apply (addv_spec d1 n T PT N1 Y1) in X. destruct X as [X|[X _]]; [apply (B _ X)|lia].
      - rewrite E2. f_equal. symmetry. apply addv_comm; [lia|assumption|assumption|assumption|assumption|].
        intros b Hb. destruct (X2 b Hb) as [A B]. split; [assumption|apply B].
    Qed.
    Lemma marked_rpp_full : forall n mu, strict_partition mu ->
      exists r, semistandard_marked_rpp ord bord tord n mu lam dnp = Ok r /\ NoDup r /\ forall T, In T r <-> pf (2 * Z.of_nat n) mu T.
    Proof.
      induction n as [|n IH]; intros mu Hm; cbn [semistandard_marked_rpp]; rewrite (strict_is_strict mu) by assumption; cbn [negb];
        (destruct (zlist_eqb mu lam) eqn:E; [apply zlist_eqb_eq in E; subst mu; exists [[]]; split; [reflexivity|]; split; [repeat constructor; intros []|]; intro T; rewrite (pf_equal true (al_marked dnp) lam Hl); cbn [In]; intuition congruence|]).
      - exists []. split; [reflexivity|]. split; [constructor|]. intro T. split; [intros []|]. intro F. apply pf_zero in F; [|exact Hl]. subst mu. rewrite zlist_eqb_refl in E. discriminate.
      - destruct (contains mu lam) eqn:C.
        + assert (Inc : forall b, dc true lam b -> dc true mu b) by (apply (contains_incl true mu lam); assumption).
          assert (Om : okS true lam mu) by (split; [exact Hm|assumption]).
          destruct (strips1_ok mu Hm) as [Es1 L1]. rewrite Es1. cbn [rbind].
          set (N := Z.of_nat (S n)). assert (HN : 0 < N) by (subst N; lia).
          assert (EN : 2 * Z.of_nat n = 2 * N - 2) by (subst N; lia).
          set (R := fun nu => match semistandard_marked_rpp ord bord tord n nu lam dnp with Ok r => r | Err _ => [] end).
          assert (HR : forall nu, strict_partition nu -> semistandard_marked_rpp ord bord tord n nu lam dnp = Ok (R nu) /\ forall T, In T (R nu) <-> pf (2 * N - 2) nu T).
          { intros nu Pn. destruct (IH nu Pn) as (tabs & Et & _ & Ht). unfold R. rewrite Et. split; [reflexivity|]. rewrite <- EN. assumption. }
          assert (In1 : forall nu1 d1 nu2 d2, In (nu1, d1) (strips1 mu) -> In (nu2, d2) (strips2 nu1) -> strict_partition nu2).
          { intros nu1 d1 nu2 d2 H1 H2. apply (step2 nu1 nu2 d2); [apply (step1 mu nu1 d1); assumption|assumption]. }
          assert (Inner : forall nu1 d1 nu2 d2, In (nu1, d1) (strips1 mu) -> In (nu2, d2) (strips2 nu1) ->
            exists ys, (if dnp || negb (existsb (fun c => fst c =? snd c) d1) then
                     do tabs <- semistandard_marked_rpp ord bord tord n nu2 lam dnp;
                     rmap (fun t => do t1 <- add_all (bord d1) N t; add_all (bord d2) (- N) t1) (tord tabs) else Ok []) = Ok ys /\
              forall T, In T ys <-> dnp || negb (existsb (fun c => fst c =? snd c) d1) = true /\ exists T', pf (2 * N - 2) nu2 T' /\ T = addv N d1 (addv (- N) d2 T')).
          { intros nu1 d1 nu2 d2 H1 H2. destruct (dnp || negb (existsb (fun c => fst c =? snd c) d1)); [|exists []; split; [reflexivity|]; intro T; split; [intros []|intros [X _]; discriminate]].
            destruct (HR nu2 (In1 _ _ _ _ H1 H2)) as [Er Hr]. rewrite Er. cbn [rbind].
            destruct (rmap_ok _ _ (fun t => do t1 <- add_all (bord d1) N t; add_all (bord d2) (- N) t1) (tord (R nu2))) as (ys & Ey & Hy).
            { intros T HT. exists (addv N d1 (addv (- N) d2 T)). apply (add_two N mu nu1 d1 nu2 d2); try assumption. apply Hr. apply (Permutation_in _ (tord_perm _)). assumption. }
            exists ys. split; [exact Ey|]. intro T. rewrite Hy. split.
            - intros (T' & HT' & E'). apply (Permutation_in _ (tord_perm _)) in HT'. apply Hr in HT'. rewrite (add_two N mu nu1 d1 nu2 d2 T') in E' by assumption. injection E' as <-. split; [reflexivity|]. exists T'. tauto.
            - intros [_ (T' & F & ->)]. exists T'. split; [apply (Permutation_in _ (Permutation_sym (tord_perm _))); apply Hr; assumption|apply (add_two N mu nu1 d1 nu2 d2); assumption]. }
          set (G := fun (s1 : list Z * list box) => match s1 with (nu1, diff1) =>
                 do strips2 <- shifted_rpp_vertical_strips ord nu1;
                 rconcat (fun s2 => match s2 with (nu2, diff2) =>
                   if dnp || negb (existsb (fun c => fst c =? snd c) diff1) then
                     do tabs <- semistandard_marked_rpp ord bord tord n nu2 lam dnp;
                     rmap (fun t => do t1 <- add_all (bord diff1) N t; add_all (bord diff2) (- N) t1) (tord tabs)
                   else Ok [] end) strips2 end).
          assert (Outer : forall nu1 d1, In (nu1, d1) (strips1 mu) -> exists ys, G (nu1, d1) = Ok ys /\
             forall T, In T ys <-> exists nu2 d2 T', In (nu2, d2) (strips2 nu1) /\ dnp || negb (existsb (fun c => fst c =? snd c) d1) = true /\ pf (2 * N - 2) nu2 T' /\ T = addv N d1 (addv (- N) d2 T')).
          { intros nu1 d1 H1. destruct (strips2_ok nu1 (step1 mu nu1 d1 Hm H1)) as [Es2 L2]. unfold G. rewrite Es2. cbn [rbind].
            destruct (rconcat_ok _ _ (fun s2 => match s2 with (nu2, diff2) =>
                   if dnp || negb (existsb (fun c => fst c =? snd c) d1) then
                     do tabs <- semistandard_marked_rpp ord bord tord n nu2 lam dnp;
                     rmap (fun t => do t1 <- add_all (bord d1) N t; add_all (bord diff2) (- N) t1) (tord tabs)
                   else Ok [] end) (strips2 nu1)) as (ys & Ey & Hy).
            { intros [nu2 d2] H2. destruct (Inner nu1 d1 nu2 d2 H1 H2) as (ys & Ey & _). exists ys. exact Ey. }
            exists ys. split; [exact Ey|]. intro T. rewrite Hy. split.
            - intros ([nu2 d2] & zs' & H2 & Ez & HT). destruct (Inner nu1 d1 nu2 d2 H1 H2) as (ys2 & Ey2 & Hy2). rewrite Ey2 in Ez. injection Ez as <-. apply Hy2 in HT. destruct HT as (A & T' & F & ->). exists nu2, d2, T'. tauto.
            - intros (nu2 & d2 & T' & H2 & A & F & ->). destruct (Inner nu1 d1 nu2 d2 H1 H2) as (ys2 & Ey2 & Hy2). exists (nu2, d2), ys2. split; [assumption|]. split; [exact Ey2|]. apply Hy2. split; [assumption|]. exists T'. tauto. }
          destruct (rconcat_ok _ _ G (strips1 mu)) as (ans & Ea & Ha).
          { intros [nu1 d1] H1. destruct (Outer nu1 d1 H1) as (ys & Ey & _). exists ys. exact Ey. }
          match goal with |- context [rconcat ?g (strips1 mu)] => change (rconcat g (strips1 mu)) with (rconcat G (strips1 mu)) end. rewrite Ea. cbn [rbind]. exists (set_tab ans). split; [reflexivity|]. split; [apply set_tab_NoDup|].
          intro T. rewrite set_tab_In, Ha, (full_set N mu T HN Om). split.
          * intros ([nu1 d1] & ys & H1 & Ey & HT). destruct (Outer nu1 d1 H1) as (ys' & Ey' & Hy). rewrite Ey' in Ey. injection Ey as <-. apply Hy in HT. destruct HT as (nu2 & d2 & T' & X). exists nu1, d1, nu2, d2, T'. tauto.
          * intros (nu1 & d1 & nu2 & d2 & T' & H1 & X). destruct (Outer nu1 d1 H1) as (ys' & Ey' & Hy). exists (nu1, d1), ys'. split; [assumption|]. split; [assumption|]. apply Hy. exists nu2, d2, T'. exact X.
        + exists []. split; [reflexivity|]. split; [constructor|]. intro T. split; [intros []|]. intro F. apply (contains_false true mu lam Hm Hl C). apply F.
    Qed.
  End Marked.
End Enum.
