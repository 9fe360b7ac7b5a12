(* The word lists of the three generators, from any cache left by earlier calls. *)
From Coq Require Import List ZArith Lia Bool Permutation Arith.
From Verif Require Import PyBase M_Partitions M_Words S_Words M_Perm S_Perm P_Perm M_Levels S_Levels L_Perm L_PermWord L_PermDem L_Levels L_LevelsInst P_Levels L_FominZeta L_PermActs L_FominSym M_PermGroth L_PermGroth1 L_PermGroth2.
Import ListNotations.
Local Open Scope Z_scope.

Section Drained.
Variables K L : Type.
Variable keqb : K -> K -> bool.
Hypothesis keqb_eq : forall a b, keqb a b = true <-> a = b.
Variable start : K -> res L.
Variable expand : K -> L -> res L.
Variable emptyb : L -> bool.
Variable Kok : K -> Prop.
Hypothesis Kok_dec : forall k, Kok k \/ ~ Kok k.
Variable T : K -> nat -> L.
Hypothesis T_start : forall k, Kok k -> start k = Ok (T k 0%nat).
Hypothesis T_expand : forall k n, Kok k -> expand k (T k n) = Ok (T k (S n)).
Notation hget := (hget K L keqb).
Notation hnext := (hnext K L keqb start expand emptyb).
Notation cok := (cok K L keqb emptyb T).
Notation good := (good_cache K L keqb emptyb Kok T).
Lemma hnext_elsewhere : forall c x k, k <> h_key x -> hget (fst (hnext c x)) k = hget c k /\ h_key (snd (hnext c x)) = h_key x.
Proof.
  intros c x k Hk. unfold M_Levels.hnext. destruct (_ && _); [split; reflexivity|]. destruct (hinner K L keqb start expand emptyb c (h_key x) (h_state x)) as [[[l s]|]|e]; cbn [fst snd h_key]; try (split; reflexivity).
  split; [|reflexivity]. destruct (_ <=? _); [|reflexivity]. apply (hget_dset_other _ _ keqb keqb_eq). congruence.
Qed.
Lemma drain_elsewhere : forall fuel c x c' out k, k <> h_key x -> hdrain K L hnext fuel c x = Ok (c', out) -> hget c' k = hget c k.
Proof.
  induction fuel as [|fuel IH]; intros c x c' out k Hk E; cbn [hdrain] in E; destruct (hnext_elsewhere c x k Hk) as [E1 E2]; destruct (hnext c x) as [c1 x1]; cbn [fst snd] in *;
    destruct (h_status x1); try discriminate.
  - injection E as <- _. exact E1.
  - rewrite <- E1. eapply IH; [|exact E]. rewrite E2. exact Hk.
  - injection E as <- _. exact E1.
Qed.
Lemma drain_running : forall k b0, Kok k -> forall fuel c x n m c' out, good c -> cok c k n -> xout K L emptyb T k b0 x m -> xcur K L T k x m n -> h_status x = HRunning ->
  hdrain K L hnext fuel c x = Ok (c', out) -> good c'.
Proof.
  intros k b0 Hk. induction fuel as [|fuel IH]; intros c x n m c' out Hall Hc Hx Hcur Hr E; cbn [hdrain] in E;
    destruct (hnext_ok K L keqb keqb_eq start expand emptyb Kok T T_start T_expand c k n b0 x m Hk Hc Hx Hcur Hr) as (n' & m' & C' & O' & X' & U'); destruct (hnext c x) as [c1 x1]; cbn [fst snd] in *;
    assert (Hall' : good c1) by
    (intros k' Hk'; destruct (keqb k' k) eqn:Ek;
      [apply keqb_eq in Ek; subst k'; exists n'; assumption
      |assert (N : k' <> k) by (intro Q; apply keqb_eq in Q; congruence); destruct (Hall k' Hk') as (q & Q1 & Q2); exists q; split; [rewrite O' by assumption; assumption|assumption]]);
    destruct (h_status x1) eqn:Es; try discriminate.
  - injection E as <- _. exact Hall'.
  - eapply (IH c1 x1 n' m'); eauto.
  - injection E as <- _. exact Hall'.
Qed.
Lemma drain_good : forall k lb fuel c c' out, good c -> hdrain K L hnext fuel c (hfresh k lb) = Ok (c', out) -> good c'.
Proof.
  intros k lb fuel c c' out Hg E. destruct (Kok_dec k) as [Hk|Hk].
  - destruct (Hg k Hk) as (n & Hn). eapply (drain_running k (match lb with None => -1 | Some b => b end) Hk fuel c (hfresh k lb) n 0%nat); try eassumption; try reflexivity.
    unfold L_Levels.xout, hfresh. cbn. repeat split; try reflexivity; try discriminate; intros; lia.
  - intros k' Hk'. destruct (Hg k' Hk') as (n & Hn & Hn2). exists n. split; [|exact Hn2]. rewrite <- Hn. eapply drain_elsewhere; [|exact E]. cbn. intros ->. contradiction.
Qed.
End Drained.

Lemma wempty_nil : forall l, wempty l = true <-> l = [].
Proof. intros [|x l]; cbn; split; congruence. Qed.
Lemma no_pairs : forall (l : wlevel), (forall pi v, ~ In (pi, v) l) -> wempty l = true.
Proof. intros [|[pi v] l] H; [reflexivity|]. exfalso. apply (H pi v). left. reflexivity. Qed.
Lemma lvls_closed : forall ord letters act ok a0 n, (forall l, Permutation (ord l) l) -> lvls ord letters act ok a0 n = [] -> lvls ord letters act ok a0 (S n) = [].
Proof. intros ord letters act ok a0 n Ho E. cbn [lvls]. unfold expandp. rewrite E. rewrite (Permutation_nil (Permutation_sym (Ho []))). reflexivity. Qed.

Definition lbound (lb : option Z) : Z := match lb with None => -1 | Some b => b end.

Section Words.
  Variable ord : wlevel -> wlevel.
  Variable pick : nat -> list Z -> Z.
  Hypothesis ord_perm : forall l, Permutation (ord l) l.
  Hypothesis pick_in : chooses pick.
  Definition hgood := good_cache hkey wlevel hkey_eqb wempty (fun _ => True) (hT ord).
  Definition igood := good_cache skey wlevel skey_eqb wempty (fun _ => True) (iT ord).
  Definition sgood := good_cache skey wlevel skey_eqb wempty even_rank (sT ord).

  Lemma hgood_history : forall h, seqok hkey hkey_eqb [] [] h -> hgood (h_cache (hecke_run ord pick h)).
  Proof. intros h. apply history_good; [exact hkey_eqb_eq|exact (hT_start ord)|exact (hT_expand ord ord_perm pick pick_in)]. Qed.
  Lemma igood_history : forall h, seqok skey skey_eqb [] [] h -> igood (h_cache (involution_run ord pick h)).
  Proof. intros h. apply history_good; [exact skey_eqb_eq|exact (iT_start ord)|exact (iT_expand ord ord_perm pick pick_in)]. Qed.
  Lemma sgood_history : forall h, seqok skey skey_eqb [] [] h -> sgood (h_cache (symplectic_run ord pick h)).
  Proof. intros h. apply history_good; [exact skey_eqb_eq|exact (sT_start ord)|exact (sT_expand ord ord_perm pick pick_in)]. Qed.

  Lemma hgood_words : forall fuel c w lb ab c' ws, hgood c -> get_hecke_words ord pick fuel c w lb ab = Ok (c', ws) -> hgood c'.
  Proof.
    intros fuel c w lb ab c' ws Hc E. unfold get_hecke_words in E.
    match type of E with rbind ?X _ = _ => destruct X as [[c1 out]|e] eqn:E1; [|discriminate] end. injection E as <- _.
    refine (drain_good _ _ _ hkey_eqb_eq _ _ _ _ _ _ (hT_start ord) (hT_expand ord ord_perm pick pick_in) _ _ _ _ _ _ Hc E1). intro k. left. exact I.
  Qed.
  Lemma igood_words : forall fuel c w lb ab c' ws, igood c -> get_involution_hecke_words ord pick fuel c w lb ab = Ok (c', ws) -> igood c'.
  Proof.
    intros fuel c w lb ab c' ws Hc E. unfold get_involution_hecke_words in E.
    match type of E with rbind ?X _ = _ => destruct X as [[c1 out]|e] eqn:E1; [|discriminate] end. injection E as <- _.
    refine (drain_good _ _ _ skey_eqb_eq _ _ _ _ _ _ (iT_start ord) (iT_expand ord ord_perm pick pick_in) _ _ _ _ _ _ Hc E1). intro k. left. exact I.
  Qed.
  Lemma sgood_words : forall fuel c w lb ab c' ws, sgood c -> get_symplectic_hecke_words ord pick fuel c w lb ab = Ok (c', ws) -> sgood c'.
  Proof.
    intros fuel c w lb ab c' ws Hc E. unfold get_symplectic_hecke_words in E.
    match type of E with rbind ?X _ = _ => destruct X as [[c1 out]|e] eqn:E1; [|discriminate] end. injection E as <- _.
    refine (drain_good _ _ _ skey_eqb_eq _ _ _ _ _ _ (sT_start ord) (sT_expand ord ord_perm pick pick_in) _ _ _ _ _ _ Hc E1). intro k. unfold even_rank. destruct (Z.eq_dec (fst (fst k) mod 2) 0); [left|right]; assumption.
  Qed.

  (* every call ends *)
  Lemma hecke_words_ok : forall w n lb, 0 <= n -> exists N0, forall fuel c, (N0 < fuel)%nat -> hgood c -> exists c' ws, get_hecke_words ord pick fuel c w lb (Some n) = Ok (c', ws) /\ hgood c' /\ NoDup ws /\
    forall v, In v ws <-> (hecke_wd (zlen w) w v /\ bounded few_ascents (Some n) v) /\ (0 <= lbound lb -> zlen v <= lbound lb).
  Proof.
    intros w n lb Hn. set (k := (zlen w, Some n) : hkey). exists (Z.to_nat (1 + n * Z.max (zlen w) 0)). intros fuel c Hf Hc.
    assert (In_T : forall j pi v, In (pi, v) (hT ord k j) <-> length v = j /\ hecke_wd (zlen w) pi v /\ bounded few_ascents (Some n) v).
    { intros j pi v. unfold hT. rewrite (lvls_spec ord ord_perm _ _ _ (ok_asc_prefix (snd k))), letters_range, ok_asc_bounded. unfold hecke_wd, k. cbn [fst snd]. tauto. }
    destruct (fresh_ok _ _ _ hkey_eqb_eq _ _ wempty _ _ (hT_start ord) (hT_expand ord ord_perm pick pick_in) k lb (Z.to_nat (1 + n * Z.max (zlen w) 0)) c I) with (fuel := fuel) as (c' & m' & E & G & _ & B1 & B2); [|exact Hc|exact Hf|].
    { apply no_pairs. intros pi v Hv. apply In_T in Hv. destruct Hv as (L & (F & _) & A). pose proof (few_ascents_short _ n v Hn F A). unfold zlen in *. nia. }
    exists c', (level_words ord w (map (hT ord k) (seq 0 m'))). split; [unfold get_hecke_words; match goal with |- rbind ?X _ = _ => change X with (hdrain _ _ (hnext _ _ hkey_eqb hecke_start (hecke_expand ord pick) wempty) fuel c (hfresh k lb)) end; rewrite E; reflexivity|]. split; [exact G|].
    destruct (level_words_ok ord ord_perm (hT ord k) (fun pi v => hecke_wd (zlen w) pi v /\ bounded few_ascents (Some n) v) In_T) with (w := w) (m := m') (b0 := lbound lb) as [W1 W2]; try assumption.
    - intro j. apply hT_nodup. exact ord_perm.
    - intro j. apply lvls_closed. exact ord_perm.
    - split; assumption.
  Qed.
  Lemma involution_words_ok : forall w n lb, 0 <= n -> exists N0, forall fuel c, (N0 < fuel)%nat -> igood c -> exists c' ws, get_involution_hecke_words ord pick fuel c w lb (Some n) = Ok (c', ws) /\ igood c' /\ NoDup ws /\
    forall v, In v ws <-> (inv_wd (zlen w) w v /\ bounded few_peaks (Some n) v) /\ (0 <= lbound lb -> zlen v <= lbound lb).
  Proof.
    intros w n lb Hn. set (k := (zlen w, Some n, true) : skey). exists (Z.to_nat (1 + n * (2 * Z.max (zlen w) 0))). intros fuel c Hf Hc.
    assert (In_T : forall j pi v, In (pi, v) (iT ord k j) <-> length v = j /\ inv_wd (zlen w) pi v /\ bounded few_peaks (Some n) v).
    { intros j pi v. unfold iT. rewrite (lvls_spec ord ord_perm _ _ _ (ok_peak_prefix (snd (fst k)))), letters_range, ok_peak_bounded. unfold inv_wd, k. cbn [fst snd]. tauto. }
    destruct (fresh_ok _ _ _ skey_eqb_eq _ _ wempty _ _ (iT_start ord) (iT_expand ord ord_perm pick pick_in) k lb (Z.to_nat (1 + n * (2 * Z.max (zlen w) 0))) c I) with (fuel := fuel) as (c' & m' & E & G & _ & B1 & B2); [|exact Hc|exact Hf|].
    { apply no_pairs. intros pi v Hv. apply In_T in Hv. destruct Hv as (L & (F & _) & A). pose proof (few_peaks_short _ n v Hn F A). unfold zlen in *. nia. }
    exists c', (level_words ord w (map (iT ord k) (seq 0 m'))). split; [unfold get_involution_hecke_words; match goal with |- rbind ?X _ = _ => change X with (hdrain _ _ (hnext _ _ skey_eqb involution_start (involution_expand ord pick) wempty) fuel c (hfresh k lb)) end; rewrite E; reflexivity|]. split; [exact G|].
    destruct (level_words_ok ord ord_perm (iT ord k) (fun pi v => inv_wd (zlen w) pi v /\ bounded few_peaks (Some n) v) In_T) with (w := w) (m := m') (b0 := lbound lb) as [W1 W2]; try assumption.
    - intro j. apply iT_nodup. exact ord_perm.
    - intro j. apply lvls_closed. exact ord_perm.
    - split; assumption.
  Qed.
  Lemma symplectic_words_ok : forall w n lb, 0 <= n -> zlen w mod 2 = 0 -> exists N0, forall fuel c, (N0 < fuel)%nat -> sgood c -> exists c' ws, get_symplectic_hecke_words ord pick fuel c w lb (Some n) = Ok (c', ws) /\ sgood c' /\ NoDup ws /\
    forall v, In v ws <-> (symp_wd (zlen w) w v /\ bounded few_ascents (Some n) v) /\ (0 <= lbound lb -> zlen v <= lbound lb).
  Proof.
    intros w n lb Hn Hw. set (k := (zlen w, Some n, true) : skey). exists (Z.to_nat (1 + n * Z.max (zlen w) 0)). intros fuel c Hf Hc.
    assert (In_T : forall j pi v, In (pi, v) (sT ord k j) <-> length v = j /\ symp_wd (zlen w) pi v /\ bounded few_ascents (Some n) v).
    { intros j pi v. unfold sT. rewrite (lvls_spec ord ord_perm _ _ _ (ok_asc_prefix (snd (fst k)))), letters_range, ok_asc_bounded. unfold symp_wd, k. cbn [fst snd]. tauto. }
    destruct (fresh_ok _ _ _ skey_eqb_eq _ _ wempty _ _ (sT_start ord) (sT_expand ord ord_perm pick pick_in) k lb (Z.to_nat (1 + n * Z.max (zlen w) 0)) c Hw) with (fuel := fuel) as (c' & m' & E & G & _ & B1 & B2); [|exact Hc|exact Hf|].
    { apply no_pairs. intros pi v Hv. apply In_T in Hv. destruct Hv as (L & (F & _) & A). pose proof (few_ascents_short _ n v Hn F A). unfold zlen in *. nia. }
    exists c', (level_words ord w (map (sT ord k) (seq 0 m'))). split; [unfold get_symplectic_hecke_words; match goal with |- rbind ?X _ = _ => change X with (hdrain _ _ (hnext _ _ skey_eqb symplectic_start (symplectic_expand ord pick) wempty) fuel c (hfresh k lb)) end; rewrite E; reflexivity|]. split; [exact G|].
    destruct (level_words_ok ord ord_perm (sT ord k) (fun pi v => symp_wd (zlen w) pi v /\ bounded few_ascents (Some n) v) In_T) with (w := w) (m := m') (b0 := lbound lb) as [W1 W2]; try assumption.
    - intro j. apply sT_nodup; [exact ord_perm|exact Hw].
    - intro j. apply lvls_closed. exact ord_perm.
    - split; assumption.
  Qed.
End Words.
