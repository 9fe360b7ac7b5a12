(* C84, C85: shifted Hecke insertion and its inverse *)
From Coq Require Import List ZArith Bool Lia Sorted Permutation.
From Verif Require Import PyBase M_Partitions L_PartMore M_Tableaux S_Tableaux L_Tableaux P_Tableaux M_Insertion S_Insertion M_FState S_FState L_Insertion1 L_Insertion2 L_Insertion4 L_Insertion6 L_Insertion7 L_Insertion8 P_Insertion L_FState1 L_FState2 L_FState3 L_FState4 L_FState5 L_FState6 L_FState7 L_FState10.
From Verif Require L_Perm.
Import ListNotations.
Local Open Scope Z_scope.

Lemma shifted_of : forall L H t, fshape L H -> well_formed t -> (forall i j, tlookup t (i, j) <> None <-> fin L i j = true) -> shifted_cells t.
Proof.
  intros L H t S W E i j C. apply (cell_lookup t i j W) in C. apply E in C. apply fin_iff in C. split; [lia|]. intros r c Hr Hc. apply (cell_lookup t r c W). apply E. apply fin_iff. split; [lia|].
  pose proof (fmono L H r i j S). lia.
Qed.
Lemma T_lookup : forall L g p i j, T (look L g None) p -> tlookup p (i, j) = if fin L i j then Some [g i j] else None.
Proof. intros L g p i j [_ R]. rewrite R. reflexivity. Qed.
Lemma increasing_shifted_of : forall L H g p, fshape L H -> FIncr L g -> T (look L g None) p -> increasing_shifted p.
Proof.
  intros L H g p S I R. pose proof R as [W _]. split; [|split; [|split]].
  - apply (shifted_of L H); [assumption|assumption|]. intros i j. rewrite (T_lookup L g p i j R). destruct (fin L i j); split; intro K; congruence.
  - intros i j l K. apply holds_lookup in K; [|assumption]. rewrite (T_lookup L g p i j R) in K. destruct (fin L i j); [|discriminate]. injection K as <-. exists (g i j). reflexivity.
  - intros i j x y Hx Hy. apply holds_lookup in Hx, Hy; try assumption. rewrite (T_lookup L g p _ _ R) in Hx. rewrite (T_lookup L g p _ _ R) in Hy. destruct (fin L i j) eqn:E1; [|discriminate]. destruct (fin L i (j + 1)) eqn:E2; [|discriminate].
    injection Hx as <-. injection Hy as <-. apply fin_iff in E1, E2. apply I; lia.
  - intros i j x y Hx Hy. apply holds_lookup in Hx, Hy; try assumption. rewrite (T_lookup L g p _ _ R) in Hx. rewrite (T_lookup L g p _ _ R) in Hy. destruct (fin L i j) eqn:E1; [|discriminate]. destruct (fin L (i + 1) j) eqn:E2; [|discriminate].
    injection Hx as <-. injection Hy as <-. apply fin_iff in E1, E2. apply I; lia.
Qed.
Lemma standard_marked_of : forall L H q k, fshape L H -> FQ L q k -> standard_marked k q.
Proof.
  intros L H q k S Q. pose proof Q as (K0 & W & C & N & P & R1 & R2 & R3). split; [|split; [|split; [|split; [|split; [|split]]]]].
  - apply (shifted_of L H); [assumption|assumption|]. intros i j. apply (C (i, j)).
  - intros i j l K. apply holds_lookup in K; [|assumption]. eapply N. exact K.
  - apply (Permutation_NoDup (Permutation_sym P)). apply NoDup_zrange.
  - intro n. split; intro K; [apply (Permutation_in _ P) in K; apply In_zrange in K; lia|]. apply (Permutation_in _ (Permutation_sym P)). apply In_zrange. lia.
  - intros i j l m x y Hl Hm. apply holds_lookup in Hl, Hm; try assumption. eapply R1; eassumption.
  - intros i j l m x y Hl Hm. apply holds_lookup in Hl, Hm; try assumption. eapply R2; eassumption.
  - intros i l x Hl. apply holds_lookup in Hl; [|assumption]. exact (R3 i l x Hl).
Qed.

(* signs keep the recording invariant *)
Lemma flat_mapped : forall f t, Permutation (flat_map snd (tmapped f t)) (flat_map (fun cv => map (f (fst cv)) (snd cv)) t).
Proof.
  induction t as [|[c l] t IH]; [constructor|]. cbn [tmapped map flat_map fst snd]. apply Permutation_app; [apply Permutation_sym, sorted_perm|exact IH].
Qed.
Lemma FQ_negated : forall L q k, FQ L q k -> FQ L (tmapped fneg q) k.
Proof.
  intros L q k (K0 & W & C & N & P & R1 & R2 & R3).
  assert (IN : forall c l, tlookup (tmapped fneg q) c = Some l -> exists m, tlookup q c = Some m /\ forall x, In x l -> exists y, In y m /\ x = fneg c y).
  { intros c l K. rewrite tlookup_tmapped in K. destruct (tlookup q c) as [m|]; [|discriminate]. cbn [option_map] in K. injection K as <-. exists m. split; [reflexivity|]. intros x Hx.
    apply (Permutation_in _ (Permutation_sym (sorted_perm _))) in Hx. apply in_map_iff in Hx. destruct Hx as (y & <- & Hy). exists y. split; [exact Hy|reflexivity]. }
  assert (AB : forall c x, Z.abs (fneg c x) = Z.abs x) by (intros c x; unfold fneg; destruct (fst c =? snd c); lia).
  split; [exact K0|]. split; [apply tmapped_wf; exact W|]. split; [|split; [|split; [|split; [|split]]]].
  - intro c. rewrite <- C, tlookup_tmapped. destruct (tlookup q c); cbn [option_map]; split; intro K; congruence.
  - intros c l K. rewrite tlookup_tmapped in K. destruct (tlookup q c) as [m|] eqn:Em; [|discriminate]. cbn [option_map] in K. injection K as <-. intro K. pose proof (Permutation_length (sorted_perm (map (fneg c) m))) as PL. rewrite K, map_length in PL. apply (N c m Em). destruct m; [reflexivity|discriminate].
  - eapply Permutation_trans; [|exact P]. eapply Permutation_trans; [apply Permutation_map; apply flat_mapped|]. clear - AB. induction q as [|[c l] q IH]; [constructor|]. cbn [flat_map fst snd]. rewrite !map_app. apply Permutation_app; [|exact IH].
    rewrite map_map. rewrite (map_ext _ Z.abs); [apply Permutation_refl|]. intro x. apply AB.
  - intros i j l m x y Hl Hm Hx Hy. destruct (IN _ _ Hl) as (l' & El & Fl). destruct (IN _ _ Hm) as (m' & Em & Fm). destruct (Fl x Hx) as (x' & Hx' & ->). destruct (Fm y Hy) as (y' & Hy' & ->). rewrite !AB. apply (R1 i j l' m'); assumption.
  - intros i j l m x y Hl Hm Hx Hy. destruct (IN _ _ Hl) as (l' & El & Fl). destruct (IN _ _ Hm) as (m' & Em & Fm). destruct (Fl x Hx) as (x' & Hx' & ->). destruct (Fm y Hy) as (y' & Hy' & ->). rewrite !AB. apply (R2 i j l' m'); assumption.
  - intros i l x Hl Hx. destruct (IN _ _ Hl) as (l' & El & Fl). destruct (Fl x Hx) as (x' & Hx' & ->). unfold fneg. cbn [fst snd]. rewrite Z.eqb_refl. apply (R3 i l'); assumption.
Qed.

Definition rec_signed (r : list Z) (v : Z) : Z := if 0 <? v then nth (Z.to_nat (v - 1)) r 0 else - nth (Z.to_nat (- v - 1)) r 0.
Lemma rmapping_signed : forall r v, 1 <= Z.abs v <= zlen r -> rmapping r v = Ok (rec_signed r v).
Proof.
  intros r v H. unfold rmapping, rec_signed, nthz. destruct (Z.ltb_spec 0 v) as [h|h].
  - replace (1 <=? v) with true by (symmetry; apply Z.leb_le; lia). replace (v <=? zlen r) with true by (symmetry; apply Z.leb_le; lia). reflexivity.
  - replace (1 <=? v) with false by (symmetry; apply Z.leb_gt; lia). cbn [andb]. replace (1 <=? - v) with true by (symmetry; apply Z.leb_le; lia). replace (- v <=? zlen r) with true by (symmetry; apply Z.leb_le; lia). reflexivity.
Qed.
Definition doubled (w : list Z) : list Z := map (fun i => 2 * i) w.
Lemma doubled_even : forall w, Forall (fun a => a mod 2 = 0) (doubled w).
Proof. intro w. apply Forall_forall. intros x Hx. apply in_map_iff in Hx. destruct Hx as (y & <- & _). rewrite Z.mul_comm. apply Z_mod_mult. Qed.
Lemma zlen_doubled : forall w, zlen (doubled w) = zlen w.
Proof. intro w. unfold zlen, doubled. rewrite map_length. reflexivity. Qed.
Lemma half_incr : forall L g, Evn L g -> FIncr L g -> FIncr L (fun i j => g i j / 2).
Proof.
  intros L g Ev [I1 I2]. split; intros i j Hi Hj Hl.
  - pose proof (I1 i j Hi Hj Hl) as K. pose proof (Ev i j ltac:(apply fin_iff; lia)) as E1. pose proof (Ev i (j + 1) ltac:(apply fin_iff; lia)) as E2. apply Z.mod_divide in E1, E2; try lia. destruct E1 as [u E1], E2 as [v E2]. rewrite E1, E2 in *. rewrite !Z.div_mul by lia. lia.
  - pose proof (I2 i j Hi Hj Hl) as K. pose proof (Ev (i + 1) j ltac:(apply fin_iff; lia)) as E2.
    destruct (fin L i j) eqn:E0.
    + pose proof (Ev i j E0) as E1. apply Z.mod_divide in E1, E2; try lia. destruct E1 as [u E1], E2 as [v E2]. rewrite E1, E2 in *. rewrite !Z.div_mul by lia. lia.
    + apply Z.mod_divide in E2; try lia. destruct E2 as [v E2]. rewrite E2 in *. rewrite Z.div_mul by lia. apply Z.div_lt_upper_bound; lia.
Qed.

Lemma orthogonal_core : forall w, exists p q L H g, fshape L H /\ FIncr L g /\ T (look L g None) p /\ FQ L q (zlen w) /\
  forall multi ro r, check_record (doubled w) ro multi = Ok r -> orthogonal_hecke w ro multi = Ok (p, tmapped (fun _ => rec_signed r) (if multi then q else tmapped fneg q)).
Proof.
  intros w. destruct (f_tableaux (doubled w) (doubled_even w)) as (p & q & L & H & g & E & S & I & Ev & R & Q). rewrite zlen_doubled in Q.
  destruct (thalve_mapped L g p R Ev) as [Eh Rh]. exists (tmapped (fun _ x => x / 2) p), q, L, H, (fun i j => g i j / 2).
  split; [exact S|]. split; [apply half_incr; assumption|]. split; [exact Rh|]. split; [exact Q|].
  intros multi ro r C. unfold orthogonal_hecke, symplectic_hecke. fold (doubled w). rewrite C. cbn [rbind]. rewrite E. cbn [rbind fst snd].
  assert (Q' : FQ L (if multi then q else tmapped fneg q) (zlen w)) by (destruct multi; [exact Q|apply FQ_negated; exact Q]).
  replace (if multi then Ok q else tnegate q true) with (@Ok tab (if multi then q else tmapped fneg q)) by (destruct multi; [reflexivity|symmetry; apply tnegate_mapped; apply Q]).
  cbn [rbind]. set (q1 := if multi then q else tmapped fneg q) in *. rewrite (tapply_res_mapped (rmapping r) (rec_signed r) q1).
  - cbn [rbind fst snd]. rewrite Eh. reflexivity.
  - apply Q'.
  - intros c l x El Hx. apply rmapping_signed. pose proof (FQ_entry L q1 (zlen w) c l x Q' El Hx). destruct (check_ok _ _ _ _ C) as (LR & _). unfold zlen in *. unfold doubled in LR. rewrite map_length in LR. lia.
Qed.
Lemma rec_default : forall L q k, FQ L q k -> tmapped (fun _ => rec_signed (zrange 1 (k + 1))) q = q.
Proof.
  intros L q k Q. apply tmapped_id; [apply Q|]. intros c l x El Hx. pose proof (FQ_entry L q k c l x Q El Hx). unfold rec_signed. destruct (Z.ltb_spec 0 x) as [h|h].
  - pose proof (L_Perm.nthz_zrange 1 (k + 1) (x - 1)) as K. unfold nthz in K. rewrite K by lia. lia.
  - pose proof (L_Perm.nthz_zrange 1 (k + 1) (- x - 1)) as K. unfold nthz in K. rewrite K by lia. lia.
Qed.

(* Shifted Hecke insertion succeeds on every word of ints, in both modes: P is an increasing tableau of
   shifted shape and Q, of the same shape, is a standard set-valued tableau with unprimed diagonal *)
Theorem C84_total : forall w multi, exists p q, orthogonal_hecke w None multi = Ok (p, q) /\
  increasing_shifted p /\ standard_marked (zlen w) q /\ (forall i j, cell p i j <-> cell q i j).
Proof.
  intros w multi. destruct (orthogonal_core w) as (p & q & L & H & g & S & I & R & Q & E). specialize (E multi None _ (check_default (doubled w) multi)). rewrite zlen_doubled in E.
  set (q1 := if multi then q else tmapped fneg q) in *. assert (Q1 : FQ L q1 (zlen w)) by (unfold q1; destruct multi; [exact Q|apply FQ_negated; exact Q]).
  rewrite (rec_default L q1 _ Q1) in E. exists p, q1. split; [exact E|]. split; [apply (increasing_shifted_of L H g); assumption|]. split; [apply (standard_marked_of L H); assumption|].
  intros i j. pose proof R as [Wp _]. pose proof Q1 as (_ & Wq & Cq & _). rewrite (cell_lookup p i j Wp), (cell_lookup q1 i j Wq), (T_lookup L g p i j R), (Cq (i, j)). cbn [fst snd]. destruct (fin L i j); split; congruence.
Qed.

(* The two modes give the same P, and recording tableaux differing by the signs off the diagonal *)
Theorem C84_modes : forall w, exists p q q', orthogonal_hecke w None true = Ok (p, q) /\ orthogonal_hecke w None false = Ok (p, q') /\
  forall i j x, (exists l, holds q' i j l /\ In x l) <-> (exists l, holds q i j l /\ In (if i =? j then x else - x) l).
Proof.
  intro w. destruct (orthogonal_core w) as (p & q & L & H & g & S & I & R & Q & E). pose proof (E true None _ (check_default (doubled w) true)) as E1. pose proof (E false None _ (check_default (doubled w) false)) as E2.
  rewrite zlen_doubled in E1, E2. cbn iota in E1, E2. rewrite (rec_default L q _ Q) in E1. rewrite (rec_default L _ _ (FQ_negated L q _ Q)) in E2. exists p, q, (tmapped fneg q). split; [exact E1|]. split; [exact E2|].
  pose proof Q as (_ & W & _). pose proof (tmapped_wf fneg q W) as W'.
  intros i j x. split; intros (l & Hl & Hx); apply holds_lookup in Hl; try assumption.
  - rewrite tlookup_tmapped in Hl. destruct (tlookup q (i, j)) as [m|] eqn:Em; [|discriminate]. cbn [option_map] in Hl. injection Hl as <-. exists m. split; [apply holds_lookup; assumption|].
    apply (Permutation_in _ (Permutation_sym (sorted_perm _))) in Hx. apply in_map_iff in Hx. destruct Hx as (y & <- & Hy). unfold fneg. cbn [fst snd]. destruct (i =? j); [exact Hy|]. rewrite Z.opp_involutive. exact Hy.
  - exists (sorted (map (fneg (i, j)) l)). split; [apply holds_lookup; [exact W'|]; rewrite tlookup_tmapped, Hl; reflexivity|]. apply (Permutation_in _ (sorted_perm _)). apply in_map_iff. exists (if i =? j then x else - x). split; [|exact Hx].
    unfold fneg. cbn [fst snd]. destruct (i =? j); [reflexivity|lia].
Qed.

(* A record compatible with the word renames the values of the default recording tableau, keeping signs; any
   other record is refused *)
Lemma compatible_doubled : forall multi w r, compatible multi (doubled w) r <-> compatible multi w r.
Proof.
  intros multi w r. unfold compatible, doubled. rewrite map_length. assert (N : forall n, nth n (map (fun i => 2 * i) w) 0 = 2 * nth n w 0) by (intro n; apply (map_nth (fun i => 2 * i) w 0)).
  split; intros [E K]; (split; [exact E|]); intros n Hn; destruct (K n Hn) as [K1 K2]; (split; [exact K1|]); intro K3; apply K2; rewrite ?N in *; destruct multi; lia.
Qed.
Theorem C84_record : forall w r multi,
  (compatible multi w r -> exists p q0 q, orthogonal_hecke w None multi = Ok (p, q0) /\ orthogonal_hecke w (Some r) multi = Ok (p, q) /\
     (forall i j, cell q i j <-> cell q0 i j) /\
     forall i j l m, holds q0 i j l -> holds q i j m -> Permutation m (map (fun v => if 0 <? v then nth (Z.to_nat (v - 1)) r 0 else - nth (Z.to_nat (- v - 1)) r 0) l)) /\
  (~ compatible multi w r -> orthogonal_hecke w (Some r) multi = Err AssertionError).
Proof.
  intros w r multi. split; intro C.
  - destruct (orthogonal_core w) as (p & q & L & H & g & S & I & R & Q & E). pose proof (E multi None _ (check_default (doubled w) multi)) as E1. pose proof (E multi (Some r) r (check_compatible _ _ _ (proj2 (compatible_doubled _ _ _) C))) as E2. clear E.
    rewrite zlen_doubled in E1. set (q1 := if multi then q else tmapped fneg q) in *. assert (Q1 : FQ L q1 (zlen w)) by (unfold q1; destruct multi; [exact Q|apply FQ_negated; exact Q]). rewrite (rec_default L q1 _ Q1) in E1.
    exists p, q1, (tmapped (fun _ => rec_signed r) q1). split; [exact E1|]. split; [exact E2|]. pose proof Q1 as (_ & W & _). pose proof (tmapped_wf (fun _ => rec_signed r) q1 W) as W'. split.
    + intros i j. rewrite (cell_lookup _ i j W), (cell_lookup _ i j W'), tlookup_tmapped. destruct (tlookup q1 (i, j)); cbn [option_map]; split; congruence.
    + intros i j l m Hl Hm. apply holds_lookup in Hl, Hm; try assumption. rewrite tlookup_tmapped, Hl in Hm. cbn [option_map] in Hm. injection Hm as <-. apply Permutation_sym, sorted_perm.
  - unfold orthogonal_hecke, symplectic_hecke. fold (doubled w). rewrite check_incompatible; [reflexivity|]. intro K. apply C. apply compatible_doubled. exact K.
Qed.

(* Round trip: for words of nonnegative letters the inverse recovers the word and its record, in both modes *)
Theorem C85_inverse : forall w multi, Forall (fun x => 0 <= x) w -> exists p q,
  orthogonal_hecke w None multi = Ok (p, q) /\ inverse_orthogonal_hecke p q multi = Ok (w, zrange 1 (zlen w + 1)).
Proof.
  intros w multi Hw. destruct (f_tableaux (doubled w) (doubled_even w)) as (p & q & L & H & g & E & S & I & Ev & R & Q). rewrite zlen_doubled in Q.
  destruct (thalve_mapped L g p R Ev) as [Eh Rh]. set (q1 := if multi then q else tmapped fneg q).
  assert (Q1 : FQ L q1 (zlen w)) by (unfold q1; destruct multi; [exact Q|apply FQ_negated; exact Q]).
  exists (tmapped (fun _ x => x / 2) p), q1. split.
  - unfold orthogonal_hecke, symplectic_hecke. fold (doubled w). rewrite (check_default (doubled w) multi). cbn [rbind]. rewrite E. cbn [rbind fst snd].
    replace (if multi then Ok q else tnegate q true) with (@Ok tab q1) by (unfold q1; destruct multi; [reflexivity|symmetry; apply tnegate_mapped; apply Q]). cbn [rbind]. rewrite zlen_doubled.
    rewrite (tapply_res_mapped (rmapping (zrange 1 (zlen w + 1))) (rec_signed (zrange 1 (zlen w + 1))) q1).
    + cbn [rbind fst snd]. rewrite Eh. cbn [rbind]. rewrite (rec_default L q1 _ Q1). reflexivity.
    + apply Q1.
    + intros c l x El Hx. apply rmapping_signed. pose proof (FQ_entry L q1 (zlen w) c l x Q1 El Hx). unfold zlen in *. rewrite length_zrange. lia.
  - unfold inverse_orthogonal_hecke. pose proof R as [Wp Lp].
    assert (Ed : tdouble (tmapped (fun _ x => x / 2) p) = Ok p).
    { unfold tdouble, tapply. pose proof (tmapped_wf (fun _ x => x / 2) p Wp) as Wh.
      transitivity (@Ok tab (tmapped (fun _ x => 2 * x) (tmapped (fun _ x => x / 2) p))); [exact (tinit_mapped (fun _ x => 2 * x) _ Wh)|]. f_equal. rewrite tmapped_compose by exact Wp. apply tmapped_id; [exact Wp|].
      intros [i j] l x El Hx. rewrite (T_lookup L g p i j R) in El. destruct (fin L i j) eqn:Ef; [|discriminate]. injection El as <-. destruct Hx as [<-|[]]. pose proof (Ev i j Ef) as K. apply Z.mod_divide in K; [|lia]. destruct K as [u ->]. rewrite Z.div_mul by lia. lia. }
    rewrite Ed. cbn [rbind]. pose proof Q1 as (K1 & W1 & C1 & N1 & P1 & _). pose proof Q as (_ & W & _).
    unfold inverse_symplectic_hecke.
    assert (SC : forall c, tmem q1 c = tmem p c).
    { intros [i j]. unfold tmem. rewrite (T_lookup L g p i j R). specialize (C1 (i, j)). cbn [fst snd] in C1. destruct (fin L i j), (tlookup q1 (i, j)); try reflexivity; exfalso; [apply (proj2 C1 eq_refl); reflexivity|assert (false = true) by (apply C1; discriminate); discriminate]. }
    replace (forallb (fun cv => tmem q1 (fst cv)) p) with true.
    2:{ symmetry. apply forallb_forall. intros [c l] K. cbn [fst]. rewrite SC. unfold tmem. rewrite (In_tlookup _ _ _ (proj1 Wp) K). reflexivity. }
    replace (forallb (fun cv => tmem p (fst cv)) q1) with true.
    2:{ symmetry. apply forallb_forall. intros [c l] K. cbn [fst]. rewrite <- SC. unfold tmem. rewrite (In_tlookup _ _ _ (proj1 W1) K). reflexivity. }
    cbn [andb]. rewrite (standardize_recording_signed q1 (zlen w) K1 W1 N1 P1). cbn [rbind fst snd].
    replace (if multi then Ok q1 else tnegate q1 true) with (@Ok tab q).
    2:{ unfold q1. destruct multi; [reflexivity|]. rewrite tnegate_mapped by (apply tmapped_wf; exact W). rewrite fneg_fneg by exact W. reflexivity. }
    cbn [rbind]. destruct Q as (K0 & W0 & C0 & N0 & P0 & _). rewrite (tlen_signed q (zlen w) K0 P0).
    assert (Hd : Forall (fun a => 0 <= a) (doubled w)). { apply Forall_forall. intros x Hx. apply in_map_iff in Hx. destruct Hx as (y & <- & Hy). rewrite Forall_forall in Hw. specialize (Hw y Hy). lia. }
    rewrite (f_inverse_tableaux (doubled w) p q (doubled_even w) Hd E) by (unfold doubled, zlen; rewrite map_length; lia). cbn [rbind fst snd].
    replace (forallb (fun i => i mod 2 =? 0) (doubled w)) with true.
    2:{ symmetry. apply forallb_forall. intros x Hx. apply Z.eqb_eq. pose proof (doubled_even w) as K. rewrite Forall_forall in K. apply K. exact Hx. }
    f_equal. f_equal. unfold doubled. rewrite map_map. rewrite <- (map_id w) at 2. apply map_ext. intro a. rewrite Z.mul_comm, Z.div_mul by lia. reflexivity.
Qed.
Corollary C85_injective : forall w w' multi, Forall (fun x => 0 <= x) w -> Forall (fun x => 0 <= x) w' ->
  orthogonal_hecke w None multi = orthogonal_hecke w' None multi -> w = w'.
Proof.
  intros w w' multi A A' E. destruct (C85_inverse w multi A) as (p & q & E1 & E2). destruct (C85_inverse w' multi A') as (p' & q' & E1' & E2').
  rewrite E1, E1' in E. injection E as <- <-. rewrite E2 in E2'. injection E2' as -> _. reflexivity.
Qed.
(* With a negative letter the inverse can return another word *)
Theorem C85_negative_refuted : exists w p q w' r', orthogonal_hecke w None true = Ok (p, q) /\ inverse_orthogonal_hecke p q true = Ok (w', r') /\ w' <> w.
Proof. exists [-1; -1], [((1, 1), [-1])], [((1, 1), [1; 2])], [-1; 0], [1; 2]. split; [vm_compute; reflexivity|]. split; [vm_compute; reflexivity|]. discriminate. Qed.

Example C84_example : orthogonal_hecke [3; 1; 2; 3; 2; 1; 1] None false =
  Ok ([((1, 1), [1]); ((1, 2), [2]); ((1, 3), [3]); ((2, 2), [3])], [((1, 1), [1]); ((1, 2), [2]); ((1, 3), [-4; 6; 7]); ((2, 2), [3; 5])]).
Proof. vm_compute. reflexivity. Qed.
Example C84_record_example : compatible false [2; 1; 1; 3; 2] [1; 1; 4; 6; 6] /\ (exists p q, orthogonal_hecke [2; 1; 1; 3; 2] (Some [1; 1; 4; 6; 6]) false = Ok (p, q)) /\
  orthogonal_hecke [1; 2] (Some [1; 1]) false = Err AssertionError.
Proof.
  split; [|split; [|vm_compute; reflexivity]].
  - split; [reflexivity|]. intros n Hn. cbn [length] in Hn. destruct n as [|[|[|[|n]]]]; [| | | |lia]; cbn; lia.
  - eexists. eexists. vm_compute. reflexivity.
Qed.
Example C85_example : (do pq <- orthogonal_hecke [3; 1; 2; 3; 2; 0; 1; 1] None false; inverse_orthogonal_hecke (fst pq) (snd pq) false) = Ok ([3; 1; 2; 3; 2; 0; 1; 1], [1; 2; 3; 4; 5; 6; 7; 8]).
Proof. vm_compute. reflexivity. Qed.

Print Assumptions C84_total.
Print Assumptions C84_modes.
Print Assumptions C84_record.
Print Assumptions C85_inverse.
Print Assumptions C85_injective.
Print Assumptions C85_negative_refuted.
