(* C30: Hecke word generators sharing a cache; C49: peaks *)
From Coq Require Import List ZArith Lia Bool Permutation Arith.
From Verif Require Import PyBase M_Partitions M_Words M_Perm M_PermGen M_Levels S_Perm S_Levels
  L_Perm L_PermLen L_PermWord L_PermDem L_Levels L_Peaks L_LevelsInst P_Perm.
Import ListNotations.
Local Open Scope Z_scope.

(* ---- words acting on permutations ---- *)
Section PathActs.
Variable letters : list Z.
Variable valid : list Z -> Prop.
Variable act : list Z -> Z -> option (list Z).
Variable rel : (Z -> Z) -> Z -> (Z -> Z) -> Prop.
Hypothesis valid_can : forall a, valid a -> canonical a.
Hypothesis act_valid : forall a i b, valid a -> In i letters -> act a i = Some b -> valid b.
Hypothesis act_rel : forall a i b, valid a -> In i letters -> act a i = Some b -> rel (pcall a) i (pcall b).
Hypothesis rel_act : forall a i g, valid a -> In i letters -> rel (pcall a) i g -> exists b, act a i = Some b /\ forall x, g x = pcall b x.
Hypothesis rel_ext : forall f f' i g, (forall x, f x = f' x) -> rel f i g -> rel f' i g.

Lemma acts_ext : forall w f f' h, (forall x, f x = f' x) -> acts rel f w h -> acts rel f' w h.
Proof.
  intros w f f' h E H. destruct H as [f g H|f i g word h H1 H2].
  - constructor. intro x. rewrite H. apply E.
  - econstructor; [eapply rel_ext; eassumption|assumption].
Qed.
Lemma path_acts : forall w a pi, valid a -> Forall (fun i => In i letters) w ->
  (path act a w = Some pi <-> canonical pi /\ acts rel (pcall a) w (pcall pi)).
Proof.
  induction w as [|i w IH]; intros a pi Ha Hl; cbn [path].
  - split.
    + intro E. injection E as <-. split; [auto|]. constructor. reflexivity.
    + intros [Hc H]. inversion H as [? ? E|]; subst. f_equal. apply canonical_ext; [auto|assumption|]. intro x. symmetry. apply E.
  - inversion Hl as [|? ? Hi Hl']; subst. split.
    + destruct (act a i) as [b|] eqn:E; [|discriminate]. intro Hp. apply IH in Hp; [|eapply act_valid; eassumption|assumption]. destruct Hp as [Hc Hp].
      split; [assumption|]. econstructor; [eapply act_rel; eassumption|exact Hp].
    + intros [Hc H]. inversion H as [|? ? g ? ? R A]; subst. destruct (rel_act a i g Ha Hi R) as (b & E & Eg). rewrite E.
      apply IH; [eapply act_valid; eassumption|assumption|]. split; [assumption|]. eapply acts_ext; eassumption.
Qed.
End PathActs.

Lemma descent_ext : forall f f' i, (forall x, f x = f' x) -> descent f i -> descent f' i.
Proof. intros f f' i E. unfold descent. destruct (i =? 0); rewrite <- !E; auto. Qed.
Lemma hecke_rel_ext : forall f f' i g, (forall x, f x = f' x) -> hecke_rel f i g -> hecke_rel f' i g.
Proof.
  intros f f' i g E [[A B]|[A B]]; [left|right]; (split; [|intro x; rewrite <- E; apply B]).
  - eapply descent_ext; eassumption.
  - intro H. apply A. eapply descent_ext; [|exact H]. intro x. symmetry. apply E.
Qed.
Lemma conj_rel_ext : forall f f' i g, (forall x, f x = f' x) -> conj_rel f i g -> conj_rel f' i g.
Proof.
  intros f f' i g E. assert (D : ~ descent f i -> ~ descent f' i) by (intros A H; apply A; eapply descent_ext; [|exact H]; intro x; symmetry; apply E).
  intros [[A B]|[(A & C & B)|(A & (y & C) & B)]].
  - left. split; [eapply descent_ext; eassumption|intro x; rewrite <- E; apply B].
  - right. left. split; [auto|]. split; intro x; rewrite <- !E; [apply C|apply B].
  - right. right. split; [auto|]. split; [exists y; rewrite <- !E; assumption|intro x; rewrite <- E; apply B].
Qed.

(* ---- the pairs (pi, w) in the levels ---- *)
Definition bounded (stat : list Z -> Z -> Prop) (bound : option Z) (w : list Z) : Prop :=
  w = [] \/ match bound with None => True | Some b => stat w b end.
Definition few_ascents (w : list Z) (b : Z) : Prop := weak_ascents w < b.
Definition few_peaks (w : list Z) (b : Z) : Prop := exists n, n <= b /\ cuts w n.

(* hecke_levels(n, ., ascent_bound) *)
Definition hecke_pair (k : hkey) (j : Z) (pi w : list Z) : Prop :=
  zlen w = j /\ Forall (fun i => 1 <= i < fst k) w /\ bounded few_ascents (snd k) w /\
  canonical pi /\ acts hecke_rel (fun x => x) w (pcall pi).
(* a step of the involution generators: with hecke = False the involution has to change *)
Definition inv_step_rel (hecke : bool) (f : Z -> Z) (i : Z) (g : Z -> Z) : Prop :=
  conj_rel f i g /\ (hecke = true \/ exists x, g x <> f x).
(* involution_hecke_levels(n, ., peak_bound, hecke) *)
Definition involution_pair (k : skey) (j : Z) (pi w : list Z) : Prop :=
  let '(n, b, hecke) := k in
  zlen w = j /\ Forall (fun i => 0 <= i < n) w /\ bounded few_peaks b w /\
  canonical pi /\ acts (inv_step_rel hecke) (fun x => x) w (pcall pi).
(* symplectic_hecke_levels(n, ., ascent_bound, hecke) *)
Definition matching (n x : Z) : Z :=
  if Z.abs x <=? n then (if x =? 0 then 0 else if Z.odd (Z.abs x) then x + Z.sgn x else x - Z.sgn x) else x.
Definition symplectic_pair (k : skey) (j : Z) (pi w : list Z) : Prop :=
  let '(n, b, hecke) := k in
  zlen w = j /\ Forall (fun i => 1 <= i < n) w /\ bounded few_ascents b w /\
  canonical pi /\ acts (fun f i g => f i <> i + 1 /\ inv_step_rel hecke f i g) (matching n) w (pcall pi).

(* ---- hecke ---- *)
Definition ok_asc (b : option Z) (w : list Z) : bool := match b with None => true | Some b => ascents w <? b end.
Lemma ok_asc_prefix : forall b w i, ok_asc b (w ++ [i]) = true -> w = [] \/ ok_asc b w = true.
Proof.
  intros [b|] w i; cbn; [|auto]. rewrite !ascents_spec. pose proof (weak_ascents_snoc w i). intro H1. right. lia.
Qed.
Lemma ok_asc_bounded : forall b w, (w = [] \/ ok_asc b w = true) <-> bounded few_ascents b w.
Proof.
  intros [b|] w; unfold bounded, few_ascents; cbn; [|tauto]. rewrite ascents_spec, Z.ltb_lt. tauto.
Qed.
Section Gens.
Variable ord : list (list Z * list Z) -> list (list Z * list Z).
Hypothesis ord_perm : forall l, Permutation (ord l) l.
Variable pick : nat -> list Z -> Z.
Hypothesis pick_in : chooses pick.

Definition hact (pi : list Z) (i : Z) : option (list Z) := Some (dm pi i).
Lemma hecke_step_act : forall n b pi i w, canonical pi -> In i (zrange 1 n) ->
  hecke_step pick b pi i w = Ok (match hact pi i with Some sg => if ok_asc b (w ++ [i]) then Some (sg, w ++ [i]) else None | None => None end).
Proof.
  intros n b pi i w Hp Hi. apply In_zrange in Hi. unfold hecke_step. rewrite sp_ok by lia. cbn [rbind].
  rewrite pmodf_right by (try assumption; lia). cbn [rbind hact]. reflexivity.
Qed.
Lemma hact_valid : forall n pi i sg, canonical pi -> In i (zrange 1 n) -> hact pi i = Some sg -> canonical sg.
Proof. intros n pi i sg Hp Hi E. apply In_zrange in Hi. injection E as <-. apply dm_canonical; [assumption|lia]. Qed.

Definition hT (k : hkey) (n : nat) : wlevel := lvls ord (zrange 1 (fst k)) hact (ok_asc (snd k)) [] n.
Lemma hT_start : forall k, True -> hecke_start k = Ok (hT k 0).
Proof. reflexivity. Qed.
Lemma hT_expand : forall k n, True -> hecke_expand ord pick k (hT k n) = Ok (hT k (S n)).
Proof.
  intros k n _. unfold hecke_expand, hT. apply (lvls_expand ord ord_perm _ (NoDup_zrange _ _) _ canonical).
  - intros pi i w. apply hecke_step_act.
  - intros pi i sg. apply hact_valid.
  - apply nil_canonical.
Qed.
Lemma letters_range : forall a b w, Forall (fun i => In i (zrange a b)) w <-> Forall (fun i => a <= i < b) w.
Proof. intros a b w. rewrite !Forall_forall. split; intros H x Hx; specialize (H x Hx); apply In_zrange; assumption. Qed.
Lemma hT_spec : forall k n pi w, In (pi, w) (hT k n) <-> hecke_pair k (Z.of_nat n) pi w.
Proof.
  intros k n pi w. unfold hT. rewrite (lvls_spec ord ord_perm _ _ _ (ok_asc_prefix (snd k))). unfold hecke_pair. rewrite letters_range, ok_asc_bounded.
  assert (E : Forall (fun i => 1 <= i < fst k) w -> (path hact [] w = Some pi <-> canonical pi /\ acts hecke_rel (fun x => x) w (pcall pi))).
  { intro Hl. rewrite (path_acts (zrange 1 (fst k)) canonical hact hecke_rel).
    - split; intros [A B]; (split; [assumption|]); (eapply acts_ext; [exact hecke_rel_ext| |exact B]); intro x; rewrite pcall_nil; reflexivity.
    - auto.
    - intros a i b. apply hact_valid.
    - intros a i b Ha Hi Eb. apply In_zrange in Hi. injection Eb as <-. apply dm_rel; [assumption|lia].
    - intros a i g Ha Hi R. apply In_zrange in Hi. exists (dm a i). split; [reflexivity|]. eapply hecke_rel_fun; [exact R|]. apply dm_rel; [assumption|lia].
    - exact hecke_rel_ext.
    - apply nil_canonical.
    - apply letters_range. assumption. }
  unfold zlen. split.
  - intros (A & B & C & D). apply E in D; [|assumption]. destruct D as [D1 D2]. split; [lia|]. split; [assumption|]. split; [assumption|]. split; assumption.
  - intros (A & B & C & D & F). split; [lia|]. split; [assumption|]. split; [assumption|]. apply E; auto.
Qed.
Lemma hT_nodup : forall k n, NoDup (hT k n).
Proof.
  intros k n. unfold hT. apply (NoDup_map_inv snd). apply (lvls_valid ord ord_perm (zrange 1 (fst k)) (NoDup_zrange _ _) canonical).
  - intros pi i sg. apply hact_valid.
  - apply nil_canonical.
Qed.

(* ---- involutions ---- *)
Definition iact (hecke : bool) (pi : list Z) (i : Z) : option (list Z) := if hecke || negb (peq (cj pi i) pi) then Some (cj pi i) else None.
Definition ok_peak (b : option Z) (w : list Z) : bool :=
  match b with None => true | Some b => match peaks (S (length w)) w with Ok p => p <=? b | Err _ => false end end.
Lemma ok_peak_bounded : forall b w, (w = [] \/ ok_peak b w = true) <-> bounded few_peaks b w.
Proof.
  intros [b|] w; unfold bounded, few_peaks, ok_peak; [|tauto]. destruct (peaks_spec (S (length w)) w ltac:(lia)) as (p & -> & Hc & Hm).
  assert (E : (p <=? b) = true <-> exists n, n <= b /\ cuts w n).
  { rewrite Z.leb_le. split; [intro H; exists p; auto|]. intros (n & H1 & H2). apply Hm in H2. lia. }
  rewrite E. tauto.
Qed.
Lemma ok_peak_prefix : forall b w i, ok_peak b (w ++ [i]) = true -> w = [] \/ ok_peak b w = true.
Proof.
  intros b w i H. apply ok_peak_bounded. assert (H' : bounded few_peaks b (w ++ [i])) by (apply ok_peak_bounded; right; assumption).
  destruct H' as [H'|H']; [destruct w; discriminate|]. right. destruct b as [b|]; [|exact I]. destruct H' as (n & Hn & Hc).
  destruct (cuts_prefix w i n Hc) as (m & Hm & Hcm). exists m. split; [lia|assumption].
Qed.
Lemma involution_step_act : forall n b hecke pi i w, invol pi -> In i (zrange 0 n) ->
  involution_step pick b hecke pi i w = Ok (match iact hecke pi i with Some sg => if ok_peak b (w ++ [i]) then Some (sg, w ++ [i]) else None | None => None end).
Proof.
  intros n b hecke pi i w Hp Hi. apply In_zrange in Hi. unfold involution_step. rewrite sp_ok by lia. cbn [rbind].
  pose proof (cj_ok pick pick_in pi i Hp ltac:(lia)) as E. destruct (pmodf pick (sp i) pi) as [t|e]; [|discriminate]. cbn [rbind] in *. rewrite E. cbn [rbind].
  unfold ok_peak, iact. destruct b as [b|].
  - destruct (peaks_spec (S (length (w ++ [i]))) (w ++ [i]) ltac:(lia)) as (p & -> & _). cbn [rbind]. destruct (p <=? b), (hecke || _); reflexivity.
  - cbn [rbind]. destruct (hecke || _); reflexivity.
Qed.
Lemma iact_valid : forall hecke pi i sg, invol pi -> 0 <= i -> iact hecke pi i = Some sg -> invol sg.
Proof. intros hecke pi i sg Hp Hi E. unfold iact in E. destruct (hecke || _); [|discriminate]. injection E as <-. apply cj_rel; assumption. Qed.
Lemma iact_rel : forall hecke a i b, invol a -> 0 <= i -> iact hecke a i = Some b -> inv_step_rel hecke (pcall a) i (pcall b).
Proof.
  intros hecke a i b Ha Hi E. unfold iact in E. destruct (hecke || negb (peq (cj a i) a)) eqn:Eh; [|discriminate]. injection E as <-.
  destruct (cj_rel a i Ha Hi) as [R V]. split; [assumption|]. apply orb_true_iff in Eh. destruct Eh as [->|Eh]; [left; reflexivity|]. right.
  destruct R as [[D H]|[(D & C & H)|(D & (y & C) & H)]].
  - exfalso. assert (cj a i = a) by (apply canonical_ext; [apply V|apply Ha|exact H]). unfold peq in Eh. rewrite H0 in Eh.
    rewrite (proj2 (zlist_eqb_eq a a) eq_refl) in Eh. discriminate.
  - destruct (Z.eqb_spec i 0) as [->|Ni].
    + exists 1. rewrite H. change (simple 0 1) with (-1). intro Q. apply pcall_inj in Q; [discriminate|apply Ha].
    + exists i. rewrite H. intro Q. apply pcall_inj in Q; [|apply Ha]. unfold simple in Q. replace (i =? 0) with false in Q by lia. rewrite Z.eqb_refl in Q. lia.
  - exists (simple i y). rewrite H, simple_invol by assumption. congruence.
Qed.
Lemma rel_iact : forall hecke a i g, invol a -> 0 <= i -> inv_step_rel hecke (pcall a) i g -> exists b, iact hecke a i = Some b /\ forall x, g x = pcall b x.
Proof.
  intros hecke a i g Ha Hi [R S]. destruct (cj_rel a i Ha Hi) as [R' V]. pose proof (conj_rel_fun _ _ _ _ R R') as E. exists (cj a i). split; [|assumption].
  unfold iact. destruct S as [->|(x & Hx)]; [reflexivity|]. replace (negb (peq (cj a i) a)) with true; [rewrite orb_true_r; reflexivity|].
  symmetry. apply negb_true_iff. destruct (peq (cj a i) a) eqn:Q; [|reflexivity]. exfalso. apply zlist_eqb_eq in Q. apply Hx. rewrite E, Q. reflexivity.
Qed.
Lemma inv_step_rel_ext : forall hecke f f' i g, (forall x, f x = f' x) -> inv_step_rel hecke f i g -> inv_step_rel hecke f' i g.
Proof.
  intros hecke f f' i g E [R S]. split; [eapply conj_rel_ext; eassumption|]. destruct S as [S|(x & S)]; [left; assumption|right; exists x; rewrite <- E; assumption].
Qed.
Lemma invol_nil : invol [].
Proof. split; [apply nil_canonical|]. intro x. rewrite !pcall_nil. reflexivity. Qed.

Definition iT (k : skey) (n : nat) : wlevel := lvls ord (zrange 0 (fst (fst k))) (iact (snd k)) (ok_peak (snd (fst k))) [] n.
Lemma iT_start : forall k, True -> involution_start k = Ok (iT k 0).
Proof. reflexivity. Qed.
Lemma iT_expand : forall k n, True -> involution_expand ord pick k (iT k n) = Ok (iT k (S n)).
Proof.
  intros [[m b] hecke] n _. unfold involution_expand, iT. cbn [fst snd]. apply (lvls_expand ord ord_perm _ (NoDup_zrange _ _) _ invol).
  - intros pi i w. apply involution_step_act.
  - intros pi i sg Hp Hi. apply In_zrange in Hi. apply iact_valid; [assumption|lia].
  - apply invol_nil.
Qed.
Lemma iT_spec : forall k n pi w, In (pi, w) (iT k n) <-> involution_pair k (Z.of_nat n) pi w.
Proof.
  intros [[m b] hecke] n pi w. unfold iT. cbn [fst snd]. rewrite (lvls_spec ord ord_perm _ _ _ (ok_peak_prefix b)). unfold involution_pair. rewrite letters_range, ok_peak_bounded.
  assert (E : Forall (fun i => 0 <= i < m) w -> (path (iact hecke) [] w = Some pi <-> canonical pi /\ acts (inv_step_rel hecke) (fun x => x) w (pcall pi))).
  { intro Hl. rewrite (path_acts (zrange 0 m) invol (iact hecke) (inv_step_rel hecke)).
    - split; intros [A B]; (split; [assumption|]); (eapply acts_ext; [exact (inv_step_rel_ext hecke)| |exact B]); intro x; rewrite pcall_nil; reflexivity.
    - intros a Ha. apply Ha.
    - intros a i c Ha Hi. apply In_zrange in Hi. apply iact_valid; [assumption|lia].
    - intros a i c Ha Hi Eb. apply In_zrange in Hi. apply iact_rel; [assumption|lia|assumption].
    - intros a i g Ha Hi R. apply In_zrange in Hi. apply rel_iact; [assumption|lia|assumption].
    - exact (inv_step_rel_ext hecke).
    - apply invol_nil.
    - apply letters_range. assumption. }
  unfold zlen. split.
  - intros (A & B & C & D). apply E in D; [|assumption]. destruct D as [D1 D2]. split; [lia|]. split; [assumption|]. split; [assumption|]. split; assumption.
  - intros (A & B & C & D & F). split; [lia|]. split; [assumption|]. split; [assumption|]. apply E; auto.
Qed.
Lemma iT_nodup : forall k n, NoDup (iT k n).
Proof.
  intros k n. unfold iT. apply (NoDup_map_inv snd). apply (lvls_valid ord ord_perm (zrange 0 (fst (fst k))) (NoDup_zrange _ _) invol).
  - intros pi i sg Hp Hi. apply In_zrange in Hi. apply iact_valid; [assumption|lia].
  - apply invol_nil.
Qed.

(* ---- fixed-point-free involutions ---- *)
Lemma matching_step : forall j x, 0 <= j -> matching (2 * j) (simple (2 * j + 1) x) = matching (2 * j + 2) x.
Proof.
  intros j x Hj. unfold matching, simple. replace (2 * j + 1 =? 0) with false by lia.
  assert (O1 : Z.odd (2 * j + 1) = true) by (rewrite Z.add_1_r, Z.odd_succ; rewrite Z.even_mul; reflexivity).
  assert (O2 : Z.odd (2 * j + 2) = false) by (replace (2 * j + 2) with (2 * (j + 1)) by lia; rewrite Z.odd_mul; reflexivity).
  destruct (Z.eqb_spec x (2 * j + 1)) as [->|N1].
  { replace (Z.abs (2 * j + 1 + 1) <=? 2 * j) with false by lia. replace (Z.abs (2 * j + 1) <=? 2 * j + 2) with true by lia. replace (2 * j + 1 =? 0) with false by lia.
    rewrite Z.abs_eq by lia. rewrite O1. rewrite Z.sgn_pos by lia. reflexivity. }
  destruct (Z.eqb_spec x (2 * j + 1 + 1)) as [->|N2].
  { replace (Z.abs (2 * j + 1) <=? 2 * j) with false by lia. replace (Z.abs (2 * j + 1 + 1) <=? 2 * j + 2) with true by lia. replace (2 * j + 1 + 1 =? 0) with false by lia.
    rewrite Z.abs_eq by lia. replace (2 * j + 1 + 1) with (2 * j + 2) by lia. rewrite O2. rewrite Z.sgn_pos by lia. lia. }
  destruct (Z.eqb_spec x (- (2 * j + 1))) as [->|N3].
  { replace (Z.abs (- (2 * j + 1) - 1) <=? 2 * j) with false by lia. replace (Z.abs (- (2 * j + 1)) <=? 2 * j + 2) with true by lia. replace (- (2 * j + 1) =? 0) with false by lia.
    replace (Z.abs (- (2 * j + 1))) with (2 * j + 1) by lia. rewrite O1. rewrite Z.sgn_neg by lia. reflexivity. }
  destruct (Z.eqb_spec x (- (2 * j + 1) - 1)) as [->|N4].
  { replace (Z.abs (- (2 * j + 1)) <=? 2 * j) with false by lia. replace (Z.abs (- (2 * j + 1) - 1) <=? 2 * j + 2) with true by lia. replace (- (2 * j + 1) - 1 =? 0) with false by lia.
    replace (Z.abs (- (2 * j + 1) - 1)) with (2 * j + 2) by lia. rewrite O2. rewrite Z.sgn_neg by lia. lia. }
  replace (Z.abs x <=? 2 * j + 2) with (Z.abs x <=? 2 * j); [reflexivity|].
  destruct (Z.leb_spec (Z.abs x) (2 * j)), (Z.leb_spec (Z.abs x) (2 * j + 2)); try reflexivity; lia.
Qed.
Lemma symplectic_start_ok : forall j, 0 <= j -> exists a, canonical a /\ (forall x, pcall a x = matching (2 * j) x) /\
  fold_left (fun a j => do a <- a; do s <- s_i (2 * j + 1); pmul a s) (zrange 0 j) (Ok pid) = Ok a.
Proof.
  apply natlike_ind.
  - exists []. split; [apply nil_canonical|]. split; [|reflexivity]. intro x. rewrite pcall_nil. unfold matching. destruct (Z.leb_spec (Z.abs x) (2 * 0)); [|reflexivity].
    assert (x = 0) by lia. subst. reflexivity.
  - intros j Hj (a & Ha & Hm & E). exists (mulp a (sp (2 * j + 1))). assert (Hs : canonical (sp (2 * j + 1))) by (apply sp_canonical; lia). split; [auto with perm|]. split.
    + intro x. rewrite mulp_call by auto with perm. rewrite sp_call by lia. rewrite Hm, matching_step by assumption. f_equal. lia.
    + unfold Z.succ. rewrite zrange_snoc by lia. replace (j + 1 - 1) with j by lia. rewrite fold_left_app, E. cbn [fold_left rbind]. rewrite sp_ok by lia. cbn [rbind]. apply pmul_ok; auto with perm.
Qed.
Lemma matching_invol : forall n x, n mod 2 = 0 -> matching n (matching n x) = x.
Proof.
  intros n x Hn. unfold matching. destruct (Z.leb_spec (Z.abs x) n) as [H|H].
  2:{ destruct (Z.leb_spec (Z.abs x) n); [lia|reflexivity]. }
  destruct (Z.eqb_spec x 0) as [->|N]; [destruct (Z.leb_spec (Z.abs 0) n); reflexivity|].
  assert (Hodd : forall y, Z.odd (y + 1) = negb (Z.odd y)) by (intro y; rewrite Z.add_1_r, Z.odd_succ; rewrite <- Z.negb_odd; reflexivity).
  assert (Hodd' : forall y, Z.odd (y - 1) = negb (Z.odd y)) by (intro y; rewrite <- (negb_involutive (Z.odd (y - 1))), <- Hodd; f_equal; f_equal; lia).
  assert (Ho : Z.odd (Z.abs x) = true -> Z.abs x < n).
  { intro O. assert (Z.abs x <> n); [|lia]. intros Q. rewrite Q in O. rewrite Zodd_mod in O. rewrite Hn in O. discriminate. }
  destruct (Z_lt_ge_dec 0 x) as [P|P].
  - rewrite (Z.sgn_pos x) by lia. rewrite (Z.abs_eq x) in * by lia. destruct (Z.odd x) eqn:O.
    + specialize (Ho eq_refl). replace (Z.abs (x + 1) <=? n) with true by lia. replace (x + 1 =? 0) with false by lia. rewrite (Z.abs_eq (x + 1)), Hodd, O by lia. cbn [negb].
      rewrite Z.sgn_pos by lia. lia.
    + assert (x <> 1) by (intros ->; discriminate). replace (Z.abs (x - 1) <=? n) with true by lia. replace (x - 1 =? 0) with false by lia. rewrite (Z.abs_eq (x - 1)), Hodd', O by lia. cbn [negb].
      rewrite Z.sgn_pos by lia. lia.
  - rewrite (Z.sgn_neg x) by lia. rewrite (Z.abs_neq x) in * by lia. destruct (Z.odd (- x)) eqn:O.
    + specialize (Ho eq_refl). replace (Z.abs (x + -1) <=? n) with true by lia. replace (x + -1 =? 0) with false by lia. replace (Z.abs (x + -1)) with (- x + 1) by lia. rewrite Hodd, O. cbn [negb].
      rewrite Z.sgn_neg by lia. lia.
    + assert (- x <> 1) by (intro Q; rewrite Q in O; discriminate). replace (Z.abs (x - -1) <=? n) with true by lia. replace (x - -1 =? 0) with false by lia. replace (Z.abs (x - -1)) with (- x - 1) by lia. rewrite Hodd', O. cbn [negb].
      rewrite Z.sgn_neg by lia. lia.
Qed.
Definition even_rank (k : skey) : Prop := fst (fst k) mod 2 = 0.
Definition s0 (n : Z) : list Z :=
  match fold_left (fun a j => do a <- a; do s <- s_i (2 * j + 1); pmul a s) (zrange 0 (n / 2)) (Ok pid) with Ok a => a | Err _ => [] end.
Lemma s0_ok : forall n, n mod 2 = 0 -> invol (s0 n) /\ (forall x, pcall (s0 n) x = matching n x) /\
  fold_left (fun a j => do a <- a; do s <- s_i (2 * j + 1); pmul a s) (zrange 0 (n / 2)) (Ok pid) = Ok (s0 n).
Proof.
  intros n Hn. assert (En : n = 2 * (n / 2)) by (pose proof (Z.div_mod n 2); lia).
  destruct (Z_lt_ge_dec n 0) as [L|L].
  - unfold s0. rewrite zrange_nil by (assert (n / 2 < 0) by lia; lia). cbn. split; [apply invol_nil|]. split; [|reflexivity]. intro x. rewrite pcall_nil. unfold matching.
    destruct (Z.leb_spec (Z.abs x) n); [lia|reflexivity].
  - destruct (symplectic_start_ok (n / 2) ltac:(lia)) as (a & Ha & Hm & E). unfold s0. rewrite E. rewrite <- En in Hm.
    split; [|split; [assumption|reflexivity]]. split; [assumption|]. intro x. rewrite !Hm. apply matching_invol. assumption.
Qed.
Definition sact (hecke : bool) (pi : list Z) (i : Z) : option (list Z) := if negb (pcall pi i =? i + 1) then iact hecke pi i else None.
Lemma symplectic_step_act : forall n b hecke pi i w, invol pi -> In i (zrange 1 n) ->
  symplectic_step pick b hecke pi i w = Ok (match sact hecke pi i with Some sg => if ok_asc b (w ++ [i]) then Some (sg, w ++ [i]) else None | None => None end).
Proof.
  intros n b hecke pi i w Hp Hi. apply In_zrange in Hi. unfold symplectic_step, sact. rewrite sp_ok by lia. cbn [rbind].
  destruct (negb (pcall pi i =? i + 1)); [|reflexivity].
  pose proof (cj_ok pick pick_in pi i Hp ltac:(lia)) as E. destruct (pmodf pick (sp i) pi) as [t|e]; [|discriminate]. cbn [rbind] in *. rewrite E. cbn [rbind].
  unfold iact. fold (ok_asc b (w ++ [i])). destruct (ok_asc b (w ++ [i])), (hecke || negb (peq (cj pi i) pi)); reflexivity.
Qed.
Definition sT (k : skey) (n : nat) : wlevel := lvls ord (zrange 1 (fst (fst k))) (sact (snd k)) (ok_asc (snd (fst k))) (s0 (fst (fst k))) n.
Lemma sT_start : forall k, even_rank k -> symplectic_start k = Ok (sT k 0).
Proof.
  intros [[n b] hecke] Hn. unfold even_rank in Hn. cbn in Hn. unfold symplectic_start. rewrite Hn, Z.eqb_refl. destruct (s0_ok n Hn) as (_ & _ & ->). reflexivity.
Qed.
Lemma sact_valid : forall hecke pi i sg, invol pi -> 0 <= i -> sact hecke pi i = Some sg -> invol sg.
Proof. intros hecke pi i sg Hp Hi E. unfold sact in E. destruct (negb _); [|discriminate]. eapply iact_valid; eassumption. Qed.
Lemma sT_expand : forall k n, even_rank k -> symplectic_expand ord pick k (sT k n) = Ok (sT k (S n)).
Proof.
  intros [[m b] hecke] n Hm. unfold even_rank in Hm. cbn in Hm. unfold symplectic_expand, sT. cbn [fst snd]. apply (lvls_expand ord ord_perm _ (NoDup_zrange _ _) _ invol).
  - intros pi i w. apply symplectic_step_act.
  - intros pi i sg Hp Hi. apply In_zrange in Hi. apply sact_valid; [assumption|lia].
  - apply s0_ok. assumption.
Qed.
Lemma sT_spec : forall k n pi w, even_rank k -> (In (pi, w) (sT k n) <-> symplectic_pair k (Z.of_nat n) pi w).
Proof.
  intros [[m b] hecke] n pi w Hm. unfold even_rank in Hm. cbn in Hm. unfold sT. cbn [fst snd]. rewrite (lvls_spec ord ord_perm _ _ _ (ok_asc_prefix b)). unfold symplectic_pair. rewrite letters_range, ok_asc_bounded.
  set (rel := fun f i g => f i <> i + 1 /\ inv_step_rel hecke f i g). destruct (s0_ok m Hm) as (Hv & Hs & _).
  assert (Rext : forall f f' i g, (forall x, f x = f' x) -> rel f i g -> rel f' i g).
  { intros f f' i g E [R1 R2]. split; [rewrite <- E; assumption|eapply inv_step_rel_ext; eassumption]. }
  assert (E : Forall (fun i => 1 <= i < m) w -> (path (sact hecke) (s0 m) w = Some pi <-> canonical pi /\ acts rel (matching m) w (pcall pi))).
  { intro Hl. rewrite (path_acts (zrange 1 m) invol (sact hecke) rel).
    - split; intros [A B]; (split; [assumption|]); (eapply acts_ext; [exact Rext| |exact B]); intro x; rewrite Hs; reflexivity.
    - intros a Ha. apply Ha.
    - intros a i c Ha Hi. apply In_zrange in Hi. apply sact_valid; [assumption|lia].
    - intros a i c Ha Hi Eb. apply In_zrange in Hi. unfold sact in Eb. destruct (Z.eqb_spec (pcall a i) (i + 1)); [discriminate|]. cbn in Eb. split; [assumption|]. apply iact_rel; [assumption|lia|assumption].
    - intros a i g Ha Hi [R1 R2]. apply In_zrange in Hi. unfold sact. destruct (Z.eqb_spec (pcall a i) (i + 1)); [contradiction|]. cbn. apply rel_iact; [assumption|lia|assumption].
    - exact Rext.
    - assumption.
    - apply letters_range. assumption. }
  unfold zlen. split.
  - intros (A & B & C & D). apply E in D; [|assumption]. destruct D as [D1 D2]. split; [lia|]. split; [assumption|]. split; [assumption|]. split; assumption.
  - intros (A & B & C & D & F). split; [lia|]. split; [assumption|]. split; [assumption|]. apply E; auto.
Qed.
Lemma sT_nodup : forall k n, even_rank k -> NoDup (sT k n).
Proof.
  intros k n Hk. unfold sT. apply (NoDup_map_inv snd). apply (lvls_valid ord ord_perm (zrange 1 (fst (fst k))) (NoDup_zrange _ _) invol).
  - intros pi i sg Hp Hi. apply In_zrange in Hi. apply sact_valid; [assumption|lia].
  - apply s0_ok. assumption.
Qed.
End Gens.

(* ---- the generators ---- *)

(* what a generator for the pairs [pair] has to do: it has not failed; the levels it has produced
   so far are the sets of pairs with words of length 0, 1, 2, ..., none empty; the bound (if not
   negative) limits their number; it is exhausted only at the bound or when no pairs are left *)
Definition levels_right {K} (pair : Z -> list Z -> list Z -> Prop) (bound : Z) (x : hlive K wlevel) : Prop :=
  (forall e, h_status x <> HFailed e) /\
  (forall j level, nth_error (h_out x) j = Some level ->
     NoDup level /\ level <> [] /\ forall pi w, In (pi, w) level <-> pair (Z.of_nat j) pi w) /\
  (0 <= bound -> zlen (h_out x) <= bound + 1) /\
  (h_status x = HExhausted -> (0 <= bound /\ zlen (h_out x) = bound + 1) \/ forall pi w, ~ pair (zlen (h_out x)) pi w).

Lemma right_intro : forall K (pair : Z -> list Z -> list Z -> Prop) bound (x : hlive K wlevel) (T : nat -> wlevel) m,
  (forall n, NoDup (T n)) -> (forall n pi w, In (pi, w) (T n) <-> pair (Z.of_nat n) pi w) ->
  h_out x = map T (seq 0 m) -> (forall j, (j < m)%nat -> wempty (T j) = false) -> (forall e, h_status x <> HFailed e) ->
  (0 <= bound -> Z.of_nat m <= bound + 1) ->
  (h_status x = HExhausted -> (0 <= bound /\ Z.of_nat m = bound + 1) \/ wempty (T m) = true) -> levels_right pair bound x.
Proof.
  intros K pair bound x T m Hn Hs Ho Hne Hf Hb He.
  assert (El : zlen (h_out x) = Z.of_nat m) by (unfold zlen; rewrite Ho, map_length, seq_length; reflexivity).
  split; [assumption|]. split; [|split].
  - intros j level Hj. rewrite Ho in Hj. assert (Hjm : (j < m)%nat).
    { assert (H : (j < length (map T (seq 0 m)))%nat) by (apply nth_error_Some; congruence). rewrite map_length, seq_length in H. assumption. }
    rewrite nth_error_map in Hj. rewrite (nth_error_nth' _ 0%nat) in Hj by (rewrite seq_length; assumption). rewrite seq_nth in Hj by assumption. cbn in Hj. injection Hj as <-.
    split; [apply Hn|]. split; [|intros; apply Hs]. intro E. specialize (Hne j Hjm). rewrite E in Hne. discriminate.
  - rewrite El. assumption.
  - rewrite El. intro Hx. destruct (He Hx) as [H|H]; [left; assumption|right]. intros pi w Hp. apply Hs in Hp. destruct (T m); [destruct Hp|discriminate].
Qed.

Lemma optz_eqb_eq : forall a b, optz_eqb a b = true <-> a = b.
Proof. intros [a|] [b|]; cbn; rewrite ?Z.eqb_eq; split; intro H; try discriminate; try congruence; reflexivity. Qed.
Lemma hkey_eqb_eq : forall a b, hkey_eqb a b = true <-> a = b.
Proof.
  intros [a b] [c d]. unfold hkey_eqb. cbn. rewrite andb_true_iff, Z.eqb_eq, optz_eqb_eq. split; [intros [-> ->]; reflexivity|intro E; injection E as -> ->; auto].
Qed.
Lemma skey_eqb_eq : forall a b, skey_eqb a b = true <-> a = b.
Proof.
  intros [a b] [c d]. unfold skey_eqb. cbn. rewrite andb_true_iff, hkey_eqb_eq, eqb_true_iff. split; [intros [-> ->]; reflexivity|intro E; injection E as -> ->; auto].
Qed.

(* C30 for every history in which no generator is resumed after another generator for the same
   key was advanced for the first time (generators may be abandoned at any point, and generators
   with different n or bounds may be interleaved freely) *)
Theorem C30_hecke_levels : forall ord pick, (forall l, Permutation (ord l) l) -> chooses pick ->
  forall h i k bound, seqok hkey hkey_eqb [] [] h -> nth_error (starts hkey h) i = Some (k, bound) ->
  exists x, nth_error (h_lives (hecke_run ord pick h)) i = Some x /\ levels_right (hecke_pair k) bound x.
Proof.
  intros ord pick Ho Hp h i k bound Hq Hs.
  destruct (sequential_ok hkey wlevel hkey_eqb hkey_eqb_eq hecke_start (hecke_expand ord pick) wempty (fun _ => True) (hT ord)
    (hT_start ord) (hT_expand ord Ho pick Hp) h i k bound Hq Hs I) as (x & m & H1 & H2 & H3 & H4 & H5 & H6 & H7).
  exists x. split; [exact H1|]. apply (right_intro _ _ _ _ (hT ord k) m); try assumption; [apply hT_nodup; assumption|intros; apply hT_spec; assumption].
Qed.
Print Assumptions C30_hecke_levels.

Theorem C30_involution_levels : forall ord pick, (forall l, Permutation (ord l) l) -> chooses pick ->
  forall h i k bound, seqok skey skey_eqb [] [] h -> nth_error (starts skey h) i = Some (k, bound) ->
  exists x, nth_error (h_lives (involution_run ord pick h)) i = Some x /\ levels_right (involution_pair k) bound x.
Proof.
  intros ord pick Ho Hp h i k bound Hq Hs.
  destruct (sequential_ok skey wlevel skey_eqb skey_eqb_eq involution_start (involution_expand ord pick) wempty (fun _ => True) (iT ord)
    (iT_start ord) (iT_expand ord Ho pick Hp) h i k bound Hq Hs I) as (x & m & H1 & H2 & H3 & H4 & H5 & H6 & H7).
  exists x. split; [exact H1|]. apply (right_intro _ _ _ _ (iT ord k) m); try assumption; [apply iT_nodup; assumption|intros; apply iT_spec; assumption].
Qed.
Print Assumptions C30_involution_levels.

Theorem C30_symplectic_levels : forall ord pick, (forall l, Permutation (ord l) l) -> chooses pick ->
  forall h i k bound, seqok skey skey_eqb [] [] h -> nth_error (starts skey h) i = Some (k, bound) -> fst (fst k) mod 2 = 0 ->
  exists x, nth_error (h_lives (symplectic_run ord pick h)) i = Some x /\ levels_right (symplectic_pair k) bound x.
Proof.
  intros ord pick Ho Hp h i k bound Hq Hs He.
  destruct (sequential_ok skey wlevel skey_eqb skey_eqb_eq symplectic_start (symplectic_expand ord pick) wempty even_rank (sT ord)
    (sT_start ord) (sT_expand ord Ho pick Hp) h i k bound Hq Hs He) as (x & m & H1 & H2 & H3 & H4 & H5 & H6 & H7).
  exists x. split; [exact H1|]. apply (right_intro _ _ _ _ (sT ord k) m); try assumption; [intros; apply sT_nodup; assumption|intros; apply sT_spec; assumption].
Qed.
Print Assumptions C30_symplectic_levels.

Example C30_example :
  let h := [HStart (3, None) 1; HNext 0; HNext 0; HStart (3, Some 2) (-1); HNext 1; HStart (3, None) 2; HNext 2; HNext 1; HNext 2; HNext 2; HNext 2] in
  seqok hkey hkey_eqb [] [] h /\
  map (fun x => (map (map snd) (h_out x), h_status x)) (h_lives (hecke_run (fun l => l) (fun _ l => hd 0 l) h)) =
  [([[[]]; [[1]; [2]]], HRunning);
   ([[[]]; [[1]; [2]]], HRunning);
   ([[[]]; [[1]; [2]]; [[1; 1]; [1; 2]; [2; 1]; [2; 2]]], HExhausted)].
Proof. vm_compute. repeat split. Qed.
Example C30_example_symplectic :
  map (fun x => h_out x) (h_lives (symplectic_run (fun l => l) (fun _ l => hd 0 l) [HStart (4, None, false) 2; HNext 0; HNext 0; HNext 0])) =
  [[[([2; 1; 4; 3], [])]; [([3; 4; 1; 2], [2])]; [([4; 3; 2; 1], [2; 1]); ([4; 3; 2; 1], [2; 3])]]].
Proof. reflexivity. Qed.

(* Interleaving two generators for the same key: with the first two levels in the cache, A is
   advanced once, B is run to length 3, and A then jumps from the words of length 0 to those of
   length 3. *)
Definition C30_bad_history : list (haction hkey) :=
  [HStart (3, None) 1; HNext 0; HNext 0; HStart (3, None) (-1); HNext 1; HStart (3, None) 3; HNext 2; HNext 2; HNext 2; HNext 2; HNext 1].
Theorem C30_interleaved_refuted :
  exists h x level pi w, nth_error (starts hkey h) 1 = Some ((3, None), -1) /\
    nth_error (h_lives (hecke_run (fun l => l) (fun _ l => hd 0 l) h)) 1 = Some x /\
    nth_error (h_out x) 1 = Some level /\ In (pi, w) level /\ ~ hecke_pair (3, None) 1 pi w.
Proof.
  exists C30_bad_history. eexists. eexists. exists [2; 1], [1; 1; 1]. split; [reflexivity|]. split; [vm_compute; reflexivity|]. split; [reflexivity|].
  split; [left; reflexivity|]. intros (H & _). discriminate.
Qed.
Print Assumptions C30_interleaved_refuted.

(* and if A is advanced further, the cache itself becomes wrong: a generator C that is created
   afterwards and is the only one in use then skips the words of length 4 *)
Theorem C30_interleaved_cache_refuted :
  exists h x level pi w, nth_error (h_lives (hecke_run (fun l => l) (fun _ l => hd 0 l) h)) 3 = Some x /\
    (exists h', h = h' ++ HStart (3, None) (-1) :: repeat (HNext 3) 5) /\
    nth_error (h_out x) 4 = Some level /\ In (pi, w) level /\ zlen w = 6 /\ ~ hecke_pair (3, None) 4 pi w.
Proof.
  exists (C30_bad_history ++ [HNext 1; HNext 1; HNext 1] ++ HStart (3, None) (-1) :: repeat (HNext 3) 5).
  eexists. eexists. exists [2; 1], [1; 1; 1; 1; 1; 1]. split; [vm_compute; reflexivity|]. split; [exists (C30_bad_history ++ [HNext 1; HNext 1; HNext 1]); reflexivity|].
  split; [reflexivity|]. split; [left; reflexivity|]. split; [reflexivity|]. intros (H & _). discriminate.
Qed.
Print Assumptions C30_interleaved_cache_refuted.

(* ---- C49 ---- *)
Theorem C49_peaks : forall v fuel, (length v < fuel)%nat ->
  exists p, peaks fuel v = Ok p /\ cuts v p /\ forall n, cuts v n -> p <= n.
Proof. intros v fuel H. apply peaks_spec. assumption. Qed.
Print Assumptions C49_peaks.

Theorem C49_ascents : forall v, ascents v = weak_ascents v.
Proof. exact ascents_spec. Qed.
Print Assumptions C49_ascents.

Example C49_example : peaks 9 [1; 3; 2; 2; 2; 5; 1] = Ok 4 /\ ascents [1; 3; 2; 2; 2; 5; 1] = 4 /\ cuts [1; 3; 2; 2; 2; 5; 1] 4.
Proof.
  split; [reflexivity|]. split; [reflexivity|]. 
  destruct (C49_peaks [1; 3; 2; 2; 2; 5; 1] 9 ltac:(cbn; lia)) as (p & H1 & H2 & _). vm_compute in H1. injection H1 as <-. exact H2.
Qed.
