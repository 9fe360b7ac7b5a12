(* C94: atoms of involutions. *)
From Coq Require Import List ZArith Bool Lia Permutation.
From Verif Require Import PyBase FinSum M_Partitions M_Semistandard M_Perm S_Perm M_PermGen L_Perm L_PermLen L_PermWord L_PermGen L_LevelsInst P_Levels L_PermActs L_PermGroth7 M_PermGroth S_PermGroth S_InvWords M_InvWords L_InvLen L_InvLen2 L_InvLen3 L_InvLen4 L_InvLen5 L_InvLen6 M_Atoms S_Atoms L_Atoms1 L_Atoms2 L_Atoms4 L_Atoms5 L_Atoms6 L_Atoms7 L_Atoms8.
Import ListNotations.
Local Open Scope Z_scope.

Lemma wordp_is : forall v a, gens v -> (wordp v = a <-> canonical a /\ forall x, pcall a x = word_map v x).
Proof.
  intros v a G. split; [intros <-; split; [apply wordp_canonical; exact G|intro x; apply wordp_map; exact G]|]. intros [Ca E]. apply canonical_ext; [apply wordp_canonical; exact G|exact Ca|]. intro x. rewrite wordp_map by exact G. symmetry. apply E.
Qed.
Lemma atom_is : forall z a, invol z -> (atomw z a <-> is_atom (pcall z) a).
Proof.
  intros z a Hz. split.
  - intros (v & G & P & E). apply wordp_is in E; [|exact G]. destruct E as [Ca E]. split; [exact Ca|]. exists v. split; [apply path_shortest; assumption|exact E].
  - intros (Ca & v & S & E). assert (G : gens v) by (destruct S as [[G _] _]; exact G). exists v. split; [exact G|]. split; [apply path_shortest; assumption|]. apply wordp_is; auto.
Qed.
Lemma fatom_is : forall w a, fline w -> (fatom w a <-> is_fpf_atom (zlen w) (pcall w) a).
Proof.
  intros w a [Hl Hm]. split.
  - intros (v & Wv & E). pose proof (W_gens _ _ (proj1 Wv)) as G. apply wordp_is in E; [|exact G]. destruct E as [Ca E]. split; [exact Ca|]. exists v. split; [apply W_shortest; assumption|exact E].
  - intros (Ca & v & S & E). apply W_shortest in S; [|assumption|assumption]. exists v. split; [exact S|]. apply wordp_is; [apply (W_gens _ _ (proj1 S))|auto].
Qed.
Lemma fline_on : forall u, canonical u -> fpf_on (zlen u) (pcall u) -> fline u.
Proof. intros u Hu [Hv Hx]. assert (F : fpf (zlen u) u) by (split; [split; assumption|exact Hx]). split; [exact F|]. apply fpf_even_on; assumption. Qed.

(* the caches left behind by earlier calls, on any arguments *)
Inductive atom_world (aord : list (list Z) -> list (list Z)) (dorder : list Z -> list Z) : fpf_cache -> rtable -> atom_cache -> Prop :=
| aw_init : atom_world aord dorder [([], [[]])] [([], [[]])] []
| aw_atoms : forall ic rt ac fuel w ac' l, atom_world aord dorder ic rt ac -> canonical w ->
    get_atoms aord fuel ac w = Ok (ac', l) -> atom_world aord dorder ic rt ac'
| aw_words : forall ic rt ac fuel w ic' rt' ac' l, atom_world aord dorder ic rt ac -> canonical w ->
    get_involution_words aord dorder fuel ic rt ac w = Ok (ic', rt', ac', l) -> atom_world aord dorder ic' rt' ac'
| aw_reduced : forall ic rt ac w rt' l, atom_world aord dorder ic rt ac -> canonical w ->
    rdrain rt (reduced_words dorder aord (rfuel w) w) = (rt', Ok l) -> atom_world aord dorder ic rt' ac.
Lemma world_ok : forall aord dorder, (forall l, Permutation (aord l) l) -> (forall l, Permutation (dorder l) l) ->
  forall ic rt ac, atom_world aord dorder ic rt ac -> st_ok ic rt ac.
Proof.
  intros aord dorder Ha Hd ic rt ac H. induction H as [|ic rt ac fuel w ac' l _ IH Hw E|ic rt ac fuel w ic' rt' ac' l _ IH Hw E|ic rt ac w rt' l _ IH Hw E].
  - apply (st_init aord Ha dorder Hd).
  - destruct IH as (H1 & H2 & H3). split; [exact H1|]. split; [exact H2|]. eapply get_atoms_keep; eassumption.
  - eapply invol_words_keep; eassumption.
  - destruct IH as (H1 & H2 & H3). split; [exact H1|]. split; [|exact H3]. assert (G : gprod (reduced_words dorder aord (rfuel w) w) (rw w)) by (apply reduced_words_prod; try assumption; unfold rfuel; rewrite plen_ok; pose proof (ell_nonneg w); lia).
    destruct (rdrain_ok _ _ G rt H2) as (t' & l' & E' & Ht' & _). rewrite E in E'. injection E' as <- _. exact Ht'.
Qed.

(* get_atoms lists every atom of an unsigned involution exactly once *)
Theorem C94_get_atoms : forall aord dorder, (forall l, Permutation (aord l) l) -> (forall l, Permutation (dorder l) l) ->
  forall w, canonical w -> (forall x, pcall w (pcall w x) = x) -> keeps_sign (pcall w) ->
  exists N, forall fuel ic rt ac, (N < fuel)%nat -> atom_world aord dorder ic rt ac ->
    exists ac' l, get_atoms aord fuel ac w = Ok (ac', l) /\ NoDup l /\ forall a, In a l <-> is_atom (pcall w) a.
Proof.
  intros aord dorder Ha Hd w Hw Hv U. exists (Z.to_nat (zlen w * zlen w + 1)). intros fuel ic rt ac Hf H. destruct (world_ok _ _ Ha Hd _ _ _ H) as (_ & _ & H3). assert (Hz : invol w) by (split; assumption).
  destruct (get_atoms_exact aord Ha fuel ac w H3 Hz U ltac:(lia)) as (ac' & l & E & _ & _ & N & I). exists ac', l. split; [exact E|]. split; [exact N|]. intro a. rewrite I. apply atom_is. exact Hz.
Qed.
Print Assumptions C94_get_atoms.

(* get_involution_words lists every shortest involution word exactly once *)
Theorem C94_get_involution_words : forall aord dorder, (forall l, Permutation (aord l) l) -> (forall l, Permutation (dorder l) l) ->
  forall w, canonical w -> (forall x, pcall w (pcall w x) = x) -> keeps_sign (pcall w) ->
  exists N, forall fuel ic rt ac, (N < fuel)%nat -> atom_world aord dorder ic rt ac ->
    exists ic' rt' ac' l, get_involution_words aord dorder fuel ic rt ac w = Ok (ic', rt', ac', l) /\ NoDup l /\
      forall v, In v l <-> shortest_word (involution_word (pcall w)) v.
Proof.
  intros aord dorder Ha Hd w Hw Hv U. exists (Z.to_nat (zlen w * zlen w + 1)). intros fuel ic rt ac Hf H. pose proof (world_ok _ _ Ha Hd _ _ _ H) as K. assert (Hz : invol w) by (split; assumption).
  destruct (invol_words_exact aord Ha dorder Hd fuel ic rt ac w K Hz U ltac:(lia)) as (ic' & rt' & ac' & l & E & N & I). exists ic', rt', ac', l. split; [exact E|]. split; [exact N|]. intro v. rewrite I. split.
  - intros [G P]. apply path_shortest; assumption.
  - intro S. assert (G : gens v) by (destruct S as [[G _] _]; exact G). split; [exact G|]. apply path_shortest; assumption.
Qed.
Print Assumptions C94_get_involution_words.

(* all of them insist on an involution *)
Theorem C94_not_involution : forall aord dorder fuel ic rt ac w, canonical w -> ~ (forall x, pcall w (pcall w x) = x) ->
  get_atoms aord fuel ac w = Err AssertionError /\ get_min_atom w = Err AssertionError /\
  get_involution_words aord dorder fuel ic rt ac w = Err AssertionError.
Proof.
  intros aord dorder fuel ic rt ac w Hw N. assert (N' : ~ invol w) by (intros [_ H]; apply N; exact H). split; [apply get_atoms_noninv; assumption|]. split; [|apply words_noninv; assumption].
  unfold get_min_atom. rewrite pinv_ok by apply Hw. cbn [rbind]. destruct (peq w (invp w)) eqn:Q; [|reflexivity]. exfalso. apply N'. apply invp_invol; [exact Hw|]. apply zlist_eqb_eq in Q. symmetry. exact Q.
Qed.
Print Assumptions C94_not_involution.

(* get_min_atom returns an atom *)
Theorem C94_get_min_atom : forall w, canonical w -> (forall x, pcall w (pcall w x) = x) -> keeps_sign (pcall w) ->
  exists a, get_min_atom w = Ok a /\ is_atom (pcall w) a.
Proof.
  intros w Hw Hv U. assert (Hz : invol w) by (split; assumption). exists (atom_of_line (min_inv_atom_oneline w)). pose proof (min_good w Hz U) as G. split.
  - unfold get_min_atom. rewrite pinv_ok by apply Hw. cbn [rbind]. rewrite (invol_invp w Hz). assert (Q : peq w w = true) by (apply zlist_eqb_eq; reflexivity). rewrite Q. cbn [negb]. rewrite mkperm_ok by (apply (lineof_signed w); apply G). cbn [rbind]. apply pinv_ok. apply signed_word_strip. apply (lineof_signed w). apply G.
  - apply atom_is; [exact Hz|]. apply atomw_line; [exact Hz|exact U|]. eexists. split; [exact G|reflexivity].
Qed.
Print Assumptions C94_get_min_atom.

(* the atoms of an unsigned involution are described by local conditions on one-line notation *)
Theorem C94_atoms_by_positions : forall w, canonical w -> (forall x, pcall w (pcall w x) = x) -> keeps_sign (pcall w) ->
  forall a, is_atom (pcall w) a <-> canonical a /\ keeps_sign (pcall a) /\ atom_line (pcall w) (pcall a).
Proof. intros w Hw Hv U a. assert (Hz : invol w) by (split; assumption). rewrite <- atom_is by exact Hz. apply atomw_cond; assumption. Qed.
Print Assumptions C94_atoms_by_positions.

(* get_fpf_atoms: the caches left behind by earlier calls *)
Inductive fpf_atoms_cache (aord : list (list Z) -> list (list Z)) (dorder : list Z -> list Z) : atom_cache -> Prop :=
| fac_init : fpf_atoms_cache aord dorder []
| fac_call : forall c fuel w c' l, fpf_atoms_cache aord dorder c -> canonical w -> ell w < Z.of_nat fuel ->
    get_fpf_atoms aord dorder fuel c w = Ok (c', l) -> fpf_atoms_cache aord dorder c'.
Theorem C94_get_fpf_atoms : forall aord dorder, (forall l, Permutation (aord l) l) -> (forall l, Permutation (dorder l) l) ->
  forall w, canonical w -> fpf_on (zlen w) (pcall w) ->
  exists N, forall fuel c, (N < fuel)%nat -> fpf_atoms_cache aord dorder c ->
    exists c' l, get_fpf_atoms aord dorder fuel c w = Ok (c', l) /\ NoDup l /\ forall a, In a l <-> is_fpf_atom (zlen w) (pcall w) a.
Proof.
  intros aord dorder Ha Hd w Hw Hf. assert (GC : forall c, fpf_atoms_cache aord dorder c -> fc_ok c).
  { intros c Hc. induction Hc as [|c fuel u c' l _ IH Hu Hl E]; [intros k l D; discriminate|].
    assert (Q : fpf (zlen u) u -> fc_ok c').
    { intros F. destruct (get_fpf_atoms_ok aord Ha dorder Hd fuel c u IH (conj F (fpf_even_on u Hu F)) Hl) as (c2 & l2 & E2 & G2 & _). rewrite E in E2. injection E2 as <- _. exact G2. }
    destruct (is_fpf_involution u) as [[|]|] eqn:B.
    - destruct (is_unsigned u) eqn:V.
      + apply Q. unfold is_fpf_involution in B. rewrite pinv_ok in B by apply Hu. cbn [rbind] in B. injection B as B. apply andb_prop in B. destruct B as [B1 B2]. apply zlist_eqb_eq in B1. split; [apply invp_invol; [exact Hu|symmetry; exact B1]|].
        intros x Hx. rewrite forallb_forall in B2. specialize (B2 x ltac:(apply In_zrange; lia)). split; [|lia]. unfold is_unsigned in V. rewrite forallb_forall in V. rewrite pcall_pos by lia. specialize (V (nthz u (x - 1)) ltac:(apply nthz_In; lia)). apply Z.ltb_lt in V. exact V.
      + destruct fuel as [|fuel]; [discriminate|]. cbn [get_fpf_atoms] in E. rewrite B in E. cbn [rbind negb] in E. rewrite V in E. discriminate.
    - destruct fuel as [|fuel]; [discriminate|]. cbn [get_fpf_atoms] in E. rewrite B in E. discriminate.
    - destruct fuel as [|fuel]; [discriminate|]. cbn [get_fpf_atoms] in E. rewrite B in E. discriminate. }
  exists (Z.to_nat (ell w)). intros fuel c Hfuel Hc. pose proof (fline_on w Hw Hf) as FL. destruct (get_fpf_atoms_ok aord Ha dorder Hd fuel c w (GC c Hc) FL ltac:(pose proof (ell_nonneg w); lia)) as (c' & l & E & _ & N & I).
  exists c', l. split; [exact E|]. split; [exact N|]. intro a. rewrite I. apply fatom_is. exact FL.
Qed.
Print Assumptions C94_get_fpf_atoms.
Theorem C94_fpf_atoms_assertion : forall aord dorder fuel c w, canonical w -> ~ fpf_on (zlen w) (pcall w) -> (0 < fuel)%nat ->
  get_fpf_atoms aord dorder fuel c w = Err AssertionError.
Proof. intros aord dorder fuel c w Hw N Hf. apply fpf_atoms_fails; [exact Hw| |exact Hf]. intros [[_ H1] H2]. apply N. split; assumption. Qed.
Print Assumptions C94_fpf_atoms_assertion.

(* get_atoms_d: on unsigned involutions the same atoms, possibly with repetitions *)
Inductive atoms_d_cache : atom_cache -> Prop :=
| adc_init : atoms_d_cache []
| adc_call : forall c fuel w c' l, atoms_d_cache c -> canonical w -> get_atoms_d fuel c w = Ok (c', l) -> atoms_d_cache c'.
Theorem C94_get_atoms_d : forall w, canonical w -> (forall x, pcall w (pcall w x) = x) -> keeps_sign (pcall w) ->
  exists N, forall fuel c, (N < fuel)%nat -> atoms_d_cache c ->
    exists c' l, get_atoms_d fuel c w = Ok (c', l) /\ forall a, In a l <-> is_atom (pcall w) a.
Proof.
  intros w Hw Hv U. assert (Hz : invol w) by (split; assumption). assert (GC : forall c, atoms_d_cache c -> dc_ok c).
  { intros c Hc. induction Hc as [|c fuel u c' l _ IH Hu E]; [intros k l D; discriminate|]. eapply d_keep; eassumption. }
  exists (Z.to_nat (ell w)). intros fuel c Hf Hc. destruct (d_total fuel c w (GC c Hc) Hz U ltac:(pose proof (ell_nonneg w); lia)) as (c' & l & E). exists c', l. split; [exact E|]. intro a. destruct (d_keep fuel c w c' l (GC c Hc) Hw E) as (_ & _ & A). rewrite (A Hz U a). apply atom_is. exact Hz.
Qed.
Print Assumptions C94_get_atoms_d.
(* ... but not once each: (2, 1, 4, 3) has one atom, which is listed twice *)
Theorem C94_atoms_d_once_refuted :
  ~ forall fuel c' w l, canonical w -> (forall x, pcall w (pcall w x) = x) -> get_atoms_d fuel [] w = Ok (c', l) -> NoDup l.
Proof.
  intro H. assert (C : canonical [2; 1; 4; 3]) by (split; [unfold signed_word; cbn; eapply perm_trans; [apply perm_swap|]; do 2 apply perm_skip; apply perm_swap|cbn; discriminate]).
  assert (V : invp [2; 1; 4; 3] = [2; 1; 4; 3]) by (vm_compute; reflexivity). pose proof (proj2 (invp_invol _ C V)) as I.
  assert (E : exists c', get_atoms_d 4 [] [2; 1; 4; 3] = Ok (c', [[2; 1; 4; 3]; [2; 1; 4; 3]])) by (eexists; vm_compute; reflexivity). destruct E as (c' & E). specialize (H _ _ _ _ C I E). inversion H as [|? ? K _]; subst. apply K. left. reflexivity.
Qed.
Print Assumptions C94_atoms_d_once_refuted.

Example C94_example :
  (exists c, get_atoms (fun l => l) 20 [] [4; 3; 2; 1] = Ok (c, [[2; 4; 3; 1]; [3; 4; 1; 2]; [4; 2; 1; 3]])) /\
  get_min_atom [4; 3; 2; 1] = Ok [2; 4; 3; 1] /\
  (exists ic rt ac, get_involution_words (fun l => l) (fun l => l) 20 [([], [[]])] [([], [[]])] [] [3; 2; 1] = Ok (ic, rt, ac, [[1; 2]; [2; 1]])) /\
  (exists c, get_fpf_atoms (fun l => l) (fun l => l) 20 [] [4; 3; 2; 1] = Ok (c, [[3; 1; 2]; [1; 3; 4; 2]])) /\
  get_fpf_atoms (fun l => l) (fun l => l) 20 [] [-1] = Err AssertionError.
Proof.
  split; [eexists; vm_compute; reflexivity|]. split; [vm_compute; reflexivity|]. split; [do 3 eexists; vm_compute; reflexivity|]. split; [eexists; vm_compute; reflexivity|vm_compute; reflexivity].
Qed.
