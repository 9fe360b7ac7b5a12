(* C79: stable Grothendieck polynomials of permutations and involutions *)
From Coq Require Import List ZArith Lia Bool Permutation Arith.
From Verif Require Import PyBase FinSum M_Partitions S_Partitions M_Vectors M_Polynomials S_Polynomials M_Symmetric S_Symmetric M_Expansion S_Expansion L_Num L_Sym6 M_Words S_Words P_Words
  M_Perm S_Perm M_Levels S_Levels L_Count L_Perm L_PermLen L_PermWord L_PermDem L_PermMisc L_Levels L_LevelsInst P_Perm P_Levels L_FominWords L_FominZeta L_PermActs L_FominSym M_PermGroth S_PermGroth
  L_PermGroth1 L_PermGroth2 L_PermGroth3 L_PermGroth4 L_PermGroth5 L_PermGroth6 L_PermGroth7 S_InvWords L_InvLen6.
Import ListNotations.
Local Open Scope Z_scope.

(* the caches left behind by any generators advanced one after the other and by any number of calls *)
Inductive hecke_cache (ord : wlevel -> wlevel) (pick : nat -> list Z -> Z) : hcache hkey wlevel -> Prop :=
| hecke_history : forall h, seqok hkey hkey_eqb [] [] h -> hecke_cache ord pick (h_cache (hecke_run ord pick h))
| hecke_call : forall fuel c w length_bound ascent_bound c' ws, hecke_cache ord pick c ->
    get_hecke_words ord pick fuel c w length_bound ascent_bound = Ok (c', ws) -> hecke_cache ord pick c'.
Inductive involution_cache (ord : wlevel -> wlevel) (pick : nat -> list Z -> Z) : hcache skey wlevel -> Prop :=
| involution_history : forall h, seqok skey skey_eqb [] [] h -> involution_cache ord pick (h_cache (involution_run ord pick h))
| involution_call : forall fuel c w length_bound peak_bound c' ws, involution_cache ord pick c ->
    get_involution_hecke_words ord pick fuel c w length_bound peak_bound = Ok (c', ws) -> involution_cache ord pick c'.
Inductive symplectic_cache (ord : wlevel -> wlevel) (pick : nat -> list Z -> Z) : hcache skey wlevel -> Prop :=
| symplectic_history : forall h, seqok skey skey_eqb [] [] h -> symplectic_cache ord pick (h_cache (symplectic_run ord pick h))
| symplectic_call : forall fuel c w length_bound ascent_bound c' ws, symplectic_cache ord pick c ->
    get_symplectic_hecke_words ord pick fuel c w length_bound ascent_bound = Ok (c', ws) -> symplectic_cache ord pick c'.

Section Results.
  Variable ord : wlevel -> wlevel.
  Variable pick : nat -> list Z -> Z.
  Hypothesis ord_perm : forall l, Permutation (ord l) l.
  Hypothesis pick_in : chooses pick.
  Lemma hecke_cache_good : forall c, hecke_cache ord pick c -> hgood ord c.
  Proof. intros c Hc. induction Hc as [h Hh|fuel c w lb ab c' ws _ IH E]; [apply (hgood_history ord pick); assumption|]. eapply (hgood_words ord pick ord_perm pick_in); [exact IH|exact E]. Qed.
  Lemma involution_cache_good : forall c, involution_cache ord pick c -> igood ord c.
  Proof. intros c Hc. induction Hc as [h Hh|fuel c w lb ab c' ws _ IH E]; [apply (igood_history ord pick); assumption|]. eapply (igood_words ord pick ord_perm pick_in); [exact IH|exact E]. Qed.
  Lemma symplectic_cache_good : forall c, symplectic_cache ord pick c -> sgood ord c.
  Proof. intros c Hc. induction Hc as [h Hh|fuel c w lb ab c' ws _ IH E]; [apply (sgood_history ord pick); assumption|]. eapply (sgood_words ord pick ord_perm pick_in); [exact IH|exact E]. Qed.

  Lemma is_involution_ok : forall w, canonical w -> exists b, is_involution w = Ok b /\ (b = true <-> forall x, pcall w (pcall w x) = x).
  Proof.
    intros w Hw. exists (peq w (invp w)). unfold is_involution. rewrite pinv_ok by apply Hw. split; [reflexivity|]. unfold peq. rewrite zlist_eqb_eq. split.
    - intro E. apply (invp_invol w Hw). symmetry. exact E.
    - intro H. symmetry. apply invol_invp. split; assumption.
  Qed.
  Lemma is_unsigned_ok : forall w, canonical w -> (is_unsigned w = true <-> forall x, 0 < x -> 0 < pcall w x).
  Proof.
    intros w Hw. split; [intros H x Hx; apply unsigned_pos; assumption|]. intro H. apply is_unsigned_spec. apply Forall_forall. intros a Ha. apply (In_nth _ _ 0) in Ha. destruct Ha as (k & Hk & <-).
    specialize (H (Z.of_nat k + 1) ltac:(lia)). rewrite pcall_pos in H by (unfold zlen; lia). unfold nthz in H. replace (Z.to_nat (Z.of_nat k + 1 - 1)) with k in H by lia. exact H.
  Qed.
  Lemma is_fpf_ok : forall w, canonical w -> exists b, is_fpf_involution w = Ok b /\ (b = true <-> (forall x, pcall w (pcall w x) = x) /\ forall x, 1 <= x <= zlen w -> pcall w x <> x).
  Proof.
    intros w Hw. unfold is_fpf_involution. rewrite pinv_ok by apply Hw. eexists. split; [reflexivity|]. rewrite andb_true_iff, forallb_forall. unfold peq. rewrite zlist_eqb_eq. split.
    - intros [E H]. split; [apply (invp_invol w Hw); symmetry; exact E|]. intros x Hx E2. specialize (H x ltac:(apply In_zrange; lia)). rewrite E2, Z.eqb_refl in H. discriminate.
    - intros [I H]. split; [symmetry; apply invol_invp; split; assumption|]. intros x Hx. apply In_zrange in Hx. specialize (H x ltac:(lia)). apply negb_true_iff, Z.eqb_neq. exact H.
  Qed.
  Lemma dec_nil : decreasing_zeta [] = 1.
  Proof. reflexivity. Qed.
  Lemma uni_nil : unimodal_zeta [] = 1.
  Proof. reflexivity. Qed.

  (* the part common to the four functions *)
  Lemma finish : forall (A : Type) (Q : list Z -> A -> Prop) zeta (H B : list Z -> Prop) lb ell n words, zeta [] = 1 -> sym_words zeta H -> (forall k, exists l, lists H k l) ->
    (forall a v, (length a <= n)%nat -> nsum a = length v -> H v -> zprod (map zeta (cut a v)) <> 0 -> B v) ->
    NoDup words -> (forall v, In v words <-> (H v /\ B v) /\ (0 <= lbound lb -> zlen v <= lbound lb)) ->
    (forall e l, Forall (fun x => 0 <= x) e -> lists H (nsum (nats e)) l -> counts (Q e) (wsum zeta (nats e) l)) -> (forall e t, Q e t -> Forall (fun x => 0 <= x) e) ->
    exists f, (do ans <- word_total zeta ell words; symmetrize ans n) = Ok f /\ sym_canon beta_num n f /\
      forall pord isx, (forall l, Permutation (pord l) l) -> exists P, spolynomial num_terms pord isx f = Ok P /\ generates_beta isx n ell lb Q P.
  Proof.
    intros A Q zeta H B lb ell n words Z1 Sy Fi Co Nw Iw CQ NQ.
    destruct (glue zeta H B (lbound lb) ell n words Z1 Sy Fi Co Nw Iw) as (vec & f & E1 & E2 & W & K & V1 & V2). exists f. rewrite E1. split; [exact E2|].
    split; [eapply result_canon; eassumption|]. apply (result_polynomial A Q (cc zeta words) n ell lb f); try assumption.
    intros e Le Fe. destruct (Fi (nsum (nats e))) as (l & Hl). rewrite (V2 e l Le Fe Hl). destruct (beyond (lbound lb) (zsum e)); [reflexivity|]. apply CQ; assumption.
  Qed.
  Lemma dec_Q_nonneg : forall W e t, decreasing_tuple W e t -> Forall (fun x => 0 <= x) e.
  Proof. intros W e t (<- & _). apply wlens_nonneg. Qed.
  Lemma uni_Q_nonneg : forall W e t, unimodal_tuple W e t -> Forall (fun x => 0 <= x) e.
  Proof. intros W e t (<- & _). apply wlens_nonneg. Qed.

  (* G_w: factorizations of the Hecke words of w into decreasing words *)
  Theorem C79_stable_grothendieck : forall w n degree_bound, canonical w ->
    ((forall x, 0 < x -> 0 < pcall w x) -> exists N0, forall fuel c, (N0 < fuel)%nat -> hecke_cache ord pick c ->
       exists c' f, perm_stable_grothendieck ord pick fuel c w n degree_bound = Ok (c', f) /\ hecke_cache ord pick c' /\ sym_canon beta_num n f /\
         forall pord isx, (forall l, Permutation (pord l) l) -> exists P, spolynomial num_terms pord isx f = Ok P /\
           generates_beta isx n (zlen (inversions (pcall w) (zlen w))) degree_bound (decreasing_tuple (hecke_word (pcall w))) P) /\
    (~ (forall x, 0 < x -> 0 < pcall w x) -> forall fuel c, perm_stable_grothendieck ord pick fuel c w n degree_bound = Err AssertionError).
  Proof.
    intros w n lb Hw. pose proof (is_unsigned_ok w Hw) as U. split.
    - intro Hu. apply U in Hu. destruct (hecke_words_ok ord pick ord_perm pick_in w (Z.of_nat n) lb ltac:(lia)) as (N0 & HN). exists N0. intros fuel c Hf Hc.
      destruct (HN fuel c Hf (hecke_cache_good c Hc)) as (c' & ws & E & _ & Nw & Iw).
      destruct (finish _ (decreasing_tuple (hecke_word (pcall w))) decreasing_zeta (hecke_wd (zlen w) w) (bounded few_ascents (Some (Z.of_nat n))) lb (zlen (inversions (pcall w) (zlen w))) n ws dec_nil (hecke_sym _ _) (hecke_fin _ _)) as (f & Ef & Cf & Pf).
      + intros a v La Ea _ Hz. eapply dec_cover; eassumption.
      + exact Nw.
      + exact Iw.
      + intros e l Fe Hl. refine (counts_ext _ _ _ _ _ _ eq_refl (dec_tuples _ e l Fe Hl)). intro us. unfold decreasing_tuple. rewrite (hecke_word_wd w _ Hw). reflexivity.
      + apply dec_Q_nonneg.
      + exists c', f. split; [|split; [econstructor; eassumption|split; assumption]]. unfold perm_stable_grothendieck. rewrite Hu, (plen_inversions w (zlen w) Hw ltac:(lia)). cbn [rbind]. rewrite E. cbn [rbind fst snd].
        destruct (word_total decreasing_zeta (zlen (inversions (pcall w) (zlen w))) ws) as [ans|e]; [|discriminate]. cbn [rbind] in *. rewrite Ef. reflexivity.
    - intros Hu fuel c. unfold perm_stable_grothendieck. destruct (is_unsigned w); [exfalso; apply Hu, U; reflexivity|reflexivity].
  Qed.

  Theorem C79_signed_involution_stable_grothendieck : forall w n degree_bound, canonical w ->
    ((forall x, pcall w (pcall w x) = x) -> exists ell N0, shortest (involution_word (pcall w)) ell /\ forall fuel c, (N0 < fuel)%nat -> involution_cache ord pick c ->
       exists c' f, signed_involution_stable_grothendieck ord pick fuel c w n degree_bound = Ok (c', f) /\ involution_cache ord pick c' /\ sym_canon beta_num n f /\
         forall pord isx, (forall l, Permutation (pord l) l) -> exists P, spolynomial num_terms pord isx f = Ok P /\
           generates_beta isx n ell degree_bound (unimodal_tuple (involution_word (pcall w))) P) /\
    (~ (forall x, pcall w (pcall w x) = x) -> forall fuel c, signed_involution_stable_grothendieck ord pick fuel c w n degree_bound = Err AssertionError).
  Proof.
    intros w n lb Hw. destruct (is_involution_ok w Hw) as (b & Eb & Hb). split.
    - intro Hi. destruct (involution_length_ok w (conj Hw Hi)) as (ell & El & _ & Sh). apply Hb in Hi. subst b. destruct (involution_words_ok ord pick ord_perm pick_in w (Z.of_nat n) lb ltac:(lia)) as (N0 & HN). exists ell, N0. split; [exact Sh|]. intros fuel c Hf Hc.
      destruct (HN fuel c Hf (involution_cache_good c Hc)) as (c' & ws & E & _ & Nw & Iw).
      destruct (finish _ (unimodal_tuple (involution_word (pcall w))) unimodal_zeta (inv_wd (zlen w) w) (bounded few_peaks (Some (Z.of_nat n))) lb ell n ws uni_nil (inv_uni_sym _ _) (inv_fin _ _)) as (f & Ef & Cf & Pf).
      + intros a v La Ea _ Hz. eapply blocks_cover; [exact uni_no_peak| | |]; eassumption.
      + exact Nw.
      + exact Iw.
      + intros e l Fe Hl. refine (counts_ext _ _ _ _ _ _ eq_refl (uni_tuples _ e l Fe Hl)). intro us. unfold unimodal_tuple. rewrite (involution_word_wd w _ Hw). reflexivity.
      + apply uni_Q_nonneg.
      + exists c', f. split; [|split; [econstructor; eassumption|split; assumption]]. unfold signed_involution_stable_grothendieck. rewrite Eb, El. cbn [rbind]. rewrite E. cbn [rbind fst snd].
        destruct (word_total unimodal_zeta ell ws) as [ans|e]; [|discriminate]. cbn [rbind] in *. rewrite Ef. reflexivity.
    - intros Hi fuel c. unfold signed_involution_stable_grothendieck. rewrite Eb. cbn [rbind]. destruct b; [exfalso; apply Hi, Hb; reflexivity|reflexivity].
  Qed.

  Theorem C79_involution_stable_grothendieck : forall w n degree_bound, canonical w ->
    ((forall x, pcall w (pcall w x) = x) -> (forall x, 0 < x -> 0 < pcall w x) -> exists ell N0, shortest (involution_word (pcall w)) ell /\ forall fuel c, (N0 < fuel)%nat -> involution_cache ord pick c ->
       exists c' f, involution_stable_grothendieck ord pick fuel c w n degree_bound = Ok (c', f) /\ involution_cache ord pick c' /\ sym_canon beta_num n f /\
         forall pord isx, (forall l, Permutation (pord l) l) -> exists P, spolynomial num_terms pord isx f = Ok P /\
           generates_beta isx n ell degree_bound (decreasing_tuple (involution_word (pcall w))) P) /\
    (~ ((forall x, pcall w (pcall w x) = x) /\ forall x, 0 < x -> 0 < pcall w x) -> forall fuel c, involution_stable_grothendieck ord pick fuel c w n degree_bound = Err AssertionError).
  Proof.
    intros w n lb Hw. destruct (is_involution_ok w Hw) as (b & Eb & Hb). pose proof (is_unsigned_ok w Hw) as U. split.
    - intros Hi Hu. destruct (involution_length_ok w (conj Hw Hi)) as (ell & El & _ & Sh). apply Hb in Hi. apply U in Hu. subst b. destruct (involution_words_ok ord pick ord_perm pick_in w (Z.of_nat n) lb ltac:(lia)) as (N0 & HN). exists ell, N0. split; [exact Sh|]. intros fuel c Hf Hc.
      destruct (HN fuel c Hf (involution_cache_good c Hc)) as (c' & ws & E & _ & Nw & Iw).
      destruct (finish _ (decreasing_tuple (involution_word (pcall w))) decreasing_zeta (inv_wd (zlen w) w) (bounded few_peaks (Some (Z.of_nat n))) lb ell n ws dec_nil (inv_dec_sym _ _ Hu) (inv_fin _ _)) as (f & Ef & Cf & Pf).
      + intros a v La Ea _ Hz. eapply blocks_cover; [exact dec_no_peak| | |]; eassumption.
      + exact Nw.
      + exact Iw.
      + intros e l Fe Hl. refine (counts_ext _ _ _ _ _ _ eq_refl (dec_tuples _ e l Fe Hl)). intro us. unfold decreasing_tuple. rewrite (involution_word_wd w _ Hw). reflexivity.
      + apply dec_Q_nonneg.
      + exists c', f. split; [|split; [econstructor; eassumption|split; assumption]]. unfold involution_stable_grothendieck. rewrite Eb, Hu, El. cbn [rbind andb]. rewrite E. cbn [rbind fst snd].
        destruct (word_total decreasing_zeta ell ws) as [ans|e]; [|discriminate]. cbn [rbind] in *. rewrite Ef. reflexivity.
    - intros Hi fuel c. unfold involution_stable_grothendieck. rewrite Eb. cbn [rbind]. destruct b; [|reflexivity]. destruct (is_unsigned w); [exfalso; apply Hi; split; [apply Hb; reflexivity|apply U; reflexivity]|reflexivity].
  Qed.

  Theorem C79_symplectic_stable_grothendieck : forall w n degree_bound, canonical w ->
    let good := (forall x, pcall w (pcall w x) = x) /\ (forall x, 0 < x -> 0 < pcall w x) /\ (forall x, 1 <= x <= zlen w -> pcall w x <> x) in
    (good -> exists ell N0, shortest (symplectic_word (zlen w) (pcall w)) ell /\ forall fuel c, (N0 < fuel)%nat -> symplectic_cache ord pick c ->
       exists c' f, symplectic_stable_grothendieck ord pick fuel c w n degree_bound = Ok (c', f) /\ symplectic_cache ord pick c' /\ sym_canon beta_num n f /\
         forall pord isx, (forall l, Permutation (pord l) l) -> exists P, spolynomial num_terms pord isx f = Ok P /\
           generates_beta isx n ell degree_bound (decreasing_tuple (symplectic_word (zlen w) (pcall w))) P) /\
    (~ good -> forall fuel c, symplectic_stable_grothendieck ord pick fuel c w n degree_bound = Err AssertionError).
  Proof.
    intros w n lb Hw good. destruct (is_fpf_ok w Hw) as (b & Eb & Hb). pose proof (is_unsigned_ok w Hw) as U. split.
    - intros (Hi & Hu & Hfp). assert (Fw : L_PermActs.fpf (zlen w) w) by (split; [split; assumption|]; intros x Hx; split; [apply Hu; lia|apply Hfp; exact Hx]). assert (b = true) by (apply Hb; split; assumption). subst b. apply U in Hu. destruct (fpf_even w Hw Hu Eb) as [Ev _].
      destruct (fpf_length_ok w Fw Ev) as (ell & El2 & Sh). destruct (symplectic_words_ok ord pick ord_perm pick_in w (Z.of_nat n) lb ltac:(lia) Ev) as (N0 & HN).
      exists ell, N0. split; [exact Sh|]. intros fuel c Hf Hc.
      destruct (HN fuel c Hf (symplectic_cache_good c Hc)) as (c' & ws & E & _ & Nw & Iw).
      destruct (finish _ (decreasing_tuple (symplectic_word (zlen w) (pcall w))) decreasing_zeta (symp_wd (zlen w) w) (bounded few_ascents (Some (Z.of_nat n))) lb ell n ws dec_nil (symp_sym _ _ Ev) (symp_fin _ _)) as (f & Ef & Cf & Pf).
      + intros a v La Ea _ Hz. eapply dec_cover; eassumption.
      + exact Nw.
      + exact Iw.
      + intros e l Fe Hl. refine (counts_ext _ _ _ _ _ _ eq_refl (dec_tuples _ e l Fe Hl)). intro us. unfold decreasing_tuple. rewrite (symplectic_word_wd w _ Hw Ev). reflexivity.
      + apply dec_Q_nonneg.
      + exists c', f. split; [|split; [econstructor; eassumption|split; assumption]]. unfold symplectic_stable_grothendieck. rewrite Hu, Eb, El2. cbn [rbind]. rewrite E. cbn [rbind fst snd].
        destruct (word_total decreasing_zeta ell ws) as [ans|e]; [|discriminate]. cbn [rbind] in *. rewrite Ef. reflexivity.
    - intros Hg fuel c. unfold symplectic_stable_grothendieck. destruct (is_unsigned w) eqn:Hu; [|reflexivity]. rewrite Eb. cbn [rbind]. destruct b; [|reflexivity]. exfalso. apply Hg. destruct (proj1 Hb eq_refl) as [H1 H2]. split; [exact H1|]. split; [apply U; reflexivity|exact H2].
  Qed.
End Results.
Print Assumptions C79_stable_grothendieck.
Print Assumptions C79_signed_involution_stable_grothendieck.
Print Assumptions C79_involution_stable_grothendieck.
Print Assumptions C79_symplectic_stable_grothendieck.

Example C79_example :
  let o := fun l : wlevel => l in let p := fun (_ : nat) l => hd 0 l in let b k z := NP [(if k =? 0 then [] else [(0, k)], z)] in
  (do r <- perm_stable_grothendieck o p 50 [] [2; 1; 4; 3] 2 None; Ok (snd r)) = Ok [((2%nat, [1; 1]), b 0 2); ((2%nat, [2]), b 0 1); ((2%nat, [2; 1]), b 1 2); ((2%nat, [2; 2]), b 2 1)] /\
  (do r <- involution_stable_grothendieck o p 50 [] [3; 2; 1] 2 None; Ok (snd r)) = Ok [((2%nat, [1; 1]), b 0 2); ((2%nat, [2]), b 0 1); ((2%nat, [2; 1]), b 1 2); ((2%nat, [2; 2]), b 2 1)] /\
  (do r <- symplectic_stable_grothendieck o p 50 [] [4; 3; 2; 1] 2 None; Ok (snd r)) = Ok [((2%nat, [1; 1]), b 0 2); ((2%nat, [2]), b 0 1); ((2%nat, [2; 1]), b 1 2); ((2%nat, [2; 2]), b 2 1)] /\
  (do r <- signed_involution_stable_grothendieck o p 50 [] [-1; -2] 2 (Some 3); Ok (snd r)) = Ok [((2%nat, [2; 1]), b 0 8); ((2%nat, [3]), b 0 2)].
Proof. vm_compute. repeat split; reflexivity. Qed.
