(* C95: Little bumps of reduced words. *)
From Coq Require Import List ZArith Bool Lia.
From Verif Require Import PyBase FinSum M_Partitions M_Perm S_Perm S_InvWords S_Bruhat L_Perm L_PermLen L_PermWord M_Bruhat L_Bruhat L_PermEnum2 M_Little S_Little L_Little1 L_Little2 L_Little3.
Import ListNotations.
Local Open Scope Z_scope.

Lemma red_is : forall f v, reduced_word f v <-> red v /\ forall x, word_map v x = f x.
Proof.
  intros f v. split.
  - intros [[G E] H]. split; [|exact E]. apply short_red; [exact G|]. intros u Gu M. apply H. split; [exact Gu|]. intro x. rewrite M. apply E.
  - intros [R E]. split; [split; [apply R|exact E]|]. intros u [Gu Eu]. apply red_short; [exact R|exact Gu|]. intro x. rewrite Eu, E. reflexivity.
Qed.
Lemma red_self : forall f v, reduced_word f v -> red v. Proof. intros f v H. apply red_is in H. tauto. Qed.
Lemma word_is : forall f v y, reduced_word f v -> canonical y -> (forall x, pcall y x = f x) -> wordp v = y.
Proof.
  intros f v y H Hy E. apply red_is in H. destruct H as [[G L] F]. apply canonical_ext; [apply wordp_canonical; exact G|exact Hy|]. intro x. rewrite wordp_map by exact G. rewrite F, E. reflexivity.
Qed.
Lemma st_of : forall y w v, canonical y -> red w -> one_less w v -> reduced_word (pcall y) v -> exists i, st y w i /\ delete_at i w = v.
Proof.
  intros y w v Hy R (p & s & q & -> & ->) H. exists (zlen p). rewrite delete_split. split; [|reflexivity]. split; [apply R|]. split; [pose proof (zlen_nonneg _ p); pose proof (zlen_nonneg _ q); rewrite zlen_app, zlen_cons; lia|]. rewrite delete_split. split; [eapply red_self; exact H|].
  apply (word_is _ _ _ H Hy). reflexivity.
Qed.
Lemma st_unique : forall y w i j, red w -> st y w i -> 0 <= j < zlen w -> wordp (delete_at j w) = y -> i = j.
Proof.
  intros y w i j R (G & Hi & Rd & Y) Hj E. destruct (Z.eq_dec i j) as [|N]; [assumption|exfalso]. apply (defect_two w i j); try assumption. apply meq_wordp; try (apply delete_gens; assumption). congruence.
Qed.
Lemma bump_from_eq : forall fuel w y i is, red w -> st y w i -> (forall j, In j is -> 0 <= j < zlen w) -> In i is -> bump_from fuel w y is = push_loop fuel w (Some i).
Proof.
  intros fuel w y i is R S. induction is as [|j is IH]; intros Hb Hi; [destruct Hi|]. pose proof (Hb j (or_introl eq_refl)) as Hj. cbn [bump_from]. rewrite from_word_ok by (apply delete_gens; [apply R|exact Hj]). cbn [rbind].
  destruct (peq (wordp (delete_at j w)) y) eqn:Q.
  - unfold peq in Q. apply zlist_eqb_eq in Q. rewrite (st_unique y w i j R S Hj Q). reflexivity.
  - destruct Hi as [<-|Hi]; [|apply IH; [intros; apply Hb; right; assumption|exact Hi]]. exfalso. destruct S as (_ & _ & _ & Y). rewrite Y in Q. assert (peq y y = true) by (apply zlist_eqb_eq; reflexivity). congruence.
Qed.
Lemma bump_eq : forall fuel w y i, red w -> st y w i -> little_bump fuel w y = push_loop fuel w (Some i).
Proof.
  intros fuel w y i R S. unfold little_bump. rewrite from_word_ok by apply R. cbn [rbind]. rewrite plen_ok. cbn [rbind]. rewrite (proj2 R), Z.eqb_refl. cbn [negb]. apply bump_from_eq; try assumption.
  - intros j Hj. apply In_zrange in Hj. exact Hj.
  - apply In_zrange. apply S.
Qed.
Lemma loop_bumps : forall fuel y w i r, st y w i -> push_loop fuel w (Some i) = Ok r -> exists k, bumps y w i r k.
Proof.
  induction fuel as [|fuel IH]; intros y w i r S E; [discriminate|]. cbn [push_loop] in E. destruct (push_ok y w i S) as [[R P]|(N & j & P & O)]; rewrite P in E; cbn [rbind fst snd] in E.
  - exists i. assert (r = raise_at i w) by (destruct fuel; injection E as <-; reflexivity). subst r. constructor; assumption.
  - destruct (IH y _ j r (st_other _ _ _ _ S O) E) as (k & B). exists k. apply (bumps_step y w i j r k); assumption.
Qed.
Lemma bumps_raised : forall y w i r k, red w -> bumps y w i r k -> raised w r.
Proof.
  intros y w i r k R B. destruct (bumps_facts y w i r k B) as (_ & L & _ & _ & _ & M & _). split; [exact L|]. split; [intros x Hx; apply M; lia|]. intros x Hx Hx1. apply (bumps_descents y w i r k); assumption.
Qed.

(* little_bump(word, y), for a reduced word one of whose deletions is a reduced word of y: terminates without an
   exception, and the result is a reduced word of the same length and descents, with larger letters, the letter
   that was deleted being strictly larger, one of whose deletions is again a reduced word of y *)
Theorem C95_little_bump : forall word y p s q, canonical y -> reduced_word (word_map word) word -> word = p ++ s :: q -> reduced_word (pcall y) (p ++ q) ->
  exists N, forall fuel, (N <= fuel)%nat -> exists new, little_bump fuel word y = Ok new /\
    reduced_word (word_map new) new /\ raised word new /\ s < nthz new (zlen p) /\ exists v, one_less new v /\ reduced_word (pcall y) v.
Proof.
  intros word y p s q Hy Hw Ew Hv. pose proof (red_self _ _ Hw) as R. destruct (st_of y word (p ++ q) Hy R (ex_intro _ p (ex_intro _ s (ex_intro _ q (conj Ew eq_refl)))) Hv) as (i0 & S0 & D0).
  assert (S : st y word (zlen p)).
  { split; [apply R|]. split; [rewrite Ew, zlen_app, zlen_cons; pose proof (zlen_nonneg _ p); pose proof (zlen_nonneg _ q); lia|]. rewrite Ew, delete_split. split; [apply (red_self _ _ Hv)|apply (word_is _ _ _ Hv Hy); reflexivity]. }
  clear i0 S0 D0. exists (Z.to_nat (zlen word * zlen y + 2)). intros fuel Hf. destruct (loop_ok fuel y word (zlen p) S) as (new & k & E & B); [lia|].
  exists new. split; [rewrite (bump_eq fuel word y (zlen p) R S); exact E|]. destruct (bumps_facts _ _ _ _ _ B) as (R1 & _ & Hk & R2 & Y & _ & M). split; [apply red_is; split; [exact R1|reflexivity]|].
  split; [apply (bumps_raised y word (zlen p) new k); assumption|]. split; [rewrite Ew, nthz_mid in M; exact M|]. destruct (delete_cases new k Hk) as (p' & s' & q' & En & _ & D). exists (p' ++ q'). split; [exists p', s', q'; auto|].
  rewrite D in R2, Y. apply red_is. split; [exact R2|]. intro x. rewrite <- Y. symmetry. apply wordp_map. apply R2.
Qed.
Print Assumptions C95_little_bump.

(* for letters >= 1 the bump is a transition: if the word multiplies y by the transposition of a < b,
   the result multiplies y by the transposition of b and a larger number *)
Theorem C95_transition : forall word y v a b fuel new, canonical y -> reduced_word (word_map word) word -> Forall (fun i => 1 <= i) word ->
  one_less word v -> reduced_word (pcall y) v -> 1 <= a < b -> (forall x, word_map word x = pcall y (refl a b x)) ->
  little_bump fuel word y = Ok new -> exists c, b < c /\ forall x, word_map new x = pcall y (refl b c x).
Proof.
  intros word y v a b fuel new Hy Hw F O Hv Hab E H. pose proof (red_self _ _ Hw) as R. destruct (st_of y word v Hy R O Hv) as (i & S & D). rewrite (bump_eq fuel word y i R S) in H. destruct (loop_bumps fuel y word i new S H) as (k & B).
  pose proof S as (_ & Hi & Rd & Y). destruct (cut_at word i Hi) as (A & c & B' & Ew & Li). apply (bumps_wire y word i new k B F A c B' b Ew Li ltac:(lia)).
  assert (DA : delete_at i word = A ++ B') by (rewrite Ew, <- Li; apply delete_split). rewrite DA in *. apply (start_wire A c B' a b); try (rewrite <- Ew; assumption); try lia.
  intro x. rewrite <- Ew, E, <- Y. apply wordp_map. apply Rd.
Qed.
Print Assumptions C95_transition.

(* different reduced words have different bumps *)
Theorem C95_injective : forall y w v w' v' fuel fuel' new, canonical y ->
  reduced_word (word_map w) w -> one_less w v -> reduced_word (pcall y) v ->
  reduced_word (word_map w') w' -> one_less w' v' -> reduced_word (pcall y) v' ->
  little_bump fuel w y = Ok new -> little_bump fuel' w' y = Ok new -> w = w'.
Proof.
  intros y w v w' v' fuel fuel' new Hy Hw O Hv Hw' O' Hv' H H'. pose proof (red_self _ _ Hw) as R. pose proof (red_self _ _ Hw') as R'.
  destruct (st_of y w v Hy R O Hv) as (i & S & _). destruct (st_of y w' v' Hy R' O' Hv') as (i' & S' & _). rewrite (bump_eq fuel w y i R S) in H. rewrite (bump_eq fuel' w' y i' R' S') in H'.
  destruct (loop_bumps _ _ _ _ _ S H) as (k & B). destruct (loop_bumps _ _ _ _ _ S' H') as (k' & B'). apply (bumps_inj y w i w' i' new k k'); assumption.
Qed.
Print Assumptions C95_injective.

(* the remaining cases: words that are not reduced are rejected, and a word none of whose deletions spells y is returned as it is *)
Theorem C95_not_reduced : forall fuel word y j k, Forall (fun i => 0 <= i) word -> ~ reduced_word (word_map word) word ->
  little_bump fuel word y = Err AssertionError /\ little_bump_at fuel word j k = Err AssertionError.
Proof.
  intros fuel word y j k G N. assert (Q : (ell (wordp word) =? zlen word) = false).
  { apply Z.eqb_neq. intro E. apply N. apply red_is. split; [split; assumption|reflexivity]. }
  unfold little_bump, little_bump_at. rewrite from_word_ok by exact G. cbn [rbind]. rewrite plen_ok. cbn [rbind]. rewrite Q. split; reflexivity.
Qed.
Print Assumptions C95_not_reduced.
Theorem C95_unchanged : forall fuel word y, canonical y -> reduced_word (word_map word) word -> (forall v, one_less word v -> ~ spells (pcall y) v) ->
  little_bump fuel word y = Ok word.
Proof.
  intros fuel word y Hy Hw N. pose proof (red_self _ _ Hw) as R. unfold little_bump. rewrite from_word_ok by apply R. cbn [rbind]. rewrite plen_ok. cbn [rbind]. rewrite (proj2 R), Z.eqb_refl. cbn [negb].
  assert (B : forall j, In j (zrange 0 (zlen word)) -> 0 <= j < zlen word) by (intros j Hj; apply In_zrange in Hj; exact Hj). revert B. generalize (zrange 0 (zlen word)) as is. induction is as [|j is IH]; intro B; [reflexivity|].
  pose proof (B j (or_introl eq_refl)) as Hj. cbn [bump_from]. rewrite from_word_ok by (apply delete_gens; [apply R|exact Hj]). cbn [rbind]. destruct (peq (wordp (delete_at j word)) y) eqn:Q; [|apply IH; intros; apply B; right; assumption].
  exfalso. unfold peq in Q. apply zlist_eqb_eq in Q. destruct (delete_cases word j Hj) as (p & s & q & Ew & _ & D). apply (N (delete_at j word)); [exists p, s, q; rewrite D; auto|]. split; [apply delete_gens; [apply R|exact Hj]|].
  intro x. rewrite <- Q. symmetry. apply wordp_map. apply delete_gens; [apply R|exact Hj].
Qed.
Print Assumptions C95_unchanged.

(* little_bump(word, j, k) *)
Theorem C95_little_bump_at : forall word j k, Forall (fun i => 1 <= i) word -> reduced_word (word_map word) word -> 1 <= j -> 1 <= k -> j <> k ->
  ((exists v, reduced_word (fun x => word_map word (refl j k x)) v /\ zlen v = zlen word - 1) ->
     exists N, forall fuel, (N <= fuel)%nat -> exists new c, little_bump_at fuel word j k = Ok new /\ reduced_word (word_map new) new /\ raised word new /\
       Z.max j k < c /\ forall x, word_map new x = word_map word (refl j k (refl (Z.max j k) c x))) /\
  ((forall v, reduced_word (fun x => word_map word (refl j k x)) v -> zlen v <> zlen word - 1) -> forall fuel, little_bump_at fuel word j k = Ok word).
Proof.
  intros word j k F Hw Hj Hk N. pose proof (red_self _ _ Hw) as R. pose proof (proj1 R) as G. destruct (transposition_any j k Hj Hk N) as (t & Et & Ct & Vt).
  pose proof (wordp_canonical word G) as Cw. set (y := mulp (wordp word) t). assert (Cy : canonical y) by (apply mulp_canonical; [apply Cw|apply Ct]).
  assert (Vy : forall x, pcall y x = word_map word (refl j k x)) by (intro x; unfold y; rewrite mulp_call by (apply Cw || apply Ct); rewrite Vt; apply wordp_map; exact G).
  assert (U : forall fuel, little_bump_at fuel word j k = if negb (ell y =? zlen word - 1) then Ok word else little_bump fuel word y).
  { intro fuel. unfold little_bump_at. rewrite from_word_ok by exact G. cbn [rbind]. rewrite plen_ok. cbn [rbind]. rewrite (proj2 R), Z.eqb_refl. cbn [negb]. rewrite Et. cbn [rbind]. rewrite pmul_ok by (apply Cw || apply Ct). cbn [rbind]. fold y. rewrite plen_ok. reflexivity. }
  assert (Len : forall v, reduced_word (fun x => word_map word (refl j k x)) v -> zlen v = ell y).
  { intros v Hv. pose proof (red_self _ _ Hv) as Rv. pose proof (word_is _ v y Hv Cy Vy) as E. rewrite <- E. symmetry. apply Rv. }
  split.
  - intros (v & Hv & Lv). rewrite (Len v Hv) in Lv. set (a := Z.min j k). set (b := Z.max j k). assert (Hab : 1 <= a < b) by (unfold a, b; lia).
    assert (Rab : forall x, refl j k x = refl a b x) by (intro x; unfold a, b; destruct (Z_lt_ge_dec j k); [rewrite Z.min_l, Z.max_r by lia; reflexivity|rewrite Z.min_r, Z.max_l by lia; apply refl_sym]).
    assert (X : pcall (wordp word) b < pcall (wordp word) a).
    { apply (ell_refl_lt (wordp word) y a b); try assumption; try lia; [intro x; rewrite Vy, Rab; symmetry; apply wordp_map; exact G|]. rewrite (proj2 R). lia. }
    rewrite !wordp_map in X by exact G. destruct (exchange word a b G ltac:(lia) ltac:(lia) (proj2 Hab) X) as (p & s & q & Ew & Epq).
    assert (Gpq : gens (p ++ q)) by (rewrite Ew in G; apply gens_mid in G; apply gens_app; tauto).
    assert (Hpq : reduced_word (pcall y) (p ++ q)).
    { apply red_is. assert (M : forall x, word_map (p ++ q) x = pcall y x) by (intro x; rewrite Epq, Vy, Rab; reflexivity). split; [|exact M]. split; [exact Gpq|].
      replace (wordp (p ++ q)) with y; [rewrite Lv, Ew, zlen_mid; lia|]. apply canonical_ext; [exact Cy|apply wordp_canonical; exact Gpq|]. intro x. rewrite wordp_map by exact Gpq. symmetry. apply M. }
    destruct (C95_little_bump word y p s q Cy Hw Ew Hpq) as (M & HM). exists M. intros fuel Hf. destruct (HM fuel Hf) as (new & E & Rn & Ra & _).
    assert (I : forall x, word_map word x = pcall y (refl a b x)) by (intro x; rewrite Vy, Rab, refl_invol by lia; reflexivity).
    destruct (C95_transition word y (p ++ q) a b fuel new Cy Hw F (ex_intro _ p (ex_intro _ s (ex_intro _ q (conj Ew eq_refl)))) Hpq Hab I E) as (c & Hc & Vc).
    exists new, c. split; [rewrite U; replace (ell y =? zlen word - 1) with true by lia; exact E|]. split; [exact Rn|]. split; [exact Ra|]. split; [exact Hc|]. intro x. rewrite Vc. apply Vy.
  - intros H fuel. rewrite U. destruct (Z.eqb_spec (ell y) (zlen word - 1)) as [Q|Q]; [exfalso|reflexivity]. destruct (reduced_exists _ y Cy eq_refl) as (v & Gv & Ev & Lv).
    apply (H v); [|lia]. apply red_is. split; [split; [exact Gv|congruence]|]. intro x. rewrite <- Vy, <- Ev. symmetry. apply wordp_map. exact Gv.
Qed.
Print Assumptions C95_little_bump_at.

(* a deletion that is not reduced is accepted by little_bump and makes it raise an exception *)
Theorem C95_deletion_refuted : exists word y, canonical y /\ reduced_word (word_map word) word /\ (exists v, one_less word v /\ spells (pcall y) v) /\
  forall fuel, (0 < fuel)%nat -> little_bump fuel word y = Err GenericException.
Proof.
  exists [1; 2; 1], []. split; [apply nil_canonical|]. split; [apply red_is; split; [split; [repeat constructor; lia|vm_compute; reflexivity]|reflexivity]|].
  split; [exists [1; 1]; split; [exists [1], 2, [1]; auto|]; split; [repeat constructor; lia|]; intro x; rewrite pcall_nil; cbn [word_map]; apply simple_invol; lia|].
  intros [|fuel] Hf; [lia|]. vm_compute. reflexivity.
Qed.
Print Assumptions C95_deletion_refuted.

(* the bump of tests/test_conjectures_little.py *)
Example C95_example : reduced_word (word_map [1; 3; 4; 3; 2; 3; 1]) [1; 3; 4; 3; 2; 3; 1] /\ little_bump_at 10 [1; 3; 4; 3; 2; 3; 1] 1 2 = Ok [1; 3; 5; 4; 2; 3; 2] /\
  little_bump_at 10 [1; 3; 4; 3; 2; 3; 1] 1 4 = Ok [1; 3; 4; 3; 2; 3; 1] /\ little_push [1; 3; 4; 3; 2; 3; 1] 6 = Ok ([1; 3; 4; 3; 2; 3; 2], Some 3).
Proof.
  split; [apply red_is; split; [split; [repeat constructor; lia|vm_compute; reflexivity]|reflexivity]|]. split; [vm_compute; reflexivity|]. split; vm_compute; reflexivity.
Qed.
