(* C26 - C29, C31, C47: the group of signed permutations *)
From Coq Require Import List ZArith Lia Bool Permutation.
From Verif Require Import PyBase M_Partitions M_Perm M_PermGen S_Perm L_Perm L_PermLen L_PermWord L_PermDem L_PermMisc L_PermGen.
Import ListNotations.
Local Open Scope Z_scope.

(* ---------- C26 ---------- *)

(* the constructor accepts exactly the one-line words and keeps the map *)
Theorem C26_constructor : forall l,
  (signed_word l -> exists w, mkperm l = Ok w /\ canonical w /\ signed_map (pcall w) /\
     forall i, pcall w i = if (1 <=? i) && (i <=? zlen l) then nth (Z.to_nat (i - 1)) l 0
                           else if (1 <=? - i) && (- i <=? zlen l) then - nth (Z.to_nat (- i - 1)) l 0 else i) /\
  (~ signed_word l -> mkperm l = Err AssertionError).
Proof.
  intro l. split; [|apply mkperm_err]. intro H. exists (strip l). split; [apply mkperm_ok; assumption|]. split; [apply strip_canonical; assumption|].
  split; [apply pcall_signed_map; apply strip_canonical; assumption|]. intro i. rewrite pcall_strip. unfold pcall, nthz.
  pose proof (zlen_nonneg _ l).
  replace ((0 <? i) && (i <=? zlen l)) with ((1 <=? i) && (i <=? zlen l)) by lia.
  destruct ((1 <=? i) && (i <=? zlen l)) eqn:E; [replace (i - 1 <? 0) with false by lia; reflexivity|].
  replace ((- zlen l <=? i) && (i <? 0)) with ((1 <=? - i) && (- i <=? zlen l)) by lia.
  destruct ((1 <=? - i) && (- i <=? zlen l)) eqn:E2; [replace (- i - 1 <? 0) with false by lia; reflexivity|reflexivity].
Qed.
Print Assumptions C26_constructor.

(* every odd bijection of Z with finite support is represented *)
Theorem C26_constructor_onto : forall f, signed_map f -> exists l w, mkperm l = Ok w /\ canonical w /\ forall i, pcall w i = f i.
Proof.
  intros f Hf. destruct Hf as (H1 & H2 & H3 & n & Hn & Hs).
  assert (Hf : signed_map f) by (repeat split; try assumption; exists n; auto).
  exists (line f n), (strip (line f n)). destruct (signed_map_line f n Hf Hn) as [A B].
  { assumption. }
  split; [apply mkperm_ok; assumption|]. split; [apply strip_canonical; assumption|]. intro i. rewrite pcall_strip. apply B.
Qed.
Print Assumptions C26_constructor_onto.

Theorem C26_equality : forall u v, canonical u -> canonical v -> (peq u v = true <-> forall i, pcall u i = pcall v i).
Proof.
  intros u v Hu Hv. unfold peq. rewrite zlist_eqb_eq. split; [intros ->; reflexivity|apply canonical_ext; assumption].
Qed.
Print Assumptions C26_equality.

Theorem C26_product : forall u v, canonical u -> canonical v ->
  exists w, pmul u v = Ok w /\ canonical w /\ forall i, pcall w i = pcall u (pcall v i).
Proof.
  intros u v Hu Hv. exists (mulp u v). split; [apply pmul_ok; [apply Hu|apply Hv]|]. split; [auto with perm|].
  intro i. apply mulp_call; [apply Hu|apply Hv].
Qed.
Print Assumptions C26_product.

Theorem C26_inverse : forall w, canonical w ->
  exists v, pinv w = Ok v /\ canonical v /\ pmul w v = Ok pid /\ pmul v w = Ok pid /\
    (forall i, pcall v (pcall w i) = i) /\ forall i, pcall w (pcall v i) = i.
Proof.
  intros w Hw. exists (invp w). split; [apply pinv_ok; apply Hw|]. split; [auto with perm|].
  split; [rewrite pmul_ok by auto with perm; rewrite mulp_inv_r by assumption; reflexivity|].
  split; [rewrite pmul_ok by auto with perm; rewrite mulp_inv_l by assumption; reflexivity|].
  split; intro i; [apply invp_call|apply invp_call2]; apply Hw.
Qed.
Print Assumptions C26_inverse.

Theorem C26_simple_reflections : forall i,
  (0 <= i -> exists s, s_i i = Ok s /\ canonical s /\ forall x, pcall s x = simple i x) /\
  (i < 0 -> s_i i = Err AssertionError).
Proof.
  intro i. split; intro H.
  - exists (sp i). split; [apply sp_ok; assumption|]. split; [auto with perm|]. intro x. apply sp_call. assumption.
  - unfold s_i. replace (0 <=? i) with false by lia. reflexivity.
Qed.
Print Assumptions C26_simple_reflections.

Example C26_example :
  mkperm [3; -1; 2; 4; 5] = Ok [3; -1; 2] /\ mkperm [3; 3; 1] = Err AssertionError /\
  pmul [3; -1; 2] [2; 1] = Ok [-1; 3; 2] /\ pinv [3; -1; 2] = Ok [-2; 3; 1] /\ pcall [3; -1; 2] (-2) = 1.
Proof. repeat split; reflexivity. Qed.

(* ---------- C27 ---------- *)

Theorem C27_length_inversions : forall w n, canonical w -> zlen w <= n -> plen w = Ok (zlen (inversions (pcall w) n)).
Proof. exact plen_inversions. Qed.
Print Assumptions C27_length_inversions.

Theorem C27_descents : forall w i, canonical w ->
  (In i (rdes w) <-> 0 <= i /\ descent (pcall w) i) /\
  exists v d, pinv w = Ok v /\ ldes w = Ok d /\ (In i d <-> 0 <= i /\ descent (pcall v) i).
Proof.
  intros w i Hw. split; [apply rdes_spec; apply Hw|]. exists (invp w), (rdes (invp w)).
  split; [apply pinv_ok; apply Hw|]. split; [apply ldes_ok; assumption|]. apply rdes_spec. apply invp_canonical. apply Hw.
Qed.
Print Assumptions C27_descents.

Theorem C27_right : forall w i, canonical w -> 0 <= i ->
  exists s ws n, s_i i = Ok s /\ pmul w s = Ok ws /\ plen w = Ok n /\
    (In i (rdes w) -> plen ws = Ok (n - 1)) /\ (~ In i (rdes w) -> plen ws = Ok (n + 1)).
Proof.
  intros w i Hw Hi. exists (sp i), (mulp w (sp i)), (ell w). split; [apply sp_ok; assumption|].
  split; [apply pmul_ok; auto with perm|]. split; [apply plen_ok|]. rewrite rdes_spec by apply Hw.
  split; intro H; rewrite plen_ok; f_equal; [apply ell_descent|apply ell_ascent]; tauto.
Qed.
Print Assumptions C27_right.

Theorem C27_left : forall w i, canonical w -> 0 <= i ->
  exists s sw n d, s_i i = Ok s /\ pmul s w = Ok sw /\ plen w = Ok n /\ ldes w = Ok d /\
    (In i d -> plen sw = Ok (n - 1)) /\ (~ In i d -> plen sw = Ok (n + 1)).
Proof.
  intros w i Hw Hi. exists (sp i), (mulp (sp i) w), (ell w), (rdes (invp w)). split; [apply sp_ok; assumption|].
  split; [apply pmul_ok; auto with perm|]. split; [apply plen_ok|]. split; [apply ldes_ok; assumption|].
  rewrite rdes_spec by (apply invp_canonical; apply Hw).
  split; intro H; rewrite plen_ok; f_equal; [apply ell_left_descent|apply ell_left_ascent]; tauto.
Qed.
Print Assumptions C27_left.

Theorem C27_length_zero : forall w, canonical w -> (plen w = Ok 0 <-> forall i, pcall w i = i).
Proof.
  intros w Hw. rewrite plen_ok. split.
  - intros E i. assert (E0 : ell w = 0) by congruence. apply ell_zero in E0; [|assumption]. subst w. apply pcall_nil.
  - intro H. f_equal. apply ell_zero; [assumption|]. apply canonical_ext; [assumption|apply nil_canonical|]. intro i. rewrite H, pcall_nil. reflexivity.
Qed.
Print Assumptions C27_length_zero.

Theorem C27_length_inverse : forall w, canonical w -> exists v, pinv w = Ok v /\ plen v = plen w.
Proof.
  intros w Hw. exists (invp w). split; [apply pinv_ok; apply Hw|]. rewrite !plen_ok, ell_invp by assumption. reflexivity.
Qed.
Print Assumptions C27_length_inverse.

Example C27_example : plen [3; -1; 2] = Ok 3 /\ rdes [3; -1; 2] = [1] /\ ldes [3; -1; 2] = Ok [0; 2] /\
  inversions (pcall [3; -1; 2]) 3 = [(1, 2, false); (1, 3, false); (2, 2, true)].
Proof. repeat split; reflexivity. Qed.

(* ---------- C28 ---------- *)

(* a word in the generators 0, 1, 2, ... with product w and of the length of w *)
Definition is_reduced_word (w word : list Z) : Prop :=
  Forall (fun i => 0 <= i) word /\ (forall x, word_map word x = pcall w x) /\ plen w = Ok (zlen word).
Lemma reduced_is : forall w word, canonical w -> (reduced word w <-> is_reduced_word w word).
Proof.
  intros w word Hw. unfold reduced, is_reduced_word. rewrite plen_ok. split.
  - intros (G & P & L). split; [exact G|]. split; [|congruence]. intro x. rewrite <- wordp_map by exact G. rewrite P. reflexivity.
  - intros (G & P & L). split; [exact G|]. split; [|congruence]. apply canonical_ext; [apply wordp_canonical; exact G|assumption|].
    intro x. rewrite wordp_map by exact G. apply P.
Qed.

Theorem C28_get_reduced_word : forall w n fuel, canonical w -> plen w = Ok n -> (Z.to_nat n < fuel)%nat ->
  exists word, get_reduced_word fuel w = Ok word /\ is_reduced_word w word.
Proof.
  intros w n fuel Hw Hn Hf. rewrite plen_ok in Hn. assert (E : ell w = n) by congruence. pose proof (ell_nonneg w).
  destruct (get_reduced_word_ok fuel w Hw) as (word & H1 & H2); [lia|]. exists word. split; [assumption|]. apply reduced_is; assumption.
Qed.
Print Assumptions C28_get_reduced_word.

(* no shorter word has the same product *)
Theorem C28_reduced_words_are_shortest : forall w word, canonical w -> Forall (fun i => 0 <= i) word ->
  (forall x, word_map word x = pcall w x) -> exists n, plen w = Ok n /\ n <= zlen word.
Proof.
  intros w word Hw G P. exists (ell w). split; [apply plen_ok|]. replace w with (wordp word); [apply ell_word_le; exact G|].
  apply canonical_ext; [apply wordp_canonical; exact G|assumption|]. intro x. rewrite wordp_map by exact G. apply P.
Qed.
Print Assumptions C28_reduced_words_are_shortest.

Theorem C28_from_word : forall word,
  (Forall (fun i => 0 <= i) word -> exists w, from_word word = Ok w /\ canonical w /\ forall x, pcall w x = word_map word x) /\
  (~ Forall (fun i => 0 <= i) word -> from_word word = Err AssertionError).
Proof.
  intro word. split; intro G.
  - exists (wordp word). split; [apply from_word_ok; exact G|]. split; [apply wordp_canonical; exact G|]. intro x. apply wordp_map. exact G.
  - unfold from_word, pid. assert (Hk : forall word (r : res (list Z)), (r = Err AssertionError \/ (exists u, r = Ok u /\ canonical u) /\ ~ Forall (fun i => 0 <= i) word) ->
      fold_left (fun ans i => do ans0 <- ans; do s <- s_i i; pmul ans0 s) word r = Err AssertionError).
    { clear word G. induction word as [|i word IH]; intros r [->|[(u & -> & Hu) G]].
      - reflexivity.
      - exfalso. apply G. constructor.
      - cbn [fold_left]. apply IH. left. reflexivity.
      - cbn [fold_left]. apply IH. destruct (Z_lt_ge_dec i 0) as [Hi|Hi].
        + left. unfold s_i. replace (0 <=? i) with false by lia. reflexivity.
        + right. split.
          * rewrite sp_ok by lia. cbn. rewrite pmul_ok; [|apply Hu|apply sp_canonical; lia]. exists (mulp u (sp i)). split; [reflexivity|]. apply mulp_canonical; [apply Hu|apply sp_canonical; lia].
          * intro F. apply G. constructor; [lia|assumption]. }
    apply Hk. right. split; [|assumption]. exists []. split; [reflexivity|apply nil_canonical].
Qed.
Print Assumptions C28_from_word.

(* After any history of creating and advancing generators (in any interleaving, any of them
   abandoned at any point), for any order of iteration over the sets involved, each generator has
   produced only reduced words, none twice, has not failed, and has produced all of them if it
   is exhausted. *)
Theorem C28_histories : forall dorder worder,
  (forall l, Permutation (dorder l) l) -> (forall l, Permutation (worder l) l) ->
  forall h x, In x (r_live (rrun dorder worder h)) ->
  (forall e, r_status x <> RFailed e) /\ NoDup (r_out x) /\
  (forall word, In word (r_out x) -> is_reduced_word (r_perm x) word) /\
  (r_status x = RExhausted -> forall word, is_reduced_word (r_perm x) word -> In word (r_out x)).
Proof.
  intros dorder worder Hd Hw h x Hx. destruct (rrun_ok dorder worder Hd Hw h) as [_ Hl]. specialize (Hl x Hx). destruct Hl as [Hc Hl].
  assert (Hin : forall word, In word (rw (r_perm x)) <-> is_reduced_word (r_perm x) word).
  { intro word. rewrite rw_spec by assumption. apply reduced_is. assumption. }
  pose proof (rw_NoDup (r_perm x)) as Hn.
  destruct (r_status x) eqn:Es; [| |destruct Hl].
  - destruct Hl as (rest & P & _). split; [congruence|].
    assert (Hn' : NoDup (r_out x ++ rest)) by (eapply Permutation_NoDup; eassumption). split; [|split].
    + clear -Hn'. induction (r_out x) as [|a l IH]; [constructor|]. cbn [app] in Hn'. inversion Hn' as [|? ? H1 H2]; subst.
      constructor; [intro H; apply H1; apply in_app_iff; left; assumption|auto].
    + intros word H. apply Hin. eapply Permutation_in; [apply Permutation_sym; exact P|]. apply in_app_iff. left. assumption.
    + discriminate.
  - split; [congruence|]. split; [eapply Permutation_NoDup; eassumption|]. split.
    + intros word H. apply Hin. eapply Permutation_in; [apply Permutation_sym; exact Hl|assumption].
    + intros _ word H. eapply Permutation_in; [exact Hl|]. apply Hin. assumption.
Qed.
Print Assumptions C28_histories.

(* every generator can be exhausted *)
Theorem C28_histories_finish : forall dorder worder,
  (forall l, Permutation (dorder l) l) -> (forall l, Permutation (worder l) l) ->
  forall h i x, nth_error (r_live (rrun dorder worder h)) i = Some x -> r_status x = RRunning ->
  exists n y, nth_error (r_live (rrun dorder worder (h ++ repeat (RNext i) n))) i = Some y /\
    r_status y = RExhausted /\ r_perm y = r_perm x.
Proof.
  intros dorder worder Hd Hw h i x Hx Hs. destruct (rrun_ok dorder worder Hd Hw h) as [_ Hl].
  specialize (Hl x (nth_error_In _ _ Hx)). destruct Hl as [_ Hl]. rewrite Hs in Hl. destruct Hl as (rest & _ & Hg).
  exists (S (length rest)). eapply rexhaust; eauto.
Qed.
Print Assumptions C28_histories_finish.

Example C28_example :
  get_reduced_word 5 [3; -1; 2] = Ok [0; 2; 1] /\
  (* two interleaved generators for the same element, a third one abandoned *)
  (let h := [RStart [3; 2; 1]; RStart [3; 2; 1]; RStart [-1; 3; 2]; RNext 0; RNext 1; RNext 2; RNext 1; RNext 1; RNext 0; RNext 0; RStart [3; 2; 1]; RNext 3] in
   map (fun x => (r_out x)) (r_live (rrun (fun l => l) (fun l => rev l) h)) =
   [[[1; 2; 1]; [2; 1; 2]]; [[1; 2; 1]; [2; 1; 2]]; [[2; 0]]; [[2; 1; 2]]]) /\
  (exists w, canonical w /\ plen w = Ok 3).
Proof.
  split; [reflexivity|]. split; [reflexivity|]. exists [3; -1; 2]. split; [|reflexivity].
  split; [apply same_set_signed; reflexivity|]. discriminate.
Qed.

(* ---------- C29 ---------- *)

Definition chooses (pick : nat -> list Z -> Z) : Prop := forall k l, l <> [] -> In (pick k l) l.
(* u % v evaluates to r, whatever descents are picked *)
Definition mod_is (u v r : list Z) : Prop :=
  forall pick fuel n, chooses pick -> plen v = Ok n -> (Z.to_nat n < fuel)%nat -> pmod pick fuel u v = Ok r.

Lemma mod_dw : forall u v word, canonical u -> canonical v -> reduced word v -> mod_is u v (dw u word).
Proof.
  intros u v word Hu Hv R pick fuel n Hp Hn Hf. rewrite plen_ok in Hn. assert (E : ell v = n) by congruence. pose proof (ell_nonneg v).
  apply pmod_ok; try assumption. lia.
Qed.
Lemma reduced_ex : forall v, canonical v -> exists word, reduced word v.
Proof. intros v Hv. destruct (reduced_exists (ell v) v Hv eq_refl) as (a & H1 & H2 & H3). exists a. split; [assumption|]. split; assumption. Qed.
Lemma mod_unique : forall u v r1 r2, mod_is u v r1 -> mod_is u v r2 -> r1 = r2.
Proof.
  intros u v r1 r2 H1 H2.
  assert (Hp : chooses (fun _ l => hd 0 l)) by (intros k [|a l] Hl; [congruence|left; reflexivity]).
  pose proof (plen_ok v) as P. specialize (H1 _ (S (Z.to_nat (ell v))) _ Hp P ltac:(lia)). specialize (H2 _ (S (Z.to_nat (ell v))) _ Hp P ltac:(lia)). congruence.
Qed.

Theorem C29_choice_independent : forall u v, canonical u -> canonical v -> exists r, canonical r /\ mod_is u v r.
Proof.
  intros u v Hu Hv. destruct (reduced_ex v Hv) as (word & R). exists (dw u word). split; [|apply mod_dw; assumption].
  apply dw_canonical; [assumption|apply R].
Qed.
Print Assumptions C29_choice_independent.

Theorem C29_generators : forall w i, canonical w -> 0 <= i ->
  exists s ws, s_i i = Ok s /\ pmul w s = Ok ws /\ mod_is w s (if in_dec Z.eq_dec i (rdes w) then w else ws).
Proof.
  intros w i Hw Hi. exists (sp i), (mulp w (sp i)). split; [apply sp_ok; assumption|]. split; [apply pmul_ok; auto with perm|].
  assert (R : reduced [i] (sp i)).
  { split; [repeat constructor; assumption|]. unfold wordp. cbn [fold_left]. split; [apply mulp_1_l; auto with perm|].
    replace (sp i) with (mulp [] (sp i)) by (apply mulp_1_l; auto with perm). rewrite ell_ascent; [reflexivity|apply nil_canonical|assumption|].
    unfold descent. rewrite !pcall_nil. destruct (i =? 0); lia. }
  replace (if in_dec Z.eq_dec i (rdes w) then w else mulp w (sp i)) with (dw w [i]); [apply mod_dw; auto with perm|].
  change (dw w [i]) with (dm w i). unfold dm. destruct (in_dec Z.eq_dec i (rdes w)) as [D|D].
  - apply rdes_spec in D; [|apply Hw]. rewrite (proj2 (descb_spec (pcall w) i)) by tauto. reflexivity.
  - destruct (descb (pcall w) i) eqn:E; [|reflexivity]. exfalso. apply D. apply rdes_spec; [apply Hw|]. split; [assumption|]. apply descb_spec. assumption.
Qed.
Print Assumptions C29_generators.

Theorem C29_unit : forall w, canonical w -> mod_is w pid w /\ mod_is pid w w.
Proof.
  intros w Hw. split.
  - change w with (dw w []) at 2. apply mod_dw; [assumption|apply nil_canonical|]. split; [constructor|]. split; reflexivity.
  - destruct (reduced_ex w Hw) as (word & R).
    assert (G : forall word v, canonical v -> reduced word v -> dw [] word = v).
    { clear. induction word as [|i word IH] using rev_ind; intros v Hv R.
      - destruct R as (_ & P & _). exact P.
      - destruct (reduced_snoc_inv word i v Hv R) as (Hi & Hd & R'). rewrite dw_snoc. rewrite (IH (mulp v (sp i))); [|auto with perm|assumption].
        unfold dm. destruct (descb (pcall (mulp v (sp i))) i) eqn:E; [|apply mulp_sp_sp; assumption].
        exfalso. apply descb_spec in E. pose proof (ell_descent v i Hv Hi Hd). assert (Hc : canonical (mulp v (sp i))) by auto with perm.
        pose proof (ell_descent _ i Hc Hi E) as E2. rewrite mulp_sp_sp in E2 by assumption. lia. }
    rewrite <- (G word w Hw R) at 2. apply mod_dw; [apply nil_canonical|assumption|assumption].
Qed.
Print Assumptions C29_unit.

Theorem C29_associative : forall u v w uv vw r, canonical u -> canonical v -> canonical w ->
  mod_is u v uv -> mod_is v w vw -> (mod_is uv w r <-> mod_is u vw r).
Proof.
  intros u v w uv vw r Hu Hv Hw H1 H2. destruct (reduced_ex v Hv) as (a & Ra). destruct (reduced_ex w Hw) as (b & Rb).
  assert (E1 : uv = dw u a) by (eapply mod_unique; [exact H1|apply mod_dw; assumption]).
  assert (E2 : vw = dw v b) by (eapply mod_unique; [exact H2|apply mod_dw; assumption]). subst uv vw.
  assert (C1 : canonical (dw u a)) by (apply dw_canonical; [assumption|apply Ra]).
  assert (C2 : canonical (dw v b)) by (apply dw_canonical; [assumption|apply Rb]).
  destruct (reduced_ex (dw v b) C2) as (c & Rc).
  assert (E : dw u c = dw (dw u a) b) by (apply (dw_dw b a v c u); try assumption; apply Rb).
  pose proof (mod_dw (dw u a) w b C1 Hw Rb) as M1. pose proof (mod_dw u (dw v b) c Hu C2 Rc) as M2. rewrite E in M2.
  split; intro H; [assert (Er : r = dw (dw u a) b) by (eapply mod_unique; eassumption)|assert (Er : r = dw (dw u a) b) by (eapply mod_unique; eassumption)]; rewrite Er; assumption.
Qed.
Print Assumptions C29_associative.

Example C29_example : pmod (fun _ l => hd 0 l) 9 [3; -1; 2] [2; 1] = Ok [3; -1; 2] /\ pmod (fun _ l => last l 0) 9 [1; -2] [-2; -1] = Ok [-1; -2] /\
  pmod (fun _ l => hd 0 l) 9 [1; -2] [-2; -1] = Ok [-1; -2].
Proof. repeat split; reflexivity. Qed.

(* ---------- C31 ---------- *)

Theorem C31_power_positive : forall w n, canonical w -> 0 < n ->
  exists r, ppow w n = Ok r /\ canonical r /\ forall x, pcall r x = Nat.iter (Z.to_nat n) (pcall w) x.
Proof.
  intros w n Hw Hn. unfold ppow. replace (n <? 0) with false by lia. rewrite ppow_pos_ok by (try assumption; lia).
  eexists. split; [reflexivity|]. split; [apply iter_mul_canonical; assumption|]. intro x.
  induction (Z.to_nat n) as [|k IH]; [apply pcall_nil|]. cbn [iter_mul Nat.iter nat_rect]. pose proof (iter_mul_canonical k w Hw) as Hk.
  rewrite mulp_call by auto with perm. rewrite IH. reflexivity.
Qed.
Print Assumptions C31_power_positive.

Theorem C31_power_negative : forall w n, canonical w -> n < 0 ->
  exists v r, pinv w = Ok v /\ ppow w n = Ok r /\ ppow v (- n) = Ok r /\ canonical r /\
    forall x, pcall r (Nat.iter (Z.to_nat (- n)) (pcall w) x) = x.
Proof.
  intros w n Hw Hn. assert (Hv : canonical (invp w)) by auto with perm. exists (invp w).
  destruct (C31_power_positive (invp w) (- n) Hv ltac:(lia)) as (r & H1 & H2 & H3). exists r.
  split; [apply pinv_ok; apply Hw|]. split; [|split; [exact H1|split; [exact H2|]]].
  - unfold ppow in *. replace (n <? 0) with true by lia. replace (- n <? 0) with false in H1 by lia. rewrite pinv_ok by apply Hw. exact H1.
  - intro x. rewrite H3. clear H1 H3. revert x. induction (Z.to_nat (- n)) as [|k IH]; intro x; [reflexivity|].
    change (Nat.iter (S k) (pcall w) x) with (pcall w (Nat.iter k (pcall w) x)).
    assert (Sh : forall (f : Z -> Z) m y, Nat.iter (S m) f y = Nat.iter m f (f y)).
    { intros f m y. induction m as [|m IHm]; [reflexivity|]. change (f (Nat.iter (S m) f y) = f (Nat.iter m f (f y))). f_equal. exact IHm. }
    rewrite Sh. rewrite invp_call by apply Hw. apply IH.
Qed.
Print Assumptions C31_power_negative.

(* w ** 0 raises TypeError for every w *)
Theorem C31_power_zero_refuted : forall w, ppow w 0 = Err TypeError.
Proof. reflexivity. Qed.
Print Assumptions C31_power_zero_refuted.

Example C31_example : ppow [3; -1; 2] 3 = Ok [-1; -2; -3] /\ ppow [3; -1; 2] (-2) = Ok [-3; 1; -2] /\ ppow [3; -1; 2] 0 = Err TypeError.
Proof. repeat split; reflexivity. Qed.

(* ---------- C47 ---------- *)

Lemma filter_cut : forall (f : Z -> bool) a b c, a <= c <= b -> (forall j, c <= j < b -> f j = false) -> filter f (zrange a b) = filter f (zrange a c).
Proof.
  intros f a b c H Hf. rewrite (zrange_app a c b) by lia. rewrite filter_app. replace (filter f (zrange c b)) with (@nil Z); [apply app_nil_r|].
  assert (G : forall l, (forall j, In j l -> f j = false) -> filter f l = []).
  { induction l as [|x l IH]; intro Hl; [reflexivity|]. cbn [filter]. rewrite Hl by (left; reflexivity). apply IH. intros j Hj. apply Hl. right. assumption. }
  symmetry. apply G. intros j Hj. apply In_zrange in Hj. apply Hf. lia.
Qed.

Theorem C47_code_entries : forall w n i, canonical w -> Forall (fun x => 0 < x) w -> zlen w <= n -> 1 <= i <= zlen w ->
  exists c, code w = Ok c /\ zlen c = zlen w /\
    nth (Z.to_nat (i - 1)) c 0 = zlen (filter (fun j => pcall w j <? pcall w i) (zrange (i + 1) (n + 1))).
Proof.
  intros w n i Hw Hu Hn Hi. unfold code. rewrite (proj2 (is_unsigned_spec w)) by assumption. eexists. split; [reflexivity|].
  split; [rewrite zlen_map, zlen_zrange by lia; lia|].
  set (F := fun i0 => zlen (filter (fun j => pcall w j <? pcall w i0) (zrange (i0 + 1) (zlen w + i0)))).
  assert (E : nth (Z.to_nat (i - 1)) (map F (zrange 1 (1 + zlen w))) 0 = F i).
  { rewrite (nth_indep _ 0 (F 0)) by (rewrite map_length, length_zrange; lia). rewrite (map_nth F). f_equal.
    change (nthz (zrange 1 (1 + zlen w)) (i - 1) = i). rewrite nthz_zrange by lia. lia. }
  rewrite E. unfold F. pose proof (pcall_abs w i (proj1 Hw) Hi) as Ha.
  assert (Hc : forall j, zlen w + 1 <= j -> (pcall w j <? pcall w i) = false) by (intros j Hj; rewrite (pcall_out w j) by lia; lia).
  f_equal. rewrite (filter_cut _ _ (n + 1) (zlen w + 1)) by (try lia; intros; apply Hc; lia).
  apply filter_cut; [lia|]. intros; apply Hc; lia.
Qed.
Print Assumptions C47_code_entries.

Theorem C47_code_sum : forall w, canonical w -> Forall (fun x => 0 < x) w -> exists c, code w = Ok c /\ plen w = Ok (zsum c).
Proof.
  intros w Hw Hu. exists (codel w). split; [apply code_ok; assumption|]. rewrite plen_ok, ell_unsigned, zsum_codel by assumption. reflexivity.
Qed.
Print Assumptions C47_code_sum.

Theorem C47_code_injective : forall u v, canonical u -> canonical v -> Forall (fun x => 0 < x) u -> Forall (fun x => 0 < x) v ->
  code u = code v -> u = v.
Proof.
  intros u v Hu Hv Pu Pv E. rewrite !code_ok in E by assumption. assert (Ec : codel u = codel v) by congruence.
  assert (L : forall l, length (codel l) = length l) by (induction l as [|x l IH]; [reflexivity|]; cbn [codel length]; rewrite IH; reflexivity).
  assert (El : zlen u = zlen v) by (unfold zlen; rewrite <- (L u), <- (L v), Ec; reflexivity).
  assert (Ab : forall l, Forall (fun x => 0 < x) l -> map Z.abs l = l).
  { intros l Hl. induction Hl as [|x l Hx Hl IH]; [reflexivity|]. cbn [map]. rewrite IH. f_equal. lia. }
  apply codel_inj; [|assumption]. destruct Hu as [Su _], Hv as [Sv _]. unfold signed_word in Su, Sv. rewrite Ab in Su, Sv by assumption.
  rewrite El in Su. eapply perm_trans; [exact Su|]. apply Permutation_sym. assumption.
Qed.
Print Assumptions C47_code_injective.

Theorem C47_code_signed_raises : forall w, ~ Forall (fun x => 0 < x) w -> code w = Err AssertionError.
Proof.
  intros w H. unfold code. destruct (is_unsigned w) eqn:E; [|reflexivity]. exfalso. apply H. apply is_unsigned_spec. assumption.
Qed.
Print Assumptions C47_code_signed_raises.

Example C47_example : code [3; 1; 4; 2] = Ok [2; 0; 1; 0] /\ plen [3; 1; 4; 2] = Ok 3.
Proof. split; reflexivity. Qed.
