(* C93 *)
From Coq Require Import List ZArith Lia Bool Sorted Permutation.
From Verif Require Import PyBase FinSum M_Partitions M_Tableaux M_Words M_TabCrystal S_Words L_Words S_Partitions S_Tableaux S_Semistandard S_Multi L_PartBasic L_Tableaux L_TabCrystal2 L_TabCrystal3 L_Multi1 L_Multi2 L_Multi3 L_Multi4.
Import ListNotations.
Local Open Scope Z_scope.

Lemma okh_reading : forall c, okh c -> column_reading (wd c) (Z.of_nat (length (fst c))).
Proof.
  intros c H. destruct (okh_dec c H) as (d & a & E & S & L). exists (rev (fst c)), (snd c). split; [reflexivity|]. split; [rewrite rev_length; reflexivity|]. rewrite E. split; [exact S|]. split; [apply H|]. exists d, a. split; [reflexivity|exact L].
Qed.
Lemma reading_okh : forall w n, column_reading w n -> exists c, okh c /\ wd c = w /\ Z.of_nat (length (fst c)) = n.
Proof.
  intros w n (d & t & -> & L & S & I & u & a & E & H). exists (rev d, t). split; [|split; [unfold wd; cbn [fst snd]; rewrite rev_involutive; reflexivity|cbn [fst]; rewrite rev_length; exact L]]. split; [cbn [fst]; apply StronglySorted_rev with (R := Z.gt); [intros; lia|exact S]|]. split; [exact I|]. exists a. cbn [fst snd]. split; [subst d; rewrite rev_app_distr; reflexivity|exact H].
Qed.
Lemma decode_rep : forall l T, Rep l T -> Forall okh l -> from_crystal_reading_word (map wd l) = Ok T.
Proof. intros l T R O. destruct (decode_ok l O) as (T' & E & R'). rewrite E. f_equal. apply (Rep_unique l); assumption. Qed.

(* the reading word of a column-strict multiset-valued tableau: one word per column, from which the tableau is
   recovered *)
Theorem C93_reading : forall m h T, 0 <= m -> (forall y, 1 <= y <= m -> 1 <= h y) -> column_strict m h T ->
  from_crystal_reading_word (crystal_reading_word T) = Ok T /\
  Forall2 column_reading (crystal_reading_word T) (map h (zrange 1 (m + 1))) /\
  Permutation (concat (crystal_reading_word T)) (content T).
Proof.
  intros m h T M H C. destruct (table_rep m h T M C H) as (R & O & L). rewrite (read_ok _ _ R O). split; [apply decode_rep; assumption|]. split.
  - rewrite <- L. clear - O. induction O as [|c l Hc O IH]; [constructor|]. cbn [map]. constructor; [apply okh_reading; exact Hc|exact IH].
  - rewrite <- (read_ok _ _ R O). apply reading_content.
Qed.
Print Assumptions C93_reading.

(* conversely, every list of such words is the reading word of exactly the tableau built from it *)
Theorem C93_decode : forall ws hs, Forall2 column_reading ws hs ->
  exists T, from_crystal_reading_word ws = Ok T /\ crystal_reading_word T = ws /\
    column_strict (Z.of_nat (length ws)) (fun y => nth (Z.to_nat (y - 1)) hs 0) T.
Proof.
  intros ws hs F. assert (K : exists l, Forall okh l /\ map wd l = ws /\ map (fun c => Z.of_nat (length (fst c))) l = hs).
  { induction F as [|w n ws hs H F (l & O & E1 & E2)]; [exists []; repeat constructor|]. destruct (reading_okh w n H) as (c & Hc & Ew & El). exists (c :: l). split; [constructor; assumption|]. cbn [map]. rewrite Ew, El, E1, E2. tauto. }
  destruct K as (l & O & <- & <-). clear F. destruct (decode_ok l O) as (T & E & R). exists T. split; [exact E|]. split; [apply (read_ok l T R O)|]. split; [apply R|]. split; [|split; [intros c q; apply (getrow_nonempty l T c q R)|apply (Rep_column_strict l T R O)]].
  intros x y. rewrite map_length. destruct (Z_lt_le_dec 0 x) as [Hx|Hx]; [destruct (Z_lt_le_dec 0 y) as [Hy|Hy]|].
  - destruct (pos_nat x Hx) as (k & ->). destruct (pos_nat y Hy) as (z & ->). rewrite (Rep_cells l T z k R). replace (Z.to_nat (1 + Z.of_nat z - 1)) with z by lia. split.
    + intros (c & Ec & L). assert (z < length l)%nat by (apply nth_error_Some; congruence). erewrite nth_error_nth by (apply (map_nth_error (fun c : hk => Z.of_nat (length (fst c))) _ _ Ec)). lia.
    + intros [H1 H2]. destruct (nth_error l z) as [c|] eqn:Ec; [|apply nth_error_None in Ec; lia]. exists c. split; [reflexivity|]. erewrite nth_error_nth in H2 by (apply (map_nth_error (fun c : hk => Z.of_nat (length (fst c))) _ _ Ec)). lia.
  - split; [intros (q & H); apply (proj2 (proj1 R)) in H; cbn [fst snd] in H; lia|lia].
  - split; [intros (q & H); apply (proj2 (proj1 R)) in H; cbn [fst snd] in H; lia|lia].
Qed.
Print Assumptions C93_decode.

Lemma f_rule_fun : forall i w v v', f_rule i w v -> f_rule i w v' -> v = v'.
Proof. intros i w v v' A B. apply f_word_rule in A. apply f_word_rule in B. congruence. Qed.
Lemma e_rule_fun : forall i w v v', e_rule i w v -> e_rule i w v' -> v = v'.
Proof. intros i w v v' A B. apply e_word_rule in A. apply e_word_rule in B. congruence. Qed.
Lemma MS_same : forall T l T' l', MS T l -> MS T' l' -> map wd l = map wd l' -> T = T'.
Proof. intros T l T' l' [R [O _]] [R' [O' _]] E. pose proof (decode_rep l T R O) as A. pose proof (decode_rep l' T' R' O') as B. congruence. Qed.

(* the operators never raise; they return None, or the multiset-valued tableau of the same shape whose reading
   word is obtained by the signature rule *)
Theorem C93_operators : forall i mu T, partition mu -> multiset_ssyt mu T ->
  (exists r, f_multisetvalued i T = Ok r) /\ (exists r, e_multisetvalued i T = Ok r) /\
  (forall T', f_multisetvalued i T = Ok (Some T') <->
     multiset_ssyt mu T' /\ map (@length Z) (crystal_reading_word T') = map (@length Z) (crystal_reading_word T) /\
     f_rule i (concat (crystal_reading_word T)) (concat (crystal_reading_word T'))) /\
  (forall T', e_multisetvalued i T = Ok (Some T') <->
     multiset_ssyt mu T' /\ map (@length Z) (crystal_reading_word T') = map (@length Z) (crystal_reading_word T) /\
     e_rule i (concat (crystal_reading_word T)) (concat (crystal_reading_word T'))).
Proof.
  intros i mu T P S. destruct (multiset_cols mu T P S) as (l & M). destruct (f_multi i T l M) as (rf & Ef & Hf). destruct (e_multi i T l M) as (re & Ee & He). split; [eexists; exact Ef|]. split; [eexists; exact Ee|]. rewrite (MS_read T l M). split; intro T'; split.
  - intro E. rewrite Ef in E. injection E as ->. destruct Hf as (l' & M' & HT & L & R). rewrite (MS_read T' l' M'). split; [apply (cols_multiset mu T l T' l' S M M' HT)|]. tauto.
  - intros (S' & L & R). destruct (multiset_cols mu T' P S') as (l' & M'). rewrite (MS_read T' l' M') in *. rewrite Ef. f_equal. destruct rf as [T''|]; [|destruct (Hf _ R)]. destruct Hf as (l'' & M'' & _ & L'' & R''). f_equal. apply (MS_same T'' l'' T' l' M'' M'). apply concat_same; [congruence|]. apply (f_rule_fun i _ _ _ R'' R).
  - intro E. rewrite Ee in E. injection E as ->. destruct He as (l' & M' & HT & L & R). rewrite (MS_read T' l' M'). split; [apply (cols_multiset mu T l T' l' S M M' HT)|]. tauto.
  - intros (S' & L & R). destruct (multiset_cols mu T' P S') as (l' & M'). rewrite (MS_read T' l' M') in *. rewrite Ee. f_equal. destruct re as [T''|]; [|destruct (He _ R)]. destruct He as (l'' & M'' & _ & L'' & R''). f_equal. apply (MS_same T'' l'' T' l' M'' M'). apply concat_same; [congruence|]. apply (e_rule_fun i _ _ _ R'' R).
Qed.
Print Assumptions C93_operators.

Theorem C93_inverse : forall i mu T T', partition mu -> multiset_ssyt mu T -> multiset_ssyt mu T' ->
  f_multisetvalued i T = Ok (Some T') <-> e_multisetvalued i T' = Ok (Some T).
Proof.
  intros i mu T T' P S S'. destruct (C93_operators i mu T P S) as (_ & _ & F & _). destruct (C93_operators i mu T' P S') as (_ & _ & _ & E). rewrite F, E, (rules_inverse i). split; intros (A & B & C); (split; [assumption|split; [congruence|assumption]]).
Qed.
Print Assumptions C93_inverse.

(* exactly one entry i becomes i + 1 *)
Theorem C93_weight : forall i mu T T', partition mu -> multiset_ssyt mu T -> f_multisetvalued i T = Ok (Some T') ->
  Permutation (i :: content T') ((i + 1) :: content T).
Proof.
  intros i mu T T' P S E. destruct (C93_operators i mu T P S) as (_ & _ & F & _). apply F in E. destruct E as (S' & _ & x & y & E1 & E2 & _). eapply Permutation_trans; [apply perm_skip, Permutation_sym, reading_content|]. eapply Permutation_trans; [|apply perm_skip, reading_content]. rewrite E1, E2. eapply Permutation_trans; [apply perm_skip, Permutation_sym, Permutation_middle|]. eapply Permutation_trans; [apply perm_swap|]. apply perm_skip. apply Permutation_middle.
Qed.
Print Assumptions C93_weight.

(* f applies p times and e applies q times before giving None, and p - q is the difference of the weights *)
Lemma f_chain_multi : forall i mu n T, partition mu -> multiset_ssyt mu T -> hmax i (concat (crystal_reading_word T)) = Z.of_nat n ->
  exists U, iterate (f_multisetvalued i) n T = Ok (Some U) /\ f_multisetvalued i U = Ok None.
Proof.
  intros i mu. induction n as [|n IH]; intros T P S H; destruct (C93_operators i mu T P S) as ((r & Er) & _ & F & _).
  - exists T. split; [reflexivity|]. destruct r as [T'|]; [exfalso|exact Er]. apply F in Er. destruct Er as (_ & _ & R). destruct (f_rule_h i _ _ R) as (Q & _ & Q'). lia.
  - cbn [iterate]. rewrite Er. cbn [rbind]. destruct r as [T'|].
    + apply F in Er. destruct Er as (S' & _ & R). destruct (f_rule_h i _ _ R) as (Q & _). apply (IH T' P S'). lia.
    + exfalso. destruct (multiset_cols mu T P S) as (l & M). destruct (f_multi i T l M) as (r' & E' & Hr). assert (r' = None) by congruence. subst r'. rewrite (MS_read T l M) in H. rewrite (f_none_h i _ Hr) in H. lia.
Qed.
Lemma e_chain_multi : forall i mu n T, partition mu -> multiset_ssyt mu T -> hmax i (concat (crystal_reading_word T)) - hgt i (concat (crystal_reading_word T)) = Z.of_nat n ->
  exists U, iterate (e_multisetvalued i) n T = Ok (Some U) /\ e_multisetvalued i U = Ok None.
Proof.
  intros i mu. induction n as [|n IH]; intros T P S H; destruct (C93_operators i mu T P S) as (_ & (r & Er) & _ & F).
  - exists T. split; [reflexivity|]. destruct r as [T'|]; [exfalso|exact Er]. apply F in Er. destruct Er as (_ & _ & R). apply rules_inverse in R. destruct (f_rule_h i _ _ R) as (Q & Q' & _). pose proof (hmax_ge i (concat (crystal_reading_word T'))). lia.
  - cbn [iterate]. rewrite Er. cbn [rbind]. destruct r as [T'|].
    + apply F in Er. destruct Er as (S' & _ & R). apply rules_inverse in R. destruct (f_rule_h i _ _ R) as (Q & Q' & _). apply (IH T' P S'). lia.
    + exfalso. destruct (multiset_cols mu T P S) as (l & M). destruct (e_multi i T l M) as (r' & E' & Hr). assert (r' = None) by congruence. subst r'. rewrite (MS_read T l M) in H. rewrite (e_none_h i _ Hr) in H. lia.
Qed.
Theorem C93_strings : forall i mu T, partition mu -> multiset_ssyt mu T ->
  exists p q : nat,
    (exists U, iterate (f_multisetvalued i) p T = Ok (Some U) /\ f_multisetvalued i U = Ok None) /\
    (exists U, iterate (e_multisetvalued i) q T = Ok (Some U) /\ e_multisetvalued i U = Ok None) /\
    Z.of_nat p - Z.of_nat q = occ i (content T) - occ (i + 1) (content T).
Proof.
  intros i mu T P S. set (w := concat (crystal_reading_word T)). pose proof (hmax_nonneg i w) as H0. pose proof (hmax_ge i w) as H1. exists (Z.to_nat (hmax i w)), (Z.to_nat (hmax i w - hgt i w)). split; [apply (f_chain_multi i mu _ T P S); fold w; lia|]. split; [apply (e_chain_multi i mu _ T P S); fold w; lia|]. rewrite !Z2Nat.id by lia.
  assert (C : forall a, occ a w = occ a (content T)) by (intro a; unfold occ; f_equal; apply Permutation_count_occ; apply reading_content). rewrite <- !C. unfold hgt. lia.
Qed.
Print Assumptions C93_strings.

Definition C93_T : tab := [((1, 1), [1; 1]); ((1, 2), [1; 2]); ((2, 1), [2; 2; 3]); ((2, 2), [3])].
Example C93_example : multiset_ssyt [2; 2] C93_T /\
  crystal_reading_word C93_T = [[2; 1; 1; 2; 3]; [3; 1; 2]] /\
  f_multisetvalued 1 C93_T = Ok (Some [((1, 1), [1]); ((1, 2), [1; 2]); ((2, 1), [2; 2; 2; 3]); ((2, 2), [3])]) /\
  f_multisetvalued 2 C93_T = Ok (Some [((1, 1), [1; 1]); ((1, 2), [1; 2]); ((2, 1), [2; 3; 3]); ((2, 2), [3])]) /\
  e_multisetvalued 1 C93_T = Ok (Some [((1, 1), [1; 1]); ((1, 2), [1; 1]); ((2, 1), [2; 2; 3]); ((2, 2), [3])]).
Proof.
  split.
  - split; [|split; [|split; [|split]]].
    + split; [repeat constructor; unfold before; cbn; lia|]. intros c l H. cbn in H. repeat (destruct H as [H|H]; [injection H as <- <-; cbn; split; [lia|]; split; [lia|]; repeat constructor; lia|]). destruct H.
    + intros x y. unfold cell. split.
      * intros (l & H). cbn in H. repeat (destruct H as [H|H]; [injection H as <- <- <-; vm_compute; intuition discriminate|]). destruct H.
      * intros [H1 H2]. destruct (Z.to_nat (x - 1)) as [|[|[|n]]] eqn:E; cbn [row nth] in H2; try lia; (assert (y = 1 \/ y = 2) as [->| ->] by lia); [replace x with 1 by lia|replace x with 1 by lia|replace x with 2 by lia|replace x with 2 by lia]; cbn; eexists; eauto 10.
    + intros c l H. cbn in H. repeat (destruct H as [H|H]; [injection H as <- <-; discriminate|]). destruct H.
    + intros x y a b (l & H & Ha) (l' & H' & Hb). cbn in H, H'. repeat (destruct H as [H|H]; [injection H as <- <- <-; repeat (destruct H' as [H'|H']; [try discriminate; injection H' as <-; cbn in Ha, Hb; lia|]); destruct H'|]). destruct H.
    + intros x y a b (l & H & Ha) (l' & H' & Hb). cbn in H, H'. repeat (destruct H as [H|H]; [injection H as <- <- <-; repeat (destruct H' as [H'|H']; [try discriminate; injection H' as <-; cbn in Ha, Hb; lia|]); destruct H'|]). destruct H.
  - vm_compute. auto.
Qed.

(* on shifted shapes the operators need not preserve the row condition *)
Theorem C93_shifted_refuted : exists T U, T = [((1, 1), [1]); ((1, 2), [1]); ((2, 2), [2])] /\
  f_multisetvalued 1 T = Ok (Some U) /\ holds U 1 1 2 /\ holds U 1 2 1.
Proof.
  eexists. eexists. split; [reflexivity|]. split; [vm_compute; reflexivity|]. split; [exists [2]|exists [1]]; (split; [cbn; tauto|left; reflexivity]).
Qed.
Print Assumptions C93_shifted_refuted.
