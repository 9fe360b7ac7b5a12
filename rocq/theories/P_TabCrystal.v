(* C92: the crystal operators on (skew, set-valued) semistandard tableaux are total, change the tableau as the
   signature rule prescribes, keep the shape, invert each other and have string lengths given by the weight;
   the generator over all tableaux of a shape always finds the result in its list. *)
From Coq Require Import List ZArith Lia Bool Sorted Permutation.
From Verif Require Import PyBase FinSum M_Partitions L_Partitions M_Words S_Words L_Words M_Tableaux S_Tableaux L_Tableaux S_Partitions S_Strips S_Semistandard
  M_Semistandard L_Semi3 P_Semistandard M_Crystal M_TabCrystal S_TabCrystal L_TabCrystal1 L_TabCrystal2 L_TabCrystal3.
Import ListNotations.
Local Open Scope Z_scope.

Notation ssyt := (semistandard_filling cell (fun _ _ => False)).

Lemma reads_klt : forall a b, reads_before a b <-> klt a b.
Proof. intros [[x y] v] [[x' y'] v']. unfold reads_before, klt. cbn [fst snd]. lia. Qed.
Lemma sorted_reads : forall s, StronglySorted reads_before s <-> StronglySorted klt s.
Proof.
  intro s. split; induction 1 as [|a s S IH F]; constructor; try exact IH; (eapply Forall_impl; [|exact F]); intros b; apply reads_klt.
Qed.
Lemma reading_sig : forall i T s, reading i T s <-> Sig i s (holds T).
Proof. intros i T s. unfold reading, Sig. rewrite sorted_reads. reflexivity. Qed.
Lemma reading_is : forall i T s, good T -> (reading i T s <-> s = sv_letters i T).
Proof.
  intros i T s G. rewrite reading_sig. split; [intro K; apply (sig_unique i _ _ (holds T)); [exact K|apply sv_sig; exact G]|intros ->; apply sv_sig; exact G].
Qed.
Lemma exchanged_unique : forall T U V a b v x y u, exchanged T U a b v x y u -> exchanged T V a b v x y u -> U = V.
Proof. intros T U V a b v x y u (A & B & C) (A' & B' & C'). apply good_ext; [split; assumption|split; assumption|]. intros p q w. rewrite C, C'. reflexivity. Qed.

Lemma f_setvalued_rule : forall i D T, crystalline D T -> forall T', f_setvalued i T = Ok (Some T') <-> f_step i T T'.
Proof.
  intros i D T C T'. assert (G : good T) by apply C. split.
  - intro E. destruct (f_core i D T C) as [[E1 _]|(U & x & y & E1 & CU & (X & Y & ES & A & B) & _ & H1 & H2 & HC)]; [congruence|]. assert (U = T') by congruence. subst U.
    exists X, x, y, Y. split; [apply (reading_is i T _ G); symmetry; exact ES|]. split; [exact A|]. split; [exact B|]. destruct HC as [(K & _ & _ & Q)|(K & _ & _ & Q)]; [left|right]; (split; [exact K|]); (split; [apply CU|split; [apply CU|exact Q]]).
  - intros (X & x & y & Y & R & A & B & K). apply (reading_is i T _ G) in R. assert (M0 : at_mark i i (sv_letters i T) (x, y)) by (exists X, Y; rewrite <- R; tauto).
    destruct (f_core i D T C) as [[E1 CL]|(U & a & b & E1 & CU & M & _ & H1 & H2 & HC)]; [exfalso; apply (mark_not_left i _ _ M0 CL)|]. pose proof (at_mark_unique i i _ _ _ (or_introl eq_refl) M0 M) as EB. injection EB as <- <-. rewrite E1. do 2 f_equal.
    destruct HC as [(L & _ & _ & Q)|(L & _ & _ & Q)]; destruct K as [[K1 K2]|[K1 K2]]; try contradiction; (eapply exchanged_unique; [|exact K2]); (split; [apply CU|split; [apply CU|exact Q]]).
Qed.
Lemma e_setvalued_rule : forall i D T, crystalline D T -> forall T', e_setvalued i T = Ok (Some T') <-> e_step i T T'.
Proof.
  intros i D T C T'. assert (G : good T) by apply C. split.
  - intro E. destruct (e_core i D T C) as [[E1 _]|(U & x & y & E1 & CU & (X & Y & ES & A & B) & H1 & H2 & HC)]; [congruence|]. assert (U = T') by congruence. subst U.
    exists X, x, y, Y. split; [apply (reading_is i T _ G); symmetry; exact ES|]. split; [exact A|]. split; [exact B|]. destruct HC as [(K & _ & _ & Q)|(K & _ & _ & Q)]; [left|right]; (split; [exact K|]); (split; [apply CU|split; [apply CU|exact Q]]).
  - intros (X & x & y & Y & R & A & B & K). apply (reading_is i T _ G) in R. assert (M0 : at_mark i (i + 1) (sv_letters i T) (x, y)) by (exists X, Y; rewrite <- R; tauto).
    destruct (e_core i D T C) as [[E1 CL]|(U & a & b & E1 & CU & M & H1 & H2 & HC)]; [exfalso; apply (mark_not_right i _ _ M0 CL)|]. pose proof (at_mark_unique i (i + 1) _ _ _ (or_intror eq_refl) M0 M) as EB. injection EB as <- <-. rewrite E1. do 2 f_equal.
    destruct HC as [(L & _ & _ & Q)|(L & _ & _ & Q)]; destruct K as [[K1 K2]|[K1 K2]]; try contradiction; (eapply exchanged_unique; [|exact K2]); (split; [apply CU|split; [apply CU|exact Q]]).
Qed.

(* total, and given by the signature rule *)
Theorem C92_rule : forall i sv n lam mu T, partition lam -> partition mu -> ssyt sv n lam mu T ->
  (exists r, f_setvalued i T = Ok r) /\ (exists r, e_setvalued i T = Ok r) /\
  (forall T', f_setvalued i T = Ok (Some T') <-> f_step i T T') /\
  (forall T', e_setvalued i T = Ok (Some T') <-> e_step i T T').
Proof.
  intros i sv n lam mu T Hl Hm F. pose proof (filling_crystalline sv n lam mu T Hl Hm F) as C. split; [|split; [|split; [apply (f_setvalued_rule i _ T C)|apply (e_setvalued_rule i _ T C)]]].
  - destruct (f_core i _ T C) as [[E _]|(U & x & y & E & _)]; eexists; exact E.
  - destruct (e_core i _ T C) as [[E _]|(U & x & y & E & _)]; eexists; exact E.
Qed.
Print Assumptions C92_rule.

(* same shape, still semistandard, entries still at most n, singletons stay singletons *)
Theorem C92_closed : forall i sv n lam mu T T', partition lam -> partition mu -> ssyt sv n lam mu T -> 1 <= i < n ->
  f_setvalued i T = Ok (Some T') \/ e_setvalued i T = Ok (Some T') -> ssyt sv n lam mu T'.
Proof.
  intros i sv n lam mu T T' Hl Hm F Hi K. pose proof (filling_crystalline sv n lam mu T Hl Hm F) as C. pose proof (filling_letters _ _ _ _ _ F) as L. pose proof (filling_single _ _ _ _ _ F) as SG. destruct K as [K|K].
  - destruct (f_core i _ T C) as [[E _]|(U & x & y & E & CU & _ & _ & H1 & H2 & HC)]; [congruence|]. assert (U = T') by congruence. subst U. apply crystalline_filling; [exact CU| |].
    + intros p q w Hw. destruct HC as [(_ & _ & _ & Q)|(_ & _ & _ & Q)]; apply Q in Hw; (destruct Hw as [[Hw _]|(_ & _ & ->)]; [apply (L p q w Hw)|lia]).
    + intros E0 p q w z Hw Hz. destruct HC as [(J1 & J2 & _ & Q)|(J1 & J2 & _ & Q)].
      * pose proof (SG E0 _ _ _ _ J1 J2). lia.
      * apply Q in Hw. apply Q in Hz. destruct Hw as [[Hw Nw]|(-> & -> & ->)]; destruct Hz as [[Hz Nz]|(Ea & Eb & ->)].
        -- apply (SG E0 p q); assumption.
        -- subst p q. pose proof (SG E0 _ _ _ _ Hw H1). subst w. exfalso. apply Nw. tauto.
        -- pose proof (SG E0 _ _ _ _ Hz H1). subst z. exfalso. apply Nz. tauto.
        -- reflexivity.
  - destruct (e_core i _ T C) as [[E _]|(U & x & y & E & CU & _ & H1 & H2 & HC)]; [congruence|]. assert (U = T') by congruence. subst U. apply crystalline_filling; [exact CU| |].
    + intros p q w Hw. destruct HC as [(_ & _ & _ & Q)|(_ & _ & _ & Q)]; apply Q in Hw; (destruct Hw as [[Hw _]|(_ & _ & ->)]; [apply (L p q w Hw)|lia]).
    + intros E0 p q w z Hw Hz. destruct HC as [(J1 & J2 & _ & Q)|(J1 & J2 & _ & Q)].
      * pose proof (SG E0 _ _ _ _ J1 J2). lia.
      * apply Q in Hw. apply Q in Hz. destruct Hw as [[Hw Nw]|(-> & -> & ->)]; destruct Hz as [[Hz Nz]|(Ea & Eb & ->)].
        -- apply (SG E0 p q); assumption.
        -- subst p q. pose proof (SG E0 _ _ _ _ Hw H1). subst w. exfalso. apply Nw. tauto.
        -- pose proof (SG E0 _ _ _ _ Hz H1). subst z. exfalso. apply Nz. tauto.
        -- reflexivity.
Qed.
Print Assumptions C92_closed.

(* f and e undo each other *)
Theorem C92_inverse : forall i sv n lam mu T T', partition lam -> partition mu -> 1 <= i < n -> ssyt sv n lam mu T -> ssyt sv n lam mu T' ->
  f_setvalued i T = Ok (Some T') <-> e_setvalued i T' = Ok (Some T).
Proof.
  intros i sv n lam mu T T' Hl Hm Hi F F'. split; intro K.
  - apply (f_then_e i _ T T' (filling_crystalline sv n lam mu T Hl Hm F) K).
  - apply (e_then_f i _ T' T (filling_crystalline sv n lam mu T' Hl Hm F') K).
Qed.
Print Assumptions C92_inverse.

(* one entry i becomes an entry i+1 *)
Lemma occurrences_occ : forall sv n lam mu T m, ssyt sv n lam mu T -> 0 < m -> occurrences m T = occ m (flat_map snd T).
Proof.
  intros sv n lam mu T m F Hm. assert (P : forall v, In v (flat_map snd T) -> 0 < v).
  { intros v K. rewrite <- triples_snd in K. apply in_map_iff in K. destruct K as ([[x y] w] & <- & K). apply triples_in in K. pose proof (filling_letters _ _ _ _ _ F x y w K). cbn. lia. }
  unfold occurrences, occ. f_equal. induction (flat_map snd T) as [|v l IH]; [reflexivity|]. cbn [filter count_occ]. pose proof (P v (or_introl eq_refl)). rewrite Z.abs_eq by lia. specialize (IH (fun u Hu => P u (or_intror Hu))). destruct (Z.eq_dec v m) as [->|N].
  - rewrite Z.eqb_refl. cbn [length]. rewrite IH. reflexivity.
  - replace (v =? m) with false by (symmetry; apply Z.eqb_neq; exact N). exact IH.
Qed.
Theorem C92_weight : forall i sv n lam mu T T' m, partition lam -> partition mu -> 1 <= i < n -> ssyt sv n lam mu T -> f_setvalued i T = Ok (Some T') -> 0 < m ->
  occurrences m T' = occurrences m T + (if m =? i + 1 then 1 else 0) - (if m =? i then 1 else 0).
Proof.
  intros i sv n lam mu T T' m Hl Hm Hi F K P. pose proof (C92_closed i sv n lam mu T T' Hl Hm F Hi (or_introl K)) as F'. rewrite (occurrences_occ sv n lam mu T m F P), (occurrences_occ sv n lam mu T' m F' P).
  pose proof (f_weight i _ T T' (filling_crystalline sv n lam mu T Hl Hm F) K) as PM. pose proof (proj1 (Permutation_count_occ Z.eq_dec _ _) PM m) as O. unfold occ. cbn [count_occ] in O. unfold tab, box in *. set (A := count_occ Z.eq_dec (flat_map snd T') m) in *. set (B := count_occ Z.eq_dec (flat_map snd T) m) in *. destruct (Z.eqb_spec m (i + 1)), (Z.eqb_spec m i), (Z.eq_dec i m), (Z.eq_dec (i + 1) m); lia.
Qed.
Print Assumptions C92_weight.

(* f applies p times and e applies q times before giving None, and p - q is the difference of the weights *)
Theorem C92_strings : forall i sv n lam mu T, partition lam -> partition mu -> 1 <= i < n -> ssyt sv n lam mu T ->
  exists p q : nat,
    (exists U, iterate (f_setvalued i) p T = Ok (Some U) /\ f_setvalued i U = Ok None) /\
    (exists U, iterate (e_setvalued i) q T = Ok (Some U) /\ e_setvalued i U = Ok None) /\
    Z.of_nat p - Z.of_nat q = occurrences i T - occurrences (i + 1) T.
Proof.
  intros i sv n lam mu T Hl Hm Hi F. pose proof (filling_crystalline sv n lam mu T Hl Hm F) as C. destruct (phi_eps_nonneg i T) as [P E]. exists (Z.to_nat (phi i T)), (Z.to_nat (eps i T)). split; [apply (f_chain i _ _ T C); lia|]. split; [apply (e_chain i _ _ T C); lia|].
  rewrite !Z2Nat.id by assumption. rewrite (occurrences_occ sv n lam mu T i F), (occurrences_occ sv n lam mu T (i + 1) F) by lia. pose proof (word_occ i T (proj1 C) i (or_introl eq_refl)) as W1. pose proof (word_occ i T (proj1 C) (i + 1) (or_intror eq_refl)) as W2. unfold phi, eps, hgt, tab, box in *. lia.
Qed.
Print Assumptions C92_strings.

(* operators outside 1..n-1: 0 never applies; n and beyond only apply as f_n *)
Theorem C92_range : forall i sv n lam mu T, partition lam -> partition mu -> ssyt sv n lam mu T ->
  (i = 0 \/ n < i -> f_setvalued i T = Ok None) /\ (n <= i -> e_setvalued i T = Ok None).
Proof.
  intros i sv n lam mu T Hl Hm F. pose proof (filling_crystalline sv n lam mu T Hl Hm F) as C. pose proof (filling_letters _ _ _ _ _ F) as L. split; intro Hi.
  - destruct (f_core i _ T C) as [[E _]|(U & x & y & E & _ & _ & _ & H1 & _)]; [exact E|]. pose proof (L _ _ _ H1). lia.
  - destruct (e_core i _ T C) as [[E _]|(U & x & y & E & _ & _ & H1 & _)]; [exact E|]. pose proof (L _ _ _ H1). lia.
Qed.
Print Assumptions C92_range.

(* the generator: its list is the list of all semistandard tableaux, in any order *)
Section Generator.
  Variable ord : list (list Z) -> list (list Z).
  Variable bord : list (Z * Z) -> list (Z * Z).
  Variable tord : list (list ((Z * Z) * list Z)) -> list (list ((Z * Z) * list Z)).
  Hypothesis ord_perm : forall l, Permutation (ord l) l.
  Hypothesis bord_perm : forall l, Permutation (bord l) l.
  Hypothesis tord_perm : forall l, Permutation (tord l) l.

  Theorem C92_generator : forall n mu sv i x, partition mu -> 0 <= i < Z.of_nat n ->
    exists tableaux, semistandard ord bord tord n mu [] sv = Ok tableaux /\
      ((x < length tableaux)%nat ->
       (generator_f tableaux x i = Ok None /\ f_setvalued i (nth x tableaux []) = Ok None) \/
       (exists y, generator_f tableaux x i = Ok (Some y) /\ (y < length tableaux)%nat /\ f_setvalued i (nth x tableaux []) = Ok (Some (nth y tableaux [])))).
  Proof.
    intros n mu sv i x Hm Hi. assert (Hn : partition []) by (split; [constructor|intro; rewrite !row_nil; lia]).
    assert (IN : forall a b, cell [] a b -> cell mu a b) by (intros a b K; unfold cell, row in K; destruct (Z.to_nat (a - 1)); cbn in K; lia).
    destruct (C34_semistandard ord bord tord ord_perm bord_perm tord_perm n mu [] sv Hm Hn IN) as (r & E & N & M). exists r. split; [exact E|]. intro Hx.
    assert (F : ssyt sv (Z.of_nat n) [] mu (nth x r [])) by (apply M; apply nth_In; exact Hx). unfold generator_f. destruct (C92_rule i sv _ [] mu _ Hn Hm F) as ((o & Eo) & _). rewrite Eo. cbn [rbind]. destruct o as [T|]; [right|left; split; reflexivity].
    assert (I1 : 1 <= i). { destruct (Z.eq_dec i 0) as [->|]; [|lia]. destruct (C92_range 0 sv _ [] mu _ Hn Hm F) as [K _]. rewrite K in Eo by (left; reflexivity). discriminate. }
    pose proof (C92_closed i sv _ [] mu _ T Hn Hm F ltac:(lia) (or_introl Eo)) as FT. apply M in FT. apply (In_nth _ _ []) in FT. destruct FT as (y & Hy & Ey). exists y.
    unfold tab, box in *.
    assert (FL : filter (fun z => teqb (nth z r []) T) (seq 0 (length r)) = [y]).
    { assert (U : forall z, (z < length r)%nat -> teqb (nth z r []) T = true -> z = y) by (intros z Hz K; apply teqb_eq in K; apply (proj1 (NoDup_nth r []) N); [exact Hz|exact Hy|transitivity T; [exact K|symmetry; exact Ey]]).
      assert (YY : teqb (nth y r []) T = true) by (apply teqb_eq; exact Ey). assert (P : Permutation (filter (fun z => teqb (nth z r []) T) (seq 0 (length r))) [y]).
      { apply NoDup_Permutation; [apply NoDup_filter; apply seq_NoDup|constructor; [intros []|constructor]|]. intro z. rewrite filter_In, in_seq. cbn [In]. split; [intros [A B]; left; symmetry; apply U; [lia|exact B]|intros [<-|[]]; split; [lia|exact YY]]. }
      apply Permutation_sym, Permutation_length_1_inv in P. exact P. }
    rewrite FL, Ey. tauto.
  Qed.
End Generator.
Print Assumptions C92_generator.

(* f_2 on a set-valued tableau: the last unbracketed 2 is in the first cell; its right neighbour also holds a 2 *)
Example C92_example :
  let T : tab := [((1, 1), [1; 2]); ((1, 2), [2; 3]); ((2, 1), [4])] in
  let T' : tab := [((1, 1), [1; 2; 3]); ((1, 2), [3]); ((2, 1), [4])] in
  ssyt true 4 [] [2; 1] T /\ f_setvalued 2 T = Ok (Some T') /\ e_setvalued 2 T' = Ok (Some T) /\ f_setvalued 3 T' = Ok (Some [((1, 1), [1; 2; 3]); ((1, 2), [4]); ((2, 1), [4])]) /\ e_setvalued 1 T = Ok (Some [((1, 1), [1]); ((1, 2), [1; 2; 3]); ((2, 1), [4])]).
Proof.
  cbv zeta. split; [|repeat split; vm_compute; reflexivity].
  destruct (C34_semistandard (fun l => l) (fun l => l) (fun l => l) (fun l => Permutation_refl l) (fun l => Permutation_refl l) (fun l => Permutation_refl l) 4 [2; 1] [] true) as (r & E & _ & M).
  - split; [repeat constructor|intros [|[|[|i]]]; cbn; lia].
  - split; [constructor|intro; rewrite !row_nil; lia].
  - intros a b K. unfold cell, row in K. destruct (Z.to_nat (a - 1)); cbn in K; lia.
  - apply M. assert (X : match semistandard (fun l => l) (fun l => l) (fun l => l) 4 [2; 1] [] true with Ok r0 => mem_tab [((1, 1), [1; 2]); ((1, 2), [2; 3]); ((2, 1), [4])] r0 | Err _ => false end = true) by (vm_compute; reflexivity).
    unfold tab, box in *. rewrite E in X. apply mem_tab_In in X. exact X.
Qed.

(* istrings asks e_crystal_operator(i) with its default multisetvalued=True, although the elements of the
   generator are set-valued: in the crystal of shape (1) with entries 1, 2 the string of {1, 2} is lost *)
Definition no_e (tableaux : list tab) (i : Z) (x : Z) : bool :=
  match e_multisetvalued i (nth (Z.to_nat x) tableaux []) with Ok None => true | _ => false end.
Definition f_index (tableaux : list tab) (i : Z) (x : Z) : option Z :=
  match generator_f tableaux (Z.to_nat x) i with Ok (Some y) => Some (Z.of_nat y) | _ => None end.
Theorem C92_istrings_refuted : exists tableaux strings,
  semistandard (fun l => l) (fun l => l) (fun l => l) 2 [1] [] true = Ok tableaux /\
  istrings 3 (no_e tableaux 1) (f_index tableaux 1) = Ok strings /\
  exists x, nth x tableaux [] = [((1, 1), [1; 2])] /\ e_setvalued 1 (nth x tableaux []) = Ok None /\ ~ In (Z.of_nat x) (concat strings).
Proof.
  eexists. eexists. split; [vm_compute; reflexivity|]. split; [vm_compute; reflexivity|].
  first [exists 0%nat; split; [reflexivity|]; split; [vm_compute; reflexivity|cbn; lia]
        |exists 1%nat; split; [reflexivity|]; split; [vm_compute; reflexivity|cbn; lia]
        |exists 2%nat; split; [reflexivity|]; split; [vm_compute; reflexivity|cbn; lia]].
Qed.
Print Assumptions C92_istrings_refuted.
