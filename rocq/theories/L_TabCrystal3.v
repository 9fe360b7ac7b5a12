(* Set-valued crystal operators: the operators on tableaux. *)
From Coq Require Import List ZArith Lia Bool Sorted Permutation.
From Verif Require Import PyBase FinSum M_Partitions L_Partitions M_Vectors M_Words S_Words L_Words M_Tableaux S_Tableaux L_Tableaux S_Partitions S_Strips S_Semistandard M_TabCrystal S_TabCrystal L_TabCrystal1 L_TabCrystal2.
Import ListNotations.
Local Open Scope Z_scope.

Section Ops.
  Variable i : Z.
  Lemma abs_e : forall D H s x y, SSV D H -> Sig i s H -> at_mark i (i + 1) s (x, y) ->
    H x y (i + 1) /\ (forall x', ~ H x' y i) /\ (forall v, H x (y + 1) v -> i + 1 <= v) /\
    (H x (y - 1) (i + 1) -> H x (y - 1) i /\ SSV D (swap H x (y - 1) (i + 1) x y i) /\ exists s', Sig i s' (swap H x (y - 1) (i + 1) x y i) /\ at_mark i i s' (x, y - 1)) /\
    (~ H x (y - 1) (i + 1) -> SSV D (swap H x y (i + 1) x y i) /\ exists s', Sig i s' (swap H x y (i + 1) x y i) /\ at_mark i i s' (x, y)).
  Proof.
    intros D H s x y S G M. apply (r_ssv i) in S. apply (rs_sig i) in G. apply (rs_mark i) in M. replace (2 * i + 1 - (i + 1)) with i in M by lia.
    destruct (abs_f i _ _ _ _ _ S G M) as (F1 & F2 & F3 & F4 & F5). unfold rH in F1, F2, F3.
    assert (N1 : 2 * i + 1 - i = i + 1) by lia. assert (N2 : 2 * i + 1 - (i + 1) = i) by lia. assert (N3 : - (- y + 1) = y - 1) by lia. assert (N4 : - (- y - 1) = y + 1) by lia.
    split; [rewrite !Z.opp_involutive, N1 in F1; exact F1|]. split; [intros x' K; apply (F2 (- x')); rewrite !Z.opp_involutive, N2; exact K|]. split.
    { intros v K. specialize (F3 (2 * i + 1 - v)). rewrite Z.opp_involutive, N4 in F3. replace (2 * i + 1 - (2 * i + 1 - v)) with v in F3 by lia. specialize (F3 K). lia. }
    assert (RR : forall D', SSV (rD (rD D)) D' -> SSV D D') by (intros D'; apply ssv_ext; [intros a b; unfold rD; rewrite !Z.opp_involutive; tauto|tauto]).
    split.
    - intro K. destruct F4 as (F6 & F7 & s' & F8 & F9 & _); [unfold rH; rewrite Z.opp_involutive, N3, N1; exact K|]. unfold rH in F6. rewrite Z.opp_involutive, N3, N2 in F6. split; [exact F6|].
      assert (EQ : forall a b v, rH i (swap (rH i H) (- x) (- y + 1) i (- x) (- y) (i + 1)) a b v <-> swap H x (y - 1) (i + 1) x y i a b v).
      { intros a b v. unfold rH, swap. rewrite !Z.opp_involutive. replace (2 * i + 1 - (2 * i + 1 - v)) with v by lia. split; (intros [[Q1 Q2]|Q1]; [left; split; [exact Q1|intro Q3; apply Q2; lia]|right; lia]). }
      split; [apply RR; apply (ssv_ext _ _ _ _ (fun a b => iff_refl _) EQ); apply (r_ssv i); exact F7|]. exists (rs i s'). split; [apply (sig_ext i _ _ _ EQ); apply rs_sig; exact F8|]. apply (rs_mark i) in F9. rewrite Z.opp_involutive, N3, N2 in F9. exact F9.
    - intro K. destruct F5 as (F7 & s' & F8 & F9 & _); [unfold rH; rewrite Z.opp_involutive, N3, N1; exact K|].
      assert (EQ : forall a b v, rH i (swap (rH i H) (- x) (- y) i (- x) (- y) (i + 1)) a b v <-> swap H x y (i + 1) x y i a b v).
      { intros a b v. unfold rH, swap. rewrite !Z.opp_involutive. replace (2 * i + 1 - (2 * i + 1 - v)) with v by lia. split; (intros [[Q1 Q2]|Q1]; [left; split; [exact Q1|intro Q3; apply Q2; lia]|right; lia]). }
      split; [apply RR; apply (ssv_ext _ _ _ _ (fun a b => iff_refl _) EQ); apply (r_ssv i); exact F7|]. exists (rs i s'). split; [apply (sig_ext i _ _ _ EQ); apply rs_sig; exact F8|]. apply (rs_mark i) in F9. rewrite !Z.opp_involutive, N2 in F9. exact F9.
  Qed.

  Definition crystalline (D : Z -> Z -> Prop) (T : tab) : Prop := good T /\ SSV D (holds T) .
  Lemma crys_pos : forall T x y v, good T -> holds T x y v -> 0 < x /\ 0 < y.
  Proof. intros T x y v [[_ W] _] (l & A & _). destruct (W _ _ A) as (? & ? & _). cbn in *. tauto. Qed.
  Notation sl := (fun T => sv_letters i T).
  Notation word T := (map snd (sv_letters i T)).
  Lemma sig_of : forall T s H, good T -> (forall p q w, holds T p q w <-> H p q w) -> Sig i s H -> s = sv_letters i T.
  Proof. intros T s H G E S. apply (sig_unique i _ _ H); [exact S|]. apply (sig_ext i _ (holds T)); [exact E|apply sv_sig; exact G]. Qed.

  Lemma f_core : forall D T, crystalline D T ->
    (f_setvalued i T = Ok None /\ closed_left i (word T)) \/
    (exists T' x y, f_setvalued i T = Ok (Some T') /\ crystalline D T' /\ at_mark i i (sv_letters i T) (x, y) /\ hmax i (word T) = hmax i (word T') + 1 /\ holds T x y i /\ ~ holds T x y (i + 1) /\
       ((holds T x (y + 1) i /\ holds T x (y + 1) (i + 1) /\ at_mark i (i + 1) (sv_letters i T') (x, y + 1) /\ forall p q w, holds T' p q w <-> swap (holds T) x (y + 1) i x y (i + 1) p q w) \/
        (~ holds T x (y + 1) i /\ ~ holds T x (y - 1) (i + 1) /\ at_mark i (i + 1) (sv_letters i T') (x, y) /\ forall p q w, holds T' p q w <-> swap (holds T) x y i x y (i + 1) p q w))).
  Proof.
    intros D T [G S]. pose proof (sv_sig i T G) as SG. unfold f_setvalued. destruct (sig_f i (sv_letters i T) (sig_letters i _ _ SG)) as (r & E & C). rewrite E. cbn [rbind]. destruct C as [[E2 C]|([x y] & l & E2 & M)]; rewrite E2; [left; split; [reflexivity|exact C]|right].
    destruct (abs_f i D (holds T) _ x y S SG M) as (H1 & H2 & H3 & H4 & H5). destruct (crys_pos T x y i G H1) as [Px Py].
    destruct (holds_at T (x, y + 1) i) eqn:HA.
    - apply (holds_at_spec T x (y + 1) i (proj1 G)) in HA. destruct (H4 HA) as (K1 & S' & s' & SG' & M' & HM). destruct (move_good T x (y + 1) i x y (i + 1) G HA Px Py (H2 x)) as (T' & ET & G' & Q).
      pose proof (sig_of T' s' _ G' Q SG') as ES. subst s'. exists T', x, y. split; [exact ET|]. split; [split; [exact G'|apply (ssv_ext D D _ _ (fun a b => iff_refl _) (fun a b v => iff_sym (Q a b v))); exact S']|]. split; [exact M|]. split; [exact HM|]. split; [exact H1|]. split; [apply H2|]. left. tauto.
    - assert (NA : ~ holds T x (y + 1) i) by (intro K; apply (holds_at_spec T x (y + 1) i (proj1 G)) in K; congruence). destruct (H5 NA) as (S' & s' & SG' & M' & HM). destruct (move_good T x y i x y (i + 1) G H1 Px Py (H2 x)) as (T' & ET & G' & Q).
      pose proof (sig_of T' s' _ G' Q SG') as ES. subst s'. exists T', x, y. split; [exact ET|]. split; [split; [exact G'|apply (ssv_ext D D _ _ (fun a b => iff_refl _) (fun a b v => iff_sym (Q a b v))); exact S']|]. split; [exact M|]. split; [exact HM|]. split; [exact H1|]. split; [apply H2|]. right. split; [exact NA|]. split; [intro K; apply H3 in K; lia|]. tauto.
  Qed.
  Lemma e_core : forall D T, crystalline D T ->
    (e_setvalued i T = Ok None /\ closed_right i (word T)) \/
    (exists T' x y, e_setvalued i T = Ok (Some T') /\ crystalline D T' /\ at_mark i (i + 1) (sv_letters i T) (x, y) /\ holds T x y (i + 1) /\ ~ holds T x y i /\
       ((holds T x (y - 1) (i + 1) /\ holds T x (y - 1) i /\ at_mark i i (sv_letters i T') (x, y - 1) /\ forall p q w, holds T' p q w <-> swap (holds T) x (y - 1) (i + 1) x y i p q w) \/
        (~ holds T x (y - 1) (i + 1) /\ ~ holds T x (y + 1) i /\ at_mark i i (sv_letters i T') (x, y) /\ forall p q w, holds T' p q w <-> swap (holds T) x y (i + 1) x y i p q w))).
  Proof.
    intros D T [G S]. pose proof (sv_sig i T G) as SG. unfold e_setvalued. destruct (sig_e i (sv_letters i T) (sig_letters i _ _ SG)) as (r & E & C). rewrite E. cbn [rbind]. destruct C as [[E2 C]|([x y] & l & E2 & M)]; rewrite E2; [left; split; [reflexivity|exact C]|right].
    destruct (abs_e D (holds T) _ x y S SG M) as (H1 & H2 & H3 & H4 & H5). destruct (crys_pos T x y _ G H1) as [Px Py].
    destruct (holds_at T (x, y - 1) (i + 1)) eqn:HA.
    - apply (holds_at_spec T x (y - 1) (i + 1) (proj1 G)) in HA. destruct (H4 HA) as (K1 & S' & s' & SG' & M'). destruct (move_good T x (y - 1) (i + 1) x y i G HA Px Py (H2 x)) as (T' & ET & G' & Q).
      pose proof (sig_of T' s' _ G' Q SG') as ES. subst s'. exists T', x, y. split; [exact ET|]. split; [split; [exact G'|apply (ssv_ext D D _ _ (fun a b => iff_refl _) (fun a b v => iff_sym (Q a b v))); exact S']|]. split; [exact M|]. split; [exact H1|]. split; [apply H2|]. left. tauto.
    - assert (NA : ~ holds T x (y - 1) (i + 1)) by (intro K; apply (holds_at_spec T x (y - 1) (i + 1) (proj1 G)) in K; congruence). destruct (H5 NA) as (S' & s' & SG' & M'). destruct (move_good T x y (i + 1) x y i G H1 Px Py (H2 x)) as (T' & ET & G' & Q).
      pose proof (sig_of T' s' _ G' Q SG') as ES. subst s'. exists T', x, y. split; [exact ET|]. split; [split; [exact G'|apply (ssv_ext D D _ _ (fun a b => iff_refl _) (fun a b v => iff_sym (Q a b v))); exact S']|]. split; [exact M|]. split; [exact H1|]. split; [apply H2|]. right. split; [exact NA|]. split; [intro K; apply H3 in K; lia|]. tauto.
  Qed.
  Lemma swap_back : forall (H H' : Z -> Z -> Z -> Prop) a b v x y u, H a b v -> ~ H x y u -> v <> u -> (forall p q w, H' p q w <-> swap H a b v x y u p q w) -> forall p q w, swap H' x y u a b v p q w <-> H p q w.
  Proof.
    intros H H' a b v x y u K L N M p q w. unfold swap at 1. rewrite M. unfold swap. split.
    - intros [[[[Q _]|Q] Q2]|(-> & -> & ->)]; [exact Q|tauto|exact K].
    - intro Q. destruct (Z.eq_dec p a) as [->|]; [destruct (Z.eq_dec q b) as [->|]; [destruct (Z.eq_dec w v) as [->|]; [right; tauto|]|]|]; (left; split; [left; split; [exact Q|tauto]|intros (-> & -> & ->); tauto]).
  Qed.
  Lemma f_then_e : forall D T T', crystalline D T -> f_setvalued i T = Ok (Some T') -> e_setvalued i T' = Ok (Some T).
  Proof.
    intros D T T' C E. destruct (f_core D T C) as [[E1 _]|(U & x & y & E1 & CU & M & _ & H1 & H2 & HC)]; [congruence|]. assert (U = T') by congruence. subst U.
    destruct (e_core D T' CU) as [[E2 CR]|(V & a & b & E2 & CV & M2 & J1 & J2 & JC)].
    - exfalso. destruct HC as [(_ & _ & M' & _)|(_ & _ & M' & _)]; apply (mark_not_right i _ _ M' CR).
    - rewrite E2. do 2 f_equal. apply good_ext; [apply CV|apply C|]. destruct HC as [(K1 & K2 & M' & Q)|(K1 & K2 & M' & Q)].
      + pose proof (at_mark_unique i (i + 1) _ _ _ (or_intror eq_refl) M' M2) as EB. injection EB as <- <-. replace (y + 1 - 1) with y in JC by lia. destruct JC as [(_ & _ & _ & Q')|(Nl & _)].
        * intros p q w. rewrite Q'. apply (swap_back (holds T) (holds T') x (y + 1) i x y (i + 1)); [exact K1|exact H2|lia|exact Q].
        * exfalso. apply Nl. apply Q. right. tauto.
      + pose proof (at_mark_unique i (i + 1) _ _ _ (or_intror eq_refl) M' M2) as EB. injection EB as <- <-. destruct JC as [(Nl & _)|(_ & _ & _ & Q')].
        * exfalso. apply Q in Nl. destruct Nl as [[Nl _]|Nl]; [contradiction|lia].
        * intros p q w. rewrite Q'. apply (swap_back (holds T) (holds T') x y i x y (i + 1)); [exact H1|exact H2|lia|exact Q].
  Qed.
  Lemma e_then_f : forall D T T', crystalline D T -> e_setvalued i T = Ok (Some T') -> f_setvalued i T' = Ok (Some T).
  Proof.
    intros D T T' C E. destruct (e_core D T C) as [[E1 _]|(U & x & y & E1 & CU & M & H1 & H2 & HC)]; [congruence|]. assert (U = T') by congruence. subst U.
    destruct (f_core D T' CU) as [[E2 CR]|(V & a & b & E2 & CV & M2 & _ & J1 & J2 & JC)].
    - exfalso. destruct HC as [(_ & _ & M' & _)|(_ & _ & M' & _)]; apply (mark_not_left i _ _ M' CR).
    - rewrite E2. do 2 f_equal. apply good_ext; [apply CV|apply C|]. destruct HC as [(K1 & K2 & M' & Q)|(K1 & K2 & M' & Q)].
      + pose proof (at_mark_unique i i _ _ _ (or_introl eq_refl) M' M2) as EB. injection EB as <- <-. replace (y - 1 + 1) with y in JC by lia. destruct JC as [(_ & _ & _ & Q')|(Nl & _)].
        * intros p q w. rewrite Q'. apply (swap_back (holds T) (holds T') x (y - 1) (i + 1) x y i); [exact K1|exact H2|lia|exact Q].
        * exfalso. apply Nl. apply Q. right. tauto.
      + pose proof (at_mark_unique i i _ _ _ (or_introl eq_refl) M' M2) as EB. injection EB as <- <-. destruct JC as [(Nl & _)|(_ & _ & _ & Q')].
        * exfalso. apply Q in Nl. destruct Nl as [[Nl _]|Nl]; [contradiction|lia].
        * intros p q w. rewrite Q'. apply (swap_back (holds T) (holds T') x y (i + 1) x y i); [exact H1|exact H2|lia|exact Q].
  Qed.

  (* weights *)
  Lemma f_weight : forall D T T', crystalline D T -> f_setvalued i T = Ok (Some T') -> Permutation (i :: flat_map snd T') ((i + 1) :: flat_map snd T).
  Proof.
    intros D T T' C E. destruct (f_core D T C) as [[E1 _]|(U & x & y & E1 & CU & M & _ & H1 & H2 & HC)]; [congruence|]. assert (U = T') by congruence. subst U.
    destruct HC as [(K1 & _ & _ & Q)|(_ & _ & _ & Q)]; [apply (swap_weight T T' x (y + 1) i x y (i + 1))|apply (swap_weight T T' x y i x y (i + 1))]; try assumption; try lia; [apply C|apply CU|apply C|apply CU].
  Qed.
  Lemma word_occ : forall T, good T -> forall a, a = i \/ a = i + 1 -> occ a (word T) = occ a (flat_map snd T).
  Proof.
    intros T G a Ha. rewrite <- triples_snd. rewrite sv_letters_eq. set (l := filter (fun p => (snd p =? i) || (snd p =? i + 1)) (triples T)).
    assert (P : Permutation (isort sv_leb l) l). { assert (N : NoDup l) by (apply NoDup_filter; apply triples_nodup; exact G). destruct (isort_klt l N) as [S M]. apply NoDup_Permutation; [|exact N|exact M]. clear - S. induction S as [|a m S IH F]; constructor; [|exact IH]. intro K. rewrite Forall_forall in F. apply (klt_irrefl a). apply F. exact K. }
    apply (Permutation_map snd) in P. unfold occ. rewrite (proj1 (Permutation_count_occ Z.eq_dec _ _) P a). f_equal. unfold l. clear - Ha. induction (triples T) as [|[c v] s IH]; [reflexivity|]. cbn [filter map count_occ snd]. destruct ((v =? i) || (v =? i + 1)) eqn:E.
    - cbn [map count_occ snd]. destruct (Z.eq_dec v a); rewrite IH; reflexivity.
    - rewrite orb_false_iff, !Z.eqb_neq in E. destruct (Z.eq_dec v a); [exfalso; lia|exact IH].
  Qed.
  Definition phi (T : tab) : Z := hmax i (word T).
  Definition eps (T : tab) : Z := hmax i (word T) - hgt i (word T).
  Lemma phi_eps_nonneg : forall T, 0 <= phi T /\ 0 <= eps T.
  Proof. intro T. unfold phi, eps. pose proof (hmax_nonneg i (word T)). pose proof (hmax_ge i (word T)). lia. Qed.
  Lemma f_phi : forall D T, crystalline D T -> match f_setvalued i T with Ok (Some T') => phi T = phi T' + 1 /\ eps T' = eps T + 1 /\ crystalline D T' | Ok None => phi T = 0 | Err _ => False end.
  Proof.
    intros D T C. destruct (f_core D T C) as [[E1 CL]|(T' & x & y & E1 & CU & M & HM & H1 & H2 & HC)]; rewrite E1; [apply hmax_left; exact CL|]. split; [exact HM|]. split; [|exact CU]. unfold eps, hgt. pose proof (f_weight D T T' C E1) as P. rewrite !word_occ by (first [apply C|apply CU|tauto]).
    assert (O : forall a, occ a (i :: flat_map snd T') = occ a ((i + 1) :: flat_map snd T)) by (intro a; unfold occ; rewrite (proj1 (Permutation_count_occ Z.eq_dec _ _) P a); reflexivity). pose proof (O i) as O1. pose proof (O (i + 1)) as O2. unfold occ in *. cbn [count_occ] in O1, O2. destruct (Z.eq_dec i i); [|tauto]. destruct (Z.eq_dec (i + 1) i); [lia|]. destruct (Z.eq_dec i (i + 1)); [lia|]. destruct (Z.eq_dec (i + 1) (i + 1)); [|tauto]. lia.
  Qed.
  Lemma e_eps : forall D T, crystalline D T -> match e_setvalued i T with Ok (Some T') => eps T = eps T' + 1 /\ crystalline D T' | Ok None => eps T = 0 | Err _ => False end.
  Proof.
    intros D T C. destruct (e_core D T C) as [[E1 CL]|(T' & x & y & E1 & CU & M & H1 & H2 & HC)]; rewrite E1; [unfold eps; rewrite (hmax_right i _ CL); lia|]. split; [|exact CU]. pose proof (e_then_f D T T' C E1) as F. pose proof (f_phi D T' CU) as K. rewrite F in K. destruct K as (_ & K & _). exact K.
  Qed.
End Ops.

(* repeated application *)
Fixpoint iterate (op : tab -> res (option tab)) (k : nat) (T : tab) : res (option tab) :=
  match k with
  | O => Ok (Some T)
  | S k => do r <- op T; match r with None => Ok None | Some T' => iterate op k T' end
  end.
Lemma f_chain : forall i D n T, crystalline D T -> phi i T = Z.of_nat n -> exists U, iterate (f_setvalued i) n T = Ok (Some U) /\ f_setvalued i U = Ok None.
Proof.
  intros i D. induction n as [|n IH]; intros T C P; pose proof (f_phi i D T C) as K; cbn [iterate]; destruct (f_setvalued i T) as [[T'|]|e] eqn:E; try contradiction.
  - destruct K as (K & _). pose proof (phi_eps_nonneg i T'). lia.
  - exists T. tauto.
  - destruct K as (K & _ & C'). cbn [rbind]. apply IH; [exact C'|lia].
  - lia.
Qed.
Lemma e_chain : forall i D n T, crystalline D T -> eps i T = Z.of_nat n -> exists U, iterate (e_setvalued i) n T = Ok (Some U) /\ e_setvalued i U = Ok None.
Proof.
  intros i D. induction n as [|n IH]; intros T C P; pose proof (e_eps i D T C) as K; cbn [iterate]; destruct (e_setvalued i T) as [[T'|]|e] eqn:E; try contradiction.
  - destruct K as (K & _). pose proof (phi_eps_nonneg i T'). lia.
  - exists T. tauto.
  - destruct K as (K & C'). cbn [rbind]. apply IH; [exact C'|lia].
  - lia.
Qed.

(* semistandard fillings *)
Lemma filling_crystalline : forall sv n lam mu T, partition lam -> partition mu -> semistandard_filling cell (fun _ _ => False) sv n lam mu T -> crystalline (in_skew cell mu lam) T.
Proof.
  intros sv n lam mu T Hl Hm (W & Dm & N & L & R & C).
  assert (POS : forall x y v, holds T x y v -> 0 < v) by (intros x y v K; destruct (L x y v K) as [B Q]; destruct (Z_lt_ge_dec v 0); [exfalso; apply Q; assumption|lia]).
  split; [split; [exact W|intros [x y] l K; destruct (N x y l K) as (? & ? & _); tauto]|]. split.
  - intros x y v (l & A & _). apply Dm. exists l. exact A.
  - intros x y K. apply Dm in K. destruct K as (l & K). destruct (N x y l K) as (Q & _). destruct l as [|v l]; [tauto|]. exists v, (v :: l). split; [exact K|left; reflexivity].
  - intros x y v u K M. specialize (R x y v u K M). pose proof (POS _ _ _ K). pose proof (POS _ _ _ M). unfold row_ok in R. lia.
  - intros x y v u K M. specialize (C x y v u K M). pose proof (POS _ _ _ K). pose proof (POS _ _ _ M). unfold column_ok in C. lia.
  - assert (MONO : forall p a b, partition p -> (a <= b)%nat -> row p b <= row p a) by (intros p a b Hp; apply L_Partitions.row_decr; apply Hp).
    intros x x' y k [A1 A2] [B1 B2] K. unfold in_skew, cell in *. pose proof (MONO mu (Z.to_nat (k - 1)) (Z.to_nat (x' - 1)) Hm ltac:(lia)). pose proof (MONO lam (Z.to_nat (x - 1)) (Z.to_nat (k - 1)) Hl ltac:(lia)). split; [lia|]. intro Q. apply A2. lia.
  - assert (MONO : forall p a b, partition p -> (a <= b)%nat -> row p b <= row p a) by (intros p a b Hp; apply L_Partitions.row_decr; apply Hp).
    intros x y [A1 A2] [B1 B2]. unfold in_skew, cell in *. replace (Z.to_nat (x + 1 - 1)) with (Z.to_nat x) in * by lia. pose proof (MONO mu (Z.to_nat (x - 1)) (Z.to_nat x) Hm ltac:(lia)). pose proof (MONO lam (Z.to_nat (x - 1)) (Z.to_nat x) Hl ltac:(lia)). split; (split; [lia|intro Q; lia]).
Qed.
Lemma crystalline_filling : forall (sv : bool) n lam mu T, crystalline (in_skew cell mu lam) T -> (forall x y v, holds T x y v -> 1 <= v <= n) -> (sv = false -> forall x y v u, holds T x y v -> holds T x y u -> v = u) ->
  semistandard_filling cell (fun _ _ => False) sv n lam mu T.
Proof.
  intros sv n lam mu T [[W N] S] L SV. split; [exact W|]. split; [|split; [|split; [|split]]].
  - intros x y. split.
    + intros (l & K). destruct (N _ _ K) as (Q & _). destruct l as [|v l]; [tauto|]. apply (ssv_cell _ _ S x y v). exists (v :: l). split; [exact K|left; reflexivity].
    + intro K. destruct (ssv_full _ _ S x y K) as (v & l & A & _). exists l. exact A.
  - intros x y l K. destruct (N _ _ K) as (Q1 & Q2). split; [exact Q1|]. split; [exact Q2|]. intro E. destruct l as [|v [|u l]]; [tauto|reflexivity|exfalso]. assert (v = u) by (apply (SV E x y); [exists (v :: u :: l); split; [exact K|left; reflexivity]|exists (v :: u :: l); split; [exact K|right; left; reflexivity]]). subst u. inversion Q2 as [|? ? Q3 _]; subst. apply Q3. left. reflexivity.
  - intros x y v K. specialize (L x y v K). split; [lia|lia].
  - intros x y v u K M. pose proof (L _ _ _ K). pose proof (L _ _ _ M). pose proof (ssv_row _ _ S _ _ _ _ K M). unfold row_ok. lia.
  - intros x y v u K M. pose proof (L _ _ _ K). pose proof (L _ _ _ M). pose proof (ssv_col _ _ S _ _ _ _ K M). unfold column_ok. lia.
Qed.
Lemma filling_single : forall sv n lam mu T, semistandard_filling cell (fun _ _ => False) sv n lam mu T -> sv = false -> forall x y v u, holds T x y v -> holds T x y u -> v = u.
Proof.
  intros sv n lam mu T (W & _ & N & _) E x y v u (l & A & B) (m & A' & B'). assert (l = m). { apply (In_tlookup T) in A; [|apply W]. apply (In_tlookup T) in A'; [|apply W]. congruence. } subst m. destruct (N _ _ _ A) as (_ & _ & Q). specialize (Q E). destruct l as [|a [|b l]]; [destruct B|cbn in *; intuition congruence|discriminate Q].
Qed.
Lemma filling_letters : forall sv n lam mu T, semistandard_filling cell (fun _ _ => False) sv n lam mu T -> forall x y v, holds T x y v -> 1 <= v <= n.
Proof. intros sv n lam mu T (_ & _ & _ & L & _) x y v K. destruct (L x y v K) as [B Q]. destruct (Z_lt_ge_dec v 0); [exfalso; apply Q; assumption|lia]. Qed.
