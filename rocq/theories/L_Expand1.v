(* One step of _expansion: leading coefficients in powers of beta, and the choice of the term *)
From Coq Require Import List ZArith Lia Bool Permutation.
From Verif Require Import PyBase FinSum M_Partitions M_Vectors L_Vectors M_Polynomials L_Polynomials L_PolySubst M_Tableaux M_Semistandard M_Symmetric M_Expansion L_Count L_CountCache L_Destand2 L_SymPoly L_Num.
Import ListNotations.
Local Open Scope Z_scope.

(* only powers of beta occur in x *)
Definition spure (x : num) : Prop := forall G, (forall k, G (mvar 0 k) = 0) -> nev x G = 0.

Lemma mvar_mul : forall j k, mmul (mvar 0 j) (mvar 0 k) = mvar 0 (j + k).
Proof. intros j k. apply mwf_ext; [apply mmul_wf|apply mvar_wf|]. intro t. rewrite mget_mmul, !mget_mvar. destruct (0 =? t); lia. Qed.
Lemma mvar_inj : forall j k, mvar 0 j = mvar 0 k -> j = k.
Proof. intros j k E. apply (f_equal (fun m => mget m 0)) in E. rewrite !mget_mvar in E. cbn in E. exact E. Qed.
Lemma mdegree_mvar : forall k, mdegree (mvar 0 k) = k.
Proof. intro k. unfold mvar. destruct (k =? 0) eqn:E; [apply Z.eqb_eq in E; subst; reflexivity|]. cbn. lia. Qed.

Lemma spure_NI : forall z, spure (NI z).
Proof. intros z G H. cbn [nev]. change (@nil (Z * Z)) with (mvar 0 0). rewrite H. lia. Qed.
Lemma spure_mul : forall x y, nok x -> nok y -> spure x -> spure y -> spure (nmul x y).
Proof.
  intros x y Ox Oy Px Py G H. rewrite nev_mul by assumption. apply Px. intro j. apply Py. intro k. rewrite mvar_mul. apply H.
Qed.
Lemma spure_eqv : forall x y, neqv x y -> spure x -> spure y.
Proof. intros x y E P G H. rewrite <- (E G). apply P. assumption. Qed.
Lemma spure_beta : forall k c, spure (NP [(mvar 0 k, c)]).
Proof. intros k c G H. cbn [nev]. rewrite ev_cons, H. change (ev [] G) with 0. lia. Qed.
Lemma spure_keys : forall p m, pwf p -> spure (NP p) -> In m (map fst p) -> exists k, m = mvar 0 k.
Proof.
  intros p m W P H. destruct (meqb m (mvar 0 (mget m 0))) eqn:E; [exists (mget m 0); apply meqb_spec; assumption|]. exfalso.
  assert (X : ev p (fun k => ind (meqb k m)) = 0).
  { apply P. intro k. destruct (meqb (mvar 0 k) m) eqn:Ek; [|reflexivity]. apply meqb_spec in Ek. subst m. rewrite mget_mvar in E. cbn [Z.eqb] in E. rewrite meqb_refl in E. discriminate. }
  rewrite <- ev_get in X by apply W. apply in_map_iff in H. destruct H as ([a c] & <- & H). cbn [fst] in X. rewrite (pget_In p a c) in X; [|apply W|assumption]. destruct W as (_ & _ & F). rewrite Forall_forall in F. apply (F _ H). exact X.
Qed.

Lemma beta_pow_mvar : forall k, beta_pow k = [(mvar 0 k, 1)].
Proof.
  intro k. unfold beta_pow, ppow, beta. change (pmonomial 0 1) with [([(0, 1)] : mono, 1)]. destruct (k =? 0) eqn:E0; [apply Z.eqb_eq in E0; subst; reflexivity|]. apply Z.eqb_neq in E0.
  destruct (k <? 0) eqn:E1.
  - cbn [Z.abs]. change (1 <? 1) with false. cbn [map fst snd]. unfold mvar. replace (k =? 0) with false by (symmetry; apply Z.eqb_neq; assumption). replace (1 * k) with k by lia. reflexivity.
  - apply Z.ltb_ge in E1. assert (W : mwf [(0, 1)]) by (apply (mvar_wf 0 1)). destruct (ppow_nat_single [(0, 1)] (Z.to_nat k) W) as (b & Wb & E & H). etransitivity; [exact E|]. f_equal. f_equal.
    apply mwf_ext; [assumption|apply mvar_wf|]. intro t. rewrite H, mget_mvar, Z2Nat.id by lia. rewrite mget_cons. destruct (0 =? t); [lia|]. change (mget [] t) with 0. lia.
Qed.

Lemma total_degree_max : forall (p : poly) d, fold_left (fun (ans : option Z) (iv : mono * Z) => let d := mdegree (fst iv) in match ans with None => Some d | Some a => Some (Z.max a d) end) p (Some d) = Some (fold_left (fun a (iv : mono * Z) => Z.max a (mdegree (fst iv))) p d).
Proof. induction p as [|iv p IH]; intro d; [reflexivity|]. cbn [fold_left]. apply IH. Qed.
Lemma fold_max_in : forall (p : poly) d, let m := fold_left (fun a (iv : mono * Z) => Z.max a (mdegree (fst iv))) p d in (m = d \/ In m (map (fun iv => mdegree (fst iv)) p)).
Proof.
  induction p as [|iv p IH]; intro d; cbn [fold_left map]; [left; reflexivity|]. destruct (IH (Z.max d (mdegree (fst iv)))) as [H|H].
  - cbv zeta in H. rewrite H. destruct (Z.max_spec d (mdegree (fst iv))) as [[_ E]|[_ E]]; rewrite E; [right; left; reflexivity|left; reflexivity].
  - right. right. assumption.
Qed.
Lemma total_degree_in : forall p, p <> [] -> exists iv, In iv p /\ ptotal_degree p = Some (mdegree (fst iv)).
Proof.
  intros [|a p] H; [congruence|]. unfold ptotal_degree. cbn [fold_left]. cbv zeta. rewrite total_degree_max. destruct (fold_max_in p (mdegree (fst a))) as [E|E]; cbv zeta in E.
  - exists a. split; [left; reflexivity|]. rewrite E. reflexivity.
  - apply in_map_iff in E. destruct E as (iv & E & Hiv). exists iv. split; [right; assumption|]. rewrite E. reflexivity.
Qed.

(* a polynomial equal to a nonzero int *)
Lemma poly_int : forall p z, pwf p -> neqv (NP p) (NI z) -> z <> 0 -> p = [([], z)].
Proof.
  intros p z (N & Fm & Fz) E Hz.
  assert (G : forall m, pget p m = if meqb [] m then z else 0).
  { intro m. rewrite ev_get by assumption. etransitivity; [exact (E (fun k => ind (meqb k m)))|]. cbn [nev]. destruct (meqb [] m); cbn; lia. }
  destruct p as [|[m c] p]; [exfalso; specialize (G []); cbn in G; lia|].
  assert (Em : m = [] /\ c = z).
  { pose proof (G m) as X. rewrite (pget_In ((m, c) :: p) m c N (or_introl eq_refl)) in X. inversion Fz as [|? ? F1 F2]; subst. cbn [snd] in F1. destruct (meqb [] m) eqn:Em; [apply meqb_spec in Em; subst; split; reflexivity|]. contradiction. }
  destruct Em as [-> ->]. destruct p as [|[m' c'] p]; [reflexivity|]. exfalso. cbn [map fst] in N. inversion N as [|? ? N1 N2]; subst.
  inversion Fz as [|? ? _ F2]; subst. inversion F2 as [|? ? F3 _]; subst. cbn [snd] in F3.
  assert (X : (if meqb [] m' then z else 0) = c').
  { etransitivity; [symmetry; exact (G m')|]. apply pget_In; [cbn [map fst]; constructor; assumption|right; left; reflexivity]. }
  destruct (meqb [] m') eqn:Em; [apply meqb_spec in Em; subst; apply N1; left; reflexivity|]. lia.
Qed.

Lemma leading_ok : forall x, nok x -> nzero x = false -> spure x -> exists c k z, leading x = Ok (c, k) /\ (c = NI z \/ c = NP [([], z)]) /\ z <> 0 /\ z = nev x (fun m => ind (meqb m (mvar 0 k))).
Proof.
  intros [z|p] O Z0 P.
  - exists (NI z), 0, z. cbn [nzero] in Z0. apply Z.eqb_neq in Z0. split; [reflexivity|]. split; [left; reflexivity|]. split; [assumption|]. cbn. lia.
  - cbn [nok nzero] in *. assert (Ne : p <> []) by (intros ->; discriminate). destruct (total_degree_in p Ne) as ([m c] & Hin & E). cbn [fst] in E.
    destruct (spure_keys p m O P) as (k & ->); [change m with (fst (m, c)); apply in_map; assumption|]. rewrite mdegree_mvar in E.
    assert (Ec : pget p (mvar 0 k) = c) by (apply pget_In; [apply O|assumption]). assert (Nc : c <> 0) by (destruct O as (_ & _ & F); rewrite Forall_forall in F; apply (F _ Hin)).
    exists (NP (pcoefficient p 0 k)), k, c. cbn [leading]. rewrite E. split; [reflexivity|]. split; [|split; [assumption|cbn [nev]; rewrite <- ev_get by apply O; symmetry; exact Ec]].
    right. f_equal. assert (W : pwf (pcoefficient p 0 k)) by (apply (pcoefficient_get p 0 k [] O); split; constructor). apply poly_int; [assumption| |assumption].
    intro G. cbn [nev]. rewrite (ev_wf_ext _ G (fun m => G [] * ind (meqb m []) + (if meqb m [] then 0 else G m))); [|assumption|].
    + change (nev (NP (pcoefficient p 0 k)) (fun m => G [] * ind (meqb m []) + (if meqb m [] then 0 else G m)) = c * G []). rewrite nev_plus, nev_scale. cbn [nev]. rewrite <- ev_get by apply W.
      destruct (pcoefficient_get p 0 k [] O) as [_ H0]; [split; constructor|]. change (mget [] 0) with 0 in H0. cbn [Z.eqb] in H0. rewrite mmul_nil_l in H0 by apply mvar_wf. rewrite H0, Ec.
      rewrite (ev_peq (pcoefficient p 0 k) [([], c)]); [rewrite ev_cons; cbn [meqb]; change (ev [] _) with 0; lia|apply W|repeat constructor; intros []|].
      intro m. destruct (meqb [] m) eqn:Em.
      * apply meqb_spec in Em. subst m. rewrite H0, Ec. reflexivity.
      * replace (pget [([], c)] m) with 0 by (unfold pget, dget0; cbn [dget]; rewrite Em; reflexivity). destruct (in_dec (fun a b => match Bool.bool_dec (meqb a b) true with left e => left (proj1 (meqb_spec a b) e) | right e => right (fun q => e (proj2 (meqb_spec a b) q)) end) m (map fst (pcoefficient p 0 k))) as [I|I]; [|apply pget_notin; assumption].
        assert (Wm : mwf m) by (eapply pwf_key; eassumption). destruct (pcoefficient_get p 0 k m O Wm) as [_ ->]. destruct (mget m 0 =? 0) eqn:E0; [|reflexivity]. apply Z.eqb_eq in E0.
        apply pget_notin. intro X. destruct (spure_keys p _ O P X) as (j & Ej). assert (m = []); [|subst; discriminate]. apply mwf_ext; [assumption|split; constructor|]. intro t. change (mget [] t) with 0.
        apply (f_equal (fun a => mget a t)) in Ej as Et. rewrite mget_mmul, !mget_mvar in Et. destruct (0 =? t) eqn:E1; [apply Z.eqb_eq in E1; subst; assumption|]. lia.
    + intros m Wm. destruct (meqb m []) eqn:Em; [apply meqb_spec in Em; subst|]; cbn; lia.
Qed.
Lemma divisor_ok : forall x d, nok x -> neqv x (NI d) -> divisor x = Ok d.
Proof.
  intros [z|p] d O E; cbn [divisor nok] in *.
  - specialize (E (fun _ => 1)). cbn in E. f_equal. lia.
  - assert (Ec : pconstant_term p = d). { unfold pconstant_term. rewrite ev_get by apply O. etransitivity; [exact (E (fun k => ind (meqb k [])))|]. cbn. lia. }
    unfold pis_integer. rewrite Ec. replace (peqb p (pmul (pconst d) (pmonomial 0 0))) with true; [reflexivity|]. symmetry. apply peqb_spec; [assumption|apply pmul_wf|].
    apply peq_ev; [apply O|apply pmul_wf|]. intro G. etransitivity; [exact (E G)|]. cbn [nev]. rewrite ev_pmul by (try apply pconst_nodup; repeat constructor; intros []). rewrite ev_const. change (pmonomial 0 0) with [([] : mono, 1)]. rewrite ev_single. reflexivity.
Qed.
Lemma quotient_ok : forall c z d q k, (c = NI z \/ c = NP [([], z)]) -> z <> 0 -> d <> 0 -> z = q * d -> exists r, quotient c d k = Ok r /\ pwf r /\ forall G, ev r G = q * G (mvar 0 k).
Proof.
  intros c z d q k Hc Hz Hd ->. assert (Hq : q <> 0) by (intros ->; lia). assert (Em : (q * d) mod d = 0) by (apply Z_mod_mult). assert (Eq : q * d / d = q) by (apply Z_div_mult_full; assumption).
  assert (Nb : NoDup (map fst (beta_pow k))) by (rewrite beta_pow_mvar; repeat constructor; intros []).
  destruct Hc as [->| ->]; unfold quotient.
  - replace (d =? 0) with false by (symmetry; apply Z.eqb_neq; assumption). rewrite Em, Eq. cbn [Z.eqb]. eexists. split; [reflexivity|]. split; [apply pmul_wf|]. intro G.
    rewrite ev_pmul by (try apply pconst_nodup; assumption). rewrite beta_pow_mvar, ev_single, ev_const. rewrite mmul_nil_r by apply mvar_wf. reflexivity.
  - replace (d =? 0) with false by (symmetry; apply Z.eqb_neq; assumption). cbn [andb]. unfold pmod. cbn [map filter fst snd]. rewrite Em. cbn [Z.eqb negb filter]. change (nzero (nsub (NP []) (NI 0))) with true. cbv iota.
    unfold pfloordiv. cbn [map filter fst snd]. rewrite Eq. replace (q =? 0) with false by (symmetry; apply Z.eqb_neq; assumption). cbn [negb]. eexists. split; [reflexivity|]. split; [apply pmul_wf|]. intro G.
    rewrite ev_pmul by (try assumption; repeat constructor; intros []). rewrite beta_pow_mvar, ev_cons, ev_single. change (ev [] _) with 0. rewrite mmul_nil_l by apply mvar_wf. lia.
Qed.

(* support of a coefficient *)
Definition nsupp (x : num) : list mono := match x with NI z => if z =? 0 then [] else [[]] | NP p => map fst p end.
Lemma nsupp_spec : forall x, nok x -> NoDup (nsupp x) /\ forall m, In m (nsupp x) <-> nev x (fun k => ind (meqb k m)) <> 0.
Proof.
  intros [z|p] O; cbn [nsupp nev nok] in *.
  - destruct (z =? 0) eqn:E; [apply Z.eqb_eq in E|apply Z.eqb_neq in E].
    + split; [constructor|]. intro m. split; [intros []|]. subst. lia.
    + split; [repeat constructor; intros []|]. intro m. destruct (meqb [] m) eqn:Em.
      * apply meqb_spec in Em. subst m. cbn. split; [intros _; lia|intros _; left; reflexivity].
      * cbn [ind]. split; [intros [<-|[]]; discriminate|]. lia.
  - split; [apply O|]. intro m. rewrite <- ev_get by apply O. split.
    + intro H. apply in_map_iff in H. destruct H as ([a c] & <- & H). cbn [fst]. rewrite (pget_In p a c) by (try apply O; assumption). destruct O as (_ & _ & F). rewrite Forall_forall in F. apply (F _ H).
    + intro H. destruct (in_dec (fun a b => match Bool.bool_dec (meqb a b) true with left e => left (proj1 (meqb_spec a b) e) | right e => right (fun q => e (proj2 (meqb_spec a b) q)) end) m (map fst p)) as [C|C]; [assumption|]. exfalso. apply H. apply pget_notin. assumption.
Qed.
Lemma nsupp_less : forall x y m z, nok x -> nok y -> z <> 0 -> z = nev x (fun k => ind (meqb k m)) -> (forall G, nev y G = nev x G - z * G m) -> (length (nsupp y) < length (nsupp x))%nat.
Proof.
  intros x y m z Ox Oy Hz Ez E. destruct (nsupp_spec x Ox) as [Nx Sx]. destruct (nsupp_spec y Oy) as [Ny Sy].
  change (S (length (nsupp y)) <= length (nsupp x))%nat. change (S (length (nsupp y))) with (length (m :: nsupp y)). apply NoDup_incl_length.
  - constructor; [|assumption]. rewrite Sy, E, meqb_refl. cbn [ind]. lia.
  - intros a [<-|Ha]; [apply Sx; lia|]. apply Sx. apply Sy in Ha. rewrite E in Ha. destruct (meqb m a) eqn:Ea.
    + apply meqb_spec in Ea. subst a. lia.
    + cbn [ind] in Ha. lia.
Qed.

(* the order in which the terms are processed *)
Definition after (hi : bool) (p q : list Z) : Prop := (if hi then zsum q < zsum p else zsum p < zsum q) \/ (zsum p = zsum q /\ lex_ltb q p = true).
Definition afterb (hi : bool) (p q : list Z) : bool := (if hi then zsum q <? zsum p else zsum p <? zsum q) || ((zsum p =? zsum q) && lex_ltb q p).
Definition term (hi : bool) : nsym -> res smono := if hi then term_from_highest_degree else term_from_lowest_degree.
Lemma afterb_spec : forall hi p q, afterb hi p q = true <-> after hi p q.
Proof. intros hi p q. unfold afterb, after. destruct hi; rewrite orb_true_iff, andb_true_iff, Z.ltb_lt, Z.eqb_eq; reflexivity. Qed.
Lemma lex_irrefl : forall a, lex_ltb a a = false.
Proof. induction a as [|x a IH]; [reflexivity|]. cbn [lex_ltb]. rewrite Z.ltb_irrefl, Z.eqb_refl, IH. reflexivity. Qed.
Lemma lex_trans : forall a b c, lex_ltb a b = true -> lex_ltb b c = true -> lex_ltb a c = true.
Proof.
  induction a as [|x a IH]; intros [|y b] [|z c] H1 H2; try discriminate; try reflexivity. cbn [lex_ltb] in *.
  apply orb_true_iff in H1. apply orb_true_iff in H2. apply orb_true_iff. rewrite !andb_true_iff in *. rewrite !Z.ltb_lt, !Z.eqb_eq in *.
  destruct H1 as [H1|[H1 H1']]; destruct H2 as [H2|[H2 H2']]; try (left; lia). right. split; [lia|]. eapply IH; eassumption.
Qed.
Lemma lex_total : forall a b, a = b \/ lex_ltb a b = true \/ lex_ltb b a = true.
Proof.
  induction a as [|x a IH]; intros [|y b]; [left; reflexivity|right; left; reflexivity|right; right; reflexivity|]. cbn [lex_ltb]. destruct (Z.lt_trichotomy x y) as [H|[H|H]].
  - right. left. apply orb_true_iff. left. apply Z.ltb_lt. assumption.
  - subst y. rewrite Z.ltb_irrefl, Z.eqb_refl. destruct (IH b) as [->|[H|H]]; [left; reflexivity|right; left; assumption|right; right; assumption].
  - right. right. apply orb_true_iff. left. apply Z.ltb_lt. assumption.
Qed.
Lemma after_irrefl : forall hi p, ~ after hi p p.
Proof. intros hi p [H|[_ H]]; [destruct hi; lia|]. rewrite lex_irrefl in H. discriminate. Qed.
Lemma after_trans : forall hi p q r, after hi p q -> after hi q r -> after hi p r.
Proof. intros hi p q r [H|[H H']] [G|[G G']]; unfold after; try (left; destruct hi; lia). right. split; [lia|]. eapply lex_trans; eassumption. Qed.
Lemma after_total : forall hi p q, p = q \/ after hi p q \/ after hi q p.
Proof.
  intros hi p q. unfold after. destruct (Z.lt_trichotomy (zsum p) (zsum q)) as [H|[H|H]]; [destruct hi; [right; right; left; assumption|right; left; left; assumption]| |destruct hi; [right; left; left; assumption|right; right; left; assumption]].
  destruct (lex_total p q) as [E|[E|E]]; [left; assumption|right; right; right; split; [lia|assumption]|right; left; right; split; [lia|assumption]].
Qed.
Lemma first_exists : forall hi (l : list (list Z)), l <> [] -> exists p, In p l /\ forall q, In q l -> q = p \/ after hi p q.
Proof.
  intro hi.
  induction l as [|a l IH]; intro H; [congruence|]. destruct l as [|b l].
  - exists a. split; [left; reflexivity|]. intros q [<-|[]]. left. reflexivity.
  - destruct IH as (p & Hp & Hq); [discriminate|]. destruct (after_total hi a p) as [E|[E|E]].
    + subst a. exists p. split; [right; assumption|]. intros q [<-|Hi]; [left; reflexivity|apply Hq; assumption].
    + exists a. split; [left; reflexivity|]. intros q [<-|Hi]; [left; reflexivity|]. right. destruct (Hq q Hi) as [->|Hi']; [assumption|]. eapply after_trans; eassumption.
    + exists p. split; [right; assumption|]. intros q [<-|Hi]; [right; assumption|apply Hq; assumption].
Qed.

(* get_term *)
Lemma zmin_spec : forall l, l <> [] -> In (zmin l) l /\ forall x, In x l -> zmin l <= x.
Proof.
  intros [|a l] H; [congruence|]. clear H. cbn [zmin]. revert a. induction l as [|b l IH]; intro a; cbn [fold_left].
  - split; [left; reflexivity|]. intros x [<-|[]]. lia.
  - destruct (IH (Z.min a b)) as [H1 H2]. split.
    + destruct H1 as [H1|H1]; [|right; right; assumption]. rewrite <- H1. destruct (Z.min_spec a b) as [[_ E]|[_ E]]; rewrite E; [left; reflexivity|right; left; reflexivity].
    + intros x [<-|[<-|Hx]]; [|  |apply H2; right; assumption]; specialize (H2 (Z.min a b) (or_introl eq_refl)); lia.
Qed.
Lemma zmax_spec : forall l, l <> [] -> In (zmax l) l /\ forall x, In x l -> x <= zmax l.
Proof.
  intros [|a l] H; [congruence|]. clear H. cbn [zmax]. revert a. induction l as [|b l IH]; intro a; cbn [fold_left].
  - split; [left; reflexivity|]. intros x [<-|[]]. lia.
  - destruct (IH (Z.max a b)) as [H1 H2]. split.
    + destruct H1 as [H1|H1]; [|right; right; assumption]. rewrite <- H1. destruct (Z.max_spec a b) as [[_ E]|[_ E]]; rewrite E; [right; left; reflexivity|left; reflexivity].
    + intros x [<-|[<-|Hx]]; [|  |apply H2; right; assumption]; specialize (H2 (Z.max a b) (or_introl eq_refl)); lia.
Qed.
Lemma smax_spec : forall n l a, fst a = n -> (forall m, In m l -> fst m = n) ->
  exists m, rfold (fun cur m : smono => if Nat.eqb (fst cur) (fst m) then Ok (if lex_ltb (snd cur) (snd m) then m else cur) else Err AssertionError) l a = Ok m /\
    In m (a :: l) /\ forall x, In x (a :: l) -> snd x = snd m \/ lex_ltb (snd x) (snd m) = true.
Proof.
  intros n. induction l as [|b l IH]; intros a Ha Hl; cbn [rfold].
  - exists a. split; [reflexivity|]. split; [left; reflexivity|]. intros x [<-|[]]. left. reflexivity.
  - rewrite Ha, (Hl b (or_introl eq_refl)), Nat.eqb_refl. cbn [rbind]. destruct (IH (if lex_ltb (snd a) (snd b) then b else a)) as (m & E & Hm & Hx).
    + destruct (lex_ltb (snd a) (snd b)); [apply Hl; left; reflexivity|assumption].
    + intros m Hm. apply Hl. right. assumption.
    + exists m. split; [assumption|]. split.
      * destruct Hm as [Hm|Hm]; [|right; right; assumption]. subst m. destruct (lex_ltb (snd a) (snd b)); [right; left; reflexivity|left; reflexivity].
      * assert (Hc := Hx _ (or_introl eq_refl)). destruct (lex_ltb (snd a) (snd b)) eqn:El.
        -- intros x [<-|[<-|H]]; [|assumption|apply Hx; right; assumption]. right. destruct Hc as [Hc|Hc]; [rewrite <- Hc; assumption|eapply lex_trans; eassumption].
        -- intros x [<-|[<-|H]]; [assumption| |apply Hx; right; assumption]. destruct (lex_total (snd b) (snd a)) as [Eb|[Eb|Eb]].
           ++ rewrite Eb. assumption.
           ++ right. destruct Hc as [Hc|Hc]; [rewrite <- Hc; assumption|eapply lex_trans; eassumption].
           ++ congruence.
Qed.
Lemma get_term_ok : forall hi n (f : nsym), nvwf f -> f <> [] -> (forall m, In m (map fst f) -> fst m = n) ->
  exists p, term hi f = Ok (n, p) /\ In (n, p) (map fst f) /\ forall q, In (n, q) (map fst f) -> q = p \/ after hi p q.
Proof.
  intros hi n f [N F] Ne Hn. set (d := (if hi then zmax else zmin) (map (fun mc : smono * num => sdegree (fst mc)) f)).
  assert (M : In d (map (fun mc : smono * num => sdegree (fst mc)) f) /\ forall x, In x (map (fun mc : smono * num => sdegree (fst mc)) f) -> if hi then x <= d else d <= x).
  { unfold d. destruct hi; [apply zmax_spec|apply zmin_spec]; intro E; apply map_eq_nil in E; contradiction. }
  destruct M as [M1 M2]. assert (Et : term hi f = smax (vmake nzero (filter (fun mc : smono * num => sdegree (fst mc) =? d) f))) by (unfold d; destruct hi; reflexivity). rewrite Et. clear Et.
  set (l := filter (fun mc : smono * num => sdegree (fst mc) =? d) f).
  assert (El : vmake nzero l = l).
  { unfold vmake. assert (A : forall kx, In kx l -> nzero (snd kx) = false) by (intros kx H; apply filter_In in H; rewrite Forall_forall in F; apply (F kx); apply H). clear -A. induction l as [|a l IH]; [reflexivity|]. cbn [filter]. rewrite (A a (or_introl eq_refl)). cbn [negb]. f_equal. apply IH. intros; apply A; right; assumption. }
  rewrite El. unfold smax.
  assert (Hl : forall m, In m (map fst l) <-> In m (map fst f) /\ sdegree m = d).
  { intro m. rewrite !in_map_iff. split.
    - intros (x & <- & Hx). apply filter_In in Hx. destruct Hx as [Hx E]. apply Z.eqb_eq in E. split; [exists x; split; [reflexivity|assumption]|assumption].
    - intros [(x & <- & Hx) E]. exists x. split; [reflexivity|]. apply filter_In. split; [assumption|]. apply Z.eqb_eq. assumption. }
  assert (Nl : map fst l <> []).
  { apply in_map_iff in M1. destruct M1 as (x & E & Hx). intro X. assert (I : In (fst x) (map fst l)) by (apply Hl; split; [apply in_map; assumption|assumption]). rewrite X in I. destruct I. }
  destruct (map fst l) as [|a r] eqn:Er; [congruence|].
  destruct (smax_spec n r a) as (m & E & Hm & Hx).
  - apply Hn. apply (proj1 (Hl a)). left. reflexivity.
  - intros m Hm. apply Hn. apply (proj1 (Hl m)). right. assumption.
  - exists (snd m). assert (Hk := proj1 (Hl m) Hm). destruct Hk as [Hk Hd]. assert (En : m = (n, snd m)) by (destruct m as [n' mu]; cbn; f_equal; apply (Hn _ Hk)). split; [rewrite <- En; exact E|]. split; [rewrite <- En; assumption|].
    intros q Hq. assert (Hd' : if hi then zsum q <= d else d <= zsum q). { apply M2. apply in_map_iff in Hq. destruct Hq as (x & Ex & Hx'). apply in_map_iff. exists x. split; [rewrite Ex; reflexivity|assumption]. }
    unfold after. unfold sdegree in Hd. destruct (Z.eq_dec (zsum q) d) as [Eq|Nq]; [|right; left; destruct hi; lia]. destruct (Hx (n, q)) as [X|X].
    + apply Hl. split; [assumption|exact Eq].
    + left. exact X.
    + right. right. split; [lia|exact X].
Qed.
