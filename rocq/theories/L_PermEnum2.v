(* involutions: the deltas and the matchings they describe *)
From Coq Require Import List ZArith Lia Bool Permutation Arith.
From Verif Require Import PyBase M_Partitions M_Symmetric M_Perm S_Perm L_Perm L_PermLen L_PermWord L_PermMisc S_Bruhat M_Bruhat L_Bruhat L_Bruhat2 M_PermEnum L_PermEnum1.
Import ListNotations.
Local Open Scope Z_scope.

Lemma transposition_any : forall a b, 1 <= a -> 1 <= b -> a <> b -> exists t, transposition a b = Ok t /\ canonical t /\ forall x, pcall t x = refl a b x.
Proof.
  intros a b Ha Hb N. destruct (Z_lt_ge_dec a b) as [L|L].
  - exists (trp a b). split; [apply transposition_ok; lia|]. split; [apply trp_canonical; lia|]. intro x. apply trp_call. lia.
  - exists (trp b a). assert (R : 1 <= b < a) by lia. split.
    + rewrite <- (transposition_ok b a R). unfold transposition. destruct (Z.ltb_spec b a); [|lia]. destruct (Z.ltb_spec a b); [lia|]. reflexivity.
    + split; [apply trp_canonical; lia|]. intro x. rewrite trp_call by lia. apply refl_sym.
Qed.

(* the matchings with support S *)
Definition supp_inv (S : list Z) (w : list Z) : Prop :=
  canonical w /\ involution_map (pcall w) /\ forall x, 0 < x -> (pcall w x <> x <-> In x S).
(* 1 <= d_i <= 2 (m - i) - 1 *)
Fixpoint inbox (delta : list Z) : Prop :=
  match delta with [] => True | d :: r => 1 <= d <= 2 * zlen r + 1 /\ inbox r end.

Lemma split_first : forall (S : list Z) d, 1 <= d < zlen S ->
  exists a p b q, S = a :: p ++ b :: q /\ zlen p = d - 1 /\ py_get S 0 = Ok a /\ py_get S d = Ok b /\ skipn 1 (firstn (Z.to_nat d) S) ++ skipn (Z.to_nat d + 1) S = p ++ q.
Proof.
  intros S d H. destruct S as [|a S]; [change (zlen []) with 0 in H; lia|]. rewrite zlen_cons in H.
  destruct (nth_error S (Z.to_nat (d - 1))) as [b|] eqn:E; [|apply nth_error_None in E; unfold zlen in H; lia]. destruct (nth_error_split S _ E) as (p & q & -> & Lp).
  exists a, p, b, q. assert (Dp : Z.to_nat d = Datatypes.S (length p)) by lia. split; [reflexivity|]. split; [unfold zlen; lia|].
  assert (G : forall i, 0 <= i < zlen (a :: p ++ b :: q) -> py_index (a :: p ++ b :: q) i = Ok (Z.to_nat i)).
  { intros i Hi. unfold py_index. repeat match goal with |- context [?x <=? ?y] => destruct (Z.leb_spec x y) | |- context [?x <? ?y] => destruct (Z.ltb_spec x y) end; cbn [andb orb]; try lia; try reflexivity. }
  rewrite zlen_cons in G. unfold py_get. rewrite !G by lia. cbn [rbind]. rewrite Dp. split; [reflexivity|]. split; [cbn [nth]; rewrite nth_middle; reflexivity|].
  replace (Datatypes.S (length p) + 1)%nat with (Datatypes.S (Datatypes.S (length p))) by lia.
  change (skipn (Datatypes.S (Datatypes.S (length p))) (a :: p ++ b :: q)) with (skipn (Datatypes.S (length p)) (p ++ b :: q)).
  change (skipn 1 (firstn (Datatypes.S (length p)) (a :: p ++ b :: q))) with (firstn (length p) (p ++ b :: q)).
  rewrite firstn_app, firstn_all, Nat.sub_diag, skipn_app, (skipn_all2 p) by lia. replace (Datatypes.S (length p) - length p)%nat with 1%nat by lia. cbn [firstn skipn app]. rewrite app_nil_r. reflexivity.
Qed.

Lemma refl_other : forall a b x, 1 <= a -> 1 <= b -> 0 < x -> x <> a -> x <> b -> refl a b x = x.
Proof. intros a b x Ha Hb Hx N1 N2. rewrite refl_pos by assumption. destruct (Z.eqb_spec x a); [contradiction|]. destruct (Z.eqb_spec x b); [contradiction|reflexivity]. Qed.

Lemma supp_fix : forall S w x, supp_inv S w -> 0 < x -> ~ In x S -> pcall w x = x.
Proof. intros S w x (_ & _ & H) Hx N. destruct (Z.eq_dec (pcall w x) x) as [E|E]; [exact E|]. apply H in E; [contradiction|exact Hx]. Qed.
Lemma invol_inj : forall f x y, involution_map f -> f x = f y -> x = y.
Proof. intros f x y [H _] E. rewrite <- (H x), <- (H y), E. reflexivity. Qed.

(* adding the pair a, b to a matching of p ++ q *)
Lemma supp_add : forall a p b q t w, NoDup (a :: p ++ b :: q) -> Forall (fun x => 0 < x) (a :: p ++ b :: q) -> canonical t -> (forall x, pcall t x = refl a b x) ->
  supp_inv (p ++ q) w -> supp_inv (a :: p ++ b :: q) (mulp t w) /\ pcall (mulp t w) a = b.
Proof.
  intros a p b q t w N F Ht Et Hs. inversion N as [|? ? Na N']; subst. inversion F as [|? ? Fa F']; subst. pose proof (NoDup_remove_2 _ _ _ N') as Nb.
  assert (Fb : 0 < b) by (rewrite Forall_forall in F'; apply F'; apply in_app_iff; right; left; reflexivity).
  assert (Nab : a <> b) by (intros ->; apply Na; apply in_app_iff; right; left; reflexivity). assert (Na' : ~ In a (p ++ q)) by (intro I; apply Na; rewrite in_app_iff in *; cbn [In]; tauto).
  pose proof (supp_fix _ _ a Hs ltac:(lia) Na') as Ea. pose proof (supp_fix _ _ b Hs ltac:(lia) Nb) as Eb. destruct Hs as (Hw & Iw & Sw). pose proof Iw as [Iw1 Iw2].
  assert (C : forall x, pcall (mulp t w) x = refl a b (pcall w x)) by (intro x; rewrite mulp_call by auto with perm; apply Et).
  assert (Oth : forall x, 0 < x -> x <> a -> x <> b -> refl a b (pcall w x) = pcall w x).
  { intros x Hx N1 N2. apply refl_other; try lia; [apply Iw2; exact Hx| |]; intro E; [apply N1|apply N2]; apply (invol_inj (pcall w)); [exact Iw|congruence|exact Iw|congruence]. }
  assert (Ra : pcall (mulp t w) a = b) by (rewrite C, Ea; apply refl_a). assert (Rb : pcall (mulp t w) b = a) by (rewrite C, Eb, refl_sym; apply refl_a).
  assert (Ro : forall x, 0 < x -> x <> a -> x <> b -> pcall (mulp t w) x = pcall w x) by (intros; rewrite C; apply Oth; assumption).
  assert (Pos : forall x, 0 < x -> 0 < pcall (mulp t w) x).
  { intros x Hx. destruct (Z.eq_dec x a) as [->|N1]; [lia|]. destruct (Z.eq_dec x b) as [->|N2]; [lia|]. rewrite Ro by assumption. apply Iw2. exact Hx. }
  split; [|exact Ra]. split; [auto with perm|]. split; [split; [|exact Pos]|].
  - apply pos_invol; [auto with perm|]. intros x Hx. destruct (Z.eq_dec x a) as [->|N1]; [rewrite Ra; exact Rb|]. destruct (Z.eq_dec x b) as [->|N2]; [rewrite Rb; exact Ra|].
    rewrite (Ro x) by assumption. rewrite Ro; [apply Iw1|apply Iw2; exact Hx| |]; intro E; [apply N1|apply N2]; apply (invol_inj (pcall w)); [exact Iw|congruence|exact Iw|congruence].
  - intros x Hx. destruct (Z.eq_dec x a) as [->|N1]; [rewrite Ra; split; [left; reflexivity|intros _; lia]|]. destruct (Z.eq_dec x b) as [->|N2]; [rewrite Rb; split; [intros _; right; apply in_app_iff; right; left; reflexivity|intros _; lia]|].
    rewrite Ro by assumption. rewrite (Sw x Hx). cbn [In]. rewrite !in_app_iff. cbn [In]. intuition congruence.
Qed.

Lemma nodup_parts : forall (a b : Z) p q, NoDup (a :: p ++ b :: q) -> Forall (fun x => 0 < x) (a :: p ++ b :: q) -> NoDup (p ++ q) /\ Forall (fun x => 0 < x) (p ++ q) /\ a <> b /\ 0 < a /\ 0 < b.
Proof.
  intros a b p q N F. inversion N as [|? ? Na N']; subst. inversion F as [|? ? Fa F']; subst. split; [exact (NoDup_remove_1 _ _ _ N')|]. apply Forall_app in F'. destruct F' as [F1 F2]. inversion F2; subst.
  split; [apply Forall_app; split; assumption|]. split; [intros ->; apply Na; apply in_app_iff; right; left; reflexivity|]. split; assumption.
Qed.

Lemma create_ok : forall delta S, zlen S = 2 * zlen delta -> NoDup S -> Forall (fun x => 0 < x) S -> inbox delta ->
  exists v, (forall u, canonical u -> create delta S u = Ok (mulp u v)) /\ supp_inv S v.
Proof.
  induction delta as [|d delta IH]; intros S L N F B.
  - exists []. split; [|]. { intros u Hu. cbn [create]. f_equal. apply canonical_ext; [exact Hu|auto with perm|]. intro x. rewrite mulp_call by auto with perm. rewrite pcall_nil. reflexivity. }
    destruct S; [|rewrite zlen_cons in L; change (zlen (@nil Z)) with 0 in L; pose proof (zlen_nonneg _ S); lia]. split; [apply nil_canonical|]. split; [split; intros; rewrite !pcall_nil; auto|]. intros x _. rewrite pcall_nil. cbn [In]. tauto.
  - cbn [inbox] in B. destruct B as [Bd B]. rewrite zlen_cons in L. destruct (split_first S d) as (a & p & b & q & -> & Lp & Ga & Gb & R); [lia|].
    destruct (nodup_parts _ _ _ _ N F) as (N' & F' & Nab & Ha & Hb). destruct (transposition_any a b) as (t & Tt & Ct & Et); [lia|lia|exact Nab|].
    destruct (IH (p ++ q)) as (v & Cv & Sv); [rewrite !zlen_cons, !zlen_app, zlen_cons in L; rewrite zlen_app; lia|exact N'|exact F'|exact B|].
    exists (mulp t v). split; [|apply (supp_add a p b q t v N F Ct Et Sv)]. intros u Hu. cbn [create]. rewrite Ga, Gb. cbn [rbind]. rewrite Tt. cbn [rbind]. rewrite pmul_ok by auto with perm. cbn [rbind]. rewrite R.
    rewrite Cv by auto with perm. f_equal. pose proof (proj1 Sv) as Cv'. apply canonical_ext; [auto 10 with perm|auto 10 with perm|].
    intro x. rewrite !mulp_call by auto with perm. reflexivity.
Qed.
Lemma create_pid : forall delta S, zlen S = 2 * zlen delta -> NoDup S -> Forall (fun x => 0 < x) S -> inbox delta -> exists v, create delta S pid = Ok v /\ supp_inv S v.
Proof.
  intros delta S L N F B. destruct (create_ok delta S L N F B) as (v & C & Sv). exists v. split; [|exact Sv]. rewrite C by apply nil_canonical. f_equal. pose proof (proj1 Sv) as Cv. assert (C0 : canonical []) by apply nil_canonical. unfold pid. apply canonical_ext; [auto with perm|exact Cv|].
  intro x. rewrite mulp_call by auto with perm. apply pcall_nil.
Qed.
Lemma create_cons : forall d delta S v, zlen S = 2 * zlen (d :: delta) -> NoDup S -> Forall (fun x => 0 < x) S -> inbox (d :: delta) -> create (d :: delta) S pid = Ok v ->
  exists a p b q u, S = a :: p ++ b :: q /\ zlen p = d - 1 /\ pcall v a = b /\ create delta (p ++ q) pid = Ok u /\ forall x, 0 < x -> pcall u x = refl a b (pcall v x).
Proof.
  intros d delta S v L N F B E. pose proof B as [Bd B']. rewrite zlen_cons in L. destruct (split_first S d) as (a & p & b & q & -> & Lp & Ga & Gb & R); [lia|].
  destruct (nodup_parts _ _ _ _ N F) as (N' & F' & Nab & Ha & Hb). destruct (transposition_any a b) as (t & Tt & Ct & Et); [lia|lia|exact Nab|].
  destruct (create_ok delta (p ++ q)) as (u & Cu & Su); [rewrite !zlen_cons, !zlen_app, zlen_cons in L; rewrite zlen_app; lia|exact N'|exact F'|exact B'|].
  exists a, p, b, q, u. pose proof (proj1 Su) as Hu. cbn [create] in E. rewrite Ga, Gb in E. cbn [rbind] in E. rewrite Tt in E. cbn [rbind] in E. rewrite pmul_ok in E by auto with perm. cbn [rbind] in E. rewrite R in E. rewrite Cu in E by auto with perm. injection E as E.
  assert (Ev : forall x, pcall v x = refl a b (pcall u x)) by (intro x; rewrite <- E; rewrite !mulp_call by auto with perm; unfold pid; rewrite pcall_nil; apply Et).
  split; [reflexivity|]. split; [exact Lp|]. split.
  - rewrite Ev. rewrite (supp_fix _ _ a Su Ha); [apply refl_a|]. inversion N; subst. rewrite in_app_iff in *. cbn [In] in *. tauto.
  - split; [rewrite Cu by apply nil_canonical; f_equal; apply canonical_ext; [auto with perm|exact Hu|]; intro x; rewrite mulp_call by auto with perm; apply pcall_nil|].
    intros x _. rewrite Ev. symmetry. apply refl_invol; lia.
Qed.
Lemma nodup_split : forall (p q p' q' : list Z) b, NoDup (p ++ b :: q) -> p ++ b :: q = p' ++ b :: q' -> p = p' /\ q = q'.
Proof.
  induction p as [|c p IH]; intros q p' q' b N E.
  - destruct p' as [|c' p']; cbn [app] in *; [split; congruence|]. exfalso. injection E as E1 E2. inversion N as [|? ? Nb _]; subst. apply Nb. apply in_app_iff. right. left. reflexivity.
  - destruct p' as [|c' p']; cbn [app] in *; injection E as E1 E2.
    + exfalso. inversion N as [|? ? Nb _]; subst. apply Nb. apply in_app_iff. right. left. reflexivity.
    + inversion N as [|? ? _ N']; subst. destruct (IH _ _ _ _ N' E2) as [-> ->]. split; reflexivity.
Qed.
Lemma create_inj : forall delta delta' S v, zlen S = 2 * zlen delta -> zlen S = 2 * zlen delta' -> NoDup S -> Forall (fun x => 0 < x) S -> inbox delta -> inbox delta' ->
  create delta S pid = Ok v -> create delta' S pid = Ok v -> delta = delta'.
Proof.
  induction delta as [|d delta IH]; intros delta' S v L L' N F B B' E E'.
  - destruct delta' as [|d' delta']; [reflexivity|]. rewrite zlen_cons in L'. change (zlen (@nil Z)) with 0 in L. pose proof (zlen_nonneg _ delta'). lia.
  - destruct delta' as [|d' delta']; [rewrite zlen_cons in L; change (zlen (@nil Z)) with 0 in L'; pose proof (zlen_nonneg _ delta); lia|].
    destruct (create_cons d delta S v L N F B E) as (a & p & b & q & u & ES & Lp & Vb & Cu & Eu). destruct (create_cons d' delta' S v L' N F B' E') as (a' & p' & b' & q' & u' & ES' & Lp' & Vb' & Cu' & Eu').
    subst S. injection ES' as <- ES'. rewrite Vb in Vb'. subst b'.
    assert (Epq : p = p' /\ q = q').
    { inversion N as [|? ? _ N']; subst. exact (nodup_split _ _ _ _ _ N' ES'). }
    destruct Epq as [<- <-]. destruct (nodup_parts _ _ _ _ N F) as (N' & F' & Nab & Ha & Hb). cbn [inbox] in B, B'.
    rewrite !zlen_cons, !zlen_app, zlen_cons in L, L'. assert (L1 : zlen (p ++ q) = 2 * zlen delta) by (rewrite zlen_app; lia). assert (L1' : zlen (p ++ q) = 2 * zlen delta') by (rewrite zlen_app; lia).
    f_equal; [lia|]. apply (IH delta' (p ++ q) u L1 L1' N' F' (proj2 B) (proj2 B') Cu). rewrite Cu'. f_equal.
    destruct (create_pid delta (p ++ q) L1 N' F' (proj2 B)) as (u1 & C1 & S1). destruct (create_pid delta' (p ++ q) L1' N' F' (proj2 B')) as (u2 & C2 & S2). rewrite Cu in C1. rewrite Cu' in C2. injection C1 as <-. injection C2 as <-.
    apply canonical_ext; [apply S2|apply S1|]. intro x. destruct (Z_lt_ge_dec 0 x); [rewrite Eu, Eu' by assumption; reflexivity|]. destruct (Z.eq_dec x 0) as [->|]; [rewrite !pcall_zero; reflexivity|]. replace x with (- (- x)) by lia. rewrite (pcall_odd u' (- x)), (pcall_odd u (- x)). rewrite Eu, Eu' by lia. reflexivity.
Qed.
Lemma create_onto : forall m S v, length S = (2 * m)%nat -> NoDup S -> Forall (fun x => 0 < x) S -> supp_inv S v -> exists delta, length delta = m /\ inbox delta /\ create delta S pid = Ok v.
Proof.
  induction m as [|m IH]; intros S v L N F Sv.
  - exists []. split; [reflexivity|]. split; [exact I|]. cbn [create]. f_equal. destruct S; [|discriminate]. apply canonical_ext; [apply nil_canonical|apply Sv|]. intro x. unfold pid. rewrite pcall_nil.
    assert (P : forall y, 0 < y -> pcall v y = y) by (intros y Hy; apply (supp_fix [] v); [exact Sv|exact Hy|intros []]).
    destruct (Z_lt_ge_dec 0 x); [rewrite P; lia|]. destruct (Z.eq_dec x 0) as [->|]; [rewrite pcall_zero; reflexivity|]. replace x with (- (- x)) by lia. rewrite pcall_odd, P; lia.
  - destruct S as [|a S]; [discriminate|]. pose proof Sv as (Cv & Iv & Sv'). inversion F as [|? ? Ha F']; subst. inversion N as [|? ? Na N']; subst.
    assert (Mv : pcall v a <> a) by (apply Sv'; [exact Ha|left; reflexivity]). assert (Ib : In (pcall v a) S).
    { assert (I : In (pcall v a) (a :: S)) by (apply Sv'; [apply Iv; exact Ha|]; rewrite (proj1 Iv); congruence). destruct I as [I|I]; [congruence|exact I]. }
    set (b := pcall v a) in *. assert (Vb : pcall v b = a) by apply (proj1 Iv). assert (Va : pcall v a = b) by reflexivity. clearbody b. destruct (in_split b S Ib) as (p & q & ->). destruct (nodup_parts _ _ _ _ N F) as (N1 & F1 & Nab & _ & Hb).
    destruct (transposition_any a b) as (t & Tt & Ct & Et); [lia|lia|exact Nab|].
    assert (C : forall x, pcall (mulp t v) x = refl a b (pcall v x)) by (intro x; rewrite mulp_call by auto with perm; apply Et).
    assert (Ra : pcall (mulp t v) a = a) by (rewrite C, Va; apply refl_b). assert (Rb : pcall (mulp t v) b = b) by (rewrite C, Vb; apply refl_a).
    assert (Ro : forall x, 0 < x -> x <> a -> x <> b -> pcall (mulp t v) x = pcall v x).
    { intros x Hx N2 N3. rewrite C. apply refl_other; try lia; [apply Iv; exact Hx| |]; intro E; [apply N3|apply N2]; apply (invol_inj (pcall v)); [exact Iv|congruence|exact Iv|congruence]. }
    assert (Su : supp_inv (p ++ q) (mulp t v)).
    { split; [auto with perm|]. assert (Pos : forall x, 0 < x -> 0 < pcall (mulp t v) x).
      { intros x Hx. destruct (Z.eq_dec x a) as [->|N2]; [lia|]. destruct (Z.eq_dec x b) as [->|N3]; [lia|]. rewrite Ro by assumption. apply Iv. exact Hx. }
      split; [split; [|exact Pos]|].
      - apply pos_invol; [auto with perm|]. intros x Hx. destruct (Z.eq_dec x a) as [->|N2]; [rewrite Ra; exact Ra|]. destruct (Z.eq_dec x b) as [->|N3]; [rewrite Rb; exact Rb|]. rewrite (Ro x) by assumption.
        rewrite Ro; [apply Iv|apply Iv; exact Hx| |]; intro E; [apply N3|apply N2]; apply (invol_inj (pcall v)); [exact Iv|congruence|exact Iv|congruence].
      - intros x Hx. pose proof (NoDup_remove_2 _ _ _ N') as Nb. destruct (Z.eq_dec x a) as [->|N2]; [rewrite Ra; split; [congruence|]; intro I; exfalso; apply Na; rewrite in_app_iff in *; cbn [In]; tauto|].
        destruct (Z.eq_dec x b) as [->|N3]; [rewrite Rb; split; [congruence|contradiction]|]. rewrite Ro by assumption. rewrite (Sv' x Hx). cbn [In]. rewrite !in_app_iff. cbn [In]. intuition congruence. }
    destruct (IH (p ++ q) (mulp t v)) as (delta & Ld & Bd & Cd); [cbn [length] in L; rewrite app_length in *; cbn [length] in L; lia|exact N1|exact F1|exact Su|].
    exists (zlen p + 1 :: delta). pose proof (zlen_nonneg _ p). pose proof (zlen_nonneg _ q). assert (L2 : zlen p + zlen q = 2 * zlen delta) by (cbn [length] in L; rewrite app_length in L; cbn [length] in L; unfold zlen in *; lia).
    assert (B : inbox (zlen p + 1 :: delta)) by (split; [lia|exact Bd]). assert (L3 : zlen (a :: p ++ b :: q) = 2 * zlen (zlen p + 1 :: delta)) by (rewrite !zlen_cons, zlen_app, zlen_cons; lia).
    split; [cbn [length]; lia|]. split; [exact B|]. destruct (create_pid _ _ L3 N F B) as (v' & Cv' & Sv2). rewrite Cv'. f_equal.
    destruct (create_cons _ _ _ _ L3 N F B Cv') as (a' & p' & b' & q' & u' & ES & Lp' & Vb' & Cu' & Eu'). injection ES as <- ES.
    assert (Epq : p = p' /\ b = b' /\ q = q').
    { assert (Lpp : length p = length p') by (unfold zlen in Lp'; lia). clear - ES Lpp. revert p' ES Lpp. induction p as [|c p IHp]; intros [|c' p'] ES Lpp; try discriminate; cbn [app] in ES; injection ES as <- ES; [repeat split; assumption|]. cbn [length] in Lpp. destruct (IHp p' ES ltac:(lia)) as (<- & <- & <-). repeat split. }
    destruct Epq as (<- & <- & <-). rewrite Cd in Cu'. injection Cu' as <-.
    apply canonical_ext; [apply Sv2|exact Cv|].
    assert (P : forall x, 0 < x -> pcall v' x = pcall v x). { intros x Hx. specialize (Eu' x Hx). rewrite C in Eu'. rewrite <- (refl_invol a b (pcall v' x)), <- Eu' by lia. apply refl_invol; lia. }
    intro x. destruct (Z_lt_ge_dec 0 x); [apply P; lia|]. destruct (Z.eq_dec x 0) as [->|]; [rewrite !pcall_zero; reflexivity|]. replace x with (- (- x)) by lia. rewrite (pcall_odd v' (- x)), (pcall_odd v (- x)), P by lia. reflexivity.
Qed.
