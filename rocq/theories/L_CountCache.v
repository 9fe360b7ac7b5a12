(* Lemmas for C02 *)
From Coq Require Import List ZArith Lia Bool InitialRing.
From Verif Require Import PyBase FinSum M_Partitions M_Rref M_Strips M_Vectors M_Semistandard M_Symmetric M_CountCache L_Count L_Count2.
Import ListNotations.
Local Open Scope Z_scope.

Lemma ckey_eqb_eq : forall a b, ckey_eqb a b = true <-> a = b.
Proof.
  intros [[[n mu] lam] sv] [[[n' mu'] lam'] sv']. unfold ckey_eqb. rewrite !andb_true_iff, Nat.eqb_eq, !zlist_eqb_eq, eqb_true_iff.
  split; [intros (((-> & ->) & ->) & ->); reflexivity|intro E; injection E as -> -> -> ->; auto].
Qed.
Lemma skey_eqb_eq : forall a b, skey_eqb a b = true <-> a = b.
Proof.
  intros [[n mu] lam] [[n' mu'] lam']. unfold skey_eqb. rewrite !andb_true_iff, Nat.eqb_eq, !zlist_eqb_eq.
  split; [intros ((-> & ->) & ->); reflexivity|intro E; injection E as -> -> ->; auto].
Qed.
Lemma smono_eqb_eq : forall a b, smono_eqb a b = true <-> a = b.
Proof.
  intros [n mu] [n' mu']. unfold smono_eqb. cbn [fst snd]. rewrite andb_true_iff, Nat.eqb_eq, zlist_eqb_eq.
  split; [intros (-> & ->); reflexivity|intro E; injection E as -> ->; auto].
Qed.

(* the inner loop adds to each key a multiple of the count *)
Fixpoint kern (n : nat) (p : list Z) (base : Z) (w : Z -> Z) (is : list Z) (alpha : list Z) : Z :=
  match is with
  | [] => 0
  | i :: is' =>
      let m := base + i in
      if m =? 0 then ind (zlist_eqb p alpha) + kern n p base w is' alpha
      else if prune n p m then 0
      else ind (zlist_eqb (p ++ [m]) alpha) * w i + kern n p base w is' alpha
  end.

Definition short (n : nat) (d : cdict) : Prop := forall p, In p (map fst d) -> (length p <= n)%nat.

Lemma count_loop_kern : forall n p c base w is ans alpha,
  cget (count_loop n p c base w is ans) alpha = cget ans alpha + c * kern n p base w is alpha.
Proof.
  intros n p c base w. induction is as [|i is IH]; intros ans alpha; cbn [count_loop kern]; [lia|].
  destruct (base + i =? 0) eqn:E.
  - rewrite IH, cget_cincr. unfold ind. destruct (zlist_eqb p alpha); lia.
  - destruct (prune n p (base + i)); [lia|]. rewrite IH, cget_cincr. unfold ind. destruct (zlist_eqb (p ++ [base + i]) alpha); lia.
Qed.
Lemma cincr_NoDup : forall d k c, NoDup (map fst d) -> NoDup (map fst (cincr d k c)).
Proof. intros. unfold cincr. apply (dset_NoDup zlist_eqb zlist_eqb_eq). assumption. Qed.
Lemma cincr_short : forall n d k c, short n d -> (length k <= n)%nat -> short n (cincr d k c).
Proof. intros n d k c H1 H2 p Hp. unfold cincr in Hp. apply (dset_keys_In zlist_eqb zlist_eqb_eq) in Hp. destruct Hp as [->|Hp]; auto. Qed.
Lemma count_loop_NoDup : forall n p c base w is ans, NoDup (map fst ans) -> NoDup (map fst (count_loop n p c base w is ans)).
Proof.
  intros n p c base w. induction is as [|i is IH]; intros ans H; cbn [count_loop]; [assumption|].
  destruct (base + i =? 0); [apply IH, cincr_NoDup; assumption|]. destruct (prune n p (base + i)); [assumption|apply IH, cincr_NoDup; assumption].
Qed.
Lemma count_loop_short : forall n p c base w is ans, (length p <= n)%nat -> short (S n) ans -> short (S n) (count_loop (S n) p c base w is ans).
Proof.
  intros n p c base w is ans Hp. revert ans. induction is as [|i is IH]; intros ans H; cbn [count_loop]; [assumption|].
  destruct (base + i =? 0); [apply IH, cincr_short; [assumption|lia]|]. destruct (prune (S n) p (base + i)); [assumption|apply IH, cincr_short; [assumption|]].
  rewrite app_length. cbn [length]. lia.
Qed.

Definition items_loop (n : nat) (base : Z) (w : Z -> Z) (is : list Z) (d ans : cdict) : cdict :=
  fold_left (fun ans pc => count_loop n (fst pc) (snd pc) base w is ans) d ans.

Lemma items_kern : forall n base w is d ans alpha,
  cget (items_loop n base w is d ans) alpha = cget ans alpha + lin 0 Z.add Z.mul d (fun p => kern n p base w is alpha).
Proof.
  intros n base w is. unfold items_loop, lin. induction d as [|[p c] d IH]; intros ans alpha; cbn [fold_left lsum fst snd]; [lia|].
  rewrite IH, count_loop_kern. lia.
Qed.
Lemma items_NoDup : forall n base w is d ans, NoDup (map fst ans) -> NoDup (map fst (items_loop n base w is d ans)).
Proof. intros n base w is. unfold items_loop. induction d as [|[p c] d IH]; intros ans H; cbn [fold_left]; [assumption|]. apply IH, count_loop_NoDup. assumption. Qed.
Lemma items_short : forall n base w is d ans, short n d -> short (S n) ans -> short (S n) (items_loop (S n) base w is d ans).
Proof.
  intros n base w is. unfold items_loop. induction d as [|[p c] d IH]; intros ans Hd H; cbn [fold_left fst snd]; [assumption|].
  apply IH; [intros q Hq; apply Hd; right; assumption|]. apply count_loop_short; [|assumption]. apply Hd. left. reflexivity.
Qed.

(* d and d0 answer every look-up alike *)
Definition alike (b : bool) (n : nat) (d d0 : cdict) : Prop :=
  NoDup (map fst d) /\ NoDup (map fst d0) /\ (forall alpha, cget d alpha = cget d0 alpha) /\ short n d0 /\ (b = true -> short n d).

Lemma cget_dget0 : forall d k, cget d k = dget0 0 zlist_eqb d k.
Proof. reflexivity. Qed.

Lemma lin_alike : forall d1 d2 F, NoDup (map fst d1) -> NoDup (map fst d2) -> (forall k, cget d1 k = cget d2 k) -> lin 0 Z.add Z.mul d1 F = lin 0 Z.add Z.mul d2 F.
Proof. intros d1 d2 F H1 H2 H. apply (lin_ext_get 0 1 Z.add Z.mul Z.sub Z.opp InitialRing.Zth zlist_eqb zlist_eqb_eq); assumption. Qed.

Lemma items_alike : forall b n base w is d d0 ans ans0, alike b n d d0 -> alike b (S n) ans ans0 ->
  alike b (S n) (items_loop (S n) base w is d ans) (items_loop (S n) base w is d0 ans0).
Proof.
  intros b n base w is d d0 ans ans0 (A1 & A2 & A3 & A4 & A5) (B1 & B2 & B3 & B4 & B5). split; [apply items_NoDup; assumption|]. split; [apply items_NoDup; assumption|]. split; [|split].
  - intro alpha. rewrite !items_kern, B3. f_equal. apply lin_alike; assumption.
  - apply items_short; assumption.
  - intro Hb. apply items_short; auto.
Qed.

Section Cache.
  Variable ord : list (list Z) -> list (list Z).

  Definition pure (k : ckey) : res cdict := match k with (n, mu, lam, sv) => count_semistandard ord n mu lam sv end.
  Definition knum (k : ckey) : nat := match k with (n, _, _, _) => n end.

  Definition cache_ok (b : bool) (st : cache) : Prop :=
    forall k d, dget ckey_eqb st k = Some d -> exists d0, pure k = Ok d0 /\ alike b (knum k) d d0.

  Definition agree {A B} (R : A -> B -> Prop) (x : res A) (y : res B) : Prop :=
    match x, y with Ok a, Ok b => R a b | Err e, Err e' => e = e' | _, _ => False end.

  Lemma cache_ok_dset : forall b st k d d0, cache_ok b st -> pure k = Ok d0 -> alike b (knum k) d d0 -> cache_ok b (dset ckey_eqb st k d).
  Proof.
    intros b st k d d0 H1 H2 H3 k' d' E. destruct (ckey_eqb k k') eqn:X.
    - apply ckey_eqb_eq in X. subst k'. rewrite (dget_dset_same ckey_eqb ckey_eqb_eq) in E. injection E as <-. exists d0. auto.
    - rewrite (dget_dset_other ckey_eqb ckey_eqb_eq) in E by (intro Y; apply ckey_eqb_eq in Y; congruence). apply H1. assumption.
  Qed.

  Lemma sfold_agree : forall b A n (f : cdict -> A -> cache -> cache * res cdict) (g : cdict -> A -> res cdict) l,
    (forall s ans ans0 st, In s l -> alike b n ans ans0 -> cache_ok b st -> cache_ok b (fst (f ans s st)) /\ agree (alike b n) (snd (f ans s st)) (g ans0 s)) ->
    forall ans ans0 st, alike b n ans ans0 -> cache_ok b st ->
      cache_ok b (fst (sfold f l ans st)) /\ agree (alike b n) (snd (sfold f l ans st)) (rfold g l ans0).
  Proof.
    intros b A n f g. induction l as [|s l IH]; intros H ans ans0 st Ha Hs; cbn [sfold rfold]; [split; assumption|].
    destruct (H s ans ans0 st (or_introl eq_refl) Ha Hs) as [H1 H2]. destruct (f ans s st) as [st' [r|e]]; cbn [fst snd] in *; destruct (g ans0 s) as [r0|e0]; cbn [agree rbind] in *; try contradiction.
    - apply IH; [intros; apply H; [right; assumption|assumption|assumption]|assumption|assumption].
    - split; assumption.
  Qed.

  Lemma alike_refl_one : forall b n, alike b n [([], 1)] [([], 1)].
  Proof.
    intros b n. assert (X : NoDup (map fst [([] : list Z, 1)])) by (constructor; [intros []|constructor]). assert (Y : short n [([] : list Z, 1)]) by (intros p [<-|[]]; apply Nat.le_0_l).
    repeat split; auto.
  Qed.
  Lemma alike_nil : forall b n, alike b n [] [].
  Proof. intros b n. assert (short n []) by (intros p []). repeat split; auto; constructor. Qed.

  Lemma mcount_agree : forall b sv lam n mu st, cache_ok b st ->
    cache_ok b (fst (mcount ord n mu lam sv st)) /\ agree (alike b n) (snd (mcount ord n mu lam sv st)) (count_semistandard ord n mu lam sv).
  Proof.
    intros b sv lam. induction n as [|n IH]; intros mu st Hs; cbn [mcount].
    - destruct (dget ckey_eqb st (0%nat, mu, lam, sv)) as [d|] eqn:E.
      { destruct (Hs _ _ E) as (d0 & E0 & H0). cbn [pure] in E0. rewrite E0. split; assumption. }
      cbn [count_semistandard]. destruct (zlist_eqb mu lam) eqn:X; cbn [fst snd agree].
      + split; [|apply alike_refl_one]. apply (cache_ok_dset b st _ _ [([], 1)]); [assumption| |apply alike_refl_one]. cbn [pure count_semistandard]. rewrite X. reflexivity.
      + split; [|apply alike_nil]. apply (cache_ok_dset b st _ _ []); [assumption| |apply alike_nil]. cbn [pure count_semistandard]. rewrite X. reflexivity.
    - destruct (dget ckey_eqb st (S n, mu, lam, sv)) as [d|] eqn:E.
      { destruct (Hs _ _ E) as (d0 & E0 & H0). cbn [pure] in E0. rewrite E0. split; assumption. }
      match goal with |- context [let '(a, r) := ?B in @?C a r] => set (body := B) end.
      assert (X : cache_ok b (fst body) /\ agree (alike b (S n)) (snd body) (count_semistandard ord (S n) mu lam sv)).
      { subst body. cbn [count_semistandard]. destruct (zlist_eqb mu lam) eqn:X; [split; [assumption|apply alike_refl_one]|].
        destruct (contains mu lam); [|split; [assumption|apply alike_nil]].
        destruct (horizontal_strips ord mu lam) as [strips|e]; [|split; [assumption|reflexivity]]. cbn [rbind].
        apply sfold_agree; [|apply alike_nil|assumption].
        intros [[nu diff] corners] ans ans0 st' _ Ha Hc. destruct (IH nu st' Hc) as [I1 I2].
        destruct (mcount ord n nu lam sv st') as [st2 [d|e]]; cbn [fst snd] in *; destruct (count_semistandard ord n nu lam sv) as [d0|e0]; cbn [agree rbind] in *; try contradiction.
        - split; [assumption|]. apply (items_alike b n (zlen diff) (nchoosek (zlen corners)) (corner_range corners sv) d d0 ans ans0); assumption.
        - split; assumption. }
      destruct X as [X1 X2]. destruct body as [st' [d|e]]; cbn [fst snd] in *; destruct (count_semistandard ord (S n) mu lam sv) as [d0|e0] eqn:Y; cbn [agree fst snd] in *; try contradiction.
      + split; [|assumption]. apply (cache_ok_dset b st' _ _ d0); assumption.
      + split; assumption.
  Qed.

  Lemma mcount_stored : forall k st st' d, mcall ord k st = (st', Ok d) -> dget ckey_eqb st' k = Some d.
  Proof.
    intros [[[n mu] lam] sv] st st' d. cbn [mcall]. destruct n as [|n]; cbn [mcount].
    - destruct (dget ckey_eqb st (0%nat, mu, lam, sv)) as [d'|] eqn:E; [intro H; injection H as <- <-; assumption|].
      destruct (zlist_eqb mu lam); intro H; injection H as <- <-; apply (dget_dset_same ckey_eqb ckey_eqb_eq).
    - destruct (dget ckey_eqb st (S n, mu, lam, sv)) as [d'|] eqn:E; [intro H; injection H as <- <-; assumption|].
      match goal with |- context [let '(a, r) := ?B in @?C a r] => destruct B as [st2 [d2|e]] end; intro H; [|discriminate]. injection H as <- <-. apply (dget_dset_same ckey_eqb ckey_eqb_eq).
  Qed.
End Cache.

(* _vectorize only looks at the answers to look-ups, provided no key is too long *)
Lemma sget_sincr : forall f m c m', sget (sincr f m c) m' = sget f m' + ind (smono_eqb m m') * c.
Proof.
  intros f m c m'. unfold sincr, sget at 1, dget0. destruct (smono_eqb m m') eqn:E; unfold ind.
  - apply smono_eqb_eq in E. subst. rewrite (dget_dset_same smono_eqb smono_eqb_eq). lia.
  - rewrite (dget_dset_other smono_eqb smono_eqb_eq) by (intro X; apply smono_eqb_eq in X; congruence). unfold sget, dget0. lia.
Qed.

Lemma vectorize_loop : forall n d f, (short n d -> exists r, rfold (fun f pc => do m <- smake n (fst pc); Ok (sincr f m (snd pc))) d f = Ok r /\
     (NoDup (map fst f) -> NoDup (map fst r)) /\
     forall m, sget r m = sget f m + lin 0 Z.add Z.mul d (fun p => ind (smono_eqb (n, psort p true) m))) /\
  (~ short n d -> rfold (fun f pc => do m <- smake n (fst pc); Ok (sincr f m (snd pc))) d f = Err AssertionError).
Proof.
  intros n. unfold lin. induction d as [|[p c] d IH]; intro f; cbn [rfold lsum fst snd].
  - split; [intros _; exists f; split; [reflexivity|]; split; [auto|]; intros; lia|]. intro H. exfalso. apply H. intros p [].
  - unfold smake at 1 3. destruct (length p <=? n)%nat eqn:E; cbn [rbind].
    + apply Nat.leb_le in E. destruct (IH (sincr f (n, psort p true) c)) as [I1 I2]. split.
      * intro H. destruct I1 as (r & E1 & N1 & H1); [intros q Hq; apply H; right; assumption|]. exists r. split; [assumption|]. split.
        -- intro N. apply N1. unfold sincr. apply (dset_NoDup smono_eqb smono_eqb_eq). assumption.
        -- intro m. rewrite H1, sget_sincr. lia.
      * intro H. apply I2. intro X. apply H. intros q [<-|Hq]; [assumption|auto].
    + apply Nat.leb_gt in E. split; [|reflexivity]. intro H. exfalso. specialize (H p (or_introl eq_refl)). lia.
Qed.

Lemma dget_smk : forall f m, NoDup (map fst f) -> sget (smk f) m = sget f m.
Proof.
  unfold sget, smk, vmake, dget0. induction f as [|[k c] f IH]; intros m N; [reflexivity|]. inversion N as [|? ? N1 N2]; subst. cbn [filter snd dget].
  destruct (c =? 0) eqn:E; cbn [negb].
  - apply Z.eqb_eq in E. rewrite IH by assumption. destruct (smono_eqb k m) eqn:X; [|reflexivity]. apply smono_eqb_eq in X. subst m.
    replace (dget smono_eqb f k) with (@None Z); [auto|]. symmetry. apply (dget_None_notIn smono_eqb smono_eqb_eq). assumption.
  - cbn [dget]. destruct (smono_eqb k m); [reflexivity|]. apply IH. assumption.
Qed.
Lemma smk_canon : forall f, NoDup (map fst f) -> NoDup (map fst (smk f)) /\ Forall (fun mc => snd mc <> 0) (smk f).
Proof.
  intros f N. unfold smk, vmake. split.
  - induction f as [|[k c] f IH]; [constructor|]. inversion N as [|? ? N1 N2]; subst. cbn [filter snd]. destruct (negb (c =? 0)); [|auto]. cbn [map fst]. constructor; [|auto].
    intro H. apply N1. apply in_map_iff in H. destruct H as (x & <- & Hx). apply filter_In in Hx. apply in_map. apply Hx.
  - apply Forall_forall. intros x Hx. apply filter_In in Hx. destruct Hx as [_ Hx]. apply negb_true_iff, Z.eqb_neq in Hx. assumption.
Qed.

Definition same_poly (f g : spoly) : Prop :=
  NoDup (map fst f) /\ Forall (fun mc => snd mc <> 0) f /\ NoDup (map fst g) /\ Forall (fun mc => snd mc <> 0) g /\ forall m, sget f m = sget g m.

Lemma vectorize_short : forall n d, short n d -> exists f, vectorize n d = Ok f /\ NoDup (map fst f) /\ Forall (fun mc => snd mc <> 0) f /\
  forall m, sget f m = lin 0 Z.add Z.mul d (fun p => ind (smono_eqb (n, psort p true) m)).
Proof.
  intros n d H. unfold vectorize. destruct (proj1 (vectorize_loop n d []) H) as (r & E & N & G). rewrite E. cbn [rbind]. exists (smk r).
  assert (Nr : NoDup (map fst r)) by (apply N; constructor). destruct (smk_canon r Nr) as [C1 C2]. split; [reflexivity|]. split; [assumption|]. split; [assumption|].
  intro m. rewrite dget_smk by assumption. rewrite G. change (sget [] m) with 0. lia.
Qed.
Lemma vectorize_alike : forall n d d0, alike true n d d0 -> agree same_poly (vectorize n d) (vectorize n d0).
Proof.
  intros n d d0 (A1 & A2 & A3 & A4 & A5). destruct (vectorize_short n d (A5 eq_refl)) as (f & E & N & F & G). destruct (vectorize_short n d0 A4) as (f0 & E0 & N0 & F0 & G0).
  rewrite E, E0. cbn [agree]. split; [assumption|]. split; [assumption|]. split; [assumption|]. split; [assumption|]. intro m. rewrite G, G0. apply lin_alike; assumption.
Qed.
Lemma vectorize_long : forall n d, ~ short n d -> vectorize n d = Err AssertionError.
Proof. intros n d H. unfold vectorize. rewrite (proj2 (vectorize_loop n d []) H). reflexivity. Qed.
