(* C02: the memoised counting function hands out its cached defaultdict. *)
From Coq Require Import List ZArith Lia Bool.
From Verif Require Import PyBase FinSum M_Partitions M_Strips M_Semistandard M_Symmetric M_CountCache L_CountCache.
Import ListNotations.
Local Open Scope Z_scope.

(* what the operation would observe if nothing was ever cached or shared *)
Definition fresh (ord : list (list Z) -> list (list Z)) (o : op) : obs :=
  match o with
  | OLook (n, mu, nu, sv) alpha => VLook (match count_semistandard ord n mu nu sv with Ok d => Ok (cget d alpha) | Err e => Err e end)
  | OItems (n, mu, nu, sv) => VItems (count_semistandard ord n mu nu sv)
  | OSchur (n, mu, nu) => VSchur (schur ord n mu nu)
  end.

(* two dictionaries that answer every look-up alike *)
Definition same_lookups (d d0 : cdict) : Prop := NoDup (map fst d) /\ NoDup (map fst d0) /\ forall alpha, cget d alpha = cget d0 alpha.

(* observations agree: look-ups exactly (value or exception), listings up to look-ups, symmetric
   polynomials as polynomials *)
Definition obs_agree (strict : bool) (v v0 : obs) : Prop :=
  match v, v0 with
  | VLook r, VLook r0 => r = r0
  | VItems (Ok d), VItems (Ok d0) => same_lookups d d0
  | VItems (Err e), VItems (Err e0) => e = e0
  | VSchur (Ok f), VSchur (Ok f0) => same_poly f f0
  | VSchur (Err e), VSchur (Err e0) => e = e0
  | VSchur (Err e), VSchur (Ok _) => strict = false /\ e = AssertionError
  | _, _ => False
  end.

(* a look-up whose key has at most max_entry parts *)
Definition modest (o : op) : Prop := match o with OLook (n, _, _, _) alpha => (length alpha <= n)%nat | _ => True end.

Section Histories.
  Variable ord : list (list Z) -> list (list Z).

  Definition state_ok (b : bool) (st : cstate) : Prop :=
    cache_ok ord b (fst st) /\ forall n mu nu f, dget skey_eqb (snd st) (n, mu, nu) = Some f -> exists f0, schur ord n mu nu = Ok f0 /\ same_poly f f0.

  Lemma mcall_agree : forall b k st, cache_ok ord b st ->
    cache_ok ord b (fst (mcall ord k st)) /\ agree (alike b (knum k)) (snd (mcall ord k st)) (pure ord k).
  Proof. intros b [[[n mu] lam] sv] st H. apply mcount_agree. assumption. Qed.

  Lemma short_dec : forall n d, short n d \/ ~ short n d.
  Proof.
    intros n d. destruct (forallb (fun p => (length p <=? n)%nat) (map fst d)) eqn:E.
    - left. intros p Hp. rewrite forallb_forall in E. apply Nat.leb_le. auto.
    - right. intro H. assert (X : forallb (fun p => (length p <=? n)%nat) (map fst d) = true); [|congruence]. apply forallb_forall. intros p Hp. apply Nat.leb_le. auto.
  Qed.

  Lemma cstep_ok : forall b st o, state_ok b st -> (b = true -> modest o) ->
    state_ok b (fst (cstep ord st o)) /\ obs_agree b (snd (cstep ord st o)) (fresh ord o).
  Proof.
    intros b [c sc] o [H1 H2] Hm. cbn [fst snd] in *. destruct o as [k alpha|k|[[n mu] nu]]; cbn [cstep].
    - destruct (mcall_agree b k c H1) as [A1 A2]. destruct (mcall ord k c) as [c' [d|e]]; cbn [fst snd] in *; destruct k as [[[n mu] nu] sv]; cbn [fresh pure knum modest] in *; destruct (count_semistandard ord n mu nu sv) as [d0|e0] eqn:E0; cbn [agree] in A2; try contradiction.
      + destruct A2 as (B1 & B2 & B3 & B4 & B5). destruct (dget zlist_eqb d alpha) as [x|] eqn:E; cbn [fst snd obs_agree].
        * split; [split; assumption|]. rewrite <- B3. unfold cget. rewrite E. reflexivity.
        * split; [split; [|assumption]|rewrite <- B3; unfold cget; rewrite E; reflexivity].
          cbn [fst]. apply (cache_ok_dset ord b c' _ _ d0); [assumption|exact E0|]. split; [apply (dset_NoDup zlist_eqb zlist_eqb_eq); assumption|]. split; [assumption|]. split; [|split; [assumption|]].
          -- intro beta. rewrite <- B3. unfold cget. destruct (zlist_eqb alpha beta) eqn:X.
             ++ apply zlist_eqb_eq in X. subst beta. rewrite (dget_dset_same zlist_eqb zlist_eqb_eq), E. reflexivity.
             ++ rewrite (dget_dset_other zlist_eqb zlist_eqb_eq) by (intro Y; apply zlist_eqb_eq in Y; congruence). reflexivity.
          -- intros Hb p Hp. apply (dset_keys_In zlist_eqb zlist_eqb_eq) in Hp. destruct Hp as [->|Hp]; [apply Hm; assumption|apply B5; assumption].
      + subst e0. split; [split; assumption|reflexivity].
    - destruct (mcall_agree b k c H1) as [A1 A2]. destruct (mcall ord k c) as [c' [d|e]]; cbn [fst snd] in *; destruct k as [[[n mu] nu] sv]; cbn [fresh pure knum] in *; destruct (count_semistandard ord n mu nu sv) as [d0|e0] eqn:E0; cbn [agree] in A2; try contradiction; cbn [obs_agree].
      + split; [split; assumption|]. destruct A2 as (B1 & B2 & B3 & _). split; [assumption|]. split; assumption.
      + split; [split; assumption|assumption].
    - destruct (dget skey_eqb sc (n, mu, nu)) as [f|] eqn:E; cbn [fst snd fresh].
      + destruct (H2 _ _ _ _ E) as (f0 & E0 & S0). rewrite E0. split; [split; assumption|exact S0].
      + destruct (mcall_agree b (n, mu, nu, false) c H1) as [A1 A2]. destruct (mcall ord (n, mu, nu, false) c) as [c' [d|e]]; cbn [fst snd pure knum] in *; unfold schur; destruct (count_semistandard ord n mu nu false) as [d0|e0] eqn:E0; cbn [agree rbind] in *; try contradiction.
        * destruct (short_dec n d) as [Hs|Hs].
          -- assert (A3 : alike true n d d0) by (destruct A2 as (B1 & B2 & B3 & B4 & B5); repeat split; auto).
             pose proof (vectorize_alike n d d0 A3) as V. destruct (vectorize_short n d Hs) as (f & Ef & _). destruct A2 as (_ & _ & _ & B4 & _). destruct (vectorize_short n d0 B4) as (f0 & Ef0 & _).
             rewrite Ef, Ef0 in *. cbn [fst snd agree] in *. split; [|exact V]. split; [assumption|]. cbn [snd]. intros n' mu' nu' f' E'.
             destruct (skey_eqb (n, mu, nu) (n', mu', nu')) eqn:X.
             ++ apply skey_eqb_eq in X. injection X as <- <- <-. rewrite (dget_dset_same skey_eqb skey_eqb_eq) in E'. injection E' as <-. exists f0. split; [|assumption]. unfold schur. rewrite E0. exact Ef0.
             ++ rewrite (dget_dset_other skey_eqb skey_eqb_eq) in E' by (intro Y; apply skey_eqb_eq in Y; congruence). apply H2. assumption.
          -- rewrite (vectorize_long n d Hs). destruct A2 as (_ & _ & _ & B4 & B5). destruct (vectorize_short n d0 B4) as (f0 & Ef0 & _). rewrite Ef0. cbn [fst snd obs_agree].
             split; [split; assumption|]. split; [|reflexivity]. destruct b; [|reflexivity]. exfalso. apply Hs. apply B5. reflexivity.
        * split; [split; assumption|assumption].
  Qed.

  Lemma chistory_ok : forall b ops st, state_ok b st -> (b = true -> Forall modest ops) -> Forall2 (obs_agree b) (fst (chistory ord ops st)) (map (fresh ord) ops).
  Proof.
    intros b. induction ops as [|o ops IH]; intros st H Hm; cbn [chistory map]; [constructor|].
    destruct (cstep_ok b st o H) as [A1 A2]. { intro Hb. specialize (Hm Hb). inversion Hm. assumption. }
    destruct (cstep ord st o) as [st' v]. cbn [fst snd] in *. specialize (IH st' A1). destruct (chistory ord ops st') as [vs st'']. cbn [fst] in *. constructor; [assumption|].
    apply IH. intro Hb. specialize (Hm Hb). inversion Hm. assumption.
  Qed.
End Histories.

Lemma state_ok_empty : forall ord b, state_ok ord b ([], []).
Proof. intros ord b. split; [intros k d E; discriminate|]. intros n mu nu f E. discriminate. Qed.

(* In every history of calls, look-ups, listings and schur calls (on arbitrary integer tuples), every
   look-up returns what a fresh computation returns - value or exception - every listing answers all
   look-ups alike, and every schur call either is right or raises AssertionError. *)
Theorem C02_lookups_never_wrong : forall ord ops,
  Forall2 (obs_agree false) (fst (chistory ord ops ([], []))) (map (fresh ord) ops).
Proof. intros ord ops. apply chistory_ok; [apply state_ok_empty|discriminate]. Qed.
Print Assumptions C02_lookups_never_wrong.

(* If every looked-up weight has at most max_entry parts, schur is never affected either. *)
Theorem C02_short_lookups_harmless : forall ord ops, Forall modest ops ->
  Forall2 (obs_agree true) (fst (chistory ord ops ([], []))) (map (fresh ord) ops).
Proof. intros ord ops H. apply chistory_ok; [apply state_ok_empty|intros _; assumption]. Qed.
Print Assumptions C02_short_lookups_harmless.

(* The stronger claim, that look-ups leave no trace, is false: looking up the absent weight (1,1,1)
   of two-variable tableaux of shape (2,1) changes the length of the mapping returned by the next
   identical call, and makes the next SymmetricPolynomial.schur(2, (2,1)) raise AssertionError. *)
Theorem C02_lookups_leave_no_trace_refuted :
  exists (k : ckey) (s : skey) alpha, k = (2%nat, [2; 1], [], false) /\ s = (2%nat, [2; 1], []) /\
  let ord := fun l : list (list Z) => l in
  (exists d d', fst (chistory ord [OItems k; OLook k alpha; OItems k] ([], [])) = [VItems (Ok d); VLook (Ok 0); VItems (Ok d')] /\ length d' = S (length d)) /\
  (exists f, fst (chistory ord [OSchur s] ([], [])) = [VSchur (Ok f)] /\ f = [((2%nat, [2; 1]), 1)]) /\
  fst (chistory ord [OLook k alpha; OSchur s] ([], [])) = [VLook (Ok 0); VSchur (Err AssertionError)].
Proof.
  exists (2%nat, [2; 1], [], false), (2%nat, [2; 1], []), [1; 1; 1]. split; [reflexivity|]. split; [reflexivity|]. cbv zeta. split; [|split].
  - eexists. eexists. split; [vm_compute; reflexivity|reflexivity].
  - eexists. split; [vm_compute; reflexivity|reflexivity].
  - vm_compute. reflexivity.
Qed.
Print Assumptions C02_lookups_leave_no_trace_refuted.

(* a history with zero entries that propagate to later calls through the recursion *)
Example C02_example :
  let ord := fun l : list (list Z) => l in
  let ops := [OLook (1%nat, [2], [], false) [1]; OLook (2%nat, [2; 1], [], false) [2; 1]; OSchur (2%nat, [2; 1], []); OLook (2%nat, [2], [], true) [1; 1]] in
  Forall modest ops /\ fst (chistory ord ops ([], [])) = [VLook (Ok 0); VLook (Ok 1); VSchur (Ok [((2%nat, [2; 1]), 1)]); VLook (Ok 1)].
Proof. split; [repeat constructor|vm_compute; reflexivity]. Qed.
