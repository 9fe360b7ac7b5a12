From Coq Require Import List ZArith Lia Bool Permutation.
From Verif Require Import PyBase M_Partitions S_Partitions L_Partitions L_PartBasic M_Strips.
Import ListNotations.
Local Open Scope Z_scope.

Lemma nthz_row : forall l i, nthz l (Z.of_nat i) = row l i.
Proof. intros. unfold nthz, row. rewrite Nat2Z.id. reflexivity. Qed.
Lemma memt_In : forall x s, memt x s = true <-> In x s.
Proof.
  induction s as [|y s IH]; cbn [memt In]; [split; [discriminate|intros []]|]. rewrite orb_true_iff, zlist_eqb_eq, IH. intuition congruence.
Qed.
Lemma sett_In : forall l x, In x (sett l) <-> In x l.
Proof.
  induction l as [|y l IH]; intro x; cbn [sett In]; [tauto|]. cbv zeta. destruct (memt y (sett l)) eqn:E.
  - apply memt_In in E. rewrite IH in *. intuition congruence.
  - cbn [In]. rewrite IH. tauto.
Qed.
Lemma sett_NoDup : forall l, NoDup (sett l).
Proof.
  induction l as [|y l IH]; cbn [sett]; [constructor|]. destruct (memt y (sett l)) eqn:E; [assumption|]. constructor; [|assumption].
  intro C. apply memt_In in C. congruence.
Qed.
Lemma upd_length : forall l i v, length (upd l i v) = length l.
Proof. induction l as [|a l IH]; intros [|i] v; cbn [upd length]; [reflexivity|reflexivity|reflexivity|rewrite IH; reflexivity]. Qed.
Lemma upd_row : forall l i v j, (i < length l)%nat -> row (upd l i v) j = if (j =? i)%nat then v else row l j.
Proof.
  induction l as [|a l IH]; intros [|i] v [|j] H; cbn [length] in H; try lia; cbn [upd]; try reflexivity.
  change (row (upd l i v) j = if (S j =? S i)%nat then v else row l j). rewrite IH by lia. reflexivity.
Qed.
Lemma zsum_upd : forall l i v, (i < length l)%nat -> zsum (upd l i v) = zsum l - row l i + v.
Proof.
  induction l as [|a l IH]; intros [|i] v H; cbn [length] in H; try lia; cbn [upd zsum].
  - unfold row. cbn. lia.
  - rewrite IH by lia. change (row (a :: l) (S i)) with (row l i). lia.
Qed.
Lemma zsum_le_rows : forall a b, length a = length b -> (forall i, (i < length a)%nat -> row a i <= row b i) -> zsum a <= zsum b.
Proof.
  induction a as [|x a IH]; intros [|y b] L H; try discriminate L; [cbn; lia|]. cbn [zsum]. injection L as L.
  pose proof (H 0%nat ltac:(cbn; lia)) as H0. cbn in H0.
  assert (zsum a <= zsum b) by (apply IH; [assumption|]; intros i Hi; apply (H (S i)); cbn; lia). lia.
Qed.
Lemma zsum_eq_rows : forall a b, length a = length b -> (forall i, (i < length a)%nat -> row a i <= row b i) -> zsum b <= zsum a -> a = b.
Proof.
  induction a as [|x a IH]; intros [|y b] L H E; try discriminate; [reflexivity|]. cbn [zsum] in E. injection L as L.
  pose proof (H 0%nat ltac:(cbn; lia)) as H0. cbn in H0.
  assert (Hr : forall i, (i < length a)%nat -> row a i <= row b i) by (intros i Hi; apply (H (S i)); cbn; lia).
  pose proof (zsum_le_rows a b L Hr). f_equal; [lia|]. apply IH; [assumption|assumption|lia].
Qed.
Lemma rows_ext : forall a b, length a = length b -> (forall i, (i < length a)%nat -> row a i = row b i) -> a = b.
Proof.
  induction a as [|x a IH]; intros [|y b] L H; try discriminate; [reflexivity|]. injection L as L. f_equal.
  - exact (H 0%nat ltac:(cbn; lia)).
  - apply IH; [assumption|]. intros i Hi. apply (H (S i)). cbn. lia.
Qed.

Section Generic.
  Variable ord : list (list Z) -> list (list Z).
  Hypothesis ord_perm : forall l, Permutation (ord l) l.
  Variables (mu core : list Z) (ok : list Z -> Z -> bool) (R : list Z -> Prop) (emit : list Z -> strip).
  Hypothesis R_len : forall nu, R nu -> length nu = length mu.
  Hypothesis R_ge : forall nu, R nu -> forall i, (i < length mu)%nat -> row core i <= row nu i <= row mu i.
  Hypothesis core_len : length core = length mu.
  Hypothesis R_core : R core.
  Hypothesis R_up : forall nu i, R nu -> (i < length mu)%nat -> ok nu (Z.of_nat i) = true -> R (upd nu i (row nu i + 1)).
  Hypothesis R_down : forall nu, R nu -> zsum core < zsum nu ->
    exists i, (i < length mu)%nat /\ R (upd nu i (row nu i - 1)) /\ ok (upd nu i (row nu i - 1)) (Z.of_nat i) = true.

  Lemma raise_In : forall L nu, In nu (raise_level mu ok L) <->
    exists i nu0, (i < length mu)%nat /\ In nu0 L /\ ok nu0 (Z.of_nat i) = true /\ nu = upd nu0 i (row nu0 i + 1).
  Proof.
    intros L nu. unfold raise_level. rewrite sett_In, in_flat_map. split.
    - intros (z & Hz & H). apply In_zrange in Hz. unfold zlen in Hz. apply in_map_iff in H. destruct H as (nu0 & <- & H). apply filter_In in H. destruct H as [H1 H2].
      exists (Z.to_nat z), nu0. split; [lia|]. split; [assumption|]. rewrite Z2Nat.id by lia. split; [assumption|]. f_equal.
    - intros (i & nu0 & Hi & H1 & H2 & ->). exists (Z.of_nat i). split; [apply In_zrange; unfold zlen; lia|]. apply in_map_iff. exists nu0.
      rewrite Nat2Z.id, nthz_row. split; [reflexivity|]. apply filter_In. split; assumption.
  Qed.

  Lemma R_zsum : forall nu, R nu -> zsum core <= zsum nu <= zsum mu.
  Proof.
    intros nu H. split; apply zsum_le_rows.
    - rewrite core_len, (R_len nu H). reflexivity.
    - intros i Hi. apply R_ge; [assumption|lia].
    - apply R_len. assumption.
    - intros i Hi. apply R_ge; [assumption|]. rewrite <- (R_len nu H). assumption.
  Qed.

  Lemma upd_back : forall nu i, (i < length nu)%nat -> upd (upd nu i (row nu i - 1)) i (row (upd nu i (row nu i - 1)) i + 1) = nu.
  Proof.
    intros nu i Hi. apply rows_ext; [rewrite !upd_length; reflexivity|]. intros j Hj. rewrite !upd_row by (rewrite ?upd_length; assumption).
    rewrite Nat.eqb_refl. destruct (j =? i)%nat eqn:E; [apply Nat.eqb_eq in E; subst; lia|reflexivity].
  Qed.

  Lemma raise_spec : forall L s, zsum core <= s -> (forall nu, In nu L <-> R nu /\ zsum nu = s) ->
    forall nu, In nu (raise_level mu ok L) <-> R nu /\ zsum nu = s + 1.
  Proof.
    intros L s Hs HL nu. rewrite raise_In. split.
    - intros (i & nu0 & Hi & H1 & H2 & ->). apply HL in H1. destruct H1 as [H1 H3]. split; [apply R_up; assumption|].
      rewrite zsum_upd by (rewrite (R_len nu0 H1); assumption). lia.
    - intros [H1 H2]. destruct (R_down nu H1 ltac:(lia)) as (i & Hi & D1 & D2).
      assert (Hi' : (i < length nu)%nat) by (rewrite (R_len nu H1); assumption).
      exists i, (upd nu i (row nu i - 1)). split; [assumption|]. split; [|split; [assumption|symmetry; apply upd_back; assumption]].
      apply HL. split; [assumption|]. rewrite zsum_upd by assumption. lia.
  Qed.

  Lemma R_descend : forall k nu s, R nu -> zsum core <= s -> zsum nu = s + Z.of_nat k -> exists nu0, R nu0 /\ zsum nu0 = s.
  Proof.
    induction k as [|k IH]; intros nu s H Hs E; [exists nu; split; [assumption|lia]|].
    destruct (R_down nu H ltac:(lia)) as (i & Hi & D1 & D2).
    apply (IH _ s D1 Hs). rewrite zsum_upd by (rewrite (R_len nu H); assumption). lia.
  Qed.

  Lemma levels_spec : forall fuel L s, NoDup L -> zsum core <= s -> (forall nu, In nu L <-> R nu /\ zsum nu = s) ->
    zsum mu - s < Z.of_nat fuel ->
    exists l, levels ord fuel emit (raise_level mu ok) L = Ok (map emit l) /\ NoDup l /\ forall nu, In nu l <-> R nu /\ s <= zsum nu.
  Proof.
    induction fuel as [|fuel IH]; intros L s N Hs HL Hf.
    - assert (L = []).
      { destruct L as [|x L]; [reflexivity|]. pose proof (proj1 (HL x) (or_introl eq_refl)) as [C1 C2]. apply R_zsum in C1. lia. }
      subst L. exists []. split; [reflexivity|]. split; [constructor|]. intro nu. split; [intros []|]. intros [C1 C2]. apply R_zsum in C1. lia.
    - destruct L as [|x L'] eqn:EL.
      + exists []. split; [reflexivity|]. split; [constructor|]. intro nu. split; [intros []|]. intros [C1 C2].
        destruct (R_descend (Z.to_nat (zsum nu - s)) nu s C1 Hs ltac:(lia)) as (nu0 & D1 & D2). apply (proj2 (HL nu0)). split; assumption.
      + rewrite <- EL in *. cbn [levels].
        destruct (IH (raise_level mu ok L) (s + 1)) as (l & E & Nl & Hl).
        * unfold raise_level. apply sett_NoDup.
        * lia.
        * apply raise_spec; assumption.
        * lia.
        * rewrite E. cbn [rbind]. exists (ord L ++ l). split; [subst L; rewrite map_app; reflexivity|]. split.
          -- apply NoDup_app_intro.
             ++ eapply Permutation_NoDup; [apply Permutation_sym, ord_perm|assumption].
             ++ assumption.
             ++ intros y H1 H2. apply (Permutation_in y (ord_perm L)) in H1. apply HL in H1. apply Hl in H2. lia.
          -- intro nu. rewrite in_app_iff. split.
             ++ intros [H|H]; [apply (Permutation_in nu (ord_perm L)) in H; apply HL in H; split; [tauto|lia]|apply Hl in H; split; [tauto|lia]].
             ++ intros [H1 H2]. destruct (Z.eq_dec (zsum nu) s) as [C|C].
                ** left. apply (Permutation_in nu (Permutation_sym (ord_perm L))). apply HL. split; assumption.
                ** right. apply Hl. split; [assumption|lia].
  Qed.

  Lemma strips_spec : exists l, levels ord (S (Z.to_nat (zsum mu - zsum core))) emit (raise_level mu ok) [core] = Ok (map emit l) /\
    NoDup l /\ forall nu, In nu l <-> R nu.
  Proof.
    destruct (levels_spec (S (Z.to_nat (zsum mu - zsum core))) [core] (zsum core)) as (l & E & N & H).
    - repeat constructor. intros [].
    - lia.
    - intro nu. split; [intros [<-|[]]; split; [assumption|reflexivity]|]. intros [H1 H2]. left. apply zsum_eq_rows.
      + rewrite core_len, (R_len nu H1). reflexivity.
      + intros i Hi. apply R_ge; [assumption|lia].
      + lia.
    - pose proof (R_zsum core R_core). lia.
    - exists l. split; [assumption|]. split; [assumption|]. intro nu. rewrite H. split; [tauto|]. intro Hn. split; [assumption|]. apply R_zsum in Hn. lia.
  Qed.
End Generic.

Lemma core_max_ok : forall core lam, (length lam <= length core)%nat -> (forall i, (i < length core)%nat -> 0 <= row core i) ->
  exists c, core_max core lam = Ok c /\ length c = length core /\ forall i, (i < length core)%nat -> row c i = Z.max (row core i) (row lam i).
Proof.
  intros core lam L P. unfold core_max. replace (zlen core <? zlen lam) with false by (symmetry; apply Z.ltb_ge; unfold zlen; lia).
  eexists. split; [reflexivity|]. split.
  - rewrite map_length, length_zrange. unfold zlen. lia.
  - intros i Hi. rewrite map_zrange_row. replace (Z.of_nat i <? zlen core) with true by (symmetry; apply Z.ltb_lt; unfold zlen; lia).
    rewrite !nthz_row. destruct (Z.of_nat i <? zlen lam) eqn:E; [reflexivity|]. apply Z.ltb_ge in E. unfold zlen in E.
    rewrite (row_overflow lam) by lia. specialize (P i Hi). lia.
Qed.
Lemma removelast_length : forall (l : list Z), length (removelast l) = (length l - 1)%nat.
Proof. induction l as [|a [|b l] IH]; [reflexivity|reflexivity|]. change (length (removelast (a :: b :: l))) with (S (length (removelast (b :: l)))). rewrite IH. cbn [length]. lia. Qed.
Lemma removelast_row : forall l i, row (removelast l) i = if (S i <? length l)%nat then row l i else 0.
Proof.
  induction l as [|a [|b l] IH]; intro i.
  - rewrite row_nil. reflexivity.
  - cbn [removelast length]. rewrite row_nil. destruct (S i <? 1)%nat eqn:E; [apply Nat.ltb_lt in E; lia|reflexivity].
  - change (removelast (a :: b :: l)) with (a :: removelast (b :: l)). destruct i as [|i]; [reflexivity|].
    change (row (a :: removelast (b :: l)) (S i)) with (row (removelast (b :: l)) i). rewrite IH. reflexivity.
Qed.
Lemma chop_length : forall nu, (length nu - 1 <= length (chop nu) <= length nu)%nat.
Proof. intros [|a nu]; [cbn; lia|]. unfold chop. destruct (0 <? last (a :: nu) 0); [lia|]. rewrite removelast_length. lia. Qed.
Lemma chop_row : forall nu i, 0 <= last nu 0 -> row (chop nu) i = row nu i.
Proof.
  intros nu i H. destruct nu as [|a nu]; [reflexivity|]. unfold chop. destruct (0 <? last (a :: nu) 0) eqn:E; [reflexivity|]. apply Z.ltb_ge in E.
  rewrite removelast_row. destruct (S i <? length (a :: nu))%nat eqn:L; [reflexivity|]. apply Nat.ltb_ge in L.
  destruct (Nat.eq_dec (S i) (length (a :: nu))) as [C|C].
  - rewrite last_row in H, E by discriminate. rewrite <- C in H, E. replace (S i - 1)%nat with i in * by lia. lia.
  - rewrite row_overflow by lia. reflexivity.
Qed.
Lemma Forall_rows : forall (P : Z -> Prop) l, (forall i, (i < length l)%nat -> P (row l i)) -> Forall P l.
Proof. induction l as [|a l IH]; intro H; [constructor|]. constructor; [exact (H 0%nat ltac:(cbn; lia))|]. apply IH. intros i Hi. apply (H (S i)). cbn. lia. Qed.
Lemma chop_pos : forall nu, (forall i, (S i < length nu)%nat -> 0 < row nu i) -> 0 <= last nu 0 -> Forall (fun a => 0 < a) (chop nu).
Proof.
  intros nu H L. apply Forall_rows. intros i Hi. rewrite chop_row by assumption. destruct nu as [|a nu]; [cbn in Hi; lia|].
  destruct (Nat.eq_dec (S i) (length (a :: nu))) as [C|C].
  - unfold chop in Hi. destruct (0 <? last (a :: nu) 0) eqn:E.
    + apply Z.ltb_lt in E. rewrite last_row in E by discriminate. rewrite <- C in E. replace (S i - 1)%nat with i in * by lia. assumption.
    + rewrite removelast_length in Hi. lia.
  - pose proof (chop_length (a :: nu)). apply H. lia.
Qed.

(* pad with zeros to length m *)
Definition pad (m : nat) (k : list Z) : list Z := map (row k) (seq 0 m).
Lemma pad_length : forall m k, length (pad m k) = m.
Proof. intros. unfold pad. rewrite map_length, seq_length. reflexivity. Qed.
Lemma pad_row : forall m k i, (i < m)%nat -> row (pad m k) i = row k i.
Proof.
  intros m k i H. unfold pad. unfold row at 1. rewrite nth_indep with (d' := row k 0) by (rewrite map_length, seq_length; assumption).
  rewrite map_nth, seq_nth by assumption. reflexivity.
Qed.
Lemma pad_chop : forall m nu, length nu = m -> 0 <= last nu 0 -> pad m (chop nu) = nu.
Proof. intros m nu E L. apply rows_ext; [rewrite pad_length; congruence|]. intros i Hi. rewrite pad_length in Hi. rewrite pad_row, chop_row by assumption. reflexivity. Qed.

(* cells between two shapes *)
Definition off (sh : bool) (i : Z) : Z := if sh then i else 0.
Lemma strip_diff_In : forall sh mu nu a b, In (a, b) (strip_diff sh mu nu) <->
  exists i, (i < length mu)%nat /\ a = Z.of_nat i + 1 /\ row nu i < b - off sh (Z.of_nat i) <= row mu i.
Proof.
  intros sh mu nu a b. unfold strip_diff. rewrite in_flat_map. split.
  - intros (z & Hz & H). apply In_zrange in Hz. unfold zlen in Hz. apply in_map_iff in H. destruct H as (j & E & H). apply In_zrange in H. injection E as E1 E2.
    exists (Z.to_nat z). replace z with (Z.of_nat (Z.to_nat z)) in * by lia. rewrite !nthz_row in H. rewrite Nat2Z.id in *. split; [lia|]. split; [lia|]. unfold off. lia.
  - intros (i & Hi & -> & H). exists (Z.of_nat i). split; [apply In_zrange; unfold zlen; lia|]. apply in_map_iff. exists (b - off sh (Z.of_nat i) - 1). rewrite !nthz_row.
    split; [f_equal; unfold off; lia|]. apply In_zrange. lia.
Qed.
Lemma strip_diff_NoDup : forall sh mu nu, NoDup (strip_diff sh mu nu).
Proof.
  intros sh mu nu. unfold strip_diff. apply NoDup_flat_map.
  - apply NoDup_zrange.
  - intros x _. apply NoDup_map_inj_in; [|apply NoDup_zrange]. intros y z _ _ E. injection E. lia.
  - intros x y z _ _ Hx Hy. apply in_map_iff in Hx, Hy. destruct Hx as (u & <- & _), Hy as (v & E & _). injection E. lia.
Qed.

Definition sshape (s : strip) : list Z := fst (fst s).
Definition strip_spec (K : list Z -> Prop) (D C : list Z -> Z -> Z -> Prop) (r : list strip) : Prop :=
  NoDup (map sshape r) /\
  (forall k, In k (map sshape r) <-> K k) /\
  forall k diff corners, In (k, diff, corners) r ->
    NoDup diff /\ (forall a b, In (a, b) diff <-> D k a b) /\
    NoDup corners /\ (forall a b, In (a, b) corners <-> C k a b).

Section Concrete.
  Variable ord : list (list Z) -> list (list Z).
  Hypothesis ord_perm : forall l, Permutation (ord l) l.
  Variables (mu core : list Z) (sh strict : bool) (cond : list Z -> Z -> bool).
  Hypothesis mu_pos : Forall (fun a => 0 < a) mu.
  Hypothesis core_len : length core = length mu.
  Hypothesis core_pos : forall i, (S i < length mu)%nat -> 0 < row core i.
  Hypothesis core_nonneg : forall i, (i < length mu)%nat -> 0 <= row core i <= row mu i.
  Hypothesis core_strict : strict = true -> forall i, (S i < length mu)%nat -> row core (S i) < row core i.

  Definition inR (nu : list Z) : Prop :=
    length nu = length mu /\ (forall i, (i < length mu)%nat -> row core i <= row nu i <= row mu i) /\
    (strict = true -> forall i, (S i < length mu)%nat -> row nu (S i) < row nu i).
  Definition inK (k : list Z) : Prop :=
    Forall (fun a => 0 < a) k /\ (length k <= length mu)%nat /\ (forall i, (i < length mu)%nat -> row core i <= row k i <= row mu i) /\
    (strict = true -> forall i, (S i < length mu)%nat -> row k (S i) < row k i).
  Definition okfn (nu : list Z) (i : Z) : bool :=
    if strict then (nthz nu i <? nthz mu i) && ((i =? 0) || (1 + nthz nu i <? nthz nu (i - 1))) else nthz nu i <? nthz mu i.
  Lemma okfn_spec : forall nu i, okfn nu i = true <->
    nthz nu i < nthz mu i /\ (strict = true -> i = 0 \/ 1 + nthz nu i < nthz nu (i - 1)).
  Proof.
    intros nu i. unfold okfn. destruct strict.
    - rewrite andb_true_iff, orb_true_iff, !Z.ltb_lt, Z.eqb_eq. tauto.
    - rewrite Z.ltb_lt. split; [intro; split; [assumption|discriminate]|tauto].
  Qed.

  Lemma inR_last : forall nu, inR nu -> 0 <= last nu 0.
  Proof.
    intros nu (L & H & _). destruct nu as [|a nu]; [cbn; lia|]. rewrite last_row by discriminate.
    assert (X : (length (a :: nu) - 1 < length mu)%nat) by (rewrite L; cbn [length] in L |- *; lia). specialize (H _ X). specialize (core_nonneg _ X). lia.
  Qed.

  Lemma down_index : forall n nu, (forall i, (i < n)%nat -> row core i <= row nu i) -> (exists i, (i < n)%nat /\ row core i < row nu i) ->
    exists i, (i < n)%nat /\ row core i < row nu i /\ forall j, (i < j < n)%nat -> row nu j = row core j.
  Proof.
    induction n as [|n IH]; intros nu H (i & Hi & E); [lia|]. destruct (Z_lt_le_dec (row core n) (row nu n)) as [C|C].
    - exists n. split; [lia|]. split; [assumption|]. intros j Hj. lia.
    - assert (i <> n) by (intro; subst; lia). destruct (IH nu) as (i0 & H1 & H2 & H3).
      + intros j Hj. apply H. lia.
      + exists i. split; [lia|assumption].
      + exists i0. split; [lia|]. split; [assumption|]. intros j Hj. destruct (Nat.eq_dec j n) as [->|N]; [|apply H3; lia]. specialize (H n ltac:(lia)). lia.
  Qed.

  Lemma zsum_lt_ex : forall a b, length a = length b -> zsum a < zsum b -> exists i, (i < length a)%nat /\ row a i < row b i.
  Proof.
    induction a as [|x a IH]; intros [|y b] L H; try discriminate L; [cbn in H; lia|]. cbn [zsum] in H. injection L as L.
    destruct (Z_lt_le_dec x y) as [C|C]; [exists 0%nat; split; [cbn; lia|exact C]|].
    destruct (IH b L ltac:(lia)) as (i & Hi & E). exists (S i). split; [cbn; lia|exact E].
  Qed.

  Lemma generic_strips : forall emit, exists l,
    levels ord (S (Z.to_nat (zsum mu - zsum core))) emit (raise_level mu okfn) [core] = Ok (map emit l) /\ NoDup l /\ forall nu, In nu l <-> inR nu.
  Proof.
    intro emit. apply strips_spec; try assumption.
    - intros nu H. apply H.
    - intros nu H. apply H.
    - split; [assumption|]. split; [|assumption]. intros i Hi. specialize (core_nonneg i Hi). lia.
    - intros nu i (L & H & Hst) Hi Ok. apply okfn_spec in Ok. rewrite !nthz_row in Ok. destruct Ok as [O1 O2].
      assert (Hi' : (i < length nu)%nat) by lia. split; [rewrite upd_length; assumption|]. split.
      + intros j Hj. rewrite upd_row by assumption. specialize (H j Hj). destruct (j =? i)%nat eqn:E; [apply Nat.eqb_eq in E; subst; lia|assumption].
      + intros Es j Hj. rewrite !upd_row by assumption. specialize (Hst Es j Hj). specialize (O2 Es).
        destruct (S j =? i)%nat eqn:E1; [apply Nat.eqb_eq in E1|apply Nat.eqb_neq in E1]; (destruct (j =? i)%nat eqn:E2; [apply Nat.eqb_eq in E2|apply Nat.eqb_neq in E2]); try subst i; try lia.
        destruct O2 as [O2|O2]; [lia|]. replace (Z.of_nat (S j) - 1) with (Z.of_nat j) in O2 by lia. rewrite nthz_row in O2. lia.
    - intros nu (L & H & Hst) Hz.
      destruct (zsum_lt_ex core nu ltac:(congruence) Hz) as (i0 & Hi0 & Ei0). rewrite core_len in Hi0.
      destruct (down_index (length mu) nu) as (i & Hi & E & Hgt); [intros i Hi; apply H; assumption|exists i0; split; assumption|].
      assert (Hi' : (i < length nu)%nat) by lia. exists i. split; [assumption|]. split; [split; [rewrite upd_length; assumption|split]|].
      + intros j Hj. rewrite upd_row by assumption. specialize (H j Hj). destruct (j =? i)%nat eqn:Ej; [apply Nat.eqb_eq in Ej; subst; lia|assumption].
      + intros Es j Hj. rewrite !upd_row by assumption. pose proof (Hst Es j Hj) as Hs.
        destruct (S j =? i)%nat eqn:E1; [apply Nat.eqb_eq in E1|apply Nat.eqb_neq in E1]; (destruct (j =? i)%nat eqn:E2; [apply Nat.eqb_eq in E2|apply Nat.eqb_neq in E2]); try subst i; try lia.
        rewrite (Hgt (S j)) by lia. specialize (core_strict Es j Hj). lia.
      + apply okfn_spec. rewrite !nthz_row, upd_row, Nat.eqb_refl by assumption. split; [specialize (H i Hi); lia|].
        intro Es. destruct i as [|i]; [left; reflexivity|]. right.
        replace (Z.of_nat (S i) - 1) with (Z.of_nat i) by lia. rewrite nthz_row, upd_row by assumption.
        replace (i =? S i)%nat with false by (symmetry; apply Nat.eqb_neq; lia). specialize (Hst Es i Hi). lia.
  Qed.

  Definition emitfn (nu : list Z) : strip :=
    let diff := strip_diff sh mu nu in
    let nu := chop nu in
    (nu, diff, map (fun i => (i + 1, off sh i + nthz nu i)) (filter (cond nu) (zrange 0 (zlen nu)))).

  Lemma inR_inK : forall nu, inR nu -> inK (chop nu).
  Proof.
    intros nu H. pose proof (inR_last nu H) as L. destruct H as (H1 & H2 & H3). split; [|split; [|split]].
    - apply chop_pos; [|assumption]. intros i Hi. rewrite H1 in Hi. specialize (core_pos i Hi). specialize (H2 i ltac:(lia)). lia.
    - pose proof (chop_length nu). lia.
    - intros i Hi. rewrite chop_row by assumption. apply H2. assumption.
    - intros Es i Hi. rewrite !chop_row by assumption. apply H3; assumption.
  Qed.
  Lemma inK_inR : forall k, inK k -> inR (pad (length mu) k) /\ chop (pad (length mu) k) = k.
  Proof.
    intros k (H1 & H2 & H3 & H4).
    assert (HR : inR (pad (length mu) k)).
    { split; [apply pad_length|]. split.
      - intros i Hi. rewrite pad_row by assumption. apply H3. assumption.
      - intros Es i Hi. rewrite !pad_row by lia. apply H4; assumption. }
    split; [assumption|]. apply pos_ext; [apply (inR_inK _ HR)|assumption|]. intro i. rewrite chop_row by (apply inR_last; assumption).
    destruct (lt_dec i (length mu)) as [C|C]; [apply pad_row; assumption|]. rewrite !row_overflow; [reflexivity|lia|rewrite pad_length; lia].
  Qed.

  Lemma concrete_strips : exists r, levels ord (S (Z.to_nat (zsum mu - zsum core))) emitfn (raise_level mu okfn) [core] = Ok r /\
    strip_spec inK
      (fun k a b => exists i, (i < length mu)%nat /\ a = Z.of_nat i + 1 /\ row k i < b - off sh (Z.of_nat i) <= row mu i)
      (fun k a b => exists i, (i < length k)%nat /\ cond k (Z.of_nat i) = true /\ a = Z.of_nat i + 1 /\ b = off sh (Z.of_nat i) + row k i) r.
  Proof.
    destruct (generic_strips emitfn) as (l & E & N & HR). exists (map emitfn l). split; [assumption|].
    assert (K : map sshape (map emitfn l) = map chop l) by (rewrite map_map; reflexivity).
    split; [|split].
    - rewrite K. apply NoDup_map_inj_in; [|assumption]. intros x y Hx Hy Exy. apply HR in Hx, Hy.
      rewrite <- (pad_chop (length mu) x), <- (pad_chop (length mu) y); [rewrite Exy; reflexivity|apply Hy|apply inR_last; assumption|apply Hx|apply inR_last; assumption].
    - intro k. rewrite K. split.
      + intro H. apply in_map_iff in H. destruct H as (nu & <- & H). apply inR_inK. apply HR. assumption.
      + intro H. apply in_map_iff. exists (pad (length mu) k). destruct (inK_inR k H) as [A B]. split; [assumption|apply HR; assumption].
    - intros k diff corners H. apply in_map_iff in H. destruct H as (nu & Eq & H). apply HR in H. injection Eq as <- <- <-. split; [apply strip_diff_NoDup|]. split.
      + intros a b. rewrite strip_diff_In. pose proof (inR_last nu H).
        split; intros (i & H1 & H2 & H3); exists i; (split; [assumption|]); (split; [assumption|]); rewrite (chop_row nu) in * by assumption; assumption.
      + split.
        * apply NoDup_map_inj_in; [|apply NoDup_filter, NoDup_zrange]. intros x y _ _ Exy. injection Exy. lia.
        * intros a b. rewrite in_map_iff. split.
          -- intros (z & Ez & Hz). apply filter_In in Hz. destruct Hz as [Hz1 Hz2]. apply In_zrange in Hz1. injection Ez as <- <-. unfold zlen in Hz1. exists (Z.to_nat z).
             rewrite <- nthz_row, Z2Nat.id by lia. split; [lia|]. split; [assumption|]. split; reflexivity.
          -- intros (i & H1 & H2 & -> & ->). exists (Z.of_nat i). rewrite nthz_row. split; [reflexivity|]. apply filter_In. split; [apply In_zrange; unfold zlen; lia|assumption].
  Qed.
End Concrete.
