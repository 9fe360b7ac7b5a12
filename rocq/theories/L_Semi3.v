(* The enumerators of M_Semistandard list exactly the fillings *)
From Coq Require Import List ZArith Lia Bool Permutation Sorted.
From Verif Require Import PyBase M_Partitions S_Partitions L_Partitions L_PartBasic M_Tableaux S_Tableaux L_Tableaux M_Strips S_Strips L_Strips L_Strips2 L_Strips3
  M_Semistandard S_Semistandard L_Fill L_Shape L_Semi L_Semi2.
Import ListNotations.
Local Open Scope Z_scope.

(* sets of tableaux *)
Lemma teqb_eq : forall t u, teqb t u = true <-> t = u.
Proof.
  induction t as [|[c v] t IH]; intros [|[d w] u]; cbn [teqb]; try (split; [discriminate|discriminate]); [split; reflexivity|].
  rewrite !andb_true_iff, box_eqb_eq, zlist_eqb_eq, IH. split; [intros [[-> ->] ->]; reflexivity|]. intro H. injection H as -> -> ->. auto.
Qed.
Lemma mem_tab_In : forall t s, mem_tab t s = true <-> In t s.
Proof.
  intros t s. unfold mem_tab. rewrite existsb_exists. split; [intros (x & H & E); apply teqb_eq in E; subst; assumption|].
  intro H. exists t. split; [assumption|apply teqb_eq; reflexivity].
Qed.
Lemma set_tab_In : forall l t, In t (set_tab l) <-> In t l.
Proof.
  induction l as [|a l IH]; intro t; [reflexivity|]. cbn [set_tab]. destruct (mem_tab a (set_tab l)) eqn:E.
  - apply mem_tab_In in E. rewrite IH in *. cbn [In]. split; [tauto|]. intros [<-|H]; assumption.
  - cbn [In]. rewrite IH. reflexivity.
Qed.
Lemma set_tab_NoDup : forall l, NoDup (set_tab l).
Proof.
  induction l as [|a l IH]; [constructor|]. cbn [set_tab]. destruct (mem_tab a (set_tab l)) eqn:E; [assumption|]. constructor; [|assumption].
  intro H. apply mem_tab_In in H. congruence.
Qed.

(* loops *)
Lemma rmap_ok : forall A B (f : A -> res B) l, (forall x, In x l -> exists y, f x = Ok y) ->
  exists r, rmap f l = Ok r /\ forall y, In y r <-> exists x, In x l /\ f x = Ok y.
Proof.
  induction l as [|a l IH]; intro H; cbn [rmap]; [exists []; split; [reflexivity|]; intro y; split; [intros []|intros (x & [] & _)]|].
  destruct (H a (or_introl eq_refl)) as [b Eb]. destruct IH as (r & Er & Hr); [intros x Hx; apply H; right; assumption|].
  rewrite Eb. cbn [rbind]. rewrite Er. cbn [rbind]. exists (b :: r). split; [reflexivity|]. intro y. cbn [In]. rewrite Hr. split.
  - intros [<-|(x & Hx & E)]; [exists a; split; [left; reflexivity|assumption]|exists x; split; [right; assumption|assumption]].
  - intros (x & [<-|Hx] & E); [left; congruence|right; exists x; split; assumption].
Qed.
Lemma rconcat_ok : forall A B (f : A -> res (list B)) l, (forall x, In x l -> exists y, f x = Ok y) ->
  exists r, rconcat f l = Ok r /\ forall y, In y r <-> exists x ys, In x l /\ f x = Ok ys /\ In y ys.
Proof.
  intros A B f l H. unfold rconcat. destruct (rmap_ok _ _ f l H) as (r & Er & Hr). rewrite Er. cbn [rbind]. exists (concat r). split; [reflexivity|].
  intro y. rewrite in_concat. split.
  - intros (ys & H1 & H2). apply Hr in H1. destruct H1 as (x & Hx & E). exists x, ys. tauto.
  - intros (x & ys & Hx & E & Hy). exists ys. split; [apply Hr; exists x; tauto|assumption].
Qed.

(* _subsets *)
Lemma badd_new : forall s c, ~ In c s -> badd s c = s ++ [c].
Proof.
  intros s c H. unfold badd. destruct (existsb (box_eqb c) s) eqn:E; [|reflexivity]. exfalso. apply existsb_exists in E. destruct E as (x & Hx & E). apply box_eqb_eq in E. subst. contradiction.
Qed.
Lemma subset_loop_spec : forall corners diff v, NoDup (diff ++ corners) -> exists C, In C (sublists corners) /\ subset_loop diff corners v = diff ++ C.
Proof.
  induction corners as [|c cs IH]; intros diff v N.
  - exists []. split; [left; reflexivity|]. cbn [subset_loop]. rewrite app_nil_r. reflexivity.
  - cbn [subset_loop]. destruct (v mod 2 =? 0).
    + destruct (IH diff (v / 2)) as (C & HC & E); [apply NoDup_remove_1 in N; assumption|]. exists C. split; [apply in_or_app; left; assumption|assumption].
    + rewrite badd_new by (apply NoDup_remove_2 in N; intro X; apply N; apply in_or_app; left; assumption).
      destruct (IH (diff ++ [c]) (v / 2)) as (C & HC & E); [rewrite <- app_assoc; exact N|]. exists (c :: C).
      split; [apply in_or_app; right; apply in_map; assumption|]. rewrite E, <- app_assoc. reflexivity.
Qed.
Lemma subset_loop_onto : forall corners diff C, NoDup (diff ++ corners) -> In C (sublists corners) ->
  exists v, 0 <= v < 2 ^ zlen corners /\ subset_loop diff corners v = diff ++ C.
Proof.
  induction corners as [|c cs IH]; intros diff C N HC.
  - destruct HC as [<-|[]]. exists 0. split; [cbn; lia|]. cbn [subset_loop]. rewrite app_nil_r. reflexivity.
  - rewrite zlen_cons. pose proof (zlen_nonneg _ cs). replace (2 ^ (zlen cs + 1)) with (2 * 2 ^ zlen cs) by (rewrite Z.pow_add_r by lia; lia).
    cbn [sublists] in HC. apply in_app_or in HC. destruct HC as [HC|HC].
    + destruct (IH diff C) as (v & Hv & E); [apply NoDup_remove_1 in N; assumption|assumption|]. exists (2 * v). split; [lia|]. cbn [subset_loop].
      replace ((2 * v) mod 2) with 0 by (rewrite Z.mul_comm, Z.mod_mul; lia). replace (2 * v / 2) with v by (rewrite Z.mul_comm, Z.div_mul; lia). exact E.
    + apply in_map_iff in HC. destruct HC as (D & <- & HC). destruct (IH (diff ++ [c]) D) as (v & Hv & E); [rewrite <- app_assoc; exact N|assumption|].
      exists (2 * v + 1). split; [lia|]. cbn [subset_loop].
      replace ((2 * v + 1) mod 2) with 1 by (rewrite Z.add_comm, Z.mul_comm, Z.mod_add; [reflexivity|lia]).
      replace ((2 * v + 1) / 2) with v by (rewrite Z.add_comm, Z.mul_comm, Z.div_add; [reflexivity|lia]). cbn [Z.eqb].
      rewrite badd_new by (apply NoDup_remove_2 in N; intro X; apply N; apply in_or_app; left; assumption). rewrite E, <- app_assoc. reflexivity.
Qed.
Lemma subsets_In : forall diff corners sv aug, NoDup (diff ++ corners) ->
  (In aug (subsets diff corners sv) <-> exists C, In C (choose sv corners) /\ aug = diff ++ C).
Proof.
  intros diff corners [|] aug N; cbn [subsets choose].
  - rewrite in_map_iff. split.
    + intros (v & <- & _). destruct (subset_loop_spec corners diff v N) as (C & HC & E). exists C. split; assumption.
    + intros (C & HC & ->). destruct (subset_loop_onto corners diff C N HC) as (v & Hv & E). exists v. split; [assumption|]. apply In_zrange. lia.
  - split.
    + intros [<-|[]]. exists []. split; [left; reflexivity|rewrite app_nil_r; reflexivity].
    + intros (C & [<-|[]] & ->). rewrite app_nil_r. left. reflexivity.
Qed.

(* strips as layers *)
Definition flt (prb : box -> bool) (r : list strip) : list strip :=
  map (fun s => match s with (nu, d, c) => (nu, d, filter prb c) end) (filter (fun s => match s with (nu, d, c) => forallb prb d end) r).
Lemma flt_In : forall prb r nu d c, In (nu, d, c) (flt prb r) <-> exists c0, In (nu, d, c0) r /\ forallb prb d = true /\ c = filter prb c0.
Proof.
  intros prb r nu d c. unfold flt. rewrite in_map_iff. split.
  - intros ([[nu0 d0] c0] & E & H). injection E as -> -> <-. apply filter_In in H. exists c0. tauto.
  - intros (c0 & H & F & ->). exists (nu, d, c0). split; [reflexivity|]. apply filter_In. tauto.
Qed.
Lemma flt_all : forall prb r, (forall b, prb b = true) -> flt prb r = r.
Proof.
  intros prb r H. unfold flt. assert (F : forall l, filter prb l = l) by (induction l as [|a l IH]; [reflexivity|]; cbn [filter]; rewrite H, IH; reflexivity).
  assert (G : forall l, forallb prb l = true) by (induction l as [|a l IH]; [reflexivity|]; cbn [forallb]; rewrite H, IH; reflexivity).
  induction r as [|[[nu d] c] r IH]; [reflexivity|]. cbn [filter]. rewrite G. cbn [map]. rewrite F, IH. reflexivity.
Qed.
Lemma flt_NoDup : forall prb r, NoDup (map sshape r) -> NoDup (map sshape (flt prb r)).
Proof.
  intros prb r. induction r as [|[[nu d] c] r IH]; intro N; [constructor|]. cbn [map] in N. inversion N as [|? ? N1 N2]; subst.
  unfold flt. cbn [filter]. destruct (forallb prb d); [|apply IH; assumption]. cbn [map]. constructor; [|apply IH; assumption].
  intro X. apply N1. apply in_map_iff in X. destruct X as ([[nu0 d0] c0] & E & X). apply flt_In in X. destruct X as (c1 & X & _).
  apply in_map_iff. exists (nu0, d0, c1). split; [exact E|assumption].
Qed.

Lemma letter_sign : forall k, 1 <= k -> (Z.even k = true -> 0 < letter k) /\ (Z.even k = false -> letter k < 0).
Proof.
  intros k H. unfold letter. split; intro E; rewrite E.
  - assert (k <> 1) by (intros ->; discriminate). assert (1 <= k / 2) by (change 1 with (2 / 2); apply Z.div_le_mono; lia). lia.
  - assert (X : 2 / 2 <= (k + 1) / 2) by (apply Z.div_le_mono; lia). change (2 / 2) with 1 in X. lia.
Qed.

Section Layers.
  Variable ord : list (list Z) -> list (list Z).
  Hypothesis ord_perm : forall l, Permutation (ord l) l.
  Variable sh : bool.
  Definition hstrips (mu lam : list Z) := if sh then shifted_horizontal_strips ord mu lam else horizontal_strips ord mu lam.
  Definition vstrips (mu lam : list Z) := if sh then shifted_vertical_strips ord mu lam else vertical_strips ord mu lam.

  Lemma part_incl : forall a b, part_b sh a -> part_b sh b -> ((forall c, dc sh a c -> dc sh b c) <-> forall i, row a i <= row b i).
  Proof.
    intros a b Ha Hb. apply part_b_part in Ha, Hb.
    rewrite <- (dcell_incl sh a b (fun i => partition_nonneg _ i Ha) (fun i => partition_nonneg _ i Hb)). split; [intros H i j; apply (H (i, j))|intros H [i j]; apply H].
  Qed.

  Lemma hlayer : forall pr k lam mu, 1 <= k -> Z.even k = true -> part_b sh lam -> part_b sh mu -> (forall b, dc sh lam b -> dc sh mu b) ->
    exists r, hstrips mu lam = Ok r /\ layer_ok sh pr lam k mu r.
  Proof.
    intros pr k lam mu Hk Ek Hl Hm Hi. pose proof (proj1 (letter_sign k Hk) Ek) as Hv.
    assert (HA : forall b, allowed pr b (letter k)) by (intros b X; lia).
    assert (X : exists r, hstrips mu lam = Ok r /\
      strip_spec (fun k => part_b sh k /\ between (dcell sh) lam k mu /\ column_free (dcell sh) mu k) (in_skew (dcell sh) mu) (fun k => free_horizontal (dcell sh) lam k mu) r).
    { pose proof (proj1 (part_incl lam mu Hl Hm) Hi) as Hr. unfold hstrips. destruct sh; cbn [part_b dcell] in *.
      - apply (shifted_horizontal_spec ord ord_perm); assumption.
      - apply (horizontal_spec ord ord_perm); assumption. }
    destruct X as (r & Er & N & HK & HD). exists r. split; [assumption|]. split; [assumption|]. unfold dir_s, dir_d. rewrite Ek. split.
    - intro nu. transitivity (In nu (map sshape r)).
      { rewrite in_map_iff. split; [intros (d & c & X); exists (nu, d, c); split; [reflexivity|assumption]|intros ([[n d] c] & E & X); exists d, c; rewrite <- E; exact X]. }
      rewrite HK. split.
      + intros (P & [B1 B2] & CF). split; [assumption|]. split; [intros [i j]; apply B1|]. split; [intros [i j]; apply B2|]. split; [|intros; apply HA].
        apply column_free_adj; assumption.
      + intros (P & B1 & B2 & Adj & _). split; [assumption|]. split; [split; intros i j; [apply (B1 (i, j))|apply (B2 (i, j))]|]. apply column_free_adj; assumption.
    - intros nu d c X. destruct (HD _ _ _ X) as (N1 & D1 & N2 & D2). split; [assumption|]. split; [intros [a b]; rewrite D1; reflexivity|]. split; [assumption|].
      intros [a b]. rewrite D2. unfold freeb, free_horizontal, dc, nexts, nextd. cbn [fst snd]. specialize (HA (a, b)). tauto.
  Qed.

  Lemma vlayer : forall prb k lam mu, 1 <= k -> Z.even k = false -> part_b sh lam -> part_b sh mu -> (forall b, dc sh lam b -> dc sh mu b) ->
    exists r, vstrips mu lam = Ok r /\ layer_ok sh (fun b => prb b = true) lam k mu (flt prb r).
  Proof.
    intros prb k lam mu Hk Ek Hl Hm Hi. pose proof (proj2 (letter_sign k Hk) Ek) as Hv.
    assert (HA : forall b, allowed (fun b => prb b = true) b (letter k) <-> prb b = true) by (intro b; unfold allowed; split; [intro X; apply X; assumption|intros X _; assumption]).
    assert (X : exists r, vstrips mu lam = Ok r /\
      strip_spec (fun k => part_b sh k /\ between (dcell sh) lam k mu /\ row_free (dcell sh) mu k) (in_skew (dcell sh) mu) (fun k => free_vertical (dcell sh) lam k mu) r).
    { pose proof (proj1 (part_incl lam mu Hl Hm) Hi) as Hr. unfold vstrips. destruct sh; cbn [part_b dcell] in *.
      - apply (shifted_vertical_spec ord ord_perm); assumption.
      - apply (vertical_spec ord ord_perm); assumption. }
    destruct X as (r & Er & N & HK & HD). exists r. split; [assumption|]. split; [apply flt_NoDup; assumption|]. unfold dir_s, dir_d. rewrite Ek.
    assert (FD : forall nu d c, In (nu, d, c) r -> (forallb prb d = true <-> forall b, dc sh mu b -> ~ dc sh nu b -> prb b = true)).
    { intros nu d c X. destruct (HD _ _ _ X) as (N1 & D1 & _). rewrite forallb_forall. split.
      - intros F [a b] M1 M2. apply F. apply D1. split; assumption.
      - intros F [a b] Hb. apply D1 in Hb. apply F; apply Hb. }
    split.
    - intro nu. transitivity (exists d c, In (nu, d, c) r /\ forall b, dc sh mu b -> ~ dc sh nu b -> prb b = true).
      { split.
        - intros (d & c & X). apply flt_In in X. destruct X as (c0 & X & F & _). exists d, c0. split; [assumption|]. apply (FD nu d c0); assumption.
        - intros (d & c & X & F). exists d, (filter prb c). apply flt_In. exists c. split; [assumption|]. split; [apply (FD nu d c); assumption|reflexivity]. }
      transitivity (In nu (map sshape r) /\ forall b, dc sh mu b -> ~ dc sh nu b -> prb b = true).
      { rewrite in_map_iff. split; [intros (d & c & X & F); split; [exists (nu, d, c); split; [reflexivity|assumption]|assumption]|intros [([[n d] c] & E & X) F]; exists d, c; split; [rewrite <- E; exact X|assumption]]. }
      rewrite HK. split.
      + intros ((P & [B1 B2] & CF) & F). split; [assumption|]. split; [intros [i j]; apply B1|]. split; [intros [i j]; apply B2|]. split; [|intros b M1 M2; apply (proj2 (HA b)); apply F; assumption].
        apply row_free_adj; assumption.
      + intros (P & B1 & B2 & Adj & F). split; [|intros b M1 M2; apply (proj1 (HA b)); apply F; assumption]. split; [assumption|]. split; [split; intros i j; [apply (B1 (i, j))|apply (B2 (i, j))]|]. apply row_free_adj; assumption.
    - intros nu d c X. apply flt_In in X. destruct X as (c0 & X & F & ->). destruct (HD _ _ _ X) as (N1 & D1 & N2 & D2). split; [assumption|]. split; [intros [a b]; rewrite D1; reflexivity|]. split; [apply NoDup_filter; assumption|].
      intros [a b]. rewrite filter_In, D2, HA. unfold freeb, free_vertical, dc, nexts, nextd. cbn [fst snd]. tauto.
  Qed.
End Layers.

(* base cases *)
Lemma proper_nil : proper [].
Proof. split; [apply wf_nil|]. intros b l []. Qed.
Lemma full_equal : forall sh pr sv lam k mu T, part_b sh lam -> part_b sh mu -> mu = lam -> (full sh pr sv lam k mu T <-> T = []).
Proof.
  intros sh pr sv lam k mu T Hl Hm ->. split.
  - intros [P (D1 & _)]. apply proper_ext; [assumption|apply proper_nil|]. intros b x. split.
    + intro H. exfalso. assert (X : exists x, Hd T b x) by (exists x; assumption). apply D1 in X. tauto.
    + intros (l & [] & _).
  - intros ->. assert (N : forall b x, ~ Hd [] b x) by (intros b x (l & [] & _)). split; [apply proper_nil|]. split; [|split; [|split; [|split]]].
    + intro b. split; [intros (x & X); exfalso; eapply N; eassumption|tauto].
    + intros b x X. exfalso. eapply N; eassumption.
    + intros b x y X. exfalso. eapply N; eassumption.
    + intros b x y X. exfalso. eapply N; eassumption.
    + intros _ b x y X. exfalso. eapply N; eassumption.
Qed.
Lemma full_zero : forall sh pr sv lam mu T, part_b sh lam -> part_b sh mu -> (forall b, dc sh lam b -> dc sh mu b) -> full sh pr sv lam 0 mu T -> mu = lam.
Proof.
  intros sh pr sv lam mu T Hl Hm Hi [P (D1 & D2 & _)]. apply (part_ext sh); [assumption|assumption|]. intro c. split; [|apply Hi].
  intro H. destruct (dc_dec sh lam c) as [|N]; [assumption|]. exfalso. destruct (proj2 (D1 c) (conj H N)) as [x Hx]. apply D2 in Hx. destruct Hx as [[? ?] _]. lia.
Qed.
(* without primes an odd letter changes nothing *)
Lemma full_noprime : forall sh sv lam mu n T, full sh (fun _ => false = true) sv lam (2 * n - 1) mu T <-> full sh (fun _ => false = true) sv lam (2 * n - 2) mu T.
Proof.
  assert (G : forall sh sv lam mu k k' T, (forall x, 0 <= x -> letters k x -> letters k' x) -> full sh (fun _ => false = true) sv lam k mu T -> full sh (fun _ => false = true) sv lam k' mu T).
  { intros sh sv lam mu k k' T E [P (D1 & D2 & D3 & D4 & D5)]. split; [assumption|]. split; [assumption|]. split; [|split; [assumption|split; assumption]].
    intros b x Hx. destruct (D2 b x Hx) as [L A]. split; [|assumption]. apply E; [|assumption]. destruct (Z_lt_le_dec x 0) as [C|C]; [exfalso; specialize (A C); discriminate|assumption]. }
  intros sh sv lam mu n T. split; apply G; intros x Hx; unfold letters; destruct (dbl_cases x); lia.
Qed.
