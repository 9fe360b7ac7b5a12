(* One letter at a time: fillings by the letters up to k and strips *)
From Coq Require Import List ZArith Lia Bool Permutation Sorted.
From Verif Require Import PyBase M_Partitions S_Partitions L_Partitions M_Tableaux S_Tableaux L_Tableaux M_Strips S_Strips L_Strips L_Strips2 L_Strips3
  M_Semistandard S_Semistandard L_Fill L_Shape L_Semi.
Import ListNotations.
Local Open Scope Z_scope.

(* sublists *)
Fixpoint sublists {A} (l : list A) : list (list A) :=
  match l with [] => [[]] | a :: l' => sublists l' ++ map (cons a) (sublists l') end.

Lemma sublists_incl : forall A (l C : list A) x, In C (sublists l) -> In x C -> In x l.
Proof.
  induction l as [|a l IH]; intros C x H Hx; cbn [sublists] in H.
  - destruct H as [<-|[]]. destruct Hx.
  - apply in_app_or in H. destruct H as [H|H]; [right; eapply IH; eassumption|]. apply in_map_iff in H. destruct H as (D & <- & H).
    destruct Hx as [<-|Hx]; [left; reflexivity|right; eapply IH; eassumption].
Qed.
Lemma sublists_NoDup1 : forall A (l C : list A), NoDup l -> In C (sublists l) -> NoDup C.
Proof.
  induction l as [|a l IH]; intros C N H; cbn [sublists] in H.
  - destruct H as [<-|[]]. constructor.
  - inversion N as [|? ? N1 N2]; subst. apply in_app_or in H. destruct H as [H|H]; [apply IH; assumption|]. apply in_map_iff in H. destruct H as (D & <- & H).
    constructor; [|apply IH; assumption]. intro X. apply N1. eapply sublists_incl; eassumption.
Qed.
Lemma sublists_ext : forall A (l C D : list A), NoDup l -> In C (sublists l) -> In D (sublists l) -> (forall x, In x C <-> In x D) -> C = D.
Proof.
  induction l as [|a l IH]; intros C D N HC HD E; cbn [sublists] in HC, HD.
  - destruct HC as [<-|[]], HD as [<-|[]]. reflexivity.
  - inversion N as [|? ? N1 N2]; subst. apply in_app_or in HC, HD. rewrite in_map_iff in HC, HD.
    destruct HC as [HC|(C' & <- & HC)], HD as [HD|(D' & <- & HD)].
    + apply IH; assumption.
    + exfalso. apply N1. apply (sublists_incl _ l C); [assumption|]. apply E. left. reflexivity.
    + exfalso. apply N1. apply (sublists_incl _ l D); [assumption|]. apply E. left. reflexivity.
    + f_equal. apply IH; try assumption. intro x. specialize (E x). cbn [In] in E. split; intro Hx.
      * destruct (proj1 E (or_intror Hx)) as [<-|]; [|assumption]. exfalso. apply N1. exact (sublists_incl _ l C' _ HC Hx).
      * destruct (proj2 E (or_intror Hx)) as [<-|]; [|assumption]. exfalso. apply N1. exact (sublists_incl _ l D' _ HD Hx).
Qed.
Lemma sublists_exists : forall A (l : list A) (P : A -> Prop), (forall x, P x \/ ~ P x) -> exists C, In C (sublists l) /\ forall x, In x C <-> In x l /\ P x.
Proof.
  induction l as [|a l IH]; intros P D.
  - exists []. split; [left; reflexivity|]. intro x. cbn. tauto.
  - destruct (IH P D) as (C & HC & E). destruct (D a) as [Y|N].
    + exists (a :: C). split; [apply in_or_app; right; apply in_map; assumption|]. intro x. cbn [In]. rewrite E. split; [intros [<-|[? ?]]; tauto|tauto].
    + exists C. split; [apply in_or_app; left; assumption|]. intro x. rewrite E. cbn [In]. split; [tauto|]. intros [[<-|?] ?]; [contradiction|tauto].
Qed.
Lemma sublists_NoDup : forall A (l : list A), NoDup l -> NoDup (sublists l).
Proof.
  induction l as [|a l IH]; intro N; cbn [sublists]; [repeat constructor; intros []|]. inversion N as [|? ? N1 N2]; subst.
  apply NoDup_app_intro; [apply IH; assumption| |].
  - apply NoDup_map_inj_in; [|apply IH; assumption]. intros x y _ _ E. injection E as E. assumption.
  - intros C H1 H2. apply in_map_iff in H2. destruct H2 as (D & <- & H2). apply N1. apply (sublists_incl _ l (a :: D)); [assumption|left; reflexivity].
Qed.
Definition choose {A} (sv : bool) (l : list A) : list (list A) := if sv then sublists l else [[]].
Lemma choose_sublists : forall A sv (l C : list A), In C (choose sv l) -> In C (sublists l).
Proof.
  intros A [|] l C H; cbn [choose] in H; [assumption|]. destruct H as [<-|[]]. induction l as [|a l IH]; [left; reflexivity|]. cbn [sublists]. apply in_or_app. left. assumption.
Qed.
Lemma choose_NoDup : forall A sv (l : list A), NoDup l -> NoDup (choose sv l).
Proof. intros A [|] l H; [apply sublists_NoDup; assumption|repeat constructor; intros []]. Qed.

(* removing a letter everywhere *)
Definition remv (v : Z) (T : tab) : tab :=
  filter (fun bl => match snd bl with [] => false | _ => true end) (map (fun bl => (fst bl, filter (fun x => negb (x =? v)) (snd bl))) T).

Lemma filter_increasing : forall f l, increasing l -> increasing (filter f l).
Proof.
  induction l as [|a l IH]; intro H; [constructor|]. inversion H as [|? ? H1 H2]; subst. cbn [filter]. destruct (f a); [|apply IH; assumption].
  constructor; [apply IH; assumption|]. apply Forall_forall. intros x Hx. apply filter_In in Hx. rewrite Forall_forall in H2. apply H2. tauto.
Qed.
Lemma sub_sorted : forall (T : tab) f, StronglySorted before (map fst T) -> StronglySorted before (map fst (filter f T)).
Proof.
  induction T as [|[b l] T IH]; intros f H; [constructor|]. cbn [map fst] in H. inversion H as [|? ? H1 H2]; subst. cbn [filter]. destruct (f (b, l)); [|apply IH; assumption].
  cbn [map fst]. constructor; [apply IH; assumption|]. apply Forall_forall. intros x Hx. apply in_map_iff in Hx. destruct Hx as (y & <- & Hy). apply filter_In in Hy.
  rewrite Forall_forall in H2. apply H2. apply in_map. tauto.
Qed.
Lemma remv_In : forall v T b l, In (b, l) (remv v T) <-> l <> [] /\ exists l0, In (b, l0) T /\ l = filter (fun x => negb (x =? v)) l0.
Proof.
  intros v T b l. unfold remv. rewrite filter_In, in_map_iff. split.
  - intros [((b0 & l0) & E & H) N]. cbn [fst snd] in *. injection E as -> <-. split; [|exists l0; split; [assumption|reflexivity]].
    intro X. rewrite X in N. discriminate.
  - intros [N (l0 & H & ->)]. split; [exists (b, l0); split; [reflexivity|assumption]|]. cbn [snd]. destruct (filter _ l0); [contradiction N; reflexivity|reflexivity].
Qed.
Lemma remv_spec : forall v T, proper T -> proper (remv v T) /\ forall b x, Hd (remv v T) b x <-> Hd T b x /\ x <> v.
Proof.
  intros v T [[S0 P0] P]. split.
  - split.
    + split.
      * unfold remv. apply sub_sorted. rewrite map_map. cbn [fst]. exact S0.
      * intros c l H. apply remv_In in H. destruct H as [_ (l0 & H & ->)]. apply P0 in H. split; [tauto|]. split; [tauto|]. apply filter_increasing. tauto.
    + intros b l H. apply remv_In in H. destruct H as [N (l0 & H & ->)]. split; [assumption|]. apply NoDup_filter. apply (P b l0). assumption.
  - intros [i j] x. unfold Hd, holds. cbn [fst snd]. split.
    + intros (l & H & Hx). apply remv_In in H. destruct H as [_ (l0 & H & ->)]. apply filter_In in Hx. destruct Hx as [Hx E]. apply negb_true_iff, Z.eqb_neq in E. split; [exists l0; split; assumption|assumption].
    + intros [(l & H & Hx) N]. assert (X : In x (filter (fun x => negb (x =? v)) l)) by (apply filter_In; split; [assumption|]; apply negb_true_iff, Z.eqb_neq; assumption).
      exists (filter (fun x => negb (x =? v)) l). split; [|assumption]. apply remv_In. split; [intro C; rewrite C in X; destruct X|]. exists l. split; [assumption|reflexivity].
Qed.

Lemma region_positive : forall sh b, region sh b -> positive b.
Proof. intros sh [i j] [A B]. cbn [fst snd] in *. split; cbn [fst snd]; destruct sh; lia. Qed.

Section Half.
  Variable sh : bool.
  Variable pr : box -> Prop.
  Variable sv : bool.
  Variable lam : list Z.
  Hypothesis pr_dec : forall b, pr b \/ ~ pr b.
  Hypothesis lam_part : part_b sh lam.
  Variable k : Z.
  Hypothesis k_pos : 1 <= k.
  Let v := letter k.

  Definition layer_ok (mu : list Z) (r : list strip) : Prop :=
    NoDup (map sshape r) /\
    (forall nu, (exists d c, In (nu, d, c) r) <->
       (part_b sh nu /\ (forall b, dc sh lam b -> dc sh nu b) /\ (forall b, dc sh nu b -> dc sh mu b) /\
        (forall b, dc sh mu b -> ~ dc sh nu b -> dc sh mu (dir_d k b) -> ~ dc sh nu (dir_d k b) -> False) /\
        forall b, dc sh mu b -> ~ dc sh nu b -> allowed pr b v)) /\
    (forall nu d c, In (nu, d, c) r ->
       NoDup d /\ (forall b, In b d <-> dc sh mu b /\ ~ dc sh nu b) /\
       NoDup c /\ (forall b, In b c <-> freeb (dir_s k) (dir_d k) (dc sh lam) (dc sh mu) (dc sh nu) b /\ allowed pr b v)).

  Variable mu : list Z.
  Variable r : list strip.
  Hypothesis mu_part : part_b sh mu.
  Hypothesis lam_mu : forall b, dc sh lam b -> dc sh mu b.
  Hypothesis R : layer_ok mu r.

  Lemma part_closed : forall nu, part_b sh nu -> closed (dir_s k) (dir_d k) (region sh) (dc sh nu).
  Proof.
    intros nu H. unfold closed, dir_s, dir_d. destruct (Z.even k); split; intros b Rb X; first [exact (dc_left sh nu b Rb X)|exact (dc_up sh nu b H Rb X)].
  Qed.
  Lemma strip_cond : forall nu d c, In (nu, d, c) r -> part_b sh nu /\ strip_ok (dir_s k) (dir_d k) (region sh) (dc sh lam) (dc sh mu) (dc sh nu).
  Proof.
    intros nu d c H. destruct R as (_ & K & _). assert (X : exists d c, In (nu, d, c) r) by (exists d, c; assumption). apply K in X. destruct X as (P & A & B & C & _).
    split; [assumption|]. split; [apply part_closed; assumption|]. split; [assumption|]. split; assumption.
  Qed.

  (* the cells that receive the letter *)
  Lemma aug_ok : forall nu d c C, In (nu, d, c) r -> In C (choose sv c) ->
    NoDup (d ++ C) /\ (forall b, In b (d ++ C) <-> (dc sh mu b /\ ~ dc sh nu b) \/ In b C) /\
    (forall b, In b C -> freeb (dir_s k) (dir_d k) (dc sh lam) (dc sh mu) (dc sh nu) b) /\ (forall b, In b (d ++ C) -> region sh b /\ allowed pr b v).
  Proof.
    intros nu d c C H HC. pose proof R as (_ & K & D). destruct (D nu d c H) as (N1 & D1 & N2 & D2).
    apply choose_sublists in HC. pose proof (sublists_NoDup1 _ _ _ N2 HC) as N3.
    assert (F : forall b, In b C -> freeb (dir_s k) (dir_d k) (dc sh lam) (dc sh mu) (dc sh nu) b /\ allowed pr b v) by (intros b Hb; apply D2; eapply sublists_incl; eassumption).
    split; [|split; [|split]].
    - apply NoDup_app_intro; [assumption|assumption|]. intros b H1 H2. apply D1 in H1. apply F in H2. destruct H2 as [(X & _) _]. tauto.
    - intro b. rewrite in_app_iff, D1. reflexivity.
    - intros b Hb. apply F. assumption.
    - intros b Hb. apply in_app_or in Hb. destruct Hb as [Hb|Hb].
      + apply D1 in Hb. split; [eapply dc_region; apply Hb|].
        assert (X : exists d c, In (nu, d, c) r) by (exists d, c; assumption). apply K in X. destruct X as (_ & _ & _ & _ & X). apply X; apply Hb.
      + apply F in Hb. destruct Hb as [(Hb & _) A]. split; [eapply dc_region; exact Hb|assumption].
  Qed.

  Lemma no_letter : forall nu T, full sh pr sv lam (k - 1) nu T -> forall b, ~ Hd T b v.
  Proof.
    intros nu T (_ & _ & D2 & _) b H. apply D2 in H. destruct H as [H _]. pose proof (letter_facts k k_pos) as (_ & _ & _ & _ & A5). apply A5. exact H.
  Qed.

  Lemma aug_spec : forall nu d c C T', In (nu, d, c) r -> In C (choose sv c) -> full sh pr sv lam (k - 1) nu T' ->
    proper (addv v (d ++ C) T') /\ forall b x, Hd (addv v (d ++ C) T') b x <-> Hd T' b x \/ (x = v /\ ((dc sh mu b /\ ~ dc sh nu b) \/ In b C)).
  Proof.
    intros nu d c C T' H HC F. destruct (aug_ok nu d c C H HC) as (N & E & _ & P).
    destruct (addv_spec (d ++ C) v T' (proj1 F) N) as [P1 H1]; [intros b Hb; split; [apply (region_positive sh); apply P; assumption|eapply no_letter; eassumption]|].
    split; [assumption|]. intros b x. rewrite H1, E. reflexivity.
  Qed.

  Lemma half_up : forall nu d c C T', In (nu, d, c) r -> In C (choose sv c) -> full sh pr sv lam (k - 1) nu T' -> full sh pr sv lam k mu (addv v (d ++ C) T').
  Proof.
    intros nu d c C T' H HC F. destruct (aug_spec nu d c C T' H HC F) as [P1 H1]. destruct (aug_ok nu d c C H HC) as (N & E & Fr & P).
    split; [assumption|]. destruct F as [PT F]. destruct (strip_cond _ _ _ H) as [Pn St].
    destruct (letter_facts k k_pos) as (A1 & A2 & A3 & A4 & A5). fold v in A1, A2, A3, A4, A5.
    apply (fill_swap pr sv k) in F. apply (fill_swap pr sv k).
    assert (G : fill (dir_s k) (dir_d k) (ok_s k) (ok_d k) (allowed pr) sv (fun x => letters (k - 1) x \/ x = v) (dc sh lam) (dc sh mu)
                  (fun b x => Hd T' b x \/ x = v /\ (dc sh mu b /\ ~ dc sh nu b \/ In b C))).
    { apply (fill_up (dir_s k) (dir_d k) (ok_s k) (ok_d k) v (letters (k - 1)) (allowed pr) sv A1 A3 (region sh) (dc sh lam) (dc sh mu) lam_mu
               (fun b X => dc_region sh mu b X) (dc sh nu) (fun b => In b C) (Hd T')).
      - intro b. apply dc_dec.
      - assumption.
      - assumption.
      - intros Hs b. rewrite Hs in HC. destruct HC as [<-|[]]. intros [].
      - intros b Hb. apply E in Hb. apply P in Hb. apply Hb.
      - assumption. }
    apply (fill_swap pr sv k) in G. apply (fill_swap pr sv k). revert G. apply fill_ext.
    - intro x. unfold v. symmetry. apply letters_top. assumption.
    - reflexivity.
    - intros b x. symmetry. apply H1.
  Qed.

  Lemma half_down : forall T, full sh pr sv lam k mu T ->
    exists nu d c C T', In (nu, d, c) r /\ In C (choose sv c) /\ full sh pr sv lam (k - 1) nu T' /\ T = addv v (d ++ C) T'.
  Proof.
    intros T [PT F].
    destruct (letter_facts k k_pos) as (A1 & A2 & A3 & A4 & A5). fold v in A1, A2, A3, A4, A5.
    apply (fill_ext pr sv (letters k) (fun x => letters (k - 1) x \/ x = v) (dc sh lam) (dc sh mu) (dc sh mu) (Hd T) (Hd T)) in F;
      [|intro x; unfold v; apply letters_top; assumption|reflexivity|reflexivity].
    apply (fill_swap pr sv k) in F.
    destruct (remv_spec v T PT) as [PR HR].
    assert (Idec : forall b, inner v (dc sh lam) (Hd T) b \/ ~ inner v (dc sh lam) (Hd T) b).
    { intro b. unfold inner. destruct (dc_dec sh lam b) as [Y|N]; [left; left; assumption|].
      destruct (entries (remv v T) b) as [|x l] eqn:E.
      - right. intros [X|(x & X)]; [contradiction|]. unfold rest in X. apply HR in X. apply Hd_entries in X; [|apply PR]. rewrite E in X. destruct X.
      - left. right. exists x. unfold rest. apply HR. apply Hd_entries; [apply PR|]. rewrite E. left. reflexivity. }
    destruct (fill_down (dir_s k) (dir_d k) (ok_s k) (ok_d k) v (letters (k - 1)) (allowed pr) sv A2 A4 (region sh) (dc sh lam) (dc sh mu) lam_mu
               (fun b X => dc_region sh mu b X) (part_closed lam lam_part) (part_closed mu mu_part) (Hd T) Idec F) as (S1 & S2 & S3 & S4 & S5 & S6).
    destruct S1 as ([C1 C2] & L & M & Adj).
    assert (Cl : (forall b, region sh b -> inner v (dc sh lam) (Hd T) (nexts b) -> inner v (dc sh lam) (Hd T) b) /\
                 (forall b, region sh b -> inner v (dc sh lam) (Hd T) (nextd b) -> inner v (dc sh lam) (Hd T) b)).
    { revert C1 C2. unfold dir_s, dir_d. destruct (Z.even k); auto. }
    destruct (shape_of sh mu (inner v (dc sh lam) (Hd T)) mu_part Idec M (proj1 Cl) (proj2 Cl)) as (nu & Pn & En).
    pose proof R as (_ & K & D).
    assert (X : exists d c, In (nu, d, c) r).
    { apply K. split; [assumption|]. split; [intros b Hb; apply En, L; assumption|]. split; [intros b Hb; apply M, En; assumption|]. split.
      - intros b X1 X2 X3 X4. rewrite En in X2, X4. apply (Adj b); assumption.
      - intros b X1 X2. rewrite En in X2. apply S4. left. split; assumption. }
    destruct X as (d & c & Hr). destruct (D nu d c Hr) as (N1 & D1 & N2 & D2).
    assert (Ex : exists C, In C (choose sv c) /\ forall b, In b C <-> extra v (dc sh lam) (Hd T) b).
    { destruct sv eqn:Esv.
      - destruct (sublists_exists _ c (extra v (dc sh lam) (Hd T))) as (C & HC & EC).
        + intro b. unfold extra. destruct (Idec b) as [Y|N]; [|right; tauto]. destruct (Hd_dec T b v (proj1 PT)); [left|right]; tauto.
        + exists C. split; [exact HC|]. intro b. rewrite EC. split; [tauto|]. intro Hb. split; [|assumption]. apply D2. split; [|apply S4; right; assumption].
          apply S2 in Hb. unfold freeb in *. rewrite !En. exact Hb.
      - exists []. split; [left; reflexivity|]. intro b. split; [intros []|]. intro Hb. exfalso. eapply S3; [reflexivity|eassumption]. }
    destruct Ex as (C & HC & EC).
    assert (FR : full sh pr sv lam (k - 1) nu (remv v T)).
    { split; [assumption|]. apply (fill_swap pr sv k) in S5. revert S5. apply fill_ext; [reflexivity|intro b; symmetry; apply En|]. intros b x. symmetry. apply HR. }
    exists nu, d, c, C, (remv v T). split; [assumption|]. split; [assumption|]. split; [assumption|].
    destruct (aug_spec nu d c C (remv v T) Hr HC FR) as [P2 H2]. apply proper_ext; [assumption|assumption|].
    intros b x. rewrite H2, S6, HR, EC, En. reflexivity.
  Qed.

  Lemma half_unique : forall nu1 d1 c1 C1 T1 nu2 d2 c2 C2 T2,
    In (nu1, d1, c1) r -> In C1 (choose sv c1) -> full sh pr sv lam (k - 1) nu1 T1 ->
    In (nu2, d2, c2) r -> In C2 (choose sv c2) -> full sh pr sv lam (k - 1) nu2 T2 ->
    addv v (d1 ++ C1) T1 = addv v (d2 ++ C2) T2 -> (nu1, d1, c1) = (nu2, d2, c2) /\ C1 = C2 /\ T1 = T2.
  Proof.
    intros nu1 d1 c1 C1 T1 nu2 d2 c2 C2 T2 H1 HC1 F1 H2 HC2 F2 E.
    destruct (aug_spec _ _ _ _ _ H1 HC1 F1) as [_ E1]. destruct (aug_spec _ _ _ _ _ H2 HC2 F2) as [_ E2]. rewrite <- E in E2.
    destruct (aug_ok _ _ _ _ H1 HC1) as (_ & _ & Fr1 & _). destruct (aug_ok _ _ _ _ H2 HC2) as (_ & _ & Fr2 & _).
    destruct (letter_facts k k_pos) as (_ & _ & _ & _ & A5). fold v in A5.
    destruct (strip_cond _ _ _ H1) as [P1 (_ & L1 & _)]. destruct (strip_cond _ _ _ H2) as [P2 (_ & L2 & _)].
    destruct F1 as [PT1 F1]. destruct F2 as [PT2 F2]. apply (fill_swap pr sv k) in F1, F2.
    destruct (fill_unique (dir_s k) (dir_d k) (ok_s k) (ok_d k) v (letters (k - 1)) (allowed pr) sv A5 (dc sh lam) (dc sh mu) (dc sh nu1) (fun b => In b C1) (Hd T1) _ L1 Fr1 F1 (dc_dec sh lam) E1) as (U1 & U2 & U3).
    destruct (fill_unique (dir_s k) (dir_d k) (ok_s k) (ok_d k) v (letters (k - 1)) (allowed pr) sv A5 (dc sh lam) (dc sh mu) (dc sh nu2) (fun b => In b C2) (Hd T2) _ L2 Fr2 F2 (dc_dec sh lam) E2) as (V1 & V2 & V3).
    assert (En : nu1 = nu2) by (apply (part_ext sh); [assumption|assumption|]; intro b; rewrite U2, V2; reflexivity). subst nu2.
    assert (Er : (nu1, d1, c1) = (nu1, d2, c2)).
    { destruct R as (N & _). clear - N H1 H2. induction r as [|y l IH]; [destruct H1|]. cbn [map] in N. inversion N as [|? ? N1 N2]; subst.
      destruct H1 as [->|H1], H2 as [E2|H2].
      - assumption.
      - exfalso. apply N1. apply (in_map sshape) in H2. exact H2.
      - subst y. exfalso. apply N1. apply (in_map sshape) in H1. exact H1.
      - apply IH; assumption. }
    injection Er as <- <-. split; [reflexivity|]. split.
    - apply choose_sublists in HC1, HC2. destruct R as (_ & _ & D). destruct (D _ _ _ H1) as (_ & _ & N & _).
      apply (sublists_ext _ c1); [assumption|assumption|assumption|]. intro b. rewrite U3, V3. reflexivity.
    - apply proper_ext; [assumption|assumption|]. intros b x. rewrite U1, V1. reflexivity.
  Qed.
End Half.
