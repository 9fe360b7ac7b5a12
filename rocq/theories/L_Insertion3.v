(* Hecke insertion of one letter *)
From Coq Require Import List ZArith Bool Lia Sorted.
From Verif Require Import PyBase M_Partitions L_PartMore M_Tableaux S_Tableaux L_Tableaux M_Insertion L_Insertion1 L_Insertion2.
Import ListNotations.
Local Open Scope Z_scope.

Lemma Inv_replace : forall L g i a x, Inv L g i a -> bump_col L g i a x -> can_replace g i a x -> Inv L (updg g i x a) (i + 1) (g i x).
Proof.
  intros L g i a x (S & I & Hi & H) (Hx & B1 & B2) [C1 C2]. pose proof I as [I1 I2]. split; [exact S|]. split; [|split; [lia|right]].
  - split.
    + intros r c Hr Hc Hl. destruct (Z.eq_dec r i) as [->|Er].
      * destruct (Z.eq_dec c x) as [->|Ec].
        -- rewrite updg_same, updg_other by lia. specialize (I1 i x Hi Hc Hl). lia.
        -- destruct (Z.eq_dec (c + 1) x) as [Ec2|Ec2].
           ++ rewrite Ec2. rewrite updg_same, updg_other by lia. destruct C1 as [C1|C1]; [lia|]. replace c with (x - 1) by lia. exact C1.
           ++ rewrite !updg_other by lia. apply I1; assumption.
      * rewrite !updg_other by lia. apply I1; assumption.
    + intros r c Hr Hc Hl. destruct (Z.eq_dec c x) as [->|Ec].
      * destruct (Z.eq_dec r i) as [->|Er].
        -- rewrite updg_same, updg_other by lia. specialize (I2 i x Hi Hc Hl). lia.
        -- destruct (Z.eq_dec (r + 1) i) as [Er2|Er2].
           ++ rewrite Er2. rewrite updg_same, updg_other by lia. destruct C2 as [C2|C2]; [lia|]. replace r with (i - 1) by lia. exact C2.
           ++ rewrite !updg_other by lia. apply I2; assumption.
      * rewrite !updg_other by lia. apply I2; assumption.
  - split; [lia|]. exists x. replace (i + 1 - 1) with i by lia. rewrite updg_same. split; [exact Hx|]. split; [lia|]. split.
    + intro Hl. rewrite updg_other by lia. apply I1; lia.
    + split; [|lia]. intro Hl. rewrite updg_other by lia. apply I2; lia.
Qed.

Lemma Inv_pass : forall L g i a x, Inv L g i a -> bump_col L g i a x -> ~ can_replace g i a x -> Inv L g (i + 1) (g i x).
Proof.
  intros L g i a x (S & I & Hi & H) (Hx & B1 & B2) C. pose proof I as [I1 I2]. split; [exact S|]. split; [exact I|]. split; [lia|right].
  split; [lia|]. exists x. replace (i + 1 - 1) with i by lia. split; [exact Hx|]. split; [lia|]. split; [intro; apply I1; lia|]. split; [intro; apply I2; lia|].
  intros _. destruct (Z.eq_dec x 1) as [->|]; [|lia]. exfalso. apply C. split; [left; reflexivity|].
  destruct H as [H|(Hi2 & y & Hy & H1 & H2 & H3 & H4)]; [left; exact H|right].
  destruct (Z.eq_dec y 1) as [->|Ey].
  - destruct (Z.eq_dec (g (i - 1) 1) a) as [E|E]; [specialize (H4 E); lia|lia].
  - pose proof (row_mono L g (i - 1) 1 y I ltac:(lia) ltac:(lia) ltac:(lia) ltac:(lia)). lia.
Qed.

Lemma full_above : forall L g i a, Inv L g i a -> full_row L g i a ->
  i = 1 \/ 2 <= i /\ L i + 1 <= L (i - 1) /\ g (i - 1) (L i + 1) <= a /\ (g (i - 1) (L i + 1) = a -> 1 <= L i).
Proof.
  intros L g i a (S & I & Hi & H) F. destruct H as [H|(Hi2 & y & Hy & H1 & H2 & H3 & H4)]; [left; assumption|right].
  assert (L i < y). { destruct (Z_le_gt_dec y (L i)); [|lia]. specialize (H3 ltac:(lia)). specialize (F y ltac:(lia)). lia. }
  pose proof (proj1 S i Hi). destruct (Z.eq_dec y (L i + 1)) as [E|E].
  - rewrite <- E. split; [lia|]. split; [lia|]. split; [assumption|]. intro K. specialize (H4 K). lia.
  - pose proof (row_mono L g (i - 1) (L i + 1) y I ltac:(lia) ltac:(lia) ltac:(lia) ltac:(lia)). split; [lia|]. split; [lia|]. split; [lia|]. lia.
Qed.

Lemma add_good : forall L g i a, Inv L g i a -> full_row L g i a -> can_add L g i a -> shape (updr L i (L i + 1)) /\ Incr (updr L i (L i + 1)) (updg g i (L i + 1) a).
Proof.
  intros L g i a HI F [C1 C2]. pose proof (full_above L g i a HI F) as FA. destruct HI as (S & I & Hi & _). pose proof I as [I1 I2]. pose proof S as [S0 S1]. pose proof (S0 i Hi) as Li0. split; [split|split].
  - intros r Hr. unfold updr. destruct (r =? i); [lia|apply S0; assumption].
  - intros r Hr. unfold updr. pose proof (S1 r Hr). destruct (Z.eqb_spec (r + 1) i) as [E|E], (Z.eqb_spec r i) as [E2|E2]; try lia.
    + destruct FA as [FA|(_ & FA & _)]; [lia|]. replace r with (i - 1) by lia. lia.
    + subst r. lia.
  - intros r c Hr Hc Hl. destruct (Z.eq_dec r i) as [->|Er].
    + rewrite updr_same in Hl. destruct (Z.eq_dec c (L i)) as [->|Ec].
      * rewrite updg_same, updg_other by lia. apply C1. lia.
      * rewrite !updg_other by lia. apply I1; lia.
    + rewrite updr_other in Hl by assumption. rewrite !updg_other by lia. apply I1; assumption.
  - intros r c Hr Hc Hl. unfold updr in Hl. destruct (Z.eqb_spec (r + 1) i) as [Er|Er].
    + destruct (Z.eq_dec c (L i + 1)) as [->|Ec].
      * rewrite Er. rewrite updg_same, updg_other by lia. destruct C2 as [C2|C2]; [lia|]. replace r with (i - 1) by lia. exact C2.
      * rewrite !updg_other by lia. apply I2; [assumption|assumption|]. rewrite Er. lia.
    + pose proof (S1 r Hr). rewrite (updg_other g i (L i + 1) a (r + 1) c) by lia. rewrite updg_other; [apply I2; assumption|].
      destruct (Z.eq_dec r i) as [->|]; [right; lia|left; assumption].
Qed.

(* the course of an insertion: from the letter a entering row i to the final tableau, the final box of the
   bumping path and whether a box was added *)
Inductive Ins : (Z -> Z) -> (Z -> Z -> Z) -> Z -> Z -> (Z -> Z) -> (Z -> Z -> Z) -> box -> bool -> Prop :=
| ins_add : forall L g i a, Inv L g i a -> full_row L g i a -> can_add L g i a ->
    Ins L g i a (updr L i (L i + 1)) (updg g i (L i + 1) a) (i, L i + 1) true
| ins_stop : forall L g i a, Inv L g i a -> full_row L g i a -> ~ can_add L g i a ->
    Ins L g i a L g (i, L i + 1) false
| ins_bump : forall L g i a x L' g' c k, Inv L g i a -> bump_col L g i a x -> can_replace g i a x ->
    Ins L (updg g i x a) (i + 1) (g i x) L' g' c k -> Ins L g i a L' g' c k
| ins_pass : forall L g i a x L' g' c k, Inv L g i a -> bump_col L g i a x -> ~ can_replace g i a x ->
    Ins L g (i + 1) (g i x) L' g' c k -> Ins L g i a L' g' c k.

Lemma Ins_good : forall L g i a L' g' c k, Ins L g i a L' g' c k -> shape L' /\ Incr L' g'.
Proof.
  intros L g i a L' g' c k H. induction H; [apply add_good; assumption| |assumption|assumption].
  destruct H as (S & I & _). split; assumption.
Qed.
Lemma full_row_dec : forall L g i a, full_row L g i a \/ ~ full_row L g i a.
Proof.
  intros L g i a. destruct (forallb (fun x => g i x <=? a) (zrange 1 (L i + 1))) eqn:E.
  - left. rewrite forallb_forall in E. intros x Hx. apply Z.leb_le. apply E. apply In_zrange. lia.
  - right. intro F. rewrite <- not_true_iff_false in E. apply E. apply forallb_forall. intros x Hx. apply In_zrange in Hx. apply Z.leb_le. apply F. lia.
Qed.

Lemma hpath_spec : forall fuel L g i a s m, Inv L g i a -> HS L g (Some (i, a)) s -> (forall r, 1 <= r -> (1 <= L r <-> r <= m)) -> i <= m + 1 ->
  m + 3 - i <= Z.of_nat fuel ->
  exists path s' c k L' g', hpath fuel s = Ok (path ++ [(s', c)]) /\ HS L' g' None s' /\ Ins L g i a L' g' c k.
Proof.
  induction fuel as [|fuel IH]; intros L g i a s m HI Hs Hm Him Hf; [lia|]. cbn [hpath].
  assert (E : outer_in_last_column s = true). { unfold outer_in_last_column. destruct Hs as (_ & -> & ->). apply Z.eqb_refl. }
  rewrite E. assert (T : forall L' g' s', HS L' g' None s' -> hpath fuel s' = Ok []).
  { intros L' g' s' [_ Ho]. destruct fuel as [|fuel']; [lia|]. cbn [hpath]. unfold outer_in_last_column. rewrite Ho. reflexivity. }
  destruct (full_row_dec L g i a) as [F|F].
  - destruct (case_full L g i a s HI Hs F) as (s' & Er & [[C H]|[C H]]); rewrite Er; cbn [rbind fst]; rewrite (T _ _ _ H); cbn [rbind].
    + exists [], s', (i, L i + 1), true, (updr L i (L i + 1)), (updg g i (L i + 1) a). split; [reflexivity|]. split; [exact H|]. apply ins_add; assumption.
    + exists [], s', (i, L i + 1), false, L, g. split; [reflexivity|]. split; [exact H|]. apply ins_stop; assumption.
  - destruct (case_bump L g i a s HI Hs F) as (x & s1 & B & Er & D). rewrite Er. cbn [rbind fst].
    assert (Hi : 1 <= i) by apply HI. assert (Him2 : i <= m) by (apply Hm; [assumption|destruct B; lia]).
    assert (P : exists g1, Inv L g1 (i + 1) (g i x) /\ HS L g1 (Some (i + 1, g i x)) s1 /\
              forall L' g' c k, Ins L g1 (i + 1) (g i x) L' g' c k -> Ins L g i a L' g' c k).
    { destruct D as [[C H]|[C H]].
      - exists (updg g i x a). split; [apply Inv_replace; assumption|]. split; [exact H|]. intros. eapply ins_bump; eassumption.
      - exists g. split; [apply (Inv_pass L g i a); assumption|]. split; [exact H|]. intros. eapply ins_pass; eassumption. }
    destruct P as (g1 & HI1 & H1 & P). destruct (IH L g1 (i + 1) (g i x) s1 m HI1 H1 Hm ltac:(lia) ltac:(lia)) as (path & s' & c & k & L' & g' & Ep & H' & HIns).
    rewrite Ep. cbn [rbind]. exists ((s1, (i, x)) :: path), s', c, k, L', g'. split; [reflexivity|]. split; [exact H'|]. apply P. exact HIns.
Qed.

Lemma hinsert_spec : forall L g s a, shape L -> Incr L g -> HS L g None s ->
  exists s' path c k L' g', hinsert s a = Ok (s', path ++ [c]) /\ HS L' g' None s' /\ Ins L g 1 a L' g' c k.
Proof.
  intros L g s a S I [R Ho]. unfold hinsert, hadd, is_terminal. rewrite Ho. rewrite (max_column_Rep L g _ S R).
  pose proof (proj1 S 1 ltac:(lia)). destruct (Rep_add_outer L g (htab s) 1 (L 1 + 2) a R ltac:(lia) ltac:(lia) (outer_outside L 1 S)) as (u & Eu & Ru).
  rewrite Eu. cbn [rbind]. destruct (hmake_Some L g u 1 a S Ru ltac:(lia) (or_introl eq_refl)) as (s1 & E1 & H1 & _). rewrite E1. cbn [rbind].
  destruct (max_row_Rep L g (htab s) S R) as [M0 M1].
  destruct (hpath_spec (Z.to_nat (max_row (htab s) None) + 3) L g 1 a s1 (max_row (htab s) None)) as (path & s' & c & k & L' & g' & Ep & H' & HIns).
  - split; [exact S|]. split; [exact I|]. split; [lia|left; reflexivity].
  - exact H1.
  - exact M1.
  - lia.
  - lia.
  - rewrite Ep. cbn [rbind]. rewrite rev_app_distr. cbn [rev app fst]. exists s', (map snd path), c, k, L', g'. split; [|split; assumption].
    rewrite map_app. reflexivity.
Qed.

(* the recorded box *)
Definition corner (L : Z -> Z) (d : box) : Prop := 1 <= fst d /\ 1 <= snd d /\ L (fst d) = snd d /\ L (fst d + 1) < snd d.
Definition recorded (L' : Z -> Z) (c : box) (k : bool) (d : box) : Prop :=
  corner L' d /\ if k then d = c else snd d = snd c - 1 /\ fst c <= fst d.

Lemma Ins_add_box : forall L g i a L' g' c k, Ins L g i a L' g' c k -> k = true ->
  1 <= fst c /\ snd c = L (fst c) + 1 /\ (forall r, L' r = updr L (fst c) (snd c) r) /\ corner L' c.
Proof.
  intros L g i a L' g' c k H. induction H; intro K; [|discriminate|apply IHIns; assumption|apply IHIns; assumption]. cbn [fst snd].
  destruct H as (S & _ & Hi & _). split; [assumption|]. split; [reflexivity|]. split; [reflexivity|]. unfold corner. cbn [fst snd]. rewrite updr_same, updr_other by lia.
  pose proof (proj1 S i Hi). pose proof (proj2 S i Hi). lia.
Qed.
Lemma Ins_stop_box : forall L g i a L' g' c k, Ins L g i a L' g' c k -> k = false ->
  L' = L /\ 1 <= fst c /\ snd c = L (fst c) + 1 /\ 1 <= L (fst c) /\ (fst c = 1 \/ L (fst c) < L (fst c - 1)).
Proof.
  intros L g i a L' g' c k H. induction H; intro K; [discriminate| |apply IHIns; assumption|apply IHIns; assumption]. cbn [fst snd].
  pose proof (full_above L g i a H H0) as FA. destruct H as (S & _ & Hi & _). split; [reflexivity|]. split; [assumption|]. split; [reflexivity|].
  pose proof (proj1 S i Hi). split.
  - destruct (Z.eq_dec (L i) 0) as [E|E]; [|lia]. exfalso. apply H1. split; [intros; lia|]. destruct FA as [FA|(_ & FA1 & FA2 & FA3)]; [left; assumption|right].
    destruct (Z.eq_dec (g (i - 1) (L i + 1)) a) as [E2|E2]; [specialize (FA3 E2); lia|lia].
  - destruct FA as [FA|FA]; [left; assumption|right; lia].
Qed.

Lemma zmax_spec : forall l x, In x l -> exists m, zmax l = Some m /\ In m l /\ forall y, In y l -> y <= m.
Proof.
  intros [|a l] x H; [destruct H|]. cbn [zmax]. destruct (fold_max_spec l a) as (A & B & C). eexists. split; [reflexivity|]. split.
  - destruct C as [C|C]; [rewrite C; left; reflexivity|right; assumption].
  - intros y [<-|Hy]; [assumption|apply B; assumption].
Qed.

Lemma push_box : forall L g i a L' g' c k t, Ins L g i a L' g' c k -> Rep L' g' None t ->
  exists d, recorded L' c k d /\
    (if tmem t c then Ok c
     else match zmax (map (fun cv => fst (fst cv)) (filter (fun cv => snd (fst cv) =? snd c - 1) t)) with
          | None => Err ValueError
          | Some r => Ok (r, snd c - 1)
          end) = Ok d.
Proof.
  intros L g i a L' g' c k t HI R. pose proof (Ins_good _ _ _ _ _ _ _ _ HI) as [S I].
  destruct k.
  - destruct (Ins_add_box _ _ _ _ _ _ _ _ HI eq_refl) as (A & B & C & D). exists c. split; [split; [assumption|reflexivity]|].
    replace (tmem t c) with true; [reflexivity|]. unfold tmem. destruct R as [W R]. rewrite R. unfold base. destruct D as (D1 & D2 & D3 & D4).
    replace (inside L' (fst c) (snd c)) with true by (symmetry; apply inside_iff; lia). reflexivity.
  - destruct (Ins_stop_box _ _ _ _ _ _ _ _ HI eq_refl) as (-> & A & B & C & D). replace (tmem t c) with false.
    2: { unfold tmem. destruct R as [W R]. rewrite R. unfold base. replace (inside L (fst c) (snd c)) with false by (symmetry; apply inside_false; lia). reflexivity. }
    set (l := map (fun cv : box * list Z => fst (fst cv)) (filter (fun cv => snd (fst cv) =? snd c - 1) t)).
    assert (Hl : forall r, In r l <-> 1 <= r /\ L (fst c) <= L r).
    { intro r. unfold l. rewrite in_map_iff. split.
      - intros ([[r' c'] v] & E & H). apply filter_In in H. cbn [fst snd] in *. subst r'. destruct H as [H1 H2]. apply Z.eqb_eq in H2.
        apply (Rep_cells _ _ _ _ _ _ R) in H1. destruct R as [W R]. rewrite R in H1. unfold base in H1. cbn [fst snd] in H1. destruct (inside L r c') eqn:E; [|discriminate]. apply inside_iff in E. lia.
      - intros (H1 & H2). exists ((r, L (fst c)), [g' r (L (fst c))]). split; [reflexivity|]. apply filter_In. cbn [fst snd]. split; [|apply Z.eqb_eq; lia].
        apply (Rep_cells _ _ _ _ _ _ R). destruct R as [W R]. rewrite R. unfold base. cbn [fst snd]. replace (inside L r (L (fst c))) with true by (symmetry; apply inside_iff; lia). reflexivity. }
    destruct (zmax_spec l (fst c)) as (m & Em & Hm & Hmax); [apply Hl; lia|].
    exists (m, snd c - 1). apply Hl in Hm. split.
    + unfold recorded, corner. cbn [fst snd]. assert (fst c <= m) by (apply Hmax; apply Hl; lia). pose proof (shape_mono L (fst c) m S).
      assert (L (m + 1) < L (fst c)). { destruct (Z_lt_ge_dec (L (m + 1)) (L (fst c))); [assumption|]. specialize (Hmax (m + 1)). rewrite Hl in Hmax. lia. }
      lia.
    + match goal with |- match zmax ?x with _ => _ end = _ => change x with l end. rewrite Em. reflexivity.
Qed.

Lemma push_spec : forall L g p q a n, shape L -> Incr L g -> Rep L g None p -> tlast q = Ok n ->
  exists p' L' g' c k d, Ins L g 1 a L' g' c k /\ Rep L' g' None p' /\ recorded L' c k d /\
    push p q a = (do q' <- tadd q (fst d) (snd d) (VInt (1 + Z.abs n)); Ok (p', q')).
Proof.
  intros L g p q a n S I R En. unfold push. rewrite En. cbn [rbind]. destruct (hmake_None L g p R) as (s & Es & H & _). rewrite Es. cbn [rbind].
  destruct (hinsert_spec L g s a S I H) as (s' & path & c & k & L' & g' & Ei & H' & HIns). rewrite Ei. cbn [rbind snd fst].
  rewrite rev_app_distr. cbn [rev app]. destruct c as [i j]. destruct H' as [R' _].
  destruct (push_box L g 1 a L' g' (i, j) k (htab s') HIns R') as (d & Hd & Ed). cbn [fst snd] in Ed. exists (htab s'), L', g', (i, j), k, d.
  split; [exact HIns|]. split; [exact R'|]. split; [exact Hd|]. cbn zeta.
  match goal with |- rbind ?x _ = _ => replace x with (Ok d : res box) end. reflexivity.
Qed.
