(* The bumping path of shifted Hecke insertion *)
From Coq Require Import List ZArith Bool Lia Sorted.
From Verif Require Import PyBase M_Partitions L_PartMore M_Tableaux S_Tableaux L_Tableaux M_Insertion M_FState L_Insertion1 L_Insertion2 L_FState1 L_FState2 L_FState3 L_FState4.
Import ListNotations.
Local Open Scope Z_scope.

Lemma all_le_dec : forall (f : Z -> Z) a lo hi, (forall x, lo <= x <= hi -> f x <= a) \/ ~ (forall x, lo <= x <= hi -> f x <= a).
Proof.
  intros f a lo hi. destruct (forallb (fun x => f x <=? a) (zrange lo (hi + 1))) eqn:E.
  - left. intros x Hx. rewrite forallb_forall in E. apply Z.leb_le. apply E. apply In_zrange. lia.
  - right. intro K. assert (T : forallb (fun x => f x <=? a) (zrange lo (hi + 1)) = true).
    { apply forallb_forall. intros x Hx. apply In_zrange in Hx. apply Z.leb_le. apply K. lia. }
    congruence.
Qed.
Lemma f_path_end : forall fuel L g s, (0 < fuel)%nat -> FN L g s -> f_path fuel s = Ok [].
Proof. intros fuel L g s Hf [_ Ho]. destruct fuel as [|fuel]; [lia|]. cbn [f_path]. unfold outer_in_last_column, outer_in_last_row. rewrite Ho. reflexivity. Qed.
Lemma FS_last_column : forall L M g i a s, FS L M g (i, L 1 + 2) a s -> outer_in_last_column s = true.
Proof. intros L M g i a s (_ & Ho & _ & Hc). unfold outer_in_last_column. rewrite Ho, Hc. apply Z.eqb_refl. Qed.
Lemma FS_last_row : forall L M g j a s, FS L M g (M + 2, j) a s -> j <= L 1 + 1 -> outer_in_last_column s = false /\ outer_in_last_row s = true.
Proof. intros L M g j a s (_ & Ho & Hr & Hc) Hj. unfold outer_in_last_column, outer_in_last_row. rewrite Ho, Hr, Hc. split; [apply Z.eqb_neq; lia|apply Z.eqb_refl]. Qed.

Lemma c_path_spec : forall fuel L H M g j a s, CInv L H g j a -> rows L M -> FS L M g (M + 2, j) a s -> j <= L 1 + 1 -> L 1 + 3 - j <= Z.of_nat fuel ->
  exists path s' c k L' H' g', f_path fuel s = Ok (path ++ [(s', c)]) /\ FN L' g' s' /\ CIns L H g j a L' H' g' c k.
Proof.
  induction fuel as [|fuel IH]; intros L H M g j a s HI HM Hs Hj Hf; [lia|]. cbn [f_path]. destruct (FS_last_row L M g j a s Hs Hj) as [-> ->]. pose proof HI as (S & I & Hj2 & _).
  destruct (all_le_dec (fun x => g x j) a 1 (H j)) as [F|F].
  - destruct (c_case_full L H M g j a s S I HM ltac:(lia) Hs HI F) as (s' & Er & [[C K]|[C K]]); rewrite Er; cbn [rbind fst]; rewrite (f_path_end fuel _ _ _ ltac:(lia) K); cbn [rbind].
    + exists [], s', (H j + 1, j), true, (updr L (H j + 1) j), (updr H j (H j + 1)), (updg g (H j + 1) j a). split; [reflexivity|]. split; [exact K|]. apply ci_add; assumption.
    + exists [], s', (H j + 1, j), false, L, H, g. split; [reflexivity|]. split; [exact K|]. apply ci_stop; assumption.
  - destruct (c_case_bump L H M g j a s S I HM ltac:(lia) Hs HI F) as (x & s1 & B & Er & Hjl & D). rewrite Er. cbn [rbind fst].
    assert (P : exists g1, CInv L H g1 (j + 1) (g x j) /\ FS L M g1 (M + 2, j + 1) (g x j) s1 /\
              forall L' H' g' c k, CIns L H g1 (j + 1) (g x j) L' H' g' c k -> CIns L H g j a L' H' g' c k).
    { destruct D as [[C K]|[C K]].
      - exists (updg g x j a). split; [apply CInv_replace; assumption|]. split; [exact K|]. intros. eapply ci_bump; eassumption.
      - exists g. split; [apply (CInv_pass L H g j a); assumption|]. split; [exact K|]. intros. eapply ci_pass; eassumption. }
    destruct P as (g1 & HI1 & H1 & P). destruct (IH L H M g1 (j + 1) (g x j) s1 HI1 HM H1 ltac:(lia) ltac:(lia)) as (path & s' & c & k & L' & H' & g' & Ep & K & HIns).
    rewrite Ep. cbn [rbind]. exists ((s1, (x, j)) :: path), s', c, k, L', H', g'. split; [reflexivity|]. split; [exact K|]. apply P. exact HIns.
Qed.
Definition diagb (b : box) : bool := fst b =? snd b.
Lemma r_path_spec : forall fuel L H M g i a s, RInv L H g i a -> rows L M -> FS L M g (i, L 1 + 2) a s -> i <= M + 1 -> Evn L g -> a mod 2 = 0 -> M + 1 - i + L 1 + 4 <= Z.of_nat fuel ->
  exists path s' c k neg L' H' g', f_path fuel s = Ok (path ++ [(s', c)]) /\ FN L' g' s' /\ RIns L H g i a L' H' g' c k neg /\
    existsb diagb (map snd path) || (negb k && diagb c) = neg.
Proof.
  induction fuel as [|fuel IH]; intros L H M g i a s HI HM Hs Hi Ev Ea Hf; pose proof HI as (S & I & Hi1 & _); pose proof (proj1 S 1 ltac:(lia)) as L0; [lia|].
  cbn [f_path]. rewrite (FS_last_column L M g i a s Hs).
  destruct (all_le_dec (fun x => g i x) a i (L i)) as [F|F].
  - destruct (r_case_full L H M g i a s HI HM ltac:(lia) Hs F) as (s' & Er & [[C K]|[C K]]); rewrite Er; cbn [rbind fst]; rewrite (f_path_end fuel _ _ _ ltac:(lia) K); cbn [rbind].
    + exists [], s', (i, L i + 1), true, false, (updr L i (L i + 1)), (updr H (L i + 1) i), (updg g i (L i + 1) a). split; [reflexivity|]. split; [exact K|]. split; [apply ri_add; assumption|reflexivity].
    + exists [], s', (i, L i + 1), false, false, L, H, g. split; [reflexivity|]. split; [exact K|]. assert (R : RIns L H g i a L H g (i, L i + 1) false false) by (apply ri_stop; assumption). split; [exact R|].
      apply RIns_outcome in R. destruct R as (_ & _ & _ & _ & _ & R). cbn [fst snd] in R. unfold diagb. cbn [map existsb negb andb orb fst snd]. apply Z.eqb_neq. lia.
  - destruct (r_case_bump L H M g i a s HI HM ltac:(lia) Hs F Ev Ea) as (x & s1 & B & Er & HiM & D). rewrite Er. cbn [rbind fst]. pose proof (bump_even L H g i a x HI B Ev) as Ex.
    assert (Hil : i + 1 <= L 1 + 1). { destruct B as (B & _). pose proof (L_le1 L H i S ltac:(lia) ltac:(lia)). lia. }
    assert (D' : (i < x /\ exists g1, RInv L H g1 (i + 1) (g i x) /\ FS L M g1 (i + 1, L 1 + 2) (g i x) s1 /\ Evn L g1 /\
                   forall L' H' g' c k neg, RIns L H g1 (i + 1) (g i x) L' H' g' c k neg -> RIns L H g i a L' H' g' c k neg) \/
                 (x = i + 1 /\ ~ r_rep g i a x /\ L (i + 1) < i + 1 /\ FS L M g (M + 2, i + 1) (g i x) s1) \/
                 (x = i /\ exists g1, CInv L H g1 (i + 1) (g i i) /\ FS L M g1 (M + 2, i + 1) (g i i) s1 /\
                   forall L' H' g' c k, CIns L H g1 (i + 1) (g i i) L' H' g' c k -> RIns L H g i a L' H' g' c k true)).
    { destruct D as [(h & C & K)|[(h & C & N & K)|[K|[(h & C & K)|(h & C & K)]]]].
      - left. split; [exact h|]. exists (updg g i x a). split; [apply RInv_replace; assumption|]. split; [exact K|]. split; [apply Evn_replace; assumption|]. intros. eapply ri_bump; eassumption.
      - left. split; [exact h|]. exists g. split; [apply (RInv_pass L H g i a); assumption|]. split; [exact K|]. split; [exact Ev|]. intros. eapply ri_pass; eassumption.
      - right. left. exact K.
      - right. right. subst x. split; [reflexivity|]. exists (updg g i i a). split; [apply CInv_d2; assumption|]. split; [exact K|]. intros. eapply ri_d2; eassumption.
      - right. right. subst x. split; [reflexivity|]. exists g. split; [apply (CInv_d2' L H g i a); assumption|]. split; [exact K|]. intros. eapply ri_d2'; eassumption. }
    clear D. destruct D' as [(h & g1 & HI1 & K & Ev1 & P)|[(h & C & N & K)|(h & g1 & HI1 & K & P)]].
    + destruct (IH L H M g1 (i + 1) (g i x) s1 HI1 HM K ltac:(lia) Ev1 Ex ltac:(lia)) as (path & s' & c & k & neg & L' & H' & g' & Ep & K' & HIns & En). rewrite Ep. cbn [rbind].
      exists ((s1, (i, x)) :: path), s', c, k, neg, L', H', g'. split; [reflexivity|]. split; [exact K'|]. split; [apply P; exact HIns|]. cbn [map snd existsb]. unfold diagb at 1. cbn [fst snd]. rewrite (proj2 (Z.eqb_neq i x)) by lia. exact En.
    + subst x. assert (R : RIns L H g i a L H g (i + 1, i + 1) false true) by (apply ri_d1; assumption). pose proof (RIns_outcome _ _ _ _ _ _ _ _ _ _ _ R) as (_ & R1 & _). cbn [fst snd] in R1.
      destruct (c_case_d1 L H M g (i + 1) (g i (i + 1)) s1 S I HM ltac:(lia) K ltac:(lia) R1 N) as (s' & Er' & K'); [f_equal; lia|].
      destruct fuel as [|fuel]; [lia|]. cbn [f_path]. destruct (FS_last_row L M g (i + 1) _ s1 K ltac:(lia)) as [-> ->]. rewrite Er'. cbn [rbind fst]. rewrite (f_path_end fuel _ _ _ ltac:(lia) K'). cbn [rbind].
      exists [(s1, (i, i + 1))], s', (i + 1, i + 1), false, true, L, H, g. split; [reflexivity|]. split; [exact K'|]. split; [exact R|]. unfold diagb. cbn [map snd fst existsb negb andb]. rewrite Z.eqb_refl. rewrite orb_true_r. reflexivity.
    + subst x. destruct (c_path_spec fuel L H M g1 (i + 1) (g i i) s1 HI1 HM K ltac:(lia) ltac:(lia)) as (path & s' & c & k & L' & H' & g' & Ep & K' & HIns). rewrite Ep. cbn [rbind].
      exists ((s1, (i, i)) :: path), s', c, k, true, L', H', g'. split; [reflexivity|]. split; [exact K'|]. split; [apply P; exact HIns|]. cbn [map snd existsb]. unfold diagb at 1. cbn [fst snd]. rewrite Z.eqb_refl. reflexivity.
Qed.

Lemma f_insert_spec : forall L H g s a, fshape L H -> FIncr L g -> Evn L g -> FN L g s -> a mod 2 = 0 ->
  exists s' path c k neg L' H' g', f_insert s a = Ok (s', path ++ [c]) /\ FN L' g' s' /\ RIns L H g 1 a L' H' g' c k neg /\ existsb diagb path || (negb k && diagb c) = neg.
Proof.
  intros L H g s a S I Ev [R Ho] Ea. unfold f_insert, hadd, is_terminal. rewrite Ho. rewrite (fmax_column L H g _ S R). pose proof (fmax_row L H g _ S R) as RM. set (M := max_row (htab s) None) in *. clearbody M.
  pose proof (proj1 S 1 ltac:(lia)) as L0. pose proof (proj1 RM) as M0. assert (G : good_outer L M (1, L 1 + 2)) by (left; cbn [fst snd]; lia).
  destruct (T_add _ (htab s) 1 (L 1 + 2) a R) as (u & Eu & Ru); [apply look_out0; exact (good_outside L H M _ S RM G)|lia|lia|].
  rewrite Eu. cbn [rbind].
  assert (RU : T (look L g (Some ((1, L 1 + 2), a))) u). { apply (T_ext _ _ _ Ru). intro c. unfold fput, look. destruct (box_eqb (1, L 1 + 2) c); reflexivity. }
  destruct (fmake_Some L H M g u (1, L 1 + 2) a S RM G RU) as (s1 & E1 & H1 & _). change (Some (1, L 1 + 2)) with (Some ((1, L 1 + 2) : box)). rewrite E1. cbn [rbind].
  destruct (r_path_spec (Z.to_nat M + Z.to_nat (L 1) + 5) L H M g 1 a s1) as (path & s' & c & k & neg & L' & H' & g' & Ep & K & HIns & En); try assumption; try lia.
  - split; [exact S|]. split; [exact I|]. split; [lia|left; reflexivity].
  - rewrite Ep. cbn [rbind]. rewrite rev_app_distr. cbn [rev app fst]. exists s', (map snd path), c, k, neg, L', H', g'. split; [|split; [assumption|split; assumption]].
    rewrite map_app. reflexivity.
Qed.

(* the recorded box *)
Definition recorded_box (L H : Z -> Z) (c : box) (k neg : bool) : box :=
  if k then c else if neg then (fst c - 1, L (fst c - 1)) else (H (snd c - 1), snd c - 1).
Definition fcorner (L H : Z -> Z) (d : box) : Prop := 1 <= fst d <= snd d /\ L (fst d) = snd d /\ H (snd d) = fst d.
Lemma recorded_corner : forall L H L' H' c k neg, fshape L H -> outcome L H L' H' c k neg -> fcorner L' H' (recorded_box L H c k neg) /\
  (neg = true -> fst (recorded_box L H c k neg) < snd (recorded_box L H c k neg)).
Proof.
  intros L H L' H' [i j] k neg S O. unfold outcome in O. cbn [fst snd] in O. destruct O as (Hij & E & O). pose proof S as (S1 & S2 & S3). unfold fcorner, recorded_box. destruct k; cbn [fst snd].
  - destruct O as (EL & -> & -> & D). rewrite !updr_same. split; [lia|exact D].
  - destruct O as (-> & -> & O). destruct neg; cbn [fst snd].
    + pose proof (S1 (i - 1) ltac:(lia)). pose proof (proj2 (S3 (i - 1) j ltac:(lia) ltac:(lia)) ltac:(lia)) as K.
      assert (E2 : H (L (i - 1)) = i - 1).
      { pose proof (S2 (L (i - 1)) ltac:(lia)). pose proof (proj1 (S3 (i - 1) (L (i - 1)) ltac:(lia) ltac:(lia)) ltac:(lia)). destruct (Z_lt_ge_dec (i - 1) (H (L (i - 1)))) as [h|h]; [|lia].
        pose proof (proj2 (S3 i (L (i - 1)) ltac:(lia) ltac:(lia)) ltac:(lia)). pose proof (S3 i j ltac:(lia) ltac:(lia)). lia. }
      lia.
    + destruct O as (EL & D). pose proof (S2 (j - 1) ltac:(lia)). pose proof (proj1 (S3 i (j - 1) ltac:(lia) ltac:(lia)) ltac:(lia)) as K. pose proof (proj2 (S3 (H (j - 1)) (j - 1) ltac:(lia) ltac:(lia)) ltac:(lia)) as K2.
      assert (L (H (j - 1)) = j - 1). { pose proof (fmono L H i (H (j - 1)) (L (H (j - 1))) S). lia. }
      split; [lia|discriminate].
Qed.
