(* One column transition of shifted Hecke insertion *)
From Coq Require Import List ZArith Bool Lia Sorted.
From Verif Require Import PyBase M_Partitions L_PartMore M_Tableaux S_Tableaux L_Tableaux M_Insertion M_FState L_Insertion1 L_Insertion2 L_FState1 L_FState2.
Import ListNotations.
Local Open Scope Z_scope.

Section Column.
  Variables (L H : Z -> Z) (M : Z) (g : Z -> Z -> Z) (j a : Z) (s : hstate).
  Hypothesis SH : fshape L H.
  Hypothesis IN : FIncr L g.
  Hypothesis HM : rows L M.
  Hypothesis Hj : 1 <= j <= L 1 + 1.
  Hypothesis Hs : FS L M g (M + 2, j) a s.
  Notation t := (htab s).
  Lemma cR : T (look L g (Some ((M + 2, j), a))) t. Proof. exact (proj1 Hs). Qed.
  Lemma cG : good_outer L M (M + 2, j). Proof. right. cbn [fst snd]. lia. Qed.
  Lemma cO : ~ (1 <= M + 2 <= j /\ j <= L (M + 2)). Proof. exact (good_outside L H M _ SH HM cG). Qed.
  Lemma c_get : forall r c, 1 <= r -> r <= c -> c <= L r -> geti t r c = Ok (g r c).
  Proof. intros r c Hr Hc Hl. apply (T_geti _ _ _ _ _ cR). apply look_base; [exact cO|assumption|assumption|assumption]. Qed.
  Lemma c_mem : forall r c, r <> M + 2 \/ c <> j -> tmem t (r, c) = fin L r c.
  Proof.
    intros r c N. rewrite (T_tmem _ _ _ cR). destruct (fin L r c) eqn:E.
    - apply fin_iff in E. rewrite look_base; [reflexivity|exact cO|lia|lia|lia].
    - apply fin_false in E. rewrite look_out; [reflexivity|exact E|]. intro K. injection K as K1 K2. lia.
  Qed.
  Lemma c_bounds : 0 <= H j <= j /\ H j <= M.
  Proof.
    destruct SH as (S1 & S2 & S3). pose proof (S2 j ltac:(lia)). split; [assumption|]. destruct (Z.eq_dec (H j) 0) as [->|n]; [exact (proj1 HM)|].
    assert (K : j <= L (H j)). { apply (proj2 (S3 (H j) j ltac:(lia) ltac:(lia))). lia. } apply (proj2 HM (H j)); lia.
  Qed.
  Lemma c_in : forall x, 1 <= x <= H j -> x <= j /\ j <= L x.
  Proof. intros x Hx. pose proof c_bounds. split; [lia|]. apply SH; lia. Qed.
  Definition c_col : list Z := map (fun x => g x j) (zrange 1 (H j + 1)).
  Lemma c_col_len : zlen c_col = H j.
  Proof. unfold c_col, zlen. rewrite map_length, length_zrange. pose proof c_bounds. lia. Qed.
  Lemma c_gets : gets t (map (fun x => (x, j)) (zrange 1 (H j + 1))) = Ok c_col.
  Proof.
    rewrite (gets_map t (fun c => g (fst c) (snd c))).
    - rewrite map_map. reflexivity.
    - intros c Hc. apply in_map_iff in Hc. destruct Hc as (x & <- & Hx). apply In_zrange in Hx. cbn [fst snd]. pose proof cR as [_ RR]. rewrite RR. pose proof (c_in x ltac:(lia)). apply look_base; [exact cO|lia|lia|lia].
  Qed.
  Lemma c_transition_eq : f_column_transition s =
    (if forallb (fun x => x <=? a) c_col then
       let i := H j + 1 in
       do row <- gets t (map (fun x => (i, x)) (filter (fun x => tmem t (i, x)) (zrange 1 j)));
       do u <- (if forallb (fun x => x <? a) row && forallb (fun x => x <? a) c_col
                then do u <- tadd t i j (VInt a); tremove u (M + 2) j None
                else tremove t (M + 2) j None);
       do s' <- hmake u None;
       Ok (s', (i, j))
     else
       let x := 1 + count_le c_col a in
       do b <- geti t x j;
       do left <- (if x =? j then Ok true else do v <- geti t x (j - 1); Ok (v <? a));
       do above <- (if left then (if x =? 1 then Ok true else do v <- geti t (x - 1) j; Ok (v <? a)) else Ok false);
       do u <- tadd t (M + 2) (j + 1) (VInt b);
       do u <- (if above then treplace u x j (VInt a) else Ok u);
       do u <- tremove u (M + 2) j None;
       do s' <- hmake u (Some (M + 2, j + 1));
       Ok (s', (x, j))).
  Proof.
    unfold f_column_transition. pose proof Hs as (_ & Ho & _). rewrite Ho. rewrite (T_geti _ t (M + 2) j a cR (look_outer _ _ _ _)).
    cbn [rbind]. pose proof c_bounds as B. assert (CM : forall x, 1 <= x < M + 2 -> tmem t (x, j) = (x <=? H j)).
    { intros x Hx. rewrite c_mem by lia. apply eq_true_iff_eq. rewrite fin_iff, Z.leb_le. split; intro K; [apply SH; lia|pose proof (c_in x ltac:(lia)); lia]. }
    rewrite (filter_segment _ 1 (H j) (M + 2)); [|lia|exact CM].
    rewrite c_gets. cbn [rbind]. rewrite (sorted_id c_col).
    2: { apply map_zrange_increasing. intros x Hx Hxl. pose proof (c_in (x + 1) ltac:(lia)). apply IN; lia. }
    rewrite c_col_len. replace (1 + H j) with (H j + 1) by lia.
    replace (forallb (fun x => tmem t (x, j)) (zrange 1 (H j + 1))) with true.
    2: { symmetry. apply forallb_forall. intros x Hx. apply In_zrange in Hx. rewrite CM by lia. apply Z.leb_le. lia. }
    rewrite c_gets. cbn [rbind]. rewrite zlist_eqb_refl. reflexivity.
  Qed.
  Lemma c_full_iff : forallb (fun x => x <=? a) c_col = true <-> c_full H g j a.
  Proof. unfold c_col. rewrite forallb_map_range. unfold c_full. split; intros K x Hx; apply Z.leb_le; apply K; lia. Qed.
  Lemma c_row : forall i, i <= M + 1 -> exists row, gets t (map (fun x => (i, x)) (filter (fun x => tmem t (i, x)) (zrange 1 j))) = Ok row /\
    (forallb (fun x => x <? a) row = true <-> forall x, fin L i x = true -> x < j -> g i x < a).
  Proof.
    intros i Hi. set (l := filter (fun x => tmem t (i, x)) (zrange 1 j)).
    assert (Hl : forall x, In x l <-> fin L i x = true /\ x < j).
    { intro x. unfold l. rewrite filter_In, In_zrange. split.
      - intros [K1 K2]. rewrite c_mem in K2 by lia. split; [exact K2|lia].
      - intros [K1 K2]. pose proof K1 as K3. apply fin_iff in K3. rewrite c_mem by lia. split; [lia|exact K1]. }
    exists (map (fun x => g i x) l). split.
    - rewrite (gets_map t (fun c => g (fst c) (snd c))); [rewrite map_map; reflexivity|]. intros c Hc. apply in_map_iff in Hc. destruct Hc as (x & <- & Hx). apply Hl in Hx. destruct Hx as [Hx _]. apply fin_iff in Hx.
      pose proof cR as [_ RR]. rewrite RR. cbn [fst snd]. apply look_base; [exact cO|lia|lia|lia].
    - rewrite forallb_forall. split.
      + intros K x Hx Hx2. apply Z.ltb_lt. apply K. apply in_map_iff. exists x. split; [reflexivity|]. apply Hl. split; assumption.
      + intros K y Hy. apply in_map_iff in Hy. destruct Hy as (x & <- & Hx). apply Hl in Hx. apply Z.ltb_lt. apply K; tauto.
  Qed.

  (* after a diagonal transition D1 the letter equals the last entry of its column and disappears *)
  Lemma c_case_d1 : 2 <= j -> H j = j - 1 -> L j < j -> g (j - 1) j = a -> exists s', f_column_transition s = Ok (s', (j, j)) /\ FN L g s'.
  Proof.
    intros J Ej Lj Ea. rewrite c_transition_eq. pose proof c_bounds as B. pose proof (c_in (j - 1) ltac:(lia)) as CI.
    rewrite (proj2 c_full_iff). 2: { intros x Hx. destruct (Z.eq_dec x (j - 1)) as [->|n]; [lia|]. pose proof (fcol_mono L H g x (j - 1) j SH IN ltac:(lia) ltac:(lia) ltac:(lia) ltac:(lia)). lia. }
    cbn zeta. destruct (c_row (H j + 1) ltac:(lia)) as (row & Er & _). rewrite Er. cbn [rbind].
    replace (forallb (fun x => x <? a) c_col) with false.
    2: { symmetry. apply not_true_iff_false. unfold c_col. rewrite forallb_map_range. intro K. specialize (K (j - 1) ltac:(lia)). apply Z.ltb_lt in K. lia. }
    rewrite andb_false_r. destruct (remove_outer L g (M + 2, j) a t cR cO) as (u & Eu & Ru). cbn [fst snd] in Eu. rewrite Eu. cbn [rbind].
    unfold hmake. cbn [rbind]. replace (H j + 1) with j by lia. eexists. split; [reflexivity|]. split; [exact Ru|reflexivity].
  Qed.

  Hypothesis HI : CInv L H g j a.
  Lemma c_case_full : c_full H g j a -> exists s', f_column_transition s = Ok (s', (H j + 1, j)) /\
    ((c_add H g j a /\ FN (updr L (H j + 1) j) (updg g (H j + 1) j a) s') \/ (~ c_add H g j a /\ FN L g s')).
  Proof.
    intro F. rewrite c_transition_eq. rewrite (proj2 c_full_iff F). cbn zeta. pose proof c_bounds as B. pose proof (col_full_left L H g j a HI F) as (F0 & F1 & F2 & F3 & F4 & F5).
    destruct (c_row (H j + 1) ltac:(lia)) as (row & Er & Hr). rewrite Er. cbn [rbind].
    assert (C : forallb (fun x => x <? a) row && forallb (fun x => x <? a) c_col = true <-> c_add H g j a).
    { rewrite andb_true_iff, Hr. unfold c_col. rewrite forallb_map_range. unfold c_add. split; intros [A1 A2]; split.
      - intros x Hx. apply Z.ltb_lt. apply A2. lia.
      - apply A1; [apply fin_iff; lia|lia].
      - intros x Hx Hxj. apply fin_iff in Hx. destruct (Z.eq_dec x (j - 1)) as [->|n]; [exact A2|]. pose proof (frow_mono L g (H j + 1) x (j - 1) IN ltac:(lia) ltac:(lia) ltac:(lia) ltac:(lia)). lia.
      - intros x Hx. apply Z.ltb_lt. apply A1. lia. }
    destruct (forallb (fun x => x <? a) row && forallb (fun x => x <? a) c_col).
    - pose proof (proj1 C eq_refl) as CA. destruct (T_add _ t (H j + 1) j a cR) as (u & Eu & Ru); [apply look_out; [lia|intro K; injection K as K; lia]|lia|lia|]. rewrite Eu. cbn [rbind].
      destruct (T_remove _ u (M + 2) j [a] Ru) as (v & Ev & Rv).
      { unfold fput. replace (box_eqb (H j + 1, j) (M + 2, j)) with false; [apply look_outer|]. symmetry. apply box_eqb_neq. intro K. injection K as K. lia. }
      rewrite Ev. cbn [rbind]. eexists. split; [reflexivity|]. left. split; [exact CA|]. split; [|reflexivity]. cbn [htab]. apply (T_ext _ _ _ Rv).
      intros [r c]. unfold fput, look. destruct (box_eqb (M + 2, j) (r, c)) eqn:E1.
      + apply box_eqb_eq in E1. injection E1 as <- <-. unfold fbase. cbn [fst snd]. rewrite (proj2 (fin_false _ _ _)); [reflexivity|]. rewrite updr_other by lia. exact cO.
      + unfold fbase. cbn [fst snd]. destruct (box_eqb (H j + 1, j) (r, c)) eqn:E2.
        * apply box_eqb_eq in E2. injection E2 as <- <-. rewrite updg_same. rewrite (proj2 (fin_iff _ _ _)); [reflexivity|]. rewrite updr_same. lia.
        * apply box_eqb_neq in E2. assert (NE : r <> H j + 1 \/ c <> j). { destruct (Z.eq_dec r (H j + 1)) as [->|]; [right|left; assumption]. intros ->. apply E2. reflexivity. }
          rewrite updg_other by assumption. replace (fin (updr L (H j + 1) j) r c) with (fin L r c); [reflexivity|].
          apply eq_true_iff_eq. rewrite !fin_iff. unfold updr. destruct (Z.eqb_spec r (H j + 1)); [subst r; lia|tauto].
    - destruct (remove_outer L g (M + 2, j) a t cR cO) as (u & Eu & Ru). cbn [fst snd] in Eu. rewrite Eu. cbn [rbind].
      eexists. split; [reflexivity|]. right. split; [intro CA; apply C in CA; discriminate|]. split; [exact Ru|reflexivity].
  Qed.

  Lemma c_case_bump : ~ c_full H g j a -> exists x s', c_bump H g j a x /\ f_column_transition s = Ok (s', (x, j)) /\ j <= L 1 /\
    ((c_rep g j a x /\ FS L M (updg g x j a) (M + 2, j + 1) (g x j) s') \/ (~ c_rep g j a x /\ FS L M g (M + 2, j + 1) (g x j) s')).
  Proof.
    intro F. rewrite c_transition_eq. assert (F' : forallb (fun x => x <=? a) c_col = false) by (apply not_true_iff_false; rewrite c_full_iff; exact F). rewrite F'.
    pose proof c_bounds as B. destruct (count_le_spec (fun x => g x j) (H j + 1) a 1 (not_all_le _ _ _ _ F')) as (X1 & X2 & X3). fold c_col in X1, X2, X3.
    cbn zeta in X1, X2, X3. cbn zeta. set (x := 1 + count_le c_col a) in *. clearbody x.
    assert (BC : c_bump H g j a x) by (split; [lia|split; [exact X2|intros; apply X3; lia]]). pose proof (c_bump_left L H g j a x HI BC) as (B1 & B2 & B3). pose proof (c_in x ltac:(lia)) as [I1 I2].
    assert (j <= L 1) by (pose proof (fmono L H 1 x j SH); lia).
    rewrite (c_get x j) by lia. cbn [rbind]. replace (x =? j) with false by (symmetry; apply Z.eqb_neq; lia). rewrite (c_get x (j - 1)) by lia. cbn [rbind].
    assert (Eab : (if g x (j - 1) <? a then if x =? 1 then Ok true else do v <- geti t (x - 1) j; Ok (v <? a) else Ok false) = Ok ((g x (j - 1) <? a) && ((x =? 1) || (g (x - 1) j <? a)))).
    { destruct (g x (j - 1) <? a); [|reflexivity]. destruct (Z.eqb_spec x 1) as [e|n]; [reflexivity|]. rewrite (c_get (x - 1) j); [reflexivity|lia|lia|]. apply (c_in (x - 1)). lia. }
    rewrite Eab. cbn [rbind]. assert (CR : (g x (j - 1) <? a) && ((x =? 1) || (g (x - 1) j <? a)) = true <-> c_rep g j a x).
    { unfold c_rep. rewrite andb_true_iff, orb_true_iff, Z.eqb_eq, !Z.ltb_lt. tauto. }
    assert (G2 : good_outer L M (M + 2, j + 1)) by (right; cbn [fst snd]; lia). assert (N2 : (M + 2, j) <> (M + 2, j + 1)) by (intro K; injection K as K; lia).
    destruct ((g x (j - 1) <? a) && ((x =? 1) || (g (x - 1) j <? a))).
    - destruct (move_replace L H M g t (M + 2, j) (M + 2, j + 1) a (g x j) x j a SH HM cG G2 N2 cR ltac:(lia) ltac:(lia) ltac:(lia)) as (u1 & u2 & u3 & s' & E1 & E2 & E3 & E4 & FSs).
      cbn [fst snd] in *. rewrite E1. cbn [rbind]. rewrite E2. cbn [rbind]. rewrite E3. cbn [rbind]. rewrite E4. cbn [rbind]. exists x, s'. split; [exact BC|]. split; [reflexivity|]. split; [assumption|].
      left. split; [apply CR; reflexivity|exact FSs].
    - destruct (move_outer L H M g t (M + 2, j) (M + 2, j + 1) a (g x j) SH HM cG G2 N2 cR) as (u1 & u2 & s' & E1 & E2 & E3 & FSs).
      cbn [fst snd] in *. rewrite E1. cbn [rbind]. rewrite E2. cbn [rbind]. rewrite E3. cbn [rbind]. exists x, s'. split; [exact BC|]. split; [reflexivity|]. split; [assumption|].
      right. split; [intro K; apply CR in K; discriminate|exact FSs].
  Qed.
End Column.
