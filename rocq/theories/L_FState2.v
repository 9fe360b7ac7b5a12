(* One row, diagonal or column transition of shifted Hecke insertion *)
From Coq Require Import List ZArith Bool Lia Sorted.
From Verif Require Import PyBase M_Partitions L_PartMore M_Tableaux S_Tableaux L_Tableaux M_Insertion M_FState L_Insertion1 L_Insertion2 L_FState1.
Import ListNotations.
Local Open Scope Z_scope.

Definition FIncr (L : Z -> Z) (g : Z -> Z -> Z) : Prop :=
  (forall i j, 1 <= i -> i <= j -> j + 1 <= L i -> g i j < g i (j + 1)) /\
  (forall i j, 1 <= i -> i + 1 <= j -> j <= L (i + 1) -> g i j < g (i + 1) j).
Lemma frow_mono : forall L g i j k, FIncr L g -> 1 <= i -> i <= j -> j < k -> k <= L i -> g i j < g i k.
Proof. intros L g i j k [I _] Hi Hj Hk Hl. apply (step_mono (g i) i (L i)); try assumption. intros x Hx Hxl. apply I; assumption. Qed.
Lemma fcol_mono : forall L H g i r j, fshape L H -> FIncr L g -> 1 <= i -> i < r -> r <= j -> j <= L r -> g i j < g r j.
Proof.
  intros L H g i r j S [_ I] Hi Hr Hj Hl. apply (step_mono (fun i => g i j) 1 r); [|assumption|assumption|lia].
  intros x Hx Hxr. apply I; [assumption|lia|]. apply (fmono L H (x + 1) r j S); lia.
Qed.

(* the invariant of an outer box a about to enter row i, and of one about to enter column j *)
Definition RInv (L H : Z -> Z) (g : Z -> Z -> Z) (i a : Z) : Prop :=
  fshape L H /\ FIncr L g /\ 1 <= i /\
  (i = 1 \/ 2 <= i /\ exists y, i <= y <= L (i - 1) /\ g (i - 1) y <= a /\ (y + 1 <= L (i - 1) -> a < g (i - 1) (y + 1)) /\
                                 (y <= L i -> a < g i y) /\ (g (i - 1) y = a -> i + 1 <= y \/ i <= L i)).
Definition CInv (L H : Z -> Z) (g : Z -> Z -> Z) (j a : Z) : Prop :=
  fshape L H /\ FIncr L g /\ 2 <= j /\
  exists y, 1 <= y <= H (j - 1) /\ g y (j - 1) <= a /\ (y + 1 <= H (j - 1) -> a < g (y + 1) (j - 1)) /\
            (y <= H j -> a < g y j) /\ (g y (j - 1) = a -> 2 <= y).

(* what a transition does *)
Definition r_full (L : Z -> Z) (g : Z -> Z -> Z) (i a : Z) : Prop := forall x, i <= x <= L i -> g i x <= a.
Definition r_add (L : Z -> Z) (g : Z -> Z -> Z) (i a : Z) : Prop :=
  (forall x, i <= x <= L i -> g i x < a) /\ (i = 1 \/ g (i - 1) (L i + 1) < a).
Definition r_bump (L : Z -> Z) (g : Z -> Z -> Z) (i a x : Z) : Prop :=
  i <= x <= L i /\ a < g i x /\ forall y, i <= y < x -> g i y <= a.
Definition r_rep (g : Z -> Z -> Z) (i a x : Z) : Prop := g i (x - 1) < a /\ (i = 1 \/ g (i - 1) x < a).
Definition d_rep (g : Z -> Z -> Z) (i a : Z) : Prop := i = 1 \/ g (i - 1) i < a.
Definition c_full (H : Z -> Z) (g : Z -> Z -> Z) (j a : Z) : Prop := forall x, 1 <= x <= H j -> g x j <= a.
Definition c_add (H : Z -> Z) (g : Z -> Z -> Z) (j a : Z) : Prop :=
  (forall x, 1 <= x <= H j -> g x j < a) /\ g (H j + 1) (j - 1) < a.
Definition c_bump (H : Z -> Z) (g : Z -> Z -> Z) (j a x : Z) : Prop :=
  1 <= x <= H j /\ a < g x j /\ forall y, 1 <= y < x -> g y j <= a.
Definition c_rep (g : Z -> Z -> Z) (j a x : Z) : Prop := g x (j - 1) < a /\ (x = 1 \/ g (x - 1) j < a).

Lemma row_full_above : forall L H g i a, RInv L H g i a -> r_full L g i a ->
  i = 1 \/ 2 <= i /\ L i + 1 <= L (i - 1) /\ g (i - 1) (L i + 1) <= a /\ (g (i - 1) (L i + 1) = a -> i <= L i).
Proof.
  intros L H g i a (S & I & Hi & [E|(H2 & y & Hy & H1 & H3 & H4 & H5)]) F; [left; assumption|right]. pose proof (proj1 S i Hi).
  assert (L i < y). { destruct (Z_le_gt_dec y (L i)); [|lia]. specialize (H4 ltac:(lia)). specialize (F y ltac:(lia)). lia. }
  destruct (Z.eq_dec y (L i + 1)) as [E|E].
  - rewrite <- E. split; [lia|]. split; [lia|]. split; [assumption|]. intro K. specialize (H5 K). lia.
  - pose proof (frow_mono L g (i - 1) (L i + 1) y I ltac:(lia) ltac:(lia) ltac:(lia) ltac:(lia)). split; [lia|]. split; [lia|]. split; [lia|]. lia.
Qed.
Lemma col_full_left : forall L H g j a, CInv L H g j a -> c_full H g j a ->
  0 <= H j /\ H j + 1 <= H (j - 1) /\ H j + 1 <= j - 1 /\ L (H j + 1) = j - 1 /\ g (H j + 1) (j - 1) <= a /\ (g (H j + 1) (j - 1) = a -> 1 <= H j).
Proof.
  intros L H g j a (S & I & Hj & y & Hy & H1 & H3 & H4 & H5) F. destruct S as (S1 & S2 & S3). pose proof (S2 j ltac:(lia)). pose proof (S2 (j - 1) ltac:(lia)).
  assert (H j < y). { destruct (Z_le_gt_dec y (H j)); [|lia]. specialize (H4 ltac:(lia)). specialize (F y ltac:(lia)). lia. }
  pose proof (proj2 (S3 (H j + 1) (j - 1) ltac:(lia) ltac:(lia)) ltac:(lia)) as A. assert (B : ~ (j <= L (H j + 1))). { intro K. apply (proj1 (S3 (H j + 1) j ltac:(lia) ltac:(lia))) in K. lia. }
  split; [lia|]. split; [lia|]. split; [lia|]. split; [lia|].
  destruct (Z.eq_dec y (H j + 1)) as [E|E].
  - rewrite <- E. split; [assumption|]. intro K. specialize (H5 K). lia.
  - pose proof (proj2 (S3 y (j - 1) ltac:(lia) ltac:(lia)) ltac:(lia)) as A2. pose proof (fcol_mono L H g (H j + 1) y (j - 1) (conj S1 (conj S2 S3)) I ltac:(lia) ltac:(lia) ltac:(lia) A2). split; [lia|]. lia.
Qed.
Lemma c_bump_left : forall L H g j a x, CInv L H g j a -> c_bump H g j a x -> x <= j - 1 /\ x <= H (j - 1) /\ j - 1 <= L x.
Proof.
  intros L H g j a x (S & I & Hj & y & Hy & H1 & H3 & H4 & H5) (B1 & B2 & B3). pose proof S as (S1 & S2 & S3). pose proof (S2 j ltac:(lia)). pose proof (S2 (j - 1) ltac:(lia)).
  assert (x <= y). { destruct (Z_le_gt_dec x y); [assumption|]. specialize (H4 ltac:(lia)). specialize (B3 y ltac:(lia)). lia. }
  split; [lia|]. split; [lia|]. apply S3; lia.
Qed.

Lemma filter_segment : forall (f : Z -> bool) a k n, a - 1 <= k < n -> (forall x, a <= x < n -> f x = (x <=? k)) -> filter f (zrange a n) = zrange a (k + 1).
Proof.
  intros f a k n Hk H. rewrite (zrange_split a (k + 1) n) by lia. rewrite filter_app.
  assert (A : forall l, (forall x, In x l -> f x = true) -> filter f l = l).
  { induction l as [|b l IH]; intro Hl; [reflexivity|]. cbn [filter]. rewrite Hl by (left; reflexivity). rewrite IH by (intros; apply Hl; right; assumption). reflexivity. }
  assert (B : forall l, (forall x, In x l -> f x = false) -> filter f l = []).
  { induction l as [|b l IH]; intro Hl; [reflexivity|]. cbn [filter]. rewrite Hl by (left; reflexivity). apply IH. intros; apply Hl; right; assumption. }
  rewrite A, B; [apply app_nil_r| |].
  - intros x Hx. apply In_zrange in Hx. rewrite H by lia. apply Z.leb_gt. lia.
  - intros x Hx. apply In_zrange in Hx. rewrite H by lia. apply Z.leb_le. lia.
Qed.
Lemma forallb_map_range : forall (p : Z -> bool) (f : Z -> Z) a b, forallb p (map f (zrange a b)) = true <-> forall x, a <= x < b -> p (f x) = true.
Proof.
  intros p f a b. rewrite forallb_forall. split.
  - intros K x Hx. apply K. apply in_map. apply In_zrange. exact Hx.
  - intros K y Hy. apply in_map_iff in Hy. destruct Hy as (x & <- & Hx). apply In_zrange in Hx. apply K. exact Hx.
Qed.
Lemma not_all_le : forall (f : Z -> Z) a b c, forallb (fun x => x <=? c) (map f (zrange a b)) = false -> exists x, a <= x < b /\ c < f x.
Proof.
  intros f a b c E. assert (N : exists y, In y (map f (zrange a b)) /\ c < y).
  { revert E. generalize (map f (zrange a b)). induction l as [|y l IH]; [discriminate|]. cbn [forallb]. destruct (Z.leb_spec y c) as [h|h]; cbn [andb].
    - intro E. destruct (IH E) as (z & Hz & Hz2). exists z. split; [right; assumption|assumption].
    - intros _. exists y. split; [left; reflexivity|assumption]. }
  destruct N as (y & Hy & Hya). apply in_map_iff in Hy. destruct Hy as (x & <- & Hx). apply In_zrange in Hx. exists x. split; [lia|assumption].
Qed.

Section Row.
  Variables (L H : Z -> Z) (M : Z) (g : Z -> Z -> Z) (i a : Z) (s : hstate).
  Hypothesis HI : RInv L H g i a.
  Hypothesis HM : rows L M.
  Hypothesis HiM : i <= M + 1.
  Hypothesis Hs : FS L M g (i, L 1 + 2) a s.
  Notation t := (htab s).
  Lemma rSH : fshape L H. Proof. exact (proj1 HI). Qed.
  Lemma rIN : FIncr L g. Proof. exact (proj1 (proj2 HI)). Qed.
  Lemma rHi : 1 <= i. Proof. exact (proj1 (proj2 (proj2 HI))). Qed.
  Lemma rR : T (look L g (Some ((i, L 1 + 2), a))) t. Proof. exact (proj1 Hs). Qed.
  Lemma rG : good_outer L M (i, L 1 + 2). Proof. left. cbn [fst snd]. pose proof rHi. lia. Qed.
  Lemma rO : ~ (1 <= i <= L 1 + 2 /\ L 1 + 2 <= L i). Proof. exact (good_outside L H M _ rSH HM rG). Qed.
  Lemma r_get : forall r c, 1 <= r -> r <= c -> c <= L r -> geti t r c = Ok (g r c).
  Proof. intros r c Hr Hc Hl. apply (T_geti _ _ _ _ _ rR). apply look_base; [exact rO|assumption|assumption|assumption]. Qed.
  Lemma r_mem : forall r c, c <> L 1 + 2 -> tmem t (r, c) = fin L r c.
  Proof.
    intros r c N. rewrite (T_tmem _ _ _ rR). destruct (fin L r c) eqn:E.
    - apply fin_iff in E. rewrite look_base; [reflexivity|exact rO|lia|lia|lia].
    - apply fin_false in E. rewrite look_out; [reflexivity|exact E|]. intro K. injection K as _ K. contradiction.
  Qed.
  Lemma r_bounds : i - 1 <= L i /\ (i <= L i -> L i <= L 1) /\ L i <= L 1.
  Proof.
    pose proof rHi. split; [exact (proj1 rSH i rHi)|]. split; [intro; apply (L_le1 L H i rSH); assumption|].
    destruct (Z_le_gt_dec i (L i)); [pose proof (L_le1 L H i rSH rHi ltac:(lia)); lia|]. pose proof rO. pose proof (proj1 rSH i rHi).
    (* an empty row: i = M + 1 <= L 1 + 1 *)
    destruct HM as [M0 MM]. destruct (Z.eq_dec i 1) as [->|]; [lia|].
    pose proof (proj2 (MM (i - 1) ltac:(lia)) ltac:(lia)). pose proof (L_le1 L H (i - 1) rSH ltac:(lia) ltac:(lia)). lia.
  Qed.
  Definition r_row : list Z := map (g i) (zrange i (L i + 1)).
  Lemma r_row_len : zlen r_row = L i - i + 1.
  Proof. unfold r_row, zlen. rewrite map_length, length_zrange. pose proof r_bounds. lia. Qed.
  Lemma r_gets : gets t (map (fun x => (i, x)) (zrange i (L i + 1))) = Ok r_row.
  Proof.
    rewrite (gets_map t (fun c => g (fst c) (snd c))).
    - rewrite map_map. reflexivity.
    - intros c Hc. apply in_map_iff in Hc. destruct Hc as (x & <- & Hx). apply In_zrange in Hx. cbn [fst snd]. pose proof rR as [_ RR]. rewrite RR. apply look_base; [exact rO|exact rHi|lia|lia].
  Qed.
  Lemma r_transition_eq : f_row_transition s =
    (if forallb (fun x => x <=? a) r_row then
       let j := L i + 1 in
       do col <- gets t (map fst (filter (fun cv => snd (fst cv) =? j) t));
       do u <- (if forallb (fun x => x <? a) r_row && forallb (fun x => x <? a) col
                then do u <- tadd t i j (VInt a); tremove u i (L 1 + 2) None else tremove t i (L 1 + 2) None);
       do s' <- hmake u None;
       Ok (s', (i, j))
     else
       let n := L 1 + 2 in
       let x := i + count_le r_row a in
       do b <- geti t i x;
       if i <? x then
         do v <- geti t i (x - 1);
         do above <- (if v <? a then (if i =? 1 then Ok true else do v <- geti t (i - 1) x; Ok (v <? a)) else Ok false);
         if above then
           do u <- tadd t (i + 1) n (VInt b);
           do u <- treplace u i x (VInt a);
           do u <- tremove u i n None;
           do s' <- hmake u (Some (i + 1, n));
           Ok (s', (i, x))
         else if (x =? i + 1) && negb (tmem t (i + 1, i + 1)) then
           let m := max_row t None in
           do u <- tadd t (m + 2) (i + 1) (VInt b);
           do u <- tremove u i n None;
           do s' <- hmake u (Some (m + 2, i + 1));
           Ok (s', (i, x))
         else
           do u <- tadd t (i + 1) n (VInt b);
           do u <- tremove u i n None;
           do s' <- hmake u (Some (i + 1, n));
           Ok (s', (i, x))
       else
         let m := max_row t None in
         do u <- (if a mod 2 =? b mod 2 then
                    do above <- (if i =? 1 then Ok true else do v <- geti t (i - 1) i; Ok (v <? a));
                    do u <- (if above then treplace t i x (VInt a) else Ok t);
                    tadd u (m + 2) (i + 1) (VInt b)
                  else tadd t (m + 2) (i + 1) (VInt (b + 1)));
         do u <- tremove u i n None;
         do s' <- hmake u (Some (m + 2, i + 1));
         Ok (s', (i, x))).
  Proof.
    unfold f_row_transition. pose proof Hs as (_ & Ho & _). rewrite Ho. rewrite (T_geti _ t i (L 1 + 2) a rR (look_outer _ _ _ _)).
    cbn [rbind]. pose proof r_bounds as B. rewrite (filter_segment _ i (L i) (L 1 + 2)); [|lia|].
    2: { intros x Hx. rewrite r_mem by lia. unfold fin. rewrite (proj2 (Z.leb_le 1 i)) by apply rHi. rewrite (proj2 (Z.leb_le i x)) by lia. reflexivity. }
    rewrite r_gets. cbn [rbind]. rewrite (sorted_id r_row).
    2: { apply map_zrange_increasing. intros x Hx Hxl. apply rIN; [exact rHi|lia|lia]. }
    rewrite r_row_len. replace (i + (L i - i + 1)) with (L i + 1) by lia.
    replace (forallb (fun x => tmem t (i, x)) (zrange i (L i + 1))) with true.
    2: { symmetry. apply forallb_forall. intros x Hx. apply In_zrange in Hx. rewrite r_mem by lia. apply fin_iff. pose proof rHi. lia. }
    rewrite r_gets. cbn [rbind]. rewrite zlist_eqb_refl. reflexivity.
  Qed.
  Lemma r_full_iff : forallb (fun x => x <=? a) r_row = true <-> r_full L g i a.
  Proof. unfold r_row. rewrite forallb_map_range. unfold r_full. split; intros K x Hx; [apply Z.leb_le|apply Z.leb_le]; apply K; lia. Qed.

  Lemma r_col : exists col, gets t (map fst (filter (fun cv => snd (fst cv) =? L i + 1) t)) = Ok col /\
    (forallb (fun x => x <? a) col = true <-> forall r, 1 <= r -> r <= L i + 1 -> L i + 1 <= L r -> g r (L i + 1) < a).
  Proof.
    pose proof r_bounds as B. set (l := map fst (filter (fun cv : box * list Z => snd (fst cv) =? L i + 1) t)).
    assert (Hl : forall c, In c l <-> snd c = L i + 1 /\ fin L (fst c) (snd c) = true).
    { intros [r c]. unfold l. rewrite in_map_iff. cbn [fst snd]. split.
      - intros ([[r' c'] v] & E & K). cbn [fst] in E. injection E as -> ->. apply filter_In in K. cbn [fst snd] in K. destruct K as [K1 K2].
        apply Z.eqb_eq in K2. split; [exact K2|]. apply (T_cells _ _ _ _ rR) in K1. rewrite <- (r_mem r c). 2: { destruct (Z.eq_dec c (L 1 + 2)) as [Ec|Ec]; [|exact Ec]. exfalso. lia. }
        rewrite (T_tmem _ _ _ rR), K1. reflexivity.
      - intros (K1 & K2). exists ((r, c), [g r c]). split; [reflexivity|]. apply filter_In. cbn [fst snd]. split; [|apply Z.eqb_eq; exact K1].
        apply (T_cells _ _ _ _ rR). apply fin_iff in K2. apply look_base; [exact rO|lia|lia|lia]. }
    exists (map (fun c => g (fst c) (snd c)) l). split.
    - apply gets_map. intros [r c] Hc. apply Hl in Hc. cbn [fst snd] in *. destruct Hc as [_ Hc]. apply fin_iff in Hc. pose proof rR as [_ RR]. rewrite RR. apply look_base; [exact rO|lia|lia|lia].
    - rewrite forallb_forall. split.
      + intros K r Hr Hr2 HL. apply Z.ltb_lt. apply K. apply in_map_iff. exists (r, L i + 1). split; [reflexivity|]. apply Hl. cbn [fst snd]. split; [reflexivity|]. apply fin_iff. lia.
      + intros K x Hx. apply in_map_iff in Hx. destruct Hx as ([r c] & <- & Hc). apply Hl in Hc. cbn [fst snd] in *. destruct Hc as (-> & Hc). apply fin_iff in Hc. apply Z.ltb_lt. apply K; lia.
  Qed.

  Lemma r_case_full : r_full L g i a -> exists s', f_row_transition s = Ok (s', (i, L i + 1)) /\
    ((r_add L g i a /\ FN (updr L i (L i + 1)) (updg g i (L i + 1) a) s') \/ (~ r_add L g i a /\ FN L g s')).
  Proof.
    intro F. rewrite r_transition_eq. rewrite (proj2 r_full_iff F). cbn zeta. destruct r_col as (col & Ec & Hc). rewrite Ec. cbn [rbind].
    pose proof rHi as Hi0. pose proof r_bounds as B. pose proof (row_full_above L H g i a HI F) as FA.
    assert (C : forallb (fun x => x <? a) r_row && forallb (fun x => x <? a) col = true <-> r_add L g i a).
    { rewrite andb_true_iff, Hc. unfold r_row. rewrite forallb_map_range. unfold r_add. split; intros [A1 A2]; split.
      - intros x Hx. apply Z.ltb_lt. apply A1. lia.
      - destruct FA as [FA|(F0 & F1 & F2 & F3)]; [left; exact FA|right]. apply A2; lia.
      - intros x Hx. apply Z.ltb_lt. apply A1. lia.
      - intros r Hr Hr2 Hrl. assert (r < i).
        { destruct (Z_le_gt_dec i r) as [h|h]; [|lia]. exfalso. pose proof (fmono L H i r (L i + 1) rSH ltac:(lia) h ltac:(lia) Hrl). lia. }
        destruct FA as [E|(F0 & F1 & F2 & F3)]; [lia|]. destruct A2 as [A2|A2]; [lia|]. destruct (Z.eq_dec r (i - 1)) as [->|E]; [exact A2|].
        pose proof (fcol_mono L H g r (i - 1) (L i + 1) rSH rIN ltac:(lia) ltac:(lia) ltac:(lia) F1). lia. }
    destruct (forallb (fun x => x <? a) r_row && forallb (fun x => x <? a) col).
    - pose proof (proj1 C eq_refl) as CA. destruct (T_add _ t i (L i + 1) a rR) as (u & Eu & Ru); [apply look_out; [lia|intro K; injection K as K; lia]|lia|lia|]. rewrite Eu. cbn [rbind].
      destruct (T_remove _ u i (L 1 + 2) [a] Ru) as (v & Ev & Rv).
      { unfold fput. replace (box_eqb (i, L i + 1) (i, L 1 + 2)) with false; [apply look_outer|]. symmetry. apply box_eqb_neq. intro K. injection K as K. lia. }
      rewrite Ev. cbn [rbind]. eexists. split; [reflexivity|]. left. split; [exact CA|]. split; [|reflexivity]. cbn [htab]. apply (T_ext _ _ _ Rv).
      intros [r c]. unfold fput, look. destruct (box_eqb (i, L 1 + 2) (r, c)) eqn:E1.
      + apply box_eqb_eq in E1. injection E1 as <- <-. unfold fbase. cbn [fst snd]. rewrite (proj2 (fin_false _ _ _)); [reflexivity|]. rewrite updr_same. lia.
      + unfold fbase. cbn [fst snd]. destruct (box_eqb (i, L i + 1) (r, c)) eqn:E2.
        * apply box_eqb_eq in E2. injection E2 as <- <-. rewrite updg_same. rewrite (proj2 (fin_iff _ _ _)); [reflexivity|]. rewrite updr_same. lia.
        * apply box_eqb_neq in E2. assert (NE : r <> i \/ c <> L i + 1). { destruct (Z.eq_dec r i) as [->|]; [right|left; assumption]. intros ->. apply E2. reflexivity. }
          rewrite updg_other by assumption. replace (fin (updr L i (L i + 1)) r c) with (fin L r c); [reflexivity|].
          apply eq_true_iff_eq. rewrite !fin_iff. unfold updr. destruct (Z.eqb_spec r i); [subst r; lia|tauto].
    - destruct (remove_outer L g (i, L 1 + 2) a t rR rO) as (u & Eu & Ru). cbn [fst snd] in Eu. rewrite Eu. cbn [rbind].
      eexists. split; [reflexivity|]. right. split; [intro CA; apply C in CA; discriminate|]. split; [exact Ru|reflexivity].
  Qed.

  Lemma r_max_row : i <= M -> max_row t None = M.
  Proof.
    intro h. pose proof rHi as Hi0. unfold max_row. rewrite filter_true. destruct HM as [M0 MM]. apply fold_max_eq; [assumption| |].
    - intros x Hx. apply in_map_iff in Hx. destruct Hx as ([[r c] v] & <- & Hin). apply (T_cells _ _ _ _ rR) in Hin. cbn [fst snd].
      destruct (Z.eq_dec c (L 1 + 2)) as [->|N].
      + destruct (Z.eq_dec r i) as [->|N2]; [exact h|]. rewrite look_out in Hin; [discriminate| |congruence]. intro K. pose proof (L_le1 L H r rSH ltac:(lia) ltac:(lia)). lia.
      + destruct (fin L r c) eqn:E; [|apply fin_false in E; rewrite look_out in Hin; [discriminate|exact E|congruence]]. apply fin_iff in E. apply MM; lia.
    - destruct (Z.eq_dec M 0) as [E|E]; [left; assumption|right]. apply in_map_iff. exists ((M, M), [g M M]). split; [reflexivity|]. apply (T_cells _ _ _ _ rR).
      apply look_base; [exact rO|lia|lia|]. apply MM; lia.
  Qed.

  (* the outcome of a bump at x *)
  Lemma r_case_bump : ~ r_full L g i a -> (forall r c, fin L r c = true -> g r c mod 2 = 0) -> a mod 2 = 0 -> exists x s', r_bump L g i a x /\ f_row_transition s = Ok (s', (i, x)) /\ i <= M /\
    ((i < x /\ r_rep g i a x /\ FS L M (updg g i x a) (i + 1, L 1 + 2) (g i x) s') \/
     (i < x /\ ~ r_rep g i a x /\ ~ (x = i + 1 /\ L (i + 1) < i + 1) /\ FS L M g (i + 1, L 1 + 2) (g i x) s') \/
     (x = i + 1 /\ ~ r_rep g i a x /\ L (i + 1) < i + 1 /\ FS L M g (M + 2, i + 1) (g i x) s') \/
     (x = i /\ d_rep g i a /\ FS L M (updg g i i a) (M + 2, i + 1) (g i i) s') \/
     (x = i /\ ~ d_rep g i a /\ FS L M g (M + 2, i + 1) (g i i) s')).
  Proof.
    intros F EV EA. rewrite r_transition_eq. assert (F' : forallb (fun x => x <=? a) r_row = false) by (apply not_true_iff_false; rewrite r_full_iff; exact F). rewrite F'.
    pose proof rHi as Hi0. pose proof r_bounds as B. destruct (count_le_spec (g i) (L i + 1) a i (not_all_le _ _ _ _ F')) as (X1 & X2 & X3). fold r_row in X1, X2, X3.
    cbn zeta. set (x := i + count_le r_row a) in *. clearbody x. cbn zeta in X1, X2, X3.
    assert (BC : r_bump L g i a x) by (split; [lia|split; [exact X2|intros; apply X3; lia]]). assert (iM : i <= M) by (apply HM; lia).
    rewrite (r_get i x) by lia. cbn [rbind]. pose proof (fmono L H (i - 1) i x rSH) as UP.
    assert (G1 : good_outer L M (i + 1, L 1 + 2)) by (left; cbn [fst snd]; lia). assert (G2 : good_outer L M (M + 2, i + 1)) by (right; cbn [fst snd]; lia).
    assert (N1 : (i, L 1 + 2) <> (i + 1, L 1 + 2)) by (intro K; injection K as K; lia). assert (N2 : (i, L 1 + 2) <> (M + 2, i + 1)) by (intro K; injection K as K; lia).
    destruct (Z.ltb_spec i x) as [h|h].
    - rewrite (r_get i (x - 1)) by lia. cbn [rbind].
      assert (Eab : (if g i (x - 1) <? a then if i =? 1 then Ok true else do v <- geti t (i - 1) x; Ok (v <? a) else Ok false) = Ok ((g i (x - 1) <? a) && ((i =? 1) || (g (i - 1) x <? a)))).
      { destruct (g i (x - 1) <? a); [|reflexivity]. destruct (Z.eqb_spec i 1) as [e|n]; [reflexivity|]. rewrite (r_get (i - 1) x) by lia. reflexivity. }
      rewrite Eab. cbn [rbind]. assert (CR : (g i (x - 1) <? a) && ((i =? 1) || (g (i - 1) x <? a)) = true <-> r_rep g i a x).
      { unfold r_rep. rewrite andb_true_iff, orb_true_iff, Z.eqb_eq, !Z.ltb_lt. tauto. }
      destruct ((g i (x - 1) <? a) && ((i =? 1) || (g (i - 1) x <? a))).
      + destruct (move_replace L H M g t (i, L 1 + 2) (i + 1, L 1 + 2) a (g i x) i x a rSH HM rG G1 N1 rR ltac:(lia) ltac:(lia) ltac:(lia)) as (u1 & u2 & u3 & s' & E1 & E2 & E3 & E4 & FSs).
        cbn [fst snd] in *. rewrite E1. cbn [rbind]. rewrite E2. cbn [rbind]. rewrite E3. cbn [rbind]. rewrite E4. cbn [rbind]. exists x, s'. split; [exact BC|]. split; [reflexivity|]. split; [exact iM|].
        left. split; [exact h|]. split; [apply CR; reflexivity|exact FSs].
      + assert (CRN : ~ r_rep g i a x) by (intro K; apply CR in K; discriminate).
        assert (TM : tmem t (i + 1, i + 1) = (i + 1 <=? L (i + 1))).
        { rewrite r_mem by lia. unfold fin. rewrite (proj2 (Z.leb_le 1 (i + 1))) by lia. rewrite Z.leb_refl. reflexivity. }
        rewrite TM. destruct ((x =? i + 1) && negb (i + 1 <=? L (i + 1))) eqn:D.
        * apply andb_true_iff in D. destruct D as [D1 D2]. apply Z.eqb_eq in D1. apply negb_true_iff in D2. apply Z.leb_gt in D2. rewrite r_max_row by exact iM.
          destruct (move_outer L H M g t (i, L 1 + 2) (M + 2, i + 1) a (g i x) rSH HM rG G2 N2 rR) as (u1 & u2 & s' & E1 & E2 & E3 & FSs).
          cbn [fst snd] in *. rewrite E1. cbn [rbind]. rewrite E2. cbn [rbind]. rewrite E3. cbn [rbind]. exists x, s'. split; [exact BC|]. split; [reflexivity|]. split; [exact iM|].
          right. right. left. tauto.
        * assert (D' : ~ (x = i + 1 /\ L (i + 1) < i + 1)).
          { intros [D1 D2]. apply not_true_iff_false in D. apply D. apply andb_true_iff. split; [apply Z.eqb_eq; exact D1|]. apply negb_true_iff. apply Z.leb_gt. exact D2. }
          destruct (move_outer L H M g t (i, L 1 + 2) (i + 1, L 1 + 2) a (g i x) rSH HM rG G1 N1 rR) as (u1 & u2 & s' & E1 & E2 & E3 & FSs).
          cbn [fst snd] in *. rewrite E1. cbn [rbind]. rewrite E2. cbn [rbind]. rewrite E3. cbn [rbind]. exists x, s'. split; [exact BC|]. split; [reflexivity|]. split; [exact iM|].
          right. left. tauto.
    - assert (x = i) by lia. subst x. rewrite r_max_row by exact iM. rewrite EA, (EV i i) by (apply fin_iff; lia). cbn [Z.eqb].
      assert (Eab : (if i =? 1 then Ok true else do v <- geti t (i - 1) i; Ok (v <? a)) = Ok ((i =? 1) || (g (i - 1) i <? a))).
      { destruct (Z.eqb_spec i 1) as [e|n]; [reflexivity|]. rewrite (r_get (i - 1) i) by lia. reflexivity. }
      rewrite Eab. cbn [rbind]. assert (CR : (i =? 1) || (g (i - 1) i <? a) = true <-> d_rep g i a) by (unfold d_rep; rewrite orb_true_iff, Z.eqb_eq, Z.ltb_lt; tauto).
      destruct ((i =? 1) || (g (i - 1) i <? a)).
      + destruct (replace_state L g _ t i i a rR ltac:(lia) ltac:(lia) ltac:(lia)) as (u0 & E0 & R0); [intros d w E; injection E as <- <-; exact rO|]. rewrite E0. cbn [rbind].
        destruct (move_outer L H M (updg g i i a) u0 (i, L 1 + 2) (M + 2, i + 1) a (g i i) rSH HM rG G2 N2 R0) as (u1 & u2 & s' & E1 & E2 & E3 & FSs).
        cbn [fst snd] in *. rewrite E1. cbn [rbind]. rewrite E2. cbn [rbind]. rewrite E3. cbn [rbind]. exists i, s'. split; [exact BC|]. split; [reflexivity|]. split; [exact iM|].
        right. right. right. left. split; [reflexivity|]. split; [apply CR; reflexivity|exact FSs].
      + cbn [rbind]. destruct (move_outer L H M g t (i, L 1 + 2) (M + 2, i + 1) a (g i i) rSH HM rG G2 N2 rR) as (u1 & u2 & s' & E1 & E2 & E3 & FSs).
        cbn [fst snd] in *. rewrite E1. cbn [rbind]. rewrite E2. cbn [rbind]. rewrite E3. cbn [rbind]. exists i, s'. split; [exact BC|]. split; [reflexivity|]. split; [exact iM|].
        right. right. right. right. split; [reflexivity|]. split; [intro K; apply CR in K; discriminate|exact FSs].
  Qed.
End Row.
