(* Shifted tableaux given by row ends, column heights and values, with an optional outer box *)
From Coq Require Import List ZArith Bool Lia Sorted.
From Verif Require Import PyBase M_Partitions M_Tableaux S_Tableaux L_Tableaux M_Insertion M_FState L_Insertion1 L_Insertion2.
Import ListNotations.
Local Open Scope Z_scope.

(* the cells of a tableau as a function *)
Definition T (f : box -> option (list Z)) (t : tab) : Prop := well_formed t /\ forall c, tlookup t c = f c.
Definition fput (f : box -> option (list Z)) (d : box) (v : option (list Z)) : box -> option (list Z) := fun c => if box_eqb d c then v else f c.
Lemma T_ext : forall f f' t, T f t -> (forall c, f c = f' c) -> T f' t.
Proof. intros f f' t [W R] E. split; [assumption|]. intro c. rewrite R. apply E. Qed.
Lemma T_add : forall f t i j b, T f t -> f (i, j) = None -> 0 < i -> 0 < j -> exists u, tadd t i j (VInt b) = Ok u /\ T (fput f (i, j) (Some [b])) u.
Proof.
  intros f t i j b [W R] E Hi Hj. rewrite tadd_int by assumption. eexists. split; [reflexivity|]. unfold entries. rewrite R, E. cbn [sinsert]. split.
  - apply tput_wf; [assumption|split; assumption|repeat constructor].
  - intro c. rewrite tlookup_tput by apply W. unfold fput. rewrite R. reflexivity.
Qed.
Lemma T_remove : forall f t i j l, T f t -> f (i, j) = Some l -> exists u, tremove t i j None = Ok u /\ T (fput f (i, j) None) u.
Proof.
  intros f t i j l [W R] E. rewrite (tremove_None t i j l) by (try assumption; rewrite R; exact E). eexists. split; [reflexivity|]. split; [apply tdel_wf; assumption|].
  intro c. rewrite tlookup_tdel by apply W. unfold fput. rewrite R. reflexivity.
Qed.
Lemma T_replace : forall f t i j a, T f t -> f (i, j) <> None -> 0 < i -> 0 < j -> exists u, treplace t i j (VInt a) = Ok u /\ T (fput f (i, j) (Some [a])) u.
Proof.
  intros f t i j a [W R] E Hi Hj. unfold treplace, tmem. rewrite R. destruct (f (i, j)); [|contradiction].
  rewrite tinit_mput_eq; [|exact W|split; assumption]. cbn [tuplize]. eexists. split; [reflexivity|]. split.
  - apply tput_wf; [assumption|split; assumption|repeat constructor].
  - intro c. rewrite tlookup_tput by apply W. unfold fput. rewrite R. reflexivity.
Qed.
Lemma T_geti : forall f t i j x, T f t -> f (i, j) = Some [x] -> geti t i j = Ok x.
Proof. intros f t i j x [W R] E. apply geti_lookup. rewrite R. exact E. Qed.
Lemma T_tmem : forall f t c, T f t -> tmem t c = match f c with Some _ => true | None => false end.
Proof. intros f t c [W R]. unfold tmem. rewrite R. reflexivity. Qed.
Lemma T_cells : forall f t c v, T f t -> (In (c, v) t <-> f c = Some v).
Proof. intros f t c v [W R]. rewrite <- R. split; [apply In_tlookup; apply W|apply tlookup_In]. Qed.
Lemma T_unique : forall f t u, T f t -> T f u -> t = u.
Proof. intros f t u [W R] [W' R']. apply wf_ext; [assumption|assumption|]. intro c. rewrite R, R'. reflexivity. Qed.

(* row i occupies the columns i, ..., L i, column j the rows 1, ..., H j *)
Definition fin (L : Z -> Z) (i j : Z) : bool := (1 <=? i) && (i <=? j) && (j <=? L i).
Lemma fin_iff : forall L i j, fin L i j = true <-> 1 <= i <= j /\ j <= L i.
Proof. intros. unfold fin. rewrite !andb_true_iff, !Z.leb_le. lia. Qed.
Lemma fin_false : forall L i j, fin L i j = false <-> ~ (1 <= i <= j /\ j <= L i).
Proof. intros. rewrite <- fin_iff. destruct (fin L i j); intuition congruence. Qed.
Definition fbase (L : Z -> Z) (g : Z -> Z -> Z) (c : box) : option (list Z) := if fin L (fst c) (snd c) then Some [g (fst c) (snd c)] else None.
Definition look (L : Z -> Z) (g : Z -> Z -> Z) (o : option (box * Z)) (c : box) : option (list Z) :=
  match o with Some (d, v) => if box_eqb d c then Some [v] else fbase L g c | None => fbase L g c end.
Definition fshape (L H : Z -> Z) : Prop :=
  (forall i, 1 <= i -> i - 1 <= L i) /\ (forall j, 1 <= j -> 0 <= H j <= j) /\ forall i j, 1 <= i -> i <= j -> (j <= L i <-> i <= H j).
Lemma fmono : forall L H i r j, fshape L H -> 1 <= i -> i <= r -> r <= j -> j <= L r -> j <= L i.
Proof. intros L H i r j (_ & _ & E) Hi Hr Hj Hl. apply (proj1 (E r j ltac:(lia) Hj)) in Hl. apply (proj2 (E i j Hi ltac:(lia))). lia. Qed.
Lemma L_le1 : forall L H i, fshape L H -> 1 <= i -> i <= L i -> L i <= L 1.
Proof. intros L H i S Hi Hl. apply (fmono L H 1 i (L i) S); lia. Qed.

Lemma look_base : forall L g d v i j, ~ (1 <= fst d <= snd d /\ snd d <= L (fst d)) -> 1 <= i -> i <= j -> j <= L i -> look L g (Some (d, v)) (i, j) = Some [g i j].
Proof.
  intros L g d v i j D Hi Hj Hl. unfold look. replace (box_eqb d (i, j)) with false.
  - unfold fbase. cbn [fst snd]. rewrite (proj2 (fin_iff L i j)) by lia. reflexivity.
  - symmetry. apply box_eqb_neq. intros ->. cbn [fst snd] in D. lia.
Qed.
Lemma look_base0 : forall L g i j, 1 <= i -> i <= j -> j <= L i -> look L g None (i, j) = Some [g i j].
Proof. intros L g i j Hi Hj Hl. unfold look, fbase. cbn [fst snd]. rewrite (proj2 (fin_iff L i j)) by lia. reflexivity. Qed.
Lemma look_out0 : forall L g i j, ~ (1 <= i <= j /\ j <= L i) -> look L g None (i, j) = None.
Proof. intros L g i j D. unfold look, fbase. cbn [fst snd]. rewrite (proj2 (fin_false L i j)) by lia. reflexivity. Qed.
Lemma look_outer : forall L g d v, look L g (Some (d, v)) d = Some [v].
Proof. intros. unfold look. rewrite box_eqb_refl. reflexivity. Qed.
Lemma look_out : forall L g d v i j, ~ (1 <= i <= j /\ j <= L i) -> (i, j) <> d -> look L g (Some (d, v)) (i, j) = None.
Proof.
  intros L g d v i j D N. unfold look. replace (box_eqb d (i, j)) with false by (symmetry; apply box_eqb_neq; congruence).
  unfold fbase. cbn [fst snd]. rewrite (proj2 (fin_false L i j)) by lia. reflexivity.
Qed.
Lemma remove_outer : forall L g d v t, T (look L g (Some (d, v))) t -> ~ (1 <= fst d <= snd d /\ snd d <= L (fst d)) ->
  exists u, tremove t (fst d) (snd d) None = Ok u /\ T (look L g None) u.
Proof.
  intros L g [i j] v t R D. cbn [fst snd] in *. destruct (T_remove _ t i j [v] R (look_outer L g (i, j) v)) as (u & E & Ru). exists u. split; [exact E|].
  apply (T_ext _ _ _ Ru). intro c. unfold fput. destruct (box_eqb (i, j) c) eqn:B.
  - apply box_eqb_eq in B. subst c. symmetry. apply look_out0. exact D.
  - unfold look. rewrite B. reflexivity.
Qed.

(* the numbers of columns and rows *)
Lemma fmax_column : forall L H g t, fshape L H -> T (look L g None) t -> max_column t None = L 1.
Proof.
  intros L H g t S R. unfold max_column. rewrite filter_true. apply fold_max_eq.
  - pose proof (proj1 S 1 ltac:(lia)). lia.
  - intros x Hx. apply in_map_iff in Hx. destruct Hx as ([[i j] v] & <- & Hin). apply (T_cells _ _ _ _ R) in Hin. cbn [fst snd].
    unfold look, fbase in Hin. cbn [fst snd] in Hin. destruct (fin L i j) eqn:E; [|discriminate]. apply fin_iff in E. apply (fmono L H 1 i j S); lia.
  - destruct (Z.eq_dec (L 1) 0) as [E|E]; [left; assumption|right]. pose proof (proj1 S 1 ltac:(lia)). apply in_map_iff. exists ((1, L 1), [g 1 (L 1)]). split; [reflexivity|].
    apply (T_cells _ _ _ _ R). apply look_base0; lia.
Qed.
Definition rows (L : Z -> Z) (M : Z) : Prop := 0 <= M /\ forall i, 1 <= i -> (i <= L i <-> i <= M).
Lemma rows_unique : forall L M M', rows L M -> rows L M' -> M = M'.
Proof.
  intros L M M' [A B] [A' B']. destruct (Z_lt_ge_dec M M') as [h|h].
  - pose proof (proj2 (B' M' ltac:(lia)) ltac:(lia)) as K. apply B in K; lia.
  - destruct (Z.eq_dec M M') as [e|n]; [assumption|]. pose proof (proj2 (B M ltac:(lia)) ltac:(lia)) as K. apply B' in K; lia.
Qed.
Lemma fmax_row : forall L H g t, fshape L H -> T (look L g None) t -> rows L (max_row t None).
Proof.
  intros L H g t S R. unfold max_row. rewrite filter_true.
  match goal with |- context [fold_left Z.max ?x 0] => set (l := x) end. destruct (fold_max_spec l 0) as (A & B & C). set (M := fold_left Z.max l 0) in *. clearbody M. split; [assumption|]. intros i Hi. split.
  - intro Hl. apply B. unfold l. apply in_map_iff. exists ((i, i), [g i i]). split; [reflexivity|]. apply (T_cells _ _ _ _ R). apply look_base0; lia.
  - intro Hl. destruct C as [C|C]; [lia|]. unfold l in C. apply in_map_iff in C. destruct C as ([[r c] v] & E & Hin). cbn [fst snd] in E.
    apply (T_cells _ _ _ _ R) in Hin. unfold look, fbase in Hin. cbn [fst snd] in Hin. destruct (fin L r c) eqn:E2; [|discriminate].
    apply fin_iff in E2. pose proof (fmono L H i r c S). lia.
Qed.

(* states: an outer box at the right of row i, or below column j *)
Definition good_outer (L : Z -> Z) (M : Z) (d : box) : Prop :=
  (snd d = L 1 + 2 /\ 1 <= fst d <= M + 1) \/ (fst d = M + 2 /\ 1 <= snd d <= L 1 + 1).
Lemma good_outside : forall L H M d, fshape L H -> rows L M -> good_outer L M d -> ~ (1 <= fst d <= snd d /\ snd d <= L (fst d)).
Proof.
  intros L H M d S [R0 R] G K. destruct G as [[E Hd]|[E Hd]].
  - pose proof (L_le1 L H (fst d) S). lia.
  - pose proof (proj1 (R (fst d) ltac:(lia))). lia.
Qed.
Definition FS (L : Z -> Z) (M : Z) (g : Z -> Z -> Z) (d : box) (a : Z) (s : hstate) : Prop :=
  T (look L g (Some (d, a))) (htab s) /\ houter s = Some d /\ hrows s = M /\ hcols s = L 1.
Definition FN (L : Z -> Z) (g : Z -> Z -> Z) (s : hstate) : Prop := T (look L g None) (htab s) /\ houter s = None.
Lemma fmake_None : forall L g t, T (look L g None) t -> exists s, hmake t None = Ok s /\ FN L g s /\ htab s = t.
Proof. intros L g t R. eexists. split; [reflexivity|]. split; [split; [exact R|reflexivity]|reflexivity]. Qed.
Lemma fmake_Some : forall L H M g t d a, fshape L H -> rows L M -> good_outer L M d -> T (look L g (Some (d, a))) t ->
  exists s, hmake t (Some d) = Ok s /\ FS L M g d a s /\ htab s = t.
Proof.
  intros L H M g t [i j] a S RM G R. unfold hmake. destruct (remove_outer L g (i, j) a t R (good_outside L H M _ S RM G)) as (u & E & Ru). cbn [fst snd] in *.
  rewrite E. cbn [rbind]. rewrite (fmax_column L H g u S Ru). pose proof (rows_unique L _ _ (fmax_row L H g u S Ru) RM) as ->.
  replace (xorb (M + 2 =? i) (L 1 + 2 =? j)) with true.
  - eexists. split; [reflexivity|]. split; [|reflexivity]. split; [exact R|]. split; [reflexivity|]. split; reflexivity.
  - destruct G as [[G1 G2]|[G1 G2]]; cbn [fst snd] in *.
    + replace (M + 2 =? i) with false by (symmetry; apply Z.eqb_neq; lia). replace (L 1 + 2 =? j) with true by (symmetry; apply Z.eqb_eq; lia). reflexivity.
    + replace (M + 2 =? i) with true by (symmetry; apply Z.eqb_eq; lia). replace (L 1 + 2 =? j) with false by (symmetry; apply Z.eqb_neq; lia). reflexivity.
Qed.

(* moving the outer box *)
Lemma move_outer : forall L H M g t d d' a b, fshape L H -> rows L M -> good_outer L M d -> good_outer L M d' -> d <> d' -> T (look L g (Some (d, a))) t ->
  exists u v s, tadd t (fst d') (snd d') (VInt b) = Ok u /\ tremove u (fst d) (snd d) None = Ok v /\ hmake v (Some (fst d', snd d')) = Ok s /\ FS L M g d' b s.
Proof.
  intros L H M g t [i j] [i' j'] a b S RM G G' N R. cbn [fst snd]. pose proof (good_outside L H M _ S RM G) as O. pose proof (good_outside L H M _ S RM G') as O'. cbn [fst snd] in *.
  pose proof (proj1 S 1 ltac:(lia)). destruct RM as [M0 RM0].
  destruct (T_add _ t i' j' b R) as (u & Eu & Ru); [apply look_out; [exact O'|congruence]|destruct G' as [G'|G']; cbn [fst snd] in G'; lia|destruct G' as [G'|G']; cbn [fst snd] in G'; lia|].
  destruct (T_remove _ u i j [a] Ru) as (v & Ev & Rv).
  { unfold fput. replace (box_eqb (i', j') (i, j)) with false by (symmetry; apply box_eqb_neq; congruence). apply look_outer. }
  assert (RV : T (look L g (Some ((i', j'), b))) v).
  { apply (T_ext _ _ _ Rv). intro c. unfold fput. destruct (box_eqb (i, j) c) eqn:B.
    - apply box_eqb_eq in B. subst c. symmetry. apply look_out; [exact O|congruence].
    - unfold look. rewrite B. destruct (box_eqb (i', j') c); reflexivity. }
  destruct (fmake_Some L H M g v (i', j') b S (conj M0 RM0) G' RV) as (s & Es & Fs & _). exists u, v, s. split; [exact Eu|]. split; [exact Ev|]. split; [exact Es|exact Fs].
Qed.
Lemma look_updg : forall L g o i j a c, 1 <= i -> i <= j -> j <= L i -> (forall d v, o = Some (d, v) -> d <> (i, j)) ->
  fput (look L g o) (i, j) (Some [a]) c = look L (updg g i j a) o c.
Proof.
  intros L g o i j a [r s] Hi Hj Hl N. unfold fput. assert (B : fbase L (updg g i j a) (r, s) = if box_eqb (i, j) (r, s) then Some [a] else fbase L g (r, s)).
  { unfold fbase. cbn [fst snd]. destruct (box_eqb (i, j) (r, s)) eqn:B.
    - apply box_eqb_eq in B. injection B as <- <-. rewrite (proj2 (fin_iff L i j)) by lia. rewrite updg_same. reflexivity.
    - apply box_eqb_neq in B. rewrite updg_other; [reflexivity|]. destruct (Z.eq_dec r i) as [->|]; [right; congruence|left; assumption]. }
  unfold look. rewrite B. destruct o as [[d v]|]; [|destruct (box_eqb (i, j) (r, s)); reflexivity].
  destruct (box_eqb (i, j) (r, s)) eqn:B2; [|reflexivity]. apply box_eqb_eq in B2. injection B2 as <- <-.
  replace (box_eqb d (i, j)) with false; [reflexivity|]. symmetry. apply box_eqb_neq. apply (N d v eq_refl).
Qed.
(* add, replace, remove; and replace, add, remove *)
Lemma move_replace : forall L H M g t d d' a b i j v, fshape L H -> rows L M -> good_outer L M d -> good_outer L M d' -> d <> d' -> T (look L g (Some (d, a))) t ->
  1 <= i -> i <= j -> j <= L i ->
  exists u1 u2 u3 s, tadd t (fst d') (snd d') (VInt b) = Ok u1 /\ treplace u1 i j (VInt v) = Ok u2 /\ tremove u2 (fst d) (snd d) None = Ok u3 /\
    hmake u3 (Some (fst d', snd d')) = Ok s /\ FS L M (updg g i j v) d' b s.
Proof.
  intros L H M g t d d' a b i j v S RM G G' N R Hi Hj Hl. pose proof (good_outside L H M _ S RM G) as O. pose proof (good_outside L H M _ S RM G') as O'.
  assert (P' : 0 < fst d' /\ 0 < snd d'). { pose proof (proj1 S 1 ltac:(lia)). destruct RM as [M0 RM0]. destruct G' as [G'|G']; lia. }
  assert (NE : forall e : box, ~ (1 <= fst e <= snd e /\ snd e <= L (fst e)) -> e <> (i, j)) by (intros e He ->; cbn [fst snd] in He; lia).
  destruct d as [x y], d' as [x' y']. cbn [fst snd] in *.
  destruct (T_add _ t x' y' b R) as (u1 & E1 & R1); [apply look_out; [exact O'|congruence]|lia|lia|]. rewrite E1.
  destruct (T_replace _ u1 i j v R1) as (u2 & E2 & R2); [|lia|lia|].
  { unfold fput. replace (box_eqb (x', y') (i, j)) with false by (symmetry; apply box_eqb_neq; apply (NE (x', y')); exact O'). rewrite look_base by assumption. discriminate. }
  destruct (T_remove _ u2 x y [a] R2) as (u3 & E3 & R3).
  { unfold fput. replace (box_eqb (i, j) (x, y)) with false by (symmetry; apply box_eqb_neq; intro K; symmetry in K; revert K; apply (NE (x, y)); exact O).
    replace (box_eqb (x', y') (x, y)) with false by (symmetry; apply box_eqb_neq; congruence). apply look_outer. }
  exists u1, u2, u3. assert (RV : T (look L (updg g i j v) (Some ((x', y'), b))) u3).
  { apply (T_ext _ _ _ R3). intro c. rewrite <- look_updg; [|assumption|assumption|assumption|intros e w E; injection E as <- <-; apply (NE (x', y')); exact O'].
    unfold fput. destruct (box_eqb (x, y) c) eqn:B.
    - apply box_eqb_eq in B. subst c. replace (box_eqb (i, j) (x, y)) with false by (symmetry; apply box_eqb_neq; intro K; symmetry in K; revert K; apply (NE (x, y)); exact O).
      symmetry. apply look_out; [exact O|congruence].
    - unfold look. rewrite B. destruct (box_eqb (i, j) c), (box_eqb (x', y') c); reflexivity. }
  destruct (fmake_Some L H M _ u3 (x', y') b S RM G' RV) as (s & Es & Fs & _). exists s. split; [reflexivity|]. split; [exact E2|]. split; [exact E3|]. split; [exact Es|exact Fs].
Qed.
Lemma replace_state : forall L g o t i j v, T (look L g o) t -> 1 <= i -> i <= j -> j <= L i -> (forall d w, o = Some (d, w) -> ~ (1 <= fst d <= snd d /\ snd d <= L (fst d))) ->
  exists u, treplace t i j (VInt v) = Ok u /\ T (look L (updg g i j v) o) u.
Proof.
  intros L g o t i j v R Hi Hj Hl O. destruct (T_replace _ t i j v R) as (u & E & Ru); [|lia|lia|].
  - destruct o as [[d w]|]; [rewrite look_base by (try assumption; apply (O d w eq_refl))|rewrite look_base0 by assumption]; discriminate.
  - exists u. split; [exact E|]. apply (T_ext _ _ _ Ru). intro c. apply look_updg; [assumption|assumption|assumption|]. intros d w Ed K. subst d. specialize (O _ w Ed). cbn [fst snd] in O. lia.
Qed.
