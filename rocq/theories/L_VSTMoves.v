(* Moving cells between vertical and horizontal groups *)
From Coq Require Import List ZArith Lia Bool Permutation.
From Verif Require Import PyBase M_Partitions M_Tableaux S_Tableaux L_Tableaux M_Transposed M_VST M_VSTMoves.
Import ListNotations.
Local Open Scope Z_scope.

Definition col (j a b : Z) : list box := map (fun i => (i, j)) (zrange a (b + 1)).
Definition row (i a b : Z) : list box := map (fun j => (i, j)) (zrange a (b + 1)).
Definition vert (s : seg) : Prop := exists j a b, a <= b /\ s = ((a, j), (b, j)).
Definition horiz (s : seg) : Prop := exists i a b, a <= b /\ s = ((i, a), (i, b)).
Lemma zrange_one : forall a, zrange a (a + 1) = [a].
Proof. intro a. rewrite zrange_cons by lia. rewrite zrange_nil by lia. reflexivity. Qed.
Lemma cells_vert : forall j a b, seg_cells ((a, j), (b, j)) = col j a b.
Proof. intros j a b. unfold seg_cells, col. cbn [fst snd]. rewrite zrange_one. cbn [map]. induction (zrange a (b + 1)) as [|x l IH]; [reflexivity|]. cbn [flat_map map]. rewrite IH. reflexivity. Qed.
Lemma cells_horiz : forall i a b, seg_cells ((i, a), (i, b)) = row i a b.
Proof. intros i a b. unfold seg_cells, row. cbn [fst snd]. rewrite zrange_one. cbn [flat_map]. apply app_nil_r. Qed.
Lemma col_cons : forall j a b, a <= b -> col j a b = (a, j) :: col j (a + 1) b.
Proof. intros j a b L. unfold col. rewrite zrange_cons by lia. reflexivity. Qed.
Lemma col_snoc : forall j a b, a <= b -> col j a b = col j a (b - 1) ++ [(b, j)].
Proof. intros j a b L. unfold col. rewrite zrange_snoc by lia. rewrite map_app. replace (b + 1 - 1) with b by lia. replace (b - 1 + 1) with b by lia. reflexivity. Qed.
Lemma row_cons : forall i a b, a <= b -> row i a b = (i, a) :: row i (a + 1) b.
Proof. intros j a b L. unfold row. rewrite zrange_cons by lia. reflexivity. Qed.
Lemma row_snoc : forall i a b, a <= b -> row i a b = row i a (b - 1) ++ [(i, b)].
Proof. intros j a b L. unfold row. rewrite zrange_snoc by lia. rewrite map_app. replace (b + 1 - 1) with b by lia. replace (b - 1 + 1) with b by lia. reflexivity. Qed.
Lemma col_one : forall j a, col j a a = [(a, j)].
Proof. intros j a. unfold col. rewrite zrange_one. reflexivity. Qed.
Lemma row_one : forall i a, row i a a = [(i, a)].
Proof. intros i a. unfold row. rewrite zrange_one. reflexivity. Qed.
Lemma in_col : forall j a b c, In c (col j a b) <-> a <= fst c <= b /\ snd c = j.
Proof. intros j a b [x y]. unfold col. rewrite in_map_iff. cbn [fst snd]. split; [intros (z & E & I); apply In_zrange in I; injection E as <- <-; lia|intros [L ->]; exists x; split; [reflexivity|apply In_zrange; lia]]. Qed.
Lemma in_row : forall i a b c, In c (row i a b) <-> a <= snd c <= b /\ fst c = i.
Proof. intros i a b [x y]. unfold row. rewrite in_map_iff. cbn [fst snd]. split; [intros (z & E & I); apply In_zrange in I; injection E as <- <-; lia|intros [L ->]; exists y; split; [reflexivity|apply In_zrange; lia]]. Qed.
Lemma start_in : forall s, vert s -> In (fst s) (seg_cells s).
Proof. intros s (j & a & b & L & ->). rewrite cells_vert, in_col. cbn [fst snd]. lia. Qed.
Lemma end_in : forall s, horiz s -> In (snd s) (seg_cells s).
Proof. intros s (j & a & b & L & ->). rewrite cells_horiz, in_row. cbn [fst snd]. lia. Qed.

(* the result of a move *)
Definition moved (v h v' h' : seg) : Prop := vert v' /\ horiz h' /\ Permutation (seg_cells v ++ seg_cells h) (seg_cells v' ++ seg_cells h').
Lemma moved_refl : forall v h, vert v -> horiz h -> moved v h v h.
Proof. intros v h V H. split; [exact V|]. split; [exact H|]. apply Permutation_refl. Qed.
Lemma swap_tail : forall (A B : list box) y, Permutation (A ++ B ++ [y]) ((A ++ [y]) ++ B).
Proof. intros A B y. rewrite <- app_assoc. apply Permutation_app_head. apply Permutation_app_comm. Qed.
Ltac segs := match goal with |- moved _ _ ((?a, ?j), (?b, ?j')) ((?i, ?c), (?i', ?d)) => split; [exists j, a, b; split; [lia|repeat f_equal; lia]|]; split; [exists i, c, d; split; [lia|repeat f_equal; lia]|] end.
Lemma bt_step_ok : forall v h, vert v -> horiz h -> moved v h (fst (bt_step v h)) (snd (bt_step v h)).
Proof.
  intros v h V H. pose proof (moved_refl v h V H) as R. destruct V as (j & a & b & L & ->). destruct H as (i & c & d & K & ->). unfold bt_step.
  destruct (box_eqb (a, j) (i, c - 1)) eqn:E1.
  - apply box_eqb_eq in E1. injection E1 as -> ->. destruct (Z.ltb_spec i b) as [D|D]; cbn [fst snd]; segs.
    + rewrite !cells_vert, !cells_horiz, (col_cons (c - 1) i b) by lia. rewrite (row_cons i (c - 1) d) by lia. replace (c - 1 + 1) with c by lia. cbn [app]. apply Permutation_middle.
    + assert (b = i) by lia. subst b. rewrite !cells_vert, !cells_horiz, !col_one. transitivity (row i (c - 1) d); [rewrite (row_cons i (c - 1) d) by lia; replace (c - 1 + 1) with c by lia; apply Permutation_refl|]. rewrite (row_snoc i (c - 1) d) by lia. apply Permutation_app_comm.
  - destruct (box_eqb (b, j) (i - 1, d)) eqn:E2; [|exact R]. apply box_eqb_eq in E2. injection E2 as -> ->. destruct (Z.ltb_spec c d) as [D|D]; cbn [fst snd].
    + segs. rewrite !cells_vert, !cells_horiz. replace (i - 1 + 1) with i by lia. rewrite (col_snoc d a i) by lia. rewrite (row_snoc i c d) by lia. apply swap_tail.
    + assert (c = d) by lia. subst c. segs. rewrite !cells_vert, !col_one. replace (i - 1 + 1) with i by lia. transitivity (col d a i); [rewrite (col_snoc d a i) by lia; apply Permutation_refl|]. rewrite (col_cons d a i) by lia. change ((a, d) :: col d (a + 1) i) with ([(a, d)] ++ col d (a + 1) i). apply Permutation_app_comm.
Qed.
Lemma ft_step_ok : forall la vs hs v h d, vert v -> horiz h -> ft_step la vs hs v h d = Err AssertionError \/ exists v' h' d', ft_step la vs hs v h d = Ok (v', h', d') /\ moved v h v' h'.
Proof.
  intros la vs hs v h dg V H. pose proof (moved_refl v h V H) as R. destruct V as (j & a & b & L & ->). destruct H as (i & c & d & K & ->). unfold ft_step.
  assert (S2 : forall x, set_diag2 la dg x = Err AssertionError \/ exists d', set_diag2 la dg x = Ok d') by (intro x; unfold set_diag2; destruct (snd dg); [left; reflexivity|destruct la; [right; eexists; reflexivity|left; reflexivity]]).
  assert (S1 : forall x, set_diag1 la dg x = Err AssertionError \/ exists d', set_diag1 la dg x = Ok d') by (intro x; unfold set_diag1; destruct (fst dg); [left; reflexivity|destruct la; [right; eexists; reflexivity|left; reflexivity]]).
  destruct ((a =? j) && (j =? i + 1) && (i + 1 =? c + 1) && (c + 1 <=? d)).
  { destruct (S2 a) as [->|(d' & ->)]; [left; reflexivity|right; do 3 eexists; split; [reflexivity|exact R]]. }
  destruct ((i =? d) && (d =? b - 1) && (b - 1 =? j - 1) && (a <=? j - 1)).
  { destruct (S1 i) as [->|(d' & ->)]; [left; reflexivity|right; do 3 eexists; split; [reflexivity|exact R]]. }
  destruct (box_eqb (a, j) (i + 1, c)) eqn:E1.
  - apply box_eqb_eq in E1. injection E1 as -> ->. destruct (mem_box (i, i) vs).
    { destruct (S2 (i + 1)) as [->|(d' & ->)]; [left; reflexivity|right; do 3 eexists; split; [reflexivity|exact R]]. }
    right. destruct (Z.ltb_spec c d) as [D|D]; do 3 eexists; (split; [reflexivity|]).
    + segs. rewrite !cells_vert, !cells_horiz. replace (i + 1 - 1) with i by lia. rewrite (row_cons i c d) by lia. rewrite (col_cons c i b) by lia. cbn [app]. symmetry. apply Permutation_middle.
    + assert (c = d) by lia. subst c. segs. rewrite !cells_vert, !col_one. replace (i + 1 - 1) with i by lia. transitivity (col d i b); [rewrite (col_cons d i b) by lia; change ((i, d) :: col d (i + 1) b) with ([(i, d)] ++ col d (i + 1) b); apply Permutation_app_comm|]. rewrite (col_snoc d i b) by lia. apply Permutation_refl.
  - destruct (box_eqb (b, j) (i, d + 1)) eqn:E2; [|right; do 3 eexists; split; [reflexivity|exact R]]. apply box_eqb_eq in E2. injection E2 as -> ->. destruct (mem_box (d + 1, d + 1) hs).
    { destruct (S1 i) as [->|(d' & ->)]; [left; reflexivity|right; do 3 eexists; split; [reflexivity|exact R]]. }
    right. destruct (Z.ltb_spec a i) as [D|D]; do 3 eexists; (split; [reflexivity|]).
    + segs. rewrite !cells_vert, !cells_horiz. rewrite (col_snoc (d + 1) a i) by lia. rewrite (row_snoc i c (d + 1)) by lia. replace (d + 1 - 1) with d by lia. symmetry. apply swap_tail.
    + assert (a = i) by lia. subst a. segs. rewrite !cells_vert, !cells_horiz, !col_one. transitivity (row i c (d + 1)); [rewrite (row_snoc i c (d + 1)) by lia; replace (d + 1 - 1) with d by lia; apply Permutation_app_comm|]. rewrite (row_cons i c (d + 1)) by lia. apply Permutation_refl.
Qed.

(* the result of all moves *)
Definition all_cells (l : list seg) : list box := flat_map seg_cells l.
Definition moves (vs hs vs' hs' : list seg) : Prop := length vs' = length vs /\ length hs' = length hs /\ Forall vert vs' /\ Forall horiz hs' /\ Permutation (all_cells vs ++ all_cells hs) (all_cells vs' ++ all_cells hs').
Lemma bt_inner_ok : forall hs v, vert v -> Forall horiz hs -> let r := bt_inner v hs in moves [v] hs [fst r] (snd r).
Proof.
  induction hs as [|h hs IH]; intros v V H; cbn [bt_inner].
  - cbn [fst snd]. repeat split; auto.
  - inversion H as [|? ? H1 H2]; subst. pose proof (bt_step_ok v h V H1) as (A1 & A2 & A3). destruct (bt_step v h) as [v1 h1]. cbn [fst snd] in *. destruct (IH v1 A1 H2) as (B1 & B2 & B3 & B4 & B5). destruct (bt_inner v1 hs) as [v2 r2]. cbn [fst snd] in *.
    split; [reflexivity|]. split; [cbn [length]; congruence|]. split; [exact B3|]. split; [constructor; assumption|]. unfold all_cells in *. cbn [flat_map] in *. rewrite !app_nil_r in *.
    transitivity (seg_cells h1 ++ seg_cells v1 ++ flat_map seg_cells hs).
    + rewrite !app_assoc. apply Permutation_app_tail. rewrite A3. apply Permutation_app_comm.
    + rewrite B5, !app_assoc. apply Permutation_app_tail. apply Permutation_app_comm.
Qed.
Lemma moves_cons : forall v hs v1 hs1 vs vs2 hs2, moves [v] hs [v1] hs1 -> moves vs hs1 vs2 hs2 -> moves (v :: vs) hs (v1 :: vs2) hs2.
Proof.
  intros v hs v1 hs1 vs vs2 hs2 (A1 & A2 & A3 & A4 & A5) (B1 & B2 & B3 & B4 & B5). split; [cbn [length]; congruence|]. split; [congruence|]. split; [inversion A3; constructor; assumption|]. split; [exact B4|]. unfold all_cells in *. cbn [flat_map] in *. rewrite !app_nil_r in *.
  transitivity (seg_cells v1 ++ flat_map seg_cells vs ++ flat_map seg_cells hs1).
  - rewrite <- app_assoc. transitivity (flat_map seg_cells vs ++ seg_cells v ++ flat_map seg_cells hs); [rewrite !app_assoc; apply Permutation_app_tail, Permutation_app_comm|]. rewrite A5, !app_assoc. apply Permutation_app_tail, Permutation_app_comm.
  - rewrite B5, app_assoc. apply Permutation_refl.
Qed.
Lemma bt_outer_ok : forall vs hs, Forall vert vs -> Forall horiz hs -> let r := bt_outer vs hs in moves vs hs (fst r) (snd r).
Proof.
  induction vs as [|v vs IH]; intros hs V H; cbn [bt_outer]; [cbn [fst snd]; repeat split; auto|]. inversion V as [|? ? V1 V2]; subst. pose proof (bt_inner_ok hs v V1 H) as A. cbv zeta in A. destruct (bt_inner v hs) as [v1 hs1]. cbn [fst snd] in A. pose proof (IH hs1 V2 ltac:(apply A)) as B. cbv zeta in B. destruct (bt_outer vs hs1) as [r2 hs2]. cbn [fst snd] in *. apply (moves_cons v hs v1 hs1); assumption.
Qed.
Lemma ft_inner_ok : forall la vst hs done v d, vert v -> Forall horiz hs -> ft_inner la vst done v hs d = Err AssertionError \/ exists v' hs' d', ft_inner la vst done v hs d = Ok (v', done ++ hs', d') /\ moves [v] hs [v'] hs'.
Proof.
  intros la vst. induction hs as [|h hs IH]; intros done v d V H; cbn [ft_inner].
  - right. exists v, [], d. rewrite app_nil_r. split; [reflexivity|]. repeat split; auto.
  - inversion H as [|? ? H1 H2]; subst. destruct (ft_step_ok la vst (map snd (done ++ h :: hs)) v h d V H1) as [->|(v1 & h1 & d1 & -> & A1 & A2 & A3)]; [left; reflexivity|]. cbn [rbind fst snd]. destruct (IH (done ++ [h1]) v1 d1 A1 H2) as [->|(v2 & r2 & d2 & -> & B1 & B2 & B3 & B4 & B5)]; [left; reflexivity|]. right. exists v2, (h1 :: r2), d2. rewrite <- app_assoc. split; [reflexivity|].
    split; [reflexivity|]. split; [cbn [length]; congruence|]. split; [exact B3|]. split; [constructor; assumption|]. unfold all_cells in *. cbn [flat_map] in *. rewrite !app_nil_r in *.
    transitivity (seg_cells h1 ++ seg_cells v1 ++ flat_map seg_cells hs).
    + rewrite !app_assoc. apply Permutation_app_tail. rewrite A3. apply Permutation_app_comm.
    + rewrite B5, !app_assoc. apply Permutation_app_tail. apply Permutation_app_comm.
Qed.
Lemma ft_outer_ok : forall vs done hs d, Forall vert vs -> Forall horiz hs -> ft_outer done vs hs d = Err AssertionError \/ exists vs' hs' d', ft_outer done vs hs d = Ok (done ++ vs', hs', d') /\ moves vs hs vs' hs'.
Proof.
  induction vs as [|v vs IH]; intros done hs d V H; cbn [ft_outer].
  - right. exists [], hs, d. rewrite app_nil_r. split; [reflexivity|]. repeat split; auto.
  - inversion V as [|? ? V1 V2]; subst. destruct (ft_inner_ok (match vs with [] => true | _ => false end) (map fst (done ++ v :: vs)) hs [] v d V1 H) as [->|(v1 & hs1 & d1 & -> & A)]; [left; reflexivity|]. cbn [rbind fst snd app]. destruct (IH (done ++ [v1]) hs1 d1 V2 ltac:(apply A)) as [->|(vs2 & hs2 & d2 & -> & B)]; [left; reflexivity|]. right. exists (v1 :: vs2), hs2, d2. rewrite <- app_assoc. split; [reflexivity|]. apply (moves_cons v hs v1 hs1); assumption.
Qed.
Lemma all_cells_rev : forall l, Permutation (all_cells (rev l)) (all_cells l).
Proof. intro l. unfold all_cells. apply Permutation_flat_map. symmetry. apply Permutation_rev. Qed.
Lemma moves_rev : forall vs hs vs' hs', moves (rev vs) (rev hs) vs' hs' -> moves vs hs (rev vs') (rev hs').
Proof.
  intros vs hs vs' hs' (A1 & A2 & A3 & A4 & A5). rewrite rev_length in A1, A2. split; [rewrite rev_length; congruence|]. split; [rewrite rev_length; congruence|]. split; [apply Forall_rev; exact A3|]. split; [apply Forall_rev; exact A4|]. rewrite !all_cells_rev in *. exact A5.
Qed.

(* ---------- writing ---------- *)
Lemma mputs_app : forall a b m, mputs (a ++ b) m = mputs b (mputs a m).
Proof. intros a b m. unfold mputs. apply fold_left_app. Qed.
Lemma mputs_out : forall ws m c, ~ In c (map fst ws) -> mlookup (mputs ws m) c = mlookup m c.
Proof.
  induction ws as [|[d x] ws IH]; intros m c H; [reflexivity|]. unfold mputs in *. cbn [fold_left fst snd]. rewrite IH by (intro K; apply H; right; exact K). rewrite mlookup_mput. destruct (box_eqb d c) eqn:E; [|reflexivity]. apply box_eqb_eq in E. destruct H. left. exact E.
Qed.
Lemma mputs_keys : forall ws m c, In c (map fst (mputs ws m)) <-> In c (map fst ws) \/ In c (map fst m).
Proof.
  induction ws as [|[d x] ws IH]; intros m c; [cbn; tauto|]. unfold mputs in *. cbn [fold_left fst snd map In]. rewrite IH, mput_keys. split; intuition.
Qed.
Lemma mputs_NoDup : forall ws m, NoDup (map fst m) -> NoDup (map fst (mputs ws m)).
Proof. induction ws as [|[d x] ws IH]; intros m H; [exact H|]. unfold mputs in *. cbn [fold_left fst snd]. apply IH. apply mput_NoDup. exact H. Qed.
Lemma mputs_const : forall ws m c x, In c (map fst ws) -> (forall y, In (c, y) ws -> y = x) -> mlookup (mputs ws m) c = Some (VInt x).
Proof.
  induction ws as [|[d y] ws IH]; intros m c x I A; [destruct I|]. unfold mputs in *. cbn [fold_left fst snd]. destruct (in_dec (fun a b => box_dec a b) c (map fst ws)) as [D|D].
  - apply IH; [exact D|]. intros z Hz. apply A. right. exact Hz.
  - destruct I as [I|I]; [|contradiction]. cbn [fst] in I. subst d. pose proof (mputs_out ws (mput c (VInt y) m) c D) as Q. unfold mputs in Q. rewrite Q, mlookup_mput, box_eqb_refl. rewrite (A y); [reflexivity|left; reflexivity].
Qed.
Lemma mputs_at : forall (S : Type) (W : S -> list (box * Z)) l m s c x, In s l -> In c (map fst (W s)) -> (forall s', In s' l -> In c (map fst (W s')) -> s' = s) -> (forall m, mlookup (mputs (W s) m) c = Some (VInt x)) ->
  mlookup (mputs (flat_map W l) m) c = Some (VInt x).
Proof.
  intros S W. induction l as [|a l IH]; intros m s c x I C U V; [destruct I|]. cbn [flat_map]. rewrite mputs_app. destruct (in_dec (fun a b => box_dec a b) c (map fst (flat_map W l))) as [D|D].
  - apply in_map_iff in D. destruct D as ([c' y] & E & D). cbn [fst] in E. subst c'. apply in_flat_map in D. destruct D as (s' & D1 & D2). assert (s' = s) by (apply U; [right; exact D1|apply (in_map fst) in D2; exact D2]). subst s'.
    apply (IH _ s c x D1 C); [|exact V]. intros s' Hs. apply U. right. exact Hs.
  - rewrite mputs_out by exact D. destruct I as [->|I]; [apply V|]. exfalso. apply D. apply in_map_iff in C. destruct C as ([c' y] & E & C). cbn [fst] in E. subst c'. apply in_map_iff. exists (c, y). split; [reflexivity|]. apply in_flat_map. exists s. split; assumption.
Qed.
Lemma flat_unique : forall (S : Type) (f : S -> list box) l a b c, NoDup (flat_map f l) -> In a l -> In b l -> In c (f a) -> In c (f b) -> a = b.
Proof.
  intros S f. induction l as [|s l IH]; intros a b c N A B CA CB; [destruct A|]. cbn [flat_map] in N.
  assert (X : NoDup (flat_map f l) /\ forall x, In x (f s) -> ~ In x (flat_map f l)).
  { clear - N. induction (f s) as [|y k IHk]; [split; [exact N|intros x []]|]. cbn [app] in N. inversion N as [|? ? N1 N2]; subst. destruct (IHk N2) as [K1 K2]. split; [exact K1|]. intros x [<-|I]; [intro Q; apply N1; apply in_or_app; right; exact Q|apply K2; exact I]. }
  destruct X as [X1 X2]. destruct A as [->|A], B as [->|B].
  - reflexivity.
  - exfalso. apply (X2 c CA). apply in_flat_map. exists b. split; assumption.
  - exfalso. apply (X2 c CB). apply in_flat_map. exists a. split; assumption.
  - apply (IH a b c); assumption.
Qed.
