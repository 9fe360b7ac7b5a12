(* Restricting shifted growth diagrams: fewer rows, fewer columns, and leaving out columns in which nothing happens *)
From Coq Require Import List ZArith Lia Bool Permutation Arith.
From Verif Require Import PyBase M_Partitions M_SGrowth S_SGrowth L_SGrowth P_SGrowth.
Import ListNotations.
Local Open Scope Z_scope.
Local Notation entry := (list Z * bool * option Z)%type.

Lemma row_restrict : forall bord d d' i prev j k left r, sg_row bord d i j prev left = Ok r -> (forall y, j <= y < j + Z.of_nat k -> inb d i y = inb d' i y) ->
  sg_row bord d' i j (firstn (S k) prev) left = Ok (firstn k r).
Proof.
  intros bord d d' i prev. induction prev as [|[[lam e0] c0] prev IH]; intros j k left r E A; [injection E as <-; rewrite !firstn_nil; reflexivity|]. destruct prev as [|[[nu e] c] prev].
  - injection E as <-. cbn [firstn]. rewrite !firstn_nil. reflexivity.
  - destruct k as [|k]; [reflexivity|]. cbn [sg_row] in E. change (firstn (S (S k)) ((lam, e0, c0) :: (nu, e, c) :: prev)) with ((lam, e0, c0) :: (nu, e, c) :: firstn k prev). cbn [sg_row].
    rewrite <- (A j) by lia. destruct (sg_cell bord (inb d i j) lam nu left e c) as [x|]; [|discriminate]. cbn [rbind] in *.
    destruct (sg_row bord d i (j + 1) ((nu, e, c) :: prev) (fst (fst x))) as [r0|] eqn:E0; [|cbn [sg_row] in E0; rewrite E0 in E; discriminate]. cbn [sg_row] in E0. rewrite E0 in E. cbn [rbind] in E. injection E as <-.
    specialize (IH (j + 1) k (fst (fst x)) r0 E0 ltac:(intros y Hy; apply A; lia)). cbn [firstn sg_row] in IH. rewrite IH. reflexivity.
Qed.
Lemma rows_restrict : forall bord d d' M rows rows' i prev rs, sg_rows bord d i rows prev = Ok rs -> (rows' <= rows)%nat ->
  (forall x y, i <= x < i + Z.of_nat rows' -> 1 <= y <= Z.of_nat M -> inb d x y = inb d' x y) ->
  sg_rows bord d' i rows' (firstn (S M) prev) = Ok (firstn rows' (map (firstn (S M)) rs)).
Proof.
  intros bord d d' M rows. induction rows as [|rows IH]; intros rows' i prev rs E L A; [replace rows' with O by lia; reflexivity|]. destruct rows' as [|rows']; [reflexivity|]. cbn [sg_rows] in *.
  destruct (sg_row bord d i 1 prev []) as [r|] eqn:ER; [|discriminate]. cbn [rbind] in E. rewrite (row_restrict bord d d' i prev 1 M [] r ER) by (intros y Hy; apply A; lia). cbn [rbind].
  destruct (sg_rows bord d (i + 1) rows (sg_zero :: r)) as [rest|] eqn:ES; [|discriminate]. cbn [rbind] in E. injection E as <-.
  specialize (IH rows' (i + 1) (sg_zero :: r) rest ES ltac:(lia) ltac:(intros x y Hx Hy; apply A; lia)). cbn [firstn] in IH. rewrite IH. cbn [rbind map firstn]. reflexivity.
Qed.
(* a row without positions is the row above *)
Lemma row_copy : forall bord d i prev j lam e c, (forall y, inb d i y = false) -> sg_row bord d i j ((lam, e, c) :: prev) lam = Ok prev.
Proof.
  intros bord d i prev. induction prev as [|[[nu e1] c1] prev IH]; intros j lam e c A; [reflexivity|]. cbn [sg_row]. rewrite A. replace (sg_cell bord false lam nu lam e1 c1) with (Ok (nu, e1, c1)) by (unfold sg_cell; cbn [andb]; rewrite zlist_eqb_refl; reflexivity). cbn [rbind fst]. specialize (IH (j + 1) nu e1 c1 A). cbn [sg_row] in IH. rewrite IH. reflexivity.
Qed.
Lemma rows_copy : forall bord d rows i prev, (forall x y, i <= x -> inb d x y = false) -> sg_rows bord d i rows (sg_zero :: prev) = Ok (repeat (sg_zero :: prev) rows).
Proof.
  intros bord d rows. induction rows as [|rows IH]; intros i prev A; [reflexivity|]. cbn [sg_rows repeat]. unfold sg_zero at 1. rewrite row_copy by (intro y; apply A; lia). cbn [rbind]. rewrite IH by (intros x y Hx; apply A; lia). reflexivity.
Qed.
Lemma rows_app : forall bord d a b i prev ra rb, sg_rows bord d i a (sg_zero :: prev) = Ok ra -> sg_rows bord d (i + Z.of_nat a) b (last ra (sg_zero :: prev)) = Ok rb -> sg_rows bord d i (a + b) (sg_zero :: prev) = Ok (ra ++ rb).
Proof.
  intros bord d a b. induction a as [|a IH]; intros i prev ra rb EA EB.
  - injection EA as <-. rewrite Z.add_0_r in EB. exact EB.
  - cbn [sg_rows Nat.add] in *. destruct (sg_row bord d i 1 (sg_zero :: prev) []) as [r|]; [|discriminate]. cbn [rbind] in *. destruct (sg_rows bord d (i + 1) a (sg_zero :: r)) as [rest|] eqn:ES; [|discriminate]. cbn [rbind] in EA. injection EA as <-.
    rewrite (IH (i + 1) r rest rb ES); [reflexivity|]. replace (i + 1 + Z.of_nat a) with (i + Z.of_nat (S a)) by lia. destruct rest as [|x rest]; [exact EB|].
    replace (last (x :: rest) (sg_zero :: r)) with (last ((sg_zero :: r) :: x :: rest) (sg_zero :: prev)); [exact EB|]. cbn [last]. clear. revert x. induction rest as [|y rest IH]; intro x; [reflexivity|apply IH].
Qed.
Lemma rows_shape : forall bord d rows i prev rs, sg_rows bord d i rows prev = Ok rs -> length rs = rows /\ forall r, In r rs -> exists l, r = sg_zero :: l.
Proof.
  intros bord d rows. induction rows as [|rows IH]; intros i prev rs E; cbn [sg_rows] in E; [injection E as <-; split; [reflexivity|intros r []]|]. destruct (sg_row bord d i 1 prev []) as [r|]; [|discriminate]. cbn [rbind] in E. destruct (sg_rows bord d (i + 1) rows (sg_zero :: r)) as [rest|] eqn:ES; [|discriminate]. cbn [rbind] in E. injection E as <-. destruct (IH _ _ _ ES) as [A B]. split; [cbn [length]; congruence|]. intros r0 [<-|H]; [exists r; reflexivity|apply B; exact H].
Qed.

(* ---------- the diagram of a word with n rows ---------- *)
Lemma word_inb : forall w i t, inb (word_positions w) i (1 + Z.of_nat t) = match nth_error w t with Some a => a =? i | None => false end.
Proof.
  intros w i t. unfold word_positions, zrange, zlen. replace (Z.to_nat (Z.of_nat (length w) + 1 - 1)) with (length w) by lia.
  assert (G : forall w s t, inb (combine w (map (fun k => 1 + Z.of_nat k) (seq s (length w)))) i (1 + Z.of_nat (s + t)) = match nth_error w t with Some a => a =? i | None => false end).
  { clear. induction w as [|a w IH]; intros s t; [destruct t; reflexivity|]. unfold inb in *. cbn [length seq map combine existsb fst snd]. destruct t as [|t].
    - rewrite Nat.add_0_r. cbn [nth_error]. rewrite Z.eqb_refl, andb_true_r. destruct (a =? i); [reflexivity|]. cbn [orb]. apply not_true_iff_false. rewrite existsb_exists. intros ([x y] & I & E). apply in_combine_r in I. apply in_map_iff in I. destruct I as (z & <- & I). apply in_seq in I. cbn [fst snd] in E. apply andb_true_iff in E. destruct E as [_ E]. apply Z.eqb_eq in E. lia.
    - replace (1 + Z.of_nat s =? 1 + Z.of_nat (s + S t)) with false by (symmetry; apply Z.eqb_neq; lia). rewrite andb_false_r. cbn [orb nth_error]. replace (s + S t)%nat with (S s + t)%nat by lia. apply IH. }
  exact (G w O t).
Qed.
Lemma word_out : forall w x y, (forall a, In a w -> a < x) -> inb (word_positions w) x y = false.
Proof.
  intros w x y H. apply not_true_iff_false. rewrite inb_In. intro I. apply in_combine_l in I. apply H in I. lia.
Qed.
Definition wrows bord (w : list Z) (n : nat) := sg_rows bord (word_positions w) 1 n (repeat sg_zero (S (length w))).
Lemma wrows_less : forall bord w n n' rs, wrows bord w n = Ok rs -> (n' <= n)%nat -> wrows bord w n' = Ok (firstn n' rs).
Proof.
  intros bord w n n' rs E L. unfold wrows in *. pose proof E as E1. apply (rows_restrict bord _ (word_positions w) (length w) n n' 1) in E; [|exact L|reflexivity]. rewrite firstn_all2 in E by (rewrite repeat_length; lia). rewrite E. f_equal. rewrite firstn_map.
  (* the rows are not longer than that *)
  assert (RL : forall d i j prev left r, sg_row bord d i j prev left = Ok r -> (length r <= pred (length prev))%nat).
  { clear. intros d i j prev. revert j. induction prev as [|[[lam e0] c0] prev IH]; intros j left r E; [injection E as <-; cbn; lia|]. destruct prev as [|[[nu e] c] prev]; [injection E as <-; cbn; lia|]. cbn [sg_row] in E. destruct (sg_cell bord (inb d i j) lam nu left e c) as [x|]; [|discriminate]. cbn [rbind] in E. destruct (sg_row bord d i (j + 1) ((nu, e, c) :: prev) (fst (fst x))) as [r0|] eqn:E0; cbn [sg_row] in E0; rewrite E0 in E; [|discriminate]. cbn [rbind] in E. injection E as <-. specialize (IH (j + 1) _ _ E0). cbn [length pred] in *. lia. }
  assert (RR : forall rows i prev rs, sg_rows bord (word_positions w) i rows prev = Ok rs -> (length prev <= S (length w))%nat -> forall r, In r rs -> (length r <= S (length w))%nat).
  { clear - RL. induction rows as [|rows IH]; intros i prev rs E L r I; cbn [sg_rows] in E; [injection E as <-; destruct I|]. destruct (sg_row bord (word_positions w) i 1 prev []) as [r0|] eqn:E0; [|discriminate]. cbn [rbind] in E. apply RL in E0. destruct (sg_rows bord (word_positions w) (i + 1) rows (sg_zero :: r0)) as [rest|] eqn:ES; [|discriminate]. cbn [rbind] in E. injection E as <-. assert (L0 : (length (sg_zero :: r0) <= S (length w))%nat) by (cbn [length]; lia). destruct I as [<-|I]; [exact L0|]. apply (IH _ _ _ ES L0 r I). }
  transitivity (map (fun r : list entry => r) (firstn n' rs)); [|apply map_id]. apply map_ext_in. intros r I. apply firstn_all2. apply (RR n 1 _ rs E1); [rewrite repeat_length; lia|]. rewrite <- (firstn_skipn n' rs). apply in_or_app. left. exact I.
Qed.
Lemma repeat_firstn : forall (A : Type) (x : A) a b, (a <= b)%nat -> firstn a (repeat x b) = repeat x a.
Proof. intros A x a. induction a as [|a IH]; intros [|b] L; try reflexivity; [lia|]. cbn [repeat firstn]. f_equal. apply IH. lia. Qed.
Lemma wrows_prefix : forall bord w1 w2 n rs, wrows bord (w1 ++ w2) n = Ok rs -> wrows bord w1 n = Ok (map (firstn (S (length w1))) rs).
Proof.
  intros bord w1 w2 n rs E. unfold wrows in *. pose proof (rows_shape _ _ _ _ _ _ E) as [LR _]. apply (rows_restrict bord _ (word_positions w1) (length w1) n n 1) in E; [|lia|].
  - rewrite repeat_firstn in E by (rewrite app_length; lia). rewrite E. f_equal. rewrite firstn_all2; [reflexivity|]. rewrite map_length. lia.
  - intros x y _ Hy. replace y with (1 + Z.of_nat (Z.to_nat (y - 1))) by lia. rewrite !word_inb. rewrite nth_error_app1 by lia. reflexivity.
Qed.
Lemma wrows_more : forall bord w n m rs, wrows bord w n = Ok rs -> (forall a, In a w -> a <= Z.of_nat n) -> wrows bord w (n + m) = Ok (rs ++ repeat (last rs (repeat sg_zero (S (length w)))) m).
Proof.
  intros bord w n m rs E H. unfold wrows in *. pose proof (rows_shape _ _ _ _ _ _ E) as [LR HD]. cbn [repeat] in *. apply rows_app; [exact E|].
  assert (exists l, last rs (sg_zero :: repeat sg_zero (length w)) = sg_zero :: l) as (l & EL).
  { destruct rs as [|r rs]; [eexists; reflexivity|]. apply HD. clear. revert r. induction rs as [|x rs IH]; intro r; [left; reflexivity|]. right. apply IH. }
  rewrite EL. apply rows_copy. intros x y Hx. apply word_out. intros a I. specialize (H a I). lia.
Qed.
Lemma wrows_nth : forall bord w n m rs rs', wrows bord w n = Ok rs -> (forall a, In a w -> a <= Z.of_nat n) -> (n <= m)%nat -> wrows bord w m = Ok rs' ->
  forall i, (i <= m)%nat -> nth i (repeat sg_zero (S (length w)) :: rs') [] = nth (Nat.min i n) (repeat sg_zero (S (length w)) :: rs) [].
Proof.
  intros bord w n m rs rs' E H L E' i Hi. replace m with (n + (m - n))%nat in E' by lia. rewrite (wrows_more bord w n (m - n) rs E H) in E'. injection E' as <-. pose proof (rows_shape _ _ _ _ _ _ E) as [LR _]. set (z := repeat sg_zero (S (length w))) in *.
  destruct (le_lt_dec i n) as [D|D]; [rewrite Nat.min_l by exact D; destruct i as [|i]; [reflexivity|cbn [nth]; apply app_nth1; lia]|].
  rewrite Nat.min_r by lia. destruct i as [|i]; [lia|]. cbn [nth]. rewrite app_nth2 by lia. rewrite (nth_indep _ [] (last rs z)) by (rewrite repeat_length; lia). rewrite nth_repeat. clearbody z. clear - LR. revert n LR. induction rs as [|x rs IH]; intros n LR; [subst n; reflexivity|]. subst n. cbn [length nth]. destruct rs as [|y rs]; [reflexivity|]. cbn [last]. apply (IH (length (y :: rs)) eq_refl).
Qed.

(* ---------- leaving out letters ---------- *)
Inductive left_out (k : Z) : list Z -> list Z -> list entry -> list entry -> Prop :=
| LO_nil : forall g, left_out k [] g [] []
| LO_keep : forall a w g y cols cols', a <= k -> left_out k w (fst (fst y)) cols cols' -> left_out k (a :: w) g (y :: cols) (y :: cols')
| LO_drop : forall a w g cols cols', k < a -> left_out k w g cols cols' -> left_out k (a :: w) g ((g, false, None) :: cols) cols'.
Lemma row_left_out : forall bord d d' i k w g cols cols', i <= k -> left_out k w g cols cols' -> forall j j' e c e' c' mu r,
  (forall t a, nth_error w t = Some a -> inb d i (j + Z.of_nat t) = (a =? i)) -> (forall t a, nth_error (filter (fun a => a <=? k) w) t = Some a -> inb d' i (j' + Z.of_nat t) = (a =? i)) ->
  sg_row bord d i j ((g, e, c) :: cols) mu = Ok r -> exists r', sg_row bord d' i j' ((g, e', c') :: cols') mu = Ok r' /\ left_out k w mu r r'.
Proof.
  intros bord d d' i k w g cols cols' Hi LO. induction LO as [g|a w g [[nu e1] c1] cols cols' La LO IH|a w g cols cols' La LO IH]; intros j j' e c e' c' mu r D D' E.
  - injection E as <-. exists []. split; [reflexivity|constructor].
  - cbn [sg_row] in *. cbn [filter] in D'. replace (a <=? k) with true in D' by (symmetry; apply Z.leb_le; exact La). pose proof (D O a eq_refl) as D0. pose proof (D' O a eq_refl) as D0'. rewrite Z.add_0_r in D0, D0'. rewrite D0' , <- D0. destruct (sg_cell bord (inb d i j) g nu mu e1 c1) as [[[g' e2] c2]|]; [|discriminate]. cbn [rbind fst] in *.
    destruct (sg_row bord d i (j + 1) ((nu, e1, c1) :: cols) g') as [r0|] eqn:E0; cbn [sg_row] in E0; rewrite E0 in E; [|discriminate]. cbn [rbind] in E. injection E as <-. cbn [fst] in IH.
    destruct (IH (j + 1) (j' + 1) e1 c1 e1 c1 g' r0) as (r' & R1 & R2).
    + intros t b Hb. replace (j + 1 + Z.of_nat t) with (j + Z.of_nat (S t)) by lia. apply D. exact Hb.
    + intros t b Hb. replace (j' + 1 + Z.of_nat t) with (j' + Z.of_nat (S t)) by lia. apply D'. exact Hb.
    + exact E0.
    + cbn [sg_row] in R1. rewrite R1. cbn [rbind]. eexists. split; [reflexivity|]. apply LO_keep; [exact La|exact R2].
  - cbn [filter] in D'. replace (a <=? k) with false in D' by (symmetry; apply Z.leb_gt; exact La). cbn [sg_row] in E. pose proof (D O a eq_refl) as D0. rewrite Z.add_0_r in D0. rewrite D0 in E. replace (a =? i) with false in E by (symmetry; apply Z.eqb_neq; lia).
    assert (C : sg_cell bord false g g mu false None = Ok (mu, false, None)).
    { unfold sg_cell. cbn [andb]. destruct (zlist_eqb mu g) eqn:Q; [apply zlist_eqb_eq in Q; subst; reflexivity|]. rewrite zlist_eqb_refl. reflexivity. }
    rewrite C in E. cbn [rbind fst] in E. destruct (sg_row bord d i (j + 1) ((g, false, None) :: cols) mu) as [r0|] eqn:E0; cbn [sg_row] in E0; rewrite E0 in E; [|discriminate]. cbn [rbind] in E. injection E as <-.
    destruct (IH (j + 1) j' false None e' c' mu r0) as (r' & R1 & R2).
    + intros t b Hb. replace (j + 1 + Z.of_nat t) with (j + Z.of_nat (S t)) by lia. apply D. exact Hb.
    + exact D'.
    + exact E0.
    + exists r'. split; [exact R1|]. apply LO_drop; [exact La|exact R2].
Qed.
Lemma rows_left_out : forall bord w k rows i cols cols' rs, left_out k w [] cols cols' -> i + Z.of_nat rows <= k + 1 -> sg_rows bord (word_positions w) i rows (sg_zero :: cols) = Ok rs ->
  exists rs', sg_rows bord (word_positions (filter (fun a => a <=? k) w)) i rows (sg_zero :: cols') = Ok rs' /\ Forall2 (fun r r' => left_out k w [] (tl r) (tl r')) rs rs' .
Proof.
  intros bord w k rows. induction rows as [|rows IH]; intros i cols cols' rs LO L E; cbn [sg_rows] in *; [injection E as <-; exists []; split; [reflexivity|constructor]|].
  destruct (sg_row bord (word_positions w) i 1 (sg_zero :: cols) []) as [r|] eqn:ER; [|discriminate]. cbn [rbind] in E. destruct (sg_rows bord (word_positions w) (i + 1) rows (sg_zero :: r)) as [rest|] eqn:ES; [|discriminate]. cbn [rbind] in E. injection E as <-.
  destruct (row_left_out bord (word_positions w) (word_positions (filter (fun a => a <=? k) w)) i k w [] cols cols' ltac:(lia) LO 1 1 false None false None [] r) as (r' & R1 & R2).
  - intros t a H. rewrite word_inb, H. reflexivity.
  - intros t a H. rewrite word_inb, H. reflexivity.
  - exact ER.
  - unfold sg_zero at 1. rewrite R1. cbn [rbind]. destruct (IH (i + 1) r r' rest R2 ltac:(lia) ES) as (rs' & E1 & E2). rewrite E1. cbn [rbind]. eexists. split; [reflexivity|]. constructor; [exact R2|exact E2].
Qed.
Lemma zero_left_out : forall k w, left_out k w [] (repeat sg_zero (length w)) (repeat sg_zero (length (filter (fun a => a <=? k) w))).
Proof.
  intros k w. induction w as [|a w IH]; [constructor|]. cbn [filter length repeat]. destruct (Z.leb_spec a k) as [L|L]; [cbn [length repeat]; apply LO_keep; [exact L|exact IH]|]. apply LO_drop; [exact L|exact IH].
Qed.
Lemma left_out_last : forall k w g cols cols', left_out k w g cols cols' -> forall x x', fst (fst x) = g -> fst (fst x') = g ->
  fst (fst (nth (length w) (x :: cols) sg_zero)) = fst (fst (nth (length (filter (fun a => a <=? k) w)) (x' :: cols') sg_zero)).
Proof.
  intros k w g cols cols' LO. induction LO as [g|a w g y cols cols' La LO IH|a w g cols cols' La LO IH]; intros x x' X X'.
  - cbn. congruence.
  - cbn [filter]. replace (a <=? k) with true by (symmetry; apply Z.leb_le; exact La). cbn [length]. exact (IH y y eq_refl eq_refl).
  - cbn [filter]. replace (a <=? k) with false by (symmetry; apply Z.leb_gt; exact La). cbn [length]. exact (IH (g, false, None) x' eq_refl X').
Qed.
