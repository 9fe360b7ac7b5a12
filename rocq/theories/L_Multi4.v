(* Strings of the signature rule on words; operators on multiset-valued tableaux. *)
From Coq Require Import List ZArith Lia Bool Sorted Permutation.
From Verif Require Import PyBase FinSum M_Partitions M_Tableaux M_Words M_TabCrystal S_Words L_Words S_Partitions S_Tableaux S_Semistandard S_Multi L_Partitions L_PartBasic L_Tableaux L_Semi L_TabCrystal2 L_TabCrystal3 P_Words L_Multi1 L_Multi2 L_Multi3.
Import ListNotations.
Local Open Scope Z_scope.

(* ---------- words ---------- *)
Section Word.
  Variable i : Z.
  Lemma hgt_one : forall c, hgt i [c] <= 1 /\ (0 < hgt i [c] -> c = i) /\ (hgt i [c] < 0 -> c = i + 1) /\ -1 <= hgt i [c].
  Proof.
    intro c. destruct (Z.eq_dec c i) as [->|N]; [rewrite hgt1_i; lia|]. destruct (Z.eq_dec c (i + 1)) as [->|N']; [rewrite hgt1_i1; lia|]. rewrite hgt1_other by assumption. lia.
  Qed.
  Lemma hmax_prefix : forall w p s, w = p ++ s -> hgt i p <= hmax i w.
  Proof. intros w p s ->. rewrite hmax_app. pose proof (hmax_ge i p). lia. Qed.
  Lemma first_max : forall w, exists p s, w = p ++ s /\ hgt i p = hmax i w /\ forall p' s', p = p' ++ s' -> s' <> [] -> hgt i p' < hmax i w.
  Proof.
    induction w as [|a w (p & s & E & H & F)].
    - exists [], []. split; [reflexivity|]. split; [reflexivity|]. intros p' s' E N. symmetry in E. apply app_eq_nil in E. tauto.
    - cbn [hmax]. destruct (Z_lt_le_dec 0 (hgt i [a] + hmax i w)) as [L|L].
      + exists (a :: p), s. split; [rewrite E; reflexivity|]. split; [rewrite (hgt_cons i a p); lia|]. intros p' s' E' N. destruct p' as [|b p']; [rewrite hgt_nil; lia|]. cbn [app] in E'. injection E' as <- E'. specialize (F p' s' E' N). rewrite (hgt_cons i a p'). lia.
      + exists [], (a :: w). split; [reflexivity|]. split; [rewrite hgt_nil; lia|]. intros p' s' E' N. symmetry in E'. apply app_eq_nil in E'. tauto.
  Qed.
  Lemma last_max : forall w, exists p s, w = p ++ s /\ hgt i p = hmax i w /\ forall q r, s = q ++ r -> q <> [] -> hgt i q < 0.
  Proof.
    induction w as [|a w (p & s & E & H & F)].
    - exists [], []. split; [reflexivity|]. split; [reflexivity|]. intros q r E N. symmetry in E. apply app_eq_nil in E. tauto.
    - cbn [hmax]. destruct (Z_lt_le_dec (hgt i [a] + hmax i w) 0) as [L|L].
      + exists [], (a :: w). split; [reflexivity|]. split; [rewrite hgt_nil; lia|]. intros q r E' N. destruct q as [|b q]; [congruence|]. cbn [app] in E'. injection E' as <- E'. pose proof (hmax_prefix w q r E'). rewrite (hgt_cons i a q). lia.
      + exists (a :: p), s. split; [rewrite E; reflexivity|]. split; [rewrite (hgt_cons i a p); lia|]. exact F.
  Qed.
  Lemma f_exists : forall w, 0 < hmax i w -> exists v, f_rule i w v.
  Proof.
    intros w P. destruct (first_max w) as (p & s & E & H & F). destruct p as [|b p0] using rev_ind; [rewrite hgt_nil in H; lia|]. clear IHp0. rename p0 into x. pose proof (F x [b] eq_refl ltac:(discriminate)) as L. rewrite hgt_app in H. destruct (hgt_one b) as (B1 & B2 & _). assert (b = i) by (apply B2; lia). subst b. exists (x ++ (i + 1) :: s), x, s. rewrite <- app_assoc in E. cbn [app] in E. split; [exact E|]. split; [reflexivity|]. rewrite hgt1_i in H. split.
    - apply closed_right_h. intros q r ->. pose proof (F q (r ++ [i]) ltac:(rewrite app_assoc; reflexivity) ltac:(destruct r; discriminate)). rewrite hgt_app in H. lia.
    - apply closed_left_h. intros q r ->. pose proof (hmax_prefix w (x ++ i :: q) r) as Q. rewrite hgt_app, (hgt_cons i i q), hgt1_i in Q. assert (w = (x ++ i :: q) ++ r) by (rewrite <- app_assoc; exact E). specialize (Q H0). lia.
  Qed.
  Lemma e_exists : forall w, hgt i w < hmax i w -> exists v, e_rule i w v.
  Proof.
    intros w P. destruct (last_max w) as (p & s & E & H & F). destruct s as [|b s]; [rewrite app_nil_r in E; subst; lia|]. pose proof (F [b] s eq_refl ltac:(discriminate)) as L. destruct (hgt_one b) as (_ & _ & B3 & _). specialize (B3 L). subst b. exists (p ++ i :: s), p, s. split; [exact E|]. split; [reflexivity|]. split.
    - apply closed_right_h. intros q r ->. rewrite hgt_app in H. pose proof (hmax_prefix w q (r ++ (i + 1) :: s)) as Q. rewrite <- app_assoc in E. specialize (Q E). lia.
    - apply closed_left_h. intros q r ->. pose proof (F ((i + 1) :: q) r eq_refl ltac:(discriminate)) as Q. rewrite (hgt_cons i (i + 1) q), hgt1_i1 in Q. lia.
  Qed.
  Lemma f_rule_h : forall w v, f_rule i w v -> hmax i w = hmax i v + 1 /\ hgt i w = hgt i v + 2 /\ 0 <= hmax i v.
  Proof.
    intros w v (x & y & -> & -> & A & B). rewrite !hmax_app, !hgt_app, (hgt_cons i i y), (hgt_cons i (i + 1) y). cbn [hmax]. rewrite (hmax_right i x A), (hmax_left i y B), hgt1_i, hgt1_i1. pose proof (proj1 (closed_right_h i x) A [] x eq_refl). lia.
  Qed.
  Lemma f_none_h : forall w, (forall v, ~ f_rule i w v) -> hmax i w = 0.
  Proof. intros w H. pose proof (hmax_nonneg i w). destruct (Z.eq_dec (hmax i w) 0); [assumption|]. destruct (f_exists w) as (v & K); [lia|]. destruct (H v K). Qed.
  Lemma e_none_h : forall w, (forall v, ~ e_rule i w v) -> hmax i w = hgt i w.
  Proof. intros w H. pose proof (hmax_ge i w). destruct (Z.eq_dec (hmax i w) (hgt i w)); [assumption|]. destruct (e_exists w) as (v & K); [lia|]. destruct (H v K). Qed.
End Word.

(* ---------- multiset-valued semistandard tableaux and lists of columns ---------- *)
Definition MS (T : tab) (l : list hk) : Prop := Rep l T /\ okT l.
Lemma MS_read : forall T l, MS T l -> crystal_reading_word T = map wd l.
Proof. intros T l [R [O _]]. apply (read_ok l T R O). Qed.
Lemma MS_decode : forall l, okT l -> exists T, from_crystal_reading_word (map wd l) = Ok T /\ MS T l.
Proof. intros l H. destruct (decode_ok l (proj1 H)) as (T & E & R). exists T. split; [exact E|]. split; assumption. Qed.
Definition heights (l : list hk) := map (fun c : hk => length (fst c)) l.
Lemma f_multi : forall i T l, MS T l -> exists r, f_multisetvalued i T = Ok r /\
  match r with
  | Some T' => exists l', MS T' l' /\ heights l' = heights l /\ map (@length Z) (map wd l') = map (@length Z) (map wd l) /\ f_rule i (concat (map wd l)) (concat (map wd l'))
  | None => forall v, ~ f_rule i (concat (map wd l)) v
  end.
Proof.
  intros i T l M. unfold f_multisetvalued. rewrite (MS_read T l M). destruct (C22_crystal_tuples i (map wd l) false (or_introl eq_refl)) as ((r & Er & Hr) & _ & RF & _). rewrite Er. cbn [rbind]. destruct Hr as [->|(vs & ->)]; cbn [of_word_result].
  - exists None. split; [reflexivity|]. intros v Hv. pose proof (f_rule_length i _ _ Hv) as L. destruct (split_like_spec (map wd l) v L) as [S1 S2]. assert (K : f_crystal_operator i (map wd l) false = Ok (CTuple (split_like (map wd l) v))) by (apply RF; rewrite S1, S2; tauto). congruence.
  - apply RF in Er. destruct Er as [L H]. destruct (step_f i l vs (proj2 M) L H) as (l' & -> & O & HT). destruct (MS_decode l' O) as (T' & E & M'). rewrite E. cbn [rbind]. exists (Some T'). split; [reflexivity|]. exists l'. tauto.
Qed.
Lemma e_multi : forall i T l, MS T l -> exists r, e_multisetvalued i T = Ok r /\
  match r with
  | Some T' => exists l', MS T' l' /\ heights l' = heights l /\ map (@length Z) (map wd l') = map (@length Z) (map wd l) /\ e_rule i (concat (map wd l)) (concat (map wd l'))
  | None => forall v, ~ e_rule i (concat (map wd l)) v
  end.
Proof.
  intros i T l M. unfold e_multisetvalued. rewrite (MS_read T l M). destruct (C22_crystal_tuples i (map wd l) false (or_introl eq_refl)) as (_ & (r & Er & Hr) & _ & RF & _). rewrite Er. cbn [rbind]. destruct Hr as [->|(vs & ->)]; cbn [of_word_result].
  - exists None. split; [reflexivity|]. intros v Hv. pose proof (proj2 (rules_inverse i _ _) Hv) as Hf. pose proof (f_rule_length i _ _ Hf) as L. destruct (split_like_spec (map wd l) v (eq_sym L)) as [S1 S2]. assert (K : e_crystal_operator i (map wd l) false = Ok (CTuple (split_like (map wd l) v))) by (apply RF; rewrite S1, S2; tauto). congruence.
  - apply RF in Er. destruct Er as [L H]. destruct (step_e i l vs (proj2 M) L H) as (l' & -> & O & HT). destruct (MS_decode l' O) as (T' & E & M'). rewrite E. cbn [rbind]. exists (Some T'). split; [reflexivity|]. exists l'. tauto.
Qed.

(* ---------- shapes ---------- *)
Lemma multiset_cols : forall mu T, partition mu -> multiset_ssyt mu T -> exists l, MS T l.
Proof.
  intros mu T P (W & K & NE & RW & CS). assert (WP : weak_partition mu) by (split; [eapply Forall_impl; [|apply P]; cbn; intros; lia|apply P]).
  pose (h := fun y => cnt mu (y - 1)). assert (CELL : forall x y, cell mu x y <-> 1 <= y <= row mu 0 /\ 1 <= x <= h y).
  { intros x y. unfold cell, h. pose proof (row_decr mu (proj2 P) 0 (Z.to_nat (x - 1)) ltac:(lia)). split; intro H0; [assert (Hy : 0 <= y - 1) by lia|assert (Hy : 0 <= y - 1) by lia]; pose proof (cnt_spec mu WP (Z.to_nat (x - 1)) (y - 1) Hy); lia. }
  assert (H1 : forall z, 1 <= z <= row mu 0 -> 1 <= h z) by (intros z Hz; assert (cell mu 1 z) by (unfold cell; cbn; lia); apply CELL in H; lia).
  assert (R0 : 0 <= row mu 0) by (destruct mu as [|a mu]; [cbn; lia|destruct P as [P _]; inversion P; subst; cbn; lia]).
  assert (C : column_strict (row mu 0) h T) by (split; [exact W|]; split; [intros x y; rewrite K; apply CELL|]; split; [exact NE|exact CS]).
  destruct (table_rep (row mu 0) h T R0 C H1) as (R & O & L). exists (table_cols T (Z.to_nat (row mu 0)) h). split; [exact R|]. split; [exact O|]. intros A c n B E. set (y := length A). assert (Ec : nth_error (table_cols T (Z.to_nat (row mu 0)) h) y = Some c) by (rewrite E; unfold y; rewrite nth_error_app2 by lia; rewrite Nat.sub_diag; reflexivity).
  assert (En : nth_error (table_cols T (Z.to_nat (row mu 0)) h) (S y) = Some n) by (rewrite E; unfold y; rewrite nth_error_app2 by lia; replace (S (length A) - length A)%nat with 1%nat by lia; reflexivity).
  split.
  - destruct (Nat.le_gt_cases (length (fst n)) (length (fst c))) as [|G]; [assumption|exfalso]. destruct (proj2 (Rep_cells _ T (S y) (length (fst c)) R)) as (l & Hl); [exists n; split; [exact En|lia]|]. assert (CL : cell mu (1 + Z.of_nat (length (fst c))) (1 + Z.of_nat (S y))) by (apply K; exists l; exact Hl). assert (CL' : cell mu (1 + Z.of_nat (length (fst c))) (1 + Z.of_nat y)) by (unfold cell in *; lia). apply K in CL'. apply (Rep_cells _ T y (length (fst c)) R) in CL'. destruct CL' as (c' & Ec' & L'). assert (c' = c) by congruence. subst. lia.
  - intros k m v Em Hv. apply (Rep_holds _ T y k c v R O Ec) in Hv. assert (Hm : holds T (1 + Z.of_nat k) (1 + Z.of_nat y + 1) m). { replace (1 + Z.of_nat y + 1) with (1 + Z.of_nat (S y)) by lia. apply (Rep_holds _ T (S y) k n m R O En). exists m. split; [exact Em|left; reflexivity]. } apply (RW _ _ v m Hv Hm).
Qed.
Lemma nth_error_map_inv : forall (A B : Type) (f : A -> B) l k n, nth_error (map f l) k = Some n -> exists c, nth_error l k = Some c /\ f c = n.
Proof. intros A B f. induction l as [|a l IH]; intros [|k] n E; try discriminate; cbn in E |- *; [injection E as <-; exists a; tauto|apply (IH k n E)]. Qed.
Lemma cols_multiset : forall mu T l T' l', multiset_ssyt mu T -> MS T l -> MS T' l' -> heights l' = heights l -> multiset_ssyt mu T'.
Proof.
  intros mu T l T' l' (W & K & _) [R O] [R' O'] HT. split; [apply R'|]. split; [|split; [intros c q; apply (getrow_nonempty l' T' c q R')|split; [apply (okT_rows l' T' R' O')|apply (Rep_column_strict l' T' R' (proj1 O'))]]].
  assert (Q : forall y k, (exists c, nth_error l' y = Some c /\ (k < length (fst c))%nat) <-> (exists c, nth_error l y = Some c /\ (k < length (fst c))%nat)).
  { intros y k. assert (E : forall ll, (exists c, nth_error ll y = Some c /\ (k < length (fst c))%nat) <-> exists n, nth_error (heights ll) y = Some n /\ (k < n)%nat). { intro ll. unfold heights. split; [intros (c & Ec & L); exists (length (fst c)); split; [apply (map_nth_error (fun c : hk => length (fst c)) _ _ Ec)|exact L]|]. intros (n & E & L). destruct (nth_error_map_inv _ _ _ _ _ _ E) as (c & Ec & En). exists c. split; [exact Ec|]. rewrite En. exact L. } rewrite !E, HT. reflexivity. }
  intros x y. rewrite <- K. destruct (Z_lt_le_dec 0 x) as [Hx|Hx]; [destruct (Z_lt_le_dec 0 y) as [Hy|Hy]|].
  - destruct (pos_nat x Hx) as (k & ->). destruct (pos_nat y Hy) as (z & ->). rewrite (Rep_cells l' T' z k R'), (Rep_cells l T z k R). apply Q.
  - split; intros (q & H); [apply (proj2 (proj1 R')) in H|apply (proj2 W) in H]; cbn [fst snd] in H; lia.
  - split; intros (q & H); [apply (proj2 (proj1 R')) in H|apply (proj2 W) in H]; cbn [fst snd] in H; lia.
Qed.

(* ---------- contents ---------- *)
Lemma by_key : forall (key : box * list Z -> Z) K (T : tab), NoDup K -> (forall x, In x T -> In (key x) K) -> Permutation (concat (map (fun j => filter (fun x => key x =? j) T) K)) T.
Proof.
  intros key. induction K as [|j K IH]; intros T ND H.
  - destruct T as [|x T]; [constructor|destruct (H x (or_introl eq_refl))].
  - inversion ND as [|? ? N1 N2]; subst. cbn [map concat]. assert (SP : forall U : tab, Permutation (filter (fun x => key x =? j) U ++ filter (fun x => negb (key x =? j)) U) U). { induction U as [|x U IHU]; [constructor|]. cbn [filter]. destruct (key x =? j); cbn [negb app]; [apply perm_skip; exact IHU|]. eapply Permutation_trans; [apply Permutation_sym, Permutation_middle|]. apply perm_skip. exact IHU. }
    eapply Permutation_trans; [|apply SP]. apply Permutation_app_head. eapply Permutation_trans; [|apply (IH (filter (fun x => negb (key x =? j)) T) N2)].
    + replace (map (fun j0 => filter (fun x => key x =? j0) (filter (fun x => negb (key x =? j)) T)) K) with (map (fun j0 => filter (fun x => key x =? j0) T) K); [apply Permutation_refl|]. apply map_ext_in. intros k Hk. induction T as [|x T IHT]; [reflexivity|]. cbn [filter]. assert (HT : forall y, In y T -> In (key y) (j :: K)) by (intros y Hy; apply H; right; exact Hy). destruct (Z.eqb_spec (key x) j) as [E|E]; cbn [negb]; [|cbn [filter]; rewrite (IHT HT); reflexivity]. destruct (Z.eqb_spec (key x) k) as [E2|E2]; [exfalso; apply N1; congruence|apply IHT; exact HT].
    + intros x Hx. apply filter_In in Hx. destruct Hx as [Hx Nx]. destruct (H x Hx) as [E|E]; [rewrite <- E, Z.eqb_refl in Nx; discriminate|exact E].
Qed.
Lemma column_word_perm : forall col, Permutation (column_word col) (concat col).
Proof.
  intro col. rewrite column_word_eq. eapply Permutation_trans; [apply Permutation_app_tail, Permutation_sym, Permutation_rev|]. induction col as [|r col IH]; [constructor|]. cbn [map concat]. rewrite <- app_assoc. rewrite <- (firstn_skipn 1 r) at 3. rewrite <- app_assoc. apply Permutation_app_head. eapply Permutation_trans; [apply Permutation_app_swap_app|]. apply Permutation_app_head. exact IH.
Qed.
Lemma reading_content : forall T, Permutation (concat (crystal_reading_word T)) (content T).
Proof.
  intro T. unfold crystal_reading_word, tab_columns, content. set (K := sorted (nodup Z.eq_dec (map (fun cv => snd (fst cv)) T))). eapply Permutation_trans with (concat (map (fun j => flat_map snd (filter (fun cv => snd (fst cv) =? j) T)) K)).
  - induction K as [|j K IH]; [constructor|]. cbn [map concat]. apply Permutation_app; [|exact IH]. eapply Permutation_trans; [apply column_word_perm|]. rewrite flat_map_concat_map. apply Permutation_refl.
  - eapply Permutation_trans with (flat_map snd (concat (map (fun j => filter (fun cv => snd (fst cv) =? j) T) K))).
    + clear. induction K as [|j K IH]; [constructor|]. cbn [map concat]. rewrite flat_map_app. apply Permutation_app_head. exact IH.
    + apply Permutation_flat_map. apply (by_key (fun cv => snd (fst cv))).
      * eapply Permutation_NoDup; [apply Permutation_sym, L_PartBasic.sorted_perm|apply NoDup_nodup].
      * intros x Hx. apply (Permutation_in _ (Permutation_sym (L_PartBasic.sorted_perm _))). apply nodup_In. apply (in_map (fun cv => snd (fst cv))) in Hx. exact Hx.
Qed.
