(* Permutation.all *)
From Coq Require Import List ZArith Lia Bool Permutation Arith.
From Verif Require Import PyBase M_Partitions M_Symmetric L_SymPoly M_Perm S_Perm L_Perm L_PermLen L_PermWord L_PermMisc M_Bruhat M_PermEnum.
Import ListNotations.
Local Open Scope Z_scope.

Lemma rfold_app : forall (A B : Type) (f : list B -> A -> res (list B)) (g : A -> list B) l acc,
  (forall acc x, In x l -> f acc x = Ok (acc ++ g x)) -> rfold f l acc = Ok (acc ++ flat_map g l).
Proof.
  intros A B f g. induction l as [|x l IH]; intros acc H; [cbn [rfold flat_map]; rewrite app_nil_r; reflexivity|]. cbn [rfold]. rewrite H by (left; reflexivity). cbn [rbind].
  rewrite IH by (intros; apply H; right; assumption). cbn [flat_map]. rewrite app_assoc. reflexivity.
Qed.
Lemma flat_map_single : forall (A B : Type) (f : A -> B) l, flat_map (fun x => [f x]) l = map f l.
Proof. intros A B f l. induction l as [|x l IH]; [reflexivity|]. cbn [flat_map map app]. rewrite IH. reflexivity. Qed.

Lemma NoDup_perms : forall (l : list Z) n, length l = n -> NoDup l -> NoDup (perms_fuel n l).
Proof.
  intros l n. revert l. induction n as [|n IH]; intros l L N; cbn [perms_fuel]; [repeat constructor; intros []|].
  apply NoDup_flat_map.
  - apply seq_NoDup.
  - intros i Hi. apply in_seq in Hi. destruct (nth_error l i) as [x|] eqn:E; [|constructor]. apply NoDup_map_inj_in; [intros a b _ _ Q; congruence|]. apply IH.
    + rewrite app_length, firstn_length, skipn_length. lia.
    + destruct (nth_error_split l i E) as (p & q & -> & Lp). subst i. apply NoDup_remove_1 in N. rewrite firstn_app, firstn_all, Nat.sub_diag, skipn_app, (skipn_all2 p) by lia. replace (S (length p) - length p)%nat with 1%nat by lia. cbn [firstn skipn app]. rewrite app_nil_r. exact N.
  - intros i j a Hi Hj A B. destruct (nth_error l i) as [x|] eqn:E1; [|contradiction]. destruct (nth_error l j) as [y|] eqn:E2; [|contradiction].
    apply in_map_iff in A. destruct A as (a1 & <- & _). apply in_map_iff in B. destruct B as (b1 & Q & _). assert (x = y) by congruence. subst y.
    apply (proj1 (NoDup_nth_error l) N); [apply nth_error_Some; rewrite E1; discriminate|congruence].
Qed.

(* signs *)
Lemma with_signs_abs : forall args v, Forall (fun a => 0 < a) args -> map Z.abs (with_signs args v) = args.
Proof.
  induction args as [|a args IH]; intros v F; [reflexivity|]. inversion F; subst. cbn [with_signs map]. rewrite IH by assumption. f_equal. destruct (v mod 2 =? 0); lia.
Qed.
Lemma with_signs_inj : forall args u v, Forall (fun a => 0 < a) args -> 0 <= u < 2 ^ zlen args -> 0 <= v < 2 ^ zlen args -> with_signs args u = with_signs args v -> u = v.
Proof.
  induction args as [|a args IH]; intros u v F Hu Hv E; [change (2 ^ zlen []) with 1 in *; lia|]. inversion F as [|? ? Ha F']; subst. rewrite zlen_cons in *. rewrite Z.pow_add_r in * by (try apply zlen_nonneg; lia). change (2 ^ 1) with 2 in *.
  cbn [with_signs] in E. injection E as E1 E2. pose proof (Z.div_mod u 2 ltac:(lia)) as Du. pose proof (Z.div_mod v 2 ltac:(lia)) as Dv. pose proof (Z.mod_pos_bound u 2 ltac:(lia)). pose proof (Z.mod_pos_bound v 2 ltac:(lia)).
  apply IH in E2; [|assumption|lia|lia]. destruct (Z.eqb_spec (u mod 2) 0); destruct (Z.eqb_spec (v mod 2) 0); lia.
Qed.
Lemma with_signs_surj : forall l, Forall (fun a => a <> 0) l -> exists v, 0 <= v < 2 ^ zlen l /\ with_signs (map Z.abs l) v = l.
Proof.
  induction l as [|a l IH]; intro F; [exists 0; split; [change (2 ^ zlen []) with 1; lia|reflexivity]|]. inversion F as [|? ? Ha F']; subst. destruct (IH F') as (v & Hv & E).
  rewrite zlen_cons, Z.pow_add_r by (try apply zlen_nonneg; lia). change (2 ^ 1) with 2.
  exists (2 * v + (if a <? 0 then 1 else 0)). split; [destruct (a <? 0); lia|]. cbn [map with_signs]. destruct (Z.ltb_spec a 0).
  - replace ((2 * v + 1) / 2) with v by (apply Z.div_unique with 1; lia). replace ((2 * v + 1) mod 2) with 1 by (apply Z.mod_unique with v; lia). rewrite E. cbn [Z.eqb]. f_equal. lia.
  - replace ((2 * v + 0) / 2) with v by (apply Z.div_unique with 0; lia). replace ((2 * v + 0) mod 2) with 0 by (apply Z.mod_unique with v; lia). rewrite E. cbn [Z.eqb]. f_equal. lia.
Qed.

Lemma strip_inj : forall l m, zlen l = zlen m -> strip l = strip m -> l = m.
Proof. intros l m L E. destruct (strip_tail l) as [-> _]. destruct (strip_tail m) as [-> _]. rewrite E, L. reflexivity. Qed.
Lemma signed_word_perm : forall l n, 0 <= n -> (signed_word l /\ zlen l = n <-> Permutation (map Z.abs l) (zrange 1 (n + 1))).
Proof.
  intros l n Hn. split; [intros [H <-]; exact H|]. intro P. assert (L : zlen l = n). { apply Permutation_length in P. rewrite map_length, length_zrange in P. unfold zlen. lia. } split; [unfold signed_word; rewrite L; exact P|exact L].
Qed.
Lemma line_full : forall w n, canonical w -> zlen w <= n -> signed_word (line (pcall w) n) /\ zlen (line (pcall w) n) = n /\ strip (line (pcall w) n) = w.
Proof.
  intros w n Hw Hn. assert (H0 : 0 <= zlen w) by apply zlen_nonneg. destruct (signed_map_line (pcall w) n) as [A B]; [apply pcall_signed_map; apply Hw|lia|intros i Hi; apply pcall_out; lia|].
  split; [exact A|]. split; [apply zlen_line; lia|]. apply canonical_ext; [apply strip_canonical; exact A|exact Hw|]. intro i. rewrite pcall_strip. apply B.
Qed.
Lemma strip_len : forall l, zlen (strip l) <= zlen l.
Proof. intro l. apply strip_tail. Qed.
Lemma strip_full : forall l, signed_word l -> canonical (strip l) /\ zlen (strip l) <= zlen l.
Proof. intros l H. split; [apply strip_canonical; exact H|apply strip_len]. Qed.

Lemma perm_all_unsigned : forall n, 0 <= n -> exists l, perm_all n false = Ok l /\ NoDup l /\
  forall w, In w l <-> canonical w /\ zlen w <= n /\ Forall (fun a => 0 < a) w.
Proof.
  intros n Hn. exists (map strip (permutations (zrange 1 (n + 1)))).
  assert (Sp : forall a, In a (permutations (zrange 1 (n + 1))) <-> Permutation a (zrange 1 (n + 1))) by (intro a; apply perms_spec; reflexivity).
  assert (Pos : forall a, Permutation a (zrange 1 (n + 1)) -> map Z.abs a = a).
  { intros a P. rewrite <- (map_id a) at 2. apply map_ext_in. intros x Hx. apply (Permutation_in x P) in Hx. apply In_zrange in Hx. lia. }
  assert (SW : forall a, Permutation a (zrange 1 (n + 1)) -> signed_word a /\ zlen a = n) by (intros a P; apply signed_word_perm; [exact Hn|]; rewrite Pos by exact P; exact P).
  split; [|split].
  - unfold perm_all. cbn [negb]. rewrite (rfold_app _ _ _ (fun a => [strip a])); [rewrite flat_map_single; reflexivity|]. intros acc a Ha. apply Sp in Ha. rewrite mkperm_ok by (apply SW; exact Ha). reflexivity.
  - apply NoDup_map_inj_in; [|apply NoDup_perms; [reflexivity|apply NoDup_zrange]]. intros a b Ha Hb. apply Sp in Ha, Hb. apply strip_inj. rewrite (proj2 (SW a Ha)), (proj2 (SW b Hb)). reflexivity.
  - intro w. rewrite in_map_iff. split.
    + intros (a & <- & Ha). apply Sp in Ha. destruct (SW a Ha) as [S L]. destruct (strip_full a S) as [C Lc]. split; [exact C|]. split; [lia|]. apply Forall_forall. intros x Hx. destruct (strip_tail a) as [T _]. assert (I : In x a) by (rewrite T; apply in_app_iff; left; exact Hx).
      apply (Permutation_in x Ha) in I. apply In_zrange in I. lia.
    + intros (C & L & F). destruct (line_full w n C L) as (S & Ll & E). exists (line (pcall w) n). split; [exact E|]. apply Sp. pose proof (proj1 (signed_word_perm _ n Hn) (conj S Ll)) as P.
      replace (map Z.abs (line (pcall w) n)) with (line (pcall w) n) in P; [exact P|]. unfold line. rewrite map_map. apply map_ext_in. intros x Hx. apply In_zrange in Hx.
      assert (0 < pcall w x); [|lia]. destruct (Z_le_gt_dec x (zlen w)) as [A|A]; [|rewrite pcall_out; lia]. rewrite pcall_pos by lia. rewrite Forall_forall in F. apply F. apply nthz_In. lia.
Qed.
Lemma perm_all_signed : forall n, 0 <= n -> exists l, perm_all n true = Ok l /\ NoDup l /\ forall w, In w l <-> canonical w /\ zlen w <= n.
Proof.
  intros n Hn. exists (flat_map (fun a => map (fun v => strip (with_signs a v)) (zrange 0 (2 ^ n))) (permutations (zrange 1 (n + 1)))).
  assert (Sp : forall a, In a (permutations (zrange 1 (n + 1))) <-> Permutation a (zrange 1 (n + 1))) by (intro a; apply perms_spec; reflexivity).
  assert (Pos : forall a, Permutation a (zrange 1 (n + 1)) -> Forall (fun x => 0 < x) a /\ zlen a = n).
  { intros a P. split; [apply Forall_forall; intros x Hx; apply (Permutation_in x P) in Hx; apply In_zrange in Hx; lia|]. apply Permutation_length in P. rewrite length_zrange in P. unfold zlen. lia. }
  assert (SW : forall a v, Permutation a (zrange 1 (n + 1)) -> signed_word (with_signs a v) /\ zlen (with_signs a v) = n).
  { intros a v P. apply signed_word_perm; [exact Hn|]. rewrite with_signs_abs by (apply Pos; exact P). exact P. }
  assert (Inj : forall a b u v, Permutation a (zrange 1 (n + 1)) -> Permutation b (zrange 1 (n + 1)) -> 0 <= u < 2 ^ n -> 0 <= v < 2 ^ n -> strip (with_signs a u) = strip (with_signs b v) -> a = b /\ u = v).
  { intros a b u v Pa Pb Hu Hv E. apply strip_inj in E; [|rewrite (proj2 (SW a u Pa)), (proj2 (SW b v Pb)); reflexivity].
    assert (a = b). { rewrite <- (with_signs_abs a u), <- (with_signs_abs b v) by (apply Pos; assumption). rewrite E. reflexivity. } subst b. split; [reflexivity|]. destruct (Pos a Pa) as [F L]. rewrite <- L in Hu, Hv. exact (with_signs_inj a u v F Hu Hv E). }
  split; [|split].
  - unfold perm_all. cbn [negb]. rewrite (rfold_app _ _ _ (fun a => map (fun v => strip (with_signs a v)) (zrange 0 (2 ^ n)))); [reflexivity|]. intros acc a Ha. apply Sp in Ha.
    rewrite (rfold_app _ _ _ (fun v => [strip (with_signs a v)])); [rewrite flat_map_single; reflexivity|]. intros acc' v _. rewrite mkperm_ok by (apply SW; exact Ha). reflexivity.
  - apply NoDup_flat_map.
    + apply NoDup_perms; [reflexivity|apply NoDup_zrange].
    + intros a Ha. apply Sp in Ha. apply NoDup_map_inj_in; [|apply NoDup_zrange]. intros u v Hu Hv E. apply In_zrange in Hu, Hv. apply (Inj a a u v); try assumption.
    + intros a b w Ha Hb A B. apply Sp in Ha, Hb. apply in_map_iff in A. destruct A as (u & <- & Hu). apply in_map_iff in B. destruct B as (v & E & Hv). apply In_zrange in Hu, Hv. symmetry. apply (Inj b a v u); assumption.
  - intro w. rewrite in_flat_map. split.
    + intros (a & Ha & Hw). apply Sp in Ha. apply in_map_iff in Hw. destruct Hw as (v & <- & _). destruct (SW a v Ha) as [S L]. destruct (strip_full _ S) as [C Lc]. split; [exact C|lia].
    + intros (C & L). destruct (line_full w n C L) as (S & Ll & E). pose proof (proj1 (signed_word_perm _ n Hn) (conj S Ll)) as P. exists (map Z.abs (line (pcall w) n)). split; [apply Sp; exact P|].
      destruct (with_signs_surj (line (pcall w) n)) as (v & Hv & Ev). { apply Forall_forall. intros x Hx. pose proof (signed_word_range _ x S Hx). lia. }
      apply in_map_iff. exists v. rewrite Ev. split; [exact E|]. apply In_zrange. rewrite Ll in Hv. lia.
Qed.
