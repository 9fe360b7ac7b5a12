(* Grassmannian permutations *)
From Coq Require Import List ZArith Bool Lia Permutation Sorted.
From Verif Require Import PyBase M_Partitions S_Partitions L_PartMore M_Perm M_Bruhat S_Perm L_Words2 L_Perm L_PermLen L_PermWord L_PermMisc M_Grass.
From Verif Require L_PartBasic L_Partitions L_Tableaux L_FState7.
Import ListNotations.
Local Open Scope Z_scope.

(* ---- sorting ---- *)
Lemma trim_filter : forall p, StronglySorted Z.ge p -> Forall (fun a => 0 <= a) p -> trim p = filter (fun x => 0 <? x) p.
Proof.
  induction p as [|a p IH]; intros S F; [reflexivity|]. rewrite L_Partitions.trim_cons. inversion S as [|? ? S1 S2]; subst. inversion F as [|? ? F1 F2]; subst. rewrite IH by assumption. cbn [filter].
  destruct (Z.ltb_spec 0 a) as [h|h].
  - replace (a =? 0) with false by (symmetry; apply Z.eqb_neq; lia). destruct (filter (fun x => 0 <? x) p); reflexivity.
  - assert (a = 0) by lia. subst a. rewrite Z.eqb_refl. replace (filter (fun x => 0 <? x) p) with (@nil Z); [reflexivity|]. symmetry. apply L_PartBasic.filter_none. intros x Hx. rewrite Forall_forall in S2. specialize (S2 x Hx). apply Z.ltb_ge. lia.
Qed.
Lemma filter_perm_z : forall (p : Z -> bool) a b, Permutation a b -> Permutation (filter p a) (filter p b).
Proof.
  intros p a b H. induction H as [|x l m H IH|x y l|l m n H1 IH1 H2 IH2]; cbn [filter].
  - constructor.
  - destruct (p x); [constructor|]; exact IH.
  - destruct (p y), (p x); try apply Permutation_refl. apply perm_swap.
  - eapply Permutation_trans; eassumption.
Qed.
Lemma filter_sorted_ge : forall (f : Z -> bool) l, StronglySorted Z.ge l -> StronglySorted Z.ge (filter f l).
Proof.
  intros f l H. induction H as [|a l H IH F]; [constructor|]. cbn [filter]. destruct (f a); [|exact IH]. constructor; [exact IH|]. rewrite Forall_forall in *. intros x Hx. apply filter_In in Hx. apply F. apply Hx.
Qed.
Lemma partition_ge : forall mu, partition mu -> StronglySorted Z.ge mu.
Proof.
  intros mu [_ R]. induction mu as [|a mu IH]; [constructor|].
  assert (R' : forall i, row mu (S i) <= row mu i) by (intro i; exact (R (S i))). constructor; [apply IH; exact R'|].
  apply Forall_forall. intros x Hx. apply In_nth with (d := 0) in Hx. destruct Hx as (n & _ & <-). fold (row mu n).
  assert (G : forall m, row mu m <= a). { induction m as [|m IHm]; [exact (R O)|]. specialize (R' m). lia. }
  specialize (G n). lia.
Qed.
Lemma ge_partition : forall mu, StronglySorted Z.ge mu -> Forall (fun a => 0 < a) mu -> partition mu.
Proof.
  intros mu S F. split; [exact F|]. intro i. destruct (Nat.lt_ge_cases (Datatypes.S i) (length mu)) as [h|h].
  - apply (sorted_row mu S i (Datatypes.S i)); lia.
  - unfold row. rewrite (nth_overflow mu 0 h). destruct (Nat.lt_ge_cases i (length mu)) as [k|k]; [|rewrite nth_overflow by exact k; lia]. rewrite Forall_forall in F. specialize (F (nth i mu 0) (nth_In mu 0 k)). lia.
Qed.
Lemma psort_char : forall c mu, Forall (fun a => 0 <= a) c -> partition mu -> Permutation (filter (fun x => 0 <? x) c) mu -> psort c true = mu.
Proof.
  intros c mu F M P. change (psort c true) with (trim (psort c false)). pose proof (L_PartBasic.psort_perm c) as PP. pose proof (L_PartBasic.psort_sorted c) as PS.
  rewrite trim_filter; [|exact PS|].
  - apply sorted_unique; [apply filter_sorted_ge; exact PS|apply partition_ge; exact M|]. eapply Permutation_trans; [apply filter_perm_z; exact PP|exact P].
  - rewrite Forall_forall in *. intros x Hx. apply F. eapply Permutation_in; eassumption.
Qed.
Lemma psort_partition_of : forall c, Forall (fun a => 0 <= a) c -> partition (psort c true) /\ Permutation (psort c true) (filter (fun x => 0 <? x) c).
Proof.
  intros c F. change (psort c true) with (trim (psort c false)). pose proof (L_PartBasic.psort_perm c) as PP. pose proof (L_PartBasic.psort_sorted c) as PS.
  rewrite trim_filter; [|exact PS|].
  - split; [|apply filter_perm_z; exact PP]. apply ge_partition; [apply filter_sorted_ge; exact PS|]. apply Forall_forall. intros x Hx. apply filter_In in Hx. lia.
  - rewrite Forall_forall in *. intros x Hx. apply F. eapply Permutation_in; eassumption.
Qed.
Lemma sorted_increasing' : forall l, StronglySorted Z.le (sorted l).
Proof. intro l. exact (L_Tableaux.sorted_increasing l). Qed.

(* ---- the one-line word of a shape ---- *)
Fixpoint gfront (k : Z) (s : list Z) : list Z := match s with [] => [] | a :: s' => k + 1 + a :: gfront (k + 1) s' end.
Lemma gfront_enum : forall s k, map (fun ia => fst ia + 1 + snd ia) (combine (zrange k (k + zlen s)) s) = gfront k s.
Proof.
  induction s as [|a s IH]; intro k; [destruct (zrange k (k + zlen [])); reflexivity|]. rewrite zlen_cons. rewrite zrange_cons by (pose proof (zlen_nonneg _ s); lia). cbn [combine map fst snd gfront]. f_equal.
  replace (k + (zlen s + 1)) with (k + 1 + zlen s) by lia. apply IH.
Qed.
Lemma gfront_len : forall s k, length (gfront k s) = length s.
Proof. induction s as [|a s IH]; intro k; [reflexivity|]. cbn [gfront length]. rewrite IH. reflexivity. Qed.
Lemma gfront_nth : forall s k i, 0 <= i < zlen s -> nthz (gfront k s) i = k + 1 + i + nthz s i.
Proof.
  induction s as [|a s IH]; intros k i Hi; [unfold zlen in Hi; cbn in Hi; lia|]. rewrite zlen_cons in Hi. cbn [gfront]. destruct (Z.eq_dec i 0) as [->|n]; [unfold nthz; cbn; lia|].
  unfold nthz in *. replace (Z.to_nat i) with (S (Z.to_nat (i - 1))) by lia. cbn [nth]. rewrite IH by lia. lia.
Qed.
Lemma gfront_lower : forall s k b, StronglySorted Z.le s -> Forall (fun a => b <= a) s -> forall x, In x (gfront k s) -> k + b < x.
Proof.
  induction s as [|a s IH]; intros k b S F x Hx; [destruct Hx|]. inversion S as [|? ? S1 S2]; subst. inversion F as [|? ? F1 F2]; subst. cbn [gfront] in Hx. destruct Hx as [<-|Hx]; [lia|]. specialize (IH (k + 1) b S1 F2 x Hx). lia.
Qed.
Lemma gfront_sorted : forall s k, StronglySorted Z.le s -> StronglySorted Z.lt (gfront k s).
Proof.
  induction s as [|a s IH]; intros k S; [constructor|]. inversion S as [|? ? S1 S2]; subst. cbn [gfront]. constructor; [apply IH; exact S1|]. apply Forall_forall. intros x Hx. pose proof (gfront_lower s (k + 1) a S1 S2 x Hx). lia.
Qed.
Lemma lt_sorted_NoDup : forall l, StronglySorted Z.lt l -> NoDup l.
Proof. intros l H. induction H as [|a l H IH F]; constructor; [|exact IH]. intro K. rewrite Forall_forall in F. specialize (F a K). lia. Qed.
Lemma lt_sorted_last : forall l x, StronglySorted Z.lt l -> In x l -> x <= last l 0.
Proof.
  intros l x H. revert x. induction H as [|a l H IH F]; intros x Hx; [destruct Hx|]. destruct l as [|b l]; [destruct Hx as [<-|[]]; cbn; lia|]. change (last (a :: b :: l) 0) with (last (b :: l) 0). destruct Hx as [<-|Hx]; [|apply IH; exact Hx].
  rewrite Forall_forall in F. pose proof (F b (or_introl eq_refl)). pose proof (IH b (or_introl eq_refl)). lia.
Qed.
Definition gmiss (f : list Z) : list Z := filter (fun x => negb (memz x f)) (zrange 1 (last f 0 + 1)).
Definition gline (s : list Z) : list Z := match s with [] => [] | _ => gfront 0 s ++ gmiss (gfront 0 s) end.
Lemma gline_app : forall s, StronglySorted Z.le s -> gline s = gfront 0 s ++ gmiss (gfront 0 s).
Proof. intros [|a s] _; reflexivity. Qed.
Lemma gline_perm : forall s, StronglySorted Z.le s -> Forall (fun a => 0 <= a) s -> Permutation (gline s) (zrange 1 (last (gfront 0 s) 0 + 1)).
Proof.
  intros s S F. rewrite gline_app by exact S. set (f := gfront 0 s). pose proof (gfront_sorted s 0 S) as Sf. fold f in Sf. pose proof (lt_sorted_NoDup f Sf) as Nf.
  apply NoDup_Permutation.
  - apply NoDup_app_intro; [exact Nf|apply NoDup_filter, NoDup_zrange|]. intros x Hx Hm. apply filter_In in Hm. destruct Hm as [_ Hm]. rewrite negb_true_iff in Hm. apply memz_false in Hm. contradiction.
  - apply NoDup_zrange.
  - intro x. rewrite in_app_iff. unfold gmiss. rewrite filter_In, In_zrange, negb_true_iff, memz_false. split.
    + intros [Hx|[Hx _]]; [|exact Hx]. pose proof (gfront_lower s 0 0 S F x Hx). pose proof (lt_sorted_last f x Sf Hx). lia.
    + intro Hx. destruct (in_dec Z.eq_dec x f) as [h|h]; [left; exact h|right; split; assumption].
Qed.
Lemma perm_zrange_signed : forall l n, 0 <= n -> Permutation l (zrange 1 (n + 1)) -> signed_word l /\ Forall (fun x => 0 < x) l /\ zlen l = n.
Proof.
  intros l n Hn P. assert (L : zlen l = n) by (unfold zlen; rewrite (Permutation_length P), length_zrange; lia).
  assert (F : Forall (fun x => 0 < x) l) by (apply Forall_forall; intros x Hx; apply (Permutation_in _ P) in Hx; apply In_zrange in Hx; lia).
  split; [|split; assumption]. unfold signed_word. rewrite L. replace (map Z.abs l) with l; [exact P|]. rewrite <- (map_id l) at 1. apply map_ext_in. intros x Hx. rewrite Forall_forall in F. specialize (F x Hx). lia.
Qed.
Lemma gfront_last : forall s, 0 <= last (gfront 0 s) 0 \/ ~ Forall (fun a => 0 <= a) s.
Proof.
  intro s. destruct (Forall_dec (fun a => 0 <= a) (fun a => Z_le_dec 0 a) s) as [F|F]; [left|right; exact F].
  assert (G : forall s k, 0 <= k -> Forall (fun a => 0 <= a) s -> 0 <= last (gfront k s) 0).
  { clear. induction s as [|a s IH]; intros k Hk F; [cbn; lia|]. inversion F as [|? ? F1 F2]; subst. cbn [gfront]. destruct (gfront (k + 1) s) as [|b g] eqn:E; [cbn; lia|]. change (last (k + 1 + a :: b :: g) 0) with (last (b :: g) 0). rewrite <- E. apply IH; [lia|exact F2]. }
  apply G; [lia|exact F].
Qed.
Lemma gline_word : forall s, StronglySorted Z.le s -> Forall (fun a => 0 <= a) s -> signed_word (gline s) /\ Forall (fun x => 0 < x) (gline s) /\ zlen (gline s) = last (gfront 0 s) 0.
Proof.
  intros s S F. apply perm_zrange_signed; [|apply gline_perm; assumption]. destruct (gfront_last s) as [H|H]; [exact H|contradiction].
Qed.
Lemma cnt_range : forall x n, 1 <= x <= n + 1 -> cnt (fun y => y <? x) (zrange 1 (n + 1)) = x - 1.
Proof.
  intros x n H. rewrite (zrange_app 1 x (n + 1)) by lia. rewrite cnt_app. rewrite (cnt_zero _ (zrange x (n + 1))) by (intros y Hy; apply In_zrange in Hy; apply Z.ltb_ge; lia).
  unfold cnt. rewrite L_PartBasic.filter_all by (intros y Hy; apply In_zrange in Hy; apply Z.ltb_lt; lia). rewrite zlen_zrange by lia. lia.
Qed.
Lemma cnt_full : forall p l, (forall x, In x l -> p x = true) -> cnt p l = zlen l.
Proof. intros p l H. unfold cnt. rewrite L_PartBasic.filter_all by exact H. reflexivity. Qed.
Lemma codel_sorted : forall l, StronglySorted Z.lt l -> codel l = repeat 0 (length l).
Proof.
  intros l H. induction H as [|a l H IH F]; [reflexivity|]. cbn [codel length repeat]. rewrite IH. f_equal. apply cnt_zero. intros x Hx. rewrite Forall_forall in F. specialize (F x Hx). apply Z.ltb_ge. lia.
Qed.
Lemma lt_filter : forall (f : Z -> bool) l, StronglySorted Z.lt l -> StronglySorted Z.lt (filter f l).
Proof.
  intros f l H. induction H as [|a l H IH F]; [constructor|]. cbn [filter]. destruct (f a); [|exact IH]. constructor; [exact IH|]. rewrite Forall_forall in *. intros x Hx. apply filter_In in Hx. apply F. apply Hx.
Qed.
Lemma zrange_lt : forall a b, StronglySorted Z.lt (zrange a b).
Proof.
  intros a b. destruct (Z_le_gt_dec a b) as [h|h]; [|rewrite zrange_nil by lia; constructor]. remember (Z.to_nat (b - a)) as n eqn:En. revert a h En. induction n as [|n IH]; intros a h En; [rewrite zrange_nil by lia; constructor|].
  rewrite zrange_cons by lia. constructor; [apply IH; lia|]. apply Forall_forall. intros x Hx. apply In_zrange in Hx. lia.
Qed.
Lemma codel_gline : forall s, StronglySorted Z.le s -> Forall (fun a => 0 <= a) s -> exists k, codel (gline s) = s ++ repeat 0 k.
Proof.
  intros s S F. pose proof (gline_perm s S F) as P. rewrite gline_app in * by exact S. set (m := gmiss (gfront 0 s)) in *. set (n := last (gfront 0 s) 0) in *.
  assert (Sm : StronglySorted Z.lt m) by (apply lt_filter, zrange_lt).
  assert (G : forall s k pre, StronglySorted Z.le s -> Permutation (pre ++ gfront k s ++ m) (zrange 1 (n + 1)) -> zlen pre = k -> (forall x y, In x pre -> In y (gfront k s) -> x < y) -> codel (gfront k s ++ m) = s ++ codel m).
  { clear P F S. clearbody m n. clear s. induction s as [|a s IH]; intros k pre S P Hk Hlt; [reflexivity|]. inversion S as [|? ? S1 S2]; subst. cbn [gfront app codel] in *. f_equal.
    - set (x := zlen pre + 1 + a) in *. pose proof (cnt_perm (fun y => y <? x) _ _ P) as C. rewrite cnt_range in C.
      + rewrite cnt_app, cnt_cons, Z.ltb_irrefl in C. rewrite (cnt_full _ pre) in C; [unfold x in *; lia|]. intros y Hy. apply Z.ltb_lt. apply Hlt; [exact Hy|left; reflexivity].
      + assert (Hx : In x (zrange 1 (n + 1))) by (apply (Permutation_in _ P), in_app_iff; right; left; reflexivity). apply In_zrange in Hx. lia.
    - apply (IH (zlen pre + 1) (pre ++ [zlen pre + 1 + a])); [exact S1|rewrite <- app_assoc; exact P|rewrite zlen_app; unfold zlen; cbn; lia|].
      intros x y Hx Hy. apply in_app_iff in Hx. destruct Hx as [Hx|[<-|[]]]; [apply Hlt; [exact Hx|right; exact Hy]|]. pose proof (gfront_lower s (zlen pre + 1) a S1 S2 y Hy). lia. }
  exists (length m). rewrite (G s 0 []); [|exact S|exact P|reflexivity|intros x y []]. rewrite codel_sorted by exact Sm. reflexivity.
Qed.
Lemma codel_app_range : forall a b, (forall x y, In x a -> In y b -> x < y) -> StronglySorted Z.lt b -> codel (a ++ b) = codel a ++ repeat 0 (length b).
Proof.
  induction a as [|x a IH]; intros b H S; [apply codel_sorted; exact S|]. cbn [app codel]. rewrite IH by first [exact S|intros u v Hu Hv; apply H; [right; exact Hu|exact Hv]]. f_equal.
  rewrite cnt_app. rewrite (cnt_zero _ b); [lia|]. intros y Hy. apply Z.ltb_ge. specialize (H x y (or_introl eq_refl) Hy). lia.
Qed.
Lemma codel_strip : forall l, signed_word l -> Forall (fun x => 0 < x) l -> exists k, codel l = codel (strip l) ++ repeat 0 k.
Proof.
  intros l W F. destruct (strip_tail l) as (E & L & _). set (b := zrange (zlen (strip l) + 1) (zlen l + 1)) in *. exists (length b). rewrite E at 1. apply codel_app_range; [|apply zrange_lt].
  intros x y Hx Hy. pose proof (signed_word_range (strip l) x (proj2 (signed_word_strip l) W) Hx). unfold b in Hy. apply In_zrange in Hy. lia.
Qed.
Lemma filter_zeros : forall k, filter (fun x => 0 <? x) (repeat 0 k) = [].
Proof. induction k as [|k IH]; [reflexivity|exact IH]. Qed.
Lemma psort_zeros : forall a b k l, a ++ repeat 0 k = b ++ repeat 0 l -> Forall (fun x => 0 <= x) a -> Forall (fun x => 0 <= x) b -> psort a true = psort b true.
Proof.
  intros a b k l E Fa Fb. destruct (psort_partition_of b Fb) as [Pb PP]. apply psort_char; [exact Fa|exact Pb|]. eapply Permutation_trans; [|apply Permutation_sym; exact PP].
  assert (K : filter (fun x => 0 <? x) (a ++ repeat 0 k) = filter (fun x => 0 <? x) (b ++ repeat 0 l)) by (rewrite E; reflexivity). rewrite !filter_app, !filter_zeros, !app_nil_r in K. rewrite K. apply Permutation_refl.
Qed.
Lemma codel_nonneg : forall l, Forall (fun x => 0 <= x) (codel l).
Proof. induction l as [|x l IH]; constructor; [apply cnt_nonneg|exact IH]. Qed.
Lemma sorted_psort : forall s, Forall (fun x => 0 <= x) s -> psort (sorted s) true = psort s true.
Proof.
  intros s F. destruct (psort_partition_of s F) as [Ps PP]. apply psort_char; [|exact Ps|].
  - apply Forall_forall. intros x Hx. apply (Permutation_in _ (Permutation_sym (L_Tableaux.sorted_perm s))) in Hx. rewrite Forall_forall in F. apply F. exact Hx.
  - eapply Permutation_trans; [|apply Permutation_sym; exact PP]. apply filter_perm_z. apply Permutation_sym, L_Tableaux.sorted_perm.
Qed.

Lemma invp_invp : forall w, canonical w -> invp (invp w) = w.
Proof.
  intros w Hw. apply canonical_ext; [apply invp_canonical, invp_canonical, Hw|exact Hw|]. intro i. pose proof (invp_canonical w (proj1 Hw)) as Hi.
  apply (pcall_inj (invp w)); [apply Hi|]. rewrite (invp_call2 (invp w)) by apply Hi. rewrite invp_call by apply Hw. reflexivity.
Qed.
Lemma strip_pos : forall l, Forall (fun x => 0 < x) l -> Forall (fun x => 0 < x) (strip l).
Proof.
  intros l F. destruct (strip_tail l) as (E & _). rewrite E in F. apply Forall_app in F. apply F.
Qed.
(* the permutation v with get_grassmannian(mu) = v^-1 *)
Definition gperm (mu : list Z) : list Z := strip (gline (sorted mu)).
Lemma nonneg_sorted : forall mu, Forall (fun x => 0 <= x) mu -> Forall (fun x => 0 <= x) (sorted mu).
Proof. intros mu F. apply Forall_forall. intros x Hx. apply (Permutation_in _ (Permutation_sym (L_Tableaux.sorted_perm mu))) in Hx. rewrite Forall_forall in F. apply F. exact Hx. Qed.
Lemma gperm_ok : forall mu, Forall (fun x => 0 <= x) mu -> canonical (gperm mu) /\ Forall (fun x => 0 < x) (gperm mu) /\ get_grassmannian mu = Ok (invp (gperm mu)).
Proof.
  intros mu F. pose proof (sorted_increasing' mu) as S. pose proof (nonneg_sorted mu F) as Fs. destruct (gline_word (sorted mu) S Fs) as (W & P & _).
  split; [apply strip_canonical; exact W|]. split; [apply strip_pos; exact P|]. unfold get_grassmannian. unfold enum. replace (zlen (sorted mu)) with (0 + zlen (sorted mu)) by lia. rewrite gfront_enum.
  set (o := match gfront 0 (sorted mu) with [] => [] | _ => _ end). assert (Eo : o = gline (sorted mu)) by (unfold o, gline; destruct (sorted mu); reflexivity). rewrite Eo.
  rewrite mkperm_ok by exact W. cbn [rbind]. apply pinv_ok. apply signed_word_strip. exact W.
Qed.
Lemma perm_shape_ok : forall w, canonical w -> Forall (fun x => 0 < x) (invp w) -> perm_shape w = Ok (psort (codel (invp w)) true).
Proof. intros w Hw F. unfold perm_shape. rewrite pinv_ok by apply Hw. cbn [rbind]. rewrite code_ok; [reflexivity|apply invp_canonical, Hw|exact F]. Qed.
Lemma gperm_shape : forall mu, Forall (fun x => 0 <= x) mu -> psort (codel (gperm mu)) true = psort mu true.
Proof.
  intros mu F. pose proof (sorted_increasing' mu) as S. pose proof (nonneg_sorted mu F) as Fs. destruct (gline_word (sorted mu) S Fs) as (W & P & _). destruct (codel_gline (sorted mu) S Fs) as [k Ek]. destruct (codel_strip _ W P) as [l El].
  rewrite <- (sorted_psort mu F). rewrite El in Ek. apply (psort_zeros _ _ _ _ Ek); [apply codel_nonneg|exact Fs].
Qed.

(* values *)
Lemma gperm_front : forall mu i, Forall (fun x => 0 <= x) mu -> 1 <= i <= zlen mu -> pcall (gperm mu) i = i + nthz (sorted mu) (i - 1).
Proof.
  intros mu i F Hi. unfold gperm. rewrite pcall_strip. pose proof (sorted_increasing' mu) as S. assert (L : zlen (sorted mu) = zlen mu) by (unfold zlen; rewrite <- (Permutation_length (L_Tableaux.sorted_perm mu)); reflexivity).
  rewrite gline_app by exact S. assert (Lf : zlen (gfront 0 (sorted mu)) = zlen mu) by (unfold zlen; rewrite gfront_len; exact L).
  rewrite pcall_pos by (rewrite zlen_app; pose proof (zlen_nonneg _ (gmiss (gfront 0 (sorted mu)))); lia). rewrite nthz_app1 by lia. rewrite gfront_nth by lia. lia.
Qed.
Lemma lt_sorted_nth : forall l i j, StronglySorted Z.lt l -> 0 <= i < j -> j < zlen l -> nthz l i < nthz l j.
Proof.
  intros l i j H. revert i j. induction H as [|a l H IH F]; intros i j Hi Hj; [unfold zlen in Hj; cbn in Hj; lia|]. rewrite zlen_cons in Hj. unfold nthz in *. replace (Z.to_nat j) with (S (Z.to_nat (j - 1))) by lia. cbn [nth].
  destruct (Z.eq_dec i 0) as [->|n].
  - cbn [nth Z.to_nat]. rewrite Forall_forall in F. apply F. apply nth_In. unfold zlen in Hj. lia.
  - replace (Z.to_nat i) with (S (Z.to_nat (i - 1))) by lia. cbn [nth]. apply IH; lia.
Qed.
Lemma le_sorted_nth : forall l i j, StronglySorted Z.le l -> 0 <= i <= j -> j < zlen l -> nthz l i <= nthz l j.
Proof.
  intros l i j H. revert i j. induction H as [|a l H IH F]; intros i j Hi Hj; [unfold zlen in Hj; cbn in Hj; lia|]. rewrite zlen_cons in Hj. destruct (Z.eq_dec i j) as [->|ne]; [lia|]. unfold nthz in *. replace (Z.to_nat j) with (S (Z.to_nat (j - 1))) by lia. cbn [nth].
  destruct (Z.eq_dec i 0) as [->|n].
  - cbn [nth Z.to_nat]. rewrite Forall_forall in F. apply F. apply nth_In. unfold zlen in Hj. lia.
  - replace (Z.to_nat i) with (S (Z.to_nat (i - 1))) by lia. cbn [nth]. apply IH; lia.
Qed.
Lemma gperm_ascents : forall mu i, Forall (fun x => 0 <= x) mu -> 1 <= i -> i <> zlen mu -> pcall (gperm mu) i < pcall (gperm mu) (i + 1).
Proof.
  intros mu i F Hi Hn. pose proof (sorted_increasing' mu) as S. pose proof (nonneg_sorted mu F) as Fs. assert (L : zlen (sorted mu) = zlen mu) by (unfold zlen; rewrite <- (Permutation_length (L_Tableaux.sorted_perm mu)); reflexivity).
  destruct (Z_lt_ge_dec i (zlen mu)) as [h|h].
  - rewrite !gperm_front by (try exact F; lia). pose proof (le_sorted_nth (sorted mu) (i - 1) (i + 1 - 1) S ltac:(lia) ltac:(lia)). lia.
  - assert (Hk : zlen mu < i) by lia. destruct (gline_word (sorted mu) S Fs) as (W & P & LN). unfold gperm. rewrite !pcall_strip. set (l := gline (sorted mu)) in *. set (n := zlen l) in *.
    destruct (Z_le_gt_dec (i + 1) n) as [h1|h1].
    + rewrite !pcall_pos by (fold n; lia). unfold l. rewrite gline_app by exact S. assert (Lf : zlen (gfront 0 (sorted mu)) = zlen mu) by (unfold zlen; rewrite gfront_len; exact L). rewrite !nthz_app2 by lia.
      apply lt_sorted_nth; [apply lt_filter, zrange_lt|lia|]. unfold n, l in h1. rewrite gline_app, zlen_app in h1 by exact S. lia.
    + rewrite (pcall_out l (i + 1)) by (fold n; lia). destruct (Z.eq_dec i n) as [E|E]; [|rewrite pcall_out by (fold n; lia); lia].
      pose proof (pcall_abs l i W ltac:(fold n; pose proof (zlen_nonneg _ mu); lia)). fold n in H. lia.
Qed.

(* an increasing extension is unique *)
Lemma increasing_unique : forall u v k, canonical u -> canonical v -> Forall (fun x => 0 < x) u -> Forall (fun x => 0 < x) v -> 0 <= k -> (forall i, 1 <= i <= k -> pcall u i = pcall v i) ->
  (forall i, k < i -> pcall u i < pcall u (i + 1)) -> (forall i, k < i -> pcall v i < pcall v (i + 1)) -> u = v.
Proof.
  intros u v k Hu Hv Pu Pv Hk E Iu Iv.
  assert (mono : forall w, (forall i, k < i -> pcall w i < pcall w (i + 1)) -> forall i j, k < i -> i <= j -> pcall w i <= pcall w j).
  { intros w Iw i j Hi Hj. remember (Z.to_nat (j - i)) as d eqn:Ed. revert j Hj Ed. induction d as [|d IH]; intros j Hj Ed; [replace j with i by lia; lia|]. specialize (IH (j - 1) ltac:(lia) ltac:(lia)). specialize (Iw (j - 1) ltac:(lia)). replace (j - 1 + 1) with j in Iw by lia. lia. }
  assert (pos : forall w i, canonical w -> Forall (fun x => 0 < x) w -> 0 < i -> 0 < pcall w i).
  { intros w i Hw Pw Hi. destruct (Z_le_gt_dec i (zlen w)) as [h|h]; [|rewrite pcall_out by lia; exact Hi]. rewrite pcall_pos by lia. rewrite Forall_forall in Pw. apply Pw. apply nthz_In. lia. }
  assert (onto : forall w x, canonical w -> Forall (fun x => 0 < x) w -> 0 < x -> exists i, 0 < i /\ pcall w i = x).
  { intros w x Hw Pw Hx. destruct (pcall_surj w x (proj1 Hw)) as [i Ei]. exists i. split; [|exact Ei]. destruct (Z_lt_le_dec 0 i) as [h|h]; [exact h|]. exfalso. destruct (Z.eq_dec i 0) as [->|n0]; [rewrite pcall_zero in Ei; lia|]. pose proof (pos w (- i) Hw Pw ltac:(lia)) as K. rewrite pcall_odd in K. lia. }
  assert (half : forall u v m, canonical u -> canonical v -> Forall (fun x => 0 < x) u -> Forall (fun x => 0 < x) v -> (forall i, k < i -> pcall v i < pcall v (i + 1)) -> k < m -> (forall i, 1 <= i < m -> pcall u i = pcall v i) -> pcall u m < pcall v m -> False).
  { clear u v Hu Hv Pu Pv E Iu Iv. intros u v m Hu Hv Pu Pv Iv Hm E h. destruct (onto v (pcall u m) Hv Pv (pos u m Hu Pu ltac:(lia))) as (j & Hj & Ej).
    destruct (Z_lt_ge_dec j m) as [L|G].
    - rewrite <- (E j) in Ej by lia. apply (pcall_inj u _ _ (proj1 Hu)) in Ej. lia.
    - pose proof (mono v Iv m j Hm ltac:(lia)). lia. }
  assert (A : forall n : nat, forall i, 1 <= i <= k + Z.of_nat n -> pcall u i = pcall v i).
  { induction n as [|n IH]; intros i Hi; [apply E; lia|]. destruct (Z_le_gt_dec i (k + Z.of_nat n)) as [h|h]; [apply IH; lia|]. destruct (Z.lt_total (pcall u i) (pcall v i)) as [L|[L|L]]; [|exact L|].
    - exfalso. apply (half u v i Hu Hv Pu Pv Iv); [lia|intros j Hj; apply IH; lia|exact L].
    - exfalso. apply (half v u i Hv Hu Pv Pu Iu); [lia|intros j Hj; symmetry; apply IH; lia|exact L]. }
  apply canonical_ext; [exact Hu|exact Hv|]. assert (B : forall i, 0 < i -> pcall u i = pcall v i) by (intros i Hi; apply (A (Z.to_nat i)); lia).
  intro i. destruct (Z.lt_total i 0) as [L|[->|L]]; [|rewrite !pcall_zero; reflexivity|apply B; exact L]. replace i with (- - i) by lia. rewrite !(pcall_odd _ (- i)). rewrite B by lia. reflexivity.
Qed.
