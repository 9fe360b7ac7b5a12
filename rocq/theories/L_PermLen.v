From Coq Require Import List ZArith Lia Bool Permutation.
From Verif Require Import PyBase M_Partitions M_Perm S_Perm L_Words2 L_Perm.
Import ListNotations.
Local Open Scope Z_scope.

(* ---- counting ---- *)
Definition cnt (p : Z -> bool) (l : list Z) : Z := zlen (filter p l).
Lemma cnt_cons : forall p a l, cnt p (a :: l) = (if p a then 1 else 0) + cnt p l.
Proof. intros. unfold cnt. cbn [filter]. destruct (p a); [rewrite zlen_cons|]; lia. Qed.
Lemma cnt_nil : forall p, cnt p [] = 0.
Proof. reflexivity. Qed.
Lemma cnt_app : forall p l m, cnt p (l ++ m) = cnt p l + cnt p m.
Proof. intros. unfold cnt. rewrite filter_app, zlen_app. reflexivity. Qed.
Lemma cnt_ext : forall p q l, (forall x, In x l -> p x = q x) -> cnt p l = cnt q l.
Proof. intros p q l H. unfold cnt. rewrite (filter_ext_in _ _ _ H). reflexivity. Qed.
Lemma cnt_zero : forall p l, (forall x, In x l -> p x = false) -> cnt p l = 0.
Proof.
  induction l as [|a l IH]; intro H; [reflexivity|]. rewrite cnt_cons, (H a (or_introl eq_refl)), IH; [reflexivity|]. intros x Hx. apply H. right. assumption.
Qed.
Lemma cnt_nonneg : forall p l, 0 <= cnt p l.
Proof. intros. apply zlen_nonneg. Qed.
Lemma cnt_map : forall p f l, cnt p (map f l) = cnt (fun x => p (f x)) l.
Proof. induction l as [|a l IH]; [reflexivity|]. cbn [map]. rewrite !cnt_cons, IH. reflexivity. Qed.
Lemma cnt_rev : forall p l, cnt p (rev l) = cnt p l.
Proof. induction l as [|a l IH]; [reflexivity|]. cbn [rev]. rewrite cnt_app, !cnt_cons, cnt_nil, IH. lia. Qed.
Lemma cnt_perm : forall p l m, Permutation l m -> cnt p l = cnt p m.
Proof. intros p l m H. induction H; rewrite ?cnt_cons; lia. Qed.

Fixpoint invl (l : list Z) : Z := match l with [] => 0 | x :: l' => cnt (fun y => y <? x) l' + invl l' end.
Fixpoint nspl (l : list Z) : Z := match l with [] => 0 | x :: l' => cnt (fun y => x + y <? 0) l' + nspl l' end.
Definition negl (l : list Z) : Z := cnt (fun y => y <? 0) l.
Definition ell (l : list Z) : Z := invl l + nspl l + negl l.

Fixpoint cross (l m : list Z) : Z := match l with [] => 0 | x :: l' => cnt (fun y => y <? x) m + cross l' m end.

Lemma invl_app : forall l m, invl (l ++ m) = invl l + invl m + cross l m.
Proof. induction l as [|x l IH]; intro m; cbn [app invl cross]; [lia|]. rewrite cnt_app, IH. lia. Qed.
Lemma invl_snoc : forall l x, invl (l ++ [x]) = invl l + cnt (fun y => x <? y) l.
Proof.
  intros l x. rewrite invl_app. cbn [invl]. rewrite cnt_nil.
  assert (cross l [x] = cnt (fun y => x <? y) l); [|lia]. induction l as [|a l IH]; [reflexivity|]. cbn [cross]. rewrite !cnt_cons, cnt_nil, IH. lia.
Qed.
Lemma nspl_snoc : forall l x, nspl (l ++ [x]) = nspl l + cnt (fun y => x + y <? 0) l.
Proof.
  induction l as [|a l IH]; intro x; cbn [app nspl]; [reflexivity|]. rewrite cnt_app, IH, !cnt_cons, cnt_nil. rewrite (Z.add_comm a x). lia.
Qed.
Lemma invl_opp_rev : forall l, invl (map Z.opp (rev l)) = invl l.
Proof.
  induction l as [|x l IH]; [reflexivity|]. cbn [rev invl]. rewrite map_app. cbn [map]. rewrite invl_snoc, IH, cnt_map, cnt_rev.
  rewrite (cnt_ext _ (fun y => y <? x)); [lia|]. intros y _. lia.
Qed.
Lemma cross_snoc : forall l x m, cross (l ++ [x]) m = cross l m + cnt (fun y => y <? x) m.
Proof. induction l as [|a l IH]; intros x m; cbn [app cross]; [lia|]. rewrite IH. lia. Qed.
Lemma cross_cons : forall l x m, cross l (x :: m) = cnt (fun y => x <? y) l + cross l m.
Proof. induction l as [|a l IH]; intros x m; cbn [cross]; [reflexivity|]. rewrite IH, !cnt_cons. lia. Qed.
Lemma cross_opp_rev : forall l, cross (map Z.opp (rev l)) l = 2 * nspl l + negl l.
Proof.
  unfold negl. induction l as [|x l IH]; [reflexivity|]. cbn [rev nspl]. rewrite map_app. cbn [map]. rewrite cross_snoc, cross_cons, IH.
  rewrite cnt_map, cnt_rev, !cnt_cons.
  rewrite (cnt_ext (fun x0 => x <? - x0) (fun y => x + y <? 0)) by (intros; lia).
  rewrite (cnt_ext (fun y => y <? - x) (fun y => x + y <? 0)) by (intros; lia).
  destruct (x <? - x) eqn:E1, (x <? 0) eqn:E2; try lia.
Qed.

Lemma pairs_count : forall l, zlen (flat_map (fun i => flat_map (fun j => if nthz l j <? nthz l i then [(i, j)] else [])
                                        (zrange (i + 1) (zlen l))) (zrange 0 (zlen l))) = invl l.
Proof.
  assert (G : forall l, zlen (flat_map (fun i => flat_map (fun j => if nthz l j <? nthz l i then [(i, j)] else [])
                                        (zrange (i + 1) (zlen l))) (zrange 0 (zlen l))) =
     zsum (map (fun i => cnt (fun j => nthz l j <? nthz l i) (zrange (i + 1) (zlen l))) (zrange 0 (zlen l)))).
  { intro l. generalize (zrange 0 (zlen l)) as r. induction r as [|i r IH]; [reflexivity|]. cbn [flat_map map zsum].
    rewrite zlen_app, IH. f_equal. generalize (zrange (i + 1) (zlen l)) as q. induction q as [|j q IHq]; [reflexivity|].
    cbn [flat_map]. rewrite zlen_app, IHq, cnt_cons. destruct (nthz l j <? nthz l i); reflexivity. }
  intro l. rewrite G. clear G.
  assert (Q : forall l x, cnt (fun j => nthz l j <? x) (zrange 0 (zlen l)) = cnt (fun y => y <? x) l).
  { clear l. induction l as [|a l IH]; intro x; [reflexivity|]. rewrite zlen_cons. rewrite zrange_cons by (pose proof (zlen_nonneg _ l); lia).
    rewrite !cnt_cons, nthz_0. f_equal. change (0 + 1) with 1. rewrite zrange_succ, cnt_map. rewrite <- IH.
    apply cnt_ext. intros j Hj. apply In_zrange in Hj. rewrite nthz_succ by lia. reflexivity. }
  induction l as [|a l IH]; [reflexivity|]. cbn [invl]. rewrite zlen_cons.
  rewrite zrange_cons by (pose proof (zlen_nonneg _ l); lia). cbn [map zsum]. f_equal.
  - change (0 + 1) with 1. rewrite zrange_succ, cnt_map. rewrite nthz_0. rewrite <- Q. apply cnt_ext. intros j Hj. apply In_zrange in Hj.
    rewrite nthz_succ by lia. reflexivity.
  - rewrite <- IH. change (0 + 1) with 1. rewrite zrange_succ, map_map. f_equal. apply map_ext_in. intros i Hi. apply In_zrange in Hi.
    rewrite zrange_shift, cnt_map. apply cnt_ext. intros j Hj. apply In_zrange in Hj. rewrite !nthz_succ by lia. reflexivity.
Qed.

Lemma plen_ok : forall w, plen w = Ok (ell w).
Proof.
  intro w. unfold plen.
  replace (zlen w * 2) with (zlen (map Z.opp (rev w) ++ w)) by (rewrite zlen_app, zlen_map; unfold zlen; rewrite rev_length; lia).
  rewrite pairs_count, invl_app, invl_opp_rev, cross_opp_rev. change (zlen (filter (fun i => i <? 0) w)) with (negl w).
  replace (invl w + invl w + (2 * nspl w + negl w)) with (negl w + (invl w + nspl w) * 2) by lia.
  rewrite Z_mod_plus_full, Z.eqb_refl. f_equal. unfold ell.
  replace (negl w + (invl w + nspl w) * 2 + negl w) with ((invl w + nspl w + negl w) * 2) by lia. apply Z_div_mult_full. lia.
Qed.

(* ---- the effect of a simple reflection on positions ---- *)
Lemma invl_swap : forall a x y b, x <> y -> invl (a ++ y :: x :: b) = invl (a ++ x :: y :: b) + (if y <? x then -1 else 1).
Proof.
  induction a as [|c a IH]; intros x y b N; cbn [app invl].
  - rewrite !cnt_cons. destruct (x <? y) eqn:E1, (y <? x) eqn:E2; lia.
  - rewrite IH by assumption. rewrite (cnt_perm _ (a ++ y :: x :: b) (a ++ x :: y :: b)); [lia|].
    apply Permutation_app_head. apply perm_swap.
Qed.
Lemma nspl_swap : forall a x y b, nspl (a ++ y :: x :: b) = nspl (a ++ x :: y :: b).
Proof.
  induction a as [|c a IH]; intros x y b; cbn [app nspl].
  - rewrite !cnt_cons. rewrite (Z.add_comm y x). lia.
  - rewrite IH. rewrite (cnt_perm _ (a ++ y :: x :: b) (a ++ x :: y :: b)); [lia|].
    apply Permutation_app_head. apply perm_swap.
Qed.
Lemma ell_swap : forall a x y b, x <> y -> ell (a ++ y :: x :: b) = ell (a ++ x :: y :: b) + (if y <? x then -1 else 1).
Proof.
  intros a x y b N. unfold ell. rewrite invl_swap, nspl_swap by assumption. unfold negl.
  rewrite (cnt_perm _ (a ++ y :: x :: b) (a ++ x :: y :: b)); [lia|]. apply Permutation_app_head. apply perm_swap.
Qed.
Lemma ell_neg : forall x b, x <> 0 -> ell (- x :: b) = ell (x :: b) + (if x <? 0 then -1 else 1).
Proof.
  intros x b N. unfold ell, negl. cbn [invl nspl]. rewrite !cnt_cons.
  rewrite (cnt_ext (fun y => y <? - x) (fun y => x + y <? 0)) by (intros; lia).
  rewrite (cnt_ext (fun y => - x + y <? 0) (fun y => y <? x)) by (intros; lia).
  destruct (x <? 0) eqn:E1, (- x <? 0) eqn:E2; lia.
Qed.

Lemma ell_snoc : forall l, (forall x, In x l -> Z.abs x <= zlen l) -> ell (l ++ [zlen l + 1]) = ell l.
Proof.
  intros l H. unfold ell, negl. rewrite invl_snoc, nspl_snoc, cnt_app, cnt_cons, cnt_nil. pose proof (zlen_nonneg _ l).
  rewrite (cnt_zero (fun y => zlen l + 1 <? y)) by (intros x Hx; specialize (H x Hx); lia).
  rewrite (cnt_zero (fun y => zlen l + 1 + y <? 0)) by (intros x Hx; specialize (H x Hx); lia).
  replace (zlen l + 1 <? 0) with false by lia. lia.
Qed.
Lemma ell_strip : forall l, signed_word l -> ell (strip l) = ell l.
Proof.
  induction l as [|a l IH] using rev_ind; intro H; [reflexivity|]. rewrite strip_snoc.
  destruct (a =? zlen l + 1) eqn:E; [|reflexivity]. apply Z.eqb_eq in E. subst a. apply (proj1 (signed_word_snoc l)) in H.
  rewrite IH by assumption. symmetry. apply ell_snoc. intros x Hx. apply (signed_word_range l x H) in Hx. lia.
Qed.

(* length through any long enough one-line word *)
Lemma ell_line : forall w n, canonical w -> zlen w <= n -> ell (line (pcall w) n) = ell w.
Proof.
  intros w n Hw Hn. pose proof (zlen_nonneg _ w).
  destruct (signed_map_line (pcall w) n (pcall_signed_map w (proj1 Hw)) ltac:(lia)) as [H1 H2].
  { intros i Hi. apply pcall_out. lia. }
  rewrite <- ell_strip by assumption. f_equal. apply canonical_ext; [apply strip_canonical; assumption|assumption|].
  intro i. rewrite pcall_strip. apply H2.
Qed.
Lemma line_ext : forall f g n, (forall i, 1 <= i <= n -> f i = g i) -> line f n = line g n.
Proof. intros f g n H. unfold line. apply map_ext_in. intros i Hi. apply In_zrange in Hi. apply H. lia. Qed.

Lemma simple_fix : forall i x, 0 < i -> 0 < x -> x <> i -> x <> i + 1 -> simple i x = x.
Proof.
  intros i x Hi Hx N1 N2. unfold simple.
  repeat match goal with |- context [?a =? ?b] => destruct (Z.eqb_spec a b) end; lia.
Qed.
Lemma simple_i : forall i, 0 < i -> simple i i = i + 1.
Proof. intros i Hi. unfold simple. replace (i =? 0) with false by lia. rewrite Z.eqb_refl. reflexivity. Qed.
Lemma simple_i1 : forall i, 0 < i -> simple i (i + 1) = i.
Proof. intros i Hi. unfold simple. replace (i =? 0) with false by lia. replace (i + 1 =? i) with false by lia. rewrite Z.eqb_refl. reflexivity. Qed.

Lemma ell_right : forall w i, canonical w -> 0 <= i -> 
  ell (mulp w (sp i)) = ell w + (if (if i =? 0 then pcall w 1 <? 0 else pcall w (i + 1) <? pcall w i) then -1 else 1).
Proof.
  intros w i Hw Hi. pose proof (sp_canonical i Hi) as Hs.
  set (n := Z.max (zlen w) (Z.max (zlen (mulp w (sp i))) (i + 1))).
  pose proof (mulp_canonical w (sp i) (proj1 Hw) (proj1 Hs)) as Hm. pose proof (zlen_nonneg _ w).
  rewrite <- (ell_line w n Hw) by lia. rewrite <- (ell_line _ n Hm) by lia.
  rewrite (line_ext (pcall (mulp w (sp i))) (fun x => pcall w (simple i x))).
  2:{ intros x _. rewrite mulp_call by (apply Hw || apply Hs). rewrite sp_call by assumption. reflexivity. }
  destruct (Z.eqb_spec i 0) as [->|N].
  - unfold line. rewrite !(zrange_cons 1 (n + 1)) by lia. cbn [map].
    rewrite (map_ext_in (fun x => pcall w (simple 0 x)) (pcall w) (zrange (1 + 1) (n + 1))).
    2:{ intros x Hx. apply In_zrange in Hx. rewrite simple_out by lia. reflexivity. }
    change (simple 0 1) with (- (1)). rewrite pcall_odd. rewrite ell_neg; [reflexivity|]. apply pcall_nonzero; [apply Hw|lia].
  - assert (Hp : 0 < i) by lia. unfold line.
    rewrite !(zrange_app 1 i (n + 1)) by lia. rewrite !map_app.
    rewrite !(zrange_cons i (n + 1)) by lia. rewrite !(zrange_cons (i + 1) (n + 1)) by lia. cbn [map].
    rewrite (map_ext_in (fun x => pcall w (simple i x)) (pcall w) (zrange 1 i)).
    2:{ intros x Hx. apply In_zrange in Hx. rewrite simple_fix by lia. reflexivity. }
    rewrite (map_ext_in (fun x => pcall w (simple i x)) (pcall w) (zrange (i + 1 + 1) (n + 1))).
    2:{ intros x Hx. apply In_zrange in Hx. rewrite simple_fix by lia. reflexivity. }
    rewrite simple_i, simple_i1 by assumption. rewrite ell_swap; [reflexivity|].
    intro E. apply pcall_inj in E; [lia|apply Hw].
Qed.

Lemma rdes_spec : forall w i, signed_word w -> (In i (rdes w) <-> 0 <= i /\ descent (pcall w) i).
Proof.
  intros w i Hw. unfold rdes. rewrite in_app_iff, filter_In, In_zrange. unfold descent. split.
  - intros [H|[H1 H2]].
    + destruct ((1 <=? zlen w) && (pcall w 1 <? 0)) eqn:E; [|destruct H]. destruct H as [<-|[]]. cbn. lia.
    + replace (i =? 0) with false by lia. lia.
  - intros [Hi H]. destruct (Z.eqb_spec i 0) as [->|N].
    + left. replace (1 <=? zlen w) with true. 2:{ symmetry. apply Z.leb_le. destruct (Z_lt_ge_dec (zlen w) 1); [|lia]. rewrite pcall_out in H; lia. }
      replace (pcall w 1 <? 0) with true by lia. left. reflexivity.
    + right. split; [|lia]. split; [lia|]. destruct (Z_lt_ge_dec i (zlen w)); [assumption|]. exfalso.
      rewrite (pcall_out w (i + 1)) in H by lia. destruct (Z_lt_ge_dec (zlen w) i); [rewrite pcall_out in H by lia; lia|].
      pose proof (pcall_abs w i Hw). lia.
Qed.

Lemma descent_dec : forall f i, {descent f i} + {~ descent f i}.
Proof. intros f i. unfold descent. destruct (i =? 0); apply Z_lt_dec. Qed.

Lemma ell_descent : forall w i, canonical w -> 0 <= i -> descent (pcall w) i -> ell (mulp w (sp i)) = ell w - 1.
Proof.
  intros w i Hw Hi H. rewrite ell_right by assumption. unfold descent in H. destruct (i =? 0);
  [replace (pcall w 1 <? 0) with true by lia|replace (pcall w (i + 1) <? pcall w i) with true by lia]; lia.
Qed.
Lemma ell_ascent : forall w i, canonical w -> 0 <= i -> ~ descent (pcall w) i -> ell (mulp w (sp i)) = ell w + 1.
Proof.
  intros w i Hw Hi H. rewrite ell_right by assumption. unfold descent in H. destruct (i =? 0);
  [replace (pcall w 1 <? 0) with false by lia|replace (pcall w (i + 1) <? pcall w i) with false by lia]; lia.
Qed.

Lemma pcall_nil : forall i, pcall [] i = i.
Proof. intro i. destruct (Z.eq_dec i 0) as [->|N]; [reflexivity|]. apply pcall_out. unfold zlen. simpl. lia. Qed.

Lemma no_descent_id : forall w, canonical w -> (forall i, 0 <= i -> ~ descent (pcall w) i) -> w = [].
Proof.
  intros w Hw H. assert (H1 : 0 < pcall w 1).
  { specialize (H 0 ltac:(lia)). unfold descent in H. cbn in H. pose proof (pcall_nonzero w 1 (proj1 Hw)). lia. }
  assert (Hinc : forall i, 1 <= i -> pcall w i < pcall w (i + 1)).
  { intros i Hi. specialize (H i ltac:(lia)). unfold descent in H. replace (i =? 0) with false in H by lia.
    destruct (Z.eq_dec (pcall w i) (pcall w (i + 1))) as [E|]; [apply pcall_inj in E; [lia|apply Hw]|lia]. }
  assert (Hge : forall k, 0 <= k -> 1 + k <= pcall w (1 + k)).
  { apply natlike_ind; [cbn; lia|]. intros k Hk IH. specialize (Hinc (1 + k) ltac:(lia)). replace (1 + Z.succ k) with (1 + k + 1) by lia. lia. }
  assert (Hle : forall k, 0 <= k -> pcall w (zlen w + 1 - k) <= zlen w + 1 - k \/ zlen w + 1 - k < 1).
  { apply (natlike_ind (fun k => pcall w (zlen w + 1 - k) <= zlen w + 1 - k \/ zlen w + 1 - k < 1)).
    - left. pose proof (zlen_nonneg _ w). rewrite pcall_out; lia.
    - intros k Hk [IH|IH]; [|right; lia]. destruct (Z_lt_ge_dec (zlen w + 1 - Z.succ k) 1) as [L|L]; [right; assumption|left].
      specialize (Hinc (zlen w + 1 - Z.succ k) ltac:(lia)). replace (zlen w + 1 - Z.succ k + 1) with (zlen w + 1 - k) in Hinc by lia. lia. }
  apply canonical_ext; [assumption|split; [apply perm_nil|congruence]|].
  assert (G : forall i, 1 <= i -> pcall w i = i).
  { intros i Hi. destruct (Z_lt_ge_dec (zlen w) i); [apply pcall_out; lia|]. specialize (Hge (i - 1) ltac:(lia)). replace (1 + (i - 1)) with i in Hge by lia.
    destruct (Hle (zlen w + 1 - i) ltac:(lia)) as [L|L]; replace (zlen w + 1 - (zlen w + 1 - i)) with i in L by lia; lia. }
  intro i. rewrite pcall_nil. destruct (Z.eq_dec i 0) as [->|Ni]; [apply pcall_zero|].
  destruct (Z_lt_ge_dec 0 i); [apply G; lia|]. replace i with (- - i) by lia. rewrite pcall_odd. f_equal. apply G. lia.
Qed.

Lemma ell_nonneg : forall w, 0 <= ell w.
Proof.
  intro w. unfold ell, negl. pose proof (cnt_nonneg (fun y => y <? 0) w).
  assert (0 <= invl w) by (induction w as [|x w IH]; cbn [invl]; [lia|pose proof (cnt_nonneg (fun y => y <? x) w); pose proof (cnt_nonneg (fun y => y <? 0) w); lia]).
  assert (0 <= nspl w) by (clear H H0; induction w as [|x w IH]; cbn [nspl]; [lia|pose proof (cnt_nonneg (fun y => x + y <? 0) w); lia]). lia.
Qed.

Lemma nil_canonical : canonical [].
Proof. split; [apply perm_nil|congruence]. Qed.

Lemma find_descent : forall w, canonical w -> w <> [] -> exists i, 0 <= i /\ descent (pcall w) i.
Proof.
  intros w Hw N. destruct (rdes w) as [|i r] eqn:E.
  - exfalso. apply N. apply no_descent_id; [assumption|]. intros i Hi Hd. assert (In i (rdes w)) by (apply rdes_spec; [apply Hw|auto]). rewrite E in H. destruct H.
  - exists i. apply rdes_spec; [apply Hw|]. rewrite E. left. reflexivity.
Qed.
