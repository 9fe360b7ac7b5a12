(* C48, C50: crystal graphs as abstract graphs. *)
From Coq Require Import List ZArith Lia Bool Permutation Relations Arith.
From Verif Require Import PyBase M_Perm M_Crystal.
Import ListNotations.
Local Open Scope Z_scope.

(* ---------- specification ---------- *)
(* x and y are joined by an edge path, ignoring directions and labels *)
Definition joined (edges : list (Z * Z * Z)) : Z -> Z -> Prop :=
  clos_refl_sym_trans Z (fun x y => exists i, In (x, y, i) edges).

(* ---------- lemmas ---------- *)
Lemma memz_In : forall x l, memz x l = true <-> In x l.
Proof.
  intros. unfold memz. rewrite existsb_exists. split.
  - intros (y & Hy & E). apply Z.eqb_eq in E. now subst.
  - intro H. exists x. split; [assumption|apply Z.eqb_refl].
Qed.
Lemma memz_notIn : forall x l, memz x l = false <-> ~ In x l.
Proof. intros. rewrite <- memz_In. destruct (memz x l); split; congruence. Qed.

Lemma zset_of_fold : forall l acc, NoDup acc ->
  NoDup (fold_left (fun acc x => if memz x acc then acc else acc ++ [x]) l acc) /\
  forall x, In x (fold_left (fun acc x => if memz x acc then acc else acc ++ [x]) l acc) <-> In x acc \/ In x l.
Proof.
  induction l as [|a l IH]; intros acc Hacc; simpl.
  - split; [assumption|]. intro x. tauto.
  - destruct (memz a acc) eqn:E.
    + destruct (IH acc Hacc) as [H1 H2]. split; [assumption|]. intro x. rewrite H2.
      apply memz_In in E. split; [tauto|]. intros [H|[H|H]]; subst; auto.
    + apply memz_notIn in E.
      destruct (IH (acc ++ [a])) as [H1 H2].
      { apply NoDup_app_intro; auto; [repeat constructor; auto|]. intros x Hx [->|[]]. contradiction. }
      split; [assumption|]. intro x. rewrite H2, in_app_iff. simpl. tauto.
Qed.
Lemma zset_of_NoDup : forall l, NoDup (zset_of l).
Proof. intro l. apply (zset_of_fold l []). constructor. Qed.
Lemma zset_of_In : forall l x, In x (zset_of l) <-> In x l.
Proof. intros l x. unfold zset_of. destruct (zset_of_fold l [] (NoDup_nil _)) as [_ H]. rewrite H. simpl. tauto. Qed.

Lemma neighbours_In : forall edges s x, In x (neighbours edges s) <->
  exists i, In (s, x, i) edges \/ In (x, s, i) edges.
Proof.
  intros edges s x. unfold neighbours. rewrite in_app_iff, !in_flat_map. split.
  - intros [(e & He & Hx)|(e & He & Hx)]; destruct e as [[a b] i]; simpl in Hx.
    + destruct (s =? a) eqn:E; [|contradiction]. apply Z.eqb_eq in E. destruct Hx as [<-|[]]. subst. exists i. auto.
    + destruct (s =? b) eqn:E; [|contradiction]. apply Z.eqb_eq in E. destruct Hx as [<-|[]]. subst. exists i. auto.
  - intros (i & [H|H]).
    + left. exists (s, x, i). split; [assumption|]. simpl. rewrite Z.eqb_refl. left. reflexivity.
    + right. exists (x, s, i). split; [assumption|]. simpl. rewrite Z.eqb_refl. left. reflexivity.
Qed.

Lemma neighbours_joined : forall edges s x, In x (neighbours edges s) -> joined edges s x.
Proof.
  intros edges s x H. apply neighbours_In in H. destruct H as (i & [H|H]).
  - apply rst_step. eauto.
  - apply rst_sym, rst_step. eauto.
Qed.

Definition in_range (n : Z) (edges : list (Z * Z * Z)) : Prop :=
  forall x y i, In (x, y, i) edges -> 0 <= x < n /\ 0 <= y < n.

Lemma dfs_ok : forall fuel n edges seed seen added,
  in_range n edges -> NoDup seen -> (forall x, In x seen -> 0 <= x < n /\ joined edges seed x) ->
  (forall x, In x added -> In x seen) ->
  (forall x y, In x seen -> ~ In x added -> In y (neighbours edges x) -> In y seen) ->
  In seed seen ->
  (Z.to_nat n < fuel + length seen)%nat ->
  exists comp, dfs fuel edges seen added = Ok comp /\ NoDup comp /\ incl seen comp /\
    (forall x, In x comp -> 0 <= x < n /\ joined edges seed x) /\
    (forall x y, In x comp -> In y (neighbours edges x) -> In y comp).
Proof.
  induction fuel as [|fuel IH]; intros n edges seed seen added Hr Hnd Hseen Hadd Hclosed Hseed Hfuel.
  - exfalso.
    assert (Hle : (length seen <= length (zrange 0 n))%nat).
    { apply NoDup_incl_length; [assumption|]. intros x Hx. apply In_zrange. now apply Hseen. }
    rewrite length_zrange in Hle. lia.
  - destruct added as [|a0 added0].
    + exists seen. simpl. split; [reflexivity|]. split; [assumption|]. split; [apply incl_refl|].
      split; [assumption|]. intros x y Hx Hy. apply (Hclosed x y); auto.
    + remember (a0 :: added0) as added eqn:Ea.
      assert (E : dfs (S fuel) edges seen added =
        dfs fuel edges (seen ++ filter (fun x => negb (memz x seen)) (zset_of (flat_map (neighbours edges) added)))
          (filter (fun x => negb (memz x seen)) (zset_of (flat_map (neighbours edges) added))))
        by (rewrite Ea; reflexivity).
      rewrite E. clear E.
      set (added' := filter (fun x => negb (memz x seen)) (zset_of (flat_map (neighbours edges) added))).
      assert (Hin' : forall x, In x added' <-> ~ In x seen /\ exists s, In s added /\ In x (neighbours edges s)).
      { intro x. unfold added'. rewrite filter_In, zset_of_In, in_flat_map.
        rewrite negb_true_iff, memz_notIn. split; intros [H1 H2]; split; auto. }
      assert (Hnd' : NoDup (seen ++ added')).
      { apply NoDup_app_intro; [assumption|apply NoDup_filter, zset_of_NoDup|].
        intros x Hx Hx'. apply Hin' in Hx'. now apply Hx'. }
      assert (Hrange : forall x, In x (seen ++ added') -> 0 <= x < n /\ joined edges seed x).
      { intros x Hx. apply in_app_or in Hx. destruct Hx as [Hx|Hx]; [now apply Hseen|].
        apply Hin' in Hx. destruct Hx as (_ & s & Hs & Hx). split.
        - apply neighbours_In in Hx. destruct Hx as (i & [Hx|Hx]); apply Hr in Hx; tauto.
        - apply rst_trans with s; [apply Hseen; auto|]. now apply neighbours_joined. }
      assert (Hcl : forall x y, In x seen -> In y (neighbours edges x) -> In y (seen ++ added')).
      { intros x y Hx Hy. apply in_or_app.
        destruct (in_dec Z.eq_dec y seen) as [Hys|Hys]; [now left|right].
        apply Hin'. split; [assumption|]. exists x. split; [|assumption].
        destruct (in_dec Z.eq_dec x added) as [Hxa|Hxa]; [assumption|].
        exfalso. apply Hys. now apply (Hclosed x y). }
      destruct added' as [|b0 b] eqn:Eb.
      * exists (seen ++ []). split; [destruct fuel; reflexivity|]. split; [assumption|].
        split; [intros x Hx; apply in_or_app; now left|]. split; [assumption|].
        intros x y Hx Hy. rewrite app_nil_r in Hx. now apply (Hcl x y).
      * destruct (IH n edges seed (seen ++ b0 :: b) (b0 :: b)) as (comp & Hc & Hndc & Hincl & Hj & Hcc); auto.
        -- intros x Hx. apply in_or_app. now right.
        -- intros x y Hx Hxb Hy. apply in_app_or in Hx. destruct Hx as [Hx|Hx]; [|contradiction].
           now apply (Hcl x y).
        -- apply in_or_app. now left.
        -- rewrite app_length. simpl. lia.
        -- exists comp. split; [assumption|]. split; [assumption|]. split; [|split; assumption].
           intros x Hx. apply Hincl. apply in_or_app. now left.
Qed.

Lemma joined_closed : forall edges (P : Z -> Prop),
  (forall x y, P x -> In y (neighbours edges x) -> P y) ->
  forall x y, joined edges x y -> (P x <-> P y).
Proof.
  intros edges P HP x y H. induction H as [x y (i & Hi)|x|x y H IH|x y z H1 IH1 H2 IH2].
  - split; intro HPx.
    + apply (HP x y HPx). apply neighbours_In. eauto.
    + apply (HP y x HPx). apply neighbours_In. eauto.
  - tauto.
  - tauto.
  - tauto.
Qed.

Lemma dfs_component : forall n edges seed, in_range n edges -> 0 <= seed < n ->
  exists comp, dfs (S (Z.to_nat n)) edges [seed] [seed] = Ok comp /\ NoDup comp /\
    (forall x, In x comp <-> joined edges seed x) /\ (forall x, In x comp -> 0 <= x < n).
Proof.
  intros n edges seed Hr Hs.
  destruct (dfs_ok (S (Z.to_nat n)) n edges seed [seed] [seed]) as (comp & Hc & Hnd & Hincl & Hj & Hcl); auto.
  - repeat constructor; auto.
  - intros x [<-|[]]. split; [lia|]. apply rst_refl.
  - intros x y Hx Hnx. contradiction.
  - now left.
  - simpl. lia.
  - exists comp. split; [assumption|]. split; [assumption|]. split; [|intros; now apply Hj].
    intro x. split; [intro Hx; now apply Hj|].
    intro Hx. apply (joined_closed edges (fun z => In z comp) Hcl seed x Hx). apply Hincl. now left.
Qed.

Lemma components_loop_ok : forall fuel pick n edges rest,
  (forall l, l <> [] -> In (pick l) l) -> in_range n edges -> NoDup rest ->
  (forall x, In x rest -> 0 <= x < n) ->
  (forall x y, joined edges x y -> In x rest -> In y rest) ->
  (length rest <= fuel)%nat ->
  exists comps, components_loop fuel pick n edges rest = Ok comps /\
    Permutation (concat comps) rest /\
    (forall c, In c comps -> exists s, In s rest /\ NoDup c /\ forall y, In y c <-> joined edges s y).
Proof.
  induction fuel as [|fuel IH]; intros pick n edges rest Hpick Hr Hnd Hrange Hcl Hlen.
  - destruct rest; [|simpl in Hlen; lia]. exists []. simpl. split; [reflexivity|]. split; [constructor|]. intros c [].
  - destruct rest as [|r0 rest0] eqn:Er.
    + exists []. simpl. split; [reflexivity|]. split; [constructor|]. intros c [].
    + rewrite <- Er in *.
      assert (Hps : In (pick rest) rest) by (apply Hpick; rewrite Er; discriminate).
      destruct (dfs_component n edges (pick rest) Hr (Hrange _ Hps)) as (comp & Hdfs & Hndc & Hcomp & Hcr).
      set (rest' := filter (fun x => negb (memz x comp)) rest).
      assert (Hin' : forall x, In x rest' <-> In x rest /\ ~ In x comp).
      { intro x. unfold rest'. rewrite filter_In, negb_true_iff, memz_notIn. tauto. }
      assert (Hsub : incl comp rest).
      { intros x Hx. apply Hcomp in Hx. now apply (Hcl (pick rest) x). }
      assert (Hperm : Permutation rest (comp ++ rest')).
      { apply NoDup_Permutation; [assumption| |].
        - apply NoDup_app_intro; [assumption|now apply NoDup_filter|].
          intros x Hx Hx'. apply Hin' in Hx'. tauto.
        - intro x. rewrite in_app_iff, Hin'. specialize (Hsub x).
          destruct (in_dec Z.eq_dec x comp); tauto. }
      destruct (IH pick n edges rest') as (comps & Hc & Hp & Hcs); auto.
      * now apply NoDup_filter.
      * intros x Hx. apply Hin' in Hx. now apply Hrange.
      * intros x y Hxy Hx. apply Hin' in Hx. destruct Hx as [Hx1 Hx2]. apply Hin'. split.
        -- now apply (Hcl x y).
        -- intro Hy. apply Hx2. apply Hcomp. apply Hcomp in Hy.
           apply rst_trans with y; [assumption|now apply rst_sym].
      * apply Permutation_length in Hperm. rewrite app_length in Hperm.
        assert (In (pick rest) comp) by (apply Hcomp, rst_refl).
        destruct comp; [contradiction|]. simpl in Hperm. lia.
      * exists (comp :: comps). split.
        -- assert (E : components_loop (S fuel) pick n edges rest =
             (do comp <- dfs (S (Z.to_nat n)) edges [pick rest] [pick rest];
              do comps <- components_loop fuel pick n edges (filter (fun x => negb (memz x comp)) rest);
              Ok (comp :: comps))) by (rewrite Er; reflexivity).
           rewrite E, Hdfs. cbn [rbind]. fold rest'. rewrite Hc. reflexivity.
        -- split.
           ++ simpl. apply Permutation_sym. eapply Permutation_trans; [exact Hperm|].
              apply Permutation_app_head, Permutation_sym, Hp.
           ++ intros c [<-|Hc'].
              ** exists (pick rest). auto.
              ** destruct (Hcs c Hc') as (s & Hs & H1 & H2). exists s. split; [|auto].
                 apply Hin' in Hs. tauto.
Qed.

(* ---------- C48 ---------- *)
(* The edge list is exactly the graph of the operators, without repetition. *)
Theorem C48_edges : forall n rank f,
  NoDup (cedges n rank f) /\
  forall x y i, In (x, y, i) (cedges n rank f) <-> 0 <= x < n /\ 0 <= i < rank /\ f x i = Some y.
Proof.
  intros n rank f. split.
  - unfold cedges. apply NoDup_flat_map.
    + apply NoDup_zrange.
    + intros x _. apply NoDup_flat_map.
      * apply NoDup_zrange.
      * intros i _. destruct (f x i); repeat constructor; auto.
      * intros i j b _ _ Hi Hj. destruct (f x i); [|contradiction]. destruct (f x j); [|contradiction].
        destruct Hi as [<-|[]]. destruct Hj as [E|[]]. congruence.
    + intros x y b _ _ Hx Hy. apply in_flat_map in Hx. apply in_flat_map in Hy.
      destruct Hx as (i & _ & Hi). destruct Hy as (j & _ & Hj).
      destruct (f x i); [|contradiction]. destruct (f y j); [|contradiction].
      destruct Hi as [<-|[]]. destruct Hj as [E|[]]. congruence.
  - intros x y i. unfold cedges. rewrite in_flat_map. split.
    + intros (x' & Hx & H). apply in_flat_map in H. destruct H as (i' & Hi & H).
      apply In_zrange in Hx. apply In_zrange in Hi.
      destruct (f x' i') eqn:E; [|contradiction]. destruct H as [H|[]]. injection H as <- <- <-. auto.
    + intros (Hx & Hi & E). exists x. split; [now apply In_zrange|]. apply in_flat_map. exists i.
      split; [now apply In_zrange|]. rewrite E. now left.
Qed.

(* Whatever element set.pop() returns, the result lists every vertex exactly once, no component is
   empty, and two vertices are in a common component iff they are joined by a path. *)
Theorem C48_components : forall pick n edges,
  (forall l, l <> [] -> In (pick l) l) ->
  (forall x y i, In (x, y, i) edges -> 0 <= x < n /\ 0 <= y < n) ->
  exists comps, components pick n edges = Ok comps /\
    Permutation (concat comps) (zrange 0 n) /\
    (forall c, In c comps -> c <> []) /\
    (forall x y, 0 <= x < n -> 0 <= y < n ->
       ((exists c, In c comps /\ In x c /\ In y c) <-> joined edges x y)).
Proof.
  intros pick n edges Hpick Hr.
  destruct (components_loop_ok (Z.to_nat n) pick n edges (zrange 0 n)) as (comps & Hc & Hp & Hcs); auto.
  - apply NoDup_zrange.
  - intros x Hx. now apply In_zrange.
  - intros x y Hxy Hx. apply In_zrange in Hx. apply In_zrange.
    assert (Hall : 0 <= x < n <-> 0 <= y < n).
    { apply (joined_closed edges (fun z => 0 <= z < n)); [|assumption].
      intros a b _ Hb. apply neighbours_In in Hb. destruct Hb as (i & [Hb|Hb]); apply Hr in Hb; tauto. }
    tauto.
  - rewrite length_zrange. lia.
  - exists comps. split; [exact Hc|]. split; [assumption|]. split.
    + intros c Hin E. destruct (Hcs c Hin) as (s & Hs & Hnd & Hj). subst c. apply (Hj s). apply rst_refl.
    + intros x y Hx Hy. split.
      * intros (c & Hin & Hxc & Hyc). destruct (Hcs c Hin) as (s & Hs & Hnd & Hj).
        apply Hj in Hxc. apply Hj in Hyc. apply rst_trans with s; [now apply rst_sym|assumption].
      * intro Hxy.
        assert (Hxin : In x (concat comps)).
        { apply (Permutation_in _ (Permutation_sym Hp)). now apply In_zrange. }
        apply in_concat in Hxin. destruct Hxin as (c & Hin & Hxc).
        exists c. split; [assumption|]. split; [assumption|].
        destruct (Hcs c Hin) as (s & Hs & Hnd & Hj). apply Hj. apply Hj in Hxc.
        apply rst_trans with x; assumption.
Qed.

Example C48_example :
  let edges := cedges 6 2 (fun x i => if (x =? 0) && (i =? 0) then Some 3 else
                                      if (x =? 3) && (i =? 1) then Some 5 else
                                      if (x =? 4) && (i =? 0) then Some 1 else None) in
  edges = [(0, 3, 0); (3, 5, 1); (4, 1, 0)] /\
  components (fun l => last l 0) 6 edges = Ok [[5; 3; 0]; [4; 1]; [2]].
Proof. split; reflexivity. Qed.

(* ---------- C50: strings ---------- *)
(* a maximal chain x, f x, f (f x), ... *)
Fixpoint f_chain (f : Z -> option Z) (l : list Z) : Prop :=
  match l with
  | [] => False
  | x :: l' => match l' with [] => f x = None | y :: _ => f x = Some y /\ f_chain f l' end
  end.

Section Strings.
  Variable n : Z.
  Variables e f : Z -> option Z.
  Hypothesis Hf : forall x y, 0 <= x < n -> f x = Some y -> 0 <= y < n /\ e y = Some x.
  Hypothesis He : forall x y, 0 <= y < n -> e y = Some x -> 0 <= x < n /\ f x = Some y.

  Lemma istring_ok : forall fuel x pre,
    0 <= x < n -> NoDup (pre ++ [x]) -> (forall y, In y pre -> 0 <= y < n) ->
    (* pre is the part of the string already written: it starts at a source and is a chain *)
    (forall y z, In y (pre ++ [x]) -> e y = Some z -> In z pre) ->
    (Z.to_nat n < fuel + S (length pre))%nat ->
    exists l, istring_loop fuel f x = Ok l /\ f_chain f l /\ hd_error l = Some x /\ NoDup (pre ++ l) /\
      forall y, In y l -> 0 <= y < n.
  Proof.
    induction fuel as [|fuel IH]; intros x pre Hx Hnd Hpre Hpred Hfuel.
    - exfalso. assert (Hle : (length (pre ++ [x]) <= length (zrange 0 n))%nat).
      { apply NoDup_incl_length; [assumption|]. intros y Hy. apply In_zrange.
        apply in_app_or in Hy. destruct Hy as [Hy|[<-|[]]]; auto. }
      rewrite length_zrange, app_length in Hle. simpl in Hle. lia.
    - cbn [istring_loop]. destruct (f x) as [y|] eqn:E.
      + destruct (Hf x y Hx E) as [Hy Hey].
        assert (Hny : ~ In y (pre ++ [x])).
        { intro Hin. assert (Hxp : In x pre) by (apply (Hpred y x); assumption).
          apply NoDup_remove_2 in Hnd. apply Hnd. rewrite app_nil_r. assumption. }
        destruct (IH y (pre ++ [x])) as (l & Hl & Hch & Hhd & Hndl & Hr).
        * assumption.
        * apply NoDup_app_intro; [assumption|repeat constructor; auto|]. intros z Hz [<-|[]]. contradiction.
        * intros z Hz. apply in_app_or in Hz. destruct Hz as [Hz|[<-|[]]]; auto.
        * intros z t Hz Ht. apply in_app_or in Hz. destruct Hz as [Hz|[<-|[]]].
          -- apply in_or_app. left. now apply (Hpred z t).
          -- apply in_or_app. right. left. congruence.
        * rewrite app_length. simpl. lia.
        * exists (x :: l). rewrite Hl. split; [reflexivity|]. split.
          -- destruct l as [|y' l']; [contradiction|]. simpl in Hhd. injection Hhd as ->. simpl in Hch |- *. auto.
          -- split; [reflexivity|]. split; [rewrite <- app_assoc in Hndl; exact Hndl|].
             intros z [<-|Hz]; auto.
      + exists [x]. split; [reflexivity|]. split; [exact E|]. split; [reflexivity|]. split; [assumption|].
        intros z [<-|[]]. assumption.
  Qed.

  (* membership in a chain is determined backwards *)
  Lemma f_chain_back : forall l y z, f_chain f l -> (forall x, In x l -> 0 <= x < n) -> In y l -> e y = Some z ->
    (hd_error l <> Some y) -> In z l.
  Proof.
    induction l as [|a l IH]; intros y z Hch Hr Hy Hz Hhd; [contradiction|].
    destruct Hy as [<-|Hy]; [simpl in Hhd; congruence|].
    destruct l as [|b l']; [contradiction|]. destruct Hch as [Hab Hch].
    destruct (Z.eq_dec b y) as [->|Hby].
    - left. destruct (Hf a y) as [_ H]; [apply Hr; now left|assumption|]. congruence.
    - right. apply (IH y z); auto.
      + intros x Hx. apply Hr. now right.
      + simpl. congruence.
  Qed.
  Lemma f_chain_fwd : forall l y z, f_chain f l -> In y l -> f y = Some z -> In z l.
  Proof.
    induction l as [|a l IH]; intros y z Hch Hy Hz; [contradiction|].
    destruct l as [|b l'].
    - destruct Hy as [<-|[]]. simpl in Hch. congruence.
    - destruct Hch as [Hab Hch]. destruct Hy as [<-|Hy].
      + right. left. congruence.
      + right. now apply (IH y z).
  Qed.

  Lemma f_chain_same_head : forall l1 l2, f_chain f l1 -> f_chain f l2 -> hd_error l1 = hd_error l2 -> l1 = l2.
  Proof.
    induction l1 as [|a l1 IH]; intros l2 H1 H2 Hh; [contradiction|].
    destruct l2 as [|a' l2]; [discriminate|]. simpl in Hh. injection Hh as <-. f_equal.
    destruct l1 as [|b l1], l2 as [|b' l2]; auto.
    - simpl in H1. destruct H2 as [H2 _]. congruence.
    - simpl in H2. destruct H1 as [H1 _]. congruence.
    - destruct H1 as [H1 H1']. destruct H2 as [H2 H2']. apply IH; auto. simpl. congruence.
  Qed.
  Lemma f_chain_nonempty : forall l, f_chain f l -> exists x, hd_error l = Some x.
  Proof. destruct l; simpl; [contradiction|]. eauto. Qed.

  Lemma two_chains_meet : forall l1 l2 y, f_chain f l1 -> f_chain f l2 ->
    (forall x, In x l1 -> 0 <= x < n) -> (forall x, In x l2 -> 0 <= x < n) ->
    (forall x, hd_error l1 = Some x -> e x = None) -> (forall x, hd_error l2 = Some x -> e x = None) ->
    In y l1 -> In y l2 -> l1 = l2.
  Proof.
    intros l1 l2. revert l1.
    assert (H : forall l1 pre, forall y, f_chain f l2 -> (forall x, In x l2 -> 0 <= x < n) ->
       (forall x, hd_error l2 = Some x -> e x = None) ->
       f_chain f (pre ++ l1) -> (forall x, In x (pre ++ l1) -> 0 <= x < n) -> In y l1 -> In y l2 ->
       forall x, hd_error l1 = Some x -> In x l2).
    { induction l1 as [|a l1 IH]; intros pre y Hc2 Hr2 Hs2 Hc1 Hr1 Hy1 Hy2 x Hx; [discriminate|].
      simpl in Hx. injection Hx as <-.
      destruct Hy1 as [->|Hy1]; [assumption|].
      destruct l1 as [|b l1]; [contradiction|].
      assert (Hb : In b l2).
      { apply (IH (pre ++ [a]) y); auto.
        - rewrite <- app_assoc. exact Hc1.
        - intros z Hz. apply Hr1. rewrite <- app_assoc in Hz. exact Hz. }
      assert (Hab : f a = Some b).
      { clear - Hc1. induction pre as [|p pre IHp]; simpl in Hc1.
        - tauto.
        - destruct (pre ++ a :: b :: l1) eqn:E; [destruct pre; discriminate|]. apply IHp. tauto. }
      destruct (Hf a b) as [_ Heb]; [apply Hr1; apply in_or_app; right; now left|assumption|].
      apply (f_chain_back l2 b a); auto. intro Hh. apply Hs2 in Hh. congruence. }
    intros l1 y H1 H2 Hr1 Hr2 Hs1 Hs2 Hy1 Hy2.
    apply f_chain_same_head; [assumption|assumption|].
    destruct (f_chain_nonempty l1 H1) as (x1 & Hx1).
    rewrite Hx1. assert (Hin : In x1 l2) by (apply (H l1 [] y); auto).
    destruct l2 as [|x2 l2']; [contradiction|]. simpl. f_equal.
    destruct Hin as [->|Hin]; [reflexivity|].
    exfalso. pose proof (Hs1 _ Hx1) as Hnone.
    assert (Hpred : exists z, f z = Some x1 /\ 0 <= z < n).
    { clear - H2 Hin Hr2. revert x2 H2 Hr2. induction l2' as [|b l2' IH]; intros x2 H2 Hr2; [contradiction|].
      destruct H2 as [H2 H2']. destruct Hin as [->|Hin].
      - exists x2. split; [assumption|]. apply Hr2. now left.
      - apply (IH Hin b H2'). intros z Hz. apply Hr2. now right. }
    destruct Hpred as (z & Hz & Hzr). destruct (Hf z x1 Hzr Hz) as [_ Hz']. congruence.
  Qed.
End Strings.

Lemma rmap_ok_all : forall A B (g : A -> res B) (Q : A -> B -> Prop) l,
  (forall a, In a l -> exists b, g a = Ok b /\ Q a b) -> exists bs, rmap g l = Ok bs /\ Forall2 Q l bs.
Proof.
  induction l as [|a l IH]; intro H; simpl; [exists []; split; constructor|].
  destruct (H a) as (b & Hb & Qb); [now left|].
  destruct IH as (bs & Hbs & Qbs); [intros a' Ha'; apply H; now right|].
  rewrite Hb, Hbs. exists (b :: bs). split; [reflexivity|]. constructor; assumption.
Qed.

(* the strings met by a list of sources *)
Definition string_of (n : Z) (e f : Z -> option Z) (x : Z) (s : list Z) : Prop :=
  0 <= x < n /\ e x = None /\ f_chain f s /\ hd_error s = Some x /\ NoDup s /\ forall y, In y s -> 0 <= y < n.

Lemma Forall2_In_r : forall A B (Q : A -> B -> Prop) l l' b, Forall2 Q l l' -> In b l' -> exists a, In a l /\ Q a b.
Proof.
  intros A B Q l l' b HF. induction HF as [|x s l l' HQ HF IH]; intro Hb; [contradiction|].
  destruct Hb as [<-|Hb].
  - exists x. split; [now left|assumption].
  - destruct (IH Hb) as (a & Ha & Hq). exists a. split; [now right|assumption].
Qed.
Lemma Forall2_In_l : forall A B (Q : A -> B -> Prop) l l' a, Forall2 Q l l' -> In a l -> exists b, In b l' /\ Q a b.
Proof.
  intros A B Q l l' b HF. induction HF as [|x s l l' HQ HF IH]; intro Hb; [contradiction|].
  destruct Hb as [<-|Hb].
  - exists s. split; [now left|assumption].
  - destruct (IH Hb) as (a & Ha & Hq). exists a. split; [now right|assumption].
Qed.

Lemma strings_NoDup : forall n e f, (forall x y, 0 <= x < n -> f x = Some y -> 0 <= y < n /\ e y = Some x) ->
  forall l l', Forall2 (string_of n e f) l l' -> NoDup l -> NoDup (concat l').
Proof.
  intros n e f Hf l l' HF. induction HF as [|x s l l' HQ HF IH]; intro Hnd; simpl; [constructor|].
  inversion Hnd as [|x0 l0 Hn Hnd']; subst. apply NoDup_app_intro; [apply HQ|now apply IH|].
  intros y Hy Hy'. apply in_concat in Hy'. destruct Hy' as (t & Ht & Hyt).
  destruct (Forall2_In_r _ _ _ _ _ _ HF Ht) as (x' & Hx' & Hr' & He' & Hch' & Hhd' & Hnd2 & Hrr').
  destruct HQ as (Hr & Hex & Hch & Hhd & Hnd1 & Hrr).
  assert (s = t).
  { apply (two_chains_meet n e f Hf s t y); auto.
    - intros z Hz. rewrite Hhd in Hz. congruence.
    - intros z Hz. rewrite Hhd' in Hz. congruence. }
  subst t. apply Hn. congruence.
Qed.

Lemma finite_lower_bound : forall (wt : Z -> Z) l, exists m, forall x, In x l -> m <= wt x.
Proof.
  intros wt l. induction l as [|a l (m & Hm)].
  - exists 0. intros x [].
  - exists (Z.min m (wt a)). intros x [<-|Hx]; [lia|]. specialize (Hm x Hx). lia.
Qed.

(* When raising and lowering operators are mutually inverse partial maps on 0..n-1, istrings
   terminates; the result lists exactly the maximal f-chains starting at a vertex killed by e; no
   vertex is listed twice.  If moreover f increases some statistic (so that there is no f-cycle),
   every vertex is listed exactly once. *)
Theorem C50_istrings : forall n e f,
  (forall x y, 0 <= x < n -> f x = Some y -> 0 <= y < n /\ e y = Some x) ->
  (forall x y, 0 <= y < n -> e y = Some x -> 0 <= x < n /\ f x = Some y) ->
  exists strings,
    istrings n (fun x => match e x with None => true | Some _ => false end) f = Ok strings /\
    (forall s, In s strings <-> f_chain f s /\ exists x, hd_error s = Some x /\ 0 <= x < n /\ e x = None) /\
    NoDup (concat strings) /\
    (forall s x, In s strings -> In x s -> 0 <= x < n) /\
    (forall wt : Z -> Z, (forall x y, 0 <= x < n -> f x = Some y -> wt x < wt y) ->
       Permutation (concat strings) (zrange 0 n)).
Proof.
  intros n e f Hf He.
  set (src := fun x => match e x with None => true | Some _ => false end).
  assert (Hsrc : forall x, In x (filter src (zrange 0 n)) <-> 0 <= x < n /\ e x = None).
  { intro x. rewrite filter_In, In_zrange. unfold src. destruct (e x); split; intros [? ?]; split; auto; discriminate. }
  assert (Hnd : NoDup (filter src (zrange 0 n))) by (apply NoDup_filter, NoDup_zrange).
  destruct (rmap_ok_all Z (list Z) (istring_loop (Z.to_nat n) f) (string_of n e f)
    (filter src (zrange 0 n))) as (strings & Hs & HF).
  { intros x Hx. apply Hsrc in Hx. destruct Hx as [Hx Hex].
    destruct (istring_ok n e f Hf (Z.to_nat n) x []) as (l & Hl & Hch & Hhd & Hndl & Hr); auto.
    - repeat constructor; auto.
    - intros y [].
    - intros y z [<-|[]] Hz. congruence.
    - simpl. lia.
    - exists l. simpl in Hndl. unfold string_of. auto 10. }
  assert (Hin : forall s, In s strings <-> f_chain f s /\ exists x, hd_error s = Some x /\ 0 <= x < n /\ e x = None).
  { intro s. split.
    + intro H. destruct (Forall2_In_r _ _ _ _ _ _ HF H) as (x & _ & Hx & Hex & Hch & Hhd & _).
      split; [assumption|]. exists x. auto.
    + intros (Hch & x & Hhd & Hx & Hex).
      destruct (Forall2_In_l _ _ _ _ _ x HF) as (t & Ht & _ & _ & Hcht & Hhdt & _); [apply Hsrc; auto|].
      replace s with t; [assumption|]. apply (f_chain_same_head f t s); auto. congruence. }
  assert (HN : NoDup (concat strings)) by (apply (strings_NoDup n e f Hf _ _ HF Hnd)).
  assert (HR : forall s x, In s strings -> In x s -> 0 <= x < n).
  { intros s x Hs' Hx. destruct (Forall2_In_r _ _ _ _ _ _ HF Hs') as (x' & _ & _ & _ & _ & _ & _ & H). now apply H. }
  exists strings. split; [exact Hs|]. split; [exact Hin|]. split; [exact HN|]. split; [exact HR|].
  intros wt Hwt. apply NoDup_Permutation; [assumption|apply NoDup_zrange|].
  intro x. rewrite In_zrange. split.
  - intro Hx. apply in_concat in Hx. destruct Hx as (s & Hs' & Hx). now apply (HR s x).
  - destruct (finite_lower_bound wt (zrange 0 n)) as (m & Hm).
    assert (Hind : forall k x, 0 <= x < n -> (Z.to_nat (wt x - m) < k)%nat -> In x (concat strings)).
    { induction k as [|k IH]; intros y Hy Hk; [lia|].
      destruct (e y) as [z|] eqn:E.
      - destruct (He z y Hy E) as [Hz Hfz]. specialize (Hwt z y Hz Hfz).
        assert (m <= wt z) by (apply Hm; now apply In_zrange).
        specialize (IH z Hz). apply in_concat in IH; [|lia].
        destruct IH as (s & Hs' & Hzs). apply in_concat. exists s. split; [assumption|].
        apply (f_chain_fwd f s z y); auto. now apply Hin in Hs'.
      - destruct (Forall2_In_l _ _ _ _ _ y HF) as (t & Ht & _ & _ & Hcht & Hhdt & _); [apply Hsrc; auto|].
        apply in_concat. exists t. split; [assumption|]. destruct t; [discriminate|]. simpl in Hhdt. left. congruence. }
    intro Hx. apply (Hind (S (Z.to_nat (wt x - m))) x Hx). lia.
Qed.

Example C50_example :
  istrings 5 (fun x => match (if x =? 3 then Some 0 else if x =? 1 then Some 3 else None) with None => true | Some _ => false end)
    (fun x => if x =? 0 then Some 3 else if x =? 3 then Some 1 else None) = Ok [[0; 3; 1]; [2]; [4]].
Proof. reflexivity. Qed.

(* The inverse hypothesis is needed: with a vertex fixed by f, the loop never ends. *)
Theorem C50_istrings_diverges : forall fuel, istring_loop fuel (fun x => Some x) 0 = Err OutOfFuel.
Proof. induction fuel as [|fuel IH]; [reflexivity|]. cbn [istring_loop]. rewrite IH. reflexivity. Qed.

Print Assumptions C48_edges.
Print Assumptions C48_components.
Print Assumptions C50_istrings.
Print Assumptions C50_istrings_diverges.
