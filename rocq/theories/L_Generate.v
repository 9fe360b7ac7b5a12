From Coq Require Import List ZArith Lia Bool Arith.
From Verif Require Import PyBase M_Partitions M_Generate S_Partitions S_Generate L_Partitions L_PartBasic L_PartEnum L_PartMore.
Import ListNotations.
Local Open Scope Z_scope.

(* values produced when the table never holds a 5-tuple key *)
Inductive gvalues : gen -> list (list Z) -> Prop :=
| V_done : gvalues GDone []
| V_yield : forall v g l, gvalues g l -> gvalues (GYield v g) (v :: l)
| V_store : forall n p s e vs g l, gvalues g l -> gvalues (GStore (K4 n p s e) vs g) l
| V_look : forall n p r s e f l, gvalues (f None) l -> gvalues (GLook (K5 n p r s e) f) l.

Definition no5 (t : table) : Prop := forall n p r s e, dget pkey_eqb t (K5 n p r s e) = None.

Lemma oz_eqb_eq : forall a b, oz_eqb a b = true <-> a = b.
Proof.
  intros [a|] [b|]; simpl; split; intro H; try discriminate; try reflexivity.
  - apply Z.eqb_eq in H. congruence.
  - injection H as ->. apply Z.eqb_refl.
Qed.
Lemma pkey_eqb_eq : forall a b, pkey_eqb a b = true <-> a = b.
Proof.
  intros [n p r s e|n p s e] [n' p' r' s' e'|n' p' s' e']; simpl; try (split; intro H; discriminate H);
    rewrite ?andb_true_iff, ?Z.eqb_eq, ?oz_eqb_eq, ?Bool.eqb_true_iff; split.
  - intros ((((-> & ->) & ->) & ->) & ->). reflexivity.
  - intro H. injection H. tauto.
  - intros (((-> & ->) & ->) & ->). reflexivity.
  - intro H. injection H. tauto.
Qed.

Lemma no5_store : forall t n p s e vs, no5 t -> no5 (dset pkey_eqb t (K4 n p s e) vs).
Proof.
  intros t n p s e vs H n' p' r' s' e'. rewrite (dget_dset_other pkey_eqb pkey_eqb_eq) by discriminate. apply H.
Qed.

Lemma gnext_values : forall g l, gvalues g l -> forall t, no5 t ->
  exists t', no5 t' /\
    ((l = [] /\ gnext t g = (t', Finished)) \/
     exists v l' g', l = v :: l' /\ gvalues g' l' /\ gnext t g = (t', Yielded v g')).
Proof.
  intros g l H. induction H as [|v g l H IH|n p s e vs g l H IH|n p r s e f l H IH]; intros t Ht; simpl.
  - exists t. split; [assumption|]. left. auto.
  - exists t. split; [assumption|]. right. exists v, l, g. auto.
  - apply IH. apply no5_store. assumption.
  - rewrite Ht. apply IH. assumption.
Qed.

Lemma gfor_values : forall S g l, gvalues g l -> forall (body : S -> list Z -> (S -> gen) -> gen) (out : list Z -> list (list Z))
   (upd : S -> list Z -> S),
  (forall s v k l', gvalues (k (upd s v)) l' -> gvalues (body s v k) (out v ++ l')) ->
  forall s k l', gvalues (k (fold_left upd l s)) l' -> gvalues (gfor g body s k) (flat_map out l ++ l').
Proof.
  intros S g l H. induction H as [|v g l H IH|n p st e vs g l H IH|n p r st e f l H IH]; intros body out upd Hb s k l' Hk; simpl.
  - assumption.
  - rewrite <- app_assoc. apply Hb. apply IH with (upd := upd); assumption.
  - constructor. apply IH with (upd := upd); assumption.
  - constructor. apply IH with (upd := upd); assumption.
Qed.

Lemma gloop_values : forall S (body : S -> Z -> (S -> gen) -> gen) (out : Z -> list (list Z)) (upd : S -> Z -> S) l,
  (forall i s k l', In i l -> gvalues (k (upd s i)) l' -> gvalues (body s i k) (out i ++ l')) ->
  forall s k l', gvalues (k (fold_left upd l s)) l' -> gvalues (gloop l body s k) (flat_map out l ++ l').
Proof.
  intros S body out upd. induction l as [|i l IH]; intros Hb s k l' Hk; simpl; [assumption|].
  rewrite <- app_assoc. apply Hb; [left; reflexivity|]. apply IH; [|assumption]. intros. apply Hb; [right|]; assumption.
Qed.

(* the values as a plain list *)
Fixpoint gl (fuel : nat) (n : Z) (mp mr : option Z) (strict even : bool) : list (list Z) :=
  match fuel with
  | O => []
  | S fuel' =>
      if n =? 0 then [[]]
      else if 0 <? clip n mr then
        flat_map (fun i => if even && negb (i mod 2 =? 0) then []
                           else flat_map (fun mu => if negb strict || is_strict_partition (i :: mu) then [i :: mu] else [])
                                  (gl fuel' (n - i) (Some i) (Some (clip n mr - 1)) strict even))
                 (zrange 1 (clip n mp + 1))
      else []
  end.

Lemma clip_le : forall n x, clip n x <= n.
Proof. intros n [m|]; simpl; [destruct (n <? m) eqn:E; [|apply Z.ltb_ge in E]; lia|lia]. Qed.

Lemma generate_values : forall fuel n mp mr strict even, (Z.to_nat n < fuel)%nat ->
  gvalues (generate fuel n mp mr strict even) (gl fuel n mp mr strict even).
Proof.
  induction fuel as [|fuel IH]; intros n mp mr strict even Hf; [lia|]. cbn [generate gl].
  destruct (n =? 0) eqn:E0; [repeat constructor|]. apply Z.eqb_neq in E0. constructor.
  destruct (0 <? clip n mr) eqn:E1; [|repeat constructor].
  match goal with |- gvalues (gloop ?l ?b ?s ?k) (flat_map ?o ?l) => rewrite <- (app_nil_r (flat_map o l)) end.
  set (upd1 := fun (i : Z) (ans : list (list Z)) (mu : list Z) => if negb strict || is_strict_partition (i :: mu) then ans ++ [i :: mu] else ans).
  apply gloop_values with (upd := fun ans i => if even && negb (i mod 2 =? 0) then ans
     else fold_left (upd1 i) (gl fuel (n - i) (Some i) (Some (clip n mr - 1)) strict even) ans).
  - intros i ans k l' Hi Hk. apply In_zrange in Hi. pose proof (clip_le n mp).
    destruct (even && negb (i mod 2 =? 0)); [assumption|].
    apply gfor_values with (upd := upd1 i); [apply IH; lia| |assumption].
    intros s v k0 l0 Hk0. unfold upd1 in Hk0. destruct (negb strict || is_strict_partition (i :: v)); [|assumption].
    simpl. constructor. assumption.
  - repeat constructor.
Qed.

(* ---- which partitions are produced ---- *)
Lemma is_strict_partition_spec : forall nu, Forall (fun a => 0 < a) nu -> (is_strict_partition nu = true <-> strict_partition nu).
Proof.
  intros nu Hp. unfold is_strict_partition. rewrite forallb_forall. split.
  - intro H. split; [assumption|]. intros i Hi. specialize (H (Z.of_nat (S i))). rewrite In_zrange in H.
    specialize (H ltac:(unfold zlen; lia)). apply Z.ltb_lt in H. replace (Z.of_nat (S i) - 1) with (Z.of_nat i) in H by lia.
    rewrite !nthz_row in H. assumption.
  - intros [_ H] x Hx. apply In_zrange in Hx. apply Z.ltb_lt. specialize (H (Z.to_nat (x - 1))).
    unfold zlen in Hx. rewrite !nthz_row'. replace (Z.to_nat x) with (S (Z.to_nat (x - 1))) by lia. apply H. lia.
Qed.

Lemma partition_cons : forall a mu, partition (a :: mu) <-> 0 < a /\ row mu 0 <= a /\ partition mu.
Proof.
  intros a mu. split.
  - intro H. pose proof (partition_tail _ _ H). destruct H as [Hp Hd]. inversion Hp; subst. split; [assumption|].
    split; [exact (Hd O)|assumption].
  - intros (H1 & H2 & H3 & H4). split; [constructor; assumption|]. intros [|i]; [exact H2|apply H4].
Qed.

Lemma partition_bound : forall mu m, partition mu -> (Forall (fun a => a <= m) mu <-> (mu = [] \/ row mu 0 <= m)).
Proof.
  intros mu m H. split.
  - intro F. destruct mu; [left; reflexivity|]. right. inversion F; subst. assumption.
  - intros [->|Hr]; [constructor|]. apply Forall_forall. intros x Hx. apply In_nth with (d := 0) in Hx.
    destruct Hx as (i & _ & <-). change (row mu i <= m). pose proof (row_decr mu (proj2 H) 0%nat i ltac:(lia)). lia.
Qed.

Lemma size_pos_nonneg : forall mu, Forall (fun a => 0 < a) mu -> 0 <= size mu.
Proof. intros. rewrite size_zsum. apply zsum_pos_nonneg. assumption. Qed.
Lemma size_len : forall mu, Forall (fun a => 0 < a) mu -> zlen mu <= size mu.
Proof. induction mu as [|a mu IH]; intro H; [unfold zlen; simpl; lia|]. inversion H; subst. rewrite zlen_cons. simpl. specialize (IH H3). lia. Qed.
Lemma size_zero_nil : forall mu, Forall (fun a => 0 < a) mu -> size mu = 0 -> mu = [].
Proof. intros [|a mu] H E; [reflexivity|]. inversion H; subst. pose proof (size_pos_nonneg mu H3). simpl in E. lia. Qed.

Lemma gl_spec : forall fuel n mp mr strict even mu, (Z.to_nat n < fuel)%nat -> le_opt 0 mr ->
  (In mu (gl fuel n mp mr strict even) <-> wanted n mp mr strict even mu).
Proof.
  induction fuel as [|fuel IH]; intros n mp mr strict even mu Hf Hmr; [lia|]. cbn [gl].
  destruct (n =? 0) eqn:E0.
  { apply Z.eqb_eq in E0. subst n. split.
    - intros [<-|[]]. split; [split; [constructor|intro; rewrite !row_nil; lia]|]. split; [reflexivity|]. split; [constructor|].
      split; [exact Hmr|]. split; intros _; [split; [constructor|intros i Hi; simpl in Hi; lia]|constructor].
    - intros (Hp & Hs & _). left. symmetry. apply size_zero_nil; [apply Hp|assumption]. }
  apply Z.eqb_neq in E0.
  assert (Hin : In mu (if 0 <? clip n mr then
        flat_map (fun i => if even && negb (i mod 2 =? 0) then []
                           else flat_map (fun mu => if negb strict || is_strict_partition (i :: mu) then [i :: mu] else [])
                                  (gl fuel (n - i) (Some i) (Some (clip n mr - 1)) strict even))
                 (zrange 1 (clip n mp + 1)) else []) <->
      0 < clip n mr /\ exists i m, mu = i :: m /\ 1 <= i <= clip n mp /\ (even = true -> i mod 2 = 0) /\
        wanted (n - i) (Some i) (Some (clip n mr - 1)) strict even m /\ (strict = true -> is_strict_partition (i :: m) = true)).
  { destruct (0 <? clip n mr) eqn:E1; [apply Z.ltb_lt in E1|apply Z.ltb_ge in E1; split; [intros []|lia]].
    rewrite in_flat_map. pose proof (clip_le n mp). split.
    - intros (i & Hi & H1). apply In_zrange in Hi. split; [assumption|].
      destruct (even && negb (i mod 2 =? 0)) eqn:E2; [destruct H1|]. apply in_flat_map in H1. destruct H1 as (m & Hm & H1).
      destruct (negb strict || is_strict_partition (i :: m)) eqn:E3; [|destruct H1]. destruct H1 as [<-|[]].
      exists i, m. split; [reflexivity|]. split; [lia|]. split.
      { intro Q. rewrite Q in E2. simpl in E2. apply negb_false_iff, Z.eqb_eq in E2. assumption. }
      split; [apply IH in Hm; [assumption|lia|simpl; lia]|]. intro Q. rewrite Q in E3. exact E3.
    - intros (_ & i & m & -> & Hi & Hev & Hw & Hst). exists i. split; [apply In_zrange; lia|].
      replace (even && negb (i mod 2 =? 0)) with false.
      2:{ symmetry. destruct even; [|reflexivity]. simpl. rewrite (Hev eq_refl). reflexivity. }
      apply in_flat_map. exists m. split; [apply IH; [lia|simpl; lia|assumption]|].
      replace (negb strict || is_strict_partition (i :: m)) with true.
      + left. reflexivity.
      + symmetry. destruct strict; [simpl; auto|reflexivity]. }
  rewrite Hin. clear Hin. split.
  - intros (H1 & i & m & -> & Hi & Hev & (W1 & W2 & W3 & W4 & W5 & W6) & Hst).
    assert (Hrow : row m 0 <= i).
    { apply (partition_bound m i W1) in W3. destruct W3 as [->|]; [rewrite row_nil; lia|assumption]. }
    assert (Hpc : partition (i :: m)) by (apply partition_cons; split; [lia|]; split; assumption).
    split; [assumption|]. split; [simpl; lia|]. split; [|split; [|split]].
    + destruct mp as [p|]; [|apply Forall_forall; intros; exact I]. simpl in Hi |- *.
      apply (partition_bound (i :: m) p Hpc). right. change (i <= p). destruct (n <? p) eqn:Q; [apply Z.ltb_lt in Q|]; lia.
    + rewrite zlen_cons. simpl in W4. destruct mr as [r|]; simpl in *; [|exact I].
      destruct (n <? r) eqn:Q; [apply Z.ltb_lt in Q|]; lia.
    + intro Q. apply is_strict_partition_spec; [apply Hpc|]. auto.
    + intro Q. constructor; auto.
  - intros (Hp & Hs & Hmp & Hr & Hst & Hev). destruct mu as [|i m]; [simpl in Hs; lia|].
    apply partition_cons in Hp. destruct Hp as (P1 & P2 & P3). simpl in Hs.
    pose proof (size_pos_nonneg m (proj1 P3)). pose proof (size_len m (proj1 P3)). rewrite zlen_cons in Hr. pose proof (zlen_nonneg _ m).
    assert (Hclip : zlen m + 1 <= clip n mr). { destruct mr as [r|]; simpl in *; [destruct (n <? r) eqn:Q; [apply Z.ltb_lt in Q|]; lia|lia]. }
    split; [lia|]. exists i, m. split; [reflexivity|]. split.
    { split; [lia|]. inversion Hmp as [|? ? Hmp1 _]; subst. destruct mp as [p|]; simpl in *; [destruct (size m + i <? p) eqn:Q; destruct (i + size m <? p) eqn:Q2|]; lia. }
    split; [intro Q; specialize (Hev Q); inversion Hev; assumption|]. split.
    + split; [assumption|]. split; [lia|]. split; [|split; [simpl; lia|split]].
      * apply (partition_bound m i P3). right. assumption.
      * intro Q. apply (strict_tail i). auto.
      * intro Q. specialize (Hev Q). inversion Hev; assumption.
    + intro Q. apply is_strict_partition_spec; [constructor; [assumption|apply P3]|]. auto.
Qed.

Lemma gl_NoDup : forall fuel n mp mr strict even, NoDup (gl fuel n mp mr strict even).
Proof.
  induction fuel as [|fuel IH]; intros n mp mr strict even; [constructor|]. cbn [gl].
  destruct (n =? 0); [repeat constructor; intros []|]. destruct (0 <? clip n mr); [|constructor].
  apply NoDup_flat_map; [apply NoDup_zrange| |].
  - intros i _. destruct (even && negb (i mod 2 =? 0)); [constructor|]. apply NoDup_flat_map; [apply IH| |].
    + intros m _. destruct (_ || _); [repeat constructor; intros []|constructor].
    + intros x y b _ _ H1 H2. destruct (negb strict || is_strict_partition (i :: x)); [|destruct H1].
      destruct (negb strict || is_strict_partition (i :: y)); [|destruct H2]. destruct H1 as [<-|[]]. destruct H2 as [E|[]]. congruence.
  - assert (Hd : forall i b, In b (if even && negb (i mod 2 =? 0) then [] else flat_map (fun mu => if negb strict || is_strict_partition (i :: mu) then [i :: mu] else [])
       (gl fuel (n - i) (Some i) (Some (clip n mr - 1)) strict even)) -> hd 0 b = i).
    { intros i b H. destruct (even && negb (i mod 2 =? 0)); [destruct H|]. apply in_flat_map in H. destruct H as (m & _ & H).
      destruct (negb strict || is_strict_partition (i :: m)); [|destruct H]. destruct H as [<-|[]]. reflexivity. }
    intros x y b _ _ H1 H2. apply Hd in H1. apply Hd in H2. congruence.
Qed.

(* ---- calls ---- *)
Definition call_list (c : pcall) : list (list Z) :=
  match c with
  | CGenerate n p r s e => gl (S (Z.to_nat n)) n p r s e
  | CAll n p r s e => flat_map (fun i => gl (S (Z.to_nat i)) i p r s e) (zrange 0 (n + 1))
  end.

Lemma gen_of_values : forall c, gvalues (gen_of c) (call_list c).
Proof.
  intros [n p r s e|n p r s e]; unfold gen_of, call_list.
  - apply generate_values. lia.
  - rewrite <- (app_nil_r (flat_map _ _)).
    apply gloop_values with (upd := fun u _ => u); [|constructor].
    intros i u k l' _ Hk.
    replace (gl (S (Z.to_nat i)) i p r s e) with (flat_map (fun mu => [mu]) (gl (S (Z.to_nat i)) i p r s e)).
    + apply gfor_values with (upd := fun u _ => u).
      * apply generate_values. lia.
      * intros s0 v k0 l0 H0. simpl. constructor. assumption.
      * replace (fold_left (fun (u0 : unit) (_ : list Z) => u0) (gl (S (Z.to_nat i)) i p r s e) u) with u; [assumption|].
        induction (gl (S (Z.to_nat i)) i p r s e) as [|x l IHl]; [reflexivity|exact IHl].
    + induction (gl (S (Z.to_nat i)) i p r s e) as [|x l IHl]; [reflexivity|]. simpl. rewrite IHl. reflexivity.
Qed.

(* ---- all histories ---- *)
Definition live_ok (x : live) : Prop :=
  match l_status x with
  | Running => exists rest, call_list (l_call x) = l_out x ++ rest /\ gvalues (l_gen x) rest
  | Exhausted => call_list (l_call x) = l_out x
  | Failed _ => False
  end.

Lemma lset_In : forall l i x y, In y (lset l i x) -> y = x \/ In y l.
Proof.
  induction l as [|a l IH]; intros i x y H; [destruct i; destruct H|]. destruct i as [|i]; simpl in H.
  - destruct H as [<-|H]; [left; reflexivity|right; right; assumption].
  - destruct H as [<-|H]; [right; left; reflexivity|]. apply IH in H. destruct H; [left; assumption|right; right; assumption].
Qed.

Lemma prun_ok : forall h, no5 (p_table (prun h)) /\ forall x, In x (p_live (prun h)) -> live_ok x.
Proof.
  intro h. unfold prun.
  assert (G : forall h s, no5 (p_table s) -> (forall x, In x (p_live s) -> live_ok x) ->
    no5 (p_table (fold_left pstep h s)) /\ forall x, In x (p_live (fold_left pstep h s)) -> live_ok x).
  { clear h. induction h as [|a h IH]; intros s Hn Hl; [split; assumption|]. simpl. apply IH.
    - destruct a as [c|i]; simpl; [assumption|]. destruct (nth_error (p_live s) i) as [x|] eqn:Ex; [|assumption].
      destruct (l_status x) eqn:Es; try assumption.
      assert (Hx : live_ok x) by (apply Hl; eapply nth_error_In; eassumption). unfold live_ok in Hx. rewrite Es in Hx.
      destruct Hx as (rest & _ & Hv). destruct (gnext_values _ _ Hv _ Hn) as (t' & Ht' & [(_ & Eg)|(v & l' & g' & _ & _ & Eg)]); rewrite Eg; assumption.
    - destruct a as [c|i]; simpl.
      + intros x Hx. apply in_app_iff in Hx. destruct Hx as [Hx|[<-|[]]]; [auto|]. unfold live_ok. simpl.
        exists (call_list c). split; [reflexivity|]. apply gen_of_values.
      + destruct (nth_error (p_live s) i) as [x|] eqn:Ex; [|assumption].
        destruct (l_status x) eqn:Es; try assumption.
        assert (Hx : live_ok x) by (apply Hl; eapply nth_error_In; eassumption). unfold live_ok in Hx. rewrite Es in Hx.
        destruct Hx as (rest & Hr & Hv). destruct (gnext_values _ _ Hv _ Hn) as (t' & Ht' & [(E & Eg)|(v & l' & g' & E & Hv' & Eg)]); rewrite Eg; simpl.
        * intros y Hy. apply lset_In in Hy. destruct Hy as [->|Hy]; [|auto]. unfold live_ok. simpl. rewrite Hr, E, app_nil_r. reflexivity.
        * intros y Hy. apply lset_In in Hy. destruct Hy as [->|Hy]; [|auto]. unfold live_ok. simpl.
          exists l'. split; [rewrite Hr, E, <- app_assoc; reflexivity|assumption]. }
  apply G; [intros n p r s e; reflexivity|intros x []].
Qed.

Lemma lset_nth : forall l i x, (i < length l)%nat -> nth_error (lset l i x) i = Some x.
Proof.
  induction l as [|a l IH]; intros i x H; [simpl in H; lia|]. destruct i as [|i]; [reflexivity|]. simpl. apply IH. simpl in H. lia.
Qed.

Lemma prun_app : forall h h', prun (h ++ h') = fold_left pstep h' (prun h).
Proof. intros. unfold prun. apply fold_left_app. Qed.

Lemma exhaust : forall rest h i x, nth_error (p_live (prun h)) i = Some x -> l_status x = Running ->
  gvalues (l_gen x) rest ->
  exists y, nth_error (p_live (prun (h ++ repeat (Next i) (S (length rest))))) i = Some y /\
    l_status y = Exhausted /\ l_call y = l_call x.
Proof.
  induction rest as [|v rest IH]; intros h i x Hx Hs Hv.
  - rewrite prun_app. simpl. rewrite Hx, Hs. destruct (prun_ok h) as [Hn _].
    destruct (gnext_values _ _ Hv _ Hn) as (t' & Ht' & [(_ & Eg)|(w & l' & g' & E & _)]); [|discriminate].
    rewrite Eg. simpl. eexists. split; [apply lset_nth; apply nth_error_Some; congruence|]. split; reflexivity.
  - destruct (prun_ok h) as [Hn _].
    destruct (gnext_values _ _ Hv _ Hn) as (t' & Ht' & [(E & _)|(w & l' & g' & E & Hv' & Eg)]); [discriminate|].
    injection E as <- <-.
    set (x1 := {| l_call := l_call x; l_gen := g'; l_out := l_out x ++ [v]; l_status := Running |}).
    destruct (IH (h ++ [Next i]) i x1) as (y & Hy & Hsy & Hcy); [|reflexivity|assumption|].
    + rewrite prun_app. simpl. rewrite Hx, Hs, Eg. simpl. apply lset_nth. apply nth_error_Some. congruence.
    + exists y. split; [|split; assumption]. rewrite <- Hy. f_equal. f_equal. f_equal. simpl length.
      change (repeat (Next i) (S (S (length rest)))) with ([Next i] ++ repeat (Next i) (S (length rest))). apply app_assoc.
Qed.
