(* Involution lengths: a twisted conjugation step at an ascent adds exactly one to
   (neg + pair + length) / 2. *)
From Coq Require Import List ZArith Bool Lia Permutation.
From Verif Require Import PyBase FinSum M_Partitions M_Perm S_Perm L_Perm L_PermLen L_PermWord L_PermDem L_LevelsInst L_PermActs M_PermGroth.
Import ListNotations.
Local Open Scope Z_scope.

Notation cnt := L_PermLen.cnt.
Definition tv (f : Z -> Z) (x : Z) : Z := (if f x =? x then 1 else 0) - (if f x =? - x then 1 else 0).
Definition tr (f : Z -> Z) (n : Z) : Z := zsum (map (tv f) (zrange 1 (n + 1))).

Lemma tr_split : forall f a b, 0 <= a <= b -> tr f b = tr f a + zsum (map (tv f) (zrange (a + 1) (b + 1))).
Proof. intros f a b H. unfold tr. rewrite (zrange_app 1 (a + 1) (b + 1)) by lia. rewrite map_app, zsum_app. reflexivity. Qed.

Lemma zsum_const1 : forall (f : Z -> Z) l, (forall x, In x l -> f x = 1) -> zsum (map f l) = zlen l.
Proof. intros f l. induction l as [|a l IH]; intro H; [reflexivity|]. cbn [map zsum]. rewrite (H a (or_introl eq_refl)). rewrite zlen_cons. 
  rewrite IH by (intros; apply H; right; assumption). lia. Qed.
Lemma zsum_map_ext : forall (f g : Z -> Z) l, (forall x, In x l -> f x = g x) -> zsum (map f l) = zsum (map g l).
Proof. intros f g l H. f_equal. apply map_ext_in. exact H. Qed.

(* reindexing 1..n by the absolute value of a signed permutation of -n..n *)
Lemma abs_perm : forall (s : Z -> Z) n, (forall x, 1 <= x <= n -> 1 <= Z.abs (s x) <= n) -> (forall x y, 1 <= x <= n -> 1 <= y <= n -> Z.abs (s x) = Z.abs (s y) -> x = y) ->
  Permutation (map (fun x => Z.abs (s x)) (zrange 1 (n + 1))) (zrange 1 (n + 1)).
Proof.
  intros s n Hr Hi. apply NoDup_Permutation_bis.
  - apply NoDup_map_inj_in; [|apply NoDup_zrange]. intros x y Hx Hy E. apply In_zrange in Hx, Hy. apply Hi; [lia|lia|exact E].
  - rewrite map_length. lia.
  - intros y Hy. apply in_map_iff in Hy as (x & <- & Hx). apply In_zrange in Hx. apply In_zrange. specialize (Hr x ltac:(lia)). lia.
Qed.

Lemma tr_stable : forall f a b, 0 <= a <= b -> (forall x, a < x -> f x = x) -> b - tr f b = a - tr f a.
Proof.
  intros f a b H Hf. rewrite (tr_split f a b H). rewrite (zsum_const1 (tv f)); [rewrite zlen_zrange by lia; lia|].
  intros x Hx. apply In_zrange in Hx. unfold tv. rewrite Hf by lia. rewrite Z.eqb_refl. replace (x =? - x) with false by lia. reflexivity.
Qed.
Lemma tr_ext : forall f g n, (forall x, f x = g x) -> tr f n = tr g n.
Proof. intros f g n H. apply zsum_map_ext. intros x _. unfold tv. rewrite H. reflexivity. Qed.

Lemma zsum_perm : forall l m, Permutation l m -> zsum l = zsum m.
Proof. intros l m H. induction H; cbn [zsum] in *; try lia. Qed.

Lemma tr_conj : forall s f n, (forall x, f (- x) = - f x) -> (forall x, s (s x) = x) -> (forall x, s (- x) = - s x) ->
  (forall x, 1 <= x <= n -> 1 <= Z.abs (s x) <= n) -> tr (fun x => s (f (s x))) n = tr f n.
Proof.
  intros s f n Fo Si So Sr. unfold tr.
  transitivity (zsum (map (tv f) (map (fun x => Z.abs (s x)) (zrange 1 (n + 1))))).
  - rewrite map_map. apply zsum_map_ext. intros x Hx. apply In_zrange in Hx. 
    assert (E : tv f (Z.abs (s x)) = tv f (s x)).
    { destruct (Z.abs_spec (s x)) as [[_ ->]|[_ ->]]; [reflexivity|]. unfold tv. rewrite Fo.
      f_equal; [|f_equal]; match goal with |- (if ?a then _ else _) = (if ?b then _ else _) => replace a with b; [reflexivity|]; apply eq_true_iff_eq; rewrite !Z.eqb_eq; lia end. }
    rewrite E. unfold tv. f_equal; [|f_equal].
    + destruct (Z.eqb_spec (s (f (s x))) x) as [A|A]; destruct (Z.eqb_spec (f (s x)) (s x)) as [B|B]; try reflexivity; exfalso.
      * apply B. rewrite <- A at 2. rewrite Si. reflexivity.
      * apply A. rewrite B. apply Si.
    + destruct (Z.eqb_spec (s (f (s x))) (- x)) as [A|A]; destruct (Z.eqb_spec (f (s x)) (- s x)) as [B|B]; try reflexivity; exfalso.
      * apply B. rewrite <- So, <- A, Si. reflexivity.
      * apply A. rewrite B, So, Si. reflexivity.
  - apply zsum_perm, Permutation_map, abs_perm; [exact Sr|].
    intros x y Hx Hy E. assert (s x = s y \/ s x = - s y) as [H|H] by lia.
    + rewrite <- (Si x), H, Si. reflexivity.
    + exfalso. assert (x = - y) by (rewrite <- (Si x), H, So, Si; reflexivity). lia.
Qed.

Lemma tr_point : forall f g n l, (forall x, In x (zrange 1 (n + 1)) -> ~ In x l -> g x = f x) -> (forall x, In x l -> 1 <= x <= n) -> NoDup l ->
  tr g n = tr f n + zsum (map (fun x => tv g x - tv f x) l).
Proof.
  intros f g n l H Hl Nl.
  assert (P : exists r, Permutation (zrange 1 (n + 1)) (l ++ r)).
  { clear H. revert Hl Nl. generalize (NoDup_zrange 1 (n + 1)). 
    assert (G : forall l m, NoDup m -> NoDup l -> (forall x : Z, In x l -> In x m) -> exists r, Permutation m (l ++ r)).
    { clear. induction l as [|a l IH]; intros m Nm Nl Hs; [exists m; reflexivity|]. inversion Nl; subst.
      destruct (in_split a m (Hs a (or_introl eq_refl))) as (p & q & ->).
      destruct (IH (p ++ q)) as (r & Hr).
      - apply NoDup_remove_1 in Nm. exact Nm.
      - assumption.
      - intros x Hx. assert (Hx' := Hs x (or_intror Hx)). apply in_app_or in Hx'. apply in_or_app. destruct Hx' as [?|[->|?]]; tauto.
      - exists r. rewrite <- Permutation_middle. cbn [app]. constructor. exact Hr. }
    intros Nm Hl Nl. apply G; [assumption|assumption|]. intros x Hx. apply In_zrange. specialize (Hl x Hx). lia. }
  destruct P as (r & P). unfold tr. rewrite (zsum_perm _ _ (Permutation_map (tv g) P)), (zsum_perm _ _ (Permutation_map (tv f) P)). rewrite !map_app, !zsum_app.
  assert (E : zsum (map (tv g) r) = zsum (map (tv f) r)).
  { apply zsum_map_ext. intros x Hx. unfold tv. rewrite H; [reflexivity| |].
    - apply (Permutation_in _ (Permutation_sym P)). apply in_or_app. tauto.
    - intro Hxl. pose proof (Permutation_NoDup P (NoDup_zrange 1 (n + 1))) as N. 
      clear - N Hx Hxl. induction l as [|a l IH]; [destruct Hxl|]. cbn in N. inversion N; subst. destruct Hxl as [->|Hxl]; [apply H1; apply in_or_app; tauto|auto]. }
  rewrite E. assert (E2 : zsum (map (tv g) l) = zsum (map (tv f) l) + zsum (map (fun x => tv g x - tv f x) l)).
  { clear. induction l as [|a l IH]; [reflexivity|]. cbn [map zsum] in *. unfold zsum in *. lia. }
  lia.
Qed.

(* ---- neg + pair in terms of the trace ---- *)
Definition nu (w : list Z) : Z := zlen (pnegs w) + zlen (ppair w).

Lemma zrange_rev : forall n, 0 <= n -> zrange (- n) 0 = map Z.opp (rev (zrange 1 (n + 1))).
Proof.
  intros n Hn. apply nthz_ext.
  - rewrite zlen_map, zlen_zrange by lia. unfold zlen. rewrite rev_length. change (Z.of_nat (length (zrange 1 (n + 1)))) with (zlen (zrange 1 (n + 1))). rewrite zlen_zrange by lia. lia.
  - intros i Hi. rewrite zlen_zrange in Hi by lia. rewrite nthz_zrange by lia.
    rewrite nthz_map by (unfold zlen; rewrite rev_length; change (Z.of_nat (length (zrange 1 (n + 1)))) with (zlen (zrange 1 (n + 1))); rewrite zlen_zrange by lia; lia).
    unfold nthz. rewrite rev_nth.
    + assert (L : length (zrange 1 (n + 1)) = Z.to_nat n). { pose proof (zlen_zrange 1 (n + 1) ltac:(lia)) as L. unfold zlen in L. lia. }
      rewrite L. replace (Z.to_nat n - S (Z.to_nat i))%nat with (Z.to_nat (n - 1 - i)) by lia.
      change (nth (Z.to_nat (n - 1 - i)) (zrange 1 (n + 1)) 0) with (nthz (zrange 1 (n + 1)) (n - 1 - i)). rewrite nthz_zrange by lia. lia.
    + pose proof (zlen_zrange 1 (n + 1) ltac:(lia)) as L. unfold zlen in L. lia.
Qed.

Lemma ppair_count : forall w, zlen (ppair w) = cnt (fun x => x <? Z.abs (pcall w x)) (zrange 1 (zlen w + 1)).
Proof.
  intro w. unfold ppair. rewrite zlen_map. change (zlen (filter ?p ?l)) with (cnt p l).
  assert (Hn : 0 <= zlen w) by (unfold zlen; lia).
  rewrite (zrange_app (- zlen w) 0 (zlen w + 1)) by lia. rewrite (zrange_app 0 1 (zlen w + 1)) by lia. rewrite !cnt_app.
  rewrite zrange_rev by assumption. rewrite cnt_map, cnt_rev.
  change (zrange 0 1) with [0]. rewrite cnt_cons, cnt_nil. change (0 <? Z.abs 0) with false. cbn [andb].
  generalize (fun x => In_zrange x 1 (zlen w + 1)). generalize (zrange 1 (zlen w + 1)) as l. 
  intros l Hl. assert (G : forall x, In x l -> 1 <= x) by (intros x Hx; apply Hl in Hx; lia). clear Hl. 
  induction l as [|a l IH]; [reflexivity|]. rewrite !cnt_cons. specialize (IH (fun x Hx => G x (or_intror Hx))). specialize (G a (or_introl eq_refl)).
  rewrite pcall_odd. rewrite Z.abs_opp.
  replace (0 <? Z.abs a) with true by lia. cbn [andb].
  destruct (Z.ltb_spec (Z.abs a) (- pcall w a)); destruct (Z.ltb_spec (Z.abs a) (pcall w a)); destruct (Z.ltb_spec a (Z.abs (pcall w a))); lia.
Qed.
Lemma pnegs_count : forall w, zlen (pnegs w) = cnt (fun x => pcall w x =? - x) (zrange 1 (zlen w + 1)).
Proof. intro w. unfold pnegs. rewrite zlen_map. reflexivity. Qed.

Lemma abs_invol : forall z x, invol z -> 1 <= x -> Z.abs (pcall z (Z.abs (pcall z x))) = x.
Proof.
  intros z x [Hc Hv] Hx. destruct (Z.abs_spec (pcall z x)) as [[_ ->]|[_ ->]]; [rewrite Hv; lia|]. rewrite pcall_odd, Hv. lia.
Qed.

Lemma nu_tr0 : forall z, invol z -> 2 * nu z = zlen z - tr (pcall z) (zlen z).
Proof.
  intros z Hz. unfold nu. rewrite ppair_count, pnegs_count. pose proof Hz as [[Hs _] _]. set (n := zlen z). assert (Hn : 0 <= n) by (unfold n, zlen; lia).
  set (l := zrange 1 (n + 1)).
  assert (E : cnt (fun x => Z.abs (pcall z x) <? x) l = cnt (fun x => x <? Z.abs (pcall z x)) l).
  { assert (P : Permutation (map (fun x => Z.abs (pcall z x)) l) l).
    { apply abs_perm; [intros x Hx; apply pcall_abs; assumption|]. intros x y Hx Hy E. apply (pcall_inj_abs z); [assumption|lia|lia|exact E]. }
    rewrite <- (cnt_perm (fun x => Z.abs (pcall z x) <? x) _ _ P). rewrite cnt_map. apply cnt_ext. intros x Hx. apply In_zrange in Hx. rewrite abs_invol by (assumption || lia). reflexivity. }
  assert (T : zlen l - tr (pcall z) n = 2 * cnt (fun x => pcall z x =? - x) l + cnt (fun x => Z.abs (pcall z x) <? x) l + cnt (fun x => x <? Z.abs (pcall z x)) l).
  { unfold tr. fold l. assert (G : forall x, In x l -> 1 <= x) by (intros x Hx; apply In_zrange in Hx; lia). revert G. generalize l as m. clear.
    induction m as [|a m IH]; intro G; [reflexivity|]. rewrite !cnt_cons. specialize (IH (fun x Hx => G x (or_intror Hx))). specialize (G a (or_introl eq_refl)).
    rewrite zlen_cons. cbn [map zsum]. unfold tv at 1.
    destruct (Z.eqb_spec (pcall z a) a); destruct (Z.eqb_spec (pcall z a) (- a)); destruct (Z.ltb_spec (Z.abs (pcall z a)) a); destruct (Z.ltb_spec a (Z.abs (pcall z a))); lia. }
  assert (L : zlen l = n) by (unfold l; rewrite zlen_zrange by lia; lia). lia.
Qed.
Lemma nu_tr : forall z n, invol z -> zlen z <= n -> 2 * nu z = n - tr (pcall z) n.
Proof. intros z n Hz Hn. rewrite nu_tr0 by assumption. symmetry. apply tr_stable; [unfold zlen in *; lia|]. intros x Hx. apply pcall_out. lia. Qed.

(* ---- the step ---- *)
Lemma cj_cases : forall z i, invol z -> 0 <= i -> ~ descent (pcall z) i ->
  ((forall x, simple i (pcall z x) = pcall z (simple i x)) /\ (forall x, pcall (cj z i) x = pcall z (simple i x)) /\ ell (cj z i) = ell z + 1) \/
  ((forall x, pcall (cj z i) x = simple i (pcall z (simple i x))) /\ ell (cj z i) = ell z + 2).
Proof.
  intros z i Hz Hi Hd. pose proof Hz as [Hc Hv].
  assert (E1 : ell (mulp (sp i) z) = ell z + 1). { apply ell_left_ascent; [assumption|assumption|]. rewrite (invol_invp z Hz). assumption. }
  unfold cj. destruct (descb (pcall z) i) eqn:E; [apply descb_spec in E; contradiction|]. unfold dm.
  destruct (descb (pcall (mulp (sp i) z)) i) eqn:E2.
  - left. apply descb_spec in E2. pose proof (cj_commute z i Hz Hi Hd E2) as C. split; [exact C|]. split; [|exact E1].
    intro x. rewrite mulp_call by auto with perm. rewrite sp_call by assumption. apply C.
  - right. assert (E2' : ~ descent (pcall (mulp (sp i) z)) i) by (intro H; apply descb_spec in H; congruence). split.
    + intro x. rewrite !mulp_call by auto with perm. rewrite !sp_call by assumption. reflexivity.
    + rewrite ell_ascent; [lia|auto with perm|assumption|assumption].
Qed.

Lemma simple_abs_range : forall i n x, 0 <= i < n -> 1 <= x <= n -> 1 <= Z.abs (simple i x) <= n.
Proof. intros i n x Hi Hx. unfold simple. repeat match goal with |- context [?x =? ?y] => destruct (Z.eqb_spec x y) end; lia. Qed.

Lemma nu_step : forall z i, invol z -> 0 <= i -> ~ descent (pcall z) i -> ell (cj z i) + nu (cj z i) = ell z + nu z + 2.
Proof.
  intros z i Hz Hi Hd. pose proof Hz as [Hc Hv]. pose proof (proj2 (cj_rel z i Hz Hi)) as Hb.
  set (n := Z.max (zlen z) (Z.max (zlen (cj z i)) (i + 1))).
  pose proof (nu_tr z n Hz ltac:(lia)) as N1. pose proof (nu_tr (cj z i) n Hb ltac:(lia)) as N2.
  destruct (cj_cases z i Hz Hi Hd) as [(C & F & L)|(F & L)].
  - assert (T : tr (pcall (cj z i)) n = tr (pcall z) n - 2); [|lia].
    destruct (Z.eq_dec i 0) as [->|Ni].
    + assert (V : pcall z 1 = 1).
      { pose proof (C 1) as C1. change (simple 0 1) with (- (1)) in C1. rewrite pcall_odd in C1. pose proof (pcall_nonzero z 1 (proj1 Hc) ltac:(lia)) as Nz. unfold descent in Hd. change (0 =? 0) with true in Hd. cbv beta iota in Hd.
        unfold simple in C1. change (0 =? 0) with true in C1. cbv beta iota in C1. destruct (Z.eqb_spec (Z.abs (pcall z 1)) 1); lia. }
      rewrite (tr_point (pcall z) (pcall (cj z 0)) n [1]).
      * cbn [map zsum]. unfold tv. rewrite F. change (simple 0 1) with (- (1)). rewrite pcall_odd, V. change (- (1)) with (-1). cbn. lia.
      * intros x Hx Nx. rewrite F. apply In_zrange in Hx. f_equal. unfold simple. change (0 =? 0) with true. cbv beta iota. destruct (Z.eqb_spec (Z.abs x) 1); [|reflexivity]. exfalso. apply Nx. left. lia.
      * intros x [<-|[]]. lia.
      * repeat constructor. intros [].
    + assert (Hi' : 0 < i) by lia.
      assert (V : (pcall z i = i /\ pcall z (i + 1) = i + 1) \/ (pcall z i = - i - 1 /\ pcall z (i + 1) = - i)).
      { pose proof (C i) as C1. rewrite simple_i in C1 by assumption. unfold descent in Hd. rewrite (proj2 (Z.eqb_neq i 0) Ni) in Hd.
        assert (pcall z i <> pcall z (i + 1)) by (intro E; apply (pcall_inj z) in E; [lia|apply Hc]).
        unfold simple in C1. rewrite (proj2 (Z.eqb_neq i 0) Ni) in C1. repeat match type of C1 with context [?x =? ?y] => destruct (Z.eqb_spec x y) end; lia. }
      rewrite (tr_point (pcall z) (pcall (cj z i)) n [i; i + 1]).
      * cbn [map zsum]. unfold tv. rewrite !F, simple_i, simple_i1 by assumption. 
        destruct V as [[-> ->]|[-> ->]]; repeat match goal with |- context [?x =? ?y] => destruct (Z.eqb_spec x y) end; lia.
      * intros x Hx Nx. rewrite F. apply In_zrange in Hx. f_equal. apply simple_fix; [assumption|lia| |]; intro; apply Nx; cbn; lia.
      * intros x [<-|[<-|[]]]; lia.
      * repeat constructor; cbn; lia.
  - assert (T : tr (pcall (cj z i)) n = tr (pcall z) n); [|lia].
    rewrite (tr_ext _ _ n F). apply tr_conj.
    + intro x. apply pcall_odd.
    + intro x. apply simple_invol. assumption.
    + intro x. apply simple_odd. assumption.
    + intros x Hx. apply simple_abs_range; [lia|assumption].
Qed.
