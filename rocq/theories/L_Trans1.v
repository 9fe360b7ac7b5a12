(* Products of factors x and x + 1, one per cell, and choices of cells *)
From Coq Require Import List ZArith Lia Bool Permutation Arith.
From Verif Require Import PyBase FinSum M_Partitions M_Vectors L_Vectors M_Polynomials L_Polynomials L_PolySubst M_Tableaux M_Symmetric M_Expansion L_Count L_SymPoly L_Num L_Expand1 M_RPP M_Transposed.
Import ListNotations.
Local Open Scope Z_scope.

(* cells given by their variable and whether they may be left out *)
Definition cells : Type := list (Z * bool).
Fixpoint jev (l : cells) (G : mono -> Z) : Z :=
  match l with
  | [] => G []
  | (v, b) :: r => jev r (fun m => G (mmul (mvar v 1) m)) + (if b then jev r G else 0)
  end.
Lemma jev_ext : forall l F G, (forall m, mwf m -> F m = G m) -> jev l F = jev l G.
Proof.
  induction l as [|[v b] l IH]; intros F G H; cbn [jev]; [apply H; split; constructor|]. f_equal; [apply IH; intros m _; apply H, mmul_wf|]. destruct b; [apply IH; assumption|reflexivity].
Qed.
Lemma jev_swap : forall l x y G, jev (x :: y :: l) G = jev (y :: x :: l) G.
Proof.
  intros l [v b] [w c] G. cbn [jev]. rewrite (jev_ext l (fun m => G (mmul (mvar v 1) (mmul (mvar w 1) m))) (fun m => G (mmul (mvar w 1) (mmul (mvar v 1) m)))).
  - destruct b, c; lia.
  - intros m _. rewrite <- !mmul_assoc, (mmul_comm (mvar v 1)). reflexivity.
Qed.
Lemma jev_perm : forall l l', Permutation l l' -> forall G, jev l G = jev l' G.
Proof.
  induction 1 as [|[v b] l l' P IH|x y l|l1 l2 l3 P1 IH1 P2 IH2]; intro G.
  - reflexivity.
  - cbn [jev]. rewrite !IH. reflexivity.
  - apply jev_swap.
  - rewrite IH1. apply IH2.
Qed.
Lemma jev_app : forall l l' G, jev (l ++ l') G = jev l (fun a => jev l' (fun b => G (mmul a b))).
Proof.
  induction l as [|[v b] l IH]; intros l' G; cbn [app jev].
  - apply jev_ext. intros m Wm. rewrite mmul_nil_l by assumption. reflexivity.
  - rewrite !IH. f_equal. apply jev_ext. intros m _. apply jev_ext. intros m' _. rewrite mmul_assoc. reflexivity.
Qed.

(* the factors *)
Lemma jev_vars : forall v k G, jev (repeat (v, false) k) G = G (mvar v (Z.of_nat k)).
Proof.
  intros v k. induction k as [|k IH]; intro G; [reflexivity|]. cbn [repeat jev]. rewrite IH, Z.add_0_r. f_equal. apply mwf_ext; [apply mmul_wf|apply mvar_wf|]. intro t. rewrite mget_mmul, !mget_mvar. destruct (v =? t); lia.
Qed.
Lemma ppow_var : forall v k G, ev (ppow_nat (pmonomial v 1) k) G = G (mvar v (Z.of_nat k)).
Proof.
  intros v k G. rewrite pmonomial_mvar. destruct (ppow_single (mvar v 1) k (mvar_wf v 1)) as (m & E & Wm & H). rewrite E, ev_single. f_equal. apply mwf_ext; [assumption|apply mvar_wf|]. intro t. rewrite H, !mget_mvar. destruct (v =? t); lia.
Qed.
Lemma ev_pint : forall z G, ev (pint z) G = z * G [].
Proof. intros z G. change (ev (pint z) G) with (nev (NP (pint z)) G). unfold pint. change (NP (pmul (pmonomial 0 0) (pconst z))) with (nmul (NP (pmonomial 0 0)) (NI z)). rewrite nev_mul by (try exact I; apply pmonomial_wf). cbn [nev]. rewrite pmonomial_mvar, ev_single. reflexivity. Qed.
Lemma ppow_sum : forall v k G, ev (ppow_nat (padd (pmonomial v 1) (pint 1)) k) G = jev (repeat (v, true) k) G.
Proof.
  intros v k. assert (W : pwf (padd (pmonomial v 1) (pint 1))) by (apply padd_wf; [apply pmonomial_wf|apply pint_wf]).
  induction k as [|k IH]; intro G; [cbn [ppow_nat repeat jev]; unfold pone; rewrite pmonomial_mvar; apply ev_single|]. cbn [ppow_nat repeat jev].
  assert (Wk : pwf (ppow_nat (padd (pmonomial v 1) (pint 1)) k)) by apply ppow_nat_wf.
  rewrite ev_pmul by first [apply W | apply Wk]. rewrite ev_padd by first [apply pmonomial_wf | apply pint_wf]. rewrite ev_pint, pmonomial_mvar, ev_single, <- !IH, <- pmonomial_mvar. f_equal.
  rewrite Z.mul_1_l. apply (nev_ext (NP _) _ _ Wk). intros m Wm. rewrite mmul_nil_l by assumption. reflexivity.
Qed.
Lemma ppow_nonneg_nat : forall p k, ppow p (Z.of_nat k) = Some (ppow_nat p k).
Proof. intros p k. rewrite ppow_nonneg by lia. rewrite Nat2Z.id. reflexivity. Qed.
Lemma j_factor_ok : forall i r e, exists f, j_factor i (Z.of_nat r, Z.of_nat e) = Ok f /\ pwf f /\
  forall G, ev f G = jev (repeat (i, false) r ++ repeat (i, true) e) G.
Proof.
  intros i r e. unfold j_factor. cbn [fst snd]. rewrite !ppow_nonneg_nat. eexists. split; [reflexivity|]. split; [apply pmul_wf|]. intro G.
  rewrite ev_pmul by apply ppow_nat_wf. rewrite ppow_var, jev_app, jev_vars. apply ppow_sum.
Qed.

(* grouping the cells by variable *)
Definition npick (i : Z) (b : bool) (L : cells) : nat := length (filter (fun vb => (fst vb =? i) && Bool.eqb (snd vb) b) L).
Definition block (L : cells) (i : Z) : cells := repeat (i, false) (npick i false L) ++ repeat (i, true) (npick i true L).
Lemma block_perm : forall i L, Permutation (filter (fun vb => fst vb =? i) L) (block L i).
Proof.
  intros i. unfold block, npick. induction L as [|[v b] L IH]; [constructor|]. cbn [filter fst snd]. destruct (Z.eqb_spec v i) as [->|Ne]; [|cbn [andb]; exact IH]. cbn [andb].
  destruct b; cbn [Bool.eqb length repeat app].
  - apply Permutation_cons_app. exact IH.
  - constructor. exact IH.
Qed.
Lemma filter_ne : forall i j (L : cells), j <> i -> filter (fun vb => fst vb =? j) (filter (fun vb => negb (fst vb =? i)) L) = filter (fun vb => fst vb =? j) L.
Proof.
  intros i j L Q. induction L as [|x L IH]; [reflexivity|]. cbn [filter]. destruct (Z.eqb_spec (fst x) i) as [E|E]; cbn [negb filter]; destruct (Z.eqb_spec (fst x) j) as [E'|E']; try lia; rewrite IH; reflexivity.
Qed.
Lemma split_vars : forall (L : cells) (is : list Z), NoDup is -> (forall vb, In vb L -> In (fst vb) is) -> Permutation L (flat_map (fun i => filter (fun vb => fst vb =? i) L) is).
Proof.
  intros L is Ni. revert L. induction is as [|i is IH]; intros L H.
  - destruct L as [|x L]; [constructor|]. destruct (H x (or_introl eq_refl)).
  - inversion Ni as [|? ? N1 N2]; subst. cbn [flat_map].
    assert (P : Permutation L (filter (fun vb => fst vb =? i) L ++ filter (fun vb => negb (fst vb =? i)) L)).
    { clear. induction L as [|x L IH]; [constructor|]. cbn [filter]. destruct (fst x =? i); cbn [negb app]; [constructor; exact IH|]. apply Permutation_cons_app. exact IH. }
    etransitivity; [exact P|]. apply Permutation_app_head. etransitivity; [apply (IH N2)|].
    + intros x Hx. apply filter_In in Hx. destruct Hx as [Hx E]. apply negb_true_iff, Z.eqb_neq in E. destruct (H x Hx) as [X|X]; [congruence|assumption].
    + apply Permutation_refl'. clear -N1. assert (Q : forall j, In j is -> j <> i) by (intros j Hj ->; contradiction). clear N1. induction is as [|j is IH]; [reflexivity|]. cbn [flat_map]. f_equal.
      * apply filter_ne. apply Q. left. reflexivity.
      * apply IH. intros k Hk. apply Q. right. assumption.
Qed.
Lemma perm_flat_map : forall A B (f g : A -> list B) l, (forall a, In a l -> Permutation (f a) (g a)) -> Permutation (flat_map f l) (flat_map g l).
Proof. intros A B f g l H. induction l as [|a l IH]; [constructor|]. cbn [flat_map]. apply Permutation_app; [apply H; left; reflexivity|apply IH; intros b Hb; apply H; right; assumption]. Qed.

Lemma j_monomial_ok : forall stat n t h L, theads t = Ok h -> (forall vb, In vb L -> 1 <= fst vb <= Z.of_nat n) ->
  (forall i, 1 <= i <= Z.of_nat n -> stat h i = (Z.of_nat (npick i false L), Z.of_nat (npick i true L))) ->
  exists m, j_monomial stat n t = Ok m /\ nok m /\ forall G, nev m G = jev L G.
Proof.
  intros stat n t h L Eh HL HS. unfold j_monomial.
  assert (X : forall is m l0, (forall i, In i is -> 1 <= i <= Z.of_nat n) -> nok m -> (forall G, nev m G = jev l0 G) ->
    exists m', rfold (fun m i => do h <- theads t; do f <- j_factor i (stat h i); Ok (nmul m (NP f))) is m = Ok m' /\ nok m' /\ forall G, nev m' G = jev (l0 ++ flat_map (block L) is) G).
  { induction is as [|i is IH]; intros m l0 Hi Om Hm; cbn [rfold flat_map].
    - exists m. split; [reflexivity|]. split; [assumption|]. intro G. rewrite app_nil_r. apply Hm.
    - rewrite Eh. cbn [rbind]. rewrite HS by (apply Hi; left; reflexivity). destruct (j_factor_ok i (npick i false L) (npick i true L)) as (f & Ef & Wf & Hf). rewrite Ef. cbn [rbind].
      destruct (IH (nmul m (NP f)) (l0 ++ block L i)) as (m' & E1 & E2 & E3).
      + intros k Hk. apply Hi. right. assumption.
      + apply nok_mul.
      + intro G. rewrite nev_mul by (exact Om || exact Wf). rewrite Hm, jev_app. apply jev_ext. intros a _. cbn [nev]. apply Hf.
      + exists m'. rewrite Eh in E1. cbn [rbind] in E1. split; [exact E1|]. split; [assumption|]. intro G. rewrite E3, app_assoc. reflexivity. }
  destruct (X (zrange 1 (Z.of_nat n + 1)) (NI 1) []) as (m & E1 & E2 & E3).
  - intros i Hi. unfold zrange in Hi. apply in_map_iff in Hi. destruct Hi as (k & <- & Hk). apply in_seq in Hk. lia.
  - exact I.
  - intro G. cbn [nev jev]. lia.
  - exists m. split; [assumption|]. split; [assumption|]. intro G. rewrite E3. cbn [app]. apply jev_perm. symmetry.
    etransitivity; [apply (split_vars L (zrange 1 (Z.of_nat n + 1)))|apply perm_flat_map; intros; apply block_perm].
    + apply zrange_NoDup.
    + intros vb Hv. specialize (HL vb Hv). unfold zrange. apply in_map_iff. exists (Z.to_nat (fst vb - 1)). split; [lia|]. apply in_seq. lia.
Qed.

(* choices of a set of cells to leave out *)
Fixpoint masks (l : list bool) : list (list Z) :=
  match l with [] => [[]] | b :: r => map (cons 0) (masks r) ++ (if b then map (cons 1) (masks r) else []) end.
Fixpoint kept (l : cells) (g : list Z) : list Z :=
  match l, g with (v, _) :: l', z :: g' => if z =? 0 then v :: kept l' g' else kept l' g' | _, _ => [] end.
Definition monof (l : list Z) : mono := fold_right (fun v m => mmul (mvar v 1) m) [] l.
Lemma jev_masks : forall l G, jev l G = zs (fun g => G (monof (kept l g))) (masks (map snd l)).
Proof.
  induction l as [|[v b] l IH]; intro G; cbn [jev map snd masks]; [rewrite zs_cons, zs_nil, Z.add_0_r; reflexivity|].
  rewrite zs_app, zs_map, IH. f_equal. destruct b; [rewrite zs_map, IH; reflexivity|reflexivity].
Qed.
Lemma monof_get : forall l t, mget (monof l) t = Z.of_nat (length (filter (Z.eqb t) l)).
Proof. intros l t. induction l as [|v l IH]; [reflexivity|]. cbn [monof fold_right filter]. rewrite mget_mmul, mget_mvar. change (mget (fold_right (fun v m => mmul (mvar v 1) m) [] l) t) with (mget (monof l) t). rewrite IH, (Z.eqb_sym t v). destruct (v =? t); cbn [length]; lia. Qed.
Lemma monof_wf : forall l, mwf (monof l).
Proof. intros [|v l]; [split; constructor|apply mmul_wf]. Qed.
Lemma masks_In : forall l g, In g (masks l) <-> length g = length l /\ forall k, (k < length l)%nat -> nth k g 0 = 0 \/ (nth k g 0 = 1 /\ nth k l false = true).
Proof.
  induction l as [|b l IH]; intro g; cbn [masks].
  - split; [intros [<-|[]]; split; [reflexivity|]; intros k Hk; cbn in Hk; lia|]. intros [H _]. destruct g; [left; reflexivity|discriminate].
  - rewrite in_app_iff, in_map_iff. split.
    + intros [(g' & <- & H)|H].
      * apply IH in H. destruct H as [H1 H2]. split; [cbn [length]; lia|]. intros [|k] Hk; cbn [nth]; [left; reflexivity|]. cbn [length] in Hk. apply H2. lia.
      * destruct b; [|destruct H]. apply in_map_iff in H. destruct H as (g' & <- & H). apply IH in H. destruct H as [H1 H2]. split; [cbn [length]; lia|]. intros [|k] Hk; cbn [nth]; [right; split; reflexivity|]. cbn [length] in Hk. apply H2. lia.
    + intros [H1 H2]. destruct g as [|z g]; [discriminate|]. cbn [length] in H1. assert (Hg : In g (masks l)).
      { apply IH. split; [lia|]. intros k Hk. apply (H2 (S k)). cbn [length]. lia. }
      destruct (H2 0%nat) as [H|[H Hb]]; [cbn [length]; lia| |]; cbn [nth] in *.
      * subst z. left. exists g. split; [reflexivity|assumption].
      * subst z b. right. apply in_map. assumption.
Qed.
Lemma masks_NoDup : forall l, NoDup (masks l).
Proof.
  induction l as [|b l IH]; cbn [masks]; [repeat constructor; intros []|].
  assert (M : forall z, NoDup (map (cons z) (masks l))) by (intro z; apply FinFun.Injective_map_NoDup; [intros x y E; congruence|assumption]).
  destruct b; [|rewrite app_nil_r; apply M]. apply NoDup_app_intro; [apply M|apply M|]. intros x H1 H2. apply in_map_iff in H1, H2. destruct H1 as (a & <- & _), H2 as (b & E & _). discriminate.
Qed.
