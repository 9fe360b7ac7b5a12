From Coq Require Import List ZArith Lia Bool Permutation.
From Verif Require Import PyBase M_Partitions M_Perm S_Perm L_Perm L_PermLen.
Import ListNotations.
Local Open Scope Z_scope.

Ltac cano := solve [ assumption | apply nil_canonical | eauto using nil_canonical, mulp_canonical, invp_canonical, sp_canonical, proj1 ].

Lemma canonical_signed : forall w, canonical w -> signed_word w.
Proof. intros w H. apply H. Qed.
Global Hint Resolve canonical_signed nil_canonical mulp_canonical invp_canonical sp_canonical : perm.

(* ---- group laws ---- *)
Lemma mulp_assoc : forall u v w, canonical u -> canonical v -> canonical w -> mulp (mulp u v) w = mulp u (mulp v w).
Proof.
  intros u v w Hu Hv Hw. apply canonical_ext; [auto with perm|auto with perm|]. intro i.
  rewrite !mulp_call by auto with perm. reflexivity.
Qed.
Lemma mulp_1_l : forall w, canonical w -> mulp [] w = w.
Proof. intros w Hw. apply canonical_ext; [auto with perm|assumption|]. intro i. rewrite mulp_call by auto with perm. apply pcall_nil. Qed.
Lemma mulp_1_r : forall w, canonical w -> mulp w [] = w.
Proof. intros w Hw. apply canonical_ext; [auto with perm|assumption|]. intro i. rewrite mulp_call by auto with perm. rewrite pcall_nil. reflexivity. Qed.
Lemma mulp_inv_l : forall w, canonical w -> mulp (invp w) w = [].
Proof.
  intros w Hw. apply canonical_ext; [auto with perm|auto with perm|]. intro i. rewrite mulp_call by auto with perm.
  rewrite pcall_nil. apply invp_call. auto with perm.
Qed.
Lemma mulp_inv_r : forall w, canonical w -> mulp w (invp w) = [].
Proof.
  intros w Hw. apply canonical_ext; [auto with perm|auto with perm|]. intro i. rewrite mulp_call by auto with perm.
  rewrite pcall_nil. apply invp_call2. auto with perm.
Qed.
Lemma sp_sq : forall i, 0 <= i -> mulp (sp i) (sp i) = [].
Proof.
  intros i Hi. apply canonical_ext; [auto with perm|auto with perm|]. intro x. rewrite mulp_call by auto with perm.
  rewrite !sp_call by assumption. rewrite pcall_nil. apply simple_invol. assumption.
Qed.
Lemma mulp_sp_sp : forall w i, canonical w -> 0 <= i -> mulp (mulp w (sp i)) (sp i) = w.
Proof. intros w i Hw Hi. rewrite mulp_assoc by auto with perm. rewrite sp_sq by assumption. apply mulp_1_r. assumption. Qed.
Lemma invp_unique : forall u v, canonical u -> canonical v -> mulp u v = [] -> v = invp u.
Proof.
  intros u v Hu Hv E. rewrite <- (mulp_1_l v Hv). rewrite <- (mulp_inv_l u Hu). rewrite mulp_assoc by auto with perm.
  rewrite E. apply mulp_1_r. auto with perm.
Qed.
Lemma invp_mulp : forall u v, canonical u -> canonical v -> invp (mulp u v) = mulp (invp v) (invp u).
Proof.
  intros u v Hu Hv. symmetry. apply invp_unique; [auto with perm|auto with perm|].
  rewrite mulp_assoc by auto with perm. rewrite <- (mulp_assoc v) by auto with perm. rewrite mulp_inv_r by assumption.
  rewrite mulp_1_l by auto with perm. apply mulp_inv_r. assumption.
Qed.
Lemma invp_invp : forall u, canonical u -> invp (invp u) = u.
Proof. intros u Hu. symmetry. apply invp_unique; [auto with perm|assumption|]. apply mulp_inv_l. assumption. Qed.
Lemma invp_sp : forall i, 0 <= i -> invp (sp i) = sp i.
Proof. intros i Hi. symmetry. apply invp_unique; auto with perm. apply sp_sq. assumption. Qed.
Lemma invp_nil : invp [] = [].
Proof. reflexivity. Qed.

(* ---- words ---- *)
Definition gens (word : list Z) : Prop := Forall (fun i => 0 <= i) word.
Definition wordp (word : list Z) : list Z := fold_left (fun u i => mulp u (sp i)) word [].

Lemma wordp_fold_canonical : forall word u, gens word -> canonical u -> canonical (fold_left (fun u i => mulp u (sp i)) word u).
Proof. induction word as [|i word IH]; intros u Hg Hu; simpl; [assumption|]. inversion Hg; subst. apply IH; auto with perm. Qed.
Lemma wordp_canonical : forall word, gens word -> canonical (wordp word).
Proof. intros. apply wordp_fold_canonical; auto with perm. Qed.
Global Hint Resolve wordp_canonical : perm.
Lemma wordp_fold : forall word u, gens word -> canonical u -> fold_left (fun u i => mulp u (sp i)) word u = mulp u (wordp word).
Proof.
  induction word as [|i word IH]; intros u Hg Hu; [symmetry; apply mulp_1_r; assumption|]. inversion Hg as [|? ? Hi Hg']; subst.
  unfold wordp. cbn [fold_left]. rewrite IH by auto with perm. rewrite (IH (mulp [] (sp i))) by auto with perm.
  rewrite mulp_1_l by auto with perm. rewrite mulp_assoc by auto with perm. reflexivity.
Qed.
Lemma wordp_cons : forall i word, 0 <= i -> gens word -> wordp (i :: word) = mulp (sp i) (wordp word).
Proof.
  intros i word Hi Hg. unfold wordp. cbn [fold_left]. rewrite wordp_fold by auto with perm. rewrite mulp_1_l by auto with perm. reflexivity.
Qed.
Lemma gens_app : forall a b, gens (a ++ b) <-> gens a /\ gens b.
Proof. intros. apply Forall_app. Qed.
Lemma wordp_app : forall a b, gens a -> gens b -> wordp (a ++ b) = mulp (wordp a) (wordp b).
Proof. intros a b Ha Hb. unfold wordp. rewrite fold_left_app. apply (wordp_fold b (wordp a)); auto with perm. Qed.
Lemma gens_one : forall i, 0 <= i -> gens [i].
Proof. intros. constructor; [assumption|constructor]. Qed.
Lemma wordp_snoc : forall a i, wordp (a ++ [i]) = mulp (wordp a) (sp i).
Proof. intros a i. unfold wordp. rewrite fold_left_app. reflexivity. Qed.
Lemma wordp_map : forall word x, gens word -> pcall (wordp word) x = word_map word x.
Proof.
  induction word as [|i word IH]; intros x Hg; [apply pcall_nil|]. inversion Hg; subst. rewrite wordp_cons by assumption.
  rewrite mulp_call by auto with perm. rewrite sp_call by assumption. simpl. rewrite IH by assumption. reflexivity.
Qed.

Lemma ell_word_le : forall word, gens word -> ell (wordp word) <= zlen word.
Proof.
  induction word as [|i word IH] using rev_ind; intro Hg; [unfold ell; simpl; unfold negl, cnt, zlen; simpl; lia|].
  apply gens_app in Hg. destruct Hg as [Hg Hi]. inversion Hi; subst. rewrite wordp_snoc, zlen_app. change (zlen [i]) with 1.
  specialize (IH Hg). destruct (descent_dec (pcall (wordp word)) i); [rewrite ell_descent|rewrite ell_ascent]; auto with perm; lia.
Qed.
Lemma ell_zero : forall w, canonical w -> (ell w = 0 <-> w = []).
Proof.
  intros w Hw. split; [|intros ->; reflexivity]. intro E. destruct (list_eq_dec Z.eq_dec w []) as [|Nw]; [assumption|]. exfalso.
  destruct (find_descent w Hw Nw) as (i & Hi & Hd). pose proof (ell_nonneg (mulp w (sp i))). rewrite ell_descent in H by assumption. lia.
Qed.
Lemma reduced_exists : forall n w, canonical w -> ell w = n -> exists word, gens word /\ wordp word = w /\ zlen word = n.
Proof.
  intros n w Hw E. assert (Hn : 0 <= n) by (rewrite <- E; apply ell_nonneg). revert n Hn w Hw E.
  apply (natlike_ind (fun n => forall w, canonical w -> ell w = n -> exists word, gens word /\ wordp word = w /\ zlen word = n)).
  - intros w Hw E. apply ell_zero in E; [|assumption]. subst. exists []. split; [constructor|]. split; reflexivity.
  - intros n Hn IH w Hw E. destruct (find_descent w Hw) as (i & Hi & Hd); [intros ->; change (ell []) with 0 in E; lia|].
    destruct (IH (mulp w (sp i))) as (word & G & P & L); [auto with perm|rewrite ell_descent by assumption; lia|].
    exists (word ++ [i]). split; [apply gens_app; split; [assumption|apply gens_one; assumption]|].
    split; [rewrite wordp_snoc, P; apply mulp_sp_sp; assumption|]. rewrite zlen_app, L. change (zlen [i]) with 1. lia.
Qed.
Lemma wordp_rev : forall word, gens word -> wordp (rev word) = invp (wordp word).
Proof.
  induction word as [|i word IH]; intro Hg; [reflexivity|]. inversion Hg; subst. cbn [rev]. rewrite wordp_snoc, IH by assumption.
  rewrite wordp_cons by assumption. rewrite invp_mulp by auto with perm. rewrite invp_sp by assumption. reflexivity.
Qed.
Lemma ell_invp : forall w, canonical w -> ell (invp w) = ell w.
Proof.
  assert (G : forall w, canonical w -> ell (invp w) <= ell w).
  { intros w Hw. destruct (reduced_exists (ell w) w Hw eq_refl) as (word & Hg & <- & L). rewrite <- wordp_rev by assumption. rewrite <- L.
    replace (zlen word) with (zlen (rev word)) by (unfold zlen; rewrite rev_length; reflexivity). apply ell_word_le.
    apply Forall_forall. intros x Hx. apply in_rev in Hx. unfold gens in Hg. rewrite Forall_forall in Hg. auto. }
  intros w Hw. pose proof (G w Hw). pose proof (G (invp w) ltac:(auto with perm)). rewrite invp_invp in H0 by assumption. lia.
Qed.
Lemma ell_left : forall w i, canonical w -> 0 <= i -> ell (mulp (sp i) w) = ell (mulp (invp w) (sp i)).
Proof.
  intros w i Hw Hi. rewrite <- (ell_invp (mulp (sp i) w)) by auto with perm. rewrite invp_mulp by auto with perm. rewrite invp_sp by assumption. reflexivity.
Qed.
Lemma ell_left_descent : forall w i, canonical w -> 0 <= i -> descent (pcall (invp w)) i -> ell (mulp (sp i) w) = ell w - 1.
Proof. intros w i Hw Hi H. rewrite ell_left by assumption. rewrite ell_descent by auto with perm. rewrite ell_invp by assumption. reflexivity. Qed.
Lemma ell_left_ascent : forall w i, canonical w -> 0 <= i -> ~ descent (pcall (invp w)) i -> ell (mulp (sp i) w) = ell w + 1.
Proof. intros w i Hw Hi H. rewrite ell_left by assumption. rewrite ell_ascent by auto with perm. rewrite ell_invp by assumption. reflexivity. Qed.

Lemma ldes_ok : forall w, canonical w -> ldes w = Ok (rdes (invp w)).
Proof. intros w Hw. unfold ldes. rewrite pinv_ok by auto with perm. reflexivity. Qed.

Lemma from_word_ok : forall word, gens word -> from_word word = Ok (wordp word).
Proof.
  intro word. unfold from_word, wordp, pid. generalize nil_canonical. generalize (@nil Z) as u.
  induction word as [|i word IH]; intros u Hu Hg; [reflexivity|]. inversion Hg; subst. cbn [fold_left].
  cbn [rbind]. rewrite sp_ok by assumption. cbn [rbind]. rewrite pmul_ok by auto with perm. apply IH; auto with perm.
Qed.

(* ---- get_reduced_word ---- *)
Lemma fold_min_In : forall l a, In (fold_left Z.min l a) (a :: l).
Proof.
  induction l as [|b l IH]; intro a; simpl; [left; reflexivity|]. destruct (IH (Z.min a b)) as [E|E].
  - rewrite <- E. destruct (Z.min_dec a b) as [->| ->]; auto.
  - right. right. assumption.
Qed.
Lemma zmin_In : forall l, l <> [] -> In (zmin l) l.
Proof. intros [|a l] H; [congruence|]. apply fold_min_In. Qed.

Definition reduced (word w : list Z) : Prop := gens word /\ wordp word = w /\ zlen word = ell w.

Lemma get_reduced_word_ok : forall fuel w, canonical w -> ell w < Z.of_nat fuel ->
  exists word, get_reduced_word fuel w = Ok word /\ reduced word w.
Proof.
  induction fuel as [|fuel IH]; intros w Hw Hf; [pose proof (ell_nonneg w); lia|]. cbn [get_reduced_word].
  rewrite ldes_ok by assumption. cbn [rbind]. destruct (rdes (invp w)) as [|d0 d] eqn:Ed.
  - exists []. split; [reflexivity|]. assert (invp w = []).
    { apply no_descent_id; [auto with perm|]. intros i Hi Hd. assert (In i (rdes (invp w))) by (apply rdes_spec; auto with perm). rewrite Ed in H. destruct H. }
    assert (w = []) by (rewrite <- (invp_invp w Hw), H; reflexivity). subst. split; [constructor|]. split; reflexivity.
  - rewrite <- Ed in *. set (i := zmin (rdes (invp w))). assert (Hin : In i (rdes (invp w))) by (apply zmin_In; congruence).
    apply rdes_spec in Hin; [|auto with perm]. destruct Hin as [Hi Hd]. rewrite sp_ok by assumption. cbn [rbind].
    rewrite pmul_ok by auto with perm. cbn [rbind]. pose proof (ell_left_descent w i Hw Hi Hd) as El.
    destruct (IH (mulp (sp i) w)) as (word & E & G & P & L); [auto with perm|lia|]. rewrite E. cbn [rbind].
    exists (i :: word). split; [reflexivity|]. split; [constructor; assumption|]. split.
    + rewrite wordp_cons by assumption. rewrite P. rewrite <- mulp_assoc by auto with perm. rewrite sp_sq by assumption. apply mulp_1_l. assumption.
    + rewrite zlen_cons. lia.
Qed.

(* ---- Demazure action ---- *)
Definition descb (f : Z -> Z) (i : Z) : bool := if i =? 0 then f 1 <? 0 else f (i + 1) <? f i.
Lemma descb_spec : forall f i, descb f i = true <-> descent f i.
Proof. intros f i. unfold descb, descent. destruct (i =? 0); apply Z.ltb_lt. Qed.
Definition dm (u : list Z) (i : Z) : list Z := if descb (pcall u) i then u else mulp u (sp i).
Definition dmf (f : Z -> Z) (i : Z) : Z -> Z := if descb f i then f else fun x => f (simple i x).
Definition dw (u : list Z) (word : list Z) : list Z := fold_left dm word u.
Definition dwf (f : Z -> Z) (word : list Z) : Z -> Z := fold_left dmf word f.

Lemma dm_canonical : forall u i, canonical u -> 0 <= i -> canonical (dm u i).
Proof. intros u i Hu Hi. unfold dm. destruct (descb (pcall u) i); auto with perm. Qed.
Global Hint Resolve dm_canonical : perm.
Lemma dw_canonical : forall word u, canonical u -> gens word -> canonical (dw u word).
Proof. induction word as [|i word IH]; intros u Hu Hg; [assumption|]. inversion Hg; subst. apply IH; auto with perm. Qed.
Global Hint Resolve dw_canonical : perm.

Lemma descb_ext : forall f g i, (forall x, f x = g x) -> descb f i = descb g i.
Proof. intros f g i H. unfold descb. rewrite !H. reflexivity. Qed.
Lemma dmf_ext : forall f g i, (forall x, f x = g x) -> forall x, dmf f i x = dmf g i x.
Proof. intros f g i H x. unfold dmf. rewrite (descb_ext f g i H). destruct (descb g i); apply H. Qed.
Lemma dm_call : forall u i x, canonical u -> 0 <= i -> pcall (dm u i) x = dmf (pcall u) i x.
Proof.
  intros u i x Hu Hi. unfold dm, dmf. destruct (descb (pcall u) i); [reflexivity|]. rewrite mulp_call by auto with perm. rewrite sp_call by assumption. reflexivity.
Qed.
Lemma dwf_ext : forall word f g, (forall x, f x = g x) -> forall x, dwf f word x = dwf g word x.
Proof. induction word as [|i word IH]; intros f g H x; [apply H|]. apply IH. apply dmf_ext. assumption. Qed.
Lemma dw_call : forall word u x, canonical u -> gens word -> pcall (dw u word) x = dwf (pcall u) word x.
Proof.
  induction word as [|i word IH]; intros u x Hu Hg; [reflexivity|]. inversion Hg; subst. cbn [dw dwf fold_left].
  change (pcall (dw (dm u i) word) x = dwf (dmf (pcall u) i) word x). rewrite IH by auto with perm. apply dwf_ext. intro y. apply dm_call; assumption.
Qed.

(* braid relations of the maps *)
Ltac simp_cases := unfold simple; repeat match goal with |- context [?a =? ?b] => destruct (Z.eqb_spec a b); try lia end.
Lemma simple_eqs : forall i x, 0 < i ->
  simple i i = i + 1 /\ simple i (i + 1) = i /\ (i + 1 < x -> simple i x = x) /\ (0 < x < i -> simple i x = x).
Proof.
  intros i x Hi. split; [apply simple_i; assumption|]. split; [apply simple_i1; assumption|]. split; intro H; apply simple_fix; lia.
Qed.

Definition smap (f : Z -> Z) : Prop := (forall x y, f x = f y -> x = y) /\ (forall x, f (- x) = - f x).

Lemma smap_0 : forall f, smap f -> f 0 = 0.
Proof. intros f [_ H]. specialize (H 0). simpl in H. lia. Qed.

(* commuting *)
Lemma simple_comm : forall i j x, 0 <= i -> i + 1 < j -> simple i (simple j x) = simple j (simple i x).
Proof.
  intros i j x Hi Hj. unfold simple. replace (j =? 0) with false by lia. destruct (Z.eqb_spec i 0) as [->|N];
  repeat match goal with
  | |- context [?a =? ?b] =>
     match a with context [if _ then _ else _] => fail 1 | _ => destruct (Z.eqb_spec a b); try lia end
  end.
Qed.
Lemma simple_braid3 : forall i x, 0 < i ->
  simple i (simple (i + 1) (simple i x)) = simple (i + 1) (simple i (simple (i + 1) x)).
Proof.
  intros i x Hi. unfold simple. replace (i =? 0) with false by lia. replace (i + 1 =? 0) with false by lia.
  repeat match goal with
  | |- context [?a =? ?b] =>
     match a with context [if _ then _ else _] => fail 1 | _ => destruct (Z.eqb_spec a b); try lia end
  end.
Qed.
Lemma simple_braid4 : forall x,
  simple 0 (simple 1 (simple 0 (simple 1 x))) = simple 1 (simple 0 (simple 1 (simple 0 x))).
Proof.
  intros x. destruct (Z_le_gt_dec (Z.abs x) 2) as [L|L].
  - assert (H : x = -2 \/ x = -1 \/ x = 0 \/ x = 1 \/ x = 2) by lia. destruct H as [->|[->|[->|[->| ->]]]]; reflexivity.
  - assert (A : simple 0 x = x) by (apply simple_out; lia). assert (B : simple 1 x = x) by (apply simple_out; lia). rewrite ?B, ?A, ?B, ?A, ?B, ?A, ?B, ?A, ?B. reflexivity.
Qed.

Lemma dwf_comm : forall f i j, smap f -> 0 <= i -> i + 1 < j -> forall x, dwf f [i; j] x = dwf f [j; i] x.
Proof.
  intros f i j Hf Hi Hj x. cbn [dwf fold_left]. unfold dmf.
  assert (E1 : descb (fun y => f (simple i y)) j = descb f j).
  { unfold descb. replace (j =? 0) with false by lia. rewrite !(simple_out i) by lia. reflexivity. }
  assert (E2 : descb (fun y => f (simple j y)) i = descb f i).
  { unfold descb. destruct (Z.eqb_spec i 0) as [->|N]; rewrite !simple_fix by lia; reflexivity. }
  destruct (descb f i) eqn:D1, (descb f j) eqn:D2; rewrite ?E1, ?E2, ?D1, ?D2; try reflexivity.
  rewrite simple_comm by assumption. reflexivity.
Qed.

Lemma dwf_braid3 : forall f i, smap f -> 0 < i -> forall x, dwf f [i; i + 1; i] x = dwf f [i + 1; i; i + 1] x.
Proof.
  intros f i Hf Hi x. cbn [dwf fold_left]. unfold dmf.
  assert (Ni : (i =? 0) = false) by lia. assert (Nj : (i + 1 =? 0) = false) by lia.
  assert (E1 : simple i i = i + 1) by (apply simple_i; lia).
  assert (E2 : simple i (i + 1) = i) by (apply simple_i1; lia).
  assert (E3 : simple i (i + 1 + 1) = i + 1 + 1) by (apply simple_fix; lia).
  assert (E4 : simple (i + 1) i = i) by (apply simple_fix; lia).
  assert (E5 : simple (i + 1) (i + 1) = i + 1 + 1) by (apply simple_i; lia).
  assert (E6 : simple (i + 1) (i + 1 + 1) = i + 1) by (apply simple_i1; lia).
  assert (A : f i <> f (i + 1)) by (intro E; apply Hf in E; lia).
  assert (B : f i <> f (i + 1 + 1)) by (intro E; apply Hf in E; lia).
  assert (C : f (i + 1) <> f (i + 1 + 1)) by (intro E; apply Hf in E; lia).
  unfold descb. rewrite !Ni, !Nj.
  destruct (Z.ltb_spec (f (i + 1)) (f i)), (Z.ltb_spec (f (i + 1 + 1)) (f (i + 1)));
  repeat (cbv beta iota; repeat (rewrite E1 || rewrite E2 || rewrite E3 || rewrite E4 || rewrite E5 || rewrite E6);
    match goal with |- context [?a <? ?b] =>
      lazymatch a with context [if _ then _ else _] => fail | _ => idtac end;
      lazymatch b with context [if _ then _ else _] => fail | _ => idtac end;
      let L := fresh "L" in destruct (Z.ltb_spec a b) as [L|L]; repeat (rewrite E1 in L || rewrite E2 in L || rewrite E3 in L || rewrite E4 in L || rewrite E5 in L || rewrite E6 in L); try lia end);
  cbv beta iota; rewrite ?E1, ?E2, ?E3, ?E4, ?E5, ?E6; try reflexivity; rewrite simple_braid3 by assumption; reflexivity.
Qed.

Lemma dwf_braid4 : forall f, smap f -> forall x, dwf f [0; 1; 0; 1] x = dwf f [1; 0; 1; 0] x.
Proof.
  intros f Hf x. cbn [dwf fold_left]. unfold dmf.
  assert (E1 : simple 0 1 = - (1)) by reflexivity. assert (E2 : simple 0 (1 + 1) = 2) by reflexivity.
  assert (E3 : simple 1 1 = 2) by reflexivity. assert (E4 : simple 1 (1 + 1) = 1) by reflexivity.
  assert (E5 : simple 1 (- (1)) = - (2)) by reflexivity. assert (E6 : simple 0 2 = 2) by reflexivity.
  assert (E7 : simple 1 2 = 1) by reflexivity. assert (E8 : simple 0 (- (2)) = - (2)) by reflexivity. 
  assert (E9 : simple 0 (- (1)) = 1) by reflexivity. assert (E10 : simple 1 (- (2)) = - (1)) by reflexivity.
  assert (E11 : f (- (1)) = - f 1) by (apply Hf). assert (E12 : f (- (2)) = - f 2) by (apply Hf). assert (E13 : 1 + 1 = 2) by reflexivity.
  assert (A : f 1 <> f 2) by (intro E; apply Hf in E; lia). pose proof (smap_0 f Hf) as Z0.
  assert (B : f 1 <> 0) by (intro E; rewrite <- Z0 in E; apply Hf in E; lia).
  assert (C : f 2 <> 0) by (intro E; rewrite <- Z0 in E; apply Hf in E; lia).
  assert (D : f 1 <> - f 2) by (intro E; rewrite <- E12 in E; apply Hf in E; lia).
  unfold descb. change (0 =? 0) with true. change (1 =? 0) with false. cbv iota.
  rewrite ?E13. destruct (Z.ltb_spec (f 1) 0), (Z.ltb_spec (f 2) (f 1));
  repeat (cbv beta iota; repeat (rewrite E1 || rewrite E2 || rewrite E3 || rewrite E4 || rewrite E5 || rewrite E6 || rewrite E7 || rewrite E8 || rewrite E9 || rewrite E10 || rewrite E11 || rewrite E12 || rewrite E13);
    match goal with |- context [?a <? ?b] =>
      lazymatch a with context [if _ then _ else _] => fail | _ => idtac end;
      lazymatch b with context [if _ then _ else _] => fail | _ => idtac end;
      let L := fresh "L" in destruct (Z.ltb_spec a b) as [L|L];
      repeat (rewrite E1 in L || rewrite E2 in L || rewrite E3 in L || rewrite E4 in L || rewrite E5 in L || rewrite E6 in L || rewrite E7 in L || rewrite E8 in L || rewrite E9 in L || rewrite E10 in L || rewrite E11 in L || rewrite E12 in L || rewrite E13 in L); try lia end);
  cbv beta iota; try reflexivity; rewrite simple_braid4; reflexivity.
Qed.
