(* The three actions of letters on (signed) permutations and involutions satisfy the relations
   of the 0-Hecke monoid. *)
From Coq Require Import List ZArith Lia Bool Permutation Arith.
From Verif Require Import PyBase M_Perm S_Perm S_Levels L_Perm L_PermLen L_PermWord L_PermDem L_LevelsInst P_Levels L_Fomin L_FominB.
Import ListNotations.
Local Open Scope Z_scope.

Lemma gens_pair : forall i j, 0 <= i -> 0 <= j -> gens [i; j].
Proof. intros. repeat constructor; assumption. Qed.
Lemma dw_braid : forall i u, canonical u -> 1 <= i -> dw u [i; i + 1; i] = dw u [i + 1; i; i + 1].
Proof. intros i u Hu Hi. apply dw_eq; [assumption|repeat constructor; lia|repeat constructor; lia|]. apply dwf_braid3; [apply smap_pcall; assumption|lia]. Qed.
Lemma dw_braid4 : forall u, canonical u -> dw u [0; 1; 0; 1] = dw u [1; 0; 1; 0].
Proof. intros u Hu. apply dw_eq; [assumption|repeat constructor; lia|repeat constructor; lia|]. apply dwf_braid4. apply smap_pcall. assumption. Qed.
Lemma dw_comm2 : forall i j u, canonical u -> 0 <= i -> i + 1 < j -> dw u [i; j] = dw u [j; i].
Proof. intros i j u Hu Hi Hj. apply dw_eq; [assumption|repeat constructor; lia|repeat constructor; lia|]. apply dwf_comm; [apply smap_pcall; assumption|lia|lia]. Qed.
Lemma dw_idem2 : forall i u, canonical u -> 0 <= i -> dw u [i; i] = dw u [i].
Proof. intros i u Hu Hi. apply dm_idem; assumption. Qed.

(* ---- permutations ---- *)
Lemma U_hact : forall i F p, U (list Z) hact i F p = F (dm p i).
Proof. reflexivity. Qed.
Lemma hact_idem : forall i F p, canonical p -> 0 <= i -> U _ hact i (U _ hact i F) p = U _ hact i F p.
Proof. intros i F p Hp Hi. rewrite !U_hact. f_equal. apply dw_idem2; assumption. Qed.
Lemma hact_braid : forall i F p, canonical p -> 1 <= i -> U _ hact i (U _ hact (i + 1) (U _ hact i F)) p = U _ hact (i + 1) (U _ hact i (U _ hact (i + 1) F)) p.
Proof. intros i F p Hp Hi. rewrite !U_hact. f_equal. apply (dw_braid i p); assumption. Qed.
Lemma hact_comm : forall i j F p, canonical p -> 0 <= i -> i + 1 < j -> U _ hact i (U _ hact j F) p = U _ hact j (U _ hact i F) p.
Proof. intros i j F p Hp Hi Hj. rewrite !U_hact. f_equal. apply (dw_comm2 i j p); assumption. Qed.

(* ---- involutions ---- *)
Lemma dw_words : forall b c u, canonical u -> gens b -> gens c -> dw [] b = dw [] c -> dw u b = dw u c.
Proof.
  intros b c u Hu Gb Gc E. assert (Cn : canonical (dw [] b)) by (apply dw_canonical; [apply nil_canonical|assumption]).
  destruct (reduced_exists _ (dw [] b) Cn eq_refl) as (d & Gd & Pd & Ld). assert (R : reduced d (dw [] b)) by (split; [assumption|split; assumption]).
  assert (R0 : reduced [] []) by (split; [constructor|split; reflexivity]).
  transitivity (dw u d).
  - symmetry. apply (dw_dw b [] [] d u nil_canonical Hu Gb R0 R).
  - rewrite E in R. apply (dw_dw c [] [] d u nil_canonical Hu Gc R0 R).
Qed.
Lemma left_dm : forall b i, gens b -> 0 <= i -> dw [] (i :: b) = (if descb (pcall (invp (dw [] b))) i then dw [] b else mulp (sp i) (dw [] b)).
Proof.
  intros b i Gb Hi. set (z := dw [] b). assert (Hz : canonical z) by (apply dw_canonical; [apply nil_canonical|assumption]).
  set (pk := fun (k : nat) (l : list Z) => hd 0 l). assert (Hpk : forall k l, l <> [] -> In (pk k l) l) by (intros k [|a l] H; [congruence|left; reflexivity]).
  pose proof (pmodf_left pk Hpk z i Hz Hi) as E. destruct (reduced_exists _ z Hz eq_refl) as (c & Gc & Pc & Lc).
  assert (R : reduced c z) by (split; [assumption|split; assumption]).
  rewrite (pmodf_ok pk Hpk _ _ _ (sp_canonical i Hi) Hz R) in E. injection E as E. rewrite <- E.
  change (dw [] (i :: b)) with (dw (dm [] i) b). rewrite dm_nil by assumption. apply dw_words; [apply sp_canonical; assumption|assumption|assumption|].
  fold z. symmetry. apply dw_reduced; assumption.
Qed.
Lemma cj_word : forall b i, gens b -> 0 <= i -> invol (dw [] b) -> cj (dw [] b) i = dw [] (i :: b ++ [i]).
Proof.
  intros b i Gb Hi Hz. change (i :: b ++ [i]) with ((i :: b) ++ [i]). rewrite dw_snoc, left_dm by assumption. rewrite (invol_invp _ Hz). unfold cj.
  destruct (descb (pcall (dw [] b)) i) eqn:E; [|reflexivity]. unfold dm. rewrite E. reflexivity.
Qed.
Definition cjs (z : list Z) (w : list Z) : list Z := fold_left cj w z.
Lemma cjs_invol : forall w z, invol z -> gens w -> invol (cjs z w).
Proof.
  induction w as [|i w IH]; intros z Hz G; [assumption|]. inversion G; subst. cbn [cjs fold_left]. apply IH; [|assumption]. apply cj_rel; assumption.
Qed.
Lemma cjs_word : forall w b, gens w -> gens b -> invol (dw [] b) -> cjs (dw [] b) w = dw [] (rev w ++ b ++ w).
Proof.
  induction w as [|i w IH]; intros b Gw Gb Hz; [cbn; rewrite app_nil_r; reflexivity|]. inversion Gw; subst. cbn [cjs fold_left].
  assert (G' : gens (i :: b ++ [i])) by (constructor; [assumption|]; apply gens_app; split; [assumption|constructor; [assumption|constructor]]).
  fold (cjs (cj (dw [] b) i) w). rewrite cj_word by assumption. rewrite IH; [|assumption|assumption|].
  - cbn [rev]. rewrite <- !app_assoc. cbn [app]. rewrite <- !app_assoc. reflexivity.
  - rewrite <- cj_word by assumption. apply cj_rel; assumption.
Qed.
Lemma invol_word : forall z, invol z -> exists b, gens b /\ dw [] b = z.
Proof.
  intros z [Hz _]. destruct (reduced_exists _ z Hz eq_refl) as (c & Gc & Pc & Lc). exists c. split; [assumption|]. apply dw_reduced; [assumption|]. split; [assumption|split; assumption].
Qed.
(* relations of words on both sides *)
Lemma cjs_rel : forall a c z, invol z -> gens a -> gens c -> (forall u, canonical u -> dw u a = dw u c) -> (forall u, canonical u -> dw u (rev a) = dw u (rev c)) -> cjs z a = cjs z c.
Proof.
  intros a c z Hz Ga Gc E1 E2. destruct (invol_word z Hz) as (b & Gb & <-). rewrite !cjs_word by assumption.
  rewrite !dw_app. rewrite E2 by apply nil_canonical. apply E1. apply dw_canonical; [|assumption]. apply dw_canonical; [apply nil_canonical|]. apply gens_rev. assumption.
Qed.
Lemma cjs_idem : forall i z, invol z -> 0 <= i -> cjs z [i; i] = cjs z [i].
Proof. intros i z Hz Hi. apply cjs_rel; try (repeat constructor; lia); try assumption; intros; apply dw_idem2; assumption. Qed.
Lemma cjs_braid : forall i z, invol z -> 1 <= i -> cjs z [i; i + 1; i] = cjs z [i + 1; i; i + 1].
Proof. intros i z Hz Hi. apply cjs_rel; try (repeat constructor; lia); try assumption; intros; apply dw_braid; assumption. Qed.
Lemma cjs_braid4 : forall z, invol z -> cjs z [0; 1; 0; 1] = cjs z [1; 0; 1; 0].
Proof. intros z Hz. apply cjs_rel; try (repeat constructor; lia); try assumption; intros; [|symmetry]; apply dw_braid4; assumption. Qed.
Lemma cjs_comm : forall i j z, invol z -> 0 <= i -> i + 1 < j -> cjs z [i; j] = cjs z [j; i].
Proof. intros i j z Hz Hi Hj. apply cjs_rel; try (repeat constructor; lia); try assumption; intros; [|symmetry]; apply dw_comm2; assumption. Qed.

Lemma U_iact : forall i F p, U (list Z) (iact true) i F p = F (cj p i).
Proof. reflexivity. Qed.
Lemma iact_idem : forall i F p, invol p -> 0 <= i -> U _ (iact true) i (U _ (iact true) i F) p = U _ (iact true) i F p.
Proof. intros i F p Hp Hi. rewrite !U_iact. f_equal. apply (cjs_idem i p); assumption. Qed.
Lemma iact_braid : forall i F p, invol p -> 1 <= i -> U _ (iact true) i (U _ (iact true) (i + 1) (U _ (iact true) i F)) p = U _ (iact true) (i + 1) (U _ (iact true) i (U _ (iact true) (i + 1) F)) p.
Proof. intros i F p Hp Hi. rewrite !U_iact. f_equal. apply (cjs_braid i p); assumption. Qed.
Lemma iact_braid4 : forall F p, invol p -> U _ (iact true) 0 (U _ (iact true) 1 (U _ (iact true) 0 (U _ (iact true) 1 F))) p = U _ (iact true) 1 (U _ (iact true) 0 (U _ (iact true) 1 (U _ (iact true) 0 F))) p.
Proof. intros F p Hp. rewrite !U_iact. f_equal. apply (cjs_braid4 p); assumption. Qed.
Lemma iact_comm : forall i j F p, invol p -> 0 <= i -> i + 1 < j -> U _ (iact true) i (U _ (iact true) j F) p = U _ (iact true) j (U _ (iact true) i F) p.
Proof. intros i j F p Hp Hi Hj. rewrite !U_iact. f_equal. apply (cjs_comm i j p); assumption. Qed.

(* ---- fixed-point-free involutions ---- *)
(* no fixed points and no sign changes on 1, ..., n *)
Definition fpf (n : Z) (z : list Z) : Prop := invol z /\ forall x, 1 <= x <= n -> 0 < pcall z x /\ pcall z x <> x.
Lemma fpf_step : forall n z i, fpf n z -> 1 <= i < n -> pcall z i <> i + 1 ->
  (pcall z (i + 1) < pcall z i /\ cj z i = z) \/
  (pcall z i < pcall z (i + 1) /\ forall x, pcall (cj z i) x = simple i (pcall z (simple i x))).
Proof.
  intros n z i [Hz Hf] Hi Hn. assert (Hc : signed_word z) by apply Hz. destruct (cj_rel z i Hz ltac:(lia)) as [R V].
  assert (Hd : pcall z i <> pcall z (i + 1)) by (intro E; apply pcall_inj in E; [lia|assumption]).
  destruct R as [[D H]|[(D & C & H)|(D & _ & H)]].
  - left. unfold descent in D. replace (i =? 0) with false in D by lia. split; [assumption|]. apply canonical_ext; [apply V|apply Hz|assumption].
  - exfalso. unfold descent in D. replace (i =? 0) with false in D by lia.
    pose proof (C i) as C1. rewrite simple_i in C1 by lia. destruct (Hf i ltac:(lia)) as [P1 F1]. destruct (Hf (i + 1) ltac:(lia)) as [P2 F2].
    assert (pcall z i < pcall z (i + 1)) by lia.
    destruct (simple_order i (pcall z i) (pcall z (i + 1)) ltac:(lia) H0 ltac:(rewrite <- C1, simple_invol by lia; lia)) as [[Q1 Q2]|[Q1 Q2]]; lia.
  - right. unfold descent in D. replace (i =? 0) with false in D by lia. split; [lia|assumption].
Qed.
Lemma simple_pos : forall i x, 1 <= i -> 0 < x -> 0 < simple i x.
Proof. intros i x Hi Hx. unfold simple. replace (i =? 0) with false by lia. repeat match goal with |- context [?a =? ?b] => destruct (Z.eqb_spec a b) end; lia. Qed.
Lemma simple_range : forall i x n, 1 <= i < n -> 1 <= x <= n -> 1 <= simple i x <= n.
Proof. intros i x n Hi Hx. unfold simple. replace (i =? 0) with false by lia. repeat match goal with |- context [?a =? ?b] => destruct (Z.eqb_spec a b) end; lia. Qed.
Lemma simple_inj : forall i x y, 0 <= i -> simple i x = simple i y -> x = y.
Proof. intros i x y Hi E. rewrite <- (simple_invol i x Hi), E. apply simple_invol. assumption. Qed.
Lemma fpf_cj : forall n z i, fpf n z -> 1 <= i < n -> pcall z i <> i + 1 -> fpf n (cj z i).
Proof.
  intros n z i Hz Hi Hn. destruct (fpf_step n z i Hz Hi Hn) as [[_ ->]|[_ H]]; [assumption|]. destruct Hz as [Hz Hf]. split; [apply cj_rel; [assumption|lia]|].
  intros x Hx. rewrite H. destruct (Hf (simple i x) (simple_range i x n Hi Hx)) as [P1 F1]. split; [apply simple_pos; [lia|assumption]|].
  intro E. apply F1. apply (simple_inj i); [lia|]. rewrite E, simple_invol by lia. reflexivity.
Qed.
Lemma sact_true : forall z i, sact true z i = if pcall z i =? i + 1 then None else Some (cj z i).
Proof. intros. unfold sact, iact. destruct (pcall z i =? i + 1); reflexivity. Qed.
Lemma sact_fpf : forall n z i q, fpf n z -> 1 <= i < n -> sact true z i = Some q -> fpf n q.
Proof. intros n z i q Hz Hi E. rewrite sact_true in E. destruct (Z.eqb_spec (pcall z i) (i + 1)); [discriminate|]. injection E as <-. apply fpf_cj; assumption. Qed.

(* the step on the values of z at i, i + 1, i + 2 *)
Definition triple := (Z * Z * Z)%type.
Definition stepA (i : Z) (t : triple) : option triple :=
  let '(a, b, c) := t in if a =? i + 1 then None else if b <? a then Some t else Some (simple i b, simple i a, simple i c).
Definition stepB (i : Z) (t : triple) : option triple :=
  let '(a, b, c) := t in if b =? i + 2 then None else if c <? b then Some t else Some (simple (i + 1) a, simple (i + 1) c, simple (i + 1) b).
Definition bnd {A B} (o : option A) (f : A -> option B) : option B := match o with Some a => f a | None => None end.
Definition isn {A} (o : option A) : bool := match o with Some _ => false | None => true end.
Definition trip (z : list Z) (i : Z) : triple := (pcall z i, pcall z (i + 1), pcall z (i + 2)).
Lemma trip_A : forall n z i, fpf n z -> 1 <= i < n -> match sact true z i with Some q => stepA i (trip z i) = Some (trip q i) | None => stepA i (trip z i) = None end.
Proof.
  intros n z i Hz Hi. rewrite sact_true. unfold stepA, trip. destruct (Z.eqb_spec (pcall z i) (i + 1)) as [E|E]; [reflexivity|].
  destruct (fpf_step n z i Hz Hi E) as [[H ->]|[H Hx]].
  - replace (pcall z (i + 1) <? pcall z i) with true by lia. reflexivity.
  - replace (pcall z (i + 1) <? pcall z i) with false by lia. rewrite !Hx. rewrite simple_i, simple_i1 by lia. rewrite (simple_fix i (i + 2)) by lia. reflexivity.
Qed.
Lemma trip_B : forall n z i, fpf n z -> 1 <= i -> i + 1 < n -> match sact true z (i + 1) with Some q => stepB i (trip z i) = Some (trip q i) | None => stepB i (trip z i) = None end.
Proof.
  intros n z i Hz Hi Hn. rewrite sact_true. unfold stepB, trip. replace (i + 1 + 1) with (i + 2) by lia. destruct (Z.eqb_spec (pcall z (i + 1)) (i + 2)) as [E|E]; [reflexivity|].
  destruct (fpf_step n z (i + 1) Hz ltac:(lia) ltac:(lia)) as [[H ->]|[H Hx]]; replace (i + 1 + 1) with (i + 2) in * by lia.
  - replace (pcall z (i + 2) <? pcall z (i + 1)) with true by lia. reflexivity.
  - replace (pcall z (i + 2) <? pcall z (i + 1)) with false by lia. rewrite !Hx.
    assert (S1 : simple (i + 1) (i + 1) = i + 2) by (rewrite simple_i by lia; lia).
    assert (S2 : simple (i + 1) (i + 2) = i + 1) by (replace (i + 2) with (i + 1 + 1) by lia; rewrite simple_i1 by lia; reflexivity).
    rewrite S1, S2, (simple_fix (i + 1) i) by lia. reflexivity.
Qed.
Lemma simple_val : forall i x, 1 <= i -> 0 < x -> (x = i /\ simple i x = i + 1) \/ (x = i + 1 /\ simple i x = i) \/ (x <> i /\ x <> i + 1 /\ simple i x = x).
Proof.
  intros i x Hi Hx. destruct (Z.eq_dec x i) as [->|N1]; [left; rewrite simple_i by lia; auto|]. destruct (Z.eq_dec x (i + 1)) as [->|N2]; [right; left; rewrite simple_i1 by lia; auto|].
  right. right. rewrite simple_fix by lia. auto.
Qed.
Lemma triple_none : forall i a b c, 1 <= i -> 0 < a -> 0 < b -> 0 < c -> a <> b -> a <> c -> b <> c -> a <> i -> b <> i + 1 -> c <> i + 2 ->
  (a = i + 1 <-> b = i) -> (a = i + 2 <-> c = i) -> (b = i + 2 <-> c = i + 1) ->
  isn (bnd (bnd (stepA i (a, b, c)) (stepB i)) (stepA i)) = isn (bnd (bnd (stepB i (a, b, c)) (stepA i)) (stepB i)).
Proof.
  intros i a b c Hi Ha Hb Hc N1 N2 N3 F1 F2 F3 E1 E2 E3.
  assert (A0 : simple i i = i + 1) by (apply simple_i; lia). assert (A1 : simple i (i + 1) = i) by (apply simple_i1; lia). assert (A2 : simple i (i + 2) = i + 2) by (apply simple_fix; lia).
  assert (B0 : simple (i + 1) i = i) by (apply simple_fix; lia). assert (B1 : simple (i + 1) (i + 1) = i + 2) by (rewrite simple_i by lia; lia).
  assert (B2 : simple (i + 1) (i + 2) = i + 1) by (replace (i + 2) with (i + 1 + 1) by lia; apply simple_i1; lia).
  Local Ltac go R := repeat (unfold stepA, stepB; cbn [bnd isn]; R; match goal with
    | |- context [?x =? ?y] => first [replace (x =? y) with false by lia | replace (x =? y) with true by lia]
    | |- context [?x <? ?y] => first [replace (x <? y) with false by lia | replace (x <? y) with true by lia]
    end); cbn [bnd isn]; try reflexivity.
  destruct (Z.eq_dec a (i + 1)) as [Ea|Na]; [|destruct (Z.eq_dec b (i + 2)) as [Eb|Nb]; [|destruct (Z.eq_dec a (i + 2)) as [Ea|Na2]]].
  - assert (b = i) by tauto. assert (c <> i) by lia. assert (c <> i + 1) by lia. clear E1 E2 E3. subst a b.
    assert (C0 : simple i c = c) by (apply simple_fix; lia). assert (C1 : simple (i + 1) c = c) by (apply simple_fix; lia).
    destruct (Z_lt_ge_dec c i); go ltac:(rewrite ?A0, ?A1, ?A2, ?B0, ?B1, ?B2, ?C0, ?C1).
  - assert (c = i + 1) by tauto. assert (a <> i + 2) by lia. clear E1 E2 E3. subst b c.
    assert (C0 : simple i a = a) by (apply simple_fix; lia). assert (C1 : simple (i + 1) a = a) by (apply simple_fix; lia).
    destruct (Z_lt_ge_dec a i); go ltac:(rewrite ?A0, ?A1, ?A2, ?B0, ?B1, ?B2, ?C0, ?C1).
  - assert (c = i) by tauto. assert (b <> i) by lia. clear E1 E2 E3. subst a c.
    assert (C0 : simple i b = b) by (apply simple_fix; lia). assert (C1 : simple (i + 1) b = b) by (apply simple_fix; lia).
    destruct (Z_lt_ge_dec b i); go ltac:(rewrite ?A0, ?A1, ?A2, ?B0, ?B1, ?B2, ?C0, ?C1).
  - assert (b <> i) by tauto. assert (c <> i) by tauto. assert (c <> i + 1) by tauto. clear E1 E2 E3 A0 A1 A2 B0 B1 B2.
    assert (C0 : simple i a = a) by (apply simple_fix; lia). assert (C1 : simple (i + 1) a = a) by (apply simple_fix; lia).
    assert (D0 : simple i b = b) by (apply simple_fix; lia). assert (D1 : simple (i + 1) b = b) by (apply simple_fix; lia).
    assert (G0 : simple i c = c) by (apply simple_fix; lia). assert (G1 : simple (i + 1) c = c) by (apply simple_fix; lia).
    destruct (Z_lt_ge_dec a b), (Z_lt_ge_dec b c), (Z_lt_ge_dec a c); try lia; go ltac:(rewrite ?C0, ?C1, ?D0, ?D1, ?G0, ?G1).
Qed.
Notation Us := (U (list Z) (sact true)).
Lemma Us_eq : forall i F p, Us i F p = if pcall p i =? i + 1 then 0 else F (cj p i).
Proof. intros. unfold U. rewrite sact_true. destruct (pcall p i =? i + 1); reflexivity. Qed.
Fixpoint spath (p : list Z) (w : list Z) : option (list Z) := match w with [] => Some p | i :: w' => bnd (sact true p i) (fun q => spath q w') end.
Lemma spath_cjs : forall w p q, spath p w = Some q -> q = cjs p w.
Proof.
  induction w as [|i w IH]; intros p q E; cbn [spath cjs fold_left] in *; [congruence|]. rewrite sact_true in E. destruct (pcall p i =? i + 1); [discriminate|]. cbn [bnd] in E. apply IH in E. exact E.
Qed.
Lemma sact_trip : forall n z i, fpf n z -> 1 <= i -> i + 1 < n ->
  isn (spath z [i; i + 1; i]) = isn (bnd (bnd (stepA i (trip z i)) (stepB i)) (stepA i)) /\
  isn (spath z [i + 1; i; i + 1]) = isn (bnd (bnd (stepB i (trip z i)) (stepA i)) (stepB i)).
Proof.
  intros n z i Hz Hi Hn. split; cbn [spath].
  - pose proof (trip_A n z i Hz ltac:(lia)) as T1. destruct (sact true z i) as [z1|] eqn:E1; rewrite T1; cbn [bnd isn]; [|reflexivity].
    assert (H1 : fpf n z1) by (eapply sact_fpf; [exact Hz| |exact E1]; lia).
    pose proof (trip_B n z1 i H1 Hi Hn) as T2. destruct (sact true z1 (i + 1)) as [z2|] eqn:E2; rewrite T2; cbn [bnd isn]; [|reflexivity].
    assert (H2 : fpf n z2) by (eapply sact_fpf; [exact H1| |exact E2]; lia).
    pose proof (trip_A n z2 i H2 ltac:(lia)) as T3. destruct (sact true z2 i) as [z3|] eqn:E3; rewrite T3; reflexivity.
  - pose proof (trip_B n z i Hz Hi Hn) as T1. destruct (sact true z (i + 1)) as [z1|] eqn:E1; rewrite T1; cbn [bnd isn]; [|reflexivity].
    assert (H1 : fpf n z1) by (eapply sact_fpf; [exact Hz| |exact E1]; lia).
    pose proof (trip_A n z1 i H1 ltac:(lia)) as T2. destruct (sact true z1 i) as [z2|] eqn:E2; rewrite T2; cbn [bnd isn]; [|reflexivity].
    assert (H2 : fpf n z2) by (eapply sact_fpf; [exact H1| |exact E2]; lia).
    pose proof (trip_B n z2 i H2 Hi Hn) as T3. destruct (sact true z2 (i + 1)) as [z3|] eqn:E3; rewrite T3; reflexivity.
Qed.
Lemma fpf_vals : forall n z x y, fpf n z -> 1 <= x <= n -> 1 <= y <= n -> x <> y -> pcall z x <> pcall z y /\ (pcall z x = y <-> pcall z y = x).
Proof.
  intros n z x y [[Hc Hv] Hf] Hx Hy N. split; [intro E; apply pcall_inj in E; [lia|apply Hc]|]. split; intro E; rewrite <- E; apply Hv.
Qed.
Lemma sact_braid_none : forall n z i, fpf n z -> 1 <= i -> i + 1 < n -> isn (spath z [i; i + 1; i]) = isn (spath z [i + 1; i; i + 1]).
Proof.
  intros n z i Hz Hi Hn. destruct (sact_trip n z i Hz Hi Hn) as [-> ->]. pose proof Hz as [_ Hf].
  destruct (Hf i ltac:(lia)) as [P0 F0]. destruct (Hf (i + 1) ltac:(lia)) as [P1 F1]. destruct (Hf (i + 2) ltac:(lia)) as [P2 F2].
  destruct (fpf_vals n z i (i + 1) Hz ltac:(lia) ltac:(lia) ltac:(lia)) as [D01 V01]. destruct (fpf_vals n z i (i + 2) Hz ltac:(lia) ltac:(lia) ltac:(lia)) as [D02 V02].
  destruct (fpf_vals n z (i + 1) (i + 2) Hz ltac:(lia) ltac:(lia) ltac:(lia)) as [D12 V12].
  apply triple_none; assumption.
Qed.
Lemma Us_path : forall w p F, fold_right (fun i G => Us i G) F w p = match spath p w with Some q => F q | None => 0 end.
Proof.
  induction w as [|i w IH]; intros p F; [reflexivity|]. cbn [fold_right spath]. rewrite Us_eq, sact_true. destruct (pcall p i =? i + 1); [reflexivity|]. cbn [bnd]. apply IH.
Qed.
Lemma Us_rel : forall a c p F, isn (spath p a) = isn (spath p c) -> cjs p a = cjs p c -> fold_right (fun i G => Us i G) F a p = fold_right (fun i G => Us i G) F c p.
Proof.
  intros a c p F E1 E2. rewrite !Us_path. destruct (spath p a) as [q|] eqn:A, (spath p c) as [r|] eqn:C; try discriminate; [|reflexivity].
  apply spath_cjs in A. apply spath_cjs in C. congruence.
Qed.
Lemma sact_braid : forall n i F p, fpf n p -> 1 <= i -> i + 1 < n -> Us i (Us (i + 1) (Us i F)) p = Us (i + 1) (Us i (Us (i + 1) F)) p.
Proof. intros n i F p Hp Hi Hn. apply (Us_rel [i; i + 1; i] [i + 1; i; i + 1] p F); [apply (sact_braid_none n); assumption|apply cjs_braid; [apply Hp|assumption]]. Qed.
Lemma sact_idem : forall n i F p, fpf n p -> 1 <= i < n -> Us i (Us i F) p = Us i F p.
Proof.
  intros n i F p Hp Hi. apply (Us_rel [i; i] [i] p F); [|apply cjs_idem; [apply Hp|lia]]. cbn [spath]. rewrite sact_true. destruct (Z.eqb_spec (pcall p i) (i + 1)) as [|N]; [reflexivity|]. cbn [bnd].
  rewrite sact_true. destruct (fpf_step n p i Hp Hi N) as [[_ E]|[_ E]].
  - rewrite E. replace (pcall p i =? i + 1) with false by lia. reflexivity.
  - rewrite E. rewrite simple_i by lia. destruct (Z.eqb_spec (simple i (pcall p (i + 1))) (i + 1)) as [Q|]; [|reflexivity]. exfalso. apply N.
    assert (pcall p (i + 1) = i) by (apply (simple_inj i); [lia|]; rewrite Q; symmetry; apply simple_i; lia). apply (fpf_vals n p i (i + 1) Hp); lia.
Qed.
Lemma sact_far : forall n z i j, fpf n z -> 1 <= i < n -> 1 <= j < n -> (i + 1 < j \/ j + 1 < i) -> pcall z j <> j + 1 -> (pcall (cj z j) i = i + 1 <-> pcall z i = i + 1).
Proof.
  intros n z i j Hz Hi Hj Hij N. destruct (fpf_step n z j Hz Hj N) as [[_ ->]|[_ E]]; [tauto|]. rewrite E. rewrite (simple_fix j i) by lia.
  split; intro H.
  - apply (simple_inj j); [lia|]. rewrite H. symmetry. apply simple_fix; lia.
  - rewrite H. apply simple_fix; lia.
Qed.
Lemma sact_comm : forall n i j F p, fpf n p -> 1 <= i -> i + 1 < j -> j < n -> Us i (Us j F) p = Us j (Us i F) p.
Proof.
  intros n i j F p Hp Hi Hij Hj. apply (Us_rel [i; j] [j; i] p F); [|apply cjs_comm; [apply Hp|lia|lia]]. cbn [spath].
  rewrite !sact_true. destruct (Z.eqb_spec (pcall p i) (i + 1)) as [Q|Q], (Z.eqb_spec (pcall p j) (j + 1)) as [R|R]; cbn [bnd]; try reflexivity.
  - rewrite sact_true. replace (pcall (cj p j) i =? i + 1) with true; [reflexivity|]. symmetry. apply Z.eqb_eq. apply (sact_far n p i j); try assumption; lia.
  - rewrite sact_true. replace (pcall (cj p i) j =? j + 1) with true; [reflexivity|]. symmetry. apply Z.eqb_eq. apply (sact_far n p j i); try assumption; lia.
  - rewrite !sact_true. replace (pcall (cj p i) j =? j + 1) with false; [replace (pcall (cj p j) i =? i + 1) with false; [reflexivity|]|]; symmetry; apply Z.eqb_neq; intro H.
    + apply (sact_far n p i j) in H; try assumption; lia.
    + apply (sact_far n p j i) in H; try assumption; lia.
Qed.
