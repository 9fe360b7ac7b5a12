(* Set-valued crystal operators on tableaux: the operators are total, inverse to each other and keep semistandardness. *)
From Coq Require Import List ZArith Lia Bool Sorted Permutation.
From Verif Require Import PyBase FinSum M_Partitions M_Vectors M_Words S_Words L_Words M_Tableaux S_Tableaux L_Tableaux S_Partitions S_Strips S_Semistandard M_TabCrystal L_TabCrystal1.
Import ListNotations.
Local Open Scope Z_scope.

Definition triples (t : tab) : list (box * Z) := flat_map (fun cv => map (fun v => (fst cv, v)) (snd cv)) t.
Definition good (t : tab) : Prop := well_formed t /\ forall c l, In (c, l) t -> l <> [] /\ NoDup l.

Lemma triples_in : forall t x y v, In ((x, y), v) (triples t) <-> holds t x y v.
Proof.
  intros t x y v. unfold triples, holds. rewrite in_flat_map. split.
  - intros ([c l] & A & B). apply in_map_iff in B. destruct B as (w & E & Hw). cbn [fst snd] in *. injection E as <- <-. exists l. tauto.
  - intros (l & A & B). exists ((x, y), l). split; [exact A|]. apply in_map_iff. exists v. tauto.
Qed.
Lemma triples_nodup : forall t, good t -> NoDup (triples t).
Proof.
  intros t [[S _] N]. unfold triples. induction t as [|[c l] t IH]; [constructor|]. cbn [map fst flat_map] in *. inversion S as [|? ? S1 S2]; subst. apply NoDup_app_intro.
  - apply FinFun.Injective_map_NoDup; [intros a b E; congruence|]. apply (N c l). left. reflexivity.
  - apply IH; [exact S1|]. intros d m Hd. apply (N d m). right. exact Hd.
  - intros [d v] A B. apply in_map_iff in A. destruct A as (w & E & _). injection E as <- _. apply in_flat_map in B. destruct B as ([d m] & B1 & B2). apply in_map_iff in B2. destruct B2 as (u & E & _). cbn [fst] in E. injection E as -> _. rewrite Forall_forall in S2. apply (before_irrefl c). apply S2. apply in_map_iff. exists (c, m). tauto.
Qed.
Lemma triples_snd : forall t, map snd (triples t) = flat_map snd t.
Proof. unfold triples. induction t as [|[c l] t IH]; [reflexivity|]. cbn [flat_map]. rewrite map_app, map_map, IH. f_equal. cbn [snd]. apply map_id. Qed.

Lemma sv_leb_klt : forall a b, sv_leb a b = true <-> klt a b \/ a = b.
Proof.
  intros [[x y] v] [[x' y'] v']. unfold sv_leb, klt. cbn [fst snd]. rewrite !orb_true_iff, !andb_true_iff, !Z.ltb_lt, !Z.eqb_eq, orb_true_iff, andb_true_iff, Z.ltb_lt, Z.eqb_eq, Z.leb_le. split.
  - intro K. destruct (Z.eq_dec y y') as [->|]; [|lia]. destruct (Z.eq_dec x x') as [->|]; [|lia]. destruct (Z.eq_dec v v') as [->|]; [tauto|lia].
  - intros [K|K]; [lia|]. injection K as -> -> ->. lia.
Qed.
Lemma klt_total : forall a b, klt a b \/ a = b \/ klt b a.
Proof. intros [[x y] v] [[x' y'] v']. unfold klt. cbn [fst snd]. destruct (Z.eq_dec y y') as [->|]; [|lia]. destruct (Z.eq_dec x x') as [->|]; [|lia]. destruct (Z.eq_dec v v') as [->|]; [tauto|lia]. Qed.
Lemma ins_by_in : forall A (leb : A -> A -> bool) a l q, In q (ins_by leb a l) <-> q = a \/ In q l.
Proof.
  intros A leb a. induction l as [|b l IH]; intro q; cbn [ins_by]; [cbn; intuition congruence|]. destruct (leb a b); cbn [In]; [intuition congruence|]. rewrite IH. tauto.
Qed.
Lemma ins_sorted : forall a l, StronglySorted klt l -> ~ In a l -> StronglySorted klt (ins_by sv_leb a l).
Proof.
  intros a. induction l as [|b l IH]; intros S N; cbn [ins_by]; [constructor; constructor|]. inversion S as [|? ? S1 S2]; subst. destruct (sv_leb a b) eqn:E.
  - apply sv_leb_klt in E. destruct E as [E|E]; [|exfalso; apply N; left; congruence]. constructor; [exact S|]. constructor; [exact E|]. rewrite Forall_forall in *. intros q Hq. apply (klt_trans _ b); [exact E|apply S2; exact Hq].
  - constructor; [apply IH; [exact S1|intro K; apply N; right; exact K]|]. rewrite Forall_forall in *. intros q Hq. apply ins_by_in in Hq. destruct Hq as [->|Hq]; [|apply S2; exact Hq].
    destruct (klt_total a b) as [K|[K|K]]; [|exfalso; apply N; left; congruence|exact K]. assert (sv_leb a b = true) by (apply sv_leb_klt; tauto). congruence.
Qed.
Lemma isort_klt : forall l, NoDup l -> StronglySorted klt (isort sv_leb l) /\ (forall q, In q (isort sv_leb l) <-> In q l).
Proof.
  induction l as [|a l IH]; intro N; [split; [constructor|intro q; cbn; tauto]|]. inversion N; subst. destruct IH as [A B]; [assumption|]. cbn [isort fold_right]. fold (isort sv_leb l). split; [apply ins_sorted; [exact A|rewrite B; assumption]|].
  intro q. rewrite ins_by_in, B. cbn. intuition congruence.
Qed.
Lemma sv_letters_eq : forall i t, sv_letters i t = isort sv_leb (filter (fun p => (snd p =? i) || (snd p =? i + 1)) (triples t)).
Proof.
  intros i t. unfold sv_letters, triples. f_equal. induction t as [|[c l] t IH]; [reflexivity|]. cbn [flat_map fst snd]. rewrite filter_app, IH. f_equal. clear. induction l as [|v l IH]; [reflexivity|]. cbn [filter map snd]. destruct ((v =? i) || (v =? i + 1)); cbn [map]; rewrite IH; reflexivity.
Qed.
Lemma sv_sig : forall i t, good t -> Sig i (sv_letters i t) (holds t).
Proof.
  intros i t G. rewrite sv_letters_eq. destruct (isort_klt (filter (fun p => (snd p =? i) || (snd p =? i + 1)) (triples t))) as [A B]; [apply NoDup_filter; apply triples_nodup; exact G|]. split; [exact A|].
  intros x y v. rewrite B, filter_In, triples_in. cbn [snd]. rewrite orb_true_iff, !Z.eqb_eq. tauto.
Qed.
Lemma sig_letters : forall i s H, Sig i s H -> letters i s.
Proof. intros i s H [_ M] [[x y] v] Hp. apply M in Hp. cbn [snd]. tauto. Qed.
Lemma sig_unique : forall i s s' H, Sig i s H -> Sig i s' H -> s = s'.
Proof. intros i s s' H [A M] [A' M']. apply sorted_unique; [exact A|exact A'|]. intros [[x y] v]. rewrite M, M'. tauto. Qed.
Lemma sig_ext : forall i s (H H' : Z -> Z -> Z -> Prop), (forall x y v, H x y v <-> H' x y v) -> Sig i s H -> Sig i s H'.
Proof. intros i s H H' E [A M]. split; [exact A|]. intros x y v. rewrite M, E. tauto. Qed.
Lemma ssv_ext : forall (D D' : Z -> Z -> Prop) (H H' : Z -> Z -> Z -> Prop), (forall x y, D x y <-> D' x y) -> (forall x y v, H x y v <-> H' x y v) -> SSV D H -> SSV D' H'.
Proof.
  intros D D' H H' ED EH [A B C E F G]. split.
  - intros x y v K. apply ED. apply (A x y v). apply EH. exact K.
  - intros x y K. apply ED in K. destruct (B x y K) as (v & Hv). exists v. apply EH. exact Hv.
  - intros x y v u K L. apply EH in K. apply EH in L. apply (C _ _ _ _ K L).
  - intros x y v u K L. apply EH in K. apply EH in L. apply (E _ _ _ _ K L).
  - intros x x' y k K L. rewrite <- !ED in *. apply (F x x'); assumption.
  - intros x y K L. rewrite <- !ED in *. apply G; assumption.
Qed.

(* ---------- tables ---------- *)
Lemma lookup_holds : forall t x y v, well_formed t -> (holds t x y v <-> exists l, tlookup t (x, y) = Some l /\ In v l).
Proof. intros t x y v [S _]. unfold holds. split; intros (l & A & B); exists l; (split; [|exact B]); [apply In_tlookup; assumption|apply tlookup_In; exact A]. Qed.
Lemma good_lookup : forall t c l, good t -> tlookup t c = Some l -> l <> [] /\ NoDup l /\ increasing l /\ 0 < fst c /\ 0 < snd c.
Proof. intros t c l [W N] E. apply tlookup_In in E. destruct (N c l E). destruct W as [_ W]. destruct (W c l E) as (? & ? & ?). tauto. Qed.
Lemma good_ext : forall t u, good t -> good u -> (forall x y v, holds t x y v <-> holds u x y v) -> t = u.
Proof.
  intros t u Gt Gu E. apply wf_ext; [apply Gt|apply Gu|]. intros [x y]. destruct (tlookup t (x, y)) as [l|] eqn:Et; destruct (tlookup u (x, y)) as [m|] eqn:Eu.
  - destruct (good_lookup _ _ _ Gt Et) as (_ & Nl & Il & _). destruct (good_lookup _ _ _ Gu Eu) as (_ & Nm & Im & _). f_equal. apply increasing_perm_eq; [exact Il|exact Im|]. apply NoDup_Permutation; [exact Nl|exact Nm|]. intro v. specialize (E x y v). rewrite (lookup_holds t) in E by apply Gt. rewrite (lookup_holds u) in E by apply Gu. rewrite Et, Eu in E. split; intro K.
    + destruct (proj1 E (ex_intro _ l (conj eq_refl K))) as (l' & E' & K'). injection E' as <-. exact K'.
    + destruct (proj2 E (ex_intro _ m (conj eq_refl K))) as (l' & E' & K'). injection E' as <-. exact K'.
  - exfalso. destruct (good_lookup _ _ _ Gt Et) as (Nl & _). destruct l as [|v l]; [tauto|]. destruct (proj1 (lookup_holds u x y v (proj1 Gu))) as (m & Em & _); [apply E; apply (lookup_holds t); [apply Gt|]; exists (v :: l); cbn; tauto|congruence].
  - exfalso. destruct (good_lookup _ _ _ Gu Eu) as (Nl & _). destruct m as [|v l]; [tauto|]. destruct (proj1 (lookup_holds t x y v (proj1 Gt))) as (m & Em & _); [apply E; apply (lookup_holds u); [apply Gu|]; exists (v :: l); cbn; tauto|congruence].
  - reflexivity.
Qed.
Lemma holds_at_spec : forall t x y v, well_formed t -> (holds_at t (x, y) v = true <-> holds t x y v).
Proof.
  intros t x y v W. rewrite (lookup_holds t x y v W). unfold holds_at. destruct (tlookup t (x, y)) as [l|]; [|split; [discriminate|intros (l & E & _); discriminate]]. rewrite existsb_exists. split.
  - intros (w & A & B). apply Z.eqb_eq in B. subst w. exists l. tauto.
  - intros (m & E & K). injection E as <-. exists v. split; [exact K|apply Z.eqb_refl].
Qed.

Lemma remove_good : forall t a b v, good t -> holds t a b v -> exists u, tremove t a b (Some v) = Ok u /\ good u /\ forall p q w, holds u p q w <-> holds t p q w /\ ~ (p = a /\ q = b /\ w = v).
Proof.
  intros t a b v G K. pose proof G as G0. destruct G as [W N]. apply (lookup_holds t a b v W) in K. destruct K as (l & E & Hv). destruct (good_lookup t (a, b) l G0 E) as (Nl & Dl & Il & P1 & P2). cbn [fst snd] in P1, P2.
  unfold tremove. rewrite E. replace (existsb (Z.eqb v) l) with true by (symmetry; apply existsb_exists; exists v; split; [exact Hv|apply Z.eqb_refl]).
  pose proof (cut_first_perm v l Hv) as P. assert (D : NoDup (v :: cut_first v l)) by (apply (Permutation_NoDup P); exact Dl). pose proof (cut_first_increasing v l Il) as Ic. inversion D as [|? ? D1 D2]; subst.
  assert (CI : forall w, In w (cut_first v l) <-> In w l /\ w <> v).
  { intro w. split; [intro Q; split; [apply (cut_first_In v); exact Q|intros ->; contradiction]|]. intros [Q Q']. apply (Permutation_in _ P) in Q. destruct Q as [Q|Q]; [congruence|exact Q]. }
  assert (F : forall u, well_formed u -> (forall c, tlookup u c = if box_eqb (a, b) c then (match cut_first v l with [] => None | m => Some m end) else tlookup t c) -> good u /\ forall p q w, holds u p q w <-> holds t p q w /\ ~ (p = a /\ q = b /\ w = v)).
  { intros u Wu Lu. split.
    - split; [exact Wu|]. intros c m Hc. apply In_tlookup in Hc; [|apply Wu]. rewrite Lu in Hc. destruct (box_eqb (a, b) c); [|destruct (good_lookup _ _ _ G0 Hc) as (? & ? & _); tauto]. destruct (cut_first v l) as [|z r] eqn:Ec; [discriminate|]. injection Hc as <-. split; [discriminate|exact D2].
    - intros p q w. rewrite (lookup_holds u p q w Wu), (lookup_holds t p q w W), Lu. destruct (box_eqb (a, b) (p, q)) eqn:B.
      + apply box_eqb_eq in B. injection B as <- <-. rewrite E. split.
        * intros (m & Em & Hm). assert (In w (cut_first v l)) by (destruct (cut_first v l); [discriminate|]; injection Em as <-; exact Hm). apply CI in H. split; [exists l; tauto|]. intros (_ & _ & ->). tauto.
        * intros [(m & Em & Hm) Nv]. injection Em as <-. assert (In w (cut_first v l)) by (apply CI; split; [exact Hm|intros ->; apply Nv; tauto]). exists (cut_first v l). split; [|exact H]. destruct (cut_first v l); [destruct H|reflexivity].
      + apply box_eqb_neq in B. split; [intro Q; split; [exact Q|intros (-> & -> & _); apply B; reflexivity]|tauto]. }
  destruct (cut_first v l) as [|z r] eqn:Ec.
  - rewrite (tinit_items _ (tdel_wf t (a, b) W)). eexists. split; [reflexivity|]. apply F; [apply tdel_wf; exact W|]. intro c. apply tlookup_tdel. apply W.
  - rewrite (tinit_mput_eq t (a, b)) by (first [exact W|exact (conj P1 P2)]). cbn [tuplize]. rewrite sorted_id by exact Ic. eexists. split; [reflexivity|]. apply F; [apply tput_wf; [exact W|exact (conj P1 P2)|exact Ic]|]. intro c. apply tlookup_tput. apply W.
Qed.
Lemma add_good : forall t x y u, good t -> 0 < x -> 0 < y -> ~ holds t x y u -> exists t', tadd t x y (VInt u) = Ok t' /\ good t' /\ forall p q w, holds t' p q w <-> holds t p q w \/ (p = x /\ q = y /\ w = u).
Proof.
  intros t x y u G Hx Hy K. pose proof G as G0. destruct G as [W N]. rewrite (tadd_int t x y u W Hx Hy). eexists. split; [reflexivity|].
  assert (EI : increasing (entries t (x, y)) /\ NoDup (entries t (x, y)) /\ ~ In u (entries t (x, y)) /\ forall w, In w (entries t (x, y)) <-> holds t x y w).
  { unfold entries. destruct (tlookup t (x, y)) as [l|] eqn:E.
    - destruct (good_lookup t (x, y) l G0 E) as (Nl & Dl & Il & _). split; [exact Il|]. split; [exact Dl|]. split; [intro Q; apply K; apply (lookup_holds t x y u W); exists l; tauto|]. intro w. rewrite (lookup_holds t x y w W). split; [intro Q; exists l; tauto|intros (m & Em & Hm); rewrite E in Em; injection Em as <-; exact Hm].
    - split; [constructor|]. split; [constructor|]. split; [intros []|]. intro w. split; [intros []|]. intro Q. apply (lookup_holds t x y w W) in Q. destruct Q as (m & Em & _). congruence. }
  destruct EI as (E1 & E2 & E3 & E4). set (m := sinsert u (entries t (x, y))). pose proof (sinsert_perm u (entries t (x, y))) as P. fold m in P.
  assert (Wu : well_formed (tput (x, y) m t)) by (apply tput_wf; [exact W|exact (conj Hx Hy)|apply sinsert_increasing; exact E1]).
  assert (Lu : forall c, tlookup (tput (x, y) m t) c = if box_eqb (x, y) c then Some m else tlookup t c) by (intro c; apply tlookup_tput; apply W).
  assert (Dm : NoDup m) by (apply (Permutation_NoDup P); constructor; assumption).
  split.
  - split; [exact Wu|]. intros c l Hc. apply In_tlookup in Hc; [|apply Wu]. rewrite Lu in Hc. destruct (box_eqb (x, y) c); [|destruct (good_lookup _ _ _ G0 Hc) as (? & ? & _); tauto]. injection Hc as <-. split; [|exact Dm]. intro Q. rewrite Q in P. apply Permutation_sym, Permutation_nil in P. discriminate.
  - intros p q w. rewrite (lookup_holds _ p q w Wu), Lu. destruct (box_eqb (x, y) (p, q)) eqn:B.
    + apply box_eqb_eq in B. injection B as <- <-. rewrite <- E4. split.
      * intros (l & El & Hl). injection El as <-. apply (Permutation_in _ (Permutation_sym P)) in Hl. destruct Hl as [<-|Hl]; tauto.
      * intro Q. exists m. split; [reflexivity|]. apply (Permutation_in _ P). destruct Q as [Q|(_ & _ & ->)]; [right; exact Q|left; reflexivity].
    + apply box_eqb_neq in B. rewrite <- (lookup_holds t p q w W). split; [tauto|]. intros [Q|(-> & -> & _)]; [exact Q|exfalso; apply B; reflexivity].
Qed.
Lemma move_good : forall t a b v x y u, good t -> holds t a b v -> 0 < x -> 0 < y -> ~ holds t x y u ->
  exists t', move t a b v x y u = Ok (Some t') /\ good t' /\ forall p q w, holds t' p q w <-> swap (holds t) a b v x y u p q w.
Proof.
  intros t a b v x y u G K Hx Hy L. destruct (remove_good t a b v G K) as (t1 & E1 & G1 & M1). destruct (add_good t1 x y u G1 Hx Hy) as (t2 & E2 & G2 & M2); [rewrite M1; tauto|].
  exists t2. split; [unfold move; rewrite E1; cbn [rbind]; rewrite E2; reflexivity|]. split; [exact G2|]. intros p q w. rewrite M2, M1. reflexivity.
Qed.
Lemma swap_weight : forall t t' a b v x y u, good t -> good t' -> holds t a b v -> ~ holds t x y u -> v <> u -> (forall p q w, holds t' p q w <-> swap (holds t) a b v x y u p q w) ->
  Permutation (v :: flat_map snd t') (u :: flat_map snd t).
Proof.
  intros t t' a b v x y u G G' K L N M. rewrite <- !triples_snd. change (v :: map snd (triples t')) with (map snd (((a, b), v) :: triples t')). change (u :: map snd (triples t)) with (map snd (((x, y), u) :: triples t)). apply Permutation_map. apply NoDup_Permutation.
  - constructor; [|apply triples_nodup; exact G']. rewrite triples_in, M. unfold swap. intros [[_ Q]|(_ & _ & Q)]; [apply Q; tauto|contradiction].
  - constructor; [|apply triples_nodup; exact G]. rewrite triples_in. exact L.
  - intros [[p q] w]. cbn [In]. rewrite !triples_in, M. unfold swap. split.
    + intros [Q|[[Q _]|(-> & -> & ->)]]; [injection Q as <- <- <-; right; exact K|right; exact Q|left; reflexivity].
    + intros [Q|Q]; [injection Q as <- <- <-; right; right; tauto|]. destruct (Z.eq_dec p a) as [->|]; [destruct (Z.eq_dec q b) as [->|]; [destruct (Z.eq_dec w v) as [->|]; [left; reflexivity|]|]|]; (right; left; split; [exact Q|tauto]).
Qed.

(* ---------- reflection ---------- *)
Section Refl.
  Variable i : Z.
  Definition rl (p : box * Z) : box * Z := ((- fst (fst p), - snd (fst p)), 2 * i + 1 - snd p).
  Definition rH (H : Z -> Z -> Z -> Prop) (x y v : Z) : Prop := H (- x) (- y) (2 * i + 1 - v).
  Definition rD (D : Z -> Z -> Prop) (x y : Z) : Prop := D (- x) (- y).
  Definition rs (s : list (box * Z)) : list (box * Z) := rev (map rl s).
  Lemma rl_rl : forall p, rl (rl p) = p.
  Proof. intros [[x y] v]. unfold rl. cbn [fst snd]. rewrite !Z.opp_involutive. f_equal. lia. Qed.
  Lemma rl_klt : forall a b, klt (rl a) (rl b) <-> klt b a.
  Proof. intros [[x y] v] [[x' y'] v']. unfold klt, rl. cbn [fst snd]. lia. Qed.
  Lemma rl_in : forall s p, In p (rs s) <-> In (rl p) s.
  Proof.
    intros s p. unfold rs. rewrite <- in_rev, in_map_iff. split; [intros (q & <- & Hq); rewrite rl_rl; exact Hq|]. intro K. exists (rl p). rewrite rl_rl. tauto.
  Qed.
  Lemma rs_sorted : forall s, StronglySorted klt s -> StronglySorted klt (rs s).
  Proof.
    unfold rs. induction s as [|a s IH]; intro S; [constructor|]. inversion S as [|? ? S1 S2]; subst. cbn [map rev]. apply sorted_join; [apply IH; exact S1|constructor; constructor|]. intros p q Hp [<-|[]]. fold (rs s) in Hp. apply rl_in in Hp. rewrite <- (rl_rl p). apply rl_klt. rewrite Forall_forall in S2. apply S2. exact Hp.
  Qed.
  Lemma rs_sig : forall s H, Sig i s H -> Sig i (rs s) (rH H).
  Proof.
    intros s H [A M]. split; [apply rs_sorted; exact A|]. intros x y v. rewrite rl_in. unfold rl. cbn [fst snd]. rewrite M. unfold rH. split; intros [Q1 Q2]; (split; [exact Q1|lia]).
  Qed.
  Lemma r_ssv : forall D H, SSV D H -> SSV (rD D) (rH H).
  Proof.
    intros D H S. split; unfold rD, rH.
    - intros x y v K. apply (ssv_cell D H S _ _ _ K).
    - intros x y K. destruct (ssv_full D H S _ _ K) as (w & Hw). exists (2 * i + 1 - w). replace (2 * i + 1 - (2 * i + 1 - w)) with w by lia. exact Hw.
    - intros x y v u K L. replace (- y) with (- (y + 1) + 1) in K by lia. pose proof (ssv_row D H S _ _ _ _ L K). lia.
    - intros x y v u K L. replace (- x) with (- (x + 1) + 1) in K by lia. pose proof (ssv_col D H S _ _ _ _ L K). lia.
    - intros x x' y k K L B. apply (ssv_conv D H S (- x') (- x)); [exact L|exact K|lia].
    - intros x y K L. replace (- x) with (- (x + 1) + 1) in * by lia. replace (- y) with (- (y + 1) + 1) in * by lia. destruct (ssv_sq D H S _ _ L K) as [P Q]. split; assumption.
  Qed.
  Lemma occ_rev : forall a w, occ a (rev w) = occ a w.
  Proof. intros a. induction w as [|b w IH]; [reflexivity|]. cbn [rev]. rewrite occ_app, IH. unfold occ. cbn [count_occ]. destruct (Z.eq_dec b a); lia. Qed.
  Lemma occ_rl : forall a s, occ a (map snd (map rl s)) = occ (2 * i + 1 - a) (map snd s).
  Proof.
    intros a. induction s as [|[c v] s IH]; [reflexivity|]. unfold occ in *. cbn [map count_occ]. change (snd (rl (c, v))) with (2 * i + 1 - v). cbn [snd]. destruct (Z.eq_dec (2 * i + 1 - v) a), (Z.eq_dec v (2 * i + 1 - a)); lia.
  Qed.
  Lemma rs_left : forall s, closed_left i (map snd s) -> closed_right i (map snd (rs s)).
  Proof.
    intros s K p q E. unfold rs in E. rewrite map_rev in E. apply (f_equal (@rev Z)) in E. rewrite rev_involutive, rev_app_distr in E. destruct (map_split _ _ snd (map rl s) (rev q) (rev p) E) as (s1 & s2 & E1 & F1 & F2). destruct (map_split _ _ rl s s1 s2 E1) as (t1 & t2 & E2 & F3 & F4).
    specialize (K (map snd t1) (map snd t2)). rewrite E2, map_app in K. specialize (K eq_refl). rewrite <- (occ_rev (i + 1) q), <- (occ_rev i q), <- F1, <- F3, !occ_rl. replace (2 * i + 1 - (i + 1)) with i by lia. replace (2 * i + 1 - i) with (i + 1) by lia. exact K.
  Qed.
  Lemma rs_right : forall s, closed_right i (map snd s) -> closed_left i (map snd (rs s)).
  Proof.
    intros s K p q E. unfold rs in E. rewrite map_rev in E. apply (f_equal (@rev Z)) in E. rewrite rev_involutive, rev_app_distr in E. destruct (map_split _ _ snd (map rl s) (rev q) (rev p) E) as (s1 & s2 & E1 & F1 & F2). destruct (map_split _ _ rl s s1 s2 E1) as (t1 & t2 & E2 & F3 & F4).
    specialize (K (map snd t1) (map snd t2)). rewrite E2, map_app in K. specialize (K eq_refl). rewrite <- (occ_rev (i + 1) p), <- (occ_rev i p), <- F2, <- F4, !occ_rl. replace (2 * i + 1 - (i + 1)) with i by lia. replace (2 * i + 1 - i) with (i + 1) by lia. exact K.
  Qed.
  Lemma rs_rs : forall s, rs (rs s) = s.
  Proof. intro s. unfold rs. rewrite map_rev, rev_involutive, map_map. rewrite <- (map_id s) at 2. apply map_ext. apply rl_rl. Qed.
  Lemma rs_split : forall X c Y, rs (X ++ c :: Y) = rs Y ++ rl c :: rs X.
  Proof. intros. unfold rs. rewrite map_app, rev_app_distr. cbn [map rev]. rewrite <- app_assoc. reflexivity. Qed.
  Lemma rs_mark : forall v s x y, at_mark i v s (x, y) -> at_mark i (2 * i + 1 - v) (rs s) (- x, - y).
  Proof.
    intros v s x y (X & Y & -> & A & B). exists (rs Y), (rs X). split; [apply rs_split|]. split; [apply rs_left; exact B|apply rs_right; exact A].
  Qed.

  (* highest point of the path of a word *)
  Fixpoint hmax (w : list Z) : Z := match w with [] => 0 | a :: w => Z.max 0 (hgt i [a] + hmax w) end.
  Lemma hmax_nonneg : forall w, 0 <= hmax w. Proof. destruct w; cbn; lia. Qed.
  Lemma hgt_cons : forall a w, hgt i (a :: w) = hgt i [a] + hgt i w. Proof. intros. apply (hgt_app i [a] w). Qed.
  Lemma hmax_ge : forall w, hgt i w <= hmax w.
  Proof. induction w as [|a w IH]; [cbn; unfold hgt, occ; cbn; lia|]. rewrite (hgt_cons a w). cbn [hmax]. lia. Qed.
  Lemma hmax_app : forall u v, hmax (u ++ v) = Z.max (hmax u) (hgt i u + hmax v).
  Proof.
    induction u as [|a u IH]; intro v; [cbn [app hmax]; rewrite hgt_nil; pose proof (hmax_nonneg v); lia|]. cbn [app hmax]. rewrite IH, (hgt_cons a u). lia.
  Qed.
  Lemma hmax_le : forall w m, 0 <= m -> (forall p s, w = p ++ s -> hgt i p <= m) -> hmax w <= m.
  Proof.
    induction w as [|a w IH]; intros m Hm K; [cbn; lia|]. cbn [hmax]. assert (0 <= m - hgt i [a]) by (pose proof (K [a] w eq_refl); lia). pose proof (IH (m - hgt i [a])) as L. assert (hmax w <= m - hgt i [a]); [|lia]. apply L; [lia|]. intros p s E. pose proof (K (a :: p) s ltac:(rewrite E; reflexivity)) as Q. rewrite (hgt_cons a p) in Q. lia.
  Qed.
  Lemma hmax_left : forall w, closed_left i w -> hmax w = 0.
  Proof. intros w K. pose proof (hmax_nonneg w). assert (hmax w <= 0); [|lia]. apply hmax_le; [lia|]. intros p s E. specialize (K p s E). unfold hgt. lia. Qed.
  Lemma hmax_right : forall w, closed_right i w -> hmax w = hgt i w.
  Proof.
    intros w K. pose proof (hmax_ge w). assert (hmax w <= hgt i w); [|lia]. apply hmax_le; [specialize (K [] w eq_refl); unfold hgt; lia|]. intros p s E. specialize (K p s E). assert (0 <= hgt i s) by (unfold hgt; lia). rewrite E, hgt_app. lia.
  Qed.
  Lemma hmax_split : forall (X : list (box * Z)) (a : box * Z) (Y : list (box * Z)), closed_right i (map snd X) -> closed_left i (map snd Y) -> hmax (map snd (X ++ a :: Y)) = Z.max (hgt i (map snd X)) (hgt i (map snd X) + hgt i [snd a]).
  Proof. intros X a Y A B. rewrite map_app. cbn [map]. rewrite hmax_app. cbn [hmax]. rewrite (hmax_right _ A), (hmax_left _ B). lia. Qed.

  (* one f step, all facts together *)
  Lemma abs_f : forall D H s x y, SSV D H -> Sig i s H -> at_mark i i s (x, y) ->
    H x y i /\ (forall x', ~ H x' y (i + 1)) /\ (forall v, H x (y - 1) v -> v <= i) /\
    (H x (y + 1) i -> H x (y + 1) (i + 1) /\ SSV D (swap H x (y + 1) i x y (i + 1)) /\ exists s', Sig i s' (swap H x (y + 1) i x y (i + 1)) /\ at_mark i (i + 1) s' (x, y + 1) /\ hmax (map snd s) = hmax (map snd s') + 1) /\
    (~ H x (y + 1) i -> SSV D (swap H x y i x y (i + 1)) /\ exists s', Sig i s' (swap H x y i x y (i + 1)) /\ at_mark i (i + 1) s' (x, y) /\ hmax (map snd s) = hmax (map snd s') + 1).
  Proof.
    intros D H s x y S G (X & Y & E & A & B). split; [eapply st_here; eassumption|]. split; [eapply st_none; eassumption|]. split; [eapply st_left; eassumption|]. split.
    - intro K. assert (K1 : H x (y + 1) (i + 1)) by (eapply st_right; eassumption). assert (ST := st_A i D H s x y X Y S G E A B K). destruct ST as (S' & Y' & EY & G'). split; [exact K1|]. split; [exact S'|]. eexists. split; [exact G'|].
      set (X2 := X ++ [((x, y), i + 1); ((x, y), i)]). assert (EX2 : X ++ ((x, y), i + 1) :: ((x, y), i) :: ((x, y + 1), i + 1) :: Y' = X2 ++ ((x, y + 1), i + 1) :: Y') by (unfold X2; rewrite <- app_assoc; reflexivity). rewrite EX2.
      assert (CR : closed_right i (map snd X2)).
      { unfold X2. rewrite map_app. cbn [map snd]. intros p q Eq. apply app_eq_app in Eq. destruct Eq as (l & [[E1 E2]|[E1 E2]]).
        * subst q. rewrite !occ_app. pose proof (A p l E1). unfold occ at 2 4. cbn [count_occ]. destruct (Z.eq_dec (i + 1) (i + 1)); [|tauto]. destruct (Z.eq_dec (i + 1) i); [lia|]. destruct (Z.eq_dec i (i + 1)); [lia|]. destruct (Z.eq_dec i i); [lia|tauto].
        * destruct l as [|a [|a' [|a'' l]]]; cbn [app] in E2.
          -- subst q. unfold occ. cbn [count_occ]. destruct (Z.eq_dec (i + 1) (i + 1)); [|tauto]. destruct (Z.eq_dec (i + 1) i); [lia|]. destruct (Z.eq_dec i (i + 1)); [lia|]. destruct (Z.eq_dec i i); [lia|tauto].
          -- assert (q = [i]) by congruence. subst q. unfold occ. cbn [count_occ]. destruct (Z.eq_dec i (i + 1)); [lia|]. destruct (Z.eq_dec i i); [lia|tauto].
          -- assert (q = []) by congruence. subst q. cbn. lia.
          -- discriminate. }
      assert (CL : closed_left i (map snd Y')).
      { intros p q Eq. pose proof B as B0. specialize (B ((i + 1) :: i :: p) q ltac:(rewrite EY; cbn [map snd app]; do 2 f_equal; exact Eq)). unfold occ in *. cbn [count_occ] in B. destruct (Z.eq_dec (i + 1) (i + 1)); [|tauto]. destruct (Z.eq_dec (i + 1) i); [lia|]. destruct (Z.eq_dec i (i + 1)); [lia|]. destruct (Z.eq_dec i i); [lia|tauto]. }
      split; [exists X2, Y'; tauto|]. rewrite E, (hmax_split X _ Y A B), (hmax_split X2 _ Y' CR CL). unfold X2. rewrite map_app, hgt_app. cbn [map snd]. rewrite (hgt_cons (i + 1) [i]), hgt1_i, hgt1_i1. lia.
    - intro K. assert (ST : SSV D (swap H x y i x y (i + 1)) /\ Sig i (X ++ ((x, y), i + 1) :: Y) (swap H x y i x y (i + 1))) by (eapply st_B; eassumption). destruct ST as (S' & G'). split; [exact S'|]. eexists. split; [exact G'|]. split; [exists X, Y; tauto|]. rewrite E, !hmax_split by assumption. cbn [snd]. rewrite hgt1_i, hgt1_i1. lia.
  Qed.
End Refl.
