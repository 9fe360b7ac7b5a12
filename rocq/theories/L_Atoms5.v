(* The breadth-first search of get_atoms visits each line of an atom exactly once. *)
From Coq Require Import List ZArith Bool Lia Permutation Sorting.Sorted.
From Verif Require Import PyBase M_Partitions M_Semistandard M_Perm S_Perm M_PermGen L_Perm L_PermLen L_PermWord L_LevelsInst P_Levels L_PermActs L_PermGroth7 M_PermGroth M_InvWords M_Atoms L_PartCorners L_InvLen2 L_InvLen5 L_Atoms1 L_Atoms2 L_Atoms3 L_Atoms4.
Import ListNotations.
Local Open Scope Z_scope.

Lemma filter_one : forall (A : Type) (p q : A -> bool) (l : list A) x0, NoDup l -> In x0 l -> p x0 = false -> q x0 = true -> (forall x, In x l -> x <> x0 -> p x = q x) -> zlen (filter q l) = zlen (filter p l) + 1.
Proof.
  intros A p q l x0 N I P Q E. apply in_split in I. destruct I as (l1 & l2 & ->). apply NoDup_remove in N. destruct N as [_ N].
  assert (E1 : forall m, (forall x, In x m -> In x (l1 ++ l2)) -> filter p m = filter q m).
  { intros m Hm. apply filter_ext_in. intros x Hx. apply E; [specialize (Hm x Hx); apply in_app_iff in Hm; apply in_app_iff; destruct Hm; [left; assumption|right; right; assumption]|]. intros ->. apply N. apply Hm. exact Hx. }
  rewrite !filter_app. cbn [filter]. rewrite P, Q. rewrite (E1 l1), (E1 l2) by (intros x Hx; apply in_app_iff; tauto). rewrite !zlen_app, zlen_cons. lia.
Qed.
Lemma rconcat_nil : forall A B (f : A -> res (list B)) l, (forall x, In x l -> f x = Ok []) -> rconcat f l = Ok [].
Proof.
  intros A B f l H. unfold rconcat. rewrite (rmap_ok _ _ f (fun _ => []) l H). cbn [rbind]. f_equal. clear H. induction l as [|x l IH]; [reflexivity|exact IH].
Qed.
Lemma rconcat_flat : forall A B (f : A -> res (list B)) (g : A -> list B) l, (forall x, In x l -> f x = Ok (g x)) -> rconcat f l = Ok (flat_map g l).
Proof. intros A B f g l H. unfold rconcat. rewrite (rmap_ok _ _ f g l H). cbn [rbind]. rewrite flat_map_concat_map. reflexivity. Qed.
Lemma skipn_skipn' : forall (A : Type) a b (l : list A), skipn a (skipn b l) = skipn (a + b) l.
Proof. intros A a b. revert a. induction b as [|b IH]; intros a l; [rewrite Nat.add_0_r; reflexivity|]. rewrite Nat.add_succ_r. destruct l as [|x l]; [rewrite !skipn_nil; reflexivity|]. cbn [skipn]. apply IH. Qed.
Lemma last_at : forall u : list Z, u <> [] -> last u 0 = nthz u (zlen u - 1).
Proof. intros u H. destruct (exists_last H) as (v & x & ->). rewrite last_last. unfold zlen. rewrite app_length. cbn [length]. rewrite nthz_app2 by (unfold zlen; lia). unfold zlen. replace (Z.of_nat (length v + 1) - 1 - Z.of_nat (length v)) with 0 by lia. reflexivity. Qed.
(* cutting a list at three consecutive entries *)
Lemma cut3 : forall (w : list Z) k, 0 <= k -> k + 2 < zlen w -> exists l r, w = l ++ nthz w k :: nthz w (k + 1) :: nthz w (k + 2) :: r /\ zlen l = k /\ zslice w 0 k = l /\ zslice w (k + 3) (zlen w) = r.
Proof.
  intros w k H1 H2. unfold zlen in H2. exists (firstn (Z.to_nat k) w), (skipn (Z.to_nat (k + 3)) w).
  assert (L : length (firstn (Z.to_nat k) w) = Z.to_nat k) by (rewrite firstn_length; lia). split; [|split; [|split]].
  - rewrite <- (firstn_skipn (Z.to_nat k) w) at 1. f_equal. unfold nthz. replace (Z.to_nat (k + 3)) with (3 + Z.to_nat k)%nat by lia. rewrite <- skipn_skipn'.
    assert (E : forall j, nth (j + Z.to_nat k) w 0 = nth j (skipn (Z.to_nat k) w) 0).
    { intro j. rewrite <- (firstn_skipn (Z.to_nat k) w) at 1. rewrite app_nth2 by lia. f_equal. lia. }
    replace (Z.to_nat (k + 1)) with (1 + Z.to_nat k)%nat by lia. replace (Z.to_nat (k + 2)) with (2 + Z.to_nat k)%nat by lia. change (Z.to_nat k) with (0 + Z.to_nat k)%nat at 2. rewrite !E.
    assert (Ls : (3 <= length (skipn (Z.to_nat k) w))%nat) by (rewrite skipn_length; lia). destruct (skipn (Z.to_nat k) w) as [|x [|y [|t r]]]; cbn in Ls; try lia. reflexivity.
  - unfold zlen. lia.
  - unfold zslice. f_equal. lia.
  - unfold zslice. apply firstn_all2. rewrite skipn_length. unfold zlen. lia.
Qed.

Section Z0.
Variable z : list Z.
Hypothesis Hz : invol z.
Hypothesis Uz : unsig z.
Notation n := (zlen z).
Notation f := (pcall z).
Notation lineof := (lineof z).
Notation good := (good z).
Notation nobca := (nobca z).

Lemma line_pos : forall w x, lineof w -> In x w -> 1 <= x <= n.
Proof. intros w x H Hx. apply (lineof_In z w x H). exact Hx. Qed.
Lemma turn_list : forall l a b c r, let w := l ++ c :: a :: b :: r in let w' := l ++ b :: c :: a :: r in
  (lineof w <-> lineof w') /\ (lineof w -> turned (pos w) (pos w') a b c).
Proof.
  intros l a b c r w w'. assert (P : Permutation w w').
  { unfold w, w'. apply Permutation_app_head. eapply perm_trans; [apply perm_skip; apply perm_swap|]. apply perm_swap. }
  assert (I : lineof w <-> lineof w').
  { unfold L_Atoms4.lineof. split; intro H; [eapply perm_trans; [apply Permutation_sym; exact P|exact H]|eapply perm_trans; [exact P|exact H]]. }
  split; [exact I|]. intro H. assert (H' : lineof w') by (apply I; exact H). pose proof (lineof_len z w H) as Lw.
  assert (Ln : zlen w = zlen l + 3 + zlen r) by (unfold w; rewrite zlen_app, !zlen_cons; lia). pose proof (zlen_nonneg _ l) as Nl. pose proof (zlen_nonneg _ r) as Nr.
  assert (N0 : forall (u : list Z) x t, nthz (u ++ x :: t) (zlen u) = x) by (intros u x t; rewrite nthz_app2 by lia; replace (zlen u - zlen u) with 0 by lia; reflexivity).
  assert (N1 : forall (u : list Z) x y t, nthz (u ++ x :: y :: t) (zlen u + 1) = y) by (intros u x y t; rewrite nthz_app2 by lia; replace (zlen u + 1 - zlen u) with 1 by lia; reflexivity).
  assert (N2 : forall (u : list Z) x y y' t, nthz (u ++ x :: y :: y' :: t) (zlen u + 2) = y') by (intros u x y y' t; rewrite nthz_app2 by lia; replace (zlen u + 2 - zlen u) with 2 by lia; reflexivity).
  assert (Pc : pos w c = zlen l + 1) by (pose proof (N0 l c (a :: b :: r)) as Q; match type of Q with nthz ?u ?k = _ => pose proof (pos_nth z u k ltac:(first [exact H|exact H']) ltac:(lia)) as Q2 end; rewrite Q in Q2; unfold w, w'; rewrite Q2; lia).
  assert (Pa : pos w a = zlen l + 2) by (pose proof (N1 l c a (b :: r)) as Q; match type of Q with nthz ?u ?k = _ => pose proof (pos_nth z u k ltac:(first [exact H|exact H']) ltac:(lia)) as Q2 end; rewrite Q in Q2; unfold w, w'; rewrite Q2; lia).
  assert (Pb : pos w b = zlen l + 3) by (rewrite <- (N2 l c a b r) at 1; fold w; rewrite (pos_nth z) by (first [exact H|lia]); lia).
  assert (Qb : pos w' b = zlen l + 1) by (pose proof (N0 l b (c :: a :: r)) as Q; match type of Q with nthz ?u ?k = _ => pose proof (pos_nth z u k ltac:(first [exact H|exact H']) ltac:(lia)) as Q2 end; rewrite Q in Q2; unfold w, w'; rewrite Q2; lia).
  assert (Qc : pos w' c = zlen l + 2) by (pose proof (N1 l b c (a :: r)) as Q; match type of Q with nthz ?u ?k = _ => pose proof (pos_nth z u k ltac:(first [exact H|exact H']) ltac:(lia)) as Q2 end; rewrite Q in Q2; unfold w, w'; rewrite Q2; lia).
  assert (Qa : pos w' a = zlen l + 3) by (rewrite <- (N2 l b c a r) at 1; fold w'; rewrite (pos_nth z) by (first [exact H'|lia]); lia).
  unfold turned. repeat split; try lia. intros x Hx X1 X2 X3. destruct (Z_lt_ge_dec n x) as [G|G]; [rewrite (pos_out z w' x H' G), (pos_out z w x H G); reflexivity|].
  destruct (nth_pos z w x H ltac:(lia)) as [B E]. set (k := pos w x - 1) in *.
  assert (K : k <> zlen l /\ k <> zlen l + 1 /\ k <> zlen l + 2).
  { repeat split; intro Q; rewrite Q in E; unfold w in E; [rewrite N0 in E|rewrite N1 in E|rewrite N2 in E]; congruence. }
  assert (E' : nthz w' k = x).
  { rewrite <- E. unfold w, w'. destruct (Z_lt_ge_dec k (zlen l)) as [L|L]; [rewrite !nthz_app1 by lia; reflexivity|]. rewrite !nthz_app2 by lia.
    unfold nthz. replace (Z.to_nat (k - zlen l)) with (S (S (S (Z.to_nat (k - zlen l - 3))))) by lia. reflexivity. }
  rewrite <- E' at 1. rewrite (pos_nth z) by (first [exact H'|lia]). unfold k. lia.
Qed.
Definition turn (w w' : list Z) : Prop := exists l a b c r, w = l ++ c :: a :: b :: r /\ w' = l ++ b :: c :: a :: r /\ a < b < c.
Definition rank (w : list Z) : Z :=
  zlen (filter (fun p => (fst p <? snd p) && (snd p <? f (fst p)) && (pos w (snd p) <? pos w (f (fst p)))) (list_prod (zrange 1 (n + 1)) (zrange 1 (n + 1)))).
Lemma prod_len : forall A B (l : list A) (m : list B), zlen (list_prod l m) = zlen l * zlen m.
Proof. intros A B l m. unfold zlen. rewrite prod_length. lia. Qed.
Lemma rank_bound : forall w, 0 <= rank w <= n * n.
Proof.
  intro w. unfold rank. split; [apply zlen_nonneg|]. set (L := list_prod _ _). assert (E : zlen L = n * n) by (unfold L; rewrite prod_len, zlen_zrange by (pose proof (zlen_nonneg _ z); lia); f_equal; lia).
  rewrite <- E. unfold zlen. assert (H : forall (A : Type) (p : A -> bool) l, (length (filter p l) <= length l)%nat) by (intros A p l; induction l as [|x l IH]; cbn; [lia|]; destruct (p x); cbn; lia). specialize (H _ (fun p => (fst p <? snd p) && (snd p <? f (fst p)) && (pos w (snd p) <? pos w (f (fst p)))) L). lia.
Qed.
Lemma rank_turned : forall w w' a b c, lineof w -> lineof w' -> 1 <= a -> c <= n -> a < b < c -> turned (pos w) (pos w') a b c -> f a = c -> cond f (pos w) -> rank w' = rank w + 1.
Proof.
  intros w w' a b c H H' Ha Hc L T Fa C. unfold rank. pose proof T as (E1 & E2 & E3 & E4 & E5 & E). apply (filter_one _ _ _ _ (a, b)).
  - assert (G : forall (l m : list Z), NoDup l -> NoDup m -> NoDup (list_prod l m)).
    { intros l m Hl Hm. induction Hl as [|x l Nx Hl IH]; cbn; [constructor|]. apply NoDup_app_intro; [|exact IH|].
      - apply FinFun.Injective_map_NoDup; [|exact Hm]. intros u v Q. congruence.
      - intros p P1 P2. apply in_map_iff in P1. destruct P1 as (y & <- & _). apply in_prod_iff in P2. apply Nx. apply P2. }
    apply G; apply NoDup_zrange.
  - apply in_prod_iff. rewrite !In_zrange. lia.
  - cbn [fst snd]. rewrite Fa. replace (pos w b <? pos w c) with false by lia. apply andb_false_r.
  - cbn [fst snd]. rewrite Fa. replace (pos w' b <? pos w' c) with true by lia. replace (a <? b) with true by lia. replace (b <? c) with true by lia. reflexivity.
  - intros [x e] I N. apply in_prod_iff in I. rewrite !In_zrange in I. cbn [fst snd]. destruct (Z.ltb_spec x e) as [L1|L1]; [|reflexivity]. destruct (Z.ltb_spec e (f x)) as [L2|L2]; [|reflexivity]. cbn [andb].
    pose proof (turn_rank f (unsig_pinvol z Hz Uz) (pos w) (pos w') a b c x e (pos_inj z w H) (pos_inj z w' H') Ha L T Fa C ltac:(lia) (conj L1 L2) N) as K.
    destruct (Z.ltb_spec (pos w e) (pos w (f x))), (Z.ltb_spec (pos w' e) (pos w' (f x))); lia.
Qed.
Lemma turn_good : forall w w', good w -> turn w w' -> good w' /\ rank w' = rank w + 1.
Proof.
  intros w w' [H C] (l & a & b & c & r & E & E' & L). pose proof (turn_list l a b c r) as TL. cbv zeta in TL. rewrite <- E, <- E' in TL. destruct TL as [I T]. specialize (T H). pose proof (proj1 I H) as H'.
  assert (Ra : 1 <= a <= n) by (apply (line_pos w a H); rewrite E; apply in_app_iff; right; cbn; tauto). assert (Rc : 1 <= c <= n) by (apply (line_pos w c H); rewrite E; apply in_app_iff; right; cbn; tauto).
  pose proof T as (E1 & _). assert (Fa : f a = c) by (apply (consecutive f (unsig_pinvol z Hz Uz) (pos w)); [apply (pos_inj z); exact H|exact C|lia|lia|exact E1]).
  split; [split; [exact H'|]|].
  - apply (turn_cond f (unsig_pinvol z Hz Uz) (pos w) (pos w') a b c); auto; try lia; eapply pos_inj; eassumption.
  - eapply rank_turned; try eassumption; lia.
Qed.
Lemma turn_back : forall w', good w' -> ~ nobca w' -> exists w, good w /\ turn w w'.
Proof.
  intros w' [H' C] NB.
  destruct (existsb (fun k => (nthz w' (k + 2) <? nthz w' k) && (nthz w' k <? nthz w' (k + 1))) (zrange 0 (n - 2))) eqn:Q.
  - apply existsb_exists in Q. destruct Q as (k & Hk & Q). apply In_zrange in Hk. apply andb_prop in Q. destruct Q as [Q1 Q2]. apply Z.ltb_lt in Q1. apply Z.ltb_lt in Q2. pose proof (lineof_len z w' H') as Lw.
    destruct (cut3 w' k ltac:(lia) ltac:(lia)) as (l & r & E' & _). set (b := nthz w' k) in *. set (c := nthz w' (k + 1)) in *. set (a := nthz w' (k + 2)) in *.
    set (w := l ++ c :: a :: b :: r). pose proof (turn_list l a b c r) as TL. cbv zeta in TL. fold w in TL. rewrite <- E' in TL. destruct TL as [I T]. pose proof (proj2 I H') as H. specialize (T H). pose proof T as (E1 & E2 & E3 & E4 & E5 & _).
    assert (Ra : 1 <= a <= n) by (apply (line_pos w' a H'); rewrite E'; apply in_app_iff; right; cbn; tauto). assert (Rc : 1 <= c <= n) by (apply (line_pos w' c H'); rewrite E'; apply in_app_iff; right; cbn; tauto).
    assert (Fa : f a = c) by (apply (consecutive f (unsig_pinvol z Hz Uz) (pos w')); [apply (pos_inj z); exact H'|exact C|lia|lia|lia]).
    exists w. split; [split; [exact H|]|exists l, a, b, c, r; split; [reflexivity|split; [exact E'|lia]]].
    apply (unturn_cond f (unsig_pinvol z Hz Uz) (pos w) (pos w') a b c); auto; try lia; eapply pos_inj; eassumption.
  - exfalso. apply NB. intros k K1 K2 [L1 L2]. assert (existsb (fun k => (nthz w' (k + 2) <? nthz w' k) && (nthz w' k <? nthz w' (k + 1))) (zrange 0 (n - 2)) = true); [|congruence].
    apply existsb_exists. exists k. split; [apply In_zrange; lia|]. apply andb_true_intro. split; apply Z.ltb_lt; assumption.
Qed.
Lemma nobca_dec : forall w, nobca w \/ ~ nobca w.
Proof.
  intro w. destruct (existsb (fun k => (nthz w (k + 2) <? nthz w k) && (nthz w k <? nthz w (k + 1))) (zrange 0 (n - 2))) eqn:Q.
  - right. intro NB. apply existsb_exists in Q. destruct Q as (k & Hk & Q). apply In_zrange in Hk. apply andb_prop in Q. destruct Q as [Q1 Q2]. apply Z.ltb_lt in Q1. apply Z.ltb_lt in Q2. apply (NB k); lia.
  - left. intros k K1 K2 [L1 L2]. assert (existsb (fun k => (nthz w (k + 2) <? nthz w k) && (nthz w k <? nthz w (k + 1))) (zrange 0 (n - 2)) = true); [|congruence].
    apply existsb_exists. exists k. split; [apply In_zrange; lia|]. apply andb_true_intro. split; apply Z.ltb_lt; assumption.
Qed.
Notation w0 := (min_inv_atom_oneline z).
Lemma rank_min : forall w, good w -> w = w0 \/ rank w0 < rank w.
Proof.
  assert (G : forall k w, rank w < Z.of_nat k -> good w -> w = w0 \/ rank w0 < rank w).
  { induction k as [|k IH]; intros w L H; [pose proof (rank_bound w); lia|]. destruct (nobca_dec w) as [N|N]; [left; apply nobca_min; assumption|]. right. destruct (turn_back w H N) as (v & Hv & T). destruct (turn_good v w Hv T) as [_ E]. destruct (IH v ltac:(lia) Hv) as [->|Q]; lia. }
  intros w H. apply (G (S (Z.to_nat (rank w)))); [pose proof (rank_bound w); lia|exact H].
Qed.
(* ---- one round ---- *)
Definition atom_of_line (w : list Z) : list Z := invp (strip w).
Lemma atom_of_call : forall w x, lineof w -> pcall (atom_of_line w) x = pos w x.
Proof.
  intros w x H. unfold atom_of_line, pos. pose proof (lineof_signed z w H) as S. assert (Ss : signed_word (strip w)) by (apply signed_word_strip; exact S).
  apply (pcall_inj (strip w)); [exact Ss|]. rewrite (invp_call2 (strip w) x Ss), pcall_strip. symmetry. apply inv_line_call2. exact S.
Qed.
Lemma atom_of_canonical : forall w, lineof w -> canonical (atom_of_line w).
Proof. intros w H. apply invp_canonical. apply signed_word_strip. apply (lineof_signed z). exact H. Qed.
Lemma atom_of_unsig : forall w, lineof w -> unsig (atom_of_line w).
Proof. intros w H x Hx. rewrite atom_of_call by exact H. destruct (Z_lt_ge_dec n x) as [G|G]; [rewrite (pos_out z w x H G); lia|apply (nth_pos z w x H); lia]. Qed.
Lemma involution_ok : forall w, good w -> atom_involution w = Ok (Some z).
Proof.
  intros w [H C]. unfold atom_involution. rewrite mkperm_ok by (apply (lineof_signed z); exact H). cbn [rbind]. pose proof (strip_canonical w (lineof_signed z w H)) as Cs.
  assert (Lf : ell (strip w) < Z.of_nat (rfuel (strip w))) by (unfold rfuel; rewrite plen_ok; pose proof (ell_nonneg (strip w)); lia).
  destruct (get_reduced_word_ok _ _ Cs Lf) as (v & E & G & Ev & L). rewrite E. cbn [rbind]. unfold from_involution_word. change pid with (@nil Z).
  assert (Gr : gens (rev v)) by (apply Forall_rev; exact G). rewrite loop_strict by (apply invol_nil || exact Gr). f_equal.
  assert (W : wordp (rev v) = atom_of_line w) by (rewrite wordp_rev by exact G; rewrite Ev; reflexivity).
  apply cond_path; [exact Gr|exact Hz|exact Uz| | |].
  - rewrite W. unfold atom_of_line. rewrite ell_invp by exact Cs. rewrite <- L. unfold zlen. rewrite rev_length. reflexivity.
  - rewrite W. apply atom_of_unsig. exact H.
  - rewrite W. destruct C as (C1 & C2 & C3). split; [|split]; intros; rewrite ?atom_of_call by exact H; auto. 
Qed.
Lemma next_ok : forall w, good w -> exists ws, atom_next w = Ok ws /\ forall w', In w' ws <-> turn w w'.
Proof.
  intros w G. unfold atom_next. rewrite involution_ok by exact G. cbn [rbind]. destruct G as [H C]. pose proof (lineof_len z w H) as Lw.
  rewrite rconcat_nil.
  - cbn [rbind]. eexists. split; [reflexivity|]. intro w'. rewrite app_nil_r, in_flat_map. split.
    + intros (k & Hk & Q). apply In_zrange in Hk. destruct (cut3 w k ltac:(lia) ltac:(lia)) as (l & r & E & _ & E1 & E2). cbv zeta in Q. rewrite E1, E2 in Q.
      destruct ((nthz w (k + 1) <? nthz w (k + 2)) && (nthz w (k + 2) <? nthz w k)) eqn:B; [|destruct Q]. destruct Q as [<-|[]]. apply andb_prop in B. destruct B as [B1 B2]. apply Z.ltb_lt in B1. apply Z.ltb_lt in B2.
      exists l, (nthz w (k + 1)), (nthz w (k + 2)), (nthz w k), r. split; [exact E|]. split; [reflexivity|lia].
    + intros (l & a & b & c & r & E & E' & L). exists (zlen l). assert (Ln : zlen w = zlen l + 3 + zlen r) by (rewrite E, zlen_app, !zlen_cons; lia). pose proof (zlen_nonneg _ l). pose proof (zlen_nonneg _ r).
      split; [apply In_zrange; lia|]. destruct (cut3 w (zlen l) ltac:(lia) ltac:(lia)) as (l' & r' & E0 & L0 & E1 & E2). cbv zeta. rewrite E1, E2.
      assert (Q : l' = l /\ nthz w (zlen l) :: nthz w (zlen l + 1) :: nthz w (zlen l + 2) :: r' = c :: a :: b :: r).
      { rewrite E in E0 at 1. assert (LL : length l = length l') by (unfold zlen in L0; lia). revert E0. generalize (nthz w (zlen l) :: nthz w (zlen l + 1) :: nthz w (zlen l + 2) :: r'). generalize (c :: a :: b :: r). intros t t'. clear -LL. revert l' LL. induction l as [|x l IH]; intros [|x' l'] LL E0; try discriminate; [split; [reflexivity|symmetry; exact E0]|].
        cbn [app] in E0. injection E0 as Ex E0. injection LL as LL. destruct (IH l' LL E0) as [Q1 Q2]. split; [congruence|exact Q2]. }
      destruct Q as [-> Q]. injection Q as Q1 Q2 Q3 Q4. rewrite Q1, Q2, Q3, Q4. replace (a <? b) with true by lia. replace (b <? c) with true by lia. left. symmetry. exact E'.
  - intros i Hi. apply In_zrange in Hi. cbv zeta. assert (P : 1 <= nthz w (i + 1)) by (apply (line_pos w _ H); apply nthz_In; lia). replace (0 <? - nthz w (i + 1)) with false by lia. reflexivity.
Qed.

Section Ord.
Variable aord : list (list Z) -> list (list Z).
Hypothesis aord_perm : forall l, Permutation (aord l) l.
(* a level of the search *)
Definition level (k : Z) (add : list (list Z)) : Prop := NoDup add /\ forall w, In w add <-> good w /\ rank w = rank w0 + k.
Lemma level_0 : level 0 [w0].
Proof.
  split; [repeat constructor; intros []|]. intro w. split.
  - intros [<-|[]]. split; [apply min_good; assumption|lia].
  - intros [G E]. destruct (rank_min w G) as [->|Q]; [left; reflexivity|lia].
Qed.
Lemma level_next : forall k add, 0 <= k -> level k add -> exists new, rconcat atom_next (aord add) = Ok new /\ level (k + 1) (wunion [] new).
Proof.
  intros k add Hk [N L].
  assert (G : forall l, (forall w, In w l -> good w) -> exists new, rconcat atom_next l = Ok new /\ forall w', In w' new <-> exists w, In w l /\ turn w w').
  { induction l as [|w l IH]; intro Gl; [exists []; split; [reflexivity|]; intro w'; split; [intros []|intros (w & [] & _)]|].
    destruct (next_ok w (Gl w (or_introl eq_refl))) as (ws & E & Hws). destruct (IH (fun v Hv => Gl v (or_intror Hv))) as (new & E2 & Hnew).
    exists (ws ++ new). split.
    - unfold rconcat in *. cbn [rmap]. rewrite E. cbn [rbind]. destruct (rmap atom_next l) as [m|]; [|discriminate]. cbn [rbind] in *. injection E2 as <-. reflexivity.
    - intro w'. rewrite in_app_iff, Hws, Hnew. split; [intros [T|(v & Hv & T)]; [exists w; split; [left; reflexivity|exact T]|exists v; split; [right; exact Hv|exact T]]|intros (v & [<-|Hv] & T); [left; exact T|right; exists v; auto]]. }
  destruct (G (aord add)) as (new & E & Hnew); [intros w Hw; apply (L w); apply (Permutation_in _ (aord_perm add)); exact Hw|]. exists new. split; [exact E|].
  destruct (wunion_spec new [] ltac:(constructor)) as [W1 W2]. split; [exact W1|]. intro w'. rewrite W2, Hnew. split.
  - intros [[]|(w & Hw & T)]. apply (Permutation_in _ (aord_perm add)) in Hw. apply L in Hw. destruct Hw as [Gw Ew]. destruct (turn_good w w' Gw T) as [G' E']. split; [exact G'|lia].
  - intros [G' E']. right. destruct (nobca_dec w') as [Q|Q]; [exfalso; rewrite (nobca_min z Hz Uz w' G' Q) in E'; lia|]. destruct (turn_back w' G' Q) as (w & Gw & T). exists w. split; [|exact T].
    apply (Permutation_in _ (Permutation_sym (aord_perm add))). apply L. split; [exact Gw|]. destruct (turn_good w w' Gw T) as [_ E2]. lia.
Qed.
Lemma atom_line_inj : forall w w', lineof w -> lineof w' -> atom_of_line w = atom_of_line w' -> w = w'.
Proof.
  intros w w' H H' E. apply nthz_ext; [rewrite (lineof_len z w H), (lineof_len z w' H'); reflexivity|]. intros i Hi. rewrite (lineof_len z w H) in Hi.
  assert (Q : pos w' (nthz w i) = i + 1) by (rewrite <- atom_of_call by exact H'; rewrite <- E, atom_of_call by exact H; apply (pos_nth z); assumption).
  assert (R : 1 <= nthz w i <= n) by (apply (line_pos w _ H); apply nthz_In; rewrite (lineof_len z w H); lia). destruct (nth_pos z w' _ H' R) as [_ K]. rewrite Q in K. replace (i + 1 - 1) with i in K by lia. auto.
Qed.
Lemma loop_ok : forall fuel k add, 0 <= k -> level k add -> (0 < fuel)%nat -> n * n + 1 < k + Z.of_nat fuel -> exists out, atoms_loop aord fuel add = Ok out /\ NoDup out /\
  forall a, In a out <-> exists w, good w /\ rank w0 + k <= rank w /\ a = atom_of_line w.
Proof.
  induction fuel as [|fuel IH]; intros k add Hk HL Hf0 Hf; [lia|]. cbn [atoms_loop]. destruct add as [|u add'].
  - exists []. split; [reflexivity|]. split; [constructor|]. intro a. split; [intros []|]. intros (w & G & R & _). exfalso.
    assert (Q : forall m v, rank v = rank w0 + k + Z.of_nat m -> good v -> False).
    { destruct HL as [_ HL]. induction m as [|m IHm]; intros v E Gv; [apply (proj2 (HL v)); split; [exact Gv|lia]|].
      destruct (nobca_dec v) as [N|N]; [rewrite (nobca_min z Hz Uz v Gv N) in E; lia|]. destruct (turn_back v Gv N) as (t & Gt & T). destruct (turn_good t v Gt T) as [_ E2]. apply (IHm t); [lia|exact Gt]. }
    apply (Q (Z.to_nat (rank w - rank w0 - k)) w); [lia|exact G].
  - set (add := u :: add') in *. pose proof HL as [N L]. destruct (level_next k add Hk HL) as (new & E & HL').
    assert (B : k <= n * n) by (destruct (proj1 (L u) (or_introl eq_refl)) as [_ R]; pose proof (rank_bound u); pose proof (rank_bound w0); lia).
    assert (G : forall w, In w (aord add) -> good w) by (intros w Hw; apply (L w); apply (Permutation_in _ (aord_perm add)); exact Hw).
    rewrite (rmap_ok _ _ _ atom_of_line).
    2:{ intros w Hw. destruct (G w Hw) as [H _]. rewrite mkperm_ok by (apply (lineof_signed z); exact H). cbn [rbind]. unfold atom_of_line. apply pinv_ok. apply signed_word_strip. apply (lineof_signed z). exact H. }
    cbn [rbind]. rewrite E. cbn [rbind]. destruct (IH (k + 1) (wunion [] new) ltac:(lia) HL' ltac:(lia) ltac:(lia)) as (rest & E2 & N2 & R2). rewrite E2. cbn [rbind]. eexists. split; [reflexivity|]. split.
    + apply NoDup_app_intro; [|exact N2|].
      * assert (NA : NoDup (aord add)) by (apply (Permutation_NoDup (Permutation_sym (aord_perm add))); exact N). clear -NA G Hz Uz. induction NA as [|w l Nw NA IHl]; [constructor|]. cbn [map]. constructor.
        -- intro I. apply in_map_iff in I. destruct I as (v & Q & Iv). apply atom_line_inj in Q; [subst v; contradiction|apply (G v); right; exact Iv|apply (G w); left; reflexivity].
        -- apply IHl. intros v Iv. apply G. right. exact Iv.
      * intros a I1 I2. apply in_map_iff in I1. destruct I1 as (v & Q & Iv). apply R2 in I2. destruct I2 as (w & Gw & Rw & Q2). rewrite <- Q in Q2. apply atom_line_inj in Q2; [|apply (G v Iv)|apply Gw]. subst w.
        apply (Permutation_in _ (aord_perm add)) in Iv. apply L in Iv. lia.
    + intro a. rewrite in_app_iff, in_map_iff, R2. split.
      * intros [(w & <- & Iw)|(w & Gw & Rw & Q)]; [exists w; apply (Permutation_in _ (aord_perm add)) in Iw; apply L in Iw; destruct Iw as [Gw Rw]; split; [exact Gw|split; [lia|reflexivity]]|exists w; split; [exact Gw|split; [lia|exact Q]]].
      * intros (w & Gw & Rw & Q). destruct (Z.eq_dec (rank w) (rank w0 + k)) as [E3|E3]; [left; exists w; split; [symmetry; exact Q|]; apply (Permutation_in _ (Permutation_sym (aord_perm add))); apply L; split; assumption|right; exists w; split; [exact Gw|split; [lia|exact Q]]].
Qed.
(* an atom is supported on 1..n *)
Lemma atomw_line : forall a, atomw z a <-> exists w, good w /\ a = atom_of_line w.
Proof.
  intro a. rewrite (atomw_cond z a Hz Uz). split.
  - intros (Ca & Ua & C). pose proof (unsig_pinvol z Hz Uz) as F. pose proof Ca as [Sa _].
    assert (B : forall y x, 1 <= y -> y < x -> n < x -> pcall a y < pcall a x).
    { intros y x Hy Hyx Hx. destruct (cyc_bounds f (pcall a) F C y Hy) as (m & M & Em & EM & P1 & P2 & F1 & F2 & Ba & _). destruct C as (_ & _ & C3).
      assert (Fx : f x = x) by (apply f_out; assumption).
      assert (Mx : M < x) by (destruct (Z_lt_ge_dec n y) as [G|G]; [rewrite (f_out z y G) in EM; lia|pose proof (f_range z Hz Uz y ltac:(lia)); lia]).
      specialize (C3 m x P1 ltac:(lia) ltac:(lia) ltac:(lia) ltac:(lia) ltac:(lia)). rewrite Fx in C3. lia. }
    assert (La : zlen a <= n).
    { destruct (Z_le_gt_dec (zlen a) n) as [Q|Q]; [exact Q|]. exfalso. pose proof (zlen_nonneg _ z) as Nz. destruct Ca as [_ T]. apply T; [intros ->; unfold zlen in Q at 1; cbn in Q; lia|].
      assert (R : forall y, 1 <= y <= zlen a -> 1 <= pcall a y <= zlen a).
      { intros y Hy. pose proof (Ua y ltac:(lia)) as U1. split; [exact U1|]. destruct (Z_le_gt_dec (pcall a y) (zlen a)) as [?|G]; [assumption|]. pose proof (pcall_out a (pcall a y) ltac:(lia)) as O. apply pcall_inj in O; [lia|exact Sa]. }
      pose proof (invp_call2 a (zlen a) Sa) as V. set (y := pcall (invp a) (zlen a)) in *.
      assert (Y : 1 <= y).
      { destruct (Z_le_gt_dec 1 y) as [?|G]; [assumption|]. exfalso. destruct (Z.eq_dec y 0) as [Y0|Y0]; [rewrite Y0, pcall_zero in V; lia|]. pose proof (pcall_odd a y) as O. pose proof (Ua (- y) ltac:(lia)). lia. }
      assert (Y2 : y <= zlen a) by (destruct (Z_le_gt_dec y (zlen a)) as [?|G]; [assumption|]; rewrite pcall_out in V by lia; lia).
      assert (Y3 : y = zlen a) by (destruct (Z.eq_dec y (zlen a)) as [?|N]; [assumption|]; pose proof (B y (zlen a) Y ltac:(lia) ltac:(lia)); pose proof (R (zlen a) ltac:(lia)); lia).
      rewrite Y3 in V. transitivity (pcall a (zlen a)); [|exact V]. rewrite pcall_pos by lia. apply last_at. intros ->; unfold zlen in Q at 1; cbn in Q; lia. }
    set (w := map (pcall (invp a)) (zrange 1 (n + 1))).
    assert (R : forall y, 1 <= y <= n -> 1 <= pcall a y <= n).
    { intros y Hy. pose proof (Ua y ltac:(lia)) as U1. split; [exact U1|]. destruct (Z_le_gt_dec (pcall a y) n) as [?|G]; [assumption|]. pose proof (pcall_out a (pcall a y) ltac:(lia)) as O. apply pcall_inj in O; [lia|exact Sa]. }
    assert (H : lineof w).
    { unfold L_Atoms4.lineof. apply Permutation_sym. apply NoDup_Permutation_bis; [apply NoDup_zrange|unfold w; rewrite map_length; lia|].
      intros x Hx. apply In_zrange in Hx. unfold w. apply in_map_iff. exists (pcall a x). split; [apply invp_call; exact Sa|]. apply In_zrange. pose proof (R x ltac:(lia)). lia. }
    assert (P : forall x, 1 <= x -> pos w x = pcall a x).
    { intros x Hx. destruct (Z_lt_ge_dec n x) as [G|G]; [rewrite (pos_out z w x H G); symmetry; apply pcall_out; lia|]. pose proof (R x ltac:(lia)) as Rx.
      pose proof (pos_nth z w (pcall a x - 1) H ltac:(lia)) as K. replace (nthz w (pcall a x - 1)) with x in K; [lia|]. unfold w. rewrite nthz_map by (rewrite zlen_zrange by lia; lia). rewrite nthz_zrange by lia. replace (1 + (pcall a x - 1)) with (pcall a x) by lia. symmetry. apply invp_call. exact Sa. }
    exists w. split; [split; [exact H|]|].
    + destruct C as (C1 & C2 & C3). split; [|split].
      * intros x Hx L. destruct (F x Hx). rewrite !P by lia. auto.
      * intros x e Hx L. destruct (F x Hx). rewrite !P by lia. auto.
      * intros x x' Hx Hx' L1 L2 L3 L4. destruct (F x' Hx'). rewrite !P by lia. auto.
    + apply canonical_ext; [exact Ca|apply atom_of_canonical; exact H|].
      assert (K : forall x, 1 <= x -> pcall a x = pcall (atom_of_line w) x) by (intros x Hx; rewrite atom_of_call by exact H; symmetry; apply P; exact Hx).
      intro x. destruct (Z_lt_ge_dec x 0) as [L|L]; [|destruct (Z.eq_dec x 0) as [->|]; [rewrite !pcall_zero; reflexivity|apply K; lia]].
      pose proof (pcall_odd a (- x)) as O1. pose proof (pcall_odd (atom_of_line w) (- x)) as O2. rewrite Z.opp_involutive in O1, O2. rewrite O1, O2, K by lia. reflexivity.
  - intros (w & [H C] & ->). split; [apply atom_of_canonical; exact H|]. split; [apply atom_of_unsig; exact H|].
    destruct C as (C1 & C2 & C3). split; [|split]; intros; rewrite ?atom_of_call by exact H; auto.
Qed.
Theorem atoms_loop_exact : forall fuel, n * n + 1 < Z.of_nat fuel -> exists out, atoms_loop aord fuel [w0] = Ok out /\ NoDup out /\ forall a, In a out <-> atomw z a.
Proof.
  intros fuel Hf. destruct (loop_ok fuel 0 [w0] ltac:(lia) level_0 ltac:(pose proof (zlen_nonneg _ z); nia) ltac:(lia)) as (out & E & N & R). exists out. split; [exact E|]. split; [exact N|].
  intro a. rewrite R, atomw_line. split; [intros (w & G & _ & Q); exists w; auto|]. intros (w & G & Q). exists w. split; [exact G|]. split; [|exact Q]. destruct (rank_min w G) as [->|]; lia.
Qed.
End Ord.
End Z0.
