(* C81: Bruhat covers.  C82: transitions and tau. *)
From Coq Require Import List ZArith Lia Bool Permutation Arith.
From Verif Require Import PyBase M_Partitions M_Perm S_Perm L_Perm L_PermLen L_PermWord L_PermMisc S_Levels L_LevelsInst L_PermActs M_PermGroth S_PermGroth M_InvWords S_InvWords
  L_InvLen2 L_InvLen3 L_InvLen4 L_InvLen6 P_PermGroth M_Bruhat S_Bruhat L_Bruhat L_Bruhat2.
Import ListNotations.
Local Open Scope Z_scope.

(* bruhat_covers yields, once each, the permutations w t with t a reflection that are one shorter than w *)
Theorem C81_bruhat_covers : forall w n fuel, canonical w -> plen w = Ok n -> (Z.to_nat n < fuel)%nat ->
  exists l, bruhat_covers fuel w = Ok l /\ NoDup l /\
    forall u, In u l <-> canonical u /\ plen u = Ok (n - 1) /\ by_reflection (pcall w) (pcall u).
Proof.
  intros w n fuel Hw Hn Hf. rewrite plen_ok in Hn. assert (E : ell w = n) by congruence. pose proof (ell_nonneg w).
  destruct (covers_ok fuel w Hw ltac:(lia)) as (l & El & Nl & Sl). exists l. split; [exact El|]. split; [exact Nl|]. intro u. rewrite Sl, plen_ok, E. split; intros (A & B & C); (split; [exact A|]; split; [congruence|exact C]).
Qed.
Print Assumptions C81_bruhat_covers.

(* involution_bruhat_covers and fpf_involution_bruhat_covers raise AttributeError: a word with one letter
   deleted need not be reduced, from_involution_word then returns None *)
Theorem C81_involution_bruhat_covers_refuted :
  canonical [4; 3; 2; 1] /\ (forall x, pcall [4; 3; 2; 1] (pcall [4; 3; 2; 1] x) = x) /\
  forall fuel, (5 <= fuel)%nat -> involution_bruhat_covers fuel [4; 3; 2; 1] = Err AttributeError.
Proof.
  assert (C : canonical [4; 3; 2; 1]).
  { split; [|cbn; lia]. apply signed_word_intro; [|repeat constructor; cbn; lia]. intros x Hx. cbn in Hx. unfold zlen. cbn [length]. lia. }
  split; [exact C|]. split.
  - apply (invp_invol [4; 3; 2; 1] C). reflexivity.
  - intros fuel Hf. do 5 (destruct fuel as [|fuel]; [lia|]). vm_compute. reflexivity.
Qed.
Print Assumptions C81_involution_bruhat_covers_refuted.
Theorem C81_fpf_involution_bruhat_covers_refuted :
  fpf_on (zlen [4; 3; 2; 1]) (pcall [4; 3; 2; 1]) /\
  forall fuel, (3 <= fuel)%nat -> fpf_involution_bruhat_covers fuel [4; 3; 2; 1] = Err AttributeError.
Proof.
  split.
  - split; [apply C81_involution_bruhat_covers_refuted|]. intros x Hx. change (zlen [4; 3; 2; 1]) with 4 in Hx. assert (D : x = 1 \/ x = 2 \/ x = 3 \/ x = 4) by lia. destruct D as [->|[->|[->| ->]]]; vm_compute; split; congruence.
  - intros fuel Hf. do 3 (destruct fuel as [|fuel]; [lia|]). vm_compute. reflexivity.
Qed.
Print Assumptions C81_fpf_involution_bruhat_covers_refuted.

Example C81_example : bruhat_covers 9 [3; -2; -1] = Ok [[3; -2; 1]; [3; 2; -1]; [-1; -2]; [-2; 3; -1]] /\
  (forall x, pcall [3; -2; 1] x = pcall [3; -2; -1] (refl (-3) 3 x)) /\ involution_bruhat_covers 9 [3; 2; 1] = Ok [Some [2; 1]; Some [1; 3; 2]].
Proof.
  split; [reflexivity|]. split; [|reflexivity]. intro x. destruct (Z_lt_le_dec 3 (Z.abs x)) as [L|L].
  - unfold refl. replace (x =? -3) with false by lia. replace (x =? 3) with false by lia. replace (x =? - -3) with false by lia. replace (x =? - (3)) with false by lia. rewrite !pcall_out by (cbn; lia). reflexivity.
  - assert (D : x = -3 \/ x = -2 \/ x = -1 \/ x = 0 \/ x = 1 \/ x = 2 \/ x = 3) by lia. destruct D as [->|[->|[->|[->|[->|[->| ->]]]]]]; reflexivity.
Qed.

(* ---- C82 ---- *)
(* upper_transitions and lower_transitions conjugate instead of multiplying; they never yield anything *)
Lemma transitions_empty : forall w f l, canonical w -> (forall i, In i l -> exists t, f i = Ok t /\ canonical t) ->
  rfold (fun ans i => do t <- f i; do v <- conjugate t w; do a <- plen v; do b <- plen w; Ok (if a =? b + 1 then ans ++ [i] else ans)) l [] = Ok ([] : list Z).
Proof.
  intros w f l Hw H. rewrite (rfold_filter _ _ _ (fun i => i) (fun _ => false)).
  - replace (filter (fun _ => false) l) with (@nil Z) by (clear; induction l; auto). reflexivity.
  - intros acc i Hi. destruct (H i Hi) as (t & E & Ct). rewrite E. cbn [rbind]. rewrite conjugate_ok by assumption. cbn [rbind]. rewrite !plen_ok. cbn [rbind].
    rewrite (proj2 (Z.eqb_neq _ _)) by (apply ell_conj_parity; assumption). reflexivity.
Qed.
Theorem C82_upper_transitions_refuted :
  (forall w r, canonical w -> 1 <= r -> upper_transitions w r = Ok []) /\
  exists w u r j, canonical w /\ canonical u /\ 1 <= r < j /\ j <= zlen w /\ (forall x, pcall u x = pcall w (refl r j x)) /\ plen w = Ok 1 /\ plen u = Ok 2.
Proof.
  split.
  - intros w r Hw Hr. unfold upper_transitions. apply transitions_empty; [exact Hw|]. intros i Hi. apply In_zrange in Hi. exists (trp r i). split; [apply transposition_ok; lia|apply trp_canonical; lia].
  - exists [1; 3; 2], [2; 3; 1], 1, 3. assert (C1 : canonical [1; 3; 2]) by (split; [apply signed_word_intro; [intros x Hx; cbn in Hx; unfold zlen; cbn [length]; lia|repeat constructor; cbn; lia]|cbn; lia]).
    assert (C2 : canonical [2; 3; 1]) by (split; [apply signed_word_intro; [intros x Hx; cbn in Hx; unfold zlen; cbn [length]; lia|repeat constructor; cbn; lia]|cbn; lia]).
    split; [exact C1|]. split; [exact C2|]. split; [lia|]. split; [vm_compute; congruence|]. split; [|split; reflexivity].
    intro x. rewrite <- (trp_call 1 3) by lia. rewrite <- mulp_call; [reflexivity|apply C1|apply trp_canonical; lia].
Qed.
Print Assumptions C82_upper_transitions_refuted.
Theorem C82_lower_transitions_refuted :
  (forall w r, canonical w -> lower_transitions w r = Ok []) /\
  exists w u r i, canonical w /\ canonical u /\ 1 <= i < r /\ (forall x, pcall u x = pcall w (refl i r x)) /\ plen w = Ok 1 /\ plen u = Ok 2.
Proof.
  split.
  - intros w r Hw. unfold lower_transitions. apply (transitions_empty w (fun i => transposition i r)); [exact Hw|]. intros i Hi. apply In_zrange in Hi. exists (trp i r). split; [apply transposition_ok; lia|apply trp_canonical; lia].
  - destruct C82_upper_transitions_refuted as [_ (w & u & r & j & H)]. exists w, u, j, r. tauto.
Qed.
Print Assumptions C82_lower_transitions_refuted.

(* tau(i, j): an involution that differs from y only at i, j, y(i), y(j); it is y or longer than y,
   and it is longer whenever y(i) < y(j) *)
Theorem C82_tau : forall y i j, canonical y -> involution_map (pcall y) ->
  (1 <= i < j -> exists v m n, tau y i j = Ok v /\ canonical v /\ involution_map (pcall v) /\ plen y = Ok m /\ plen v = Ok n /\ (v = y \/ m < n) /\ (pcall y i < pcall y j -> m < n) /\
     forall x, 0 < x -> x <> i -> x <> j -> x <> pcall y i -> x <> pcall y j -> pcall v x = pcall y x) /\
  (~ 1 <= i < j -> tau y i j = Err AssertionError).
Proof.
  intros y i j Hy Hv. split.
  - intros [Hi Hj]. destruct (tau_ok y i j Hy Hv Hi Hj) as (v & E & [(C & I & L & A)|[-> L]]).
    + exists v, (ell y), (ell v). rewrite !plen_ok. repeat split; try assumption; try apply C; try apply I; auto. intros x Hx N1 N2 N3 N4. apply A; [exact Hx|]. unfold inS. tauto.
    + exists y, (ell y), (ell y). rewrite !plen_ok. split; [exact E|]. split; [exact Hy|]. split; [exact Hv|]. repeat split; auto. lia.
  - intro N. unfold tau. replace ((1 <=? i) && (i <? j)) with false by lia. reflexivity.
Qed.
Print Assumptions C82_tau.

Lemma involution_length_map : forall w, canonical w -> involution_map (pcall w) -> exists n, involution_length w = Ok n /\ shortest (involution_word (pcall w)) n.
Proof. intros w Hw Hv. destruct (involution_length_ok w (conj Hw (proj1 Hv))) as (n & E & _ & S). eauto. Qed.
Lemma shortest_fun : forall P m n, shortest P m -> shortest P n -> m = n.
Proof. intros P m n [(u & Hu & Lu) Hm] [(v & Hv & Lv) Hn]. specialize (Hm v Hv). specialize (Hn u Hu). lia. Qed.

(* the loops of the transition generators *)
Lemma transition_list : forall (f : Z -> res (list Z)) (len : list Z -> res Z) (w : list Z) (D : list Z -> Z -> Prop) l,
  (forall u m n, D u m -> D u n -> m = n) -> (exists m, len w = Ok m /\ D w m) -> NoDup l -> (forall i, In i l -> exists v n, f i = Ok v /\ len v = Ok n /\ D v n) ->
  exists ans, rfold (fun ans i => do v <- f i; do a <- len v; do b <- len w; Ok (if a =? b + 1 then ans ++ [i] else ans)) l [] = Ok ans /\ NoDup ans /\
    forall i, In i ans <-> In i l /\ exists v m, f i = Ok v /\ D w m /\ D v (m + 1).
Proof.
  intros f len w D l Fun (m & Em & Dm) Nl H.
  set (p := fun i => match f i with Ok v => match len v with Ok a => a =? m + 1 | _ => false end | _ => false end).
  exists (filter p l). split; [|split; [apply NoDup_filter; exact Nl|]].
  - rewrite (rfold_filter _ _ _ (fun i => i) p); [cbn [app]; rewrite map_id; reflexivity|]. intros acc i Hi. destruct (H i Hi) as (v & n & E1 & E2 & _). unfold p. rewrite E1. cbn [rbind]. rewrite E2. cbn [rbind]. rewrite Em. reflexivity.
  - intro i. rewrite filter_In. split; intros [Hi Hp]; (split; [exact Hi|]); destruct (H i Hi) as (v & n & E1 & E2 & Dn).
    + unfold p in Hp. rewrite E1, E2 in Hp. apply Z.eqb_eq in Hp. exists v, m. subst n. auto.
    + destruct Hp as (v' & m' & E1' & D1 & D2). unfold p. rewrite E1, E2. assert (v' = v) by congruence. subst v'. rewrite (Fun w m' m D1 Dm) in D2. apply Z.eqb_eq. exact (Fun v n (m + 1) Dn D2).
Qed.
Lemma in_len : forall w, canonical w -> (forall x, pcall w (pcall w x) = x) -> is_involution w = Ok true.
Proof. intros w Hw Hv. apply is_involution_true. split; assumption. Qed.
(* the involution transitions are the indices i with tau one longer, in terms of shortest involution words *)
Theorem C82_upper_involution_transitions : forall w r, canonical w -> involution_map (pcall w) -> 1 <= r ->
  exists l, upper_involution_transitions w r = Ok l /\ NoDup l /\
    forall j, In j l <-> r < j <= zlen w /\ exists v m, tau w r j = Ok v /\ shortest (involution_word (pcall w)) m /\ shortest (involution_word (pcall v)) (m + 1).
Proof.
  intros w r Hw Hv Hr. unfold upper_involution_transitions. rewrite in_len by (assumption || apply Hv). cbn [rbind negb].
  destruct (transition_list (fun i => tau w r i) involution_length w (fun u => shortest (involution_word (pcall u))) (zrange (r + 1) (zlen w + 1))) as (ans & E & N & S).
  - intros u m n. apply shortest_fun.
  - apply involution_length_map; assumption.
  - apply NoDup_zrange.
  - intros i Hi. apply In_zrange in Hi. destruct (proj1 (C82_tau w r i Hw Hv) ltac:(lia)) as (v & _ & _ & E & C & I & _). destruct (involution_length_map v C I) as (n & En & Sn). eauto.
  - exists ans. split; [exact E|]. split; [exact N|]. intro j. rewrite S, In_zrange. split; intros [A B]; (split; [lia|exact B]).
Qed.
Print Assumptions C82_upper_involution_transitions.
Theorem C82_lower_involution_transitions : forall w r, canonical w -> involution_map (pcall w) ->
  exists l, lower_involution_transitions w r = Ok l /\ NoDup l /\
    forall i, In i l <-> 1 <= i < r /\ exists v m, tau w i r = Ok v /\ shortest (involution_word (pcall w)) m /\ shortest (involution_word (pcall v)) (m + 1).
Proof.
  intros w r Hw Hv. unfold lower_involution_transitions. rewrite in_len by (assumption || apply Hv). cbn [rbind negb].
  destruct (transition_list (fun i => tau w i r) involution_length w (fun u => shortest (involution_word (pcall u))) (zrange 1 r)) as (ans & E & N & S).
  - intros u m n. apply shortest_fun.
  - apply involution_length_map; assumption.
  - apply NoDup_zrange.
  - intros i Hi. apply In_zrange in Hi. destruct (proj1 (C82_tau w i r Hw Hv) ltac:(lia)) as (v & _ & _ & E & C & I & _). destruct (involution_length_map v C I) as (n & En & Sn). eauto.
  - exists ans. split; [exact E|]. split; [exact N|]. intro j. rewrite S, In_zrange. split; intros [A B]; (split; [lia|exact B]).
Qed.
Print Assumptions C82_lower_involution_transitions.

(* conjugating a fixed-point-free involution of 1, ..., N by a transposition of 1, ..., N *)
Lemma conj_fpf : forall N y a b, canonical y -> zlen y = N -> fpf_on N (pcall y) -> 1 <= a -> a < b -> b <= N ->
  exists v n, (do t <- transposition a b; conjugate t y) = Ok v /\ fpf_involution_length v = Ok n /\ (forall x, pcall v x = conj_refl a b (pcall y) x) /\ shortest (symplectic_word N (conj_refl a b (pcall y))) n.
Proof.
  intros N y a b Hy L [Iv Hf] Ha Hab HN. rewrite transposition_ok by lia. cbn [rbind]. pose proof (trp_canonical a b ltac:(lia)) as Ct. rewrite conjugate_ok by assumption.
  set (v := mulp (mulp (trp a b) y) (trp a b)). assert (Cv : canonical v) by (unfold v; auto 10 with perm).
  assert (Fv : forall x, pcall v x = conj_refl a b (pcall y) x) by (intro x; unfold v; rewrite !mulp_call by auto 10 with perm; rewrite !trp_call by lia; reflexivity).
  assert (R : forall x, 1 <= x <= N -> 1 <= refl a b x <= N) by (intros x Hx; rewrite refl_pos by lia; destruct (x =? a); [lia|]; destruct (x =? b); lia).
  assert (Fy : fpf (zlen y) y) by (split; [split; assumption|rewrite L; exact Hf]).
  assert (V : forall x, 1 <= x <= N -> 1 <= pcall v x <= N /\ pcall v x <> x).
  { intros x Hx. rewrite Fv. unfold conj_refl. pose proof (R x Hx) as Rx. pose proof (fpf_values _ y (refl a b x) Fy ltac:(lia) ltac:(lia)) as Y. rewrite L in Y.
    split; [apply R; lia|]. intro Q. assert (E : pcall y (refl a b x) = refl a b x) by (rewrite <- Q at 2; rewrite refl_invol by lia; reflexivity). apply Hf in E; [exact E|exact Rx]. }
  assert (Zv : zlen v = N).
  { assert (H0 : 0 <= N) by (rewrite <- L; unfold zlen; lia). assert (zlen v <= N).
    { apply zlen_fixed; [exact Cv|exact H0|]. intros x Hx. rewrite Fv. unfold conj_refl. rewrite (refl_pos a b x) by lia. replace (x =? a) with false by lia. replace (x =? b) with false by lia. rewrite pcall_out by lia.
      rewrite refl_pos by lia. replace (x =? a) with false by lia. replace (x =? b) with false by lia. reflexivity. }
    destruct (Z_lt_le_dec (zlen v) N) as [Q|Q]; [|lia]. exfalso. destruct (V N ltac:(lia)) as [_ W]. apply W. apply pcall_out. lia. }
  assert (Fz : fpf (zlen v) v).
  { split; [split; [exact Cv|]|].
    - intro x. rewrite !Fv. unfold conj_refl. rewrite refl_invol, Iv, refl_invol by lia. reflexivity.
    - intros x Hx. rewrite Zv in Hx. destruct (V x Hx). lia. }
  destruct (fpf_length_ok v Fz (fpf_even_on v Cv Fz)) as (n & En & Sn). exists v, n. split; [reflexivity|]. split; [exact En|]. split; [exact Fv|]. rewrite Zv in Sn.
  destruct Sn as [(u & Hu & Lu) Mn]. split; [exists u; split; [apply (symplectic_word_ext N (pcall v)); assumption|exact Lu]|]. intros u' Hu'. apply Mn. apply (symplectic_word_ext N (pcall v) (conj_refl a b (pcall y))); assumption.
Qed.
Lemma conj_list : forall N y (lo hi : Z -> Z) l, canonical y -> zlen y = N -> fpf_on N (pcall y) -> NoDup l -> (forall j, In j l -> 1 <= lo j /\ lo j < hi j /\ hi j <= N) ->
  exists ans, rfold (fun ans j => do t <- transposition (lo j) (hi j); do v <- conjugate t y; do a <- fpf_involution_length v; do b <- fpf_involution_length y; Ok (if a =? b + 1 then ans ++ [j] else ans)) l [] = Ok ans /\ NoDup ans /\
    forall j, In j ans <-> In j l /\ exists m, shortest (symplectic_word N (pcall y)) m /\ shortest (symplectic_word N (conj_refl (lo j) (hi j) (pcall y))) (m + 1).
Proof.
  intros N y lo hi l Hy L Hf Nl H. assert (Fy : fpf (zlen y) y) by (split; [split; [assumption|apply Hf]|rewrite L; apply Hf]).
  destruct (fpf_length_ok y Fy (fpf_even_on y Hy Fy)) as (m & Em & Sm). rewrite L in Sm.
  set (p := fun j => match (do t <- transposition (lo j) (hi j); conjugate t y) with Ok v => match fpf_involution_length v with Ok a => a =? m + 1 | _ => false end | _ => false end).
  exists (filter p l). split; [|split; [apply NoDup_filter; exact Nl|]].
  - rewrite (rfold_filter _ _ _ (fun i => i) p); [cbn [app]; rewrite map_id; reflexivity|]. intros acc j Hj. destruct (H j Hj) as (H1 & H2 & H3). destruct (conj_fpf N y _ _ Hy L Hf H1 H2 H3) as (v & n & E1 & E2 & _).
    unfold p. rewrite E1. rewrite E2. destruct (transposition (lo j) (hi j)) as [t|]; [|discriminate]. cbn [rbind] in *. rewrite E1. cbn [rbind]. rewrite E2. cbn [rbind]. rewrite Em. reflexivity.
  - intro j. rewrite filter_In. split; intros [Hj Hp]; (split; [exact Hj|]); destruct (H j Hj) as (H1 & H2 & H3); destruct (conj_fpf N y _ _ Hy L Hf H1 H2 H3) as (v & n & E1 & E2 & _ & Sn).
    + unfold p in Hp. rewrite E1, E2 in Hp. apply Z.eqb_eq in Hp. exists m. subst n. auto.
    + destruct Hp as (m' & D1 & D2). unfold p. rewrite E1, E2. rewrite (shortest_fun _ _ _ D1 Sm) in D2. apply Z.eqb_eq. exact (shortest_fun _ _ _ Sn D2).
Qed.
Theorem C82_lower_fpf_involution_transitions : forall w r, canonical w -> fpf_on (zlen w) (pcall w) -> r <= zlen w ->
  exists l, lower_fpf_involution_transitions w r = Ok l /\ NoDup l /\
    forall i, In i l <-> 1 <= i < r /\ exists m, shortest (symplectic_word (zlen w) (pcall w)) m /\ shortest (symplectic_word (zlen w) (conj_refl i r (pcall w))) (m + 1).
Proof.
  intros w r Hw Hf Hr. unfold lower_fpf_involution_transitions. rewrite (is_fpf_true (zlen w)) by first [lia | split; [split; [assumption|apply Hf]|apply Hf]]. cbn [rbind negb].
  destruct (conj_list (zlen w) w (fun j => j) (fun _ => r) (zrange 1 r) Hw eq_refl Hf (NoDup_zrange _ _)) as (ans & E & N & S).
  - intros j Hj. apply In_zrange in Hj. lia.
  - exists ans. split; [exact E|]. split; [exact N|]. intro i. rewrite S, In_zrange. tauto.
Qed.
Print Assumptions C82_lower_fpf_involution_transitions.
Theorem C82_upper_fpf_involution_transitions : forall w r, canonical w -> fpf_on (zlen w) (pcall w) -> 1 <= r ->
  let n := zlen w in
  exists l, upper_fpf_involution_transitions w r = Ok l /\ NoDup l /\
    forall j, In j l <-> r < j <= n + 2 /\ exists m, shortest (symplectic_word (n + 2) (extend n (pcall w))) m /\ shortest (symplectic_word (n + 2) (conj_refl r j (extend n (pcall w)))) (m + 1).
Proof.
  intros w r Hw Hf Hr n. unfold upper_fpf_involution_transitions. assert (H0 : 0 <= n) by (unfold n, zlen; lia). rewrite (is_fpf_true (zlen w)) by first [lia | split; [split; [assumption|apply Hf]|apply Hf]]. cbn [rbind negb]. fold n.
  assert (Cs : canonical (sp (n + 1))) by (apply sp_canonical; lia). rewrite sp_ok by lia. cbn [rbind]. rewrite pmul_ok by auto with perm. cbn [rbind]. set (y := mulp w (sp (n + 1))). assert (Cy : canonical y) by (unfold y; auto with perm).
  assert (Fy : forall x, pcall y x = extend n (pcall w) x).
  { intro x. unfold y, extend. rewrite mulp_call by auto with perm. rewrite sp_call by lia. destruct ((Z.abs x =? n + 1) || (Z.abs x =? n + 2)) eqn:E.
    - apply pcall_out. fold n. unfold simple. replace (n + 1 =? 0) with false by lia. repeat match goal with |- context [?x =? ?y] => destruct (Z.eqb_spec x y) end; lia.
    - f_equal. unfold simple. replace (n + 1 =? 0) with false by lia. repeat match goal with |- context [?x =? ?y] => destruct (Z.eqb_spec x y) end; lia. }
  destruct Hf as [Iv Hp]. fold n in Hp.
  assert (Fw : fpf n w) by (split; [split; assumption|exact Hp]).
  assert (Hfy : fpf_on (n + 2) (pcall y)).
  { split.
    - intro x. unfold y. rewrite !mulp_call by auto with perm. rewrite !sp_call by lia.
      assert (C : forall z, simple (n + 1) (pcall w z) = pcall w (simple (n + 1) z)).
      { intro z. destruct (Z_le_gt_dec (Z.abs z) n) as [A|A].
        - assert (B : Z.abs (pcall w z) <= n) by (apply pcall_abs'; [apply Hw|exact A]). assert (D : forall z, Z.abs z <= n -> simple (n + 1) z = z).
          { intros t Ht. unfold simple. replace (n + 1 =? 0) with false by lia. repeat match goal with |- context [?x =? ?y] => destruct (Z.eqb_spec x y) end; lia. }
          rewrite !D by assumption. reflexivity.
        - rewrite (pcall_out w z) by (fold n; lia). symmetry. apply pcall_out. fold n. unfold simple. replace (n + 1 =? 0) with false by lia. repeat match goal with |- context [?x =? ?y] => destruct (Z.eqb_spec x y) end; lia. }
      rewrite C, simple_invol by lia. apply Iv.
    - intros x Hx. rewrite Fy. unfold extend. destruct (Z_le_gt_dec x n) as [A|A].
      + replace (Z.abs x =? n + 1) with false by lia. replace (Z.abs x =? n + 2) with false by lia. cbn [orb]. apply Hp. lia.
      + replace ((Z.abs x =? n + 1) || (Z.abs x =? n + 2)) with true by lia. unfold simple. replace (n + 1 =? 0) with false by lia. repeat match goal with |- context [?x =? ?y] => destruct (Z.eqb_spec x y) end; lia. }
  assert (Zy : zlen y = n + 2).
  { assert (zlen y <= n + 2).
    { apply zlen_fixed; [exact Cy|lia|]. intros x Hx. rewrite Fy. unfold extend. replace (Z.abs x =? n + 1) with false by lia. replace (Z.abs x =? n + 2) with false by lia. cbn [orb]. apply pcall_out. fold n. lia. }
    destruct (Z_lt_le_dec (zlen y) (n + 2)) as [Q|Q]; [|lia]. exfalso. destruct (proj2 Hfy (n + 2) ltac:(lia)) as [_ V]. apply V. apply pcall_out. lia. }
  destruct (conj_list (n + 2) y (fun _ => r) (fun j => j) (zrange (r + 1) (n + 3)) Cy Zy Hfy (NoDup_zrange _ _)) as (ans & E & N & S).
  - intros j Hj. apply In_zrange in Hj. lia.
  - exists ans. split; [exact E|]. split; [exact N|]. intro j. rewrite S, In_zrange.
    assert (X : forall P Q k, (forall v, symplectic_word (n + 2) P v <-> symplectic_word (n + 2) Q v) -> (shortest (symplectic_word (n + 2) P) k <-> shortest (symplectic_word (n + 2) Q) k)).
    { intros P Q k PQ. unfold shortest. split; intros [(v & Hv & Lv) M]; (split; [exists v; split; [apply PQ; exact Hv|exact Lv]|]; intros u Hu; apply M, PQ; exact Hu). }
    split; intros [A (m & B & C)]; (split; [lia|]); exists m; (split; [eapply X; [|exact B]|eapply X; [|exact C]]); intro v; apply symplectic_word_ext; intro x; unfold conj_refl; rewrite ?Fy; reflexivity.
Qed.
Print Assumptions C82_upper_fpf_involution_transitions.

Example C82_example : tau [1; 3; 2] 1 3 = Ok [3; 2; 1] /\ upper_involution_transitions [1; 3; 2] 1 = Ok [2; 3] /\
  upper_fpf_involution_transitions [2; 1] 2 = Ok [3] /\ upper_transitions [1; 3; 2] 1 = Ok [].
Proof. repeat split; reflexivity. Qed.
