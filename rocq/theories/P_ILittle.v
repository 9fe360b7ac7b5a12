(* C96: Little bumps of involution words. *)
From Coq Require Import List ZArith Bool Lia Permutation.
From Verif Require Import PyBase FinSum M_Partitions M_Semistandard M_Perm S_Perm S_Bruhat M_PermGen L_Perm L_PermLen L_PermWord L_PermDem M_Bruhat L_Bruhat M_Levels S_Levels L_LevelsInst P_Perm P_Levels L_PermActs L_PermGroth2 L_PermGroth7 L_PermEnum2 M_PermGroth S_PermGroth S_InvWords M_InvWords L_InvLen L_InvLen2 L_InvLen6 P_InvWords M_Atoms S_Atoms L_Atoms1 L_Atoms2 L_Atoms6 L_Atoms8 P_Atoms M_Little S_Little L_Little1 L_Little2 L_LittleGen L_IBruhat L_ILittle1 M_ILittle L_ILittle2.
Import ListNotations.
Local Open Scope Z_scope.

Lemma ired_self : forall f v, ok1 v -> shortest_word (involution_word f) v -> ired v /\ forall x, pcall (ivp v) x = f x.
Proof.
  intros f v G H. pose proof (ok1_gens v G) as G'. set (z := cjs [] v). assert (V : invol z) by (apply cjs_invol; [apply invol_nil|exact G']).
  assert (Hc : involution_word (pcall z) v) by (apply involution_word_cjs; [apply V|auto]).
  assert (E : forall x, pcall z x = f x) by (destruct H as [[_ A] _]; destruct Hc as [_ A']; apply (acts_fun conj_rel conj_rel_fun conj_rel_ext v (fun x => x)); assumption).
  assert (S : shortest_word (involution_word (pcall z)) v) by (apply (shortest_word_ext (involution_word f)); [|exact H]; intro u; apply involution_word_ext; intro x; symmetry; apply E).
  apply ired_is in S; [|apply V|exact G]. destruct S as [R ->]. auto.
Qed.
Lemma ired_word : forall v, ired v -> shortest_word (involution_word (pcall (ivp v))) v.
Proof. intros v R. apply ired_is; [apply (ivp_upos v (proj1 R))|apply R|]. auto. Qed.
Lemma ist_of : forall y w p s q, canonical y -> ired w -> w = p ++ s :: q -> shortest_word (involution_word (pcall y)) (p ++ q) -> ist y w (zlen p).
Proof.
  intros y w p s q Hy R Ew H. split; [apply R|]. split; [rewrite Ew, zlen_app, zlen_cons; pose proof (zlen_nonneg _ p); pose proof (zlen_nonneg _ q); lia|]. rewrite Ew, delete_split.
  assert (G : ok1 (p ++ q)) by (destruct R as [G _]; rewrite Ew in G; apply ok1_mid in G; apply ok1_app; tauto). apply ired_is in H; assumption.
Qed.

(* involution_little_bump(word, y), for a shortest involution word one of whose deletions is a shortest involution word
   of y: terminates without an exception, and the result is a shortest involution word of the same length and descents,
   with larger letters, the letter that was deleted being strictly larger, one of whose deletions is again a
   shortest involution word of y *)
Theorem C96_involution_little_bump : forall word f y p s q, Forall (fun i => 1 <= i) word -> shortest_word (involution_word f) word ->
  canonical y -> word = p ++ s :: q -> shortest_word (involution_word (pcall y)) (p ++ q) ->
  exists N, forall fuel, (N <= fuel)%nat -> exists new, involution_little_bump fuel word y = Ok new /\
    (exists g, shortest_word (involution_word g) new) /\ raised word new /\ s < nthz new (zlen p) /\
    exists v, one_less new v /\ shortest_word (involution_word (pcall y)) v.
Proof.
  intros word f y p s q G Hw Hy Ew Hv. destruct (ired_self f word G Hw) as [R _]. pose proof (ist_of y word p s q Hy R Ew Hv) as S.
  exists (Z.to_nat (zlen word * zlen y + 2)). intros fuel Hf. destruct (iloop_ok fuel y word (zlen p) S) as (new & k & E & B); [lia|].
  exists new. split; [rewrite (ibump_eq fuel word y (zlen p) R S); exact E|]. destruct (gbumps_facts _ _ _ _ _ _ _ B) as (R1 & _ & Hk & R2 & Y & _ & M). split; [exists (pcall (ivp new)); apply ired_word; exact R1|].
  split; [apply (ibumps_raised y word (zlen p) new k); assumption|]. split; [rewrite Ew, nthz_mid in M; exact M|]. destruct (delete_cases new k Hk) as (p' & s' & q' & En & _ & D). exists (p' ++ q'). split; [exists p', s', q'; auto|].
  rewrite D in R2, Y. apply ired_is; [exact Hy|apply R2|auto].
Qed.
Print Assumptions C96_involution_little_bump.

(* different words have different bumps *)
Theorem C96_injective : forall y w f v w' f' v' fuel fuel' new, canonical y ->
  Forall (fun i => 1 <= i) w -> shortest_word (involution_word f) w -> one_less w v -> shortest_word (involution_word (pcall y)) v ->
  Forall (fun i => 1 <= i) w' -> shortest_word (involution_word f') w' -> one_less w' v' -> shortest_word (involution_word (pcall y)) v' ->
  involution_little_bump fuel w y = Ok new -> involution_little_bump fuel' w' y = Ok new -> w = w'.
Proof.
  intros y w f v w' f' v' fuel fuel' new Hy G Hw (p & s & q & Ew & Ev) Hv G' Hw' (p' & s' & q' & Ew' & Ev') Hv' H H'. subst v v'. destruct (ired_self f w G Hw) as [R _]. destruct (ired_self f' w' G' Hw') as [R' _].
  pose proof (ist_of y w p s q Hy R Ew Hv) as S. pose proof (ist_of y w' p' s' q' Hy R' Ew' Hv') as S'. rewrite (ibump_eq fuel w y _ R S) in H. rewrite (ibump_eq fuel' w' y _ R' S') in H'.
  destruct (iloop_bumps _ _ _ _ _ S H) as (k & B). destruct (iloop_bumps _ _ _ _ _ S' H') as (k' & B'). apply (ibumps_inj y w (zlen p) w' (zlen p') new k k'); assumption.
Qed.
Print Assumptions C96_injective.

(* the remaining cases *)
Theorem C96_not_reduced : forall fuel word y aord pick c j k, Forall (fun i => 1 <= i) word -> (forall f, ~ shortest_word (involution_word f) word) ->
  involution_little_bump fuel word y = Err AssertionError /\ involution_little_bump_at aord pick fuel c word j k = Err AssertionError.
Proof.
  intros fuel word y aord pick c j k G N. unfold involution_little_bump, involution_little_bump_at. rewrite lenient_ok by exact G. cbn [rbind]. destruct (ilen_dec word G) as (l & -> & Q). cbn [rbind].
  replace (l =? zlen word) with false; [split; reflexivity|]. symmetry. apply Z.eqb_neq. intro X. apply Q in X. apply (N (pcall (ivp word))). apply ired_word. exact X.
Qed.
Print Assumptions C96_not_reduced.
Theorem C96_unchanged : forall fuel word f y, Forall (fun i => 1 <= i) word -> shortest_word (involution_word f) word ->
  (forall v, one_less word v -> ~ acts twist_rel (fun x => x) v (pcall y)) -> involution_little_bump fuel word y = Ok word.
Proof.
  intros fuel word f y G Hw N. destruct (ired_self f word G Hw) as [R _]. unfold involution_little_bump. rewrite lenient_ok by exact G. cbn [rbind]. destruct (ilen_dec word G) as (l & -> & Q). cbn [rbind]. rewrite (proj2 Q R), Z.eqb_refl. cbn [negb].
  assert (B : forall j, In j (zrange 0 (zlen word)) -> 0 <= j < zlen word) by (intros j Hj; apply In_zrange in Hj; exact Hj). revert B. generalize (zrange 0 (zlen word)) as is. induction is as [|j is IH]; intro B; [reflexivity|].
  pose proof (B j (or_introl eq_refl)) as Hj. pose proof (ok1_delete word j G Hj) as Gd. cbn [involution_bump_from]. rewrite lenient_ok by exact Gd. cbn [rbind]. destruct (peq (ivp (delete_at j word)) y) eqn:P; [|apply IH; intros; apply B; right; assumption].
  exfalso. unfold peq in P. apply zlist_eqb_eq in P. destruct (delete_cases word j Hj) as (p & s & q & Ew & _ & D). apply (N (delete_at j word)); [exists p, s, q; rewrite D; auto|].
  destruct (proj1 (C80_from_involution_word (delete_at j word)) (ok1_gens _ Gd)) as [_ (w & E & _ & A)]. pose proof (lenient_ok _ Gd) as L. unfold lenient in L. rewrite E in L. cbn [rbind] in L. injection L as ->. rewrite P in A. exact A.
Qed.
Print Assumptions C96_unchanged.

(* ---- the form with two positions ---- *)
Lemma square : forall pick u r, chooses pick -> canonical u -> reduced r u -> pmodf pick (invp u) u = Ok (cjs [] r).
Proof.
  intros pick u r Hp Hu R. rewrite (pmodf_ok pick Hp (invp u) u r) by (try assumption; auto with perm). f_equal. pose proof R as (G & E & L). rewrite cjs_nil_word by exact G. rewrite dw_app. f_equal. symmetry. apply dw_reduced; [auto with perm|].
  split; [apply Forall_rev; exact G|]. split; [rewrite wordp_rev by exact G; rewrite E; reflexivity|]. rewrite ell_invp by exact Hu. rewrite <- L. unfold zlen. rewrite rev_length. reflexivity.
Qed.
Lemma shorter_ok : forall t l, canonical t -> Forall canonical l -> exists l', shorter_by t l = Ok l' /\ forall u, In u l' <-> exists x, In x l /\ u = mulp x t /\ ell u = ell x - 1.
Proof.
  intros t l Ht F. induction F as [|x l Hx F IH]; [exists []; split; [reflexivity|]; intro u; split; [intros []|intros (x & [] & _)]|]. destruct IH as (l' & E & I). cbn [shorter_by]. rewrite pmul_ok by (apply Hx || apply Ht). cbn [rbind]. rewrite !plen_ok. cbn [rbind]. rewrite E. cbn [rbind].
  eexists. split; [reflexivity|]. intro u. destruct (Z.eqb_spec (ell (mulp x t)) (ell x - 1)) as [Q|Q].
  - split; [intros [<-|H]; [exists x; split; [left; reflexivity|auto]|apply I in H; destruct H as (z & Hz & H); exists z; split; [right; exact Hz|exact H]]|].
    intros (z & [<-|Hz] & Eu & Lu); [left; auto|right; apply I; exists z; auto].
  - split; [intro H; apply I in H; destruct H as (z & Hz & H); exists z; split; [right; exact Hz|exact H]|]. intros (z & [<-|Hz] & Eu & Lu); [subst u; lia|apply I; exists z; auto].
Qed.
Lemma only_ok : forall pick l, chooses pick -> Forall canonical l -> exists l', atoms_only pick l = Ok l' /\ forall u, In u l' <-> In u l /\ exists y, pmodf pick (invp u) u = Ok y /\ invol y /\ il2 y = 2 * ell u.
Proof.
  intros pick l Hp F. induction F as [|x l Hx F IH]; [exists []; split; [reflexivity|]; intro u; cbn; tauto|]. destruct IH as (l' & E & I). cbn [atoms_only]. rewrite pinv_ok by apply Hx. cbn [rbind].
  destruct (reduced_exists _ x Hx eq_refl) as (r & Gr & Er & Lr). assert (V : invol (cjs [] r)) by (apply cjs_invol; [apply invol_nil|exact Gr]). pose proof (square pick x r Hp Hx (conj Gr (conj Er Lr))) as Sq. rewrite Sq. cbn [rbind].
  destruct (involution_length_ok (cjs [] r) V) as (m & Em & Lm & _). rewrite Em. cbn [rbind]. rewrite plen_ok. cbn [rbind]. rewrite E. cbn [rbind]. eexists. split; [reflexivity|]. intro u. destruct (Z.eqb_spec m (ell x)) as [Q|Q].
  - split; [intros [<-|H]; [split; [left; reflexivity|exists (cjs [] r); split; [exact Sq|split; [exact V|lia]]]|apply I in H; destruct H; split; [right|]; assumption]|]. intros [[<-|H] K]; [left; reflexivity|right; apply I; auto].
  - split; [intro H; apply I in H; destruct H; split; [right|]; assumption|]. intros [[<-|H] K]; [|apply I; auto]. destruct K as (y & Ey & _ & Ly). rewrite Sq in Ey. injection Ey as <-. lia.
Qed.
Lemma bound_exists : forall (g : Z -> Z) l, exists M, 0 <= M /\ forall i, In i l -> g i <= M.
Proof. intros g l. induction l as [|i l (M & HM & H)]; [exists 0; split; [lia|intros i []]|]. exists (Z.max M (g i)). split; [lia|]. intros x [<-|Hx]; [lia|]. specialize (H x Hx). lia. Qed.
Lemma atom_word : forall z x, upos z -> atomw z x -> exists v, ired v /\ ivp v = z /\ wordp v = x /\ zlen v = ell x /\ canonical x.
Proof.
  intros z x [Hz U] (v & G & P & E). destruct (path_cond v z G P U) as (F & _ & C & _). pose proof (path_len v z G P U) as L. destruct (path_ired v z F P) as [R Ei]. exists v. rewrite <- E. auto.
Qed.

(* involution_little_bump(word, j, k): when some atom of the involution of the word, times the transposition of j and k, is an atom of
   some y of length one less, the word is bumped at such a y, and otherwise the word is returned *)
Definition lower_atom (f : Z -> Z) (j k : Z) (n : Z) (y : list Z) : Prop :=
  canonical y /\ keeps_sign (pcall y) /\ (exists v, shortest_word (involution_word (pcall y)) v /\ zlen v = n) /\
  exists a u, is_atom f a /\ is_atom (pcall y) u /\ forall x, pcall u x = pcall a (refl j k x).
Theorem C96_involution_little_bump_at : forall aord dorder pick, (forall l, Permutation (aord l) l) -> (forall l, Permutation (dorder l) l) -> chooses pick ->
  forall word f j k, Forall (fun i => 1 <= i) word -> shortest_word (involution_word f) word -> 1 <= j -> 1 <= k -> j <> k ->
  exists N, forall fuel ic rt ac, (N <= fuel)%nat -> atom_world aord dorder ic rt ac ->
    exists ac' new, involution_little_bump_at aord pick fuel ac word j k = Ok (ac', new) /\ atom_world aord dorder ic rt ac' /\
      ((new = word /\ forall y, ~ lower_atom f j k (zlen word - 1) y) \/
       (exists y p s q, lower_atom f j k (zlen word - 1) y /\ word = p ++ s :: q /\ shortest_word (involution_word (pcall y)) (p ++ q) /\
          involution_little_bump fuel word y = Ok new /\ (exists g, shortest_word (involution_word g) new) /\ raised word new /\ s < nthz new (zlen p))).
Proof.
  intros aord dorder pick Ha Hd Hp word f j k G Hw Hj Hk Njk. destruct (ired_self f word G Hw) as [R Ef]. destruct (transposition_any j k Hj Hk Njk) as (t & Et & Ct & Vt).
  set (z := ivp word) in *. pose proof (ivp_upos word G) as Uz. fold z in Uz.
  assert (Af : forall a, is_atom f a <-> atomw z a).
  { intro a. rewrite (atom_is z a (proj1 Uz)). unfold is_atom. assert (X : forall v, shortest_word (involution_word f) v <-> shortest_word (involution_word (pcall z)) v) by (intro v; split; apply shortest_word_ext; intro u; apply involution_word_ext; intro x; rewrite Ef; reflexivity).
    split; intros (C & v & Hv & E); (split; [exact C|exists v; split; [apply X; exact Hv|exact E]]). }
  (* a bump at any y found *)
  assert (Low : forall a u y, atomw z a -> u = mulp a t -> ell u = ell a - 1 -> pmodf pick (invp u) u = Ok y -> il2 y = 2 * ell u ->
    lower_atom f j k (zlen word - 1) y /\ exists p s q, word = p ++ s :: q /\ shortest_word (involution_word (pcall y)) (p ++ q)).
  { intros a u y Aa Eu Lu Ey Ly. destruct (atom_word z a Uz Aa) as (v & Rv & Ev & Wv & Lv & Ca). pose proof (ok1_gens v (proj1 Rv)) as Gv. assert (Cu : canonical u) by (subst u; apply mulp_canonical; [apply Ca|apply Ct]).
    set (b := Z.min j k). set (c := Z.max j k). assert (Hbc : 1 <= b < c) by (unfold b, c; lia).
    assert (Rbc : forall x, refl j k x = refl b c x) by (intro x; unfold b, c; destruct (Z_lt_ge_dec j k); [rewrite Z.min_l, Z.max_r by lia; reflexivity|rewrite Z.min_r, Z.max_l by lia; apply refl_sym]).
    assert (Vu : forall x, pcall u x = pcall a (refl j k x)) by (intro x; subst u; rewrite mulp_call by (apply Ca || apply Ct); rewrite Vt; reflexivity).
    assert (X : pcall a c < pcall a b) by (apply (ell_refl_lt a u b c); try assumption; try lia; intro x; rewrite Vu, Rbc; reflexivity).
    rewrite <- Wv in X. rewrite !wordp_map in X by exact Gv. destruct (exchange v b c Gv ltac:(lia) ltac:(lia) (proj2 Hbc) X) as (p & s & q & Es & Epq).
    assert (Gs : ok1 (p ++ q)) by (destruct Rv as [Gv' _]; rewrite Es in Gv'; apply ok1_mid in Gv'; apply ok1_app; tauto). pose proof (ok1_gens _ Gs) as Gpq.
    assert (Wu : wordp (p ++ q) = u) by (apply canonical_ext; [apply wordp_canonical; exact Gpq|exact Cu|]; intro x; rewrite wordp_map by exact Gpq; rewrite Epq, Vu, Rbc, <- Wv, wordp_map by exact Gv; reflexivity).
    assert (Lpq : zlen (p ++ q) = ell u) by (rewrite Es, zlen_mid in Lv; lia).
    rewrite (square pick u (p ++ q) Hp Cu (conj Gpq (conj Wu Lpq))) in Ey. injection Ey as <-. set (y := cjs [] (p ++ q)) in *.
    assert (P : path (iact false) [] (p ++ q) = Some y) by (apply path_reduced; [exact Gpq|]; split; [reflexivity|lia]). destruct (path_ired _ _ Gs P) as [Rp Ep]. pose proof (ivp_upos _ Gs) as Uy. rewrite Ep in Uy.
    pose proof (ired_word _ Rp) as Sp. rewrite Ep in Sp. assert (Lw : zlen (p ++ q) = zlen word - 1).
    { destruct R as [_ R], Rv as [_ Rv]. rewrite Ev in Rv. fold z in R. rewrite Es, zlen_mid in Rv. lia. }
    split.
    - split; [apply Uy|]. split; [apply Uy|]. split; [exists (p ++ q); auto|]. exists a, u. split; [apply Af; exact Aa|]. split; [|exact Vu]. split; [exact Cu|]. exists (p ++ q). split; [exact Sp|]. intro x. rewrite <- Wu. apply wordp_map. exact Gpq.
    - rewrite Es in Rv. destruct (other_word word p s q R Rv ltac:(rewrite <- Es; exact Ev) Rp) as (p' & s' & q' & Ew & Rp' & Ep'). exists p', s', q'. split; [exact Ew|]. rewrite <- Ep, <- Ep'. apply ired_word. exact Rp'. }
  (* and every y is found *)
  assert (Up : forall y, lower_atom f j k (zlen word - 1) y -> exists a u, atomw z a /\ u = mulp a t /\ ell u = ell a - 1 /\ pmodf pick (invp u) u = Ok y /\ invol y /\ il2 y = 2 * ell u).
  { intros y (Cy & Ky & (v0 & Hv0 & Lv0) & a & u & Aa & Au & Vu). apply Af in Aa. destruct (atom_word z a Uz Aa) as (v & Rv & Ev & Wv & Lv & Ca).
    assert (Vy : invol y) by (destruct Hv0 as [W _]; apply involution_word_cjs in W; [|exact Cy]; destruct W as [Gv ->]; apply cjs_invol; [apply invol_nil|exact Gv]).
    apply (atom_is y u Vy) in Au. destruct (atom_word y u (conj Vy Ky) Au) as (r & Rr & Er & Wr & Lr & Cu). exists a, u. split; [exact Aa|].
    assert (Eu : u = mulp a t) by (apply canonical_ext; [exact Cu|apply mulp_canonical; [apply Ca|apply Ct]|]; intro x; rewrite mulp_call by (apply Ca || apply Ct); rewrite Vt; apply Vu). split; [exact Eu|].
    assert (L0 : zlen r = zlen v0) by (pose proof (ired_word r Rr) as [W1 M1]; rewrite Er in *; destruct Hv0 as [W0 M0]; pose proof (M1 v0 W0); pose proof (M0 r W1); lia).
    assert (Lz : zlen v = zlen word) by (destruct R as [_ R], Rv as [_ Rv]; rewrite Ev in Rv; fold z in R; lia).
    split; [lia|]. split; [|split; [exact Vy|destruct Rr as [_ Rr]; rewrite Er in Rr; lia]].
    rewrite (square pick u r Hp Cu (conj (ok1_gens r (proj1 Rr)) (conj Wr Lr))). rewrite <- (ivp_cjs r Rr), Er. reflexivity. }
  (* fuel enough for the atoms and for each of the finitely many bumps *)
  destruct (bound_exists (fun i => zlen (ivp (delete_at i word))) (zrange 0 (zlen word))) as (M & HM & BM). pose proof (zlen_nonneg _ word) as Nw. pose proof (Z.mul_nonneg_nonneg _ _ Nw HM) as NM. pose proof (Z.mul_nonneg_nonneg _ _ (zlen_nonneg _ z) (zlen_nonneg _ z)) as Nz.
  exists (Z.to_nat (zlen z * zlen z + zlen word * M + 2)). intros fuel ic rt ac Hf HW. destruct (world_ok _ _ Ha Hd _ _ _ HW) as (_ & _ & H3).
  destruct (get_atoms_exact aord Ha fuel ac z H3 (proj1 Uz) (proj2 Uz) ltac:(lia)) as (ac' & l & El & _ & Fl & Nl & Il).
  assert (HW' : atom_world aord dorder ic rt ac') by (apply (aw_atoms aord dorder ic rt ac fuel z ac' l HW); [apply Uz|exact El]).
  destruct (shorter_ok t l Ct Fl) as (l1 & E1 & I1). assert (F1 : Forall canonical l1) by (apply Forall_forall; intros u Hu; apply I1 in Hu; destruct Hu as (x & Hx & -> & _); apply mulp_canonical; [rewrite Forall_forall in Fl; apply (Fl x Hx)|apply Ct]).
  destruct (only_ok pick l1 Hp F1) as (l2 & E2 & I2). exists ac'.
  assert (U : involution_little_bump_at aord pick fuel ac word j k = match l2 with [] => Ok (ac', word) | x :: _ => do xi <- pinv x; do y <- pmodf pick xi x; do new <- involution_little_bump fuel word y; Ok (ac', new) end).
  { unfold involution_little_bump_at. rewrite lenient_ok by exact G. cbn [rbind]. fold z. destruct (ilen_dec word G) as (m & Em & Q). fold z in Em. rewrite Em. cbn [rbind]. rewrite (proj2 Q R), Z.eqb_refl. cbn [negb]. rewrite Et. cbn [rbind]. rewrite El. cbn [rbind snd fst]. rewrite E1. cbn [rbind]. rewrite E2. cbn [rbind]. reflexivity. }
  rewrite U. destruct l2 as [|u l2].
  - exists word. split; [reflexivity|]. split; [exact HW'|]. left. split; [reflexivity|]. intros y Hy. destruct (Up y Hy) as (a & u & Aa & Eu & Lu & Ey & Vy & Ly). apply (proj2 (I2 u)). split; [|exists y; auto]. apply I1. exists a. split; [apply Il; exact Aa|auto].
  - destruct (proj1 (I2 u) (or_introl eq_refl)) as [Hu (y & Ey & Vy & Ly)]. apply I1 in Hu. destruct Hu as (a & Hx & Eu & Lu). apply Il in Hx. destruct (Low a u y Hx Eu Lu Ey Ly) as (Lo & p & s & q & Ew & Hv).
    assert (Cu : canonical u) by (rewrite Forall_forall in F1; apply F1; apply (proj1 (I2 u) (or_introl eq_refl))). rewrite pinv_ok by apply Cu. cbn [rbind]. rewrite Ey. cbn [rbind].
    pose proof (ist_of y word p s q (proj1 Vy) R Ew Hv) as S.
    assert (Bd : zlen y <= M) by (pose proof S as (_ & Hi & _ & Yi); rewrite <- Yi; apply BM; apply In_zrange; exact Hi). destruct (iloop_ok fuel y word (zlen p) S) as (new & kk & E & B); [pose proof (Z.mul_le_mono_nonneg_l _ _ _ Nw Bd); lia|].
    rewrite <- (ibump_eq fuel word y (zlen p) R S) in E. exists new. rewrite E. cbn [rbind]. split; [reflexivity|]. split; [exact HW'|]. right. exists y, p, s, q. split; [exact Lo|]. split; [exact Ew|]. split; [exact Hv|]. split; [exact E|].
    destruct (gbumps_facts _ _ _ _ _ _ _ B) as (R1 & _ & _ & _ & _ & _ & Mn). split; [exists (pcall (ivp new)); apply ired_word; exact R1|]. split; [apply (ibumps_raised y word (zlen p) new kk); assumption|]. rewrite Ew, nthz_mid in Mn. exact Mn.
Qed.
Print Assumptions C96_involution_little_bump_at.

(* a deletion that is not shortest is accepted by involution_little_bump and makes it raise an exception *)
Theorem C96_deletion_refuted : exists word f y, canonical y /\ Forall (fun i => 1 <= i) word /\ shortest_word (involution_word f) word /\
  (exists v, one_less word v /\ acts twist_rel (fun x => x) v (pcall y)) /\ forall fuel, (2 < fuel)%nat -> involution_little_bump fuel word y = Err GenericException.
Proof.
  assert (G : ok1 [1; 3; 2; 1]) by (repeat constructor; lia). assert (Gd : ok1 [1; 3; 1]) by (repeat constructor; lia).
  exists [1; 3; 2; 1], (pcall (ivp [1; 3; 2; 1])), (ivp [1; 3; 1]). split; [apply (ivp_upos _ Gd)|]. split; [exact G|]. split; [apply ired_word; split; [exact G|vm_compute; reflexivity]|].
  split.
  - exists [1; 3; 1]. split; [exists [1; 3], 2, [1]; auto|]. destruct (proj1 (C80_from_involution_word [1; 3; 1]) (ok1_gens _ Gd)) as [_ (w & E & _ & A)]. pose proof (lenient_ok _ Gd) as L. unfold lenient in L. rewrite E in L. cbn [rbind] in L. injection L as ->. exact A.
  - intros [|[|[|fuel]]] Hf; try lia. vm_compute. reflexivity.
Qed.
Print Assumptions C96_deletion_refuted.

Example C96_example : shortest_word (involution_word (pcall [4; 3; 2; 1])) [1; 3; 2; 1] /\ shortest_word (involution_word (pcall [3; 4; 1; 2])) [1; 3; 2] /\
  involution_little_bump 10 [1; 3; 2; 1] [3; 4; 1; 2] = Ok [1; 4; 3; 2] /\ involution_little_push [1; 3; 2; 1] 3 = Ok ([1; 3; 2; 2], Some 2) /\
  involution_little_bump_at (fun l => l) (fun _ l => hd 0 l) 20 [] [1; 3; 2; 1] 2 3 = Ok ([([4; 3; 2; 1], [[2; 4; 3; 1]; [3; 4; 1; 2]; [4; 2; 1; 3]])], [2; 4; 3; 1]).
Proof.
  split; [apply (ired_word [1; 3; 2; 1]); split; [repeat constructor; lia|vm_compute; reflexivity]|]. split; [apply (ired_word [1; 3; 2]); split; [repeat constructor; lia|vm_compute; reflexivity]|].
  split; [vm_compute; reflexivity|]. split; vm_compute; reflexivity.
Qed.
