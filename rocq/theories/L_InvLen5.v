(* get_fpf_involution_words: trailing matched pairs do not matter; the set of words is exact. *)
From Coq Require Import List ZArith Bool Lia Permutation.
From Verif Require Import PyBase FinSum M_Partitions M_Perm S_Perm S_Levels L_Perm L_PermLen L_PermWord L_PermDem L_LevelsInst P_Perm P_Levels L_PermActs M_PermGroth L_InvLen L_InvLen2 L_InvLen3 L_InvLen4 M_InvWords.
Import ListNotations.
Local Open Scope Z_scope.

(* b is a followed by the matched pair n - 1, n *)
Definition ext (n : Z) (a b : list Z) : Prop :=
  (forall x, 1 <= x <= n - 2 -> pcall b x = pcall a x) /\ pcall b (n - 1) = n /\ pcall b n = n - 1.
Lemma ext_s0 : forall n, 2 <= n -> n mod 2 = 0 -> ext n (s0 (n - 2)) (s0 n).
Proof.
  intros n H2 Hn. assert (Hm : (n - 2) mod 2 = 0) by (rewrite Zminus_mod, Hn; reflexivity).
  assert (On : Z.odd n = false) by (rewrite Zodd_mod, Hn; reflexivity).
  assert (O1 : Z.odd (n - 1) = true) by (replace (n - 1) with (Z.pred n) by lia; rewrite Z.odd_pred, <- Z.negb_odd, On; reflexivity).
  repeat split; intros; rewrite ?s0_call by assumption.
  - destruct (odd_even_dec (n - 2) x Hm H) as [[O L]|[O L]]; [rewrite !matching_odd by (assumption || lia)|rewrite !matching_even by (assumption || lia)]; reflexivity.
  - rewrite matching_odd by (assumption || lia). lia.
  - rewrite matching_even by (assumption || lia). lia.
Qed.
Lemma ext_unique : forall n a a' b, fpf (n - 2) a -> fpf (n - 2) a' -> zlen a <= n - 2 -> zlen a' <= n - 2 -> ext n a b -> ext n a' b -> a = a'.
Proof.
  intros n a a' b Ha Ha' L L' (E & _) (E' & _). apply canonical_ext; [apply Ha|apply Ha'|].
  assert (P : forall x, 1 <= x -> pcall a x = pcall a' x).
  { intros x Hx. destruct (Z_le_gt_dec x (n - 2)) as [Q|Q]; [rewrite <- E, <- E' by lia; reflexivity|rewrite !pcall_out by lia; reflexivity]. }
  intro x. destruct (Z_lt_ge_dec x 0) as [Q|Q]; [|destruct (Z.eq_dec x 0) as [->|N]; [rewrite !pcall_zero; reflexivity|apply P; lia]].
  replace x with (- (- x)) by lia. rewrite !(pcall_odd _ (- x)). f_equal. apply P. lia.
Qed.
Lemma ext_unique' : forall n a b b', fpf n b -> fpf n b' -> zlen b <= n -> zlen b' <= n -> ext n a b -> ext n a b' -> b = b'.
Proof.
  intros n a b b' Hb Hb' L L' (E & E1 & E2) (E' & E1' & E2'). apply canonical_ext; [apply Hb|apply Hb'|].
  assert (P : forall x, 1 <= x -> pcall b x = pcall b' x).
  { intros x Hx. destruct (Z_le_gt_dec x (n - 2)) as [Q|Q]; [rewrite E, E' by lia; reflexivity|]. destruct (Z.eq_dec x (n - 1)) as [->|]; [congruence|]. destruct (Z.eq_dec x n) as [->|]; [congruence|]. rewrite !pcall_out by lia; reflexivity. }
  intro x. destruct (Z_lt_ge_dec x 0) as [Q|Q]; [|destruct (Z.eq_dec x 0) as [->|N]; [rewrite !pcall_zero; reflexivity|apply P; lia]].
  replace x with (- (- x)) by lia. rewrite !(pcall_odd _ (- x)). f_equal. apply P. lia.
Qed.
Lemma icut_len : forall n w i, fpf n w -> 1 <= i < n -> pcall w i <> i + 1 -> descent (pcall w) i -> zlen w <= n -> zlen (icut w i) <= n.
Proof. intros n w i Hw Hi N D L. destruct (fpf_icut n w i Hw Hi N D) as (E & _). rewrite E. apply icut_fixed; [apply Hw|assumption|assumption]. Qed.
Lemma icut_call : forall n w i x, fpf n w -> 1 <= i < n -> pcall w i <> i + 1 -> descent (pcall w) i -> pcall (icut w i) x = simple i (pcall w (simple i x)).
Proof. intros n w i x Hw Hi N D. destruct (fpf_icut n w i Hw Hi N D) as (E & _). rewrite E. assert (Hi0 : 0 <= i) by lia. pose proof (proj1 (proj1 Hw)) as Hc. rewrite !mulp_call by auto 10 with perm. rewrite !sp_call by lia. reflexivity. Qed.

Lemma ext_words : forall v n a b, 2 <= n -> n mod 2 = 0 -> fpf (n - 2) a -> zlen a <= n - 2 -> fpf n b -> zlen b <= n -> ext n a b -> (W n b v <-> W (n - 2) a v).
Proof.
  induction v as [|i v IH] using rev_ind; intros n a b H2 Hn Ha La Hb Lb E.
  - assert (Hm : (n - 2) mod 2 = 0) by (rewrite Zminus_mod, Hn; reflexivity). rewrite !W_nil. pose proof (ext_s0 n H2 Hn) as E0.
    assert (L0 : zlen (s0 n) <= n) by (apply zlen_fixed; [apply s0_fpf; assumption|lia|]; intros x Hx; rewrite s0_call by assumption; apply matching_out; lia).
    assert (L0' : zlen (s0 (n - 2)) <= n - 2) by (apply zlen_fixed; [apply s0_fpf; assumption|lia|]; intros x Hx; rewrite s0_call by assumption; apply matching_out; lia).
    split; intros ->.
    + apply (ext_unique n a (s0 (n - 2)) (s0 n)); auto using s0_fpf.
    + apply (ext_unique' n (s0 (n - 2)) b (s0 n)); auto using s0_fpf.
  - assert (Hm : (n - 2) mod 2 = 0) by (rewrite Zminus_mod, Hn; reflexivity). rewrite !W_snoc by assumption. pose proof E as (E1 & E2 & E3).
    assert (Step : forall j, 1 <= j < n - 2 -> pcall b j <> j + 1 -> descent (pcall b) j -> (pcall a j <> j + 1 /\ descent (pcall a) j) /\ (W n (icut b j) v <-> W (n - 2) (icut a j) v)).
    { intros j Hj N D. assert (N' : pcall a j <> j + 1) by (rewrite <- E1 by lia; exact N).
      assert (D' : descent (pcall a) j) by (unfold descent in *; replace (j =? 0) with false in * by lia; rewrite <- !E1 by lia; exact D).
      split; [auto|]. apply IH; try assumption.
      - apply (fpf_icut (n - 2)); assumption.
      - apply icut_len; assumption.
      - apply (fpf_icut n); try assumption; lia.
      - apply icut_len; try assumption; lia.
      - repeat split.
        + intros x Hx. rewrite (icut_call n), (icut_call (n - 2)) by (assumption || lia). rewrite E1; [reflexivity|]. apply simple_range; assumption.
        + rewrite (icut_call n) by (assumption || lia). rewrite (simple_fix j (n - 1)) by lia. rewrite E2. apply simple_fix; lia.
        + rewrite (icut_call n) by (assumption || lia). rewrite (simple_fix j n) by lia. rewrite E3. apply simple_fix; lia. }
    split.
    + intros (Hi & _ & D & N & Hv). assert (Hi' : 1 <= i < n - 2).
      { split; [lia|]. destruct (Z.eq_dec i (n - 1)) as [->|]; [exfalso; apply N; lia|]. destruct (Z.eq_dec i (n - 2)) as [->|]; [|lia]. exfalso.
        unfold descent in D. replace (n - 2 =? 0) with false in D by lia. replace (n - 2 + 1) with (n - 1) in D by lia. rewrite E2 in D. pose proof (fpf_values n b (n - 2) Hb Lb ltac:(lia)). lia. }
      destruct (Step i Hi' N D) as ((N' & D') & K). apply K in Hv. auto 10.
    + intros (Hi & _ & D & N & Hv). assert (N' : pcall b i <> i + 1) by (rewrite E1 by lia; exact N).
      assert (D' : descent (pcall b) i) by (unfold descent in *; replace (i =? 0) with false in * by lia; rewrite !E1 by lia; exact D).
      destruct (Step i Hi N' D') as (_ & K). apply K in Hv. split; [lia|]. auto 10.
Qed.

(* ---- drop_pairs ---- *)
Definition fline (w : list Z) : Prop := fpf (zlen w) w /\ zlen w mod 2 = 0.
Lemma ell_app_le : forall l m, ell l <= ell (l ++ m).
Proof.
  intros l m. induction m as [|x m IH] using rev_ind; [rewrite app_nil_r; lia|]. rewrite app_assoc. etransitivity; [exact IH|]. unfold ell, negl. rewrite invl_snoc, nspl_snoc, (cnt_app _ (l ++ m) [x]).
  pose proof (cnt_nonneg (fun y => x <? y) (l ++ m)). pose proof (cnt_nonneg (fun y => x + y <? 0) (l ++ m)). pose proof (cnt_nonneg (fun y => y <? 0) [x]). lia.
Qed.
Lemma pcall_app1 : forall l m x, 1 <= x <= zlen l -> pcall (l ++ m) x = pcall l x.
Proof. intros l m x H. rewrite !pcall_pos by (rewrite ?zlen_app; unfold zlen in *; lia). apply nthz_app1. lia. Qed.

Lemma fpf_of_fixed : forall l, signed_word l -> (forall x, 1 <= x <= zlen l -> 0 < pcall l x /\ pcall l x <> x /\ pcall l (pcall l x) = x) -> fpf (zlen l) l.
Proof.
  intros l Hs H. split; [split|].
  - split; [exact Hs|]. intros N E. assert (0 < zlen l) by (destruct l; [congruence|unfold zlen; cbn [length]; lia]). destruct (H (zlen l) ltac:(lia)) as (_ & Nf & _). apply Nf.
    rewrite pcall_pos by lia. rewrite <- E at 2. clear. unfold nthz, zlen. replace (Z.to_nat (Z.of_nat (length l) - 1)) with (length l - 1)%nat by lia.
    induction l as [|a [|b w] IH]; [reflexivity|reflexivity|]. change (last (a :: b :: w) 0) with (last (b :: w) 0). rewrite <- IH. cbn [length]. replace (S (S (length w)) - 1)%nat with (S (length w)) by lia. cbn [nth]. replace (S (length w) - 1)%nat with (length w) by lia. reflexivity.
  - assert (P : forall x, 1 <= x -> pcall l (pcall l x) = x).
    { intros x Hx. destruct (Z_le_gt_dec x (zlen l)) as [Q|Q]; [apply H; lia|]. rewrite (pcall_out l x) by lia. apply pcall_out. lia. }
    intro x. destruct (Z_lt_ge_dec x 0) as [Q|Q]; [|destruct (Z.eq_dec x 0) as [->|N]; [rewrite !pcall_zero; reflexivity|apply P; lia]].
    pose proof (P (- x) ltac:(lia)) as R. rewrite !(pcall_odd l) in R. lia.
  - intros x Hx. destruct (H x Hx) as (A & B & _). auto.
Qed.

Lemma drop_step : forall r n, fline (r ++ [n; n - 1]) -> n = zlen r + 2 -> fline r /\ ext n r (r ++ [n; n - 1]) /\ ell r <= ell (r ++ [n; n - 1]).
Proof.
  intros r n [Hw Hm] En. assert (Ln : zlen (r ++ [n; n - 1]) = n) by (rewrite zlen_app; cbn; lia). rewrite Ln in *. pose proof Hw as [[[Hs _] Hv] Hf]. assert (Hr : 0 <= zlen r) by (unfold zlen; lia).
  assert (V1 : pcall (r ++ [n; n - 1]) (n - 1) = n) by (rewrite pcall_pos by lia; rewrite nthz_app2 by lia; replace (n - 1 - 1 - zlen r) with 0 by lia; reflexivity).
  assert (V2 : pcall (r ++ [n; n - 1]) n = n - 1) by (rewrite pcall_pos by lia; rewrite nthz_app2 by lia; replace (n - 1 - zlen r) with 1 by lia; reflexivity).
  assert (Ex : ext n r (r ++ [n; n - 1])) by (split; [intros x Hx; apply pcall_app1; lia|auto]).
  assert (Rg : forall x, 1 <= x <= zlen r -> 1 <= pcall r x <= zlen r).
  { intros x Hx. rewrite <- (pcall_app1 r [n; n - 1] x Hx). pose proof (fpf_values n _ x Hw ltac:(lia) ltac:(lia)) as R. split; [lia|]. 
    assert (pcall (r ++ [n; n - 1]) x <> n) by (intro Q; pose proof (pcall_inj _ _ _ Hs (eq_trans Q (eq_sym V1))); lia).
    assert (pcall (r ++ [n; n - 1]) x <> n - 1) by (intro Q; pose proof (pcall_inj _ _ _ Hs (eq_trans Q (eq_sym V2))); lia). lia. }
  assert (Sr : signed_word r).
  { apply signed_word_intro.
    - intros y Hy. apply In_nthz in Hy as (k & Hk & <-). pose proof (Rg (k + 1) ltac:(lia)) as R. rewrite pcall_pos in R by lia. replace (k + 1 - 1) with k in R by lia. lia.
    - assert (N : NoDup (map Z.abs (r ++ [n; n - 1]))).
      { unfold signed_word in Hs. eapply Permutation_NoDup; [|apply (NoDup_zrange 1 (zlen (r ++ [n; n - 1]) + 1))]. symmetry. exact Hs. }
      rewrite map_app in N. clear - N. induction (map Z.abs r) as [|a t IH]; [constructor|]. cbn in N. inversion N; subst. constructor; [intro Q; apply H1; apply in_or_app; tauto|auto]. }
  split; [|split; [exact Ex|apply ell_app_le]]. split.
  - apply fpf_of_fixed; [exact Sr|]. intros x Hx. pose proof (Rg x Hx) as R. destruct (Hf x ltac:(lia)) as [A B]. rewrite (pcall_app1 r _ x Hx) in A, B. split; [exact A|]. split; [exact B|].
    rewrite <- (pcall_app1 r [n; n - 1] (pcall r x)) by lia. rewrite <- (pcall_app1 r [n; n - 1] x) by lia. apply Hv.
  - replace (zlen r) with (n - 2) by lia. rewrite Zminus_mod, Hm. reflexivity.
Qed.

Lemma drop_pairs_ok : forall fuel w, (length w < fuel)%nat -> fline w -> exists l, drop_pairs fuel w = Ok l /\ fline l /\ ell l <= ell w /\ (forall v, W (zlen w) w v <-> W (zlen l) l v) /\
  (l = [] \/ l <> s0 (zlen l)).
Proof.
  induction fuel as [|fuel IH]; intros w Hf Hw; [lia|]. cbn [drop_pairs]. pose proof (rev_involutive w) as Rv. destruct (rev w) as [|a [|b r]] eqn:Er.
  - cbn in Rv. subst w. exists []. split; [reflexivity|]. split; [exact Hw|]. split; [lia|]. split; [reflexivity|left; reflexivity].
  - cbn in Rv. subst w. destruct Hw as [_ M]. cbn in M. discriminate.
  - cbn in Rv. rewrite <- app_assoc in Rv. cbn in Rv. destruct ((b =? zlen w) && (a =? zlen w - 1)) eqn:E.
    + apply andb_prop in E as [E1 E2]. apply Z.eqb_eq in E1, E2. subst b a. set (n := zlen w) in *. assert (En : n = zlen (rev r) + 2). { unfold n. rewrite <- Rv at 1. rewrite zlen_app. reflexivity. }
      rewrite <- Rv in Hw. destruct (drop_step (rev r) n Hw En) as (Fr & Ex & Le). rewrite Rv in *.
      destruct (IH (rev r)) as (l & El & Fl & Ll & Wl & Tl); [|exact Fr|].
      { rewrite <- Rv in Hf. rewrite app_length in Hf. cbn in Hf. lia. }
      exists l. split; [exact El|]. split; [exact Fl|]. split; [lia|]. split; [|exact Tl]. intro v. rewrite <- Wl. destruct Hw as [Hw Hm]. fold n in Hw, Hm |- *. replace (zlen (rev r)) with (n - 2) by lia.
      apply ext_words; try assumption; try (unfold zlen in *; lia).
      replace (n - 2) with (zlen (rev r)) by lia. apply Fr.
    + exists w. split; [reflexivity|]. split; [exact Hw|]. split; [lia|]. split; [reflexivity|]. right. intro Q. destruct Hw as [Hw Hm]. assert (Hn : 2 <= zlen w) by (rewrite <- Rv, zlen_app; unfold zlen; cbn [length]; lia).
      set (n := zlen w) in *. assert (En : n = zlen (rev r) + 2). { unfold n. rewrite <- Rv at 1. rewrite zlen_app. reflexivity. }
      destruct (ext_s0 n Hn Hm) as (_ & S1 & S2). rewrite <- Q in S1, S2. rewrite <- Rv in S1, S2. rewrite pcall_pos in S1, S2 by (rewrite zlen_app; cbn; unfold zlen in *; lia).
      rewrite nthz_app2 in S1, S2 by lia. replace (n - 1 - 1 - zlen (rev r)) with 0 in S1 by lia. replace (n - 1 - zlen (rev r)) with 1 in S2 by lia. change (b = n) in S1. change (a = n - 1) in S2. rewrite S1, S2, !Z.eqb_refl in E. discriminate.
Qed.

(* ---- the set of words ---- *)
Definition good_words (w : list Z) (ws : list (list Z)) : Prop := NoDup ws /\ forall v, In v ws <-> W (zlen w) w v.
Definition good_cache (c : fpf_cache) : Prop :=
  dget zlist_eqb c [] = Some [[]] /\ forall k ws, dget zlist_eqb c k = Some ws -> fline k -> good_words k ws.

Lemma wunion_spec : forall t s, NoDup s -> NoDup (wunion s t) /\ forall x, In x (wunion s t) <-> In x s \/ In x t.
Proof.
  unfold wunion. induction t as [|a t IH]; intros s Hs; cbn [fold_left]; [split; [exact Hs|intro x; cbn; tauto]|].
  destruct (existsb (zlist_eqb a) s) eqn:E.
  - apply existsb_exists in E as (y & Hy & Q). apply zlist_eqb_eq in Q. subst y. destruct (IH s Hs) as [A B]. split; [exact A|]. intro x. rewrite B. cbn. split; [tauto|]. intros [?|[->|?]]; tauto.
  - assert (Na : ~ In a s). { intro Ha. assert (existsb (zlist_eqb a) s = true) by (apply existsb_exists; exists a; split; [exact Ha|apply zlist_eqb_eq; reflexivity]). congruence. }
    destruct (IH (s ++ [a])) as [A B].
    { apply NoDup_app_intro; [exact Hs|repeat constructor; intros []|]. intros x Hx [->|[]]. contradiction. }
    split; [exact A|]. intro x. rewrite B, in_app_iff. cbn. tauto.
Qed.

Section Words.
Variable rord : list Z -> list Z.
Hypothesis rord_perm : forall l, Permutation (rord l) l.
Lemma get_fpf_words_ok : forall fuel c w, good_cache c -> fline w -> ell w < Z.of_nat fuel ->
  exists c' ws, get_fpf_involution_words rord fuel c w = Ok (c', ws) /\ good_cache c' /\ good_words w ws.
Proof.
  induction fuel as [|fuel IH]; intros c w Hc Hw Hf; [pose proof (ell_nonneg w); lia|].
  cbn [get_fpf_involution_words]. rewrite (is_fpf_true (zlen w)) by (apply Hw || lia). cbn [rbind negb].
  destruct (drop_pairs_ok (S (length w)) w ltac:(lia) Hw) as (l & El & Fl & Ll & Wl & Tl). rewrite El. cbn [rbind].
  pose proof Fl as [Hl Hm]. pose proof Hl as [Hz Hfix]. pose proof Hz as [Hcan Hinv]. assert (H0 : 0 <= zlen l) by (unfold zlen; lia).
  rewrite mkperm_ok by apply Hcan. cbn [rbind]. rewrite (strip_canonical_id l (proj2 Hcan)).
  assert (Gw : forall ws, good_words l ws -> good_words w ws) by (intros ws [A B]; split; [exact A|]; intro v; rewrite B; symmetry; apply Wl).
  destruct (dget zlist_eqb c l) as [ws|] eqn:Ec.
  - exists c, ws. split; [reflexivity|]. split; [exact Hc|]. apply Gw. apply (proj2 Hc); assumption.
  - assert (Nl : l <> []) by (intros ->; rewrite (proj1 Hc) in Ec; discriminate).
    assert (Ns : l <> s0 (zlen l)) by tauto.
    (* the loop over the descents *)
    assert (Loop : forall ds, NoDup ds -> (forall i, In i ds -> In i (rdes l)) -> forall c1 ans, good_cache c1 -> NoDup ans ->
      (forall v i, In (v ++ [i]) ans -> ~ In i ds) ->
      exists c2 ans2, fold_left (fun acc i =>
                do r <- acc;
                let '(c, ans) := r : fpf_cache * list (list Z) in
                if negb (pcall l i =? i + 1) then
                  do s <- s_i i;
                  do sw <- pmul s l; do sws <- pmul sw s;
                  do r <- get_fpf_involution_words rord fuel c sws;
                  let '(c, words) := r : fpf_cache * list (list Z) in
                  Ok (c, wunion ans (wunion [] (map (fun word => word ++ [i]) words)))
                else Ok (c, ans)) ds (Ok (c1, ans)) = Ok (c2, ans2) /\ good_cache c2 /\ NoDup ans2 /\
        forall v, In v ans2 <-> In v ans \/ exists u i, v = u ++ [i] /\ In i ds /\ W (zlen l) l v).
    { induction ds as [|i ds IHd]; intros Nd Hd c1 ans G1 N1 D1.
      - exists c1, ans. cbn. split; [reflexivity|]. split; [exact G1|]. split; [exact N1|]. intro v. split; [tauto|]. intros [?|(u & i & _ & [] & _)]; assumption.
      - inversion Nd as [|? ? Ni Nd']; subst. cbn [fold_left rbind].
        pose proof (Hd i (or_introl eq_refl)) as Hi. apply rdes_spec in Hi; [|apply Hcan]. destruct Hi as [Hi D].
        pose proof (fpf_descents _ l i Hl ltac:(lia) H0 Hi D) as Ri.
        destruct (Z.eqb_spec (pcall l i) (i + 1)) as [Q|Q]; cbn [negb].
        + destruct (IHd Nd' (fun j Hj => Hd j (or_intror Hj)) c1 ans G1 N1) as (c2 & ans2 & E2 & G2 & N2 & I2).
          { intros v j Hv Hj. apply (D1 v j Hv). right. exact Hj. }
          exists c2, ans2. split; [exact E2|]. split; [exact G2|]. split; [exact N2|]. intro v. rewrite I2. split.
          * intros [?|(u & j & -> & Hj & Hv)]; [tauto|]. right. exists u, j. split; [reflexivity|]. split; [right; exact Hj|exact Hv].
          * intros [?|(u & j & -> & [<-|Hj] & Hv)]; [tauto| |right; exists u, j; auto]. exfalso. apply W_snoc in Hv; [|exact Hm]. tauto.
        + rewrite sp_ok by assumption. cbn [rbind]. rewrite !pmul_ok by auto 10 with perm. cbn [rbind]. rewrite pmul_ok by auto 10 with perm. cbn [rbind].
          destruct (fpf_icut _ l i Hl Ri Q D) as (Ei & Fi & _). destruct (icut_ok l i Hz Hi D) as (_ & _ & _ & Li). rewrite <- Ei.
          assert (Zi : zlen (icut l i) = zlen l).
          { pose proof (icut_len _ l i Hl Ri Q D ltac:(lia)) as Z1. destruct (Z_lt_ge_dec (zlen (icut l i)) (zlen l)) as [Z2|Z2]; [|lia]. exfalso.
            destruct (proj2 Fi (zlen l) ltac:(lia)) as [_ Nf]. apply Nf. apply pcall_out. lia. }
          destruct (IH c1 (icut l i) G1 ltac:(split; rewrite Zi; assumption) ltac:(lia)) as (c1' & ws & Ew & G1' & [Nw Iw]). rewrite Ew. cbn [rbind].
          destruct (wunion_spec (map (fun word => word ++ [i]) ws) [] ltac:(constructor)) as [Nu Iu].
          destruct (wunion_spec (wunion [] (map (fun word => word ++ [i]) ws)) ans N1) as [Nu2 Iu2].
          destruct (IHd Nd' (fun j Hj => Hd j (or_intror Hj)) c1' _ G1' Nu2) as (c2 & ans2 & E2 & G2 & N2 & I2).
          { intros v j Hv Hj. apply Iu2 in Hv. destruct Hv as [Hv|Hv]; [apply (D1 v j Hv); right; exact Hj|]. apply Iu in Hv. destruct Hv as [[]|Hv]. apply in_map_iff in Hv as (u & Eu & _). apply app_inj_tail in Eu. destruct Eu as [_ <-]. contradiction. }
          exists c2, ans2. split; [exact E2|]. split; [exact G2|]. split; [exact N2|]. intro v. rewrite I2, Iu2, Iu. rewrite in_map_iff. split.
          * intros [[?|[[]|(u & <- & Hu)]]|(u & j & -> & Hj & Hv)]; [tauto| |].
            -- right. exists u, i. split; [reflexivity|]. split; [left; reflexivity|]. apply W_snoc; [exact Hm|]. apply Iw in Hu. rewrite Zi in Hu. auto 10.
            -- right. exists u, j. split; [reflexivity|]. split; [right; exact Hj|exact Hv].
          * intros [?|(u & j & -> & [<-|Hj] & Hv)]; [tauto| |right; exists u, j; auto]. left. right. right. exists u. split; [reflexivity|]. apply Iw. rewrite Zi. apply W_snoc in Hv; [|exact Hm]. tauto. }
    assert (Nr : NoDup (rdes l)). { unfold rdes. apply NoDup_app_intro.
      - destruct ((1 <=? zlen l) && (pcall l 1 <? 0)); repeat constructor. intros [].
      - apply NoDup_filter, NoDup_zrange.
      - intros x Hx Hx2. apply filter_In in Hx2 as [Hx2 _]. apply In_zrange in Hx2. destruct ((1 <=? zlen l) && (pcall l 1 <? 0)); cbn in Hx; [destruct Hx as [<-|[]]; lia|destruct Hx]. }
    destruct (Loop (rord (rdes l)) (Permutation_NoDup (Permutation_sym (rord_perm _)) Nr) (fun i Hi => Permutation_in _ (rord_perm _) Hi) c [] Hc ltac:(constructor) ltac:(intros v i [])) as (c2 & ans2 & E2 & G2 & N2 & I2).
    rewrite E2. cbn [rbind]. exists (dset zlist_eqb c2 l ans2), ans2. split; [reflexivity|].
    assert (Ga : good_words l ans2).
    { split; [exact N2|]. intro v. rewrite I2. split.
      - intros [[]|(u & i & _ & _ & Hv)]. exact Hv.
      - intro Hv. right. destruct v as [|i u _] using rev_ind; [apply W_nil in Hv; contradiction|]. exists u, i. split; [reflexivity|]. split; [|exact Hv].
        apply W_snoc in Hv; [|exact Hm]. destruct Hv as (Hi & _ & D & _). apply (Permutation_in _ (Permutation_sym (rord_perm _))). apply rdes_spec; [apply Hcan|]. split; [lia|exact D]. }
    split; [|apply Gw; exact Ga]. destruct G2 as [B1 B2]. split.
    + rewrite dget_dset_other; [exact B1| |]; [intros x y; apply zlist_eqb_eq|congruence].
    + intros k ws Hk Fk. destruct (zlist_eqb k l) eqn:Q.
      * apply zlist_eqb_eq in Q. subst k. rewrite dget_dset_same in Hk by (intros x y; apply zlist_eqb_eq). injection Hk as <-. exact Ga.
      * rewrite dget_dset_other in Hk; [apply B2; assumption| |]; [intros x y; apply zlist_eqb_eq|]. intros ->. rewrite (proj2 (zlist_eqb_eq _ _) eq_refl) in Q. discriminate.
Qed.
End Words.
