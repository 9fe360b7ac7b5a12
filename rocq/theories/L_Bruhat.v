(* the strong exchange property for signed permutations *)
From Coq Require Import List ZArith Lia Bool Permutation Arith.
From Verif Require Import PyBase M_Partitions M_Perm S_Perm L_Perm L_PermLen L_PermWord L_PermMisc L_LevelsInst M_Bruhat S_Bruhat.
Import ListNotations.
Local Open Scope Z_scope.

Lemma refl_sym : forall a b x, refl a b x = refl b a x.
Proof. intros a b x. unfold refl. repeat match goal with |- context [?x =? ?y] => destruct (Z.eqb_spec x y) end; lia. Qed.
Lemma refl_neg : forall a b x, a <> 0 -> b <> 0 -> refl (- a) (- b) x = refl a b x.
Proof. intros a b x Ha Hb. unfold refl. repeat match goal with |- context [?x =? ?y] => destruct (Z.eqb_spec x y) end; lia. Qed.
Lemma refl_invol : forall a b x, a <> 0 -> b <> 0 -> refl a b (refl a b x) = x.
Proof. intros a b x Ha Hb. unfold refl at 2. repeat match goal with |- context [?x =? ?y] => destruct (Z.eqb_spec x y) end; unfold refl; repeat match goal with |- context [?x =? ?y] => destruct (Z.eqb_spec x y) end; lia. Qed.
Lemma refl_odd : forall a b x, a <> 0 -> b <> 0 -> refl a b (- x) = - refl a b x.
Proof. intros a b x Ha Hb. unfold refl. repeat match goal with |- context [?x =? ?y] => destruct (Z.eqb_spec x y) end; lia. Qed.
Lemma refl_a : forall a b, refl a b a = b.
Proof. intros. unfold refl. rewrite Z.eqb_refl. reflexivity. Qed.
Lemma refl_b : forall a b, refl a b b = a.
Proof. intros. rewrite refl_sym. apply refl_a. Qed.
Lemma simple_refl : forall i x, 0 < i -> simple i x = refl i (i + 1) x.
Proof. intros i x Hi. unfold simple, refl. replace (i =? 0) with false by lia. repeat match goal with |- context [?x =? ?y] => destruct (Z.eqb_spec x y) end; lia. Qed.
Lemma simple0_refl : forall x, simple 0 x = refl (-1) 1 x.
Proof. intros x. unfold simple, refl. cbn [Z.eqb]. repeat match goal with |- context [?x =? ?y] => destruct (Z.eqb_spec x y) end; lia. Qed.

(* conjugation of a reflection by an odd bijection *)
Lemma refl_conj : forall f g a b x, (forall x, f (- x) = - f x) -> (forall x, f (g x) = x) -> (forall x, g (f x) = x) -> f (refl a b (g x)) = refl (f a) (f b) x.
Proof.
  intros f g a b x Ho Hfg Hgf. unfold refl.
  assert (E : forall c, (g x =? c) = (x =? f c)).
  { intro c. destruct (Z.eqb_spec (g x) c) as [N|N]; destruct (Z.eqb_spec x (f c)) as [M|M]; try reflexivity.
    - exfalso. apply M. rewrite <- N. symmetry. apply Hfg.
    - exfalso. apply N. rewrite M. apply Hgf. }
  rewrite !E, !Ho. destruct (x =? f a); [reflexivity|]. destruct (x =? f b); [reflexivity|]. destruct (x =? - f a); [apply Ho|]. destruct (x =? - f b); [apply Ho|]. apply Hfg.
Qed.

(* a simple reflection reverses the order of its own pair only *)
Lemma simple_flip : forall i a b, 0 <= i -> a <> 0 -> b <> 0 -> a < b -> simple i b < simple i a -> forall x, simple i x = refl a b x.
Proof.
  intros i a b Hi Ha Hb H H2 x. destruct (Z.eq_dec i 0) as [->|N].
  - assert (a = -1 /\ b = 1) as [-> ->]; [|apply simple0_refl]. unfold simple in H2. cbn [Z.eqb] in H2. repeat match type of H2 with context [?x =? ?y] => destruct (Z.eqb_spec x y) end; lia.
  - destruct (simple_order i a b ltac:(lia) H ltac:(lia)) as [[-> ->]|[-> ->]]; rewrite simple_refl by lia; [reflexivity|].
    rewrite <- (refl_neg i (i + 1)) by lia. rewrite refl_sym. replace (- (i + 1)) with (- i - 1) by lia. reflexivity.
Qed.

Lemma word_map_app : forall p q x, word_map (p ++ q) x = word_map p (word_map q x).
Proof. induction p as [|i p IH]; intros q x; [reflexivity|]. cbn [app word_map]. rewrite IH. reflexivity. Qed.
Lemma word_map_rev : forall p x, gens p -> word_map (rev p) (word_map p x) = x.
Proof.
  induction p as [|i p IH]; intros x G; [reflexivity|]. cbn [rev word_map]. rewrite word_map_app. cbn [word_map]. inversion G; subst.
  rewrite simple_invol by assumption. apply IH. assumption.
Qed.
Lemma gens_rev : forall p, gens p -> gens (rev p).
Proof. intros p G. apply Forall_rev. exact G. Qed.
Lemma word_map_rev2 : forall p x, gens p -> word_map p (word_map (rev p) x) = x.
Proof. intros p x G. pose proof (word_map_rev (rev p) x (gens_rev p G)) as E. rewrite rev_involutive in E. exact E. Qed.
Lemma word_map_odd : forall p x, gens p -> word_map p (- x) = - word_map p x.
Proof. induction p as [|i p IH]; intros x G; [reflexivity|]. cbn [word_map]. inversion G; subst. rewrite IH by assumption. apply simple_odd. assumption. Qed.
Lemma word_map_nonzero : forall p x, gens p -> x <> 0 -> word_map p x <> 0.
Proof.
  intros p x G Hx E. pose proof (word_map_rev p x G) as R. rewrite E in R. assert (Z0 : word_map (rev p) 0 = 0).
  { pose proof (word_map_odd (rev p) 0 (gens_rev p G)) as O. cbn [Z.opp] in O. lia. }
  lia.
Qed.
Lemma word_map_inj : forall p x y, gens p -> word_map p x = word_map p y -> x = y.
Proof. intros p x y G E. rewrite <- (word_map_rev p x G), <- (word_map_rev p y G), E. reflexivity. Qed.

(* deleting the letter s from p ++ s :: q multiplies on the right by a reflection *)
Lemma delete_refl : forall p s q, gens q -> 0 <= s -> exists a b, a <> 0 /\ b <> 0 /\ a <> b /\
  forall x, word_map (p ++ q) x = word_map (p ++ s :: q) (refl a b x).
Proof.
  intros p s q G Hs.
  assert (S : exists c d, c <> 0 /\ d <> 0 /\ c <> d /\ forall x, simple s x = refl c d x).
  { destruct (Z.eq_dec s 0) as [->|N]; [exists (-1), 1; repeat split; try lia; apply simple0_refl|]. exists s, (s + 1). repeat split; try lia. intro x. apply simple_refl. lia. }
  destruct S as (c & d & Hc & Hd & Hcd & S). pose proof (gens_rev q G) as Gr.
  exists (word_map (rev q) c), (word_map (rev q) d). split; [apply word_map_nonzero; assumption|]. split; [apply word_map_nonzero; assumption|].
  split; [intro E; apply Hcd; exact (word_map_inj (rev q) c d Gr E)|]. intro x.
  rewrite <- (refl_conj (word_map (rev q)) (word_map q)).
  - rewrite !word_map_app. cbn [word_map]. rewrite word_map_rev2 by exact G. rewrite S, refl_invol by assumption. reflexivity.
  - intro y. apply word_map_odd. exact Gr.
  - intro y. apply word_map_rev. exact G.
  - intro y. apply word_map_rev2. exact G.
Qed.

(* a word reversing the order of a < b has a letter whose deletion multiplies by the reflection of a, b *)
Lemma exchange : forall word a b, gens word -> a <> 0 -> b <> 0 -> a < b -> word_map word b < word_map word a ->
  exists p s q, word = p ++ s :: q /\ forall x, word_map (p ++ q) x = word_map word (refl a b x).
Proof.
  induction word as [|i word IH]; intros a b G Ha Hb H H2; [cbn [word_map] in H2; lia|]. inversion G as [|? ? Hi G']; subst. cbn [word_map] in H2.
  destruct (Z.lt_trichotomy (word_map word a) (word_map word b)) as [L|[E|L]].
  - exists [], i, word. split; [reflexivity|]. intro x. cbn [app word_map].
    rewrite (simple_flip i (word_map word a) (word_map word b)); try assumption; [|apply word_map_nonzero; assumption|apply word_map_nonzero; assumption].
    pose proof (gens_rev word G') as Gr.
    assert (E : word_map word (refl a b x) = refl (word_map word a) (word_map word b) (word_map word x)).
    { rewrite <- (refl_conj (word_map word) (word_map (rev word))); [rewrite word_map_rev by exact G'; reflexivity|..]; intro y; [apply word_map_odd|apply word_map_rev2|apply word_map_rev]; exact G'. }
    rewrite E, refl_invol; [reflexivity|apply word_map_nonzero; assumption|apply word_map_nonzero; assumption].
  - exfalso. apply word_map_inj in E; [lia|assumption].
  - destruct (IH a b G' Ha Hb H L) as (p & s & q & -> & E). exists (i :: p), s, q. split; [reflexivity|]. intro x. cbn [app word_map]. rewrite E. reflexivity.
Qed.

(* ell (w t) < ell w iff w reverses the pair *)
Lemma ell_refl : forall w u a b, canonical w -> canonical u -> a <> 0 -> b <> 0 -> a < b -> (forall x, pcall u x = pcall w (refl a b x)) ->
  pcall w b < pcall w a -> ell u < ell w.
Proof.
  intros w u a b Hw Hu Ha Hb Hab E H. destruct (reduced_exists _ w Hw eq_refl) as (word & G & <- & L). rewrite !wordp_map in H by exact G.
  destruct (exchange word a b G Ha Hb Hab H) as (p & s & q & Ew & X). assert (Gpq : gens (p ++ q)).
  { subst word. apply gens_app in G. destruct G as [G1 G2]. apply gens_app. split; [exact G1|inversion G2; assumption]. }
  assert (Eu : u = wordp (p ++ q)).
  { apply canonical_ext; [assumption|apply wordp_canonical; exact Gpq|]. intro x. rewrite E, !wordp_map by assumption. symmetry. apply X. }
  rewrite Eu. pose proof (ell_word_le (p ++ q) Gpq). assert (zlen word = zlen (p ++ q) + 1) by (subst word; unfold zlen; rewrite !app_length; cbn [length]; lia). lia.
Qed.
Lemma ell_refl_lt : forall w u a b, canonical w -> canonical u -> a <> 0 -> b <> 0 -> a < b -> (forall x, pcall u x = pcall w (refl a b x)) ->
  ell u < ell w -> pcall w b < pcall w a.
Proof.
  intros w u a b Hw Hu Ha Hb Hab E H. destruct (Z_lt_le_dec (pcall w b) (pcall w a)) as [|L]; [assumption|exfalso].
  assert (ell w < ell u); [|lia]. apply (ell_refl u w a b); try assumption.
  - intro x. rewrite E, refl_invol by assumption. reflexivity.
  - rewrite !E, refl_a, refl_b. assert (pcall w a <> pcall w b); [|lia]. intro X. apply pcall_inj in X; [lia|apply Hw].
Qed.

Lemma delete_split : forall p s q, delete_at (zlen p) (p ++ s :: q) = p ++ q.
Proof.
  intros p s q. unfold delete_at, zlen. rewrite Nat2Z.id. replace (Z.to_nat (Z.of_nat (length p) + 1)) with (length p + 1)%nat by lia.
  rewrite firstn_app, firstn_all, Nat.sub_diag. cbn [firstn]. rewrite app_nil_r. f_equal. rewrite skipn_app, (skipn_all2 p) by lia. replace (length p + 1 - length p)%nat with 1%nat by lia. reflexivity.
Qed.
Lemma delete_cases : forall word i, 0 <= i < zlen word -> exists p s q, word = p ++ s :: q /\ zlen p = i /\ delete_at i word = p ++ q.
Proof.
  intros word i Hi. destruct (nth_split word 0 (n := Z.to_nat i)) as (p & q & E & L); [unfold zlen in Hi; lia|]. exists p, (nth (Z.to_nat i) word 0), q.
  split; [exact E|]. assert (Lp : zlen p = i) by (unfold zlen; lia). split; [exact Lp|]. rewrite E at 1. rewrite <- Lp at 1. apply delete_split.
Qed.
Lemma gens_mid : forall p s q, gens (p ++ s :: q) <-> gens p /\ 0 <= s /\ gens q.
Proof. intros. rewrite gens_app. split; intros [A B]; [inversion B; subst; tauto|]. split; [exact A|constructor; tauto]. Qed.

(* different deletions of a reduced word differ *)
Lemma delete_inj : forall word i j, gens word -> zlen word = ell (wordp word) -> 0 <= i -> i < j -> j < zlen word -> wordp (delete_at i word) <> wordp (delete_at j word).
Proof.
  intros word i j G R Hi Hij Hj E. destruct (delete_cases word i ltac:(lia)) as (p & s & q & Ew & Lp & D1). 
  destruct (delete_cases q (j - i - 1)) as (q1 & t & r & Eq & Lq & _).
  { subst word. unfold zlen in *. rewrite app_length in Hj. cbn [length] in Hj. lia. }
  assert (D2 : delete_at j word = p ++ s :: q1 ++ r).
  { replace j with (zlen (p ++ s :: q1)) by (unfold zlen in *; rewrite app_length; cbn [length]; lia). replace word with ((p ++ s :: q1) ++ t :: r) by (subst; rewrite <- app_assoc; reflexivity).
    rewrite delete_split, <- app_assoc. reflexivity. }
  rewrite D1, D2 in E. subst q. assert (G0 := G). rewrite Ew in G0. apply gens_mid in G0. destruct G0 as (Gp & Hs & Gq). apply gens_mid in Gq. destruct Gq as (Gq & Ht & Gr).
  assert (G1 : gens (p ++ q1 ++ r)) by (apply gens_app; split; [|apply gens_app]; auto).
  assert (X : wordp word = wordp (p ++ q1 ++ r)).
  { apply canonical_ext; [apply wordp_canonical; exact G|apply wordp_canonical; exact G1|]. intro x. rewrite !wordp_map by assumption.
    assert (H : forall y, pcall (wordp (p ++ q1 ++ t :: r)) y = pcall (wordp (p ++ s :: q1 ++ r)) y) by (intro y; rewrite E; reflexivity).
    assert (H2 : forall y, word_map (q1 ++ t :: r) y = simple s (word_map (q1 ++ r) y)).
    { intro y. specialize (H y). rewrite !wordp_map in H.
      - rewrite (word_map_app p (q1 ++ t :: r)), (word_map_app p (s :: q1 ++ r)) in H. apply word_map_inj in H; [|exact Gp]. exact H.
      - apply gens_mid. split; [assumption|]. split; [assumption|]. apply gens_app. tauto.
      - apply gens_app. split; [assumption|]. apply gens_mid. tauto. }
    rewrite Ew, word_map_app. cbn [word_map]. rewrite H2, simple_invol by assumption. rewrite (word_map_app p (q1 ++ r)). reflexivity. }
  pose proof (ell_word_le _ G1) as L. rewrite <- X, <- R, Ew in L. unfold zlen in L. rewrite !app_length in L. cbn [length] in L. rewrite app_length in L. cbn [length] in L. lia.
Qed.

(* lengths add modulo two *)
Lemma ell_mod : forall u v, canonical u -> canonical v -> (ell (mulp u v) - ell u - ell v) mod 2 = 0.
Proof.
  intros u v Hu Hv. destruct (reduced_exists _ v Hv eq_refl) as (word & G & <- & L). clear L Hv. revert G. induction word as [|i word IH] using rev_ind; intro G.
  - change (wordp []) with (@nil Z). rewrite mulp_1_r by assumption. replace (ell u - ell u - ell []) with 0 by (change (ell []) with 0; lia). reflexivity.
  - apply gens_app in G. destruct G as [G Gi]. assert (Hi : 0 <= i) by (inversion Gi; assumption). specialize (IH G). rewrite wordp_snoc. pose proof (wordp_canonical word G) as Hw.
    rewrite <- mulp_assoc by auto with perm. set (a := mulp u (wordp word)) in *. assert (Ha : canonical a) by (unfold a; auto 10 with perm).
    assert (S : forall c, canonical c -> ell (mulp c (sp i)) = ell c - 1 \/ ell (mulp c (sp i)) = ell c + 1).
    { intros c Hc. destruct (descent_dec (pcall c) i) as [D|D]; [left; apply ell_descent; assumption|right; apply ell_ascent; assumption]. }
    destruct (S a Ha) as [-> | ->]; destruct (S (wordp word) Hw) as [-> | ->].
    + replace (ell a - 1 - ell u - (ell (wordp word) - 1)) with (ell a - ell u - ell (wordp word)) by lia. exact IH.
    + replace (ell a - 1 - ell u - (ell (wordp word) + 1)) with (ell a - ell u - ell (wordp word) + (-1) * 2) by lia. rewrite Z.mod_add by lia. exact IH.
    + replace (ell a + 1 - ell u - (ell (wordp word) - 1)) with (ell a - ell u - ell (wordp word) + 1 * 2) by lia. rewrite Z.mod_add by lia. exact IH.
    + replace (ell a + 1 - ell u - (ell (wordp word) + 1)) with (ell a - ell u - ell (wordp word)) by lia. exact IH.
Qed.
Lemma ell_conj_parity : forall t w, canonical t -> canonical w -> ell (mulp (mulp t w) t) <> ell w + 1.
Proof.
  intros t w Ht Hw E. assert (Htw : canonical (mulp t w)) by auto with perm. pose proof (ell_mod (mulp t w) t Htw Ht) as A. pose proof (ell_mod t w Ht Hw) as B.
  apply Z.mod_divide in A; [|lia]. apply Z.mod_divide in B; [|lia]. destruct A as [c A], B as [d B]. lia.
Qed.

(* a loop that yields the values at the indices passing a test *)
Lemma rfold_filter : forall (A B : Type) (f : list B -> A -> res (list B)) (v : A -> B) (p : A -> bool) l acc,
  (forall acc i, In i l -> f acc i = Ok (if p i then acc ++ [v i] else acc)) -> rfold f l acc = Ok (acc ++ map v (filter p l)).
Proof.
  intros A B f v p. induction l as [|i l IH]; intros acc H; [cbn [rfold filter map]; rewrite app_nil_r; reflexivity|]. cbn [rfold]. rewrite H by (left; reflexivity). cbn [rbind].
  rewrite IH by (intros; apply H; right; assumption). cbn [filter]. destruct (p i); [cbn [map]; rewrite <- app_assoc|]; reflexivity.
Qed.
(* the generator *)
Lemma covers_ok : forall fuel w, canonical w -> ell w < Z.of_nat fuel -> exists l, bruhat_covers fuel w = Ok l /\ NoDup l /\
  forall u, In u l <-> canonical u /\ ell u = ell w - 1 /\ by_reflection (pcall w) (pcall u).
Proof.
  intros fuel w Hw Hf. destruct (get_reduced_word_ok fuel w Hw Hf) as (word & E & G & Ew & L). unfold bruhat_covers. rewrite E. cbn [rbind].
  set (val := fun i => wordp (delete_at i word)).
  assert (Gd : forall i, 0 <= i < zlen word -> gens (delete_at i word)).
  { intros i Hi. destruct (delete_cases word i Hi) as (p & s & q & E1 & _ & E2). rewrite E2. rewrite E1 in G. apply gens_mid in G. apply gens_app. tauto. }
  exists (map val (filter (fun i => ell (val i) =? ell w - 1) (zrange 0 (zlen word)))). split; [|split].
  - rewrite (rfold_filter _ _ _ val (fun i => ell (val i) =? ell w - 1)); [reflexivity|]. intros acc i Hi. apply In_zrange in Hi.
    rewrite from_word_ok by (apply Gd; lia). cbn [rbind]. rewrite !plen_ok. reflexivity.
  - assert (Inj : forall l, NoDup l -> (forall i, In i l -> 0 <= i < zlen word) -> NoDup (map val l)).
    { induction l as [|i l IH]; intros N Hl; [constructor|]. inversion N as [|? ? N1 N2]; subst. cbn [map]. constructor; [|apply IH; [assumption|intros; apply Hl; right; assumption]].
      intro H. apply in_map_iff in H. destruct H as (j & Ej & Hj). pose proof (Hl i (or_introl eq_refl)) as Bi. pose proof (Hl j (or_intror Hj)) as Bj.
      assert (i <> j) by (intros ->; contradiction). destruct (Z_lt_le_dec i j) as [Lt|Ge].
      - apply (delete_inj word i j G); [rewrite L; reflexivity|lia|lia|lia|]. unfold val in Ej. symmetry. exact Ej.
      - apply (delete_inj word j i G); [rewrite L; reflexivity|lia|lia|lia|]. exact Ej. }
    apply Inj; [apply NoDup_filter; apply NoDup_zrange|]. intros i Hi. apply filter_In in Hi. destruct Hi as [Hi _]. apply In_zrange in Hi. lia.
  - intro u. rewrite in_map_iff. split.
    + intros (i & <- & Hi). apply filter_In in Hi. destruct Hi as [Hi Hl]. apply In_zrange in Hi. assert (Bi : 0 <= i < zlen word) by lia. clear Hi. split; [apply wordp_canonical; apply Gd; exact Bi|].
      split; [apply Z.eqb_eq; exact Hl|]. destruct (delete_cases word i Bi) as (p & s & q & E1 & _ & E2). unfold val. pose proof (Gd i Bi) as Gi. rewrite E2 in *. assert (G0 := G). rewrite E1 in G0. apply gens_mid in G0.
      destruct (delete_refl p s q) as (a & b & Ha & Hb & Hab & R); [tauto|tauto|]. exists a, b. split; [exact Ha|]. split; [exact Hb|]. split; [exact Hab|]. intro x. rewrite <- Ew, !wordp_map by assumption. rewrite E1. apply R.
    + intros (Hu & Hl & a & b & Ha & Hb & Hab & R).
      assert (X : exists a b, a <> 0 /\ b <> 0 /\ a < b /\ forall x, pcall u x = pcall w (refl a b x)).
      { destruct (Z_lt_le_dec a b); [exists a, b; auto|]. exists b, a. repeat split; try assumption; [lia|]. intro x. rewrite R. f_equal. apply refl_sym. }
      clear a b Ha Hb Hab R. destruct X as (a & b & Ha & Hb & Hab & R). pose proof (ell_refl_lt w u a b Hw Hu Ha Hb Hab R ltac:(lia)) as Inv.
      rewrite <- Ew, !wordp_map in Inv by exact G. destruct (exchange word a b G Ha Hb Hab Inv) as (p & s & q & E1 & X).
      exists (zlen p). assert (Bi : 0 <= zlen p < zlen word) by (subst word; unfold zlen; rewrite app_length; cbn [length]; lia).
      assert (V : val (zlen p) = u).
      { unfold val. pose proof (Gd _ Bi) as Gi. apply canonical_ext; [apply wordp_canonical; exact Gi|assumption|]. intro x. rewrite wordp_map by exact Gi. rewrite E1 at 1. rewrite delete_split, R, <- Ew, wordp_map by exact G. apply X. }
      split; [exact V|]. apply filter_In. split; [apply In_zrange; lia|]. rewrite V. apply Z.eqb_eq. exact Hl.
Qed.
