(* The elements of the crystal of factorizations: all words of the given length, all factorizations. *)
From Coq Require Import List ZArith Lia Bool Permutation Arith.
From Verif Require Import PyBase FinSum M_Partitions S_Partitions M_Words S_Words P_Words
  M_Perm S_Perm M_Levels S_Levels L_Perm L_PermLen L_PermWord L_PermDem L_Levels L_LevelsInst P_Perm P_Levels L_FominWords L_FominZeta L_PermActs L_FominSym M_PermGroth S_PermGroth
  L_PermGroth1 L_PermGroth2 L_PermGroth3 L_PermGroth4 L_PermGroth5 L_PermGroth6 L_PermGroth7 P_PermGroth M_WordCrystal.
Import ListNotations.
Local Open Scope Z_scope.

Section DrainB.
Variables K L : Type.
Variable keqb : K -> K -> bool.
Hypothesis keqb_eq : forall a b, keqb a b = true <-> a = b.
Variable start : K -> res L.
Variable expand : K -> L -> res L.
Variable emptyb : L -> bool.
Variable Kok : K -> Prop.
Variable T : K -> nat -> L.
Hypothesis T_start : forall k, Kok k -> start k = Ok (T k 0%nat).
Hypothesis T_expand : forall k n, Kok k -> expand k (T k n) = Ok (T k (S n)).
Notation hnext := (hnext K L keqb start expand emptyb).
Notation cok := (cok K L keqb emptyb T).
Notation xout := (xout K L emptyb T).
Notation xcur := (xcur K L T).
Notation good := (good_cache K L keqb emptyb Kok T).
(* a generator with a length bound ends *)
Lemma hdrain_bound : forall k b0, Kok k -> 0 <= b0 -> forall fuel c x n m, (forall k', Kok k' -> exists n, cok c k' n) ->
  cok c k n -> xout k b0 x m -> xcur k x m n -> h_status x = HRunning -> b0 + 1 < Z.of_nat m + Z.of_nat fuel ->
  exists c' m', hdrain K L hnext fuel c x = Ok (c', map (T k) (seq 0 m')) /\ good c' /\
    Z.of_nat m' <= b0 + 1 /\ ((0 <= b0 /\ Z.of_nat m' = b0 + 1) \/ emptyb (T k m') = true).
Proof.
  intros k b0 Hk Hb0. induction fuel as [|fuel IH]; intros c x n m Hall Hc Hx Hcur Hr Hf.
  - exfalso. destruct Hx as (_ & _ & _ & _ & _ & Hb & _). specialize (Hb Hb0). lia.
  - cbn [hdrain]. destruct (hnext_ok K L keqb keqb_eq start expand emptyb Kok T T_start T_expand c k n b0 x m Hk Hc Hx Hcur Hr) as (n' & m' & C' & O' & X' & U').
    pose proof (hnext_out K L keqb start expand emptyb c x) as Ho. destruct (hnext c x) as [c' x']. cbn [fst snd] in *.
    assert (Hall' : good c').
    { intros k' Hk'. destruct (keqb k' k) eqn:E.
      - apply keqb_eq in E. subst k'. exists n'. assumption.
      - assert (N : k' <> k) by (intro Q; apply keqb_eq in Q; congruence). destruct (Hall k' Hk') as (q & Q1 & Q2). exists q. split; [rewrite O' by assumption; assumption|assumption]. }
    destruct (h_status x') as [| |e] eqn:Es.
    + destruct (Ho eq_refl Hr) as [E|[]].
      assert (Em : m' = S m).
      { destruct X' as (_ & Eo' & _). destruct Hx as (_ & Eo & _). rewrite Eo', Eo, !length_lv in E. exact E. }
      subst m'. apply (IH c' x' n' (S m)); try assumption. lia.
    + exists c', m'. destruct X' as (_ & Eo' & Hne & _ & He & Hb & _). rewrite Eo'. split; [reflexivity|]. split; [exact Hall'|]. split; [apply Hb; exact Hb0|]. apply He. exact Es.
    + exfalso. destruct X' as (_ & _ & _ & Hfl & _). apply (Hfl e). assumption.
Qed.
Lemma fresh_bound : forall k b0 c, Kok k -> 0 <= b0 -> good c -> forall fuel, b0 + 1 < Z.of_nat fuel ->
  exists c' m', hdrain K L hnext fuel c (hfresh k (Some b0)) = Ok (c', map (T k) (seq 0 m')) /\ good c' /\
    Z.of_nat m' <= b0 + 1 /\ ((0 <= b0 /\ Z.of_nat m' = b0 + 1) \/ emptyb (T k m') = true).
Proof.
  intros k b0 c Hk Hb Hc fuel Hf. destruct (Hc k Hk) as (n & Hn).
  apply (hdrain_bound k b0 Hk Hb fuel c (hfresh k (Some b0)) n 0%nat); try assumption; [|reflexivity|reflexivity].
  unfold L_Levels.xout, hfresh. cbn. repeat split; try reflexivity; try discriminate; intros; lia.
Qed.
End DrainB.

Section Words.
  Variable ord : wlevel -> wlevel.
  Variable pick : nat -> list Z -> Z.
  Hypothesis ord_perm : forall l, Permutation (ord l) l.
  Hypothesis pick_in : chooses pick.
  Lemma hecke_words_bound : forall w len, 0 <= len -> forall fuel c, len + 1 < Z.of_nat fuel -> hgood ord c -> exists c' ws, get_hecke_words ord pick fuel c w (Some len) None = Ok (c', ws) /\ NoDup ws /\
    forall v, In v ws <-> hecke_wd (zlen w) w v /\ zlen v <= len.
  Proof.
    intros w len Hl fuel c Hf Hc. set (k := (zlen w, None) : hkey).
    assert (In_T : forall j pi v, In (pi, v) (hT ord k j) <-> length v = j /\ hecke_wd (zlen w) pi v).
    { intros j pi v. unfold hT. rewrite (lvls_spec ord ord_perm _ _ _ (ok_asc_prefix (snd k))), letters_range, ok_asc_bounded. unfold hecke_wd, bounded, k. cbn [fst snd]. tauto. }
    destruct (fresh_bound _ _ _ hkey_eqb_eq _ _ wempty _ _ (hT_start ord) (hT_expand ord ord_perm pick pick_in) k len c I Hl Hc fuel Hf) as (c' & m' & E & G & B1 & B2).
    exists c', (level_words ord w (map (hT ord k) (seq 0 m'))). split; [unfold get_hecke_words; match goal with |- rbind ?X _ = _ => change X with (hdrain _ _ (hnext _ _ hkey_eqb hecke_start (hecke_expand ord pick) wempty) fuel c (hfresh k (Some len))) end; rewrite E; reflexivity|].
    destruct (level_words_ok ord ord_perm (hT ord k) (fun pi v => hecke_wd (zlen w) pi v) In_T) with (w := w) (m := m') (b0 := len) as [W1 W2].
    - intro j. apply hT_nodup. exact ord_perm.
    - intro j. apply lvls_closed. exact ord_perm.
    - intros _. exact B1.
    - exact B2.
    - split; [exact W1|]. intro v. rewrite W2. intuition lia.
  Qed.
  Lemma crystal_words_ok : forall oneline len, signed_word oneline -> 0 <= len -> forall fuel c, len + 1 < Z.of_nat fuel -> hecke_cache ord pick c ->
    exists c' ws, crystal_words ord pick fuel c oneline len = Ok (c', ws) /\ hecke_cache ord pick c' /\ NoDup ws /\ forall v, In v ws <-> hecke_word (pcall oneline) v /\ zlen v = len.
  Proof.
    intros l len Hs Hl fuel c Hf Hc. pose proof (strip_canonical l Hs) as Cs. destruct (hecke_words_bound (strip l) len Hl fuel c Hf (hecke_cache_good ord pick ord_perm pick_in c Hc)) as (c' & ws & E & N & M).
    exists c', (filter (fun w => zlen w =? len) ws). unfold crystal_words. rewrite (mkperm_ok l Hs). cbn [rbind]. rewrite E. cbn [rbind fst snd]. split; [reflexivity|]. split; [econstructor; eassumption|]. split; [apply NoDup_filter; exact N|].
    intro v. rewrite filter_In, M, Z.eqb_eq, (hecke_word_wd (strip l) v Cs).
    assert (X : hecke_word (pcall (strip l)) v <-> hecke_word (pcall l) v).
    { unfold hecke_word. assert (A : forall f g, (forall x, f x = g x) -> acts hecke_rel (fun x => x) v f -> acts hecke_rel (fun x => x) v g).
      { intros f g Hfg H. generalize dependent g. generalize dependent (fun x : Z => x). intros f0 H. revert H. revert f0. induction v as [|i v IH]; intros f0 H g Hfg; inversion H; subst; [constructor; intro x; rewrite <- Hfg; auto|]. eapply acts_cons; [eassumption|]. eapply IH; eassumption. }
      split; intros [F H]; (split; [exact F|]); eapply A; try exact H; intro x; [|symmetry]; apply pcall_strip. }
    rewrite X. intuition lia.
  Qed.
End Words.
