(* C80: involution lengths and involution words. *)
From Coq Require Import List ZArith Bool Lia Permutation.
From Verif Require Import PyBase FinSum M_Partitions M_Perm S_Perm M_Levels S_Levels L_Perm L_PermLen L_PermWord L_PermDem L_LevelsInst P_Perm P_Levels L_PermActs M_PermGroth L_PermGroth7 S_PermGroth S_InvWords L_InvLen L_InvLen2 L_InvLen3 L_InvLen4 L_InvLen5 L_InvLen6 M_InvWords.
Import ListNotations.
Local Open Scope Z_scope.

Theorem C80_involution_length : forall w, canonical w -> (forall x, pcall w (pcall w x) = x) ->
  exists n, involution_length w = Ok n /\ shortest (involution_word (pcall w)) n.
Proof. intros w Hw Hv. destruct (involution_length_ok w (conj Hw Hv)) as (n & E & _ & S). eauto. Qed.
Print Assumptions C80_involution_length.

Theorem C80_fpf_involution_length : forall w, canonical w -> fpf_on (zlen w) (pcall w) ->
  exists n, fpf_involution_length w = Ok n /\ shortest (symplectic_word (zlen w) (pcall w)) n.
Proof.
  intros w Hw [Hv Hf]. assert (F : fpf (zlen w) w) by (split; [split; assumption|exact Hf]). apply fpf_length_ok; [exact F|]. apply fpf_even_on; assumption.
Qed.
Print Assumptions C80_fpf_involution_length.

(* get_involution_word returns a shortest involution word, which from_involution_word turns back into w *)
Theorem C80_get_involution_word : forall w, canonical w ->
  ((forall x, pcall w (pcall w x) = x) -> exists v, (exists N, forall fuel, (N < fuel)%nat -> get_involution_word fuel w = Ok v) /\
     shortest_word (involution_word (pcall w)) v /\ from_involution_word v true = Ok (Some w)) /\
  (~ (forall x, pcall w (pcall w x) = x) -> forall fuel, get_involution_word (S fuel) w = Err AssertionError).
Proof.
  intros w Hw. split.
  - intro Hv. assert (V : invol w) by (split; assumption). 
    assert (Mono : forall f1 f2 u v, (f1 <= f2)%nat -> get_involution_word f1 u = Ok v -> get_involution_word f2 u = Ok v).
    { clear. induction f1 as [|f1 IH]; intros f2 u v L E; [discriminate|]. destruct f2 as [|f2]; [lia|]. cbn [get_involution_word] in *. destruct (is_involution u) as [b|]; [|discriminate]. cbn [rbind] in *. destruct (negb b); [discriminate|].
      destruct (ldes u) as [d|]; [|discriminate]. cbn [rbind] in *. destruct d as [|d0 d]; [exact E|]. destruct (s_i (zmin (d0 :: d))) as [s|]; [|discriminate]. cbn [rbind] in *. destruct (pmul u s) as [ws|]; [|discriminate]. cbn [rbind] in *. destruct (pmul s u) as [sw|]; [|discriminate]. cbn [rbind] in *.
      destruct (if peq ws sw then Ok ws else pmul sw s) as [x|]; [|discriminate]. cbn [rbind] in *. destruct (get_involution_word f1 x) as [y|] eqn:Ey; [|discriminate]. rewrite (IH f2 x y ltac:(lia) Ey). exact E. }
    destruct (get_word_ok (S (Z.to_nat (ell w))) w V ltac:(pose proof (ell_nonneg w); lia)) as (v & Ev & Gv & Pv). exists v. split.
    + exists (Z.to_nat (ell w)). intros fuel Hf. eapply Mono; [|exact Ev]. lia.
    + split; [apply path_shortest; assumption|]. unfold from_involution_word. change pid with (@nil Z). rewrite loop_strict by (apply invol_nil || assumption). rewrite Pv. reflexivity.
  - intros Nv fuel. cbn [get_involution_word]. unfold is_involution. rewrite pinv_ok by apply Hw. cbn [rbind]. destruct (peq w (invp w)) eqn:Q; [|reflexivity]. exfalso. apply Nv. apply zlist_eqb_eq in Q. apply invp_invol; auto.
Qed.
Print Assumptions C80_get_involution_word.

(* from_involution_word: with strict, exactly the shortest words are accepted *)
Theorem C80_from_involution_word : forall word,
  (Forall (fun i => 0 <= i) word ->
     ((exists w, from_involution_word word true = Ok (Some w) /\ canonical w /\ shortest_word (involution_word (pcall w)) word) \/
      (from_involution_word word true = Ok None /\ forall f, ~ shortest_word (involution_word f) word)) /\
     exists w, from_involution_word word false = Ok (Some w) /\ canonical w /\ acts twist_rel (fun x => x) word (pcall w)) /\
  (~ Forall (fun i => 0 <= i) word -> forall strict, from_involution_word word strict = Err AssertionError \/ (strict = true /\ from_involution_word word strict = Ok None)).
Proof.
  intro word. unfold from_involution_word. change pid with (@nil Z). split.
  - intro G. split.
    + rewrite loop_strict by (apply invol_nil || exact G). destruct (path (iact false) [] word) as [w|] eqn:P.
      * left. exists w. split; [reflexivity|]. assert (V : invol w) by (rewrite (path_cjs _ _ _ P); apply cjs_invol; [apply invol_nil|exact G]). split; [apply V|]. apply path_shortest; assumption.
      * right. split; [reflexivity|]. intros f [Hf Mf]. assert (V : invol (cjs [] word)) by (apply cjs_invol; [apply invol_nil|exact G]).
        assert (Hc : involution_word (pcall (cjs [] word)) word) by (apply involution_word_cjs; [apply V|auto]).
        assert (E : forall x, pcall (cjs [] word) x = f x).
        { destruct Hf as [_ A]. destruct Hc as [_ A']. apply (acts_fun conj_rel conj_rel_fun conj_rel_ext word (fun x => x)); assumption. }
        assert (S : shortest_word (involution_word (pcall (cjs [] word))) word).
        { apply (shortest_word_ext (involution_word f)); [|split; assumption]. intro u. apply involution_word_ext. intro x. symmetry. apply E. }
        apply path_shortest in S; [|exact V|exact G]. congruence.
    + rewrite loop_lenient by (apply invol_nil || exact G). eexists. split; [reflexivity|].
      assert (K : forall v a f, invol a -> gens v -> (forall x, f x = pcall a x) -> invol (fold_left tw v a) /\ acts twist_rel f v (pcall (fold_left tw v a))).
      { induction v as [|i v IH]; intros a f Ha Gv Hf; [split; [exact Ha|constructor; intro x; symmetry; apply Hf]|]. inversion Gv as [|? ? Hi Gv']; subst. cbn [fold_left].
        destruct (IH (tw a i) (pcall (tw a i)) (tw_invol a i Ha Hi) Gv' (fun x => eq_refl)) as [I A]. split; [exact I|]. econstructor; [|exact A]. pose proof Ha as [Hc _].
        unfold twist_rel, tw. destruct (peq (mulp (sp i) a) (mulp a (sp i))) eqn:Q.
        - left. apply zlist_eqb_eq in Q. assert (Q' : peq (mulp a (sp i)) (mulp (sp i) a) = true) by (apply zlist_eqb_eq; auto). split.
          + intro x. rewrite !Hf. apply (icut_comm a i Hc Hi). exact Q'.
          + intro x. rewrite Hf. rewrite mulp_call by auto 10 with perm. rewrite sp_call by assumption. reflexivity.
        - right. split.
          + destruct (cj_rel a i Ha Hi) as [R _]. assert (NC : ~ forall x, simple i (pcall a x) = pcall a (simple i x)).
            { intro C. apply (icut_comm a i Hc Hi) in C. apply zlist_eqb_eq in C. unfold peq in Q. rewrite (proj2 (zlist_eqb_eq _ _) (eq_sym C)) in Q. discriminate. }
            destruct (Z.eq_dec (simple i (pcall a i)) (pcall a (simple i i))) as [C1|C1]; [|exists i; rewrite !Hf; exact C1].
            destruct (Z.eq_dec (simple i (pcall a (i + 1))) (pcall a (simple i (i + 1)))) as [C2|C2]; [|exists (i + 1); rewrite !Hf; exact C2].
            (* commuting at i and i + 1 is commuting *)
            exfalso. apply NC. destruct (Z.eq_dec i 0) as [->|Ni].
            * destruct (descent_dec (pcall a) 0) as [D|D].
              -- apply commute_block0; [exact Ha|]. change (simple 0 (0 + 1)) with (- (1)) in C2. change (0 + 1) with 1 in C2. rewrite pcall_odd in C2. unfold descent in D. cbn in D. unfold simple in C2. change (0 =? 0) with true in C2. cbv beta iota in C2. destruct (Z.eqb_spec (Z.abs (pcall a 1)) 1); lia.
              -- apply (cj_commute a 0 Ha Hi D). unfold descent. change (0 =? 0) with true. cbv beta iota. rewrite mulp_call by auto 10 with perm. rewrite sp_call by lia. change (0 + 1) with 1 in C2. rewrite C2. change (simple 0 1) with (- (1)). rewrite pcall_odd. unfold descent in D. cbn in D. pose proof (pcall_nonzero a 1 (proj1 Hc) ltac:(lia)). lia.
            * rewrite simple_i in C1 by lia. rewrite simple_i1 in C2 by lia. destruct (descent_dec (pcall a) i) as [D|D].
              -- unfold descent in D. replace (i =? 0) with false in D by lia. apply commute_block; [exact Ha|lia|]. destruct (simple_order i (pcall a (i + 1)) (pcall a i) ltac:(lia) D ltac:(rewrite C1, C2; lia)) as [[Q1 Q2]|[Q1 Q2]]; lia.
              -- apply (cj_commute a i Ha Hi D). unfold descent in *. replace (i =? 0) with false in * by lia. rewrite !mulp_call by auto 10 with perm. rewrite !sp_call by lia. rewrite C1, C2.
                 assert (pcall a i <> pcall a (i + 1)) by (intro Q1; apply (pcall_inj a) in Q1; [lia|apply Hc]). lia.
          + intro x. rewrite Hf. rewrite !mulp_call by auto 10 with perm. rewrite !sp_call by assumption. reflexivity. }
      destruct (K word [] (fun x => x) invol_nil G) as [I A]; [intro x; symmetry; apply pcall_nil|]. split; [apply I|exact A].
  - intros N strict. apply loop_negative; [apply invol_nil|exact N].
Qed.
Print Assumptions C80_from_involution_word.

Theorem C80_get_fpf_involution_word : forall w, canonical w -> fpf_on (zlen w) (pcall w) ->
  exists v, (exists N, forall fuel, (N < fuel)%nat -> get_fpf_involution_word fuel w = Ok v) /\ shortest_word (symplectic_word (zlen w) (pcall w)) v.
Proof.
  intros w Hw [Hv Hf]. assert (F : fpf (zlen w) w) by (split; [split; assumption|exact Hf]). pose proof (fpf_even_on w Hw F) as Hm. assert (H0 : 0 <= zlen w) by (unfold zlen; lia).
  assert (Mono : forall f1 f2 u v, (f1 <= f2)%nat -> get_fpf_involution_word f1 u = Ok v -> get_fpf_involution_word f2 u = Ok v).
  { clear. induction f1 as [|f1 IH]; intros f2 u v L E; [discriminate|]. destruct f2 as [|f2]; [lia|]. cbn [get_fpf_involution_word] in *. destruct (is_fpf_involution u) as [b|]; [|discriminate]. cbn [rbind] in *. destruct (negb b); [discriminate|].
    destruct (ldes u) as [d|]; [|discriminate]. cbn [rbind] in *. destruct (filter (fun i => negb (pcall u i =? i + 1)) d) as [|d0 d']; [exact E|]. destruct (s_i (zmin (d0 :: d'))) as [s|]; [|discriminate]. cbn [rbind] in *. destruct (pmul s u) as [sw|]; [|discriminate]. cbn [rbind] in *.
    destruct (pmul sw s) as [x|]; [|discriminate]. cbn [rbind] in *. destruct (get_fpf_involution_word f1 x) as [y|] eqn:Ey; [|discriminate]. rewrite (IH f2 x y ltac:(lia) Ey). exact E. }
  destruct (get_fpf_word_ok (S (Z.to_nat (ell w))) _ w H0 Hm F ltac:(lia) ltac:(pose proof (ell_nonneg w); lia)) as (v & Ev & Wv). exists v. split.
  - exists (Z.to_nat (ell w)). intros fuel Hf'. eapply Mono; [|exact Ev]. lia.
  - apply W_shortest; assumption.
Qed.
Print Assumptions C80_get_fpf_involution_word.

(* on a signed argument the recursion need not end *)
Theorem C80_signed_fpf_word_refuted : is_fpf_involution [-1] = Ok true /\ forall fuel, get_fpf_involution_word fuel [-1] = Err OutOfFuel.
Proof.
  split; [vm_compute; reflexivity|]. induction fuel as [|fuel IH]; [reflexivity|]. cbn [get_fpf_involution_word].
  replace (is_fpf_involution [-1]) with (Ok (A := bool) true) by (vm_compute; reflexivity). cbn [rbind negb].
  replace (ldes [-1]) with (Ok (A := list Z) [0]) by (vm_compute; reflexivity). cbn [rbind filter].
  replace (pcall [-1] 0 =? 0 + 1) with false by (vm_compute; reflexivity). cbn [negb]. change (zmin [0]) with 0.
  replace (s_i 0) with (Ok (A := list Z) [-1]) by (vm_compute; reflexivity). cbn [rbind].
  replace (pmul [-1] [-1]) with (Ok (A := list Z) []) by (vm_compute; reflexivity). cbn [rbind].
  replace (pmul [] [-1]) with (Ok (A := list Z) [-1]) by (vm_compute; reflexivity). cbn [rbind]. rewrite IH. reflexivity.
Qed.
Print Assumptions C80_signed_fpf_word_refuted.

Lemma word_rank_least : forall v, Forall (fun i => 1 <= i) v -> least_rank v (word_rank v).
Proof.
  intros v F. destruct (word_rank_ok v F) as (A & B & C). split.
  - split; [exact B|]. split; [exact A|]. eapply Forall_impl; [|exact C]. cbn. intros; lia.
  - intros m Hm H0 Fm. assert (K : match v with [] => 0 | a :: r => 1 + fold_left Z.max r a end <= m).
    { destruct v as [|a r]; [exact H0|]. assert (G : forall x, x = a \/ In x r -> x < m) by (intros x Hx; rewrite Forall_forall in Fm; apply Fm; cbn; intuition).
      assert (Q : fold_left Z.max r a = a \/ In (fold_left Z.max r a) r).
      { clear. revert a. induction r as [|b r IH]; intro a; cbn; [tauto|]. destruct (IH (Z.max a b)) as [E|E]; [|tauto]. rewrite E. destruct (Z.max_spec a b) as [[_ ->]|[_ ->]]; tauto. }
      specialize (G _ Q). lia. }
    unfold word_rank. cbn zeta. set (n := match v with [] => 0 | a :: r => 1 + fold_left Z.max r a end) in *. destruct (Z.eqb_spec (n mod 2) 0); [exact K|].
    assert (n <> m) by congruence. lia.
Qed.
(* from_fpf_involution_word on positive letters *)
Theorem C80_from_fpf_involution_word : forall word n, Forall (fun i => 1 <= i) word -> least_rank word n ->
  ((exists w, from_fpf_involution_word word true = Ok (Some w) /\ canonical w /\ zlen w = n /\ fpf_on n (pcall w) /\ shortest_word (symplectic_word n (pcall w)) word) \/
   (from_fpf_involution_word word true = Ok None /\ forall f, fpf_on n f -> ~ shortest_word (symplectic_word n f) word)) /\
  exists w, from_fpf_involution_word word false = Ok (Some w) /\ canonical w /\
    forall x, pcall w x = fold_left (fun y i => simple i y) word (pairing n (fold_right simple x word)).
Proof.
  intros word n F [(Rm & R0 & Rf) Rl]. destruct (word_rank_ok word F) as (A & B & C).
  assert (En : word_rank word = n).
  { destruct (word_rank_least word F) as [(Q1 & Q2 & Q3) Q4]. pose proof (Q4 n Rm R0 Rf). pose proof (Rl _ Q1 Q2 Q3). lia. }
  rewrite En in *. rewrite !from_fpf_unfold by exact F. rewrite En. clear En. split.
  - rewrite (loop_fpf_strict n) by (first [exact C|apply s0_fpf; exact B]). 
    assert (Lf : forall w, path (sact true) (s0 n) word = Some w -> fpf n w /\ zlen w = n).
    { assert (G : forall v a w, Forall (fun i => 1 <= i < n) v -> fpf n a -> zlen a <= n -> path (sact true) a v = Some w -> fpf n w /\ zlen w <= n).
      { induction v as [|i v IH]; intros a w Fv Ha La P; [injection P as <-; auto|]. inversion Fv as [|? ? Hi Fv']; subst. cbn [path] in P. destruct (sact true a i) as [b|] eqn:Eb; [|discriminate].
        apply (IH b w Fv'); [eapply sact_fpf; eassumption| |exact P]. rewrite sact_true in Eb. destruct (Z.eqb_spec (pcall a i) (i + 1)) as [|Nq]; [discriminate|]. injection Eb as <-.
        destruct (fpf_step n a i Ha Hi Nq) as [[_ ->]|[_ E]]; [exact La|]. apply zlen_fixed; [apply (fpf_cj n a i Ha Hi Nq)|lia|]. intros x Hx. rewrite E. rewrite (simple_out i x) by lia. rewrite pcall_out by lia. apply simple_out; lia. }
      intros w P. assert (L0 : zlen (s0 n) <= n) by (apply zlen_fixed; [apply s0_fpf; assumption|lia|]; intros x Hx; rewrite s0_call by assumption; apply matching_out; lia).
      destruct (G word (s0 n) w C (s0_fpf n B) L0 P) as [Fw Lw]. split; [exact Fw|]. destruct (Z_lt_ge_dec (zlen w) n) as [Q|Q]; [|lia]. exfalso. destruct (proj2 Fw n) as [_ Nf]; [unfold zlen in *; lia|]. apply Nf. apply pcall_out. lia. }
    destruct (path (sact false) (s0 n) word) as [w|] eqn:P.
    + left. exists w. split; [reflexivity|]. destruct (Lf w) as [Fw Lw]; [apply path_sact_false in P; tauto|]. split; [apply Fw|]. split; [exact Lw|]. split; [split; [apply Fw|apply Fw]|].
      rewrite <- Lw in *. apply W_shortest; [exact Fw|exact B|]. split; [exact C|exact P].
    + right. split; [reflexivity|]. intros f _ [Hf Mf].
      set (rel := fun g i h => g i <> i + 1 /\ conj_rel g i h) in *. destruct Hf as [_ Af].
      assert (Ex : exists w, path (sact true) (s0 n) word = Some w).
      { assert (G : forall v a g, Forall (fun i => 1 <= i < n) v -> fpf n a -> (forall x, g x = pcall a x) -> acts (fun g i h => g i <> i + 1 /\ conj_rel g i h) g v f -> exists w, path (sact true) a v = Some w).
        { induction v as [|i v IH]; intros a g Fv Ha Hg Av; [exists a; reflexivity|]. inversion Fv as [|? ? Hi Fv']; subst. inversion Av as [|? ? h ? ? [Nh Rh] Av']; subst. cbn [path]. rewrite sact_true. rewrite Hg in Nh. replace (pcall a i =? i + 1) with false by lia.
          apply (IH _ h Fv'); [apply fpf_cj; assumption| |exact Av']. apply (conj_rel_fun (pcall a) i); [eapply conj_rel_ext; [exact Hg|exact Rh]|]. apply cj_rel; [apply Ha|lia]. }
        apply (G word (s0 n) (pairing n) C (s0_fpf n B)); [|exact Af]. intro x. symmetry. apply s0_call. exact B. }
      destruct Ex as (w & Pw). destruct (Lf w Pw) as [Fw Lw].
      assert (Sw : symplectic_word n (pcall w) word) by (rewrite <- Lw in *; apply symplectic_word_path; [apply Fw|exact B|auto]).
      assert (E : forall x, pcall w x = f x).
      { destruct Sw as [_ Aw]. apply (acts_fun (fun g i h => g i <> i + 1 /\ conj_rel g i h)) with (v := word) (f := pairing n); [| |exact Aw|exact Af].
        - intros g i h h' [_ R1] [_ R2]. eapply conj_rel_fun; eassumption.
        - intros g g' i h Eg [N1 R1]. split; [rewrite <- Eg; exact N1|]. eapply conj_rel_ext; eassumption. }
      assert (S : shortest_word (symplectic_word n (pcall w)) word).
      { split; [exact Sw|]. intros u Hu. apply Mf. apply (symplectic_word_ext n (pcall w)); [exact E|exact Hu]. }
      rewrite <- Lw in *. apply W_shortest in S; [|exact Fw|exact B]. destruct S as [_ S]. congruence.
  - assert (G : gens word) by (eapply Forall_impl; [|exact F]; cbn; intros; lia). destruct (loop_fpf_lenient word (s0 n) (proj1 (proj1 (s0_fpf n B))) G) as (b & Eb & Cb & Fb).
    exists b. split; [exact Eb|]. split; [exact Cb|]. intro x. rewrite Fb. rewrite s0_call by exact B. reflexivity.
Qed.
Print Assumptions C80_from_fpf_involution_word.

(* the caches left behind by earlier calls on fixed-point-free involutions of 1, ..., n *)
Inductive fpf_words_cache (rord : list Z -> list Z) : fpf_cache -> Prop :=
| fwc_init : fpf_words_cache rord [([], [[]])]
| fwc_call : forall c fuel w c' ws, fpf_words_cache rord c -> canonical w -> fpf_on (zlen w) (pcall w) ->
    ell w < Z.of_nat fuel -> get_fpf_involution_words rord fuel c w = Ok (c', ws) -> fpf_words_cache rord c'.
Theorem C80_fpf_involution_words : forall rord, (forall l, Permutation (rord l) l) -> forall w, canonical w -> fpf_on (zlen w) (pcall w) ->
  exists N, forall fuel c, (N < fuel)%nat -> fpf_words_cache rord c ->
    exists c' ws, get_fpf_involution_words rord fuel c w = Ok (c', ws) /\ NoDup ws /\
      forall v, In v ws <-> shortest_word (symplectic_word (zlen w) (pcall w)) v.
Proof.
  intros rord Hr w Hw Hf. assert (FL : forall u, canonical u -> fpf_on (zlen u) (pcall u) -> fline u).
  { intros u Hu [Hv Hx]. assert (F : fpf (zlen u) u) by (split; [split; assumption|exact Hx]). split; [exact F|]. apply fpf_even_on; assumption. }
  assert (GC : forall c, fpf_words_cache rord c -> good_cache c).
  { intros c Hc. induction Hc as [|c fuel u c' ws _ IH Hu Hfu Hl E].
    - split; [reflexivity|]. intros k ws Hk Fk. cbn in Hk. destruct (zlist_eqb k []) eqn:Q; [|destruct k; discriminate]. apply zlist_eqb_eq in Q. subst k. injection Hk as <-. split; [repeat constructor; intros []|].
      intro v. change (zlen (@nil Z)) with 0. split.
      + intros [<-|[]]. apply W_nil. reflexivity.
      + intros [Fv _]. destruct v as [|x v]; [left; reflexivity|]. inversion Fv; subst. lia.
    - destruct (get_fpf_words_ok rord Hr fuel c u IH (FL u Hu Hfu) Hl) as (c2 & ws2 & E2 & G2 & _). rewrite E in E2. injection E2 as <- _. exact G2. }
  exists (Z.to_nat (ell w)). intros fuel c Hfuel Hc. destruct (get_fpf_words_ok rord Hr fuel c w (GC c Hc) (FL w Hw Hf) ltac:(pose proof (ell_nonneg w); lia)) as (c' & ws & E & _ & Nd & I).
  exists c', ws. split; [exact E|]. split; [exact Nd|]. intro v. rewrite I. destruct (FL w Hw Hf) as [F M]. apply W_shortest; assumption.
Qed.
Print Assumptions C80_fpf_involution_words.

Example C80_example :
  involution_length [-3; 2; -1] = Ok 3 /\ get_involution_word 10 [-3; 2; -1] = Ok [2; 1; 0] /\
  from_involution_word [2; 1; 0] true = Ok (Some [-3; 2; -1]) /\ from_involution_word [1; 1] true = Ok None /\ from_involution_word [1; 1] false = Ok (Some []) /\
  fpf_involution_length [4; 3; 2; 1] = Ok 2 /\ get_fpf_involution_word 10 [4; 3; 2; 1] = Ok [2; 1] /\
  from_fpf_involution_word [2; 1] true = Ok (Some [4; 3; 2; 1]) /\ from_fpf_involution_word [1] true = Ok None /\
  (exists c, get_fpf_involution_words (fun l => l) 10 [([], [[]])] [4; 3; 2; 1; 6; 5] = Ok (c, [[2; 1]; [2; 3]])).
Proof. repeat split; try (vm_compute; reflexivity). eexists. vm_compute. reflexivity. Qed.
