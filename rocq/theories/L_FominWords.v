(* Chains of operators 1 + x u_i, their coefficients, and sums over words. *)
From Coq Require Import List ZArith Lia Bool Permutation Arith.
From Verif Require Import PyBase L_Fomin L_Count S_Words.
Import ListNotations.
Local Open Scope Z_scope.

(* polynomials with arbitrarily large zeros *)
Lemma zpol_big : forall c, (forall B, exists x, B < x /\ zpol c x = 0) -> Forall (fun a => a = 0) c.
Proof.
  induction c as [|a c IH]; intro H; [constructor|].
  assert (G : forall B, exists x, B < x /\ a = 0 /\ zpol c x = 0).
  { intro B. destruct (H (Z.max B (Z.abs a))) as (x & Hx & E). cbn [zpol] in E. exists x. split; [lia|]. set (q := zpol c x) in *.
    assert (q = 0).
    { destruct (Z.eq_dec q 0) as [Q|Q]; [assumption|]. exfalso. destruct (Z_lt_ge_dec 0 q); nia. }
    split; [nia|assumption]. }
  constructor.
  - destruct (G 0) as (x & _ & E & _). exact E.
  - apply IH. intro B. destruct (G B) as (x & E1 & _ & E2). exists x. auto.
Qed.
Lemma sumn_big : forall n c, (forall B, exists x, B < x /\ sumn n (fun i => x ^ Z.of_nat i * c i) = 0) -> forall i, (i <= n)%nat -> c i = 0.
Proof.
  intros n c H i Hi. assert (F : Forall (fun a => a = 0) (map c (seq 0 (S n)))).
  { apply zpol_big. intro B. destruct (H B) as (x & Hx & E). exists x. rewrite <- sumn_zpol. auto. }
  rewrite Forall_forall in F. apply F. apply in_map. apply in_seq. lia.
Qed.
Lemma sumn_swap : forall n m (g : nat -> nat -> Z), sumn n (fun i => sumn m (fun j => g i j)) = sumn m (fun j => sumn n (fun i => g i j)).
Proof. induction n as [|n IH]; intros m g; cbn [sumn]; [reflexivity|]. rewrite IH. symmetry. apply sumn_add. Qed.
Lemma sumn2_big : forall n c d,
  (forall x t, 0 < x -> 0 < t -> let y := x + t + x * t in
     sumn n (fun i => x ^ Z.of_nat i * sumn n (fun j => y ^ Z.of_nat j * c i j)) = sumn n (fun i => x ^ Z.of_nat i * sumn n (fun j => y ^ Z.of_nat j * d i j))) ->
  forall i j, (i <= n)%nat -> (j <= n)%nat -> c i j = d i j.
Proof.
  intros n c d H i j Hi Hj.
  assert (E : forall x, 0 < x -> sumn n (fun i => x ^ Z.of_nat i * (c i j - d i j)) = 0).
  { intros x Hx. apply (sumn_big n (fun j => sumn n (fun i => x ^ Z.of_nat i * (c i j - d i j)))); [|assumption]. intro B. set (t := Z.abs B + 1). exists (x + t + x * t).
    split; [unfold t; nia|]. specialize (H x t Hx ltac:(unfold t; lia)). cbv zeta in H. set (y := x + t + x * t) in *.
    rewrite (sumn_ext n _ (fun j => sumn n (fun i => y ^ Z.of_nat j * (x ^ Z.of_nat i * (c i j - d i j))))) by (intros; rewrite <- sumn_mul; reflexivity).
    rewrite sumn_swap.
    rewrite (sumn_ext n _ (fun i => x ^ Z.of_nat i * sumn n (fun j => y ^ Z.of_nat j * c i j) + -1 * (x ^ Z.of_nat i * sumn n (fun j => y ^ Z.of_nat j * d i j)))).
    - rewrite sumn_add, sumn_mul, H. ring.
    - intros i' _. rewrite <- !sumn_mul, <- sumn_add. apply sumn_ext. intros. ring. }
  pose proof (sumn_zero n (fun i => c i j - d i j) E i Hi) as Q. cbv beta in Q. lia.
Qed.

(* number of ways to find v inside ls *)
Fixpoint emb (ls v : list Z) : Z :=
  match ls with
  | [] => match v with [] => 1 | _ => 0 end
  | i :: ls' => emb ls' v + match v with [] => 0 | a :: v' => if a =? i then emb ls' v' else 0 end
  end.
(* all words of length k *)
Fixpoint words (A : list Z) (k : nat) : list (list Z) :=
  match k with O => [[]] | S k' => flat_map (fun i => map (cons i) (words A k')) A end.
Fixpoint cut (ks : list nat) (v : list Z) : list (list Z) :=
  match ks with [] => [] | k :: ks' => firstn k v :: cut ks' (skipn k v) end.
Definition nsum (ks : list nat) : nat := fold_right Nat.add O ks.

Lemma zs_flat_map : forall A B (g : A -> list B) (f : B -> Z) l, zs f (flat_map g l) = zs (fun x => zs f (g x)) l.
Proof. induction l as [|a l IH]; [reflexivity|]. cbn [flat_map]. rewrite zs_app, zs_cons, IH. reflexivity. Qed.
Lemma zs_pick : forall (f : Z -> Z) i A, NoDup A -> In i A -> zs (fun a => if a =? i then f a else 0) A = f i.
Proof.
  intros f i A Hn Hi. induction A as [|a A IH]; [destruct Hi|]. inversion Hn as [|? ? N1 N2]; subst. rewrite zs_cons. destruct Hi as [->|Hi].
  - rewrite Z.eqb_refl. rewrite zs_zero; [ring|]. intros x Hx. destruct (Z.eqb_spec x i); [subst; contradiction|reflexivity].
  - rewrite IH by assumption. destruct (Z.eqb_spec a i); [subst; contradiction|ring].
Qed.
Lemma in_words : forall A k v, In v (words A k) <-> length v = k /\ Forall (fun i => In i A) v.
Proof.
  induction k as [|k IH]; intro v; cbn [words].
  - split; [intros [<-|[]]; split; [reflexivity|constructor]|]. intros [H _]. destruct v; [left; reflexivity|discriminate].
  - rewrite in_flat_map. split.
    + intros (i & Hi & H). apply in_map_iff in H. destruct H as (w & <- & H). apply IH in H. destruct H as [H1 H2]. split; [cbn; lia|constructor; assumption].
    + intros [H1 H2]. destruct v as [|i v]; [discriminate|]. inversion H2; subst. exists i. split; [assumption|]. apply in_map. apply IH. cbn in H1. split; [lia|assumption].
Qed.
Lemma words_nodup : forall A k, NoDup A -> NoDup (words A k).
Proof.
  intros A k HA. induction k as [|k IH]; cbn [words]; [repeat constructor; intros []|].
  induction HA as [|i A Hi HA IHA] in IH |- *.
  - constructor.
  - cbn [flat_map].
    assert (G : forall B W, NoDup B -> NoDup W -> NoDup (flat_map (fun i => map (cons i) W) B : list (list Z))).
    { clear. induction B as [|b B IH]; intros W HB HW; [constructor|]. inversion HB as [|? ? N1 N2]; subst. cbn [flat_map]. apply NoDup_app_intro.
      - apply FinFun.Injective_map_NoDup; [intros x y E; congruence|assumption].
      - auto.
      - intros w H1 H2. apply in_map_iff in H1. destruct H1 as (u & <- & _). apply in_flat_map in H2. destruct H2 as (c & Hc & H2). apply in_map_iff in H2. destruct H2 as (u' & E & _). injection E as <- _. contradiction. }
    change (NoDup (flat_map (fun j => map (cons j) (words (i :: A) k)) (i :: A))). apply G; [constructor; assumption|assumption].
Qed.
Lemma zs_words_app : forall A a b (f : list Z -> Z), zs f (words A (a + b)) = zs (fun u => zs (fun v => f (u ++ v)) (words A b)) (words A a).
Proof.
  induction a as [|a IH]; intros b f.
  - cbn [words Nat.add]. rewrite zs_cons, zs_nil. rewrite Z.add_0_r. apply zs_ext. reflexivity.
  - cbn [words Nat.add]. rewrite !zs_flat_map. apply zs_ext. intros i _. rewrite !zs_map. rewrite (IH b (fun v => f (i :: v))). apply zs_ext. intros u _. reflexivity.
Qed.

Section Chain.
  Variable P : Type.
  Variable valid : P -> Prop.
  Variable act : P -> Z -> option P.
  Variable ls : list Z.
  Hypothesis act_valid : forall p i q, valid p -> In i ls -> act p i = Some q -> valid q.
  Notation U := (U P act).
  Notation h := (h P act).
  Notation eqv := (eqv P valid).

  Fixpoint hc (x : Z) (l : list Z) (F : P -> Z) : P -> Z := match l with [] => F | i :: l' => h i x (hc x l' F) end.
  Hypothesis hc_comm : forall x t F, 0 < x -> 0 < t -> eqv (hc x ls (hc (x + t + x * t) ls F)) (hc (x + t + x * t) ls (hc x ls F)).

  Fixpoint sk (l : list Z) (k : nat) (F : P -> Z) (p : P) : Z :=
    match l with
    | [] => match k with O => F p | S _ => 0 end
    | i :: l' => sk l' k F p + match k with O => 0 | S k' => U i (sk l' k' F) p end
    end.
  Lemma Uv_ext : forall i F G, In i ls -> eqv F G -> eqv (U i F) (U i G).
  Proof. intros i F G Hi E p Hp. unfold L_Fomin.U. destruct (act p i) as [q|] eqn:A; [|reflexivity]. apply E. eapply act_valid; eassumption. Qed.
  Lemma sk_big : forall l k F p, (length l < k)%nat -> sk l k F p = 0.
  Proof.
    induction l as [|i l IH]; intros [|k] F p Hk; cbn [length] in Hk; try lia; cbn [sk]; [reflexivity|]. rewrite IH by lia. unfold L_Fomin.U. destruct (act p _); [rewrite IH by lia|]; reflexivity.
  Qed.
  Lemma sk_zero : forall l F p, sk l 0 F p = F p.
  Proof. induction l as [|i l IH]; intros F p; cbn [sk]; [reflexivity|]. rewrite IH. ring. Qed.
  Lemma sk_ext : forall l k F G, incl l ls -> eqv F G -> eqv (sk l k F) (sk l k G).
  Proof.
    induction l as [|i l IH]; intros [|k] F G Hl E p Hp; cbn [sk]; try reflexivity; [apply E; assumption| |]; assert (Hl' : incl l ls) by (intros j Hj; apply Hl; right; assumption).
    - rewrite (IH 0%nat F G Hl' E p Hp). reflexivity.
    - rewrite (IH (S k) F G Hl' E p Hp), (Uv_ext i _ _ (Hl i (or_introl eq_refl)) (IH k F G Hl' E) p Hp). reflexivity.
  Qed.
  Lemma sk_sumn : forall l k n (f : nat -> P -> Z) p, sk l k (fun q => sumn n (fun j => f j q)) p = sumn n (fun j => sk l k (f j) p).
  Proof.
    induction l as [|i l IH]; intros [|k] n f p; cbn [sk]; [reflexivity| | |].
    - induction n as [|n IHn]; cbn [sumn]; [reflexivity|lia].
    - rewrite IH. rewrite Z.add_0_r. apply sumn_ext. intros. ring.
    - rewrite sumn_add, IH. f_equal. rewrite <- (U_sumn _ _ _ n (fun j => sk l k (f j))). unfold L_Fomin.U. destruct (act p _); [apply IH|reflexivity].
  Qed.
  Lemma sk_scale : forall l k c F p, sk l k (fun q => c * F q) p = c * sk l k F p.
  Proof.
    induction l as [|i l IH]; intros [|k] c F p; cbn [sk]; [reflexivity|ring|rewrite IH; ring|].
    rewrite IH. rewrite Z.mul_add_distr_l. f_equal. unfold L_Fomin.U. destruct (act p _); [apply IH|ring].
  Qed.
  Lemma hc_ext : forall x l F G, incl l ls -> eqv F G -> eqv (hc x l F) (hc x l G).
  Proof.
    intros x. induction l as [|i l IH]; intros F G Hl E p Hp; cbn [hc]; [apply E; assumption|]. assert (Hl' : incl l ls) by (intros j Hj; apply Hl; right; assumption).
    unfold L_Fomin.h. rewrite (IH F G Hl' E p Hp), (Uv_ext i _ _ (Hl i (or_introl eq_refl)) (IH F G Hl' E) p Hp). reflexivity.
  Qed.
  Lemma hc_sk : forall n l x F, incl l ls -> (length l <= n)%nat -> eqv (hc x l F) (fun p => sumn n (fun k => x ^ Z.of_nat k * sk l k F p)).
  Proof.
    intro n. induction l as [|i l IH]; intros x F Hl Hm p Hp.
    - cbn [hc sk]. clear. induction n as [|n IHn]; cbn [sumn]; [change (Z.of_nat 0) with 0; rewrite Z.pow_0_r; ring|rewrite <- IHn; ring].
    - assert (Hl' : incl l ls) by (intros j Hj; apply Hl; right; assumption). cbn [length] in Hm.
      change (hc x (i :: l) F p) with (hc x l F p + x * U i (hc x l F) p). rewrite (IH x F Hl' ltac:(lia) p Hp).
      rewrite (Uv_ext i _ _ (Hl i (or_introl eq_refl)) (IH x F Hl' ltac:(lia)) p Hp).
      destruct n as [|n]; [lia|]. rewrite (U_sumn _ _ i (S n) (fun k q => x ^ Z.of_nat k * sk l k F q)). rewrite <- sumn_mul.
      rewrite (sumn_ext (S n) (fun k => x ^ Z.of_nat k * sk (i :: l) k F p) (fun k => x ^ Z.of_nat k * sk l k F p + x ^ Z.of_nat k * match k with O => 0 | S k' => U i (sk l k' F) p end)) by (intros; cbn [sk]; ring).
      rewrite sumn_add. f_equal. rewrite (sumn_head n (fun k => x ^ Z.of_nat k * match k with O => 0 | S k' => _ end)). rewrite Z.mul_0_r, Z.add_0_l.
      cbn [sumn]. rewrite (U_scale P act i (x ^ Z.of_nat (S n)) (sk l (S n) F)).
      assert (Z0 : U i (sk l (S n) F) p = 0) by (unfold L_Fomin.U; destruct (act p _); [apply sk_big; lia|reflexivity]). rewrite Z0, !Z.mul_0_r, Z.add_0_r.
      apply sumn_ext. intros j _. rewrite (U_scale P act i (x ^ Z.of_nat j) (sk l j F)), (Nat2Z.inj_succ j), Z.pow_succ_r by lia. ring.
  Qed.
  Theorem sk_comm : forall a b F, eqv (sk ls a (sk ls b F)) (sk ls b (sk ls a F)).
  Proof.
    intros a b F p Hp. set (N := (length ls + a + b)%nat). assert (Hi : incl ls ls) by (intros i H; exact H).
    assert (G : forall x y, hc x ls (hc y ls F) p = sumn N (fun i => x ^ Z.of_nat i * sumn N (fun j => y ^ Z.of_nat j * sk ls i (sk ls j F) p))).
    { intros x y. rewrite (hc_sk N ls x (hc y ls F) Hi ltac:(lia) p Hp). apply sumn_ext. intros i _. f_equal. rewrite (sk_ext ls i _ _ Hi (hc_sk N ls y F Hi ltac:(lia)) p Hp).
      rewrite (sk_sumn ls i N (fun j q => y ^ Z.of_nat j * sk ls j F q)). apply sumn_ext. intros j _. apply sk_scale. }
    apply (sumn2_big N (fun i j => sk ls i (sk ls j F) p) (fun i j => sk ls j (sk ls i F) p)); [|lia|lia].
    intros x t Hx Ht y. rewrite <- (G x y). unfold y. rewrite (hc_comm x t F Hx Ht p Hp), (G (x + t + x * t) x). fold y.
    rewrite (sumn_ext N _ (fun i => sumn N (fun j => y ^ Z.of_nat i * (x ^ Z.of_nat j * sk ls i (sk ls j F) p)))) by (intros; rewrite <- sumn_mul; reflexivity). rewrite sumn_swap.
    apply sumn_ext. intros i _. rewrite <- sumn_mul. apply sumn_ext. intros j _. ring.
  Qed.
  Fixpoint sks (ks : list nat) (F : P -> Z) : P -> Z := match ks with [] => F | k :: ks' => sk ls k (sks ks' F) end.
  Theorem sks_perm : forall ks ks' F, Permutation ks ks' -> eqv (sks ks F) (sks ks' F).
  Proof.
    intros ks ks' F H. induction H as [|k l l' H IH|a b l|l l' l'' H1 IH1 H2 IH2]; intros p Hp; [reflexivity| | |].
    - cbn [sks]. apply sk_ext; [intros i Hi; exact Hi|assumption|assumption].
    - cbn [sks]. apply sk_comm. assumption.
    - rewrite (IH1 p Hp). apply IH2. assumption.
  Qed.

  (* sums over words *)
  Fixpoint pathp (p : P) (w : list Z) : option P := match w with [] => Some p | i :: w' => match act p i with Some q => pathp q w' | None => None end end.
  Definition ev (p : P) (v : list Z) (F : P -> Z) : Z := match pathp p v with Some q => F q | None => 0 end.
  Lemma ev_cons : forall p i v F, ev p (i :: v) F = U i (fun q => ev q v F) p.
  Proof. intros. unfold ev, L_Fomin.U. cbn [pathp]. destruct (act p i); reflexivity. Qed.
  Lemma ev_app : forall u v p F, ev p (u ++ v) F = ev p u (fun q => ev q v F).
  Proof.
    intro u. induction u as [|i u IH]; intros v p F; [reflexivity|]. cbn [app]. rewrite !ev_cons. unfold L_Fomin.U. destruct (act p i); [apply IH|reflexivity].
  Qed.
  Lemma U_zs : forall B i (f : B -> P -> Z) l p, U i (fun q => zs (fun b => f b q) l) p = zs (fun b => U i (f b) p) l.
  Proof. intros. unfold L_Fomin.U. destruct (act p i); [reflexivity|]. symmetry. apply zs_zero. reflexivity. Qed.
  Lemma sk_words : forall A k l F p, NoDup A -> incl l A -> sk l k F p = zs (fun v => emb l v * ev p v F) (words A k).
  Proof.
    intros A k l F p HA. revert k F p. induction l as [|i l IH]; intros k F p Hl.
    - cbn [sk emb]. destruct k as [|k].
      + cbn [words]. rewrite zs_cons, zs_nil. unfold ev. cbn [pathp]. ring.
      + symmetry. apply zs_zero. intros v Hv. apply in_words in Hv. destruct v; [destruct Hv; discriminate|ring].
    - assert (Hl' : incl l A) by (intros j Hj; apply Hl; right; assumption). cbn [sk]. rewrite (IH k F p Hl').
      rewrite (zs_ext _ (fun v => emb (i :: l) v * ev p v F) (fun v => emb l v * ev p v F + match v with [] => 0 | a :: v' => if a =? i then emb l v' else 0 end * ev p v F)) by (intros; cbn [emb]; ring).
      rewrite zs_plus. f_equal. destruct k as [|k].
      + cbn [words]. rewrite zs_cons, zs_nil. ring.
      + cbn [words]. rewrite zs_flat_map.
        rewrite (zs_ext _ _ (fun a => if a =? i then zs (fun v => emb l v * ev p (a :: v) F) (words A k) else 0)).
        2:{ intros a _. rewrite zs_map. destruct (a =? i); [reflexivity|]. apply zs_zero. intros; ring. }
        rewrite zs_pick; [|assumption|apply Hl; left; reflexivity].
        rewrite (zs_ext _ _ (fun v => U i (fun q => emb l v * ev q v F) p)) by (intros; rewrite ev_cons, U_scale; reflexivity). rewrite <- U_zs.
        unfold L_Fomin.U. destruct (act p i); [apply IH; assumption|reflexivity].
  Qed.
  Lemma cut_app : forall ks u v, length u = nsum [length u] -> cut (length u :: ks) (u ++ v) = u :: cut ks v.
  Proof. intros ks u v _. cbn [cut]. rewrite firstn_app, firstn_all, Nat.sub_diag, firstn_O, app_nil_r. rewrite skipn_app, skipn_all, Nat.sub_diag. reflexivity. Qed.
  Lemma ev_zs : forall B u (f : B -> P -> Z) l p, ev p u (fun q => zs (fun b => f b q) l) = zs (fun b => ev p u (f b)) l.
  Proof. intros. unfold ev. destruct (pathp p u); [reflexivity|]. symmetry. apply zs_zero. reflexivity. Qed.
  Lemma ev_scale : forall u c F p, ev p u (fun q => c * F q) = c * ev p u F.
  Proof. intros. unfold ev. destruct (pathp p u); ring. Qed.
  Theorem sks_words : forall A, NoDup A -> incl ls A -> forall ks F p,
    sks ks F p = zs (fun v => zprod (map (emb ls) (cut ks v)) * ev p v F) (words A (nsum ks)).
  Proof.
    intros A HA Hl. induction ks as [|k ks IH]; intros F p.
    - cbn [sks nsum fold_right words cut map zprod]. rewrite zs_cons, zs_nil. unfold ev. cbn [pathp zprod fold_right]. ring.
    - cbn [sks]. rewrite (sk_words A k ls (sks ks F) p HA Hl). change (nsum (k :: ks)) with (k + nsum ks)%nat. rewrite zs_words_app. apply zs_ext. intros u Hu.
      apply in_words in Hu. destruct Hu as [Hu _].
      rewrite (zs_ext _ _ (fun v => emb ls u * ev p u (fun q => zprod (map (emb ls) (cut ks v)) * ev q v F))).
      2:{ intros v _. subst k. rewrite cut_app by (cbn; lia). cbn [map zprod fold_right]. rewrite ev_app, ev_scale. fold (zprod (map (emb ls) (cut ks v))). ring. }
      rewrite zs_scale. f_equal. rewrite <- ev_zs. unfold ev. destruct (pathp p u); [apply IH|reflexivity].
  Qed.
End Chain.
