(* The generating function of chains of horizontal strips is symmetric. *)
From Coq Require Import List ZArith Lia Bool Permutation.
From Verif Require Import PyBase S_Partitions L_Count L_Sym1.
Import ListNotations.
Local Open Scope Z_scope.

Lemma hd0_row : forall l, hd0 l = row l 0.
Proof. intros [|a l]; reflexivity. Qed.

Lemma zs_exchange : forall A B (g : A -> B -> Z) S K S' T, NoDup S -> (forall t, In t S -> NoDup (K t)) -> NoDup S' -> (forall k, In k S' -> NoDup (T k)) ->
  (forall t k, In t S /\ In k (K t) <-> In k S' /\ In t (T k)) ->
  zs (fun t => zs (g t) (K t)) S = zs (fun k => zs (fun t => g t k) (T k)) S'.
Proof.
  intros A B g S K S' T NS NK NS' NT H.
  assert (Nd : forall X Y (l : list X) (f : X -> list Y), NoDup l -> (forall x, In x l -> NoDup (f x)) -> NoDup (flat_map (fun x => map (fun y => (x, y)) (f x)) l)).
  { intros X Y l f N F. induction l as [|a l IH]; [constructor|]. inversion N as [|? ? N1 N2]; subst. cbn [flat_map]. apply NoDup_app_intro.
    - apply FinFun.Injective_map_NoDup; [|apply F; left; reflexivity]. intros p q E. congruence.
    - apply IH; [assumption|]. intros x Hx. apply F. right. assumption.
    - intros [p q] H1 H2. apply in_map_iff in H1. destruct H1 as (q' & E1 & _). apply in_flat_map in H2. destruct H2 as (x & Hx & H2). apply in_map_iff in H2. destruct H2 as (q2 & E2 & _). congruence. }
  transitivity (zs (fun p => g (fst p) (snd p)) (flat_map (fun t => map (fun k => (t, k)) (K t)) S)).
  { rewrite zs_flat_map. apply zs_ext. intros t _. rewrite zs_map. reflexivity. }
  transitivity (zs (fun p => g (snd p) (fst p)) (flat_map (fun k => map (fun t => (k, t)) (T k)) S')); [|rewrite zs_flat_map; apply zs_ext; intros k _; rewrite zs_map; reflexivity].
  transitivity (zs (fun p => g (snd p) (fst p)) (map (fun p => (snd p, fst p)) (flat_map (fun t => map (fun k => (t, k)) (K t)) S))).
  { rewrite zs_map. apply zs_ext. intros [t k] _. reflexivity. }
  apply zs_same.
  - apply FinFun.Injective_map_NoDup; [intros [a b] [c d] E; cbn in E; congruence|]. apply Nd; assumption.
  - apply Nd; assumption.
  - intros [k t]. rewrite in_map_iff, in_flat_map. split.
    + intros ([t0 k0] & E & P). cbn in E. injection E as <- <-. apply in_flat_map in P. destruct P as (t1 & P1 & P2). apply in_map_iff in P2. destruct P2 as (k1 & E & P2). injection E as <- <-.
      destruct (proj1 (H t1 k1) (conj P1 P2)). exists k1. split; [assumption|]. apply in_map. assumption.
    + intros (k1 & P1 & P2). apply in_map_iff in P2. destruct P2 as (t1 & E & P2). injection E as <- <-. destruct (proj2 (H t1 k1) (conj P1 P2)).
      exists (t1, k1). split; [reflexivity|]. apply in_flat_map. exists t1. split; [assumption|]. apply in_map. assumption.
Qed.

(* products of ranges *)
Lemma cons_NoDup : forall (r : list Z) (S : list (list Z)), NoDup r -> NoDup S -> NoDup (flat_map (fun k => map (cons k) S) r).
Proof.
  intros r S Nr NS. induction r as [|a r IH]; [constructor|]. inversion Nr as [|? ? N1 N2]; subst. cbn [flat_map]. apply NoDup_app_intro; [|apply IH; assumption|].
  - apply FinFun.Injective_map_NoDup; [|assumption]. intros p q E. congruence.
  - intros v H1 H2. apply in_map_iff in H1. destruct H1 as (q & <- & _). apply in_flat_map in H2. destruct H2 as (b & Hb & H2). apply in_map_iff in H2. destruct H2 as (q' & E & _). congruence.
Qed.
Lemma cons_In : forall (r : list Z) (S : list (list Z)) v, In v (flat_map (fun k => map (cons k) S) r) <-> exists a w, v = a :: w /\ In a r /\ In w S.
Proof.
  intros r S v. rewrite in_flat_map. split.
  - intros (a & Ha & H). apply in_map_iff in H. destruct H as (w & <- & Hw). exists a, w. auto.
  - intros (a & w & -> & Ha & Hw). exists a. split; [assumption|]. apply in_map. assumption.
Qed.

Lemma strips_NoDup : forall lam mu, NoDup (strips lam mu).
Proof. induction lam as [|l lam IH]; intros [|m mu]; cbn [strips]; try (repeat constructor; intros []; fail). apply cons_NoDup; [apply NoDup_zrange|apply IH]. Qed.
Lemma mids_NoDup : forall kap mu prev, NoDup (mids prev kap mu).
Proof. induction kap as [|l lam IH]; intros [|m mu] prev; cbn [mids]; try (repeat constructor; intros []; fail). apply cons_NoDup; [apply NoDup_zrange|apply IH]. Qed.

Lemma strips_In : forall lam mu, length lam = length mu -> forall k,
  In k (strips lam mu) <-> length k = length mu /\ forall i, (i < length mu)%nat -> Z.max (row mu (S i)) (row lam i) <= row k i <= row mu i.
Proof.
  induction lam as [|l lam IH]; intros [|m mu] L k; try discriminate.
  - cbn [strips]. split.
    + intros [<-|[]]. split; [reflexivity|]. intros i Hi. cbn in Hi. lia.
    + intros [H _]. destruct k; [left; reflexivity|discriminate].
  - cbn [strips]. rewrite cons_In. split.
    + intros (a & w & -> & Ha & Hw). apply IH in Hw; [|cbn in L; lia]. destruct Hw as [W1 W2]. split; [cbn; lia|]. apply In_zrange in Ha. rewrite hd0_row in Ha.
      intros [|i] Hi; cbn [row nth] in *; [unfold row; cbn [nth]; unfold row in Ha; lia|]. cbn in Hi. apply (W2 i). lia.
    + intros [H1 H2]. destruct k as [|a w]; [discriminate|]. exists a, w. split; [reflexivity|]. split.
      * apply In_zrange. rewrite hd0_row. specialize (H2 0%nat ltac:(cbn; lia)). unfold row in *. cbn [nth] in H2. lia.
      * apply IH; [cbn in L; lia|]. split; [cbn in H1; lia|]. intros i Hi. apply (H2 (S i)). cbn. lia.
Qed.

Lemma mids_In : forall kap mu prev, length kap = length mu -> forall t,
  In t (mids prev kap mu) <-> length t = length mu /\ forall i, (i < length mu)%nat -> Z.max (row kap i) (row mu (S i)) <= row t i /\
    row t i <= match i with O => cap prev (row mu 0) | S j => Z.min (row mu i) (row kap j) end.
Proof.
  induction kap as [|k kap IH]; intros [|m mu] prev L t; try discriminate.
  - cbn [mids]. split.
    + intros [<-|[]]. split; [reflexivity|]. intros i Hi. cbn in Hi. lia.
    + intros [H _]. destruct t; [left; reflexivity|discriminate].
  - cbn [mids]. rewrite cons_In. split.
    + intros (a & w & -> & Ha & Hw). apply IH in Hw; [|cbn in L; lia]. destruct Hw as [W1 W2]. split; [cbn; lia|]. apply In_zrange in Ha. rewrite hd0_row in Ha.
      intros [|i] Hi; [unfold row in *; cbn [nth] in *; lia|]. cbn in Hi. specialize (W2 i ltac:(lia)). destruct i as [|i]; unfold row in *; cbn [nth cap] in *; exact W2.
    + intros [H1 H2]. destruct t as [|a w]; [discriminate|]. exists a, w. split; [reflexivity|]. split.
      * apply In_zrange. rewrite hd0_row. specialize (H2 0%nat ltac:(cbn; lia)). unfold row in *. cbn [nth] in H2. lia.
      * apply IH; [cbn in L; lia|]. split; [cbn in H1; lia|]. intros i Hi. specialize (H2 (S i) ltac:(cbn; lia)). destruct i as [|i]; exact H2.
Qed.

Fixpoint boxes (lam mu : list Z) : list (list Z) :=
  match lam, mu with
  | l :: lam', m :: mu' => flat_map (fun k => map (cons k) (boxes lam' mu')) (zrange l (m + 1))
  | _, _ => [[]]
  end.
Lemma boxes_NoDup : forall lam mu, NoDup (boxes lam mu).
Proof. induction lam as [|l lam IH]; intros [|m mu]; cbn [boxes]; try (repeat constructor; intros []; fail). apply cons_NoDup; [apply NoDup_zrange|apply IH]. Qed.
Lemma boxes_In : forall lam mu, length lam = length mu -> forall k,
  In k (boxes lam mu) <-> length k = length mu /\ forall i, (i < length mu)%nat -> row lam i <= row k i <= row mu i.
Proof.
  induction lam as [|l lam IH]; intros [|m mu] L k; try discriminate.
  - cbn [boxes]. split.
    + intros [<-|[]]. split; [reflexivity|]. intros i Hi. cbn in Hi. lia.
    + intros [H _]. destruct k; [left; reflexivity|discriminate].
  - cbn [boxes]. rewrite cons_In. split.
    + intros (a & w & -> & Ha & Hw). apply IH in Hw; [|cbn in L; lia]. destruct Hw as [W1 W2]. split; [cbn; lia|]. apply In_zrange in Ha.
      intros [|i] Hi; [unfold row; cbn [nth]; lia|]. cbn in Hi. apply (W2 i). lia.
    + intros [H1 H2]. destruct k as [|a w]; [discriminate|]. exists a, w. split; [reflexivity|]. split.
      * apply In_zrange. specialize (H2 0%nat ltac:(cbn; lia)). unfold row in *. cbn [nth] in H2. lia.
      * apply IH; [cbn in L; lia|]. split; [cbn in H1; lia|]. intros i Hi. apply (H2 (S i)). cbn. lia.
Qed.

Section Chains.
  Variable e : Z.
  Variable lam : list Z.
  Hypothesis lam_nonneg : Forall (fun l => 0 <= l) lam.

  (* chains of horizontal strips from lam to mu; the first variable belongs to the last strip *)
  Fixpoint chains (xs : list Z) (mu : list Z) : Z :=
    match xs with
    | [] => if zlist_eqb mu lam then 1 else 0
    | x :: xs' => zs (fun k => hw e x lam k mu * chains xs' k) (strips lam mu)
    end.

  Lemma Forall2_rows : forall k, length k = length lam -> (forall i, (i < length lam)%nat -> row lam i <= row k i) -> Forall2 (fun l k => 0 <= l <= k) lam k.
  Proof.
    clear - lam_nonneg. induction lam as [|l lm IH]; intros [|a k] L H; try discriminate; [constructor|]. inversion lam_nonneg as [|? ? N1 N2]; subst. constructor.
    - specialize (H 0%nat ltac:(cbn; lia)). unfold row in H. cbn [nth] in H. lia.
    - apply IH; [assumption|cbn in L; lia|]. intros i Hi. apply (H (S i)). cbn. lia.
  Qed.

  Lemma chains_two : forall x y xs mu, length mu = length lam ->
    chains (x :: y :: xs) mu = zs (fun k => chains xs k * two e x y None lam k mu) (boxes lam mu).
  Proof.
    intros x y xs mu L. cbn [chains].
    transitivity (zs (fun t => zs (fun k => hw e x lam t mu * (hw e y lam k t * chains xs k)) (strips lam t)) (strips lam mu)).
    { apply zs_ext. intros t _. rewrite <- zs_scale. reflexivity. }
    rewrite (zs_exchange _ _ (fun t k => hw e x lam t mu * (hw e y lam k t * chains xs k)) (strips lam mu) (strips lam) (boxes lam mu) (fun k => mids None k mu)).
    - apply zs_ext. intros k Hk. apply boxes_In in Hk; [|symmetry; assumption]. rewrite <- (two_spec e x y lam k mu None) by lia. rewrite <- zs_scale. apply zs_ext. intros t _. cbn [corner pw]. ring.
    - apply strips_NoDup.
    - intros t _. apply strips_NoDup.
    - apply boxes_NoDup.
    - intros k _. apply mids_NoDup.
    - intros t k. rewrite (strips_In lam mu (eq_sym L)), (boxes_In lam mu (eq_sym L)). split.
      + intros [[T1 T2] Hk]. apply strips_In in Hk; [|lia]. destruct Hk as [K1 K2]. rewrite T1 in K1, K2. split; [split; [assumption|]|].
        * intros i Hi. specialize (T2 i Hi). specialize (K2 i Hi). lia.
        * apply mids_In; [lia|]. split; [assumption|]. intros i Hi. pose proof (T2 i Hi) as A. pose proof (K2 i Hi) as B. split; [lia|].
          destruct i as [|i]; [cbn [cap]; lia|]. pose proof (K2 i ltac:(lia)). lia.
      + intros [[K1 K2] Ht]. apply mids_In in Ht; [|lia]. destruct Ht as [T1 T2]. split; [split; [assumption|]|].
        * intros i Hi. specialize (T2 i Hi). specialize (K2 i Hi). destruct i; cbn [cap] in *; lia.
        * apply strips_In; [lia|]. split; [lia|]. rewrite T1. intros i Hi. pose proof (T2 i Hi) as A. pose proof (K2 i Hi) as B.
          destruct (Nat.eq_dec (S i) (length mu)) as [E|E].
          -- replace (row t (S i)) with 0 by (unfold row; rewrite nth_overflow; [reflexivity|lia]).
             assert (0 <= row lam i). { rewrite Forall_forall in lam_nonneg. apply lam_nonneg. apply nth_In. lia. } lia.
          -- specialize (T2 (S i) ltac:(lia)). cbn in T2. lia.
  Qed.

  Theorem chains_perm : forall xs ys, Permutation xs ys -> forall mu, length mu = length lam -> chains xs mu = chains ys mu.
  Proof.
    induction 1 as [|x xs ys P IH|x y xs|xs ys zs0 P1 IH1 P2 IH2]; intros mu L.
    - reflexivity.
    - cbn [chains]. apply zs_ext. intros k Hk. apply strips_In in Hk; [|symmetry; assumption]. rewrite IH; [reflexivity|lia].
    - rewrite !chains_two by assumption. apply zs_ext. intros k Hk. f_equal. apply boxes_In in Hk; [|symmetry; assumption]. destruct Hk as [K1 K2].
      pose proof (two_sym e y x lam k mu None (eq_sym L) K1 I) as X. cbn [over corner pw] in X. rewrite !Z.pow_0_r, !Z.mul_1_l in X. apply X. apply Forall2_rows; [lia|]. intros i Hi. apply K2. lia.
    - rewrite IH1 by assumption. apply IH2. assumption.
  Qed.
End Chains.
