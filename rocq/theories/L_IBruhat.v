(* the Bruhat order on unsigned involutions, by rank functions *)
From Coq Require Import List ZArith Bool Lia.
From Verif Require Import PyBase M_Partitions M_Perm S_Perm L_Perm L_PermLen L_PermWord L_LevelsInst L_InvLen L_InvLen2 L_Atoms1 L_Atoms2 L_Atoms8 P_Levels.
Import ListNotations.
Local Open Scope Z_scope.

Definition rank (f : Z -> Z) (p q : Z) : Z := L_PermLen.cnt (fun x => q <=? f x) (zrange 1 (p + 1)).
Definition b2z (b : bool) : Z := if b then 1 else 0.
Lemma zrange_last : forall p, 0 <= p -> zrange 1 (p + 1 + 1) = zrange 1 (p + 1) ++ [p + 1].
Proof. intros p Hp. rewrite (zrange_app 1 (p + 1) (p + 1 + 1)) by lia. f_equal. rewrite zrange_cons by lia. rewrite zrange_nil by lia. reflexivity. Qed.
Lemma cnt_range_step : forall P p, 0 <= p -> L_PermLen.cnt P (zrange 1 (p + 1 + 1)) = L_PermLen.cnt P (zrange 1 (p + 1)) + b2z (P (p + 1)).
Proof. intros P p Hp. rewrite zrange_last by exact Hp. rewrite cnt_app, cnt_cons, L_PermLen.cnt_nil. unfold b2z. lia. Qed.
Lemma rank_step : forall f p q, 0 <= p -> rank f (p + 1) q = rank f p q + b2z (q <=? f (p + 1)).
Proof. intros f p q Hp. unfold rank. apply cnt_range_step. exact Hp. Qed.
Lemma rank_ext : forall f g p q, (forall x, 1 <= x <= p -> f x = g x) -> rank f p q = rank g p q.
Proof. intros f g p q H. unfold rank. apply cnt_ext. intros x Hx. apply In_zrange in Hx. rewrite H by lia. reflexivity. Qed.

Definition RU (i : Z) (R : Z -> Z -> Z) (p q : Z) : Z := if p =? i then Z.min (R (i - 1) q + 1) (R (i + 1) q) else R p q.
Definition RD (i : Z) (R : Z -> Z -> Z) (p q : Z) : Z := if p =? i then Z.max (R (i - 1) q) (R (i + 1) q - 1) else R p q.
Definition LU (i : Z) (R : Z -> Z -> Z) (p q : Z) : Z := if q =? i + 1 then Z.min (R p i) (R p (i + 2) + 1) else R p q.
Definition LD (i : Z) (R : Z -> Z -> Z) (p q : Z) : Z := if q =? i + 1 then Z.max (R p i - 1) (R p (i + 2)) else R p q.
Definition rle (R T : Z -> Z -> Z) : Prop := forall p q, 0 <= p -> R p q <= T p q.
Lemma RU_mono : forall i R T, 1 <= i -> rle R T -> rle (RU i R) (RU i T).
Proof. intros i R T Hi H p q Hp. unfold RU. destruct (p =? i); [|apply H; exact Hp]. pose proof (H (i - 1) q ltac:(lia)). pose proof (H (i + 1) q ltac:(lia)). lia. Qed.
Lemma RD_mono : forall i R T, 1 <= i -> rle R T -> rle (RD i R) (RD i T).
Proof. intros i R T Hi H p q Hp. unfold RD. destruct (p =? i); [|apply H; exact Hp]. pose proof (H (i - 1) q ltac:(lia)). pose proof (H (i + 1) q ltac:(lia)). lia. Qed.
Lemma LU_mono : forall i R T, rle R T -> rle (LU i R) (LU i T).
Proof. intros i R T H p q Hp. unfold LU. destruct (q =? i + 1); [|apply H; exact Hp]. pose proof (H p i Hp). pose proof (H p (i + 2) Hp). lia. Qed.
Lemma LD_mono : forall i R T, rle R T -> rle (LD i R) (LD i T).
Proof. intros i R T H p q Hp. unfold LD. destruct (q =? i + 1); [|apply H; exact Hp]. pose proof (H p i Hp). pose proof (H p (i + 2) Hp). lia. Qed.

(* swapping two positions *)
Lemma rank_right : forall f i p q, 1 <= i -> 0 <= p -> rank (fun x => f (sw i x)) p q = if p =? i then rank f (i - 1) q + b2z (q <=? f (i + 1)) else rank f p q.
Proof.
  intros f i p q Hi Hp. assert (Lo : forall p, p < i -> rank (fun x => f (sw i x)) p q = rank f p q) by (intros p' Hp'; apply rank_ext; intros x Hx; rewrite sw_out by lia; reflexivity).
  assert (Mid : rank (fun x => f (sw i x)) i q = rank f (i - 1) q + b2z (q <=? f (i + 1))).
  { pose proof (rank_step (fun x => f (sw i x)) (i - 1) q ltac:(lia)) as X. replace (i - 1 + 1) with i in X by lia. rewrite (Lo (i - 1)) in X by lia. rewrite sw_i in X. exact X. }
  assert (Hi1 : forall k, 0 <= k -> rank (fun x => f (sw i x)) (i + 1 + k) q = rank f (i + 1 + k) q).
  { apply natlike_ind.
    - replace (i + 1 + 0) with (i + 1) by lia. rewrite !rank_step by lia. rewrite Mid, sw_i1. pose proof (rank_step f (i - 1) q ltac:(lia)) as X. replace (i - 1 + 1) with i in X by lia. lia.
    - intros k Hk IH. unfold Z.succ. replace (i + 1 + (k + 1)) with (i + 1 + k + 1) by lia. rewrite !rank_step by lia. rewrite IH. rewrite sw_out by lia. reflexivity. }
  destruct (Z.eqb_spec p i) as [->|N]; [exact Mid|]. destruct (Z_lt_ge_dec p i) as [L|L]; [apply Lo; exact L|]. replace p with (i + 1 + (p - i - 1)) by lia. apply Hi1. lia.
Qed.
Lemma rank_at : forall f i q, 1 <= i -> rank f i q = rank f (i - 1) q + b2z (q <=? f i) /\ rank f (i + 1) q = rank f (i - 1) q + b2z (q <=? f i) + b2z (q <=? f (i + 1)).
Proof.
  intros f i q Hi. assert (E : rank f i q = rank f (i - 1) q + b2z (q <=? f i)). { pose proof (rank_step f (i - 1) q ltac:(lia)) as X. replace (i - 1 + 1) with i in X by lia. exact X. }
  split; [exact E|]. rewrite rank_step by lia. lia.
Qed.
Lemma rank_rup : forall f i p q, 1 <= i -> 0 <= p -> f i < f (i + 1) -> rank (fun x => f (sw i x)) p q = RU i (rank f) p q.
Proof.
  intros f i p q Hi Hp L. rewrite rank_right by assumption. unfold RU. destruct (p =? i); [|reflexivity]. destruct (rank_at f i q Hi) as [_ ->]. unfold b2z. destruct (Z.leb_spec q (f i)); destruct (Z.leb_spec q (f (i + 1))); lia.
Qed.
Lemma rank_rdown : forall f i p q, 1 <= i -> 0 <= p -> f (i + 1) < f i -> rank (fun x => f (sw i x)) p q = RD i (rank f) p q.
Proof.
  intros f i p q Hi Hp L. rewrite rank_right by assumption. unfold RD. destruct (p =? i); [|reflexivity]. destruct (rank_at f i q Hi) as [_ ->]. unfold b2z. destruct (Z.leb_spec q (f i)); destruct (Z.leb_spec q (f (i + 1))); lia.
Qed.
Lemma rank_same_up : forall f i p q, 1 <= i -> 0 <= p -> f (i + 1) < f i -> rank f p q = RU i (rank f) p q.
Proof.
  intros f i p q Hi Hp L. unfold RU. destruct (Z.eqb_spec p i) as [->|]; [|reflexivity]. destruct (rank_at f i q Hi) as [-> ->]. unfold b2z. destruct (Z.leb_spec q (f i)); destruct (Z.leb_spec q (f (i + 1))); lia.
Qed.
Lemma rank_same_down : forall f i p q, 1 <= i -> 0 <= p -> f i < f (i + 1) -> rank f p q = RD i (rank f) p q.
Proof.
  intros f i p q Hi Hp L. unfold RD. destruct (Z.eqb_spec p i) as [->|]; [|reflexivity]. destruct (rank_at f i q Hi) as [-> ->]. unfold b2z. destruct (Z.leb_spec q (f i)); destruct (Z.leb_spec q (f (i + 1))); lia.
Qed.
(* swapping two values *)
Lemma cnt_point : forall f a v p, 0 <= p -> (forall x y, 1 <= x -> 1 <= y -> f x = f y -> x = y) -> 1 <= a -> f a = v -> L_PermLen.cnt (fun x => f x =? v) (zrange 1 (p + 1)) = b2z (a <=? p).
Proof.
  intros f a v p Hp I Ha E. revert p Hp. apply natlike_ind.
  - rewrite zrange_nil by lia. rewrite L_PermLen.cnt_nil. unfold b2z. destruct (Z.leb_spec a 0); lia.
  - intros p Hp IH. unfold Z.succ. rewrite cnt_range_step by exact Hp. rewrite IH. unfold b2z. destruct (Z.eqb_spec (f (p + 1)) v) as [Q|Q].
    + assert (p + 1 = a) by (apply I; [lia|exact Ha|congruence]). destruct (Z.leb_spec a p); destruct (Z.leb_spec a (p + 1)); lia.
    + assert (p + 1 <> a) by (intro; subst a; contradiction). destruct (Z.leb_spec a p); destruct (Z.leb_spec a (p + 1)); lia.
Qed.
Lemma cnt_split3 : forall (P Q R : Z -> bool) l, (forall x, In x l -> b2z (P x) = b2z (Q x) + b2z (R x)) -> L_PermLen.cnt P l = L_PermLen.cnt Q l + L_PermLen.cnt R l.
Proof.
  intros P Q R l. induction l as [|x l IH]; intro H; [rewrite !L_PermLen.cnt_nil; lia|]. rewrite !cnt_cons. rewrite IH by (intros; apply H; right; assumption). pose proof (H x (or_introl eq_refl)) as X. unfold b2z in X. lia.
Qed.
Lemma rank_value : forall f p v a, 0 <= p -> (forall x y, 1 <= x -> 1 <= y -> f x = f y -> x = y) -> 1 <= a -> f a = v -> rank f p v = rank f p (v + 1) + b2z (a <=? p).
Proof.
  intros f p v a Hp I Ha E. rewrite <- (cnt_point f a v p Hp I Ha E). unfold rank. apply cnt_split3. intros x _. unfold b2z. destruct (Z.leb_spec v (f x)); destruct (Z.leb_spec (v + 1) (f x)); destruct (Z.eqb_spec (f x) v); lia.
Qed.
Lemma rank_left : forall f i p q a b, 0 <= p -> (forall x y, 1 <= x -> 1 <= y -> f x = f y -> x = y) -> 1 <= a -> f a = i -> 1 <= b -> f b = i + 1 ->
  rank (fun x => sw i (f x)) p q = if q =? i + 1 then rank f p (i + 2) + b2z (a <=? p) else rank f p q.
Proof.
  intros f i p q a b Hp I Ha Ea Hb Eb. destruct (Z.eqb_spec q (i + 1)) as [->|N].
  - rewrite <- (cnt_point f a i p Hp I Ha Ea). unfold rank. apply cnt_split3. intros x _. unfold b2z, sw. destruct (Z.eqb_spec (f x) i) as [Q|Q]; [destruct (Z.leb_spec (i + 1) (i + 1)); destruct (Z.leb_spec (i + 2) (f x)); lia|].
    destruct (Z.eqb_spec (f x) (i + 1)) as [Q'|Q']; [destruct (Z.leb_spec (i + 1) i); destruct (Z.leb_spec (i + 2) (f x)); lia|]. destruct (Z.leb_spec (i + 1) (f x)); destruct (Z.leb_spec (i + 2) (f x)); lia.
  - unfold rank. apply cnt_ext. intros x _. unfold sw. destruct (Z.eqb_spec (f x) i) as [Q|Q]; [destruct (Z.leb_spec q (i + 1)); destruct (Z.leb_spec q (f x)); lia|]. destruct (Z.eqb_spec (f x) (i + 1)) as [Q'|Q']; [destruct (Z.leb_spec q i); destruct (Z.leb_spec q (f x)); lia|]. reflexivity.
Qed.
Section Left.
Variable f : Z -> Z.
Variables i a b : Z.
Hypothesis I : forall x y, 1 <= x -> 1 <= y -> f x = f y -> x = y.
Hypothesis Ha : 1 <= a.
Hypothesis Ea : f a = i.
Hypothesis Hb : 1 <= b.
Hypothesis Eb : f b = i + 1.
Lemma rank_vals : forall p, 0 <= p -> rank f p i = rank f p (i + 2) + b2z (a <=? p) + b2z (b <=? p) /\ rank f p (i + 1) = rank f p (i + 2) + b2z (b <=? p).
Proof. intros p Hp. rewrite (rank_value f p i a Hp I Ha Ea), (rank_value f p (i + 1) b Hp I Hb Eb). replace (i + 1 + 1) with (i + 2) by lia. lia. Qed.
Lemma rank_lup : forall p q, 0 <= p -> a < b -> rank (fun x => sw i (f x)) p q = LU i (rank f) p q.
Proof.
  intros p q Hp L. rewrite (rank_left f i p q a b) by assumption. unfold LU. destruct (q =? i + 1); [|reflexivity]. destruct (rank_vals p Hp) as [-> _]. unfold b2z. destruct (Z.leb_spec a p); destruct (Z.leb_spec b p); lia.
Qed.
Lemma rank_ldown : forall p q, 0 <= p -> b < a -> rank (fun x => sw i (f x)) p q = LD i (rank f) p q.
Proof.
  intros p q Hp L. rewrite (rank_left f i p q a b) by assumption. unfold LD. destruct (q =? i + 1); [|reflexivity]. destruct (rank_vals p Hp) as [-> _]. unfold b2z. destruct (Z.leb_spec a p); destruct (Z.leb_spec b p); lia.
Qed.
Lemma rank_lsame_up : forall p q, 0 <= p -> b < a -> rank f p q = LU i (rank f) p q.
Proof.
  intros p q Hp L. unfold LU. destruct (Z.eqb_spec q (i + 1)) as [->|]; [|reflexivity]. destruct (rank_vals p Hp) as [-> ->]. unfold b2z. destruct (Z.leb_spec a p); destruct (Z.leb_spec b p); lia.
Qed.
Lemma rank_lsame_down : forall p q, 0 <= p -> a < b -> rank f p q = LD i (rank f) p q.
Proof.
  intros p q Hp L. unfold LD. destruct (Z.eqb_spec q (i + 1)) as [->|]; [|reflexivity]. destruct (rank_vals p Hp) as [-> ->]. unfold b2z. destruct (Z.leb_spec a p); destruct (Z.leb_spec b p); lia.
Qed.
End Left.

Definition rk (z : list Z) : Z -> Z -> Z := rank (pcall z).
Definition ible (u z : list Z) : Prop := rle (rk u) (rk z).
Definition upos (z : list Z) : Prop := invol z /\ unsig z.
Lemma LU_ext : forall i R T p q, 0 <= p -> (forall p q, 0 <= p -> R p q = T p q) -> LU i R p q = LU i T p q.
Proof. intros i R T p q Hp H. unfold LU. rewrite !H by exact Hp. reflexivity. Qed.
Lemma LD_ext : forall i R T p q, 0 <= p -> (forall p q, 0 <= p -> R p q = T p q) -> LD i R p q = LD i T p q.
Proof. intros i R T p q Hp H. unfold LD. rewrite !H by exact Hp. reflexivity. Qed.
Lemma sw_inj : forall i x y, sw i x = sw i y -> x = y.
Proof. intros i x y E. rewrite <- (sw_invol i x), E. apply sw_invol. Qed.
Lemma cj_ranks : forall z i, upos z -> 1 <= i -> ~ descent (pcall z) i ->
  (forall p q, 0 <= p -> rk (cj z i) p q = LU i (RU i (rk z)) p q) /\ (forall p q, 0 <= p -> rk z p q = LD i (RD i (rk (cj z i))) p q).
Proof.
  intros z i [Hz U] Hi D. destruct (step_cases z i Hz U Hi D) as (Hy & Uy & Dy & Lt & Cs). set (y := cj z i) in *. unfold descent in Dy. replace (i =? 0) with false in Dy by lia.
  assert (Iz : forall x x', 1 <= x -> 1 <= x' -> pcall z (sw i x) = pcall z (sw i x') -> x = x') by (intros x x' _ _ E; apply pcall_inj in E; [exact (sw_inj _ _ _ E)|apply Hz]).
  assert (Iy : forall x x', 1 <= x -> 1 <= x' -> pcall y (sw i x) = pcall y (sw i x') -> x = x') by (intros x x' _ _ E; apply pcall_inj in E; [exact (sw_inj _ _ _ E)|apply Hy]).
  destruct Hz as [Cz Vz], Hy as [Cy Vy].
  assert (Pz : 1 <= pcall z i /\ 1 <= pcall z (i + 1)) by (split; apply U; lia). assert (Py : 1 <= pcall y i /\ 1 <= pcall y (i + 1)) by (split; apply Uy; lia).
  set (f := fun x => pcall z (sw i x)). set (g := fun x => pcall y (sw i x)).
  assert (fa : f (sw i (pcall z i)) = i) by (unfold f; rewrite sw_invol; apply Vz). assert (fb : f (sw i (pcall z (i + 1))) = i + 1) by (unfold f; rewrite sw_invol; apply Vz).
  assert (ga : g (sw i (pcall y i)) = i) by (unfold g; rewrite sw_invol; apply Vy). assert (gb : g (sw i (pcall y (i + 1))) = i + 1) by (unfold g; rewrite sw_invol; apply Vy).
  destruct Cs as [(F1 & F2 & Y1 & E1 & E2)|(NF & NY & E1 & E2)].
  - assert (Y2 : pcall y (i + 1) = i) by (rewrite E1 by lia; rewrite sw_i1; exact F1). split; intros p q Hp.
    + transitivity (rank f p q); [apply rank_ext; intros x Hx; apply E1; lia|]. rewrite (rank_lsame_up f i (sw i (pcall z i)) (sw i (pcall z (i + 1)))); try assumption; try (apply sw_pos; lia); [|rewrite F1, F2, sw_i, sw_i1; lia].
      apply LU_ext; [exact Hp|]. intros. apply rank_rup; assumption.
    + transitivity (rank g p q); [apply rank_ext; intros x Hx; apply E2; lia|]. rewrite (rank_lsame_down g i (sw i (pcall y i)) (sw i (pcall y (i + 1)))); try assumption; try (apply sw_pos; lia); [|rewrite Y1, Y2, sw_i, sw_i1; lia].
      apply LD_ext; [exact Hp|]. intros. apply rank_rdown; assumption.
  - assert (W1 : pcall y i = sw i (pcall z (i + 1))) by (rewrite E1 by lia; rewrite sw_i; reflexivity). assert (W2 : pcall y (i + 1) = sw i (pcall z i)) by (rewrite E1 by lia; rewrite sw_i1; reflexivity). split; intros p q Hp.
    + transitivity (rank (fun x => sw i (f x)) p q); [apply rank_ext; intros x Hx; apply E1; lia|]. rewrite (rank_lup f i (sw i (pcall z i)) (sw i (pcall z (i + 1)))); try assumption; try (apply sw_pos; lia).
      apply LU_ext; [exact Hp|]. intros. apply rank_rup; assumption. lia.
    + transitivity (rank (fun x => sw i (g x)) p q); [apply rank_ext; intros x Hx; apply E2; lia|]. rewrite (rank_ldown g i (sw i (pcall y i)) (sw i (pcall y (i + 1)))); try assumption; try (apply sw_pos; lia); [|rewrite W1, W2, !sw_invol; lia].
      apply LD_ext; [exact Hp|]. intros. apply rank_rdown; assumption.
Qed.

Lemma tw_icut : forall w i, tw w i = icut w i.
Proof.
  intros w i. unfold tw, icut. destruct (peq (mulp (sp i) w) (mulp w (sp i))) eqn:E1; destruct (peq (mulp w (sp i)) (mulp (sp i) w)) eqn:E2; try reflexivity.
  - apply zlist_eqb_eq in E1. rewrite E1 in E2. assert (peq (mulp w (sp i)) (mulp w (sp i)) = true) by (apply zlist_eqb_eq; reflexivity). congruence.
  - apply zlist_eqb_eq in E2. rewrite E2 in E1. assert (peq (mulp (sp i) w) (mulp (sp i) w) = true) by (apply zlist_eqb_eq; reflexivity). congruence.
Qed.
Lemma desc_dec : forall f i, descent f i \/ ~ descent f i.
Proof. intros f i. destruct (descb f i) eqn:E; [left; apply descb_spec; exact E|right; apply descb_false; exact E]. Qed.
Lemma tw_up : forall z i, upos z -> 1 <= i -> ~ descent (pcall z) i -> upos (tw z i) /\ descent (pcall (tw z i)) i /\ il2 (tw z i) = il2 z + 2 /\ tw z i = cj z i.
Proof.
  intros z i [Hz U] Hi D. pose proof (tw_cj z i Hz ltac:(lia) D) as E. destruct (step_cases z i Hz U Hi D) as (Hy & Uy & Dy & _). rewrite E. repeat split; try assumption; try apply Hy. apply cj_ascent; [exact Hz|lia|exact D].
Qed.
Lemma tw_down : forall z i, upos z -> 1 <= i -> descent (pcall z) i -> upos (tw z i) /\ ~ descent (pcall (tw z i)) i /\ il2 (tw z i) = il2 z - 2 /\ cj (tw z i) i = z.
Proof.
  intros z i [Hz U] Hi D. rewrite tw_icut. destruct (icut_ok z i Hz ltac:(lia) D) as (V & A & E & _). split; [split; [exact V|apply icut_unsig; assumption]|]. split; [exact A|]. split; [|exact E].
  pose proof (cj_ascent (icut z i) i V ltac:(lia) A) as X. rewrite E in X. lia.
Qed.
Lemma tw_upos : forall z i, upos z -> 1 <= i -> upos (tw z i).
Proof. intros z i Hz Hi. destruct (desc_dec (pcall z) i) as [D|D]; [apply tw_down; assumption|apply tw_up; assumption]. Qed.
Lemma tw_tw : forall z i, upos z -> 1 <= i -> tw (tw z i) i = z.
Proof.
  intros z i Hz Hi. destruct (desc_dec (pcall z) i) as [D|D].
  - destruct (tw_down z i Hz Hi D) as (H1 & H2 & _ & E). rewrite (tw_cj (tw z i) i) by (first [apply H1|lia|exact H2]). exact E.
  - destruct (tw_up z i Hz Hi D) as (H1 & H2 & _ & E). destruct (tw_down (tw z i) i H1 Hi H2) as (H3 & H4 & _ & E'). apply (cj_unique _ _ i); try apply H3; try apply Hz; try assumption. rewrite E'. exact E.
Qed.
Lemma tw_inj : forall u z i, upos u -> upos z -> 1 <= i -> tw u i = tw z i -> u = z.
Proof. intros u z i Hu Hz Hi E. rewrite <- (tw_tw u i Hu Hi), <- (tw_tw z i Hz Hi), E. reflexivity. Qed.

(* the order *)
Lemma ible_refl : forall z, ible z z. Proof. intros z p q _. lia. Qed.
Lemma ible_trans : forall u z w, ible u z -> ible z w -> ible u w.
Proof. intros u z w A B p q Hp. pose proof (A p q Hp). pose proof (B p q Hp). lia. Qed.
Lemma ible_up : forall u z i, upos u -> upos z -> 1 <= i -> ~ descent (pcall u) i -> ~ descent (pcall z) i -> ible u z -> ible (tw u i) (tw z i).
Proof.
  intros u z i Hu Hz Hi Du Dz L. destruct (tw_up u i Hu Hi Du) as (_ & _ & _ & ->). destruct (tw_up z i Hz Hi Dz) as (_ & _ & _ & ->).
  intros p q Hp. rewrite (proj1 (cj_ranks u i Hu Hi Du)), (proj1 (cj_ranks z i Hz Hi Dz)) by exact Hp. apply LU_mono; [|exact Hp]. apply RU_mono; assumption.
Qed.
Lemma down_rank : forall z i, upos z -> 1 <= i -> descent (pcall z) i -> forall p q, 0 <= p -> rk (tw z i) p q = LD i (RD i (rk z)) p q.
Proof.
  intros z i Hz Hi D p q Hp. destruct (tw_down z i Hz Hi D) as (H1 & H2 & _ & E). rewrite (proj2 (cj_ranks (tw z i) i H1 Hi H2)) by exact Hp. rewrite E. reflexivity.
Qed.
Lemma ible_down : forall u z i, upos u -> upos z -> 1 <= i -> descent (pcall u) i -> descent (pcall z) i -> ible u z -> ible (tw u i) (tw z i).
Proof.
  intros u z i Hu Hz Hi Du Dz L p q Hp. rewrite (down_rank u), (down_rank z) by assumption. apply LD_mono; [|exact Hp]. apply RD_mono; assumption.
Qed.
Lemma ascent_lt : forall z i, upos z -> 1 <= i -> ~ descent (pcall z) i -> pcall z i < pcall z (i + 1).
Proof. intros z i [Hz U] Hi D. apply (step_cases z i Hz U Hi D). Qed.
Lemma ascent_rank : forall z i, upos z -> 1 <= i -> ~ descent (pcall z) i -> forall p q, 0 <= p -> rk z p q = LD i (RD i (rk z)) p q.
Proof.
  intros z i Hz Hi D p q Hp. pose proof (ascent_lt z i Hz Hi D) as L. destruct Hz as [[Cz Vz] U].
  transitivity (LD i (rk z) p q); [|apply LD_ext; [exact Hp|]; intros; apply rank_same_down; assumption].
  apply (rank_lsame_down (pcall z) i (pcall z i) (pcall z (i + 1))); try assumption; try (apply U; lia); try apply Vz. intros x y _ _ E. apply pcall_inj in E; [exact E|apply Cz].
Qed.
Lemma ible_lift : forall u z i, upos u -> upos z -> 1 <= i -> ~ descent (pcall u) i -> descent (pcall z) i -> ible u z -> ible u (tw z i).
Proof.
  intros u z i Hu Hz Hi Du Dz L p q Hp. rewrite (ascent_rank u i), (down_rank z) by assumption. apply LD_mono; [|exact Hp]. apply RD_mono; assumption.
Qed.
Lemma RU_ge : forall f i p q, 1 <= i -> rank f p q <= RU i (rank f) p q.
Proof. intros f i p q Hi. unfold RU. destruct (Z.eqb_spec p i) as [->|]; [|lia]. destruct (rank_at f i q Hi) as [-> ->]. unfold b2z. destruct (q <=? f i); destruct (q <=? f (i + 1)); lia. Qed.
Lemma ible_step : forall z i, upos z -> 1 <= i -> ~ descent (pcall z) i -> ible z (tw z i).
Proof.
  intros z i Hz Hi D p q Hp. destruct (tw_up z i Hz Hi D) as (_ & _ & _ & ->). rewrite (proj1 (cj_ranks z i Hz Hi D)) by exact Hp. pose proof (ascent_lt z i Hz Hi D) as L. destruct Hz as [[Cz Vz] U].
  assert (P1 : 1 <= pcall z i) by (apply U; lia). assert (P2 : 1 <= pcall z (i + 1)) by (apply U; lia).
  assert (Iz : forall x x', 1 <= x -> 1 <= x' -> pcall z (sw i x) = pcall z (sw i x') -> x = x') by (intros x x' _ _ E; apply pcall_inj in E; [exact (sw_inj _ _ _ E)|apply Cz]).
  set (f := fun x => pcall z (sw i x)). transitivity (LU i (rank f) p q); [|apply Z.eq_le_incl, LU_ext; [exact Hp|]; intros; apply rank_rup; assumption].
  transitivity (rank f p q); [transitivity (RU i (rk z) p q); [apply RU_ge; exact Hi|]; apply Z.eq_le_incl; symmetry; apply rank_rup; assumption|].
  unfold LU. destruct (Z.eqb_spec q (i + 1)) as [->|]; [|lia].
  destruct (rank_vals f i (sw i (pcall z i)) (sw i (pcall z (i + 1))) Iz (sw_pos _ _ Hi P1) ltac:(unfold f; rewrite sw_invol; apply Vz) (sw_pos _ _ Hi P2) ltac:(unfold f; rewrite sw_invol; apply Vz) p Hp) as [-> ->].
  unfold b2z. destruct (sw i (pcall z i) <=? p); destruct (sw i (pcall z (i + 1)) <=? p); lia.
Qed.
Lemma upos_nil : upos []. Proof. split; [apply invol_nil|apply unsig_nil]. Qed.
Lemma upos_descent : forall z, upos z -> z <> [] -> exists i, 1 <= i /\ descent (pcall z) i.
Proof.
  intros z [Hz U] N. destruct (find_descent z (proj1 Hz) N) as (i & Hi & D). exists i. split; [|exact D]. destruct (Z.eq_dec i 0) as [->|]; [exfalso|lia]. unfold descent in D. cbn in D. pose proof (U 1 ltac:(lia)). pose proof (pcall_odd z 1) as O. change (- (1)) with (-1) in O. lia.
Qed.
Lemma rank_pos : forall f p q x, 1 <= x <= p -> q <= f x -> 1 <= rank f p q.
Proof.
  intros f p q x Hx L. unfold rank. assert (I : In x (zrange 1 (p + 1))) by (apply In_zrange; lia). apply in_split in I. destruct I as (a & b & ->). rewrite cnt_app, cnt_cons. replace (q <=? f x) with true by lia.
  pose proof (L_PermLen.cnt_nonneg (fun x => q <=? f x) a). pose proof (L_PermLen.cnt_nonneg (fun x => q <=? f x) b). lia.
Qed.
Lemma ible_nil : forall u, upos u -> ible u [] -> u = [].
Proof.
  intros u [Hu U] L. assert (K : forall p, 1 <= p -> pcall u p <= p).
  { intros p Hp. destruct (Z_le_gt_dec (pcall u p) p) as [?|G]; [assumption|exfalso]. pose proof (rank_pos (pcall u) p (p + 1) p ltac:(lia) ltac:(lia)) as A. pose proof (L p (p + 1) ltac:(lia)) as B. unfold rk in B.
    assert (C : rank (pcall []) p (p + 1) = 0); [|lia]. unfold rank. rewrite <- (L_PermLen.cnt_nil (fun _ => false)). transitivity (L_PermLen.cnt (fun _ => false) (zrange 1 (p + 1))).
    - apply cnt_ext. intros x Hx. apply In_zrange in Hx. rewrite pcall_nil. lia.
    - generalize (zrange 1 (p + 1)). intro l. induction l as [|x l IH]; [reflexivity|]. rewrite cnt_cons, IH. reflexivity. }
  apply unsig_ext; [apply Hu|apply nil_canonical|]. intros x Hx. rewrite pcall_nil. pose proof (K x Hx). pose proof (U x Hx). pose proof (K (pcall u x) ltac:(assumption)) as Q. destruct Hu as [_ V]. rewrite V in Q. lia.
Qed.
Lemma ible_eq_n : forall n u z, (Z.to_nat (il2 z) <= n)%nat -> upos u -> upos z -> ible u z -> il2 z <= il2 u -> u = z.
Proof.
  induction n as [n IH] using lt_wf_ind. intros u z Hn Hu Hz L E. destruct z as [|z0 z'] eqn:Q; [apply ible_nil; assumption|]. rewrite <- Q in *.
  destruct (upos_descent z Hz ltac:(rewrite Q; discriminate)) as (i & Hi & D). clear Q z0 z'. destruct (tw_down z i Hz Hi D) as (Hz' & _ & E1 & _). pose proof (il2_nonneg (tw z i)) as NN.
  destruct (desc_dec (pcall u) i) as [Du|Du].
  - destruct (tw_down u i Hu Hi Du) as (Hu' & _ & E2 & _). apply (tw_inj u z i Hu Hz Hi). apply (IH (Z.to_nat (il2 (tw z i))) ltac:(lia)); try assumption; try lia. apply ible_down; assumption.
  - exfalso. assert (X : u = tw z i); [|rewrite X in E; lia]. apply (IH (Z.to_nat (il2 (tw z i))) ltac:(lia)); try assumption; try lia. apply ible_lift; assumption.
Qed.
Lemma ible_eq : forall u z, upos u -> upos z -> ible u z -> il2 z <= il2 u -> u = z.
Proof. intros. eapply ible_eq_n; eauto. Qed.
