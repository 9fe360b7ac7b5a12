(* The words generated along a rim are the fillings. *)
From Coq Require Import List ZArith Lia Bool Permutation Sorted.
From Verif Require Import PyBase L_PartEnum M_Tableaux L_Tableaux M_Rims L_Rims2 M_KOG S_KOG L_KOG1 L_KOG2 L_KOG3.
Import ListNotations.
Local Open Scope Z_scope.

Definition idz (v : Z) : Z := v.
Definition low1 (p : nat) (x : box) : bool := (1 <? p)%nat.
Definition gen1 := gen idz Z.succ 1 low1.
Definition sh2 (v : Z) : Z := if 0 <? v then v + 1 else v - 1.
Definition low2 (p : nat) (x : box) : bool := negb (fst x =? snd x).
Definition gen2 := gen mark_rank sh2 (-1) low2.

Fixpoint wok (r : Z -> Z) (P : box -> Z -> list Z -> Prop) (R : list box) (w : list Z) : Prop :=
  match R, w with
  | [], [] => True
  | x :: R', v :: w' => wok r P R' w' /\ P x v w' /\ okw r x R' w = true
  | _, _ => False
  end.
Lemma wok_length : forall r P R w, wok r P R w -> length w = length R.
Proof. intros r P. induction R as [|x R IH]; intros [|v w] H; cbn [wok] in H; try tauto. cbn [length]. f_equal. apply IH. apply H. Qed.
Lemma okw_shift : forall r s x R w, (forall u v, r (s u) < r (s v) <-> r u < r v) -> okw r x R (map s w) = okw r x R w.
Proof.
  intros r s x [|y R] [|v [|u w]] H; try reflexivity. cbn [map okw]. assert (E : forall a b, (r (s a) <? r (s b)) = (r a <? r b)) by (intros a b; apply eq_true_iff_eq; rewrite !Z.ltb_lt; apply H). rewrite !E. reflexivity.
Qed.
Lemma wok_shift : forall r P s, (forall u v, r (s u) < r (s v) <-> r u < r v) -> (forall x v w, P x (s v) (map s w) <-> P x v w) -> forall R w, wok r P R (map s w) <-> wok r P R w.
Proof.
  intros r P s Hr HP. induction R as [|x R IH]; intros [|v w]; cbn [wok map]; try tauto. rewrite IH, HP. change (s v :: map s w) with (map s (v :: w)). rewrite okw_shift by exact Hr. tauto.
Qed.

Definition P1 (x : box) (v : Z) (w : list Z) : Prop := (forall u, In u w -> u <= v) \/ (forall u, In u w -> v <= u).
Definition onto1 (p : nat) (w : list Z) : Prop := forall v, In v w <-> 1 <= v <= Z.of_nat p.
Lemma map_succ_pred : forall w, map Z.succ (map Z.pred w) = w.
Proof. intro w. rewrite map_map. rewrite <- (map_id w) at 2. apply map_ext. intro. lia. Qed.
Lemma wok1_shift : forall R w, wok idz P1 R (map Z.succ w) <-> wok idz P1 R w.
Proof.
  apply wok_shift; [unfold idz; lia|]. intros x v w. unfold P1. split; intros [H|H]; [left|right|left|right]; intros u Hu.
  - specialize (H (Z.succ u) (in_map Z.succ w u Hu)). lia.
  - specialize (H (Z.succ u) (in_map Z.succ w u Hu)). lia.
  - apply in_map_iff in Hu. destruct Hu as (a & <- & Hu). specialize (H a Hu). lia.
  - apply in_map_iff in Hu. destruct Hu as (a & <- & Hu). specialize (H a Hu). lia.
Qed.

Theorem gen1_ok : forall R p w, In w (gen1 R p) <-> wok idz P1 R w /\ onto1 p w.
Proof.
  unfold gen1. induction R as [|x R IH]; intros p w.
  - destruct p as [|q]; cbn [gen In].
    + split; [intros [<-|[]]; split; [exact I|]; intro v; cbn [In]; lia|]. intros [H _]. destruct w; [left; reflexivity|destruct H].
    + split; [intros []|]. intros [H O]. destruct w; [|destruct H]. specialize (O 1). cbn [In] in O. lia.
  - destruct p as [|q].
    + cbn [gen In]. split; [intros []|]. intros [H O]. destruct w as [|v w]; [destruct H|]. specialize (O v). cbn [In] in O. lia.
    + cbn [gen]. rewrite in_app_iff. split.
      * intros [H|H].
        -- apply filter_In in H. destruct H as [H K]. apply in_map_iff in H. destruct H as (w' & <- & H). cbn [wok]. rewrite K. apply in_app_iff in H. destruct H as [H|H]; apply IH in H; destruct H as [W O]; (split; [split; [exact W|split; [left; intros u Hu; apply O in Hu; lia|reflexivity]]|]); intro v; cbn [In]; rewrite (O v); lia.
        -- unfold low1 in H. destruct (Nat.ltb_spec 1 (S q)) as [L|L]; [|destruct H]. apply filter_In in H. destruct H as [H K]. apply in_map_iff in H. destruct H as (w' & <- & H). cbn [wok]. rewrite K. apply in_app_iff in H. destruct H as [H|H].
           ++ apply IH in H. destruct H as [W O]. split; [split; [exact W|split; [right; intros u Hu; apply O in Hu; lia|reflexivity]]|]. intro v. cbn [In]. rewrite (O v). lia.
           ++ apply in_map_iff in H. destruct H as (w0 & <- & H). apply IH in H. destruct H as [W O]. assert (O' : forall v, In v (map Z.succ w0) <-> 2 <= v <= Z.of_nat (S q)). { intro v. rewrite in_map_iff. split; [intros (a & <- & Ha); apply O in Ha; lia|]. intro Hv. exists (Z.pred v). split; [lia|]. apply O. lia. }
              split; [split; [apply wok1_shift; exact W|split; [right; intros u Hu; apply O' in Hu; lia|reflexivity]]|]. intro v. cbn [In]. rewrite O'. lia.
      * intros [H O]. destruct w as [|v w]; [destruct H|]. cbn [wok] in H. destruct H as (W & B & K).
        assert (Ov : 1 <= v <= Z.of_nat (S q)) by (apply O; left; reflexivity).
        assert (Ow : forall u, In u w -> 1 <= u <= Z.of_nat (S q)) by (intros u Hu; apply O; right; exact Hu).
        assert (C : (forall u, In u w -> u <= v) \/ ((1 < S q)%nat /\ forall u, In u w -> v <= u)).
        { destruct B as [B|B]; [left; exact B|]. destruct (Nat.lt_ge_cases 1 (S q)) as [L|L]; [right; split; [exact L|exact B]|left]. intros u Hu. specialize (Ow u Hu). lia. }
        destruct C as [C|[L C]].
        -- assert (v = Z.of_nat (S q)). { destruct (proj2 (O (Z.of_nat (S q))) ltac:(lia)) as [E|E]; [exact E|]. specialize (C _ E). lia. } subst v. left. apply filter_In. split; [|exact K]. apply in_map. apply in_app_iff. destruct (in_dec Z.eq_dec (Z.of_nat (S q)) w) as [I|I]; [left|right]; apply IH; (split; [exact W|]); intro u; (split; intro Hu).
           ++ apply Ow. exact Hu.
           ++ destruct (Z.eq_dec u (Z.of_nat (S q))) as [->|N]; [exact I|]. destruct (proj2 (O u) Hu) as [E|E]; [congruence|exact E].
           ++ specialize (Ow u Hu). assert (u <> Z.of_nat (S q)) by congruence. lia.
           ++ destruct (proj2 (O u) ltac:(lia)) as [E|E]; [lia|exact E].
        -- assert (v = 1). { destruct (proj2 (O 1) ltac:(lia)) as [E|E]; [exact E|]. specialize (C _ E). lia. } subst v. right. unfold low1. destruct (Nat.ltb_spec 1 (S q)) as [_|]; [|lia]. apply filter_In. split; [|exact K]. apply in_map. apply in_app_iff. destruct (in_dec Z.eq_dec 1 w) as [I|I]; [left|right].
           ++ apply IH. split; [exact W|]. intro u. split; intro Hu; [apply Ow; exact Hu|]. destruct (Z.eq_dec u 1) as [->|N]; [exact I|]. destruct (proj2 (O u) Hu) as [E|E]; [congruence|exact E].
           ++ rewrite <- (map_succ_pred w). apply in_map. apply IH. split; [apply wok1_shift; rewrite map_succ_pred; exact W|]. intro u. rewrite in_map_iff. split.
              ** intros (a & <- & Ha). specialize (Ow a Ha). assert (a <> 1) by congruence. lia.
              ** intro Hu. exists (Z.succ u). split; [lia|]. destruct (proj2 (O (Z.succ u)) ltac:(lia)) as [E|E]; [lia|exact E].
Qed.
Lemma nodup_cons_app : forall (v : Z) l1 l2 f, NoDup l1 -> NoDup l2 -> (forall w, In w l1 -> In w l2 -> False) -> NoDup (filter f (map (cons v) (l1 ++ l2))).
Proof.
  intros v l1 l2 f A B D. apply NoDup_filter. apply NoDup_map_inj_in; [intros; congruence|]. apply NoDup_app_intro; assumption.
Qed.
Theorem gen1_NoDup : forall R p, NoDup (gen1 R p).
Proof.
  induction R as [|x R IH]; intros [|q]; unfold gen1 in *; cbn [gen]; [repeat constructor; cbn; tauto|constructor|constructor|]. apply NoDup_app_intro.
  - apply nodup_cons_app; [apply IH|apply IH|]. intros w H1 H2. apply gen1_ok in H1, H2. destruct H1 as [_ O1], H2 as [_ O2]. assert (K : In (Z.of_nat (S q)) w) by (apply O1; lia). apply O2 in K. lia.
  - destruct (low1 (S q) x); [|constructor]. apply nodup_cons_app; [apply IH| |].
    + apply NoDup_map_inj_in; [|apply IH]. intros a b _ _ E. revert b E. induction a as [|u a IHa]; intros [|v b] E; try discriminate; [reflexivity|]. cbn in E. injection E as E1 E2. f_equal; [lia|apply IHa; exact E2].
    + intros w H1 H2. apply gen1_ok in H1. apply in_map_iff in H2. destruct H2 as (w0 & <- & H2). apply gen1_ok in H2. destruct H1 as [_ O1], H2 as [_ O2]. assert (K : In 1 (map Z.succ w0)) by (apply O1; lia). apply in_map_iff in K. destruct K as (a & Ea & K). apply O2 in K. lia.
  - intros w H1 H2. unfold low1 in H2. destruct (Nat.ltb_spec 1 (S q)) as [L|L]; [|destruct H2]. apply filter_In in H1, H2. destruct H1 as [H1 _], H2 as [H2 _]. apply in_map_iff in H1, H2. destruct H1 as (a & E1 & _), H2 as (b & E2 & _). rewrite <- E2 in E1. injection E1 as E1 _. lia.
Qed.

Definition P2 (x : box) (v : Z) (w : list Z) : Prop := (0 < v -> forall u, In u w -> mark_rank u <= mark_rank v) /\ (v <= 0 -> forall u, In u w -> mark_rank v <= mark_rank u) /\ (fst x = snd x -> 0 < v).
Definition onto2 (p : nat) (w : list Z) : Prop := (forall v, In v w -> 1 <= Z.abs v <= Z.of_nat p) /\ (forall k, 1 <= k <= Z.of_nat p -> exists v, In v w /\ Z.abs v = k).
Lemma rank_sh2 : forall v, mark_rank (sh2 v) = mark_rank v + 2.
Proof. intro v. unfold mark_rank, sh2. destruct (Z.ltb_spec 0 v); destruct (Z.ltb_spec 0 (v + 1)), (Z.ltb_spec 0 (v - 1)); lia. Qed.
Lemma sh2_pos : forall v, 0 < sh2 v <-> 0 < v.
Proof. intro v. unfold sh2. destruct (Z.ltb_spec 0 v); lia. Qed.
Lemma sh2_abs : forall v, Z.abs (sh2 v) = Z.abs v + 1.
Proof. intro v. unfold sh2. destruct (Z.ltb_spec 0 v); lia. Qed.
Definition us2 (v : Z) : Z := if 0 <? v then v - 1 else v + 1.
Lemma sh2_us2 : forall w, (forall v, In v w -> 2 <= Z.abs v) -> map sh2 (map us2 w) = w.
Proof.
  intros w H. rewrite map_map. rewrite <- (map_id w) at 2. apply map_ext_in. intros v Hv. specialize (H v Hv). unfold sh2, us2. destruct (Z.ltb_spec 0 v); [destruct (Z.ltb_spec 0 (v - 1))|destruct (Z.ltb_spec 0 (v + 1))]; lia.
Qed.
Lemma wok2_shift : forall R w, wok mark_rank P2 R (map sh2 w) <-> wok mark_rank P2 R w.
Proof.
  apply wok_shift; [intros u v; rewrite !rank_sh2; lia|]. intros x v w. unfold P2. rewrite sh2_pos. assert (Q : sh2 v <= 0 <-> v <= 0) by (pose proof (sh2_pos v); lia). rewrite Q. split; intros (A & B & C); (split; [|split; [|exact C]]); intros L u Hu.
  - specialize (A L (sh2 u) (in_map sh2 w u Hu)). rewrite !rank_sh2 in A. lia.
  - specialize (B L (sh2 u) (in_map sh2 w u Hu)). rewrite !rank_sh2 in B. lia.
  - apply in_map_iff in Hu. destruct Hu as (a & <- & Hu). specialize (A L a Hu). rewrite !rank_sh2. lia.
  - apply in_map_iff in Hu. destruct Hu as (a & <- & Hu). specialize (B L a Hu). rewrite !rank_sh2. lia.
Qed.
Lemma rank_bound : forall v k, 1 <= Z.abs v -> 0 <= k -> (mark_rank v <= 2 * k <-> Z.abs v <= k).
Proof. intros v k H K. destruct (mark_rank_cases v) as [[A B]|[A B]]; rewrite B; lia. Qed.

Theorem gen2_ok : forall R p w, In w (gen2 R p) <-> wok mark_rank P2 R w /\ onto2 p w.
Proof.
  unfold gen2. induction R as [|x R IH]; intros p w.
  - destruct p as [|q]; cbn [gen In].
    + split; [intros [<-|[]]; split; [exact I|]; split; [intros v []|intros k Hk; lia]|]. intros [H _]. destruct w; [left; reflexivity|destruct H].
    + split; [intros []|]. intros [H [_ O]]. destruct w; [|destruct H]. destruct (O 1 ltac:(lia)) as (v & [] & _).
  - destruct p as [|q].
    + cbn [gen In]. split; [intros []|]. intros [H [O _]]. destruct w as [|v w]; [destruct H|]. specialize (O v (or_introl eq_refl)). lia.
    + cbn [gen]. rewrite in_app_iff.
      assert (Rp : mark_rank (Z.of_nat (S q)) = 2 * Z.of_nat (S q)) by (destruct (mark_rank_cases (Z.of_nat (S q))) as [[A B]|[A B]]; lia).
      assert (Rl : mark_rank (-1) = 1) by reflexivity.
      assert (Rm : forall u, 1 <= Z.abs u -> 1 <= mark_rank u) by (intros u Hu; destruct (mark_rank_cases u) as [[A B]|[A B]]; lia).
      split.
      * intros [H|H].
        -- apply filter_In in H. destruct H as [H K]. apply in_map_iff in H. destruct H as (w' & <- & H). cbn [wok]. rewrite K. apply in_app_iff in H.
           assert (X : wok mark_rank P2 R w' /\ (forall v, In v w' -> 1 <= Z.abs v <= Z.of_nat (S q)) /\ forall k, 1 <= k <= Z.of_nat q -> exists v, In v w' /\ Z.abs v = k).
           { destruct H as [H|H]; apply IH in H; destruct H as [W [O1 O2]]; (split; [exact W|split]).
             - exact O1.
             - intros k Hk. apply O2. lia.
             - intros v Hv. specialize (O1 v Hv). lia.
             - exact O2. }
           destruct X as (W & O1 & O2). split; [split; [exact W|split; [|reflexivity]]|].
           ++ split; [|split]; [|lia|lia]. intros _ u Hu. specialize (O1 u Hu). rewrite Rp. apply rank_bound; lia.
           ++ split; [intros v [<-|Hv]; [lia|apply O1; exact Hv]|]. intros k Hk. destruct (Z.eq_dec k (Z.of_nat (S q))) as [->|N]; [exists (Z.of_nat (S q)); split; [left; reflexivity|lia]|]. destruct (O2 k ltac:(lia)) as (v & Hv & E). exists v. split; [right; exact Hv|exact E].
        -- unfold low2 in H. destruct (Z.eqb_spec (fst x) (snd x)) as [D|D]; [destruct H|]. cbn [negb] in H. apply filter_In in H. destruct H as [H K]. apply in_map_iff in H. destruct H as (w' & <- & H). cbn [wok]. rewrite K. apply in_app_iff in H.
           assert (X : wok mark_rank P2 R w' /\ (forall v, In v w' -> 1 <= Z.abs v <= Z.of_nat (S q)) /\ forall k, 2 <= k <= Z.of_nat (S q) -> exists v, In v w' /\ Z.abs v = k).
           { destruct H as [H|H]; [|apply in_map_iff in H; destruct H as (w0 & <- & H)]; apply IH in H; destruct H as [W [O1 O2]]; (split; [|split]).
             - exact W.
             - exact O1.
             - intros k Hk. apply O2. lia.
             - apply wok2_shift. exact W.
             - intros v Hv. apply in_map_iff in Hv. destruct Hv as (a & <- & Hv). specialize (O1 a Hv). rewrite sh2_abs. lia.
             - intros k Hk. destruct (O2 (k - 1) ltac:(lia)) as (v & Hv & E). exists (sh2 v). split; [apply in_map; exact Hv|]. rewrite sh2_abs. lia. }
           destruct X as (W & O1 & O2). split; [split; [exact W|split; [|reflexivity]]|].
           ++ split; [|split]; [lia| |tauto]. intros _ u Hu. specialize (O1 u Hu). rewrite Rl. apply Rm. lia.
           ++ split; [intros v [<-|Hv]; [lia|apply O1; exact Hv]|]. intros k Hk. destruct (Z.eq_dec k 1) as [->|N]; [exists (-1); split; [left; reflexivity|lia]|]. destruct (O2 k ltac:(lia)) as (v & Hv & E). exists v. split; [right; exact Hv|exact E].
      * intros [H [O1 O2]]. destruct w as [|v w]; [destruct H|]. cbn [wok] in H. destruct H as (W & (B1 & B2 & B3) & K).
        pose proof (O1 v (or_introl eq_refl)) as Ov.
        assert (Ow : forall u, In u w -> 1 <= Z.abs u <= Z.of_nat (S q)) by (intros u Hu; apply O1; right; exact Hu).
        destruct (Z_lt_le_dec 0 v) as [L|L].
        -- assert (v = Z.of_nat (S q)). { destruct (O2 (Z.of_nat (S q)) ltac:(lia)) as (u & [<-|Hu] & E); [lia|]. specialize (B1 L u Hu). replace (mark_rank v) with (2 * v) in B1 by (destruct (mark_rank_cases v) as [[? ?]|[? ?]]; lia). apply (rank_bound u v) in B1; lia. } subst v. left. apply filter_In. split; [|exact K]. apply in_map. apply in_app_iff.
           destruct (existsb (fun u => Z.abs u =? Z.of_nat (S q)) w) eqn:I; [left|right]; apply IH; (split; [exact W|]); split.
           ++ exact Ow.
           ++ intros k Hk. destruct (Z.eq_dec k (Z.of_nat (S q))) as [->|N]; [apply existsb_exists in I; destruct I as (u & Hu & E); apply Z.eqb_eq in E; exists u; split; [exact Hu|lia]|]. destruct (O2 k Hk) as (u & [<-|Hu] & E); [lia|]. exists u. tauto.
           ++ intros u Hu. specialize (Ow u Hu). assert (Z.abs u <> Z.of_nat (S q)); [|lia]. intro E. assert (X : existsb (fun u => Z.abs u =? Z.of_nat (S q)) w = true) by (apply existsb_exists; exists u; split; [exact Hu|apply Z.eqb_eq; exact E]). congruence.
           ++ intros k Hk. destruct (O2 k ltac:(lia)) as (u & [<-|Hu] & E); [lia|]. exists u. tauto.
        -- assert (v = -1). { destruct (O2 1 ltac:(lia)) as (u & [<-|Hu] & E); [lia|]. specialize (B2 L u Hu). assert (mark_rank u <= 2) by (destruct (mark_rank_cases u) as [[? ?]|[? ?]]; lia). assert (mark_rank v <= 2 * 1) by lia. apply (rank_bound v 1) in H0; lia. } subst v. right. unfold low2. destruct (Z.eqb_spec (fst x) (snd x)) as [D|D]; [specialize (B3 D); lia|]. cbn [negb]. apply filter_In. split; [|exact K]. apply in_map. apply in_app_iff.
           destruct (existsb (fun u => Z.abs u =? 1) w) eqn:I; [left|right].
           ++ apply IH. split; [exact W|]. split; [exact Ow|]. intros k Hk. destruct (Z.eq_dec k 1) as [->|N]; [apply existsb_exists in I; destruct I as (u & Hu & E); apply Z.eqb_eq in E; exists u; split; [exact Hu|lia]|]. destruct (O2 k Hk) as (u & [<-|Hu] & E); [lia|]. exists u. tauto.
           ++ assert (G : forall u, In u w -> 2 <= Z.abs u). { intros u Hu. specialize (Ow u Hu). assert (Z.abs u <> 1); [|lia]. intro E. assert (X : existsb (fun u => Z.abs u =? 1) w = true) by (apply existsb_exists; exists u; split; [exact Hu|apply Z.eqb_eq; exact E]). congruence. }
              rewrite <- (sh2_us2 w G). apply in_map. apply IH. split; [apply wok2_shift; rewrite sh2_us2 by exact G; exact W|].
              assert (US : forall u, In u w -> Z.abs (us2 u) = Z.abs u - 1). { intros u Hu. specialize (G u Hu). unfold us2. destruct (Z.ltb_spec 0 u); lia. }
              split.
              ** intros a Ha. apply in_map_iff in Ha. destruct Ha as (u & <- & Hu). rewrite (US u Hu). specialize (Ow u Hu). specialize (G u Hu). lia.
              ** intros k Hk. destruct (O2 (k + 1) ltac:(lia)) as (u & [<-|Hu] & E); [lia|]. exists (us2 u). split; [apply in_map; exact Hu|]. rewrite (US u Hu). lia.
Qed.
Theorem gen2_NoDup : forall R p, NoDup (gen2 R p).
Proof.
  induction R as [|x R IH]; intros [|q]; unfold gen2 in *; cbn [gen]; [repeat constructor; cbn; tauto|constructor|constructor|]. apply NoDup_app_intro.
  - apply nodup_cons_app; [apply IH|apply IH|]. intros w H1 H2. apply gen2_ok in H1, H2. destruct H1 as [_ [_ O1]], H2 as [_ [O2 _]]. destruct (O1 (Z.of_nat (S q)) ltac:(lia)) as (v & Hv & E). specialize (O2 v Hv). lia.
  - destruct (low2 (S q) x); [|constructor]. apply nodup_cons_app; [apply IH| |].
    + apply NoDup_map_inj_in; [|apply IH]. intros a b _ _ E. revert b E. induction a as [|u a IHa]; intros [|v b] E; try discriminate; [reflexivity|]. cbn in E. injection E as E1 E2. f_equal; [|apply IHa; exact E2]. apply mark_rank_inj. apply (f_equal mark_rank) in E1. rewrite !rank_sh2 in E1. lia.
    + intros w H1 H2. apply gen2_ok in H1. apply in_map_iff in H2. destruct H2 as (w0 & <- & H2). apply gen2_ok in H2. destruct H1 as [_ [_ O1]], H2 as [_ [O2 _]]. destruct (O1 1 ltac:(lia)) as (v & Hv & E). apply in_map_iff in Hv. destruct Hv as (a & <- & Ha). specialize (O2 a Ha). rewrite sh2_abs in E. lia.
  - intros w H1 H2. destruct (low2 (S q) x); [|destruct H2]. apply filter_In in H1, H2. destruct H1 as [H1 _], H2 as [H2 _]. apply in_map_iff in H1, H2. destruct H1 as (a & E1 & _), H2 as (b & E2 & _). rewrite <- E2 in E1. injection E1 as E1 _. lia.
Qed.

(* fillings along a path *)
Lemma path_si : forall r F x R, rpath (x :: R) -> (strictly_increasing (fun c => In c (x :: R)) r F <-> strictly_increasing (fun c => In c R) r F /\ okw r x R (map F (x :: R)) = true).
Proof.
  intros r F x R P. pose proof (rpath_mono R x) as M. split.
  - intros [A B]. split; [split; intros i j H1 H2; [apply A|apply B]; right; assumption|]. destruct R as [|y R]; [reflexivity|]. cbn [map okw]. unfold row_eq, col_eq. destruct x as [a b], y as [c d]. destruct P as [P S]. cbn [fst snd] in *. destruct (Z.eqb_spec a c) as [E|E].
    + apply Z.ltb_lt. destruct S as [S|[S|S]]; try lia. destruct S as [-> ->]. apply A; cbn [In]; tauto.
    + destruct (Z.eqb_spec b d) as [E'|E']; [|reflexivity]. apply Z.ltb_lt. destruct S as [S|[S|S]]; try lia. destruct S as [-> ->]. replace c with (c - 1 + 1) at 2 by lia. apply B; [left; reflexivity|right; left; f_equal; lia].
  - intros [[A B] O].
    assert (HD : forall z, In z R -> (fst z = fst x /\ snd x = snd z + 1) \/ (snd z = snd x /\ fst z = fst x + 1) -> exists R', R = z :: R').
    { intros z Hz Q. destruct R as [|y R]; [destruct Hz|]. destruct Hz as [<-|Hz]; [exists R; reflexivity|exfalso]. destruct (M y P ltac:(left; reflexivity)) as (A1 & A2 & A3). destruct P as [P _]. destruct (rpath_mono R y z P Hz) as (B1 & B2 & B3). lia. }
    split; intros i j [H1|H1] [H2|H2].
    + exfalso. rewrite H1 in H2. pose proof (f_equal snd H2) as Q. cbn in Q. lia.
    + exfalso. subst x. specialize (M _ P H2). cbn [fst snd] in M. lia.
    + subst x. destruct (HD _ H1) as [R' ->]; [left; cbn [fst snd]; lia|]. cbn [map okw] in O. unfold row_eq in O. cbn [fst] in O. rewrite Z.eqb_refl in O. apply Z.ltb_lt. exact O.
    + apply A; assumption.
    + exfalso. rewrite H1 in H2. pose proof (f_equal fst H2) as Q. cbn in Q. lia.
    + subst x. destruct (HD _ H2) as [R' ->]; [right; cbn [fst snd]; lia|]. cbn [map okw] in O. unfold row_eq, col_eq in O. cbn [fst snd] in O. rewrite Z.eqb_refl in O. destruct (Z.eqb_spec i (i + 1)); [lia|]. apply Z.ltb_lt. exact O.
    + exfalso. subst x. specialize (M _ P H1). cbn [fst snd] in M. lia.
    + apply B; assumption.
Qed.

Definition sw1 (C : place -> Prop) (F : place -> Z) : Prop := forall y, C y -> (forall x, C x -> southwest x y -> F x <= F y) \/ (forall x, C x -> southwest x y -> F y <= F x).
Definition sw2 (C : place -> Prop) (F : place -> Z) : Prop :=
  (forall i, C (i, i) -> 0 < F (i, i)) /\ forall y, C y -> (F y <= 0 -> forall x, C x -> southwest x y -> mark_rank (F y) <= mark_rank (F x)) /\ (0 < F y -> forall x, C x -> southwest x y -> mark_rank (F x) <= mark_rank (F y)).
Lemma path1 : forall F R, rpath R -> (strictly_increasing (fun c => In c R) idz F /\ sw1 (fun c => In c R) F <-> wok idz P1 R (map F R)).
Proof.
  intro F. induction R as [|x R IH]; intro P.
  - cbn. split; [tauto|]. intros _. split; [split; intros i j []|intros y []].
  - cbn [map wok]. rewrite <- IH by apply P. rewrite path_si by exact P. pose proof (rpath_mono R x) as M. cbn [map]. split.
    + intros [[A B] D]. split; [split; [exact A|]|split; [|exact B]].
      * intros y Hy. destruct (D y (or_intror Hy)) as [K|K]; [left|right]; intros z Hz S; apply K; [right; exact Hz|exact S|right; exact Hz|exact S].
      * destruct (D x (or_introl eq_refl)) as [K|K]; [left|right]; intros u Hu; apply in_map_iff in Hu; destruct Hu as (z & <- & Hz); (apply K; [right; exact Hz|]); specialize (M z P Hz); unfold southwest; lia.
    + intros [[A D] [Q B]]. split; [tauto|]. intros y [<-|Hy].
      * destruct Q as [Q|Q]; [left|right]; intros z [<-|Hz] S; try lia; apply Q; apply in_map; exact Hz.
      * pose proof (M y P Hy) as My. destruct (D y Hy) as [K|K]; [left|right]; intros z [<-|Hz] S; try (apply K; assumption); exfalso; unfold southwest in S; lia.
Qed.
Lemma path2 : forall F R, rpath R -> (forall z w, In z R -> In w R -> southwest z w -> fst w = snd w -> z = w) -> (strictly_increasing (fun c => In c R) mark_rank F /\ sw2 (fun c => In c R) F <-> wok mark_rank P2 R (map F R)).
Proof.
  intro F. induction R as [|x R IH]; intros P DG.
  - cbn. split; [tauto|]. intros _. split; [split; intros i j []|split; [intros i []|intros y []]].
  - cbn [map wok]. rewrite <- IH; [|apply P|intros z w Hz Hw; apply DG; right; assumption]. rewrite path_si by exact P. pose proof (rpath_mono R x) as M. cbn [map]. split.
    + intros [[A B] [D0 D]]. split; [split; [exact A|split]|split; [|exact B]].
      * intros i Hi. apply D0. right. exact Hi.
      * intros y Hy. destruct (D y (or_intror Hy)) as [K1 K2]. split; intros L z Hz S; [apply K1|apply K2]; try assumption; right; exact Hz.
      * destruct (D x (or_introl eq_refl)) as [K1 K2]. split; [|split].
        -- intros L u Hu. apply in_map_iff in Hu. destruct Hu as (z & <- & Hz). apply K2; [exact L|right; exact Hz|]. specialize (M z P Hz). unfold southwest. lia.
        -- intros L u Hu. apply in_map_iff in Hu. destruct Hu as (z & <- & Hz). apply K1; [exact L|right; exact Hz|]. specialize (M z P Hz). unfold southwest. lia.
        -- intro E. destruct x as [a b]. cbn [fst snd] in E. subst b. apply D0. left. reflexivity.
    + intros [[A [D0 D]] [(Q1 & Q2 & Q3) B]]. split; [tauto|]. split.
      * intros i [E|Hi]; [rewrite <- E; apply Q3; rewrite E; reflexivity|apply D0; exact Hi].
      * intros y [<-|Hy].
        -- split; intros L z [<-|Hz] S; try lia; [apply Q2|apply Q1]; try exact L; apply in_map; exact Hz.
        -- pose proof (M y P Hy) as My. destruct (D y Hy) as [K1 K2]. split; intros L z [<-|Hz] S; try (apply K1; assumption); try (apply K2; assumption); exfalso; unfold southwest in S; lia.
Qed.
Lemma fill1 : forall p F R, rpath R -> (kog_filling (fun c => In c R) (Z.of_nat p) F <-> In (map F R) (gen1 R p)).
Proof.
  intros p F R P. rewrite gen1_ok, <- path1 by exact P. unfold kog_filling. split.
  - intros (A & B & C & D). split; [split; [exact C|exact D]|]. intro v. rewrite in_map_iff. split; [intros (x & <- & Hx); apply A; exact Hx|]. intro Hv. destruct (B v Hv) as (x & Hx & E). exists x. tauto.
  - intros [[C D] O]. split; [intros x Hx; apply O; apply in_map; exact Hx|]. split; [|split; [exact C|exact D]]. intros v Hv. apply O in Hv. apply in_map_iff in Hv. destruct Hv as (x & E & Hx). exists x. tauto.
Qed.
Lemma fill2 : forall p F R, rpath R -> (forall z w, In z R -> In w R -> southwest z w -> fst w = snd w -> z = w) -> (klg_filling (fun c => In c R) (Z.of_nat p) F <-> In (map F R) (gen2 R p)).
Proof.
  intros p F R P DG. rewrite gen2_ok, <- path2 by assumption. unfold klg_filling, sw2, onto2. split.
  - intros (A & B & C & D0 & D1 & D2). split; [split; [exact C|split; [exact D0|]]|].
    + intros y Hy. split; intro L; [apply D1; [exact Hy|]|apply D2; assumption]. specialize (A y Hy). lia.
    + split; [intros v Hv; apply in_map_iff in Hv; destruct Hv as (x & <- & Hx); apply A; exact Hx|]. intros k Hk. destruct (B k Hk) as (x & Hx & E). exists (F x). split; [apply in_map; exact Hx|exact E].
  - intros [[C [D0 D]] [O1 O2]]. split; [intros x Hx; apply O1; apply in_map; exact Hx|]. split; [|split; [exact C|split; [exact D0|]]].
    + intros v Hv. destruct (O2 v Hv) as (u & Hu & E). apply in_map_iff in Hu. destruct Hu as (x & <- & Hx). exists x. tauto.
    + split; intros y Hy L; apply (D y Hy); lia.
Qed.
