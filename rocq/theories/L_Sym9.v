(* Sums over horizontal or vertical strips are products of the operators that remove corners *)
From Coq Require Import List ZArith Lia Bool Permutation Arith.
From Verif Require Import PyBase M_Partitions S_Partitions L_Partitions L_PartBasic L_PartMore M_Tableaux S_Tableaux L_Tableaux M_Strips S_Strips L_Strips L_Strips2 L_Fill L_Shape
  M_Semistandard S_Semistandard L_Semi L_Semi2 L_Semi3 L_Semi4 L_Count L_Standard L_Sym1 L_Sym7 L_Sym8.
Import ListNotations.
Local Open Scope Z_scope.

Definition inb (b : box) (l : list box) : bool := existsb (box_eqb b) l.
Lemma inb_In : forall b l, inb b l = true <-> In b l.
Proof.
  intros b l. unfold inb. rewrite existsb_exists. split; [intros (x & H & E); apply box_eqb_eq in E; subst; assumption|]. intro H. exists b. split; [assumption|apply box_eqb_eq; reflexivity].
Qed.
Lemma inb_notIn : forall b l, inb b l = false <-> ~ In b l.
Proof. intros b l. rewrite <- inb_In. destruct (inb b l); split; intro H; [discriminate|contradiction H; reflexivity|discriminate|reflexivity]. Qed.
Definition del (b : box) (l : list box) : list box := filter (fun x => negb (box_eqb b x)) l.
Lemma del_In : forall b l x, In x (del b l) <-> In x l /\ x <> b.
Proof.
  intros b l x. unfold del. rewrite filter_In, negb_true_iff. split; intros [H E]; (split; [assumption|]).
  - intros ->. rewrite (proj2 (box_eqb_eq b b) eq_refl) in E. discriminate.
  - destruct (box_eqb b x) eqn:X; [apply box_eqb_eq in X; congruence|reflexivity].
Qed.
Lemma del_zlen : forall b l, NoDup l -> In b l -> zlen l = zlen (del b l) + 1.
Proof.
  intros b l N H. induction l as [|a l IH]; [destruct H|]. inversion N as [|? ? N1 N2]; subst. cbn [del filter]. destruct (box_eqb b a) eqn:E; cbn [negb].
  - apply box_eqb_eq in E. subst a. assert (X : filter (fun x => negb (box_eqb b x)) l = l).
    { clear - N1. induction l as [|c l IH]; [reflexivity|]. cbn [filter]. destruct (box_eqb b c) eqn:E; [apply box_eqb_eq in E; subst; exfalso; apply N1; left; reflexivity|].
      cbn [negb]. rewrite IH; [reflexivity|]. intro X. apply N1. right. assumption. }
    rewrite X. unfold zlen. cbn [length]. lia.
  - destruct H as [->|H]; [rewrite (proj2 (box_eqb_eq b b) eq_refl) in E; discriminate|]. specialize (IH N2 H). unfold del in IH. unfold zlen in *. cbn [length]. lia.
Qed.
Lemma del_NoDup : forall b l, NoDup l -> NoDup (del b l).
Proof. intros. apply NoDup_filter. assumption. Qed.

Lemma zs_split : forall A (p : A -> bool) (f : A -> Z) l, zs f l = zs f (filter p l) + zs f (filter (fun x => negb (p x)) l).
Proof. intros A p f l. induction l as [|a l IH]; [reflexivity|]. cbn [filter]. rewrite zs_cons, IH. destruct (p a); cbn [negb]; rewrite zs_cons; lia. Qed.
Lemma map_filter_NoDup : forall A B (f : A -> B) (p : A -> bool) l, NoDup (map f l) -> NoDup (map f (filter p l)).
Proof.
  intros A B f p l. induction l as [|a l IH]; intro N; [constructor|]. cbn [map] in N. inversion N as [|? ? N1 N2]; subst. cbn [filter]. destruct (p a); [|apply IH; assumption].
  cbn [map]. constructor; [|apply IH; assumption]. intro X. apply N1. apply in_map_iff in X. destruct X as (y & E & Y). apply filter_In in Y. apply in_map_iff. exists y. tauto.
Qed.

Section StripSum.
  Variable sh : bool.
  Variable lam : list Z.
  Variable K : Z.
  Hypothesis K_shifted : sh = true -> K = 0.
  Hypothesis lam_part : part_b sh lam.
  Variable k : Z.
  Variable e : Z.
  Variable x : Z.

  Definition sgn : Z := if Z.even k then 1 else -1.
  Definition rank (b : Z * Z) : Z := sgn * diag K b.
  Lemma rank_s : forall b, rank (dir_s k b) = rank b + 1.
  Proof. intros [i j]. unfold rank, sgn, dir_s, diag. destruct (Z.even k); cbn [nexts nextd fst snd]; lia. Qed.
  Lemma rank_d : forall b, rank (dir_d k b) = rank b - 1.
  Proof. intros [i j]. unfold rank, sgn, dir_d, diag. destruct (Z.even k); cbn [nexts nextd fst snd]; lia. Qed.
  Lemma corner_dir : forall s b, dc sh s b -> ~ dc sh s (dir_s k b) -> ~ dc sh s (dir_d k b) -> ~ dc sh lam b -> corner sh lam s b.
  Proof. intros s b. unfold dir_s, dir_d, corner. destruct (Z.even k); tauto. Qed.
  Lemma corner_dir_inv : forall s b, corner sh lam s b -> dc sh s b /\ ~ dc sh s (dir_s k b) /\ ~ dc sh s (dir_d k b) /\ ~ dc sh lam b.
  Proof. intros s b. unfold dir_s, dir_d, corner. destruct (Z.even k); tauto. Qed.

  Definition stripM (M : Z) (mu nu : list Z) : Prop :=
    part_b sh nu /\ (forall b, dc sh lam b -> dc sh nu b) /\ (forall b, dc sh nu b -> dc sh mu b) /\
    (forall b, dc sh mu b -> ~ dc sh nu b -> dc sh mu (dir_d k b) -> ~ dc sh nu (dir_d k b) -> False) /\
    (forall b, dc sh mu b -> ~ dc sh nu b -> rank b <= M).
  Definition layerM (M : Z) (mu : list Z) (r : list strip) : Prop :=
    NoDup (map sshape r) /\
    (forall nu, (exists d c, In (nu, d, c) r) <-> stripM M mu nu) /\
    (forall nu d c, In (nu, d, c) r ->
       NoDup d /\ (forall b, In b d <-> dc sh mu b /\ ~ dc sh nu b) /\
       NoDup c /\ (forall b, In b c <-> freeb (dir_s k) (dir_d k) (dc sh lam) (dc sh mu) (dc sh nu) b /\ rank b <= M)).

  (* cells of maximal rank that are added or could be repeated are corners *)
  Lemma added_corner : forall M mu nu b, part_b sh mu -> stripM M mu nu -> dc sh mu b -> ~ dc sh nu b -> rank b = M -> corner sh lam mu b.
  Proof.
    intros M mu nu b Pm (Pn & I1 & I2 & S & R) D N E. pose proof (part_closed sh k nu Pn) as (Cs & Cd). pose proof (dc_region _ _ _ D) as Rb. apply corner_dir.
    - assumption.
    - intro X. assert (Y : ~ dc sh nu (dir_s k b)) by (intro Y; apply N; apply Cs; assumption). specialize (R _ X Y). rewrite rank_s in R. lia.
    - intro X. apply (S b D N X). intro Y. apply N. apply Cd; assumption.
    - intro X. apply N. apply I1. assumption.
  Qed.
  Lemma free_corner : forall M mu nu b, part_b sh mu -> stripM M mu nu -> freeb (dir_s k) (dir_d k) (dc sh lam) (dc sh mu) (dc sh nu) b -> rank b = M -> corner sh lam mu b.
  Proof.
    intros M mu nu b Pm (Pn & I1 & I2 & S & R) (F1 & F2 & F3 & F4) E. apply corner_dir; [apply I2; assumption| |assumption|assumption].
    intro X. specialize (R _ X F3). rewrite rank_s in R. lia.
  Qed.

  Inductive ranks : Z -> list nat -> Prop :=
  | ranks_nil : forall M, ranks M []
  | ranks_cons : forall M d ds, sgn * Z.of_nat d = M -> ranks (M - 1) ds -> ranks M (d :: ds).

  Definition word (ds : list nat) : list factor := map (fun d => (d, 1, x)) ds.
  Definition weigh (F : list Z -> Z) (s : strip) : Z := match s with (nu, d, c) => x ^ zlen d * (1 + e * x) ^ zlen c * F nu end.

  Lemma layer_In : forall r nu, In nu (map sshape r) <-> exists d c, In (nu, d, c) r.
  Proof.
    intros r nu. rewrite in_map_iff. split; [intros ([[n' d] c] & E & X); exists d, c; rewrite <- E; exact X|intros (d & c & X); exists (nu, d, c); split; [reflexivity|assumption]].
  Qed.

  Lemma nil_zlen : forall (l : list box), (forall b, ~ In b l) -> zlen l = 0.
  Proof. intros [|b l] H; [reflexivity|]. exfalso. apply (H b). left. reflexivity. Qed.

  Lemma rank_sgn : forall b d M, sgn * Z.of_nat d = M -> (rank b = M <-> diag K b = Z.of_nat d).
  Proof. intros b d M <-. unfold rank, sgn. destruct (Z.even k); lia. Qed.

  Theorem strip_sum : forall ds M mu r F, ranks M ds -> okS sh lam mu -> (forall b, dc sh mu b -> M - Z.of_nat (length ds) < rank b) -> layerM M mu r ->
    zs (weigh F) r = oev sh lam K e (word ds) F mu.
  Proof.
    induction ds as [|d ds IH]; intros M mu r F HM O LB LM.
    - (* nothing can be added *)
      destruct LM as (N & KK & DD). change (oev sh lam K e (word []) F mu) with (F mu).
      assert (Only : forall nu, stripM M mu nu <-> nu = mu).
      { intro nu. split.
        - intros (Pn & I1 & I2 & S & R). apply (part_ext sh); [assumption|apply O|]. intro b. split; [apply I2|]. intro D. destruct (dc_dec sh nu b) as [Y|Y]; [assumption|]. exfalso.
          specialize (R b D Y). specialize (LB b D). cbn [length] in LB. lia.
        - intros ->. split; [apply O|]. split; [apply O|]. split; [tauto|]. split; [tauto|]. intros b D Y. contradiction. }
      destruct (proj2 (KK mu) (proj2 (Only mu) eq_refl)) as (d & c & Hr).
      assert (Er : r = [(mu, d, c)]).
      { assert (All : forall s, In s r -> sshape s = mu). { intros [[nu d'] c'] Hs. apply Only, KK. exists d', c'. assumption. }
        destruct r as [|s1 [|s2 r]]; [destruct Hr|destruct Hr as [->|[]]; reflexivity|]. exfalso. cbn [map] in N. inversion N as [|? ? N1 _]; subst. apply N1. left.
        rewrite (All s1), (All s2); [reflexivity|right; left; reflexivity|left; reflexivity]. }
      rewrite Er, zs_cons, zs_nil. cbn [weigh]. destruct (DD mu d c Hr) as (_ & D1 & _ & D2). rewrite !nil_zlen; [rewrite !Z.pow_0_r; ring| |].
      + intros b Hb. apply D2 in Hb. destruct Hb as ((F1 & _) & Hb). specialize (LB b F1). cbn [length] in LB. lia.
      + intros b Hb. apply D1 in Hb. tauto.
    - inversion HM as [|? ? ? Ed HM' E1 E2]; subst M0 d0 ds0. pose proof (proj1 O) as Pm.
      assert (LB' : forall b, dc sh mu b -> M - 1 - Z.of_nat (length ds) < rank b) by (intros b D; specialize (LB b D); cbn [length] in LB; lia).
      change (oev sh lam K e (word (d :: ds)) F mu) with (app1 (list Z) (cc sh lam K) (rr sh lam K) e (d, 1, x) (oev sh lam K e (word ds) F) mu). unfold app1, U.
      destruct LM as (N & KK & DD). destruct (cc sh lam K d mu) eqn:C.
      + destruct (rr_case sh lam K K_shifted lam_part d mu O C) as (b0 & C0 & D0 & O' & R'). pose proof (proj2 (rank_sgn b0 d M Ed) D0) as Rk0. set (mu' := rr sh lam K d mu) in *.
        destruct (corner_dir_inv mu b0 C0) as (B1 & B2 & B3 & B4).
        assert (Same : forall b, corner sh lam mu b -> rank b = M -> b = b0).
        { intros b Cb Rb. apply (corner_unique sh lam K K_shifted lam_part mu); [assumption|assumption|assumption|]. rewrite D0. apply (rank_sgn b d M Ed). assumption. }
        set (p := fun s : strip => inb b0 (snd (fst s))).
        set (r1 := map (fun s : strip => match s with (nu, dd, c) => (nu, dd, del b0 c) end) (filter (fun s => negb (p s)) r)).
        set (r2 := map (fun s : strip => match s with (nu, dd, c) => (nu, del b0 dd, c) end) (filter p r)).
        assert (In1 : forall nu dd c', In (nu, dd, c') r1 <-> exists c, In (nu, dd, c) r /\ ~ In b0 dd /\ c' = del b0 c).
        { intros nu dd c'. unfold r1. rewrite in_map_iff. split.
          - intros ([[nu0 dd0] c0] & E & H). injection E as -> -> <-. apply filter_In in H. destruct H as [H P]. unfold p in P. cbn [fst snd] in P. apply negb_true_iff, inb_notIn in P. exists c0. tauto.
          - intros (c & H & P & ->). exists (nu, dd, c). split; [reflexivity|]. apply filter_In. split; [assumption|]. unfold p. cbn [fst snd]. apply negb_true_iff, inb_notIn. assumption. }
        assert (In2 : forall nu dd' c, In (nu, dd', c) r2 <-> exists dd, In (nu, dd, c) r /\ In b0 dd /\ dd' = del b0 dd).
        { intros nu dd' c. unfold r2. rewrite in_map_iff. split.
          - intros ([[nu0 dd0] c0] & E & H). injection E as -> <- ->. apply filter_In in H. destruct H as [H P]. unfold p in P. cbn [fst snd] in P. apply inb_In in P. exists dd0. tauto.
          - intros (dd & H & P & ->). exists (nu, dd, c). split; [reflexivity|]. apply filter_In. split; [assumption|]. unfold p. cbn [fst snd]. apply inb_In. assumption. }
        assert (N1 : NoDup (map sshape r1)).
        { unfold r1. rewrite map_map. rewrite (map_ext _ sshape); [apply map_filter_NoDup; assumption|]. intros [[nu dd] c]. reflexivity. }
        assert (N2 : NoDup (map sshape r2)).
        { unfold r2. rewrite map_map. rewrite (map_ext _ sshape); [apply map_filter_NoDup; assumption|]. intros [[nu dd] c]. reflexivity. }
        assert (L1 : layerM (M - 1) mu r1).
        { split; [assumption|]. split.
          - intro nu. split.
            + intros (dd & c' & H). apply In1 in H. destruct H as (c & H & P & _). pose proof (proj1 (KK nu) (ex_intro _ dd (ex_intro _ c H))) as S. destruct (DD _ _ _ H) as (_ & D1 & _).
              destruct S as (S1 & S2 & S3 & S4 & S5). split; [assumption|]. split; [assumption|]. split; [assumption|]. split; [assumption|]. intros b X Y. pose proof (S5 b X Y) as Z.
              destruct (Z.eq_dec (rank b) M) as [Eq|Ne]; [|lia]. exfalso. apply P. apply D1. rewrite <- (Same b); [tauto| |assumption]. apply (added_corner M mu nu b Pm); [|assumption|assumption|assumption]. repeat split; assumption.
            + intros (S1 & S2 & S3 & S4 & S5). destruct (proj2 (KK nu)) as (dd & c & H).
              { split; [assumption|]. split; [assumption|]. split; [assumption|]. split; [assumption|]. intros b X Y. specialize (S5 b X Y). lia. }
              exists dd, (del b0 c). apply In1. exists c. split; [assumption|]. split; [|reflexivity]. destruct (DD _ _ _ H) as (_ & D1 & _). intro X. apply D1 in X. destruct X as [X Y]. specialize (S5 b0 X Y). lia.
          - intros nu dd c' H. apply In1 in H. destruct H as (c & H & P & ->). pose proof (proj1 (KK nu) (ex_intro _ dd (ex_intro _ c H))) as S. destruct (DD _ _ _ H) as (A1 & A2 & A3 & A4).
            split; [assumption|]. split; [assumption|]. split; [apply del_NoDup; assumption|]. intro b. rewrite del_In, A4. split.
            + intros [[X Y] Z]. split; [assumption|]. destruct (Z.eq_dec (rank b) M) as [Eq|Ne]; [|lia]. exfalso. apply Z. apply Same; [|assumption]. apply (free_corner M mu nu b); assumption.
            + intros [X Y]. split; [split; [assumption|lia]|]. intros ->. lia. }
        assert (L2 : layerM (M - 1) mu' r2).
        { split; [assumption|]. split.
          - intro nu. split.
            + intros (dd' & c & H). apply In2 in H. destruct H as (dd & H & P & _). pose proof (proj1 (KK nu) (ex_intro _ dd (ex_intro _ c H))) as S. destruct (DD _ _ _ H) as (_ & D1 & _). apply D1 in P.
              pose proof S as (S1 & S2 & S3 & S4 & S5). split; [assumption|]. split; [assumption|]. split; [|split].
              * intros b X. apply R'. split; [apply S3; assumption|]. intros ->. tauto.
              * intros b X Y X' Y'. apply R' in X. apply R' in X'. apply (S4 b); tauto.
              * intros b X Y. apply R' in X. destruct X as [X X']. pose proof (S5 b X Y). destruct (Z.eq_dec (rank b) M) as [Eq|Ne]; [|lia]. exfalso. apply X'. apply Same; [|assumption]. apply (added_corner M mu nu b); assumption.
            + intros (S1 & S2 & S3 & S4 & S5). assert (B0 : ~ dc sh nu b0) by (intro X; apply S3, R' in X; tauto).
              assert (S5' : forall b, dc sh mu b -> ~ dc sh nu b -> b <> b0 -> rank b <= M - 1) by (intros b X Y Z; apply S5; [apply R'; tauto|assumption]).
              destruct (proj2 (KK nu)) as (dd & c & H).
              { split; [assumption|]. split; [assumption|]. split; [intros b X; apply S3, R' in X; tauto|]. split.
                - intros b X Y X' Y'. destruct (box_dec b b0) as [->|Nb]; [contradiction|]. destruct (box_dec (dir_d k b) b0) as [Eb|Nb'].
                  + specialize (S5' b X Y Nb). rewrite <- Eb, rank_d in Rk0. lia.
                  + apply (S4 b); [apply R'; tauto|assumption|apply R'; tauto|assumption].
                - intros b X Y. destruct (box_dec b b0) as [->|Nb]; [lia|]. specialize (S5' b X Y Nb). lia. }
              exists (del b0 dd), c. apply In2. exists dd. split; [assumption|]. split; [|reflexivity]. destruct (DD _ _ _ H) as (_ & D1 & _). apply D1. tauto.
          - intros nu dd' c H. apply In2 in H. destruct H as (dd & H & P & ->). pose proof (proj1 (KK nu) (ex_intro _ dd (ex_intro _ c H))) as S. destruct (DD _ _ _ H) as (A1 & A2 & A3 & A4). apply A2 in P.
            split; [apply del_NoDup; assumption|]. split; [intro b; rewrite del_In, A2, R'; tauto|]. split; [assumption|]. intro b. rewrite A4. split.
            + intros [X Y]. pose proof X as (F1 & F2 & F3 & F4). split; [split; [assumption|]; split; [assumption|]; split; [assumption|]; intro Z; apply R' in Z; tauto|].
              destruct (Z.eq_dec (rank b) M) as [Eq|Ne]; [|lia]. exfalso. assert (b = b0) by (apply Same; [apply (free_corner M mu nu b); assumption|assumption]). subst b. tauto.
            + intros [(F1 & F2 & F3 & F4) Y]. split; [|lia]. split; [assumption|]. split; [assumption|]. split; [assumption|]. intro Z. apply F4. apply R'. split; [assumption|]. intro Eb. rewrite <- Eb, rank_d in Rk0. lia. }
        rewrite (zs_split _ p). rewrite <- (IH (M - 1) mu r1 F HM' O LB' L1). rewrite <- (IH (M - 1) mu' r2 F HM' O').
        * unfold r1, r2. rewrite !zs_map. rewrite (zs_ext _ (weigh F) (fun s : strip => x * weigh F (match s with (nu, dd, c) => (nu, del b0 dd, c) end)) (filter p r)).
          -- rewrite zs_scale. rewrite (zs_ext _ (weigh F) (fun s : strip => (1 + e * x) * weigh F (match s with (nu, dd, c) => (nu, dd, del b0 c) end)) (filter (fun s => negb (p s)) r)).
             ++ rewrite zs_scale. assert (G : forall a b, x * a + (1 + e * x) * b = 1 * b + x * (a + e * b)) by (intros; ring). apply G.
             ++ intros [[nu dd] c] H. apply filter_In in H. destruct H as [H P]. unfold p in P. cbn [fst snd] in P. apply negb_true_iff, inb_notIn in P.
                pose proof (proj1 (KK nu) (ex_intro _ dd (ex_intro _ c H))) as (S1 & S2 & S3 & S4 & S5). destruct (DD _ _ _ H) as (A1 & A2 & A3 & A4).
                assert (Bn : dc sh nu b0) by (destruct (dc_dec sh nu b0) as [Y|Y]; [assumption|]; exfalso; apply P; apply A2; tauto).
                assert (Bc : In b0 c) by (apply A4; split; [split; [assumption|]; split; [assumption|]; split; [intro Y; apply B2; apply S3; assumption|assumption]|lia]).
                transitivity (x ^ @zlen box dd * (1 + e * x) ^ @zlen box c * F nu); [reflexivity|]. transitivity ((1 + e * x) * (x ^ @zlen box dd * (1 + e * x) ^ @zlen box (del b0 c) * F nu)); [|reflexivity].
                rewrite (del_zlen b0 c A3 Bc). rewrite Z.pow_add_r by (unfold zlen; lia). rewrite Z.pow_1_r. ring.
          -- intros [[nu dd] c] H. apply filter_In in H. destruct H as [H P]. unfold p in P. cbn [fst snd] in P. apply inb_In in P.
             destruct (DD _ _ _ H) as (A1 & A2 & A3 & A4). transitivity (x ^ @zlen box dd * (1 + e * x) ^ @zlen box c * F nu); [reflexivity|]. transitivity (x * (x ^ @zlen box (del b0 dd) * (1 + e * x) ^ @zlen box c * F nu)); [|reflexivity].
             rewrite (del_zlen b0 dd A1 P). rewrite Z.pow_add_r by (unfold zlen; lia). rewrite Z.pow_1_r. ring.
        * intros b D. apply R' in D. apply LB'. tauto.
        * assumption.
      + rewrite Z.mul_0_r, Z.add_0_r, Z.mul_1_l. apply (IH (M - 1) mu r F HM' O LB'). rewrite cc_false in C.
        split; [assumption|]. split.
        * intro nu. rewrite KK. split.
          -- intro S. pose proof S as (S1 & S2 & S3 & S4 & S5). split; [assumption|]. split; [assumption|]. split; [assumption|]. split; [assumption|]. intros b X Y. pose proof (S5 b X Y).
             destruct (Z.eq_dec (rank b) M) as [Eq|Ne]; [|lia]. exfalso. apply (C b); [apply (added_corner M mu nu b); assumption|apply (rank_sgn b d M Ed); assumption].
          -- intros (S1 & S2 & S3 & S4 & S5). split; [assumption|]. split; [assumption|]. split; [assumption|]. split; [assumption|]. intros b X Y. specialize (S5 b X Y). lia.
        * intros nu dd c H. pose proof (proj1 (KK nu) (ex_intro _ dd (ex_intro _ c H))) as S. destruct (DD _ _ _ H) as (A1 & A2 & A3 & A4). split; [assumption|]. split; [assumption|]. split; [assumption|].
          intro b. rewrite A4. split; [|intros [X Y]; split; [assumption|lia]]. intros [X Y]. split; [assumption|]. destruct (Z.eq_dec (rank b) M) as [Eq|Ne]; [|lia]. exfalso.
          apply (C b); [apply (free_corner M mu nu b); assumption|apply (rank_sgn b d M Ed); assumption].
  Qed.
End StripSum.
