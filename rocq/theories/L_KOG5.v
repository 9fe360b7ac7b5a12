(* The counting recursions count the words along the rim. *)
From Coq Require Import List ZArith Lia Bool Permutation Sorted.
From Verif Require Import PyBase L_PartEnum M_Tableaux S_Tableaux L_Tableaux L_Trans3 M_Rims L_Rims2 M_KOG S_KOG L_KOG1 L_KOG2 L_KOG3 L_KOG4.
Import ListNotations.
Local Open Scope Z_scope.

Definition Rim (t R : list box) : Prop := NoDup t /\ (forall x, In x t <-> In x R) /\ rpath R.

Definition neg1 (x : box) : box := (- fst x, snd x).
Lemma neg1_inj : forall x y, neg1 x = neg1 y -> x = y.
Proof. intros [a b] [c d] E. unfold neg1 in E. cbn in E. injection E as E1 E2. f_equal; lia. Qed.
Lemma path_ltb_neg : forall a b, path_ltb a b = box_ltb (neg1 a) (neg1 b).
Proof. intros [a b] [c d]. unfold path_ltb, box_ltb, neg1. cbn [fst snd]. f_equal; [apply eq_true_iff_eq; lia|]. f_equal. apply eq_true_iff_eq. lia. Qed.
Lemma path_sort_neg : forall l, map neg1 (path_sort l) = bsort (map neg1 l).
Proof.
  assert (I : forall x l, map neg1 (pinsert x l) = binsert (neg1 x) (map neg1 l)).
  { intros x. induction l as [|y l IH]; [reflexivity|]. cbn [pinsert map binsert]. rewrite <- path_ltb_neg. destruct (path_ltb y x); cbn [map]; [rewrite IH|]; reflexivity. }
  induction l as [|x l IH]; [reflexivity|]. unfold path_sort, bsort in *. cbn [fold_right map]. rewrite I, IH. reflexivity.
Qed.
Lemma rpath_sorted : forall R, rpath R -> StronglySorted before (map neg1 (rev R)).
Proof.
  induction R as [|x R IH]; intro P; [constructor|]. cbn [rev]. rewrite map_app. cbn [map].
  assert (G : forall l a, StronglySorted before l -> (forall y, In y l -> before y a) -> StronglySorted before (l ++ [a])).
  { induction l as [|b l IHl]; intros a S H; [repeat constructor|]. inversion S as [|? ? S1 S2]; subst. cbn [app]. constructor; [apply IHl; [exact S1|intros y Hy; apply H; right; exact Hy]|]. apply Forall_forall. intros y Hy. apply in_app_iff in Hy. destruct Hy as [Hy|[<-|[]]]; [rewrite Forall_forall in S2; apply S2; exact Hy|apply H; left; reflexivity]. }
  apply G; [apply IH; apply P|]. intros y Hy. apply in_map_iff in Hy. destruct Hy as (z & <- & Hz). rewrite <- in_rev in Hz. pose proof (rpath_mono R x z P Hz). unfold before, neg1. cbn [fst snd]. lia.
Qed.
Lemma map_inj : forall A B (f : A -> B), (forall x y, f x = f y -> x = y) -> forall a b, map f a = map f b -> a = b.
Proof. intros A B f H. induction a as [|x a IH]; intros [|y b] E; try discriminate; [reflexivity|]. cbn in E. injection E as E1 E2. f_equal; [apply H; exact E1|apply IH; exact E2]. Qed.
Lemma sort_rim : forall t R, Rim t R -> path_sort t = rev R.
Proof.
  intros t R (N & M & P). apply (map_inj _ _ neg1 neg1_inj). apply sorted_same; [|apply rpath_sorted; exact P|].
  - rewrite path_sort_neg. apply bsort_sorted. apply NoDup_map_inj_in; [intros; apply neg1_inj; assumption|exact N].
  - intro x. rewrite path_sort_neg, bsort_In, !in_map_iff. split; intros (y & E & H); exists y; (split; [exact E|]); [apply -> in_rev; apply M; exact H|apply M, in_rev; exact H].
Qed.
Lemma rim_nil : forall t, Rim t [] -> t = [].
Proof. intros [|x t] (_ & M & _); [reflexivity|]. destruct (proj1 (M x) (or_introl eq_refl)). Qed.
Lemma rim_zlen : forall t x R, Rim t (x :: R) -> (zlen t =? 0) = false.
Proof. intros [|y t] x R (_ & M & _); [destruct (proj2 (M x) (or_introl eq_refl))|]. unfold zlen. cbn [length]. apply Z.eqb_neq. lia. Qed.
Lemma apart_eq : forall x y, apart y x = negb (row_eq x y) && negb (col_eq x y).
Proof. intros x y. unfold apart, row_eq, col_eq. rewrite (Z.eqb_sym (fst y)), (Z.eqb_sym (snd y)). reflexivity. Qed.
Lemma terminal : forall t x R, Rim t (x :: R) -> rim_terminal_part t =
  match R with
  | [] => [x]
  | y :: L => if apart y x then [x] else match L with [] => [y; x] | z :: _ => if apart z y then [y; x] else [z; y; x] end
  end.
Proof.
  intros t x R H. unfold rim_terminal_part. rewrite (sort_rim t (x :: R) H).
  assert (E : lastn 3 (rev (x :: R)) = rev (firstn 3 (x :: R))).
  { unfold lastn. rewrite skipn_rev, rev_length. destruct R as [|y [|z R]]; [reflexivity|reflexivity|]. replace (length (x :: y :: z :: R) - (length (x :: y :: z :: R) - 3))%nat with 3%nat by (cbn [length]; lia). reflexivity. }
  rewrite E. clear E. destruct R as [|y [|z R]].
  - reflexivity.
  - cbv zeta. cbn [firstn rev app length Nat.leb Nat.sub andb nth]. destruct (apart y x); reflexivity.
  - cbv zeta. cbn [firstn rev app length Nat.leb Nat.sub andb nth]. destruct (apart y x); [reflexivity|]. cbn [length Nat.eqb andb nth tl]. destruct (apart z y); reflexivity.
Qed.
Lemma box_neqb : forall a b, box_eqb a b = false <-> a <> b.
Proof. intros a b. rewrite <- not_true_iff_false, box_eqb_eq. tauto. Qed.
Lemma rim_left1 : forall t x R, Rim t (x :: R) -> Rim (filter (fun a => negb (box_eqb a x)) t) R.
Proof.
  intros t x R (N & M & P). pose proof (rpath_NoDup _ P) as ND. inversion ND as [|? ? N1 N2]; subst. split; [apply NoDup_filter; exact N|]. split; [|apply P]. intro a. rewrite filter_In, negb_true_iff, box_neqb, M. cbn [In]. split; [intros [[->|H] K]; [congruence|exact H]|]. intro H. split; [right; exact H|]. intros ->. apply N1. exact H.
Qed.
Lemma rim_left2 : forall t x y L, Rim t (x :: y :: L) -> Rim (filter (fun a => negb (bmem a [y; x])) t) L.
Proof.
  intros t x y L (N & M & P). pose proof (rpath_NoDup _ P) as ND. inversion ND as [|? ? N1 N2]; subst. inversion N2 as [|? ? N3 N4]; subst. split; [apply NoDup_filter; exact N|]. split; [|apply P]. intro a. rewrite filter_In, negb_true_iff, <- not_true_iff_false, bmem_In, M. cbn [In]. split; [tauto|]. intro H. split; [tauto|]. intros [E|[E|[]]]; subst a; [apply N3; exact H|apply N1; right; exact H].
Qed.

(* the parameters of the two generators *)
Lemma r_step1 : forall p, (1 <= p)%nat -> idz (Z.of_nat p) < idz (Z.of_nat (S p)).
Proof. unfold idz. lia. Qed.
Lemma r_low1 : forall p (x : box), (1 <= p)%nat -> low1 p x = true -> idz 1 < idz (Z.of_nat p).
Proof. intros p x H K. unfold low1 in K. apply Nat.ltb_lt in K. unfold idz. lia. Qed.
Lemma sh_low1 : idz 1 < idz (Z.succ 1).
Proof. unfold idz. lia. Qed.
Lemma sh_p1 : forall p, (1 <= p)%nat -> idz 1 < idz (Z.succ (Z.of_nat p)).
Proof. unfold idz. lia. Qed.
Lemma rank_nat : forall p, (1 <= p)%nat -> mark_rank (Z.of_nat p) = 2 * Z.of_nat p.
Proof. intros p H. destruct (mark_rank_cases (Z.of_nat p)) as [[A B]|[A B]]; lia. Qed.
Lemma r_step2 : forall p, (1 <= p)%nat -> mark_rank (Z.of_nat p) < mark_rank (Z.of_nat (S p)).
Proof. intros p H. rewrite !rank_nat by lia. lia. Qed.
Lemma r_low2' : forall p, (1 <= p)%nat -> mark_rank (-1) < mark_rank (Z.of_nat p).
Proof. intros p H. rewrite rank_nat by lia. change (mark_rank (-1)) with 1. lia. Qed.
Lemma r_low2 : forall p (x : box), (1 <= p)%nat -> low2 p x = true -> mark_rank (-1) < mark_rank (Z.of_nat p).
Proof. intros p x H _. apply r_low2'. exact H. Qed.
Lemma sh_low2 : mark_rank (-1) < mark_rank (sh2 (-1)).
Proof. reflexivity. Qed.
Lemma sh_p2 : forall p, (1 <= p)%nat -> mark_rank (-1) < mark_rank (sh2 (Z.of_nat p)).
Proof. intros p H. rewrite rank_sh2. pose proof (r_low2' p H). lia. Qed.

Definition N1 (p : nat) (R : list box) : nat := length (gen1 R p).
Definition N2 (p : nat) (R : list box) : nat := length (gen2 R p).
Definition apt (x : box) (R : list box) : Prop := match R with [] => True | y :: _ => row_eq x y = false /\ col_eq x y = false end.

Lemma N_zero : forall r s l lo x R, N r s l lo 0 (x :: R) = 0%nat.
Proof. reflexivity. Qed.
Lemma N1_one_adj : forall x y L, row_eq x y = true \/ col_eq x y = true -> N1 1 (x :: y :: L) = 0%nat.
Proof.
  intros x y L H. change (N1 1 (x :: y :: L)) with (N idz Z.succ 1 low1 1 (x :: y :: L)). destruct (row_eq x y) eqn:E.
  - rewrite (N_right idz Z.succ 1 low1 r_step1 r_low1 sh_low1 sh_p1) by exact E. rewrite N_zero, Nat.add_0_r. apply len_none. intros w Hw. apply gen_head in Hw. destruct Hw as [_ (w' & [->|[_ K]])]; [reflexivity|discriminate].
  - destruct H as [H|H]; [congruence|]. rewrite (N_above idz Z.succ 1 low1 r_step1 r_low1 sh_low1 sh_p1) by assumption. reflexivity.
Qed.

Lemma adj_cases : forall x y, apart y x = false -> row_eq x y = true \/ row_eq x y = false /\ col_eq x y = true.
Proof. intros x y H. rewrite apart_eq in H. destruct (row_eq x y), (col_eq x y); cbn in H; tauto || discriminate. Qed.
Lemma apart_cases : forall x y, apart y x = true -> row_eq x y = false /\ col_eq x y = false.
Proof. intros x y H. rewrite apart_eq in H. destruct (row_eq x y), (col_eq x y); cbn in H; tauto || discriminate. Qed.
(* bends and straight parts *)
Lemma bend : forall x y z L, rpath (x :: y :: z :: L) -> apart y x = false -> apart z y = false -> apart z x = negb (Bool.eqb (row_eq x y) (row_eq y z)).
Proof.
  intros [a b] [c d] [e f] L (P & S) H1 H2. destruct P as [_ S']. rewrite apart_eq in *. unfold row_eq, col_eq in *. cbn [fst snd] in *. destruct (Z.eqb_spec a c), (Z.eqb_spec b d), (Z.eqb_spec c e), (Z.eqb_spec d f), (Z.eqb_spec a e), (Z.eqb_spec b f); cbn in *; try discriminate; try reflexivity; lia.
Qed.

Theorem kog_count_ok : forall fuel t R p, Rim t R -> (length R < fuel)%nat -> kog_count fuel (Z.of_nat p) t = Ok (Z.of_nat (N1 p R)).
Proof.
  induction fuel as [|fuel IH]; intros t R p H L; [lia|]. cbn [kog_count]. destruct R as [|x R].
  - rewrite (rim_nil t H). cbn. destruct p as [|p]; [reflexivity|]. destruct (Z.eqb_spec (Z.of_nat (S p)) 0); [lia|reflexivity].
  - rewrite (rim_zlen t x R H). destruct p as [|q].
    + reflexivity.
    + destruct (Z.leb_spec (Z.of_nat (S q)) 0) as [K|_]; [lia|]. rewrite (terminal t x R H). cbv zeta.
      assert (E1 : forall a, Rim a R -> kog_count fuel (Z.of_nat (S q)) a = Ok (Z.of_nat (N1 (S q) R)) /\ kog_count fuel (Z.of_nat (S q) - 1) a = Ok (Z.of_nat (N1 q R))).
      { intros a Ha. replace (Z.of_nat (S q) - 1) with (Z.of_nat q) by lia. split; apply IH; try exact Ha; cbn [length] in L; lia. }
      pose proof (rim_left1 t x R H) as H1. destruct (E1 _ H1) as [X Y].
      (* one terminal box *)
      assert (One : apt x R -> (do x0 <- kog_count fuel (Z.of_nat (S q)) (filter (fun a => negb (box_eqb a x)) t); do y <- kog_count fuel (Z.of_nat (S q) - 1) (filter (fun a => negb (box_eqb a x)) t); Ok ((if 1 <? Z.of_nat (S q) then 2 else 1) * (x0 + y))) = Ok (Z.of_nat (N1 (S q) (x :: R)))).
      { intro AP. rewrite X. cbn [rbind]. rewrite Y. cbn [rbind]. f_equal. change (N1 (S q) (x :: R)) with (N idz Z.succ 1 low1 (S q) (x :: R)). rewrite (N_apart idz Z.succ 1 low1) by exact AP. unfold T. change (N idz Z.succ 1 low1) with N1. unfold low1. destruct (Z.ltb_spec 1 (Z.of_nat (S q))), (Nat.ltb_spec 1 (S q)); lia. }
      destruct R as [|y L'].
      * apply (One I).
      * destruct (apart y x) eqn:A; [apply (One (apart_cases _ _ A))|]. pose proof (adj_cases x y A) as AC.
        (* two terminal boxes *)
        assert (Two : apt y L' -> (if Z.of_nat (S q) =? 1 then Ok 0 else
          do x0 <- kog_count fuel (Z.of_nat (S q)) (filter (fun a => negb (bmem a [y; x])) t); do y0 <- kog_count fuel (Z.of_nat (S q) - 1) (filter (fun a => negb (bmem a [y; x])) t); do z <- kog_count fuel (Z.of_nat (S q) - 2) (filter (fun a => negb (bmem a [y; x])) t);
          Ok (x0 + (1 + (if 2 <? Z.of_nat (S q) then 2 else 1)) * y0 + (if 2 <? Z.of_nat (S q) then 2 else 1) * z)) = Ok (Z.of_nat (N1 (S q) (x :: y :: L')))).
        { intro AP. destruct (Z.eqb_spec (Z.of_nat (S q)) 1) as [Q|Q]; [replace (S q) with 1%nat by lia; rewrite N1_one_adj by tauto; reflexivity|]. destruct q as [|q]; [lia|]. pose proof (rim_left2 t x y L' H) as H2. cbn [length] in L.
          replace (Z.of_nat (S (S q)) - 1) with (Z.of_nat (S q)) by lia. replace (Z.of_nat (S (S q)) - 2) with (Z.of_nat q) by lia. rewrite !(IH _ L' _ H2) by lia. cbn [rbind]. f_equal. change (N1 (S (S q)) (x :: y :: L')) with (N idz Z.succ 1 low1 (S (S q)) (x :: y :: L')).
          assert (E : N idz Z.succ 1 low1 (S (S q)) (x :: y :: L') = (T idz Z.succ 1 low1 (S q) L' + N idz Z.succ 1 low1 (S q) (y :: L'))%nat).
          { destruct AC as [AC|[AC1 AC2]].
            - rewrite (N_right idz Z.succ 1 low1 r_step1 r_low1 sh_low1 sh_p1) by exact AC. rewrite (Lo_apart idz Z.succ 1 low1 r_low1) by exact AP. reflexivity.
            - rewrite (N_above idz Z.succ 1 low1 r_step1 r_low1 sh_low1 sh_p1) by assumption. rewrite (Hi_apart idz Z.succ 1 low1 r_low1) by (assumption || (left; reflexivity)). reflexivity. }
          rewrite E, (N_apart idz Z.succ 1 low1) by exact AP. unfold T. change (N idz Z.succ 1 low1) with N1. unfold low1. destruct (Z.ltb_spec 2 (Z.of_nat (S (S q)))), (Nat.ltb_spec 1 (S q)); lia. }
        destruct L' as [|z L''].
        -- apply (Two I).
        -- destruct (apart z y) eqn:A'; [apply (Two (apart_cases _ _ A'))|]. pose proof (adj_cases y z A') as AC'. change (zlen [z; y; x]) with 3. cbn [Z.eqb Pos.eqb andb last nth]. rewrite X. cbn [rbind]. rewrite Y. cbn [rbind]. destruct H as (_ & _ & P). rewrite (bend x y z L'' P A A'). change (N1 (S q) (x :: y :: z :: L'')) with (N idz Z.succ 1 low1 (S q) (x :: y :: z :: L'')).
           destruct AC as [AC|[AC1 AC2]], AC' as [AC'|[AC1' AC2']].
           ++ rewrite AC, AC'. cbn [Bool.eqb negb]. f_equal. rewrite (N_right idz Z.succ 1 low1 r_step1 r_low1 sh_low1 sh_p1 q x y (z :: L'')) by exact AC. rewrite (Lo_right idz Z.succ 1 low1 r_low1 sh_low1 sh_p1) by exact AC'. reflexivity.
           ++ rewrite AC, AC1'. cbn [Bool.eqb negb]. f_equal. rewrite (N_right idz Z.succ 1 low1 r_step1 r_low1 sh_low1 sh_p1 q x y (z :: L'')) by exact AC. rewrite (Lo_above idz Z.succ 1 low1 r_step1 r_low1) by assumption. change (N idz Z.succ 1 low1) with N1. lia.
           ++ rewrite AC1, AC'. cbn [Bool.eqb negb]. f_equal. rewrite (N_above idz Z.succ 1 low1 r_step1 r_low1 sh_low1 sh_p1 q x y (z :: L'')) by assumption. destruct q as [|q]; [cbn [low1 Nat.ltb Nat.leb]; rewrite N1_one_adj by tauto; reflexivity|]. cbn [low1 Nat.ltb Nat.leb]. rewrite (Hi_right idz Z.succ 1 low1 r_low1 sh_low1 sh_p1); [|unfold idz; lia|exact AC']. change (N idz Z.succ 1 low1) with N1. lia.
           ++ rewrite AC1, AC1'. cbn [Bool.eqb negb]. f_equal. rewrite (N_above idz Z.succ 1 low1 r_step1 r_low1 sh_low1 sh_p1 q x y (z :: L'')) by assumption. destruct q as [|q]; [reflexivity|]. cbn [low1 Nat.ltb Nat.leb]. rewrite (Hi_above idz Z.succ 1 low1 r_step1 r_low1) by assumption. reflexivity.
Qed.
Lemma kog_count_neg : forall fuel p t, p < 0 -> kog_count (S fuel) p t = Ok 0.
Proof. intros fuel p t H. cbn [kog_count]. destruct (zlen t =? 0); [destruct (Z.eqb_spec p 0); [lia|reflexivity]|]. destruct (Z.leb_spec p 0); [reflexivity|lia]. Qed.
Lemma klg_count_neg : forall fuel p t, p < 0 -> klg_count (S fuel) p t = Ok 0.
Proof. intros fuel p t H. cbn [klg_count]. destruct (zlen t =? 0); [destruct (Z.eqb_spec p 0); [lia|reflexivity]|]. destruct (Z.leb_spec p 0); [reflexivity|lia]. Qed.

Definition diag_end (R : list box) : Prop := forall z w, In z R -> In w R -> southwest z w -> fst w = snd w -> z = w.
Lemma low2_next : forall p x y L, rpath (x :: y :: L) -> diag_end (x :: y :: L) -> low2 p x = true.
Proof.
  intros p x y L P D. unfold low2. destruct (Z.eqb_spec (fst x) (snd x)) as [E|E]; [exfalso|reflexivity]. pose proof (rpath_mono _ _ y P (or_introl eq_refl)) as M. assert (y = x) by (apply D; cbn [In]; unfold southwest; tauto || lia). subst y. lia.
Qed.
Lemma gen2_nil : forall p, N2 (S p) [] = 0%nat.
Proof. reflexivity. Qed.
Theorem klg_count_ok : forall fuel t R p, Rim t R -> diag_end R -> (length R < fuel)%nat -> klg_count fuel (Z.of_nat p) t = Ok (Z.of_nat (N2 p R)).
Proof.
  induction fuel as [|fuel IH]; intros t R p H D L; [lia|]. cbn [klg_count]. destruct R as [|x R].
  - rewrite (rim_nil t H). cbn. destruct p as [|p]; [reflexivity|]. destruct (Z.eqb_spec (Z.of_nat (S p)) 0); [lia|reflexivity].
  - rewrite (rim_zlen t x R H). destruct p as [|q].
    + reflexivity.
    + destruct (Z.leb_spec (Z.of_nat (S q)) 0) as [K|_]; [lia|]. rewrite (terminal t x R H). cbv zeta.
      assert (D1 : diag_end R) by (intros z w Hz Hw; apply D; right; assumption).
      assert (E1 : forall a, Rim a R -> klg_count fuel (Z.of_nat (S q)) a = Ok (Z.of_nat (N2 (S q) R)) /\ klg_count fuel (Z.of_nat (S q) - 1) a = Ok (Z.of_nat (N2 q R))).
      { intros a Ha. replace (Z.of_nat (S q) - 1) with (Z.of_nat q) by lia. split; apply IH; try exact Ha; try exact D1; cbn [length] in L; lia. }
      pose proof (rim_left1 t x R H) as H1. destruct (E1 _ H1) as [X Y].
      assert (One : apt x R -> (do x0 <- klg_count fuel (Z.of_nat (S q)) (filter (fun a => negb (box_eqb a x)) t); do y <- klg_count fuel (Z.of_nat (S q) - 1) (filter (fun a => negb (box_eqb a x)) t);
         if (Z.of_nat (S q) =? 1) && (fst x =? snd x) then Ok 1 else Ok (2 * x0 + 2 * y)) = Ok (Z.of_nat (N2 (S q) (x :: R)))).
      { intro AP. rewrite X. cbn [rbind]. rewrite Y. cbn [rbind]. change (N2 (S q) (x :: R)) with (N mark_rank sh2 (-1) low2 (S q) (x :: R)). rewrite (N_apart mark_rank sh2 (-1) low2) by exact AP. unfold T. change (N mark_rank sh2 (-1) low2) with N2. destruct R as [|y R].
        - unfold low2. destruct (Z.eqb_spec (fst x) (snd x)) as [E|E]; [|rewrite andb_false_r; f_equal; cbn [negb]; lia]. destruct q as [|q]; [reflexivity|]. destruct (Z.eqb_spec (Z.of_nat (S (S q))) 1); [lia|]. cbn [andb negb]. rewrite !gen2_nil. reflexivity.
        - rewrite (low2_next _ x y R (proj2 (proj2 H)) D). pose proof (low2_next 1 x y R (proj2 (proj2 H)) D) as E. unfold low2 in E. apply negb_true_iff in E. rewrite E, andb_false_r. f_equal. lia. }
      destruct R as [|y L'].
      * apply (One I).
      * destruct (apart y x) eqn:A; [apply (One (apart_cases _ _ A))|]. pose proof (adj_cases x y A) as AC. pose proof (low2_next (S q) x y L' (proj2 (proj2 H)) D) as LX.
        assert (D2 : diag_end L') by (intros z w Hz Hw; apply D1; right; assumption).
        assert (Two : apt y L' -> (do x0 <- klg_count fuel (Z.of_nat (S q)) (filter (fun a => negb (bmem a [y; x])) t); do y0 <- klg_count fuel (Z.of_nat (S q) - 1) (filter (fun a => negb (bmem a [y; x])) t); do z <- klg_count fuel (Z.of_nat (S q) - 2) (filter (fun a => negb (bmem a [y; x])) t);
          let (a, b) := y in let (c, d) := x in
          if 2 <? Z.of_nat (S q) then Ok (x0 + 3 * y0 + 2 * z)
          else if (Z.of_nat (S q) =? 2) && (a =? b) then Ok 1
          else if Z.of_nat (S q) =? 2 then Ok (x0 + 3 * y0 + 2 * z)
          else if (a =? b) && (b =? c) then Ok 0
          else if (a =? b) && (b =? d) then Ok 1
          else Ok (x0 + y0)) = Ok (Z.of_nat (N2 (S q) (x :: y :: L')))).
        { intro AP. pose proof (rim_left2 t x y L' H) as H2. cbn [length] in L.
          replace (Z.of_nat (S q) - 1) with (Z.of_nat q) by lia. rewrite !(IH _ L' _ H2 D2) by lia. cbn [rbind].
          assert (XZ : klg_count fuel (Z.of_nat (S q) - 2) (filter (fun a => negb (bmem a [y; x])) t) = Ok (match q with O => 0 | S q' => Z.of_nat (N2 q' L') end)).
          { destruct q as [|q']; [destruct fuel as [|fuel]; [lia|]; apply klg_count_neg; lia|]. replace (Z.of_nat (S (S q')) - 2) with (Z.of_nat q') by lia. apply IH; [exact H2|exact D2|lia]. }
          rewrite XZ. cbn [rbind]. change (N2 (S q) (x :: y :: L')) with (N mark_rank sh2 (-1) low2 (S q) (x :: y :: L')).
          assert (E : N mark_rank sh2 (-1) low2 (S q) (x :: y :: L') = ((if row_eq x y then (if low2 (S q) y then T mark_rank sh2 (-1) low2 q L' else 0) else T mark_rank sh2 (-1) low2 q L') + N mark_rank sh2 (-1) low2 q (y :: L'))%nat).
          { destruct AC as [AC|[AC1 AC2]].
            - rewrite (N_right mark_rank sh2 (-1) low2 r_step2 r_low2 sh_low2 sh_p2) by exact AC. rewrite (Lo_apart mark_rank sh2 (-1) low2 r_low2) by exact AP. rewrite AC. reflexivity.
            - rewrite (N_above mark_rank sh2 (-1) low2 r_step2 r_low2 sh_low2 sh_p2) by assumption. rewrite LX. rewrite (Hi_apart mark_rank sh2 (-1) low2 r_low2); [|right; apply r_low2'; lia|exact AP]. rewrite AC1. reflexivity. }
          assert (E2 : N mark_rank sh2 (-1) low2 q (y :: L') = match q with O => 0%nat | S q' => ((if low2 (S q') y then 2 else 1) * T mark_rank sh2 (-1) low2 q' L')%nat end).
          { destruct q as [|q']; [reflexivity|]. apply (N_apart mark_rank sh2 (-1) low2). exact AP. }
          rewrite E, E2. unfold T. change (N mark_rank sh2 (-1) low2) with N2. clear E E2 XZ X Y H1 One E1. destruct x as [c d], y as [a b]. unfold low2 in *. unfold row_eq, col_eq in AC |- *. cbn [fst snd] in *. destruct (Z.eqb_spec a b) as [DG|DG].
          - (* the second box is on the diagonal *)
            assert (L' = []). { destruct L' as [|z L']; [reflexivity|exfalso]. destruct H as (_ & _ & P & _). pose proof (low2_next 1 (a, b) z L' P D1) as Q. unfold low2 in Q. cbn [fst snd] in Q. rewrite DG, Z.eqb_refl in Q. discriminate. } subst L'. cbn [negb].
            destruct q as [|[|q]]; rewrite ?gen2_nil.
            + change (2 <? Z.of_nat 1) with false. change (Z.of_nat 1 =? 2) with false. cbn [andb]. subst b. change (N2 0 []) with 1%nat. destruct (Z.eqb_spec c a) as [E|E].
              * subst c. rewrite Z.eqb_refl. reflexivity.
              * destruct (Z.eqb_spec a c); [congruence|]. destruct AC as [AC|[_ AC]]; [discriminate|]. rewrite Z.eqb_sym, AC. reflexivity.
            + change (2 <? Z.of_nat 2) with false. change (Z.of_nat 2 =? 2) with true. cbn [andb]. change (N2 0 []) with 1%nat. destruct (c =? a); reflexivity.
            + destruct (Z.ltb_spec 2 (Z.of_nat (S (S (S q))))); [|lia]. destruct (c =? a); reflexivity.
          - cbn [negb andb]. rewrite andb_false_r. replace (if c =? a then (N2 (S q) L' + N2 q L')%nat else (N2 (S q) L' + N2 q L')%nat) with (N2 (S q) L' + N2 q L')%nat by (destruct (c =? a); reflexivity).
            destruct q as [|[|q]].
            + change (2 <? Z.of_nat 1) with false. change (Z.of_nat 1 =? 2) with false. cbv iota. f_equal. lia.
            + change (2 <? Z.of_nat 2) with false. change (Z.of_nat 2 =? 2) with true. cbv iota. f_equal. lia.
            + destruct (Z.ltb_spec 2 (Z.of_nat (S (S (S q))))); [|lia]. f_equal. lia. }
        destruct L' as [|z L''].
        -- apply (Two I).
        -- destruct (apart z y) eqn:A'; [apply (Two (apart_cases _ _ A'))|]. pose proof (adj_cases y z A') as AC'. change (zlen [z; y; x]) with 3. cbn [Z.eqb Pos.eqb andb last nth]. rewrite X. cbn [rbind]. rewrite Y. cbn [rbind]. destruct H as (_ & _ & P). rewrite (bend x y z L'' P A A'). change (N2 (S q) (x :: y :: z :: L'')) with (N mark_rank sh2 (-1) low2 (S q) (x :: y :: z :: L'')).
           destruct AC as [AC|[AC1 AC2]], AC' as [AC'|[AC1' AC2']].
           ++ rewrite AC, AC'. cbn [Bool.eqb negb]. f_equal. rewrite (N_right mark_rank sh2 (-1) low2 r_step2 r_low2 sh_low2 sh_p2 q x y (z :: L'')) by exact AC. rewrite (Lo_right mark_rank sh2 (-1) low2 r_low2 sh_low2 sh_p2) by exact AC'. reflexivity.
           ++ rewrite AC, AC1'. cbn [Bool.eqb negb]. f_equal. rewrite (N_right mark_rank sh2 (-1) low2 r_step2 r_low2 sh_low2 sh_p2 q x y (z :: L'')) by exact AC. rewrite (Lo_above mark_rank sh2 (-1) low2 r_step2 r_low2) by assumption. change (N mark_rank sh2 (-1) low2) with N2. lia.
           ++ rewrite AC1, AC'. cbn [Bool.eqb negb]. f_equal. rewrite (N_above mark_rank sh2 (-1) low2 r_step2 r_low2 sh_low2 sh_p2 q x y (z :: L'')) by assumption. rewrite LX. rewrite (Hi_right mark_rank sh2 (-1) low2 r_low2 sh_low2 sh_p2); [|apply r_low2'; lia|exact AC']. change (N mark_rank sh2 (-1) low2) with N2. lia.
           ++ rewrite AC1, AC1'. cbn [Bool.eqb negb]. f_equal. rewrite (N_above mark_rank sh2 (-1) low2 r_step2 r_low2 sh_low2 sh_p2 q x y (z :: L'')) by assumption. rewrite LX. rewrite (Hi_above mark_rank sh2 (-1) low2 r_step2 r_low2) by assumption. reflexivity.
Qed.
