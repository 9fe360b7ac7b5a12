(* Lemmas about M_Words. *)
From Coq Require Import List ZArith Lia Bool.
From Verif Require Import PyBase FinSum M_Partitions M_Vectors M_Words S_Words.
Import ListNotations.
Local Open Scope Z_scope.

(* ---------------- crystal operators ---------------- *)
Section Crystal.
  Variable i : Z.
  Definition hgt (w : list Z) : Z := occ i w - occ (i + 1) w.

  Lemma occ_app : forall a u v, occ a (u ++ v) = occ a u + occ a v.
  Proof. intros. unfold occ. rewrite count_occ_app. lia. Qed.
  Lemma hgt_app : forall u v, hgt (u ++ v) = hgt u + hgt v.
  Proof. intros. unfold hgt. rewrite !occ_app. lia. Qed.
  Lemma hgt_nil : hgt [] = 0. Proof. reflexivity. Qed.
  Lemma hgt1_i : hgt [i] = 1.
  Proof.
    unfold hgt, occ. simpl. destruct (Z.eq_dec i i); [|congruence].
    destruct (Z.eq_dec i (i + 1)); [lia|]. reflexivity.
  Qed.
  Lemma hgt1_i1 : hgt [i + 1] = -1.
  Proof.
    unfold hgt, occ. simpl. destruct (Z.eq_dec (i + 1) (i + 1)); [|congruence].
    destruct (Z.eq_dec (i + 1) i); [lia|]. reflexivity.
  Qed.
  Lemma hgt1_other : forall c, c <> i -> c <> i + 1 -> hgt [c] = 0.
  Proof.
    intros c H1 H2. unfold hgt, occ. simpl. destruct (Z.eq_dec c i); [contradiction|].
    destruct (Z.eq_dec c (i + 1)); [contradiction|]. reflexivity.
  Qed.

  Lemma closed_right_h : forall x, closed_right i x <-> (forall p s, x = p ++ s -> 0 <= hgt s).
  Proof. intro x. unfold closed_right, hgt. split; intros H p s E; specialize (H p s E); lia. Qed.
  Lemma closed_left_h : forall y, closed_left i y <-> (forall p s, y = p ++ s -> hgt p <= 0).
  Proof. intro x. unfold closed_left, hgt. split; intros H p s E; specialize (H p s E); lia. Qed.

  Lemma snoc_split : forall A (x : list A) c p s, x ++ [c] = p ++ s ->
    (s = [] /\ p = x ++ [c]) \/ exists s', s = s' ++ [c] /\ x = p ++ s'.
  Proof.
    intros A x c p s E. destruct s as [|a s0] using rev_ind; [left; rewrite app_nil_r in E; auto|].
    right. rewrite app_assoc in E. apply app_inj_tail in E. destruct E as [E1 E2]. subst.
    exists s0. auto.
  Qed.

  Lemma closed_left_nil : closed_left i [].
  Proof.
    apply closed_left_h. intros p s E. symmetry in E. apply app_eq_nil in E. destruct E as [-> _].
    rewrite hgt_nil. lia.
  Qed.
  Lemma closed_right_nil : closed_right i [].
  Proof.
    apply closed_right_h. intros p s E. symmetry in E. apply app_eq_nil in E. destruct E as [_ ->].
    rewrite hgt_nil. lia.
  Qed.
  Lemma closed_left_snoc : forall y c, closed_left i y -> hgt (y ++ [c]) <= 0 -> closed_left i (y ++ [c]).
  Proof.
    intros y c H Hc. rewrite closed_left_h in *. intros p s E. apply snoc_split in E.
    destruct E as [[-> ->]|[s' [-> ->]]]; [assumption|]. apply (H p s'). reflexivity.
  Qed.
  Lemma closed_left_hgt : forall y, closed_left i y -> hgt y <= 0.
  Proof. intros y H. rewrite closed_left_h in H. apply (H y []). now rewrite app_nil_r. Qed.
  Lemma closed_right_snoc : forall x c, closed_right i x -> 0 <= hgt [c] -> closed_right i (x ++ [c]).
  Proof.
    intros x c H Hc. rewrite closed_right_h in *. intros p s E. apply snoc_split in E.
    destruct E as [[-> ->]|[s' [-> ->]]]; [rewrite hgt_nil; lia|].
    rewrite hgt_app. specialize (H p s' eq_refl). lia.
  Qed.
  Lemma app_split : forall A (a b p s : list A), a ++ b = p ++ s ->
    (exists t, p = a ++ t /\ b = t ++ s) \/ (exists t, a = p ++ t /\ s = t ++ b).
  Proof.
    induction a as [|x a IH]; intros b p s E; simpl in E.
    - left. exists p. auto.
    - destruct p as [|y p]; simpl in E.
      + right. exists (x :: a). simpl. auto.
      + injection E as E1 E2. subst y. apply IH in E2. destruct E2 as [(t & -> & ->)|(t & -> & ->)].
        * left. exists t. auto.
        * right. exists t. auto.
  Qed.
  Lemma closed_right_close : forall x y, closed_right i x -> closed_left i y -> hgt y = 0 ->
    closed_right i (x ++ (i + 1) :: y ++ [i]).
  Proof.
    intros x y Hx Hy H0. rewrite closed_right_h in *. rewrite closed_left_h in Hy. intros p s E.
    apply app_split in E. destruct E as [(t & -> & E)|(t & -> & ->)].
    - destruct t as [|a t].
      + simpl in E. subst s. change ((i + 1) :: y ++ [i]) with ([i + 1] ++ y ++ [i]).
        rewrite !hgt_app, hgt1_i, hgt1_i1. lia.
      + simpl in E. injection E as E1 E2. subst a. apply snoc_split in E2.
        destruct E2 as [[-> ->]|(s' & -> & ->)]; [rewrite hgt_nil; lia|].
        rewrite hgt_app, hgt1_i. specialize (Hy t s' eq_refl). rewrite hgt_app in H0. lia.
    - specialize (Hx p t eq_refl). change ((i + 1) :: y ++ [i]) with ([i + 1] ++ y ++ [i]).
      rewrite !hgt_app, hgt1_i, hgt1_i1. lia.
  Qed.

  (* the stack automaton *)
  Definition cst : Type := (list (Z * Z) * list (Z * Z))%type.
  Definition cstep (st : cst) (p : Z * Z) : cst :=
    let (us, ps) := st in
    if snd p =? i then match ps with [] => (us ++ [p], []) | _ :: ps' => (us, ps') end
    else (us, p :: ps).
  Definition crun (s : list (Z * Z)) (st : cst) : cst := fold_left cstep s st.
  Definition cnf (st : cst) : list (Z * Z) := fst st ++ rev (snd st).
  Definition okl (s : list (Z * Z)) : Prop := Forall (fun p => snd p = i \/ snd p = i + 1) s.

  Lemma cancel1_eq : forall p q r, cancel1 (p :: q :: r) =
    if snd q <? snd p then Some r
    else match cancel1 (q :: r) with Some t' => Some (p :: t') | None => None end.
  Proof. reflexivity. Qed.

  Lemma cancel1_run : forall s s' st, okl s -> cancel1 s = Some s' ->
    okl s' /\ crun s' st = crun s st /\ length s = S (S (length s')).
  Proof.
    induction s as [|p t IH]; intros s' st Hok H; [discriminate|].
    destruct t as [|q r]; [discriminate|]. rewrite cancel1_eq in H.
    pose proof (Forall_inv Hok) as Hp. pose proof (Forall_inv_tail Hok) as Ht.
    pose proof (Forall_inv Ht) as Hq. pose proof (Forall_inv_tail Ht) as Hr.
    cbv beta in Hp, Hq.
    destruct (snd q <? snd p) eqn:E.
    - apply Z.ltb_lt in E. assert (Hs : r = s') by congruence. subst s'.
      split; [exact Hr|]. split; [|reflexivity].
      change (crun (p :: q :: r) st) with (crun r (cstep (cstep st p) q)). f_equal.
      destruct st as [us ps]. unfold cstep at 2.
      replace (snd p =? i) with false by (symmetry; apply Z.eqb_neq; lia).
      unfold cstep. replace (snd q =? i) with true by (symmetry; apply Z.eqb_eq; lia).
      reflexivity.
    - destruct (cancel1 (q :: r)) as [t'|] eqn:E2; [|discriminate].
      assert (Hs : p :: t' = s') by congruence. subst s'.
      destruct (IH t' (cstep st p) Ht eq_refl) as (H1 & H2 & H3).
      split; [constructor; assumption|]. split.
      + change (crun (p :: t') st) with (crun t' (cstep st p)). rewrite H2. reflexivity.
      + simpl in *. lia.
  Qed.

  Lemma cancel1_none_ones : forall s p, cancel1 (p :: s) = None -> snd p = i + 1 -> okl s ->
    Forall (fun q => snd q = i + 1) s.
  Proof.
    induction s as [|q r IH]; intros p H Hp Hok; [constructor|].
    rewrite cancel1_eq in H. destruct (snd q <? snd p) eqn:E; [discriminate|].
    apply Z.ltb_ge in E.
    pose proof (Forall_inv Hok) as Hq. pose proof (Forall_inv_tail Hok) as Hr. cbv beta in Hq.
    assert (Hq1 : snd q = i + 1) by lia. constructor; [assumption|].
    apply (IH q); auto. destruct (cancel1 (q :: r)); [discriminate|reflexivity].
  Qed.

  Lemma crun_ones : forall s us ps, Forall (fun q => snd q = i + 1) s ->
    crun s (us, ps) = (us, rev s ++ ps).
  Proof.
    induction s as [|q r IH]; intros us ps H; [reflexivity|].
    change (crun (q :: r) (us, ps)) with (crun r (cstep (us, ps) q)). unfold cstep.
    pose proof (Forall_inv H) as Hq. cbv beta in Hq. rewrite Hq.
    replace (i + 1 =? i) with false by (symmetry; apply Z.eqb_neq; lia).
    rewrite IH by exact (Forall_inv_tail H). simpl. now rewrite <- app_assoc.
  Qed.

  Lemma cancel1_none_nf : forall s us, okl s -> cancel1 s = None -> cnf (crun s (us, [])) = us ++ s.
  Proof.
    induction s as [|p t IH]; intros us Hok H.
    - unfold cnf, crun. simpl. reflexivity.
    - pose proof (Forall_inv Hok) as Hp. pose proof (Forall_inv_tail Hok) as Ht. cbv beta in Hp.
      change (crun (p :: t) (us, [])) with (crun t (cstep (us, []) p)).
      destruct Hp as [Hp|Hp].
      + unfold cstep. rewrite Hp, Z.eqb_refl. rewrite IH; [now rewrite <- app_assoc|assumption|].
        destruct t as [|q r]; [reflexivity|]. rewrite cancel1_eq in H.
        destruct (snd q <? snd p); [discriminate|]. destruct (cancel1 (q :: r)); [discriminate|reflexivity].
      + unfold cstep. rewrite Hp. replace (i + 1 =? i) with false by (symmetry; apply Z.eqb_neq; lia).
        rewrite crun_ones by (apply (cancel1_none_ones t p); assumption).
        unfold cnf. simpl. rewrite rev_app_distr, rev_involutive. reflexivity.
  Qed.

  Lemma cancel_spec : forall fuel s, (length s <= fuel)%nat -> okl s ->
    cancel fuel s = Ok (cnf (crun s ([], []))).
  Proof.
    induction fuel as [|f IH]; intros s Hl Hok; simpl.
    - destruct s; [reflexivity|simpl in Hl; lia].
    - destruct (cancel1 s) as [s'|] eqn:E.
      + destruct (cancel1_run s s' ([], []) Hok E) as (H1 & H2 & H3).
        rewrite IH; [now rewrite H2|lia|assumption].
      + rewrite cancel1_none_nf by assumption. reflexivity.
  Qed.

  (* the run over the whole word *)
  Definition isl (p : Z * Z) : bool := (snd p =? i) || (snd p =? i + 1).

  Definition us_ok (w : list Z) (us ps : list (Z * Z)) : Prop :=
    match rev us with
    | [] => closed_left i w /\ hgt w = - zlen ps
    | (j, _) :: _ => exists x y, w = x ++ i :: y /\ j = zlen x /\ closed_right i x /\ closed_left i y
        /\ hgt y = - zlen ps
    end.
  Definition ps_ok (w : list Z) (ps : list (Z * Z)) : Prop :=
    match rev ps with
    | [] => closed_right i w
    | (j, _) :: _ => exists x y, w = x ++ (i + 1) :: y /\ j = zlen x /\ closed_right i x /\ closed_left i y
        /\ hgt y = 1 - zlen ps
    end.

  Lemma wenum_app : forall u v j, wenum j (u ++ v) = wenum j u ++ wenum (j + zlen u) v.
  Proof.
    induction u as [|a u IH]; intros v j; simpl.
    - f_equal. unfold zlen. simpl. lia.
    - rewrite IH. rewrite zlen_cons. do 2 f_equal. f_equal. lia.
  Qed.

  Lemma crun_inv : forall w,
    let st := crun (crystal_letters i w) ([], []) in
    us_ok w (fst st) (snd st) /\ ps_ok w (snd st) /\
    Forall (fun p => snd p = i) (fst st) /\ Forall (fun p => snd p = i + 1) (snd st).
  Proof.
    induction w as [|c w IH] using rev_ind.
    - simpl. unfold us_ok, ps_ok. simpl. rewrite hgt_nil.
      split; [split; [exact closed_left_nil|reflexivity]|].
      split; [exact closed_right_nil|]. split; constructor.
    - unfold crystal_letters in *. rewrite wenum_app, filter_app. simpl wenum.
      unfold crun in *. rewrite fold_left_app.
      set (st := fold_left cstep (filter (fun p => (snd p =? i) || (snd p =? i + 1)) (wenum 0 w)) ([], [])) in *.
      destruct st as [us ps]. cbn [fst snd] in IH. destruct IH as (HU & HP & HFU & HFP).
      replace (0 + zlen w) with (zlen w) by lia. cbn [filter snd].
      destruct (c =? i) eqn:E1.
      + apply Z.eqb_eq in E1. subst c. cbn [orb fold_left cstep snd]. unfold cstep. cbn [snd].
        rewrite Z.eqb_refl.
        destruct ps as [|q ps].
        * cbn [fst snd]. repeat split.
          -- unfold us_ok. rewrite rev_app_distr. simpl.
             exists w, []. repeat split; auto using closed_left_nil.
          -- unfold ps_ok in *. simpl in *. apply closed_right_snoc; [assumption|]. rewrite hgt1_i. lia.
          -- apply Forall_app. split; [assumption|]. constructor; [reflexivity|constructor].
          -- constructor.
        * cbn [fst snd]. split; [|split; [|split; [assumption|exact (Forall_inv_tail HFP)]]].
          -- unfold us_ok in *. destruct (rev us) as [|[j b] t].
             ++ destruct HU as [H1 H2]. rewrite zlen_cons in H2. pose proof (zlen_nonneg _ ps).
                split; [apply closed_left_snoc; [assumption|]|]; rewrite hgt_app, hgt1_i; lia.
             ++ destruct HU as (x & y & -> & -> & Hx & Hy & Hh). rewrite zlen_cons in Hh.
                pose proof (zlen_nonneg _ ps).
                exists x, (y ++ [i]). rewrite <- app_assoc. repeat split; auto.
                ** apply closed_left_snoc; [assumption|]. rewrite hgt_app, hgt1_i; lia.
                ** rewrite hgt_app, hgt1_i. lia.
          -- unfold ps_ok in *. destruct ps as [|q2 ps].
             ++ simpl in *. destruct q as [j b]. destruct HP as (x & y & -> & -> & Hx & Hy & Hh).
                rewrite <- app_assoc. simpl. apply closed_right_close; auto.
             ++ replace (rev (q :: q2 :: ps)) with (rev (q2 :: ps) ++ [q]) in HP by reflexivity.
                destruct (rev (q2 :: ps)) as [|[j b] t] eqn:Er.
                { apply (f_equal (@length _)) in Er. rewrite rev_length in Er. discriminate. }
                cbn [app] in HP. destruct HP as (x & y & -> & -> & Hx & Hy & Hh).
                exists x, (y ++ [i]). rewrite <- app_assoc. rewrite !zlen_cons in Hh.
                pose proof (zlen_nonneg _ ps).
                repeat split; auto.
                ** apply closed_left_snoc; [assumption|]. rewrite hgt_app, hgt1_i. lia.
                ** rewrite hgt_app, hgt1_i, zlen_cons. lia.
      + apply Z.eqb_neq in E1. rewrite orb_false_l. destruct (c =? i + 1) eqn:E2.
        * apply Z.eqb_eq in E2. subst c. cbn [fold_left]. unfold cstep. cbn [snd].
          replace (i + 1 =? i) with false by (symmetry; apply Z.eqb_neq; lia). cbn [fst snd].
          split; [|split; [|split; [assumption|constructor; [reflexivity|assumption]]]].
          -- unfold us_ok in *. pose proof (zlen_nonneg _ ps). destruct (rev us) as [|[j b] t].
             ++ destruct HU as [H1 H2]. rewrite zlen_cons.
                split; [apply closed_left_snoc; [assumption|]|]; rewrite hgt_app, hgt1_i1; lia.
             ++ destruct HU as (x & y & -> & -> & Hx & Hy & Hh). rewrite zlen_cons.
                exists x, (y ++ [i + 1]). rewrite <- app_assoc. repeat split; auto.
                ** apply closed_left_snoc; [assumption|]. rewrite hgt_app, hgt1_i1; lia.
                ** rewrite hgt_app, hgt1_i1. lia.
          -- unfold ps_ok in *. cbn [rev]. destruct (rev ps) as [|[j b] t] eqn:Er.
             ++ cbn [app]. exists w, []. repeat split; auto using closed_left_nil.
                rewrite hgt_nil, zlen_cons.
                replace ps with (@nil (Z * Z)); [reflexivity|].
                rewrite <- (rev_involutive ps), Er. reflexivity.
             ++ cbn [app]. destruct HP as (x & y & -> & -> & Hx & Hy & Hh).
                assert (0 < zlen ps).
                { rewrite <- (rev_involutive ps), Er. unfold zlen. rewrite rev_length. simpl. lia. }
                exists x, (y ++ [i + 1]). rewrite <- app_assoc. rewrite zlen_cons.
                repeat split; auto.
                ** apply closed_left_snoc; [assumption|]. rewrite hgt_app, hgt1_i1. lia.
                ** rewrite hgt_app, hgt1_i1. lia.
        * apply Z.eqb_neq in E2. cbn [fold_left fst snd].
          pose proof (hgt1_other c E1 E2) as H0.
          split; [|split; [|split; assumption]].
          -- unfold us_ok in *. pose proof (zlen_nonneg _ ps). destruct (rev us) as [|[j b] t].
             ++ destruct HU as [H1 H2].
                split; [apply closed_left_snoc; [assumption|]|]; rewrite hgt_app; lia.
             ++ destruct HU as (x & y & -> & -> & Hx & Hy & Hh).
                exists x, (y ++ [c]). rewrite <- app_assoc. repeat split; auto.
                ** apply closed_left_snoc; [assumption|]. rewrite hgt_app; lia.
                ** rewrite hgt_app. lia.
          -- unfold ps_ok in *. destruct (rev ps) as [|[j b] t] eqn:Er.
             ++ apply closed_right_snoc; [assumption|lia].
             ++ destruct HP as (x & y & -> & -> & Hx & Hy & Hh).
                exists x, (y ++ [c]). rewrite <- app_assoc. 
                repeat split; auto.
                ** apply closed_left_snoc; [assumption|]. apply closed_left_hgt in Hy. rewrite hgt_app. lia.
                ** rewrite hgt_app. lia.
  Qed.

  Lemma okl_letters : forall w, okl (crystal_letters i w).
  Proof.
    intro w. unfold okl, crystal_letters. apply Forall_forall. intros p Hp. apply filter_In in Hp.
    destruct Hp as [_ Hp]. apply orb_true_iff in Hp. rewrite !Z.eqb_eq in Hp. assumption.
  Qed.

  Lemma filter_all : forall A (p : A -> bool) l, (forall x, In x l -> p x = true) -> filter p l = l.
  Proof.
    induction l as [|a l IH]; intro H; simpl; [reflexivity|].
    rewrite H by (left; reflexivity). f_equal. apply IH. intros x Hx. apply H. right. assumption.
  Qed.
  Lemma filter_none : forall A (p : A -> bool) l, (forall x, In x l -> p x = false) -> filter p l = [].
  Proof.
    induction l as [|a l IH]; intro H; simpl; [reflexivity|].
    rewrite H by (left; reflexivity). apply IH. intros x Hx. apply H. right. assumption.
  Qed.

  Lemma cnf_filters : forall us ps, Forall (fun p => snd p = i) us -> Forall (fun p => snd p = i + 1) ps ->
    filter (fun p : Z * Z => snd p =? i) (cnf (us, ps)) = us /\
    filter (fun p : Z * Z => snd p =? i + 1) (cnf (us, ps)) = rev ps.
  Proof.
    intros us ps HU HP. rewrite Forall_forall in HU, HP. unfold cnf. cbn [fst snd].
    rewrite !filter_app.
    assert (A1 : forall x : Z * Z, In x (rev ps) -> snd x = i + 1) by (intros x Hx; apply HP, in_rev, Hx).
    split.
    - rewrite filter_all, filter_none, app_nil_r; [reflexivity| |].
      + intros x Hx. apply Z.eqb_neq. rewrite A1 by assumption. lia.
      + intros x Hx. apply Z.eqb_eq. auto.
    - rewrite filter_none, filter_all; [reflexivity| |].
      + intros x Hx. apply Z.eqb_eq. auto.
      + intros x Hx. apply Z.eqb_neq. rewrite HU by assumption. lia.
  Qed.

  Lemma nthz_mid : forall x (a : Z) y, nthz (x ++ a :: y) (zlen x) = a.
  Proof. intros. unfold nthz, zlen. rewrite Nat2Z.id. apply nth_middle. Qed.
  Lemma firstn_mid : forall x (a : Z) y, firstn (Z.to_nat (zlen x)) (x ++ a :: y) = x.
  Proof.
    intros. unfold zlen. rewrite Nat2Z.id, firstn_app, firstn_all, Nat.sub_diag. simpl. apply app_nil_r.
  Qed.
  Lemma skipn_mid : forall x (a : Z) y, skipn (Z.to_nat (zlen x + 1)) (x ++ a :: y) = y.
  Proof.
    intros. unfold zlen. replace (Z.to_nat (Z.of_nat (length x) + 1)) with (length x + 1)%nat by lia.
    rewrite skipn_app, skipn_all2 by lia. replace (length x + 1 - length x)%nat with 1%nat by lia. reflexivity.
  Qed.

  Lemma f_word_cases : forall w,
    (f_word i w = Ok None /\ closed_left i w) \/
    exists x y, w = x ++ i :: y /\ closed_right i x /\ closed_left i y /\
                f_word i w = Ok (Some (x ++ (i + 1) :: y)).
  Proof.
    intro w. unfold f_word. rewrite cancel_spec by (auto using okl_letters). cbn [rbind].
    pose proof (crun_inv w) as H. cbv zeta in H.
    destruct (crun (crystal_letters i w) ([], [])) as [us ps]. cbn [fst snd] in H.
    destruct H as (HU & _ & HFU & HFP). destruct (cnf_filters us ps HFU HFP) as [E _]. rewrite E.
    unfold us_ok in HU. destruct (rev us) as [|[j b] t].
    - left. split; [reflexivity|tauto].
    - right. destruct HU as (x & y & -> & -> & Hx & Hy & _). exists x, y.
      rewrite nthz_mid, Z.eqb_refl, firstn_mid, skipn_mid. repeat split; auto.
  Qed.

  Lemma e_word_cases : forall w,
    (e_word i w = Ok None /\ closed_right i w) \/
    exists x y, w = x ++ (i + 1) :: y /\ closed_right i x /\ closed_left i y /\
                e_word i w = Ok (Some (x ++ i :: y)).
  Proof.
    intro w. unfold e_word. rewrite cancel_spec by (auto using okl_letters). cbn [rbind].
    pose proof (crun_inv w) as H. cbv zeta in H.
    destruct (crun (crystal_letters i w) ([], [])) as [us ps]. cbn [fst snd] in H.
    destruct H as (_ & HP & HFU & HFP). destruct (cnf_filters us ps HFU HFP) as [_ E]. rewrite E.
    unfold ps_ok in HP. destruct (rev ps) as [|[j b] t].
    - left. split; [reflexivity|tauto].
    - right. destruct HP as (x & y & -> & -> & Hx & Hy & _). exists x, y.
      rewrite nthz_mid, Z.eqb_refl, firstn_mid, skipn_mid. repeat split; auto.
  Qed.

  (* uniqueness of the factorisation *)
  Lemma rule_unique : forall a x y x' y', (a = i \/ a = i + 1) ->
    x ++ a :: y = x' ++ a :: y' ->
    closed_right i x -> closed_left i y -> closed_right i x' -> closed_left i y' -> x = x' /\ y = y'.
  Proof.
    intros a x y x' y' Ha E Hx Hy Hx' Hy'. rewrite closed_right_h in *. rewrite closed_left_h in *.
    apply app_split in E. destruct E as [(t & E1 & E2)|(t & E1 & E2)].
    - destruct t as [|c t].
      + rewrite app_nil_r in E1. simpl in E2. split; [congruence|]. congruence.
      + exfalso. simpl in E2. injection E2 as E2 E3. subst c.
        destruct Ha as [->| ->].
        * specialize (Hy (t ++ [i]) y'). rewrite hgt_app, hgt1_i in Hy.
          specialize (Hx' (x ++ [i]) t). rewrite <- app_assoc in Hx'. simpl in Hx'. specialize (Hx' E1).
          rewrite <- app_assoc in Hy. specialize (Hy E3). lia.
        * specialize (Hx' x ((i + 1) :: t) E1). change ((i + 1) :: t) with ([i + 1] ++ t) in Hx'.
          rewrite hgt_app, hgt1_i1 in Hx'. specialize (Hy t ((i + 1) :: y') E3). lia.
    - destruct t as [|c t].
      + rewrite app_nil_r in E1. simpl in E2. split; [congruence|]. congruence.
      + exfalso. simpl in E2. injection E2 as E2 E3. subst c.
        destruct Ha as [->| ->].
        * specialize (Hy' (t ++ [i]) y). rewrite hgt_app, hgt1_i in Hy'.
          specialize (Hx (x' ++ [i]) t). rewrite <- app_assoc in Hx. simpl in Hx. specialize (Hx E1).
          rewrite <- app_assoc in Hy'. specialize (Hy' E3). lia.
        * specialize (Hx x' ((i + 1) :: t) E1). change ((i + 1) :: t) with ([i + 1] ++ t) in Hx.
          rewrite hgt_app, hgt1_i1 in Hx. specialize (Hy' t ((i + 1) :: y) E3). lia.
  Qed.

  Lemma f_word_rule : forall w v, f_word i w = Ok (Some v) <-> f_rule i w v.
  Proof.
    intros w v. destruct (f_word_cases w) as [[-> Hl]|(x & y & -> & Hx & Hy & ->)].
    - split; [discriminate|]. intros (x & y & -> & -> & Hx & Hy). exfalso.
      rewrite closed_left_h in Hl. specialize (Hl (x ++ [i]) y). rewrite <- app_assoc in Hl.
      specialize (Hl eq_refl). rewrite hgt_app, hgt1_i in Hl. rewrite closed_right_h in Hx.
      specialize (Hx [] x eq_refl). lia.
    - split.
      + intro E. injection E as <-. exists x, y. auto.
      + intros (x' & y' & E & -> & Hx' & Hy').
        destruct (rule_unique i x y x' y') as [-> ->]; auto.
  Qed.
  Lemma e_word_rule : forall w v, e_word i w = Ok (Some v) <-> e_rule i w v.
  Proof.
    intros w v. destruct (e_word_cases w) as [[-> Hl]|(x & y & -> & Hx & Hy & ->)].
    - split; [discriminate|]. intros (x & y & -> & -> & Hx & Hy). exfalso.
      rewrite closed_right_h in Hl. specialize (Hl x ((i + 1) :: y) eq_refl).
      change ((i + 1) :: y) with ([i + 1] ++ y) in Hl.
      rewrite hgt_app, hgt1_i1 in Hl. rewrite closed_left_h in Hy.
      specialize (Hy y []). rewrite app_nil_r in Hy. specialize (Hy eq_refl). lia.
    - split.
      + intro E. injection E as <-. exists x, y. auto.
      + intros (x' & y' & E & -> & Hx' & Hy').
        destruct (rule_unique (i + 1) x y x' y') as [-> ->]; auto.
  Qed.
  Lemma f_word_total : forall w, exists r, f_word i w = Ok r.
  Proof. intro w. destruct (f_word_cases w) as [[-> _]|(x & y & _ & _ & _ & ->)]; eauto. Qed.
  Lemma e_word_total : forall w, exists r, e_word i w = Ok r.
  Proof. intro w. destruct (e_word_cases w) as [[-> _]|(x & y & _ & _ & _ & ->)]; eauto. Qed.
End Crystal.

Lemma rules_inverse : forall i w v, f_rule i w v <-> e_rule i v w.
Proof.
  intros i w v. split; intros (x & y & H1 & H2 & H3 & H4); exists x, y; auto.
Qed.
Lemma f_rule_length : forall i w v, f_rule i w v -> length v = length w.
Proof. intros i w v (x & y & -> & -> & _). rewrite !app_length. reflexivity. Qed.

Lemma split_like_spec : forall args w, length w = length (concat args) ->
  concat (split_like args w) = w /\ map (@length Z) (split_like args w) = map (@length Z) args.
Proof.
  induction args as [|a args IH]; intros w H; simpl in *.
  - destruct w; [auto|discriminate].
  - rewrite app_length in H.
    assert (Hl : length (skipn (length a) w) = length (concat args)) by (rewrite skipn_length; lia).
    destruct (IH _ Hl) as [H1 H2]. rewrite H1, H2. rewrite firstn_skipn. split; [reflexivity|].
    f_equal. rewrite firstn_length. lia.
Qed.
Lemma split_like_inv : forall args args', map (@length Z) args = map (@length Z) args' ->
  split_like args (concat args') = args'.
Proof.
  induction args as [|a args IH]; intros [|b args'] H; simpl in *; try discriminate; [reflexivity|].
  injection H as H1 H2. rewrite H1.
  rewrite firstn_app, firstn_all, Nat.sub_diag, skipn_app, skipn_all, Nat.sub_diag. simpl.
  rewrite app_nil_r, IH by assumption. reflexivity.
Qed.
