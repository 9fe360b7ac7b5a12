From Coq Require Import List ZArith Bool Lia Permutation Sorted.
From Verif Require Import PyBase M_Partitions S_Partitions L_PartMore M_Perm M_PermGroth M_Bruhat S_Perm L_Words2 L_Perm L_PermLen L_PermWord L_PermMisc L_LevelsInst L_InvLen L_InvLen2 L_InvLen6 M_Grass S_Grass L_Grass1 L_Grass2.
From Verif Require L_PartBasic L_Partitions L_Tableaux P_Partitions.
Import ListNotations.
Local Open Scope Z_scope.

(* counting pairs *)
Definition dbl (P : Z -> Z -> bool) (l m : list Z) : Z := zsum (map (fun i => cnt (P i) m) l).
Lemma dbl_cons : forall P a l m, dbl P (a :: l) m = cnt (P a) m + dbl P l m.
Proof. reflexivity. Qed.
Lemma dbl_ext : forall P Q l m, (forall i j, In i l -> In j m -> P i j = Q i j) -> dbl P l m = dbl Q l m.
Proof. induction l as [|a l IH]; intros m H; [reflexivity|]. rewrite !dbl_cons. rewrite IH by (intros; apply H; [right|]; assumption). f_equal. apply cnt_ext. intros; apply H; [left; reflexivity|assumption]. Qed.
Lemma dbl_snd : forall P l b m, dbl P l (b :: m) = cnt (fun i => P i b) l + dbl P l m.
Proof. induction l as [|a l IH]; intros b m; [reflexivity|]. rewrite !dbl_cons, IH, !cnt_cons. lia. Qed.
Lemma dbl_swap : forall P l m, dbl P l m = dbl (fun j i => P i j) m l.
Proof. induction l as [|a l IH]; intro m; [induction m as [|b m IHm]; [reflexivity|rewrite dbl_cons, <- IHm; reflexivity]|]. rewrite dbl_cons, dbl_snd, IH. reflexivity. Qed.
Lemma dbl_perm : forall P l l' m m', Permutation l l' -> Permutation m m' -> dbl P l m = dbl P l' m'.
Proof.
  intros P l l' m m' H1 H2. unfold dbl. rewrite (zsum_perm _ _ (Permutation_map (fun i => cnt (P i) m) H1)). apply zsum_map_ext. intros x _. apply cnt_perm. exact H2.
Qed.
Lemma dbl_map : forall P f l m, dbl P (map f l) (map f m) = dbl (fun i j => P (f i) (f j)) l m.
Proof. intros. unfold dbl. rewrite map_map. apply zsum_map_ext. intros x _. apply cnt_map. Qed.
Definition ind (b : bool) : Z := if b then 1 else 0.
Lemma cnt_add : forall p q r l, (forall x, In x l -> ind (p x) = ind (q x) + ind (r x)) -> cnt p l = cnt q l + cnt r l.
Proof. induction l as [|a l IH]; intro H; [reflexivity|]. rewrite !cnt_cons, IH by (intros; apply H; right; assumption). specialize (H a (or_introl eq_refl)). unfold ind in H. destruct (p a), (q a), (r a); lia. Qed.
Lemma cnt_add2 : forall p q r s l, (forall x, In x l -> ind (p x) + ind (s x) = ind (q x) + ind (r x)) -> cnt p l + cnt s l = cnt q l + cnt r l.
Proof. induction l as [|a l IH]; intro H; [reflexivity|]. rewrite !cnt_cons. specialize (IH (fun x Hx => H x (or_intror Hx))). specialize (H a (or_introl eq_refl)). unfold ind in H. destruct (p a), (q a), (r a), (s a); lia. Qed.
Lemma dbl_add : forall P Q R l m, (forall i j, In i l -> In j m -> ind (P i j) = ind (Q i j) + ind (R i j)) -> dbl P l m = dbl Q l m + dbl R l m.
Proof. induction l as [|a l IH]; intros m H; [reflexivity|]. rewrite !dbl_cons, IH by (intros; apply H; [right|]; assumption). rewrite (cnt_add (P a) (Q a) (R a)) by (intros; apply H; [left; reflexivity|assumption]). lia. Qed.
Lemma cnt_le : forall p q l, (forall x, In x l -> p x = true -> q x = true) -> cnt p l <= cnt q l.
Proof. induction l as [|a l IH]; intro H; [rewrite !cnt_nil; lia|]. rewrite !cnt_cons. specialize (IH (fun x Hx => H x (or_intror Hx))). specialize (H a (or_introl eq_refl)). destruct (p a), (q a); try lia; specialize (H eq_refl); discriminate. Qed.
Lemma cnt_single : forall a b n l, NoDup l -> (In a l -> n = ind b) -> (~ In a l -> n = 0) -> cnt (fun j => (j =? a) && b) l = n.
Proof.
  intros a b n l N H1 H2. destruct (in_dec Z.eq_dec a l) as [h|h].
  - rewrite (H1 h). clear H1 H2. induction l as [|x l IH]; [destruct h|]. inversion N as [|? ? N1 N2]; subst. rewrite cnt_cons. destruct (Z.eqb_spec x a) as [->|n0].
    + rewrite cnt_zero; [destruct b; reflexivity|]. intros y Hy. destruct (Z.eqb_spec y a) as [->|]; [contradiction|reflexivity].
    + destruct h as [h|h]; [congruence|]. rewrite (IH N2 h). reflexivity.
  - rewrite (H2 h). apply cnt_zero. intros x Hx. destruct (Z.eqb_spec x a) as [->|]; [contradiction|reflexivity].
Qed.

(* codes of an unsigned involution *)
Section Code.
Variable w : list Z.
Hypothesis Hw : invol w.
Hypothesis Pw : positive w.
Let N := zlen w.
Let R := zrange 1 (N + 1).
Let call_range : forall i, 1 <= i <= N -> 1 <= pcall w i <= N.
Proof. intros i Hi. pose proof (pos_call w i Pw ltac:(lia)). pose proof (pcall_abs w i (proj1 (proj1 Hw)) ltac:(unfold N in Hi; lia)). unfold N in *. lia. Qed.
Let wperm : Permutation (map (pcall w) R) R.
Proof.
  apply NoDup_Permutation_bis; [|rewrite map_length; lia|].
  - apply FinFun.Injective_map_NoDup; [|apply NoDup_zrange]. intros x y E. rewrite <- (proj2 Hw x), E. apply Hw.
  - intros x Hx. apply in_map_iff in Hx. destruct Hx as (i & <- & Hi). apply In_zrange in Hi. apply In_zrange. pose proof (call_range i ltac:(lia)). lia.
Qed.
Definition icode (i : Z) : Z := cnt (fun j => (i <? j) && ((pcall w j <=? i) && (pcall w j <? pcall w i))) R.
Definition fcode (i : Z) : Z := cnt (fun j => (i <? j) && ((pcall w j <? i) && (pcall w j <? pcall w i))) R.
Lemma cnt_window : forall (P : Z -> bool) i, 1 <= i <= N -> (forall j, N < j -> P j = false) -> zlen (filter P (zrange (i + 1) (N + i))) = cnt (fun j => (i <? j) && P j) R.
Proof.
  intros P i Hi H. fold (cnt P (zrange (i + 1) (N + i))). rewrite (zrange_app (i + 1) (N + 1) (N + i)) by lia. rewrite cnt_app, (cnt_zero P (zrange (N + 1) (N + i))) by (intros j Hj; apply In_zrange in Hj; apply H; lia).
  unfold R. rewrite (zrange_app 1 (i + 1) (N + 1)) by lia. rewrite cnt_app, (cnt_zero _ (zrange 1 (i + 1))) by (intros j Hj; apply In_zrange in Hj; lia). rewrite Z.add_0_r. cbn [Z.add]. apply cnt_ext. intros j Hj. apply In_zrange in Hj. replace (i <? j) with true by lia. reflexivity.
Qed.
Let unsigned : is_unsigned w = true.
Proof. apply is_unsigned_spec. exact Pw. Qed.
Lemma icode_ok : involution_code w = Ok (map icode R).
Proof.
  unfold involution_code. rewrite unsigned, is_involution_true by exact Hw. cbn [rbind]. f_equal. unfold R. rewrite (Z.add_comm 1 (zlen w)). apply map_ext_in. intros i Hi. apply In_zrange in Hi. apply (cnt_window (fun j => (pcall w j <=? i) && (pcall w j <? pcall w i))); [fold N in Hi; lia|].
  intros j Hj. rewrite pcall_out by (unfold N in *; lia). fold N in Hi. lia.
Qed.
Lemma fcode_ok : is_fpf_involution w = Ok true -> fpf_involution_code w = Ok (map fcode R).
Proof.
  intro F. unfold fpf_involution_code. rewrite unsigned, F. cbn [rbind]. f_equal. unfold R. rewrite (Z.add_comm 1 (zlen w)). apply map_ext_in. intros i Hi. apply In_zrange in Hi. apply (cnt_window (fun j => (pcall w j <? i) && (pcall w j <? pcall w i))); [fold N in Hi; lia|].
  intros j Hj. rewrite pcall_out by (unfold N in *; lia). fold N in Hi. lia.
Qed.
Let inv_dbl : ell w = dbl (fun i j => (i <? j) && (pcall w j <? pcall w i)) R R.
Proof.
  rewrite ell_unsigned by exact Pw. rewrite <- zsum_codel. pose proof (code_ok w (proj1 Hw) Pw) as C. unfold code in C. rewrite unsigned in C. assert (Inj : forall a b : list Z, Ok a = Ok b -> a = b) by (intros a b X; injection X as X; exact X). apply Inj in C. rewrite <- C. unfold dbl. rewrite (Z.add_comm 1 (zlen w)). apply zsum_map_ext. intros i Hi. apply In_zrange in Hi. fold N in Hi.
  apply (cnt_window (fun j => pcall w j <? pcall w i)); [lia|]. intros j Hj. rewrite pcall_out by (unfold N in *; lia). pose proof (call_range i ltac:(lia)). lia.
Qed.
Let cyc := cnt (fun x => x <? pcall w x) R.
Let nu_cyc : nu w = cyc.
Proof.
  unfold nu. rewrite pnegs_count, ppair_count. fold N R. rewrite cnt_zero; [|intros x Hx; apply In_zrange in Hx; pose proof (call_range x ltac:(lia)); lia]. unfold cyc. cbn [Z.add]. apply cnt_ext. intros x Hx. apply In_zrange in Hx. pose proof (call_range x ltac:(lia)). rewrite Z.abs_eq by lia. reflexivity.
Qed.
Let A := dbl (fun i j => (i <? j) && ((pcall w j <? i) && (pcall w j <? pcall w i))) R R.
Let B := dbl (fun i j => (i <? j) && ((pcall w j =? i) && (pcall w j <? pcall w i))) R R.
Let C := dbl (fun i j => (i <? j) && ((i <? pcall w j) && (pcall w j <? pcall w i))) R R.
Let AC : A = C.
Proof.
  unfold A. rewrite <- (dbl_perm _ _ _ _ _ wperm wperm), dbl_map, dbl_swap. apply dbl_ext. intros i j _ _. rewrite !(proj2 Hw). lia.
Qed.
Let Bcyc : B = cyc.
Proof.
  unfold B, cyc, dbl. assert (E : forall i, In i R -> cnt (fun j => (i <? j) && ((pcall w j =? i) && (pcall w j <? pcall w i))) R = ind (i <? pcall w i)).
  { intros i Hi. rewrite (cnt_ext _ (fun j => (j =? pcall w i) && (i <? pcall w i))).
    - apply cnt_single; [apply NoDup_zrange|reflexivity|]. intro K. exfalso. apply K. apply In_zrange in Hi. apply In_zrange. pose proof (call_range i ltac:(lia)). lia.
    - intros j Hj. destruct (Z.eqb_spec (pcall w j) i) as [<-|n]; [rewrite (proj2 Hw); rewrite Z.eqb_refl; lia|]. destruct (Z.eqb_spec j (pcall w i)) as [->|]; [rewrite (proj2 Hw) in n; congruence|lia]. }
  rewrite (zsum_map_ext _ (fun i => ind (i <? pcall w i)) R E). clear. induction R as [|a l IH]; [reflexivity|]. rewrite cnt_cons. cbn [map]. change (zsum (?a :: ?l)) with (a + zsum l). rewrite IH. unfold ind. reflexivity.
Qed.
Let inv_ABC : ell w = A + B + C.
Proof.
  rewrite inv_dbl. rewrite (dbl_add _ (fun i j => (i <? j) && ((pcall w j <=? i) && (pcall w j <? pcall w i))) (fun i j => (i <? j) && ((i <? pcall w j) && (pcall w j <? pcall w i)))) by (intros i j _ _; unfold ind; destruct (i <? j) eqn:?, (pcall w j <=? i) eqn:?, (i <? pcall w j) eqn:?, (pcall w j <? pcall w i) eqn:?; cbn; lia).
  fold C. f_equal. apply dbl_add. intros i j _ _; unfold ind; destruct (i <? j) eqn:?, (pcall w j <=? i) eqn:?, (pcall w j <? i) eqn:?, (pcall w j =? i) eqn:?, (pcall w j <? pcall w i) eqn:?; cbn; lia.
Qed.
Lemma icode_sum : 2 * zsum (map icode R) = ell w + nu w.
Proof.
  change (zsum (map icode R)) with (dbl (fun i j => (i <? j) && ((pcall w j <=? i) && (pcall w j <? pcall w i))) R R).
  rewrite (dbl_add _ (fun i j => (i <? j) && ((pcall w j <? i) && (pcall w j <? pcall w i))) (fun i j => (i <? j) && ((pcall w j =? i) && (pcall w j <? pcall w i)))) by (intros i j _ _; unfold ind; destruct (i <? j) eqn:?, (pcall w j <=? i) eqn:?, (pcall w j <? i) eqn:?, (pcall w j =? i) eqn:?, (pcall w j <? pcall w i) eqn:?; cbn; lia).
  fold A B. rewrite inv_ABC, nu_cyc. lia.
Qed.
Lemma fcode_sum : 2 * zsum (map fcode R) = ell w - nu w.
Proof. change (zsum (map fcode R)) with A. rewrite inv_ABC, nu_cyc. lia. Qed.

(* arcs over a point *)
Definition dep (i : Z) : Z := cnt (fun j => (i <? j) && (pcall w j <=? i)) R.
Lemma dep_zero : dep 0 = 0.
Proof. apply cnt_zero. intros j Hj. apply In_zrange in Hj. pose proof (call_range j ltac:(lia)). lia. Qed.
Lemma dep_step : forall i, 1 <= i <= N -> dep i = dep (i - 1) + ind (i <? pcall w i) - ind (pcall w i <? i).
Proof.
  intros i Hi. pose proof (call_range i Hi) as Ri.
  assert (K : dep i + cnt (fun j => (j =? i) && (pcall w i <? i)) R = dep (i - 1) + cnt (fun j => (j =? pcall w i) && (i <? pcall w i)) R).
  { apply cnt_add2. intros j Hj. apply In_zrange in Hj. unfold ind. assert (E1 : j = i \/ j <> i) by lia. assert (E2 : j = pcall w i \/ pcall w j <> i). { destruct (Z.eq_dec (pcall w j) i) as [<-|n]; [left; rewrite (proj2 Hw); reflexivity|right; exact n]. }
    destruct E1 as [->|E1].
    - destruct (Z.ltb_spec i i); [lia|]. cbn [andb]. rewrite Z.eqb_refl. cbn [andb]. replace (i - 1 <? i) with true by lia. cbn [andb]. destruct (Z.ltb_spec (pcall w i) i), (Z.leb_spec (pcall w i) (i - 1)), (Z.eqb_spec i (pcall w i)), (Z.ltb_spec i (pcall w i)); cbn; lia.
    - replace (j =? i) with false by lia. cbn [andb]. destruct E2 as [->|E2].
      + rewrite (proj2 Hw). rewrite Z.eqb_refl. cbn [andb]. destruct (Z.ltb_spec i (pcall w i)), (Z.leb_spec i i), (Z.ltb_spec (i - 1) (pcall w i)), (Z.leb_spec i (i - 1)); cbn; lia.
      + replace (j =? pcall w i) with false. 2:{ symmetry. apply Z.eqb_neq. intros ->. rewrite (proj2 Hw) in E2. congruence. }
        cbn [andb]. destruct (Z.ltb_spec i j), (Z.leb_spec (pcall w j) i), (Z.ltb_spec (i - 1) j), (Z.leb_spec (pcall w j) (i - 1)); cbn; lia. }
  rewrite (cnt_single i (pcall w i <? i) (ind (pcall w i <? i))) in K; [|apply NoDup_zrange|reflexivity|intro H; exfalso; apply H, In_zrange; lia].
  rewrite (cnt_single (pcall w i) (i <? pcall w i) (ind (i <? pcall w i))) in K; [|apply NoDup_zrange|reflexivity|intro H; exfalso; apply H, In_zrange; lia]. lia.
Qed.
Lemma dep_values : forall i v, 0 <= i <= N -> 1 <= v <= dep i -> exists k, 1 <= k <= i /\ k < pcall w k /\ dep k = v.
Proof.
  intros i v [H0 Hi]. revert Hi. apply (natlike_ind (fun i => i <= N -> 1 <= v <= dep i -> exists k, 1 <= k <= i /\ k < pcall w k /\ dep k = v)); [| |exact H0].
  - intros _ Hv. rewrite dep_zero in Hv. lia.
  - intros d Hd IH Hi Hv. destruct (Z_le_gt_dec v (dep d)) as [L|L]; [destruct IH as (k & ? & ? & ?); [lia|lia|]; exists k; repeat split; lia|].
    unfold Z.succ in *. pose proof (dep_step (d + 1) ltac:(lia)) as E. replace (d + 1 - 1) with d in E by lia. exists (d + 1). unfold ind in E. destruct (Z.ltb_spec (d + 1) (pcall w (d + 1))), (Z.ltb_spec (pcall w (d + 1)) (d + 1)); repeat split; lia.
Qed.
Lemma icode_dep : forall i, i <= pcall w i -> icode i = dep i.
Proof.
  intros i Hi. apply cnt_ext. intros j _. destruct (Z.ltb_spec i j) as [h|]; [|reflexivity]. destruct (Z.leb_spec (pcall w j) i) as [h2|]; [|reflexivity]. cbn [andb]. destruct (Z.ltb_spec (pcall w j) (pcall w i)) as [|h3]; [reflexivity|]. exfalso. assert (E : pcall w j = pcall w i) by lia. assert (j = i) by (rewrite <- (proj2 Hw j), E; apply Hw). lia.
Qed.
Lemma icode_le : forall i, icode i <= dep i.
Proof. intro i. apply cnt_le. intros j _ H. lia. Qed.
Lemma icode_values : forall x v, In x (map icode R) -> 1 <= v <= x -> In v (map icode R).
Proof.
  intros x v Hx Hv. apply in_map_iff in Hx. destruct Hx as (i & <- & Hi). apply In_zrange in Hi. pose proof (icode_le i). destruct (dep_values i v ltac:(lia) ltac:(lia)) as (k & Hk & Lk & Ek). apply in_map_iff. exists k. split; [rewrite icode_dep by lia; exact Ek|apply In_zrange; lia].
Qed.
Lemma fcode_dep : forall i, 1 <= i <= N -> i < pcall w i -> fcode i = dep i - 1.
Proof.
  intros i Hi Li. pose proof (call_range i Hi) as Ri. enough (dep i = fcode i + 1) by lia.
  replace 1 with (cnt (fun j => (j =? pcall w i) && true) R) by (apply cnt_single; [apply NoDup_zrange|reflexivity|intro H; exfalso; apply H, In_zrange; lia]).
  apply cnt_add. intros j _. unfold ind. destruct (Z.eqb_spec j (pcall w i)) as [->|n].
  - rewrite (proj2 Hw). cbn [andb]. destruct (Z.ltb_spec i (pcall w i)), (Z.leb_spec i i), (Z.ltb_spec i i); cbn; lia.
  - assert (n2 : pcall w j <> i) by (intros <-; rewrite (proj2 Hw) in n; congruence). cbn [andb]. destruct (Z.ltb_spec i j), (Z.leb_spec (pcall w j) i), (Z.ltb_spec (pcall w j) i), (Z.ltb_spec (pcall w j) (pcall w i)); cbn; lia.
Qed.
Lemma fcode_right : forall i, pcall w i < i -> fcode i <= fcode (pcall w i).
Proof. intros i Li. apply cnt_le. intros j _ H. rewrite (proj2 Hw). lia. Qed.
Lemma fcode_values : (forall i, 1 <= i <= N -> pcall w i <> i) -> forall x v, In x (map fcode R) -> 1 <= v <= x -> In v (map fcode R).
Proof.
  intros F x v Hx Hv. apply in_map_iff in Hx. destruct Hx as (i & <- & Hi). apply In_zrange in Hi.
  assert (G : exists a, 1 <= a <= N /\ a < pcall w a /\ v <= fcode a).
  { destruct (Z.lt_total i (pcall w i)) as [L|[E|L]]; [exists i; repeat split; lia|exfalso; apply (F i); lia|]. exists (pcall w i). pose proof (call_range i ltac:(lia)). pose proof (fcode_right i L). rewrite (proj2 Hw). repeat split; lia. }
  destruct G as (a & Ha & La & Va). rewrite fcode_dep in Va by assumption. destruct (dep_values a (v + 1) ltac:(lia) ltac:(lia)) as (k & Hk & Lk & Ek). apply in_map_iff. exists k. split; [rewrite fcode_dep by lia; lia|apply In_zrange; lia].
Qed.
End Code.

(* conjugate of a sorted code *)
Lemma cnt_filter_pos : forall v c, 0 <= v -> cnt (fun x => v <? x) (filter (fun x => 0 <? x) c) = cnt (fun x => v <? x) c.
Proof. induction c as [|a c IH]; intro H; [reflexivity|]. cbn [filter]. rewrite cnt_cons. destruct (Z.ltb_spec 0 a); [rewrite cnt_cons, IH by exact H; reflexivity|]. rewrite IH by exact H. destruct (Z.ltb_spec v a); lia. Qed.
Lemma shape_row : forall c k, Forall (fun x => 0 <= x) c -> row (transpose (psort c true)) k = cnt (fun x => Z.of_nat k <? x) c.
Proof.
  intros c k F. destruct (psort_partition_of c F) as [M P]. rewrite L_PartBasic.transpose_row by (apply L_Partitions.partition_weak; exact M). change (L_PartBasic.cnt (psort c true) (Z.of_nat k)) with (cnt (fun x => Z.of_nat k <? x) (psort c true)).
  rewrite (cnt_perm _ _ _ P). apply cnt_filter_pos. lia.
Qed.
Lemma shape_strict : forall c, Forall (fun x => 0 <= x) c -> (forall x v, In x c -> 1 <= v <= x -> In v c) -> strict_partition (transpose (psort c true)) /\ size (transpose (psort c true)) = zsum c.
Proof.
  intros c F H. destruct (psort_partition_of c F) as [M P]. assert (Wk : weak_partition (psort c true)) by (apply L_Partitions.partition_weak; exact M). destruct (L_PartBasic.transpose_partition _ Wk) as [T1 T2]. split.
  - split; [exact T1|]. intros i Hi. assert (K : 0 < row (transpose (psort c true)) (S i)) by (rewrite Forall_forall in T1; apply T1; unfold row; apply nth_In; exact Hi). rewrite shape_row in K by exact F. rewrite !shape_row by exact F.
    assert (X : exists x, In x c /\ Z.of_nat (S i) < x). { unfold cnt in K. destruct (filter (fun x => Z.of_nat (S i) <? x) c) as [|x l] eqn:E; [unfold zlen in K; cbn in K; lia|]. assert (Q : In x (filter (fun x => Z.of_nat (S i) <? x) c)) by (rewrite E; left; reflexivity). apply filter_In in Q. exists x. split; [apply Q|]. destruct Q as [_ Q]. apply Z.ltb_lt in Q. exact Q. }
    destruct X as (x & Hx & Lx). assert (V : In (Z.of_nat i + 1) c) by (apply (H x); [exact Hx|lia]). rewrite (cnt_add (fun x => Z.of_nat i <? x) (fun x => Z.of_nat (S i) <? x) (fun x => x =? Z.of_nat i + 1)).
    + assert (0 < cnt (fun x => x =? Z.of_nat i + 1) c); [|lia]. clear - V. induction c as [|a c IH]; [destruct V|]. rewrite cnt_cons. pose proof (cnt_nonneg (fun x => x =? Z.of_nat i + 1) c). destruct V as [->|V]; [rewrite Z.eqb_refl; lia|]. specialize (IH V). destruct (a =? Z.of_nat i + 1); lia.
    + intros y _. unfold ind. destruct (Z.ltb_spec (Z.of_nat i) y), (Z.ltb_spec (Z.of_nat (S i)) y), (Z.eqb_spec y (Z.of_nat i + 1)); lia.
  - rewrite L_PartBasic.transpose_size by exact Wk. rewrite L_PartBasic.size_zsum. rewrite (zsum_perm _ _ P). clear - F. induction c as [|a c IH]; [reflexivity|]. inversion F as [|? ? F1 F2]; subst. cbn [filter]. specialize (IH F2). change (zsum (a :: c)) with (a + zsum c). destruct (Z.ltb_spec 0 a) as [h|h]; [change (zsum (a :: filter (fun x => 0 <? x) c)) with (a + zsum (filter (fun x => 0 <? x) c)); lia|lia].
Qed.
