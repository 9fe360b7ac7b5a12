(* The step of the shifted growth diagram keeps the invariant, whichever case applies *)
From Coq Require Import List ZArith Lia Bool Permutation Arith.
From Verif Require Import PyBase M_Partitions S_Partitions L_Partitions L_PartBasic L_PartMore P_Partitions M_SGrowth L_SGrowth.
Import ListNotations.
Local Open Scope Z_scope.
Local Notation rw := get.

Lemma zle_spec : forall p q : list Z, zlist_eqb p q = true <-> p = q.
Proof. exact zlist_eqb_eq. Qed.
Lemma filter_nil : forall {A} (f : A -> bool) l, filter f l = [] -> forall x, In x l -> f x = false.
Proof. intros A f l H x Hx. destruct (f x) eqn:E; [|reflexivity]. assert (In x (filter f l)) by (apply filter_In; split; assumption). rewrite H in H0. destruct H0. Qed.
Lemma filter_cons : forall {A} (f : A -> bool) l x r, filter f l = x :: r -> In x l /\ f x = true.
Proof. intros A f l x r H. apply filter_In. rewrite H. left. reflexivity. Qed.
Lemma column_max : forall p x, strict_partition p -> removable p x -> forall y l, map fst (filter (fun c => snd c =? rw p x + x - 1) (shifted_shape p)) = y :: l -> maxl y l = x.
Proof.
  intros p x Hp (X1 & X2 & X3) y l E. pose proof (column_In p (rw p x + x - 1)) as C. rewrite E in C. destruct (maxl_spec l y) as [A B]. apply C in B. assert (D : x <= maxl y l) by (apply A, C, cell_rw; lia). apply cell_rw in B.
  destruct (Z.eq_dec (maxl y l) x) as [Q|Q]; [exact Q|exfalso]. pose proof (gap p (x + 1) (maxl y l) Hp ltac:(lia) ltac:(lia)). lia.
Qed.
Lemma column_some : forall p x, strict_partition p -> removable p x -> map fst (filter (fun c => snd c =? rw p x + x - 1) (shifted_shape p)) <> [].
Proof. intros p x Hp (X1 & X2 & X3) E. pose proof (column_In p (rw p x + x - 1) x) as C. rewrite E in C. apply C. apply cell_rw. lia. Qed.
Lemma corner_stays : forall lam mu a, strict_partition lam -> strict_partition mu -> rook lam mu -> removable lam a -> rw mu a = rw lam a ->
  ~ In (a + 1, rw lam a + a - 1) (skew mu lam true) -> removable mu a.
Proof.
  intros lam mu a Hl Hm R (A1 & A2 & A3) E N. rewrite skew_rw in N by exact Hl. split; [exact A1|]. split; [lia|]. pose proof (R (a + 1) ltac:(lia)). lia.
Qed.
Lemma not_inb : forall s a b, inb s a b = false -> ~ In (a, b) s.
Proof. intros s a b H C. apply inb_In in C. rewrite C in H. discriminate. Qed.

Definition good (v : bool) (lam nu mu : list Z) (e : bool) (c : option Z) (r : res (list Z * bool * option Z)) : Prop :=
  exists g e' c', r = Ok (g, e', c') /\ strict_partition g /\ rook nu g /\ kind mu g e' c' /\ (idle mu g e' c' <-> v = false /\ idle lam nu e c).
Section Step.
  Variable bord : list (Z * Z) -> list (Z * Z).
  Hypothesis bord_perm : forall l, Permutation (bord l) l.
  Lemma sg_step : forall v lam nu mu e c, strict_partition lam -> strict_partition nu -> strict_partition mu -> rook lam mu -> kind lam nu e c -> (v = true -> idle lam nu e c) ->
    good v lam nu mu e c (sg_cell bord v lam nu mu e c).
  Proof using bord_perm.
    intros v lam nu mu e c Hl Hn Hm R K V. unfold sg_cell.
    assert (ROW : forall r, 1 <= r -> 0 <= rw lam r /\ rw lam r <= rw mu r <= rw lam r + 1) by (intros r Hr; split; [apply (strict_rw lam r Hl Hr)|apply (R r Hr)]).
    assert (SK : forall i j, In (i, j) (skew mu lam true) <-> 1 <= i /\ i + rw lam i <= j <= i - 1 + rw mu i) by (intros; apply skew_rw; exact Hl).
    assert (GA : forall g e' c', active mu g e' c' -> kind mu g e' c' /\ (idle mu g e' c' <-> true = false /\ idle lam nu e c)).
    { intros g e' c' A. split; [right; exact A|]. split; [intro I; destruct (active_idle _ _ _ _ A I)|intros [D _]; discriminate]. }
    destruct v; cbn [andb].
    { destruct (V eq_refl) as (-> & -> & ->). destruct (Z.eqb_spec (rw lam 1) (rw mu 1)) as [E|E].
      - exists (add_box_to_row mu 1), false, None. split; [reflexivity|]. split; [apply add_strict; [exact Hm|lia|left; reflexivity]|]. split; [apply rook_add; [exact Hl|exact Hm|exact R|lia|lia|left; reflexivity]|]. apply GA. left. exists 1. split; [lia|]. split; [intros r Hr; apply add_rw; lia|reflexivity].
      - pose proof (ROW 1 ltac:(lia)). destruct (Z.eqb_spec (rw lam 1 + 1) (rw mu 1)) as [E2|E2]; [|lia]. exists mu, false, (Some 1). split; [reflexivity|]. split; [exact Hm|]. split; [exact R|]. apply GA. right; left. exists 1. split; [reflexivity|]. split; [reflexivity|]. split; [reflexivity|]. apply (new_corner lam); [exact Hl|exact Hm|exact R|lia|lia]. }
    clear V GA. destruct (zlist_eqb mu lam) eqn:EM.
    { apply zle_spec in EM. subst mu. exists nu, e, c. split; [reflexivity|]. split; [exact Hn|]. split; [apply rook_refl|]. split; [exact K|]. split; [intro I; split; [reflexivity|exact I]|intros [_ I]; exact I]. }
    destruct (zlist_eqb nu lam && negb e && match c with None => true | Some _ => false end) eqn:EI.
    { apply andb_true_iff in EI. destruct EI as [EI EC]. apply andb_true_iff in EI. destruct EI as [EN EE]. apply zle_spec in EN. subst nu. destruct e; [discriminate|]. destruct c; [discriminate|].
      exists mu, false, None. split; [reflexivity|]. split; [exact Hm|]. split; [exact R|]. assert (idle mu mu false None) by (split; [|split]; reflexivity). split; [left; exact H|]. split; [intros _; split; [reflexivity|split; [|split]; reflexivity]|intros _; exact H]. }
    assert (NI : ~ idle lam nu e c).
    { intros (-> & -> & ->). cbn in EI. rewrite (proj2 (zle_spec lam lam) eq_refl) in EI. discriminate. }
    assert (GO : forall g e' c' r, r = Ok (g, e', c') -> strict_partition g -> rook nu g -> active mu g e' c' -> good false lam nu mu e c r).
    { intros g e' c' r A1 A2 A3 A4. exists g, e', c'. split; [exact A1|]. split; [exact A2|]. split; [exact A3|]. split; [right; exact A4|]. split; [intro A5; destruct (active_idle _ _ _ _ A4 A5)|intros [_ A5]; destruct (NI A5)]. }
    assert (K1 : forall a e', 1 <= a -> active mu (add_box_to_row mu a) e' None).
    { intros a e' Ha. left. exists a. split; [exact Ha|]. split; [intros r Hr; apply add_rw; lia|reflexivity]. }
    assert (K2 : forall a, 1 <= a -> rw mu a = rw lam a + 1 -> active mu mu false (Some a)).
    { intros a Ha E. right; left. exists a. split; [reflexivity|]. split; [reflexivity|]. split; [reflexivity|]. apply (new_corner lam); assumption. }
    assert (K3 : forall a b, 1 <= a -> rw mu a = rw lam a + 1 -> b = rw lam a + a -> active mu mu true (Some b)).
    { intros a b Ha E ->. right; right. exists a. split; [reflexivity|]. split; [reflexivity|]. split; [f_equal; lia|]. apply (new_corner lam); assumption. }
    clear EI. destruct K as [K|[K|K]]; [destruct (NI K)| |].
    - destruct K as (a & Ha & N & ->).
      assert (NL : nu <> lam) by (intros ->; specialize (N a Ha); rewrite Z.eqb_refl in N; lia).
      assert (Na : rw nu a = rw lam a + 1) by (rewrite N, Z.eqb_refl by lia; reflexivity).
      destruct (contains mu nu) eqn:EC; cbn [negb].
      + rewrite (contains_rw mu nu Hm Hn) in EC. pose proof (EC a Ha) as Ca. pose proof (ROW a Ha) as Ra. assert (Ma : rw mu a = rw nu a) by lia. assert (RN : rook nu mu) by (apply (rook_sub lam nu mu a R N); lia).
        replace (zlist_eqb lam nu) with false by (symmetry; apply not_true_iff_false; rewrite zle_spec; congruence). cbn [negb].
        pose proof (bord_perm (skew nu lam true)) as BP. destruct (bord (skew nu lam true)) as [|[x y] bl] eqn:EB.
        { exfalso. assert (I : In (a, rw lam a + a) (skew nu lam true)) by (apply skew_rw; [exact Hl|lia]). apply Permutation_nil in BP. rewrite BP in I. destruct I. }
        assert (I : In (x, y) (skew nu lam true)) by (apply (Permutation_in _ BP); left; reflexivity). clear EB BP. apply skew_rw in I; [|exact Hl]. rewrite N in I by lia.
        destruct (Z.eqb_spec x a) as [->|Q]; [|lia]. assert (Ey : y = rw lam a + a) by lia. clear I. subst y.
        destruct (negb e && negb (a =? rw lam a + a)) eqn:EE.
        * apply andb_true_iff in EE. destruct EE as [E1 E2]. destruct e; [discriminate|]. apply negb_true_iff, Z.eqb_neq in E2. destruct (filter (fun p => fst p =? a + 1) (skew mu lam true)) as [|[x y] fl] eqn:EF.
          -- assert (M1 : rw mu (a + 1) = rw lam (a + 1)).
             { destruct (Z.eq_dec (rw mu (a + 1)) (rw lam (a + 1))) as [Q|Q]; [exact Q|exfalso]. pose proof (ROW (a + 1) ltac:(lia)). assert (I : In (a + 1, a + 1 + rw lam (a + 1)) (skew mu lam true)) by (apply SK; lia). pose proof (filter_nil _ _ EF _ I) as F. cbn [fst] in F. rewrite Z.eqb_refl in F. discriminate. }
             assert (N1 : rw nu (a + 1) = rw lam (a + 1)) by (rewrite N by lia; destruct (Z.eqb_spec (a + 1) a); lia).
             pose proof (strict_rw lam a Hl Ha). eapply GO; [reflexivity| | |apply K1; lia].
             ++ apply add_strict; [exact Hm|lia|right]. replace (a + 1 - 1) with a by lia. lia.
             ++ apply rook_add; [exact Hn|exact Hm|exact RN|lia|lia|right; left]. replace (a + 1 - 1) with a by lia. exact Ma.
          -- destruct (filter_cons _ _ _ _ EF) as [I F]. cbn [fst] in F. apply Z.eqb_eq in F. subst x. apply SK in I. pose proof (ROW (a + 1) ltac:(lia)). eapply GO; [reflexivity|exact Hm|exact RN|apply K2; lia].
        * clear EE. destruct (filter (fun p => snd p =? rw lam a + a + 1) (skew mu lam true)) as [|[x y] fl] eqn:EF.
          -- destruct (column_step nu mu a Hn Hm RN Ha ltac:(lia) Ma) as (h & H1 & H2 & H3 & H4).
             { intros x Hx Ex Q. rewrite (N x Hx) in Ex, Q. destruct (Z.eqb_spec x a) as [->|Nx]; [lia|]. assert (I : In (x, rw lam x + x) (skew mu lam true)) by (apply SK; lia). pose proof (filter_nil _ _ EF _ I) as F. cbn [snd] in F. apply Z.eqb_neq in F. lia. }
             replace (rw lam a + a + 1) with (rw mu a + a) by lia. rewrite H2. cbn [rbind]. eapply GO; [reflexivity|exact H3|exact H4|apply K1; exact H1].
          -- destruct (filter_cons _ _ _ _ EF) as [I F]. cbn [snd] in F. apply Z.eqb_eq in F. subst y. apply SK in I. pose proof (ROW x ltac:(lia)). eapply GO; [reflexivity|exact Hm|exact RN|apply (K3 x); lia].
      + assert (Ma : rw mu a = rw lam a).
        { destruct (Z.eq_dec (rw mu a) (rw lam a)) as [Q|Q]; [exact Q|exfalso]. pose proof (ROW a Ha). assert (T : contains mu nu = true); [|rewrite T in EC; discriminate]. apply contains_rw; [exact Hm|exact Hn|]. intros r Hr. rewrite N by exact Hr. pose proof (ROW r Hr). destruct (Z.eqb_spec r a) as [->|]; lia. }
        assert (U : forall r, 1 <= r -> rw (punion nu mu) r = rw mu r + (if r =? a then 1 else 0)).
        { intros r Hr. rewrite (union_rw nu mu r Hn Hm Hr), N by exact Hr. pose proof (ROW r Hr). destruct (Z.eqb_spec r a) as [->|]; lia. }
        eapply GO; [reflexivity| | |left; exists a; split; [exact Ha|split; [exact U|reflexivity]]].
        * apply strict_of_rw; [apply trimmed_trim|]. intros r Hr. rewrite !(union_rw nu mu) by (first [assumption|lia]). pose proof (strict_rw nu r Hn Hr). pose proof (strict_rw mu r Hm Hr). pose proof (strict_rw nu (r + 1) Hn ltac:(lia)). pose proof (strict_rw mu (r + 1) Hm ltac:(lia)). lia.
        * intros r Hr. rewrite !U, !N by lia. pose proof (R r Hr). pose proof (ROW (r + 1) ltac:(lia)). destruct (Z.eqb_spec r a) as [Q|Q]; destruct (Z.eqb_spec (r + 1) a) as [Q2|Q2]; try (rewrite <- Q in * ); try (rewrite <- Q2 in * ); lia.
    - assert (EN : nu = lam) by (destruct K as [K|K]; destruct K as (x & K & _); exact K).
      rewrite EN in *. clear EN nu. replace (contains mu lam) with true by (symmetry; apply contains_rw; [exact Hm|exact Hl|]; intros r Hr; apply (ROW r Hr)). rewrite (proj2 (zle_spec lam lam) eq_refl). cbn [negb].
      destruct K as [(a & _ & -> & -> & RE)|(a & _ & -> & -> & RE)]; cbn [negb].
      + pose proof RE as (A1 & A2 & A3). pose proof (ROW a A1) as Ra. pose proof (ROW (a + 1) ltac:(lia)) as Ra1.
        destruct (inb (skew mu lam true) (a + 1) (rw lam a + a - 1)) eqn:I2.
        * rewrite andb_false_r. apply inb_In, SK in I2. eapply GO; [reflexivity|exact Hm|exact R|apply K2; lia].
        * rewrite andb_true_r. destruct (inb (skew mu lam true) a (rw lam a + a - 1 + 1)) eqn:I1; cbn [negb].
          -- apply inb_In, SK in I1. destruct (existsb (fun p => fst p =? a + 1) (skew mu lam true)) eqn:EX.
             ++ apply existsb_exists in EX. destruct EX as ([x y] & I & F). cbn [fst] in F. apply Z.eqb_eq in F. subst x. apply SK in I. eapply GO; [reflexivity|exact Hm|exact R|apply K2; lia].
             ++ destruct (Z.eqb_spec a (rw lam a + a - 1)) as [Q|Q]; [eapply GO; [reflexivity|exact Hm|exact R|apply (K3 a); lia]|].
                assert (M1 : rw mu (a + 1) = rw lam (a + 1)).
                { destruct (Z.eq_dec (rw mu (a + 1)) (rw lam (a + 1))) as [Q2|Q2]; [exact Q2|exfalso]. assert (I : In (a + 1, a + 1 + rw lam (a + 1)) (skew mu lam true)) by (apply SK; lia). assert (T : existsb (fun p => fst p =? a + 1) (skew mu lam true) = true); [|rewrite T in EX; discriminate]. apply existsb_exists. eexists. split; [exact I|]. cbn [fst]. apply Z.eqb_refl. }
                eapply GO; [reflexivity| | |apply K1; lia].
                ** apply add_strict; [exact Hm|lia|right]. replace (a + 1 - 1) with a by lia. lia.
                ** apply rook_add; [exact Hl|exact Hm|exact R|lia|lia|right; right]. replace (a + 1 - 1) with a by lia. lia.
          -- apply not_inb in I1. rewrite SK in I1. eapply GO; [reflexivity|exact Hm|exact R|]. right; left. exists a. split; [reflexivity|]. split; [reflexivity|]. split; [reflexivity|]. apply (corner_stays lam); [exact Hl|exact Hm|exact R|exact RE|lia|apply not_inb; exact I2].
      + pose proof (column_some lam a Hl RE) as NE. pose proof (column_max lam a Hl RE) as MX. destruct (map fst (filter (fun p => snd p =? rw lam a + a - 1) (shifted_shape lam))) as [|y l]; [destruct NE; reflexivity|]. rewrite (MX y l eq_refl). clear NE MX.
        pose proof RE as (A1 & A2 & A3). pose proof (ROW a A1) as Ra. pose proof (ROW (a + 1) ltac:(lia)) as Ra1.
        destruct (inb (skew mu lam true) a (rw lam a + a - 1 + 1)) eqn:I1.
        * cbn [negb andb]. apply inb_In, SK in I1. eapply GO; [reflexivity|exact Hm|exact R|apply (K3 a); lia].
        * apply not_inb in I1. rewrite SK in I1. assert (Ma : rw mu a = rw lam a) by lia. cbn [negb andb]. destruct (inb (skew mu lam true) (a + 1) (rw lam a + a - 1)) eqn:I2; cbn [negb].
          -- destruct (existsb (fun p => snd p =? rw lam a + a - 1 + 1) (skew mu lam true)) eqn:EX.
             ++ apply existsb_exists in EX. destruct EX as ([x z] & I & F). cbn [snd] in F. apply Z.eqb_eq in F. subst z. apply SK in I. pose proof (ROW x ltac:(lia)). eapply GO; [reflexivity|exact Hm|exact R|apply (K3 x); lia].
             ++ destruct (column_step lam mu a Hl Hm R A1 ltac:(lia) Ma) as (h & H1 & H2 & H3 & H4).
                { intros x Hx Ex Q. assert (I : In (x, rw lam x + x) (skew mu lam true)) by (apply SK; lia). assert (T : existsb (fun p => snd p =? rw lam a + a - 1 + 1) (skew mu lam true) = true); [|rewrite T in EX; discriminate]. apply existsb_exists. eexists. split; [exact I|]. cbn [snd]. apply Z.eqb_eq. lia. }
                replace (rw lam a + a - 1 + 1) with (rw mu a + a) by lia. rewrite H2. cbn [rbind]. eapply GO; [reflexivity|exact H3|exact H4|apply K1; exact H1].
          -- eapply GO; [reflexivity|exact Hm|exact R|]. right; right. exists a. split; [reflexivity|]. split; [reflexivity|]. split; [f_equal; lia|]. apply (corner_stays lam); [exact Hl|exact Hm|exact R|exact RE|lia|apply not_inb; exact I2].
  Qed.
End Step.
