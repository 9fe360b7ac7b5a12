(* From word sums to symmetric polynomials. *)
From Coq Require Import List ZArith Lia Bool Permutation Arith Sorting.Sorted.
From Verif Require Import PyBase FinSum M_Partitions S_Partitions L_Partitions L_PartBasic L_PartEnum L_PartMore L_Destand L_Destand2 M_Vectors L_Vectors M_Polynomials S_Polynomials L_Polynomials L_PolySubst
  M_Symmetric M_Expansion S_Expansion L_Count L_CountCache L_SymMul L_Kostka L_Num L_Expand1 L_Expand4 L_Expand5 L_Sym6 M_Words S_Words P_Words L_FominWords L_FominSym L_PermGroth2 M_PermGroth.
Import ListNotations.
Local Open Scope Z_scope.
Local Notation lg := (nget zlist_eqb).
Local Notation sg := (nget smono_eqb).

(* the coefficient of the word v at a *)
Definition posb (a : list Z) : bool := forallb (fun x => 0 <? x) a.
Definition nats (a : list Z) : list nat := map Z.to_nat a.
Definition qc (zeta : list Z -> Z) (a v : list Z) : Z :=
  if posb a && (nsum (nats a) =? length v)%nat then zprod (map zeta (cut (nats a) v)) else 0.
Lemma posb_spec : forall a, posb a = true <-> Forall (fun x => 0 < x) a.
Proof. intro a. unfold posb. rewrite forallb_forall, Forall_forall. split; intros H x Hx; apply Z.ltb_lt; apply H; assumption. Qed.
Lemma nsum_nats : forall a, Forall (fun x => 0 <= x) a -> Z.of_nat (nsum (nats a)) = zsum a.
Proof. induction a as [|x a IH]; intro H; [reflexivity|]. cbn [nats map nsum fold_right]. fold (nats a). fold (nsum (nats a)). specialize (IH (Forall_inv_tail H)). pose proof (Forall_inv H). cbv beta in *. change (zsum (x :: a)) with (x + zsum a). lia. Qed.
Lemma pos_nonneg : forall a, Forall (fun x => 0 < x) a -> Forall (fun x => 0 <= x) a.
Proof. intros a H. eapply Forall_impl; [|exact H]. intros. cbv beta in *. lia. Qed.
Lemma wlens_cut : forall a v, Forall (fun x => 0 <= x) a -> nsum (nats a) = length v -> wlens (cut (nats a) v) = a.
Proof.
  induction a as [|x a IH]; intros v H E; [reflexivity|]. cbn [nats map nsum fold_right] in *. fold (nats a) in *. fold (nsum (nats a)) in *. pose proof (Forall_inv H) as Hx. cbv beta in Hx.
  cbn [cut]. change (wlens (firstn (Z.to_nat x) v :: cut (nats a) (skipn (Z.to_nat x) v))) with (Z.of_nat (length (firstn (Z.to_nat x) v)) :: wlens (cut (nats a) (skipn (Z.to_nat x) v))).
  rewrite IH; [|exact (Forall_inv_tail H)|rewrite skipn_length; lia]. rewrite firstn_length, Nat.min_l by lia. f_equal. lia.
Qed.
Lemma quasi_get : forall zeta v, exists d, quasisymmetrize v zeta = Ok d /\ NoDup (map fst d) /\ Forall (fun kv => snd kv <> 0) d /\ forall a, qget d a = qc zeta a v.
Proof.
  intros zeta v. destruct (C23_quasisymmetrize v zeta) as (d & H1 & H2 & H3 & H4 & H5). exists d. split; [exact H1|]. split; [exact H2|]. split; [exact H3|]. intro a. unfold qc.
  destruct (posb a) eqn:Ep; [apply posb_spec in Ep; destruct (nsum (nats a) =? length v)%nat eqn:En; [apply Nat.eqb_eq in En|apply Nat.eqb_neq in En]|]; cbn [andb].
  - pose proof (pos_nonneg a Ep) as En0. rewrite <- (H4 (cut (nats a) v)); [rewrite wlens_cut by assumption; reflexivity| |apply concat_cut; assumption].
    pose proof (wlens_cut a v En0 En) as W. rewrite Forall_forall in *. intros u Hu ->. assert (Q : In 0 a); [|specialize (Ep 0 Q); cbv beta in Ep; lia]. rewrite <- W. unfold wlens. apply in_map_iff. exists []. split; [reflexivity|exact Hu].
  - apply H5. intros [_ E]. rewrite <- (nsum_nats a (pos_nonneg a Ep)) in E. lia.
  - apply H5. intros [E _]. apply posb_spec in E. congruence.
Qed.

Lemma num_vec : forall d : wvec, NoDup (map fst d) -> Forall (fun kv => snd kv <> 0) d ->
  nvwf (map (fun kc => (fst kc, NI (snd kc))) d) /\ forall a, lg (map (fun kc => (fst kc, NI (snd kc))) d) a = NI (qget d a).
Proof.
  intros d Hn Hz. split.
  - split; [rewrite map_map; exact Hn|]. apply Forall_forall. intros kx Hx. apply in_map_iff in Hx. destruct Hx as (kc & <- & Hk). cbn [snd nok nzero]. split; [exact I|]. apply Z.eqb_neq. rewrite Forall_forall in Hz. apply Hz. assumption.
  - intro a. clear. unfold qget, dget0. induction d as [|[k c] d IH]; [reflexivity|]. cbn [map fst snd]. rewrite nget_cons. cbn [dget]. destruct (zlist_eqb k a); [reflexivity|exact IH].
Qed.

Lemma word_total_ok : forall zeta ell words, exists vec, word_total zeta ell words = Ok vec /\ nvwf vec /\
  forall a G, nev (lg vec a) G = zs (fun v => qc zeta a v * G (mvar 0 (zlen v - ell))) words.
Proof.
  intros zeta ell words. unfold word_total.
  assert (G : forall words acc, nvwf acc -> exists vec, rfold (fun ans w => do q <- quasisymmetrize w zeta; Ok (nvadd zlist_eqb ans (nvscale zlist_eqb (map (fun kc => (fst kc, NI (snd kc))) q) (NP (beta_pow (zlen w - ell)))))) words acc = Ok vec /\ nvwf vec /\
    forall a G, nev (lg vec a) G = nev (lg acc a) G + zs (fun v => qc zeta a v * G (mvar 0 (zlen v - ell))) words).
  { clear words. induction words as [|v words IH]; intros acc Ha.
    - exists acc. split; [reflexivity|]. split; [exact Ha|]. intros. rewrite zs_nil. lia.
    - cbn [rfold]. destruct (quasi_get zeta v) as (d & E & Hn & Hz & Hq). rewrite E. cbn [rbind]. destruct (num_vec d Hn Hz) as [Wd Gd].
      destruct (nvscale_ok zlist_eqb zlist_eqb_eq _ (NP (beta_pow (zlen v - ell))) Wd (beta_pow_wf _)) as [Ws Hs].
      destruct (nvadd_ok zlist_eqb zlist_eqb_eq acc _ Ha Ws) as [Wa Hadd].
      destruct (IH _ Wa) as (vec & E2 & W2 & H2). exists vec. split; [exact E2|]. split; [exact W2|]. intros a G. rewrite H2, Hadd, Hs, Gd, Hq, zs_cons. cbn [nev]. rewrite beta_pow_ev, mmul_nil_l by apply mvar_wf. lia. }
  destruct (G words []) as (vec & E & W & H); [split; constructor|]. exists vec. split; [exact E|]. split; [exact W|]. intros a F. rewrite H. rewrite nget_nil. cbn [nev]. lia.
Qed.

(* ---- _symmetrize ---- *)
Lemma nmax_in : forall l, l <> [] -> exists x, nmax l = Ok x /\ In x l.
Proof.
  intros [|a r] H; [congruence|]. clear H. unfold nmax. eexists. split; [reflexivity|].
  assert (G : forall r a, In (fold_left (fun m x => if ngt x m then x else m) r a) (a :: r)).
  { clear. induction r as [|b r IH]; intro a; [left; reflexivity|]. cbn [fold_left]. destruct (ngt b a); destruct (IH a) as [E|E]; destruct (IH b) as [E'|E']; cbn [In]; tauto. }
  apply G.
Qed.
Lemma neqb_nsub : forall x y, neqb x y = nzero (nsub x y).
Proof. intros [a|p] [b|q]; reflexivity. Qed.

Section Symmetrize.
  Variable vec : nvec (list Z).
  Variable n : nat.
  Variable ell : Z.
  Variable c : list Z -> Z.
  Hypothesis vec_wf : nvwf vec.
  Hypothesis vec_get : forall a G, nev (lg vec a) G = c a * G (mvar 0 (zsum a - ell)).
  Hypothesis c_pos : forall a, c a <> 0 -> Forall (fun x => 0 < x) a.
  Hypothesis c_sym : forall a b, Permutation a b -> (length a <= n)%nat -> c a = c b.
  Lemma key_nonzero : forall a, In a (map fst vec) <-> c a <> 0.
  Proof.
    intro a. rewrite (nget_nonzero zlist_eqb zlist_eqb_eq vec a vec_wf). assert (Ok : nok (lg vec a)) by (apply nget_ok, nvwf_oks, vec_wf).
    destruct (nzero (lg vec a)) eqn:E.
    - split; [discriminate|]. intro N. exfalso. apply (proj1 (nzero_spec _ Ok)) with (G := fun _ => 1) in E. rewrite vec_get in E. lia.
    - split; [|reflexivity]. intros _ N. assert (nzero (lg vec a) = true); [|congruence]. apply nzero_spec; [exact Ok|]. intro G. rewrite vec_get, N. lia.
  Qed.
  Lemma sort_desc : forall a, rev (sorted a) = psort a false.
  Proof. reflexivity. Qed.
  Lemma sorted_partition : forall a, Forall (fun x => 0 < x) a -> psort a false = a -> partition a.
  Proof. intros a Ha E. apply partition_desc. split; [exact Ha|]. rewrite <- E. apply psort_sorted. Qed.
  Lemma partition_sorted : forall a, partition a -> psort a false = a.
  Proof. intros a Ha. apply partition_desc in Ha. destruct Ha as [_ D]. apply desc_unique; [apply psort_sorted|exact D|apply psort_perm]. Qed.
  Lemma symmetrize_ok : exists f, symmetrize vec n = Ok f /\ nvwf f /\ (forall m, In m (map fst f) -> fst m = n /\ fits n (snd m)) /\
    forall p G, fits n p -> nev (sg f (n, p)) G = c p * G (mvar 0 (zsum p - ell)).
  Proof.
    unfold symmetrize. set (as_ := filter _ (map fst vec)).
    assert (Has : forall a, In a as_ <-> fits n a /\ c a <> 0).
    { intro a. unfold as_. rewrite filter_In, andb_true_iff, zlist_eqb_eq, Nat.leb_le, key_nonzero, sort_desc. split.
      - intros (H1 & H2 & H3). split; [|exact H1]. split; [apply sorted_partition; auto|exact H3].
      - intros ([H1 H2] & H3). split; [exact H3|]. split; [apply partition_sorted; exact H1|exact H2]. }
    assert (Nas : NoDup as_) by (apply NoDup_filter; apply vec_wf).
    match goal with |- context [rfold ?g as_ []] => set (step := g) end.
    assert (Step : forall d a, fits n a -> c a <> 0 -> exists x, step d a = Ok (dset smono_eqb d (n, a) x) /\ nok x /\ neqv x (lg vec a)).
    { intros d a [Pa La] Ca. unfold step. unfold smake. rewrite (proj2 (Nat.leb_le _ _) La). rewrite psort_partition by exact Pa. cbn [rbind].
      match goal with |- context [nmax ?l] => destruct (nmax_in l) as (x & Ex & Hx) end.
      - intro E. apply map_eq_nil in E. assert (Q : In a []); [|destruct Q]. rewrite <- E. apply filter_In. split; [apply key_nonzero; exact Ca|apply zlist_eqb_eq; reflexivity].
      - rewrite Ex. cbn [rbind]. exists x. split; [reflexivity|]. apply in_map_iff in Hx. destruct Hx as (b & <- & Hb). apply filter_In in Hb. destruct Hb as [Hb1 Hb2]. apply zlist_eqb_eq in Hb2. split; [apply nget_ok, nvwf_oks, vec_wf|].
        intro G. rewrite !vec_get. rewrite !sort_desc in Hb2. assert (P : Permutation a b) by (etransitivity; [apply Permutation_sym, psort_perm|]; rewrite <- Hb2; apply psort_perm). rewrite (c_sym a b P La), (zsum_perm a b P). reflexivity. }
    assert (Fold : forall l d, NoDup l -> (forall a, In a l -> fits n a /\ c a <> 0) -> NoDup (map fst d) -> oks d -> (forall m, In m (map fst d) -> fst m = n /\ fits n (snd m)) ->
      exists r, rfold step l d = Ok r /\ NoDup (map fst r) /\ oks r /\ (forall m, In m (map fst r) -> fst m = n /\ fits n (snd m)) /\
        forall p, (In p l -> neqv (sg r (n, p)) (lg vec p)) /\ (~ In p l -> sg r (n, p) = sg d (n, p))).
    { clear Has Nas. induction l as [|a l IH]; intros d Nl Hl Nd Od Kd.
      - exists d. split; [reflexivity|]. split; [exact Nd|]. split; [exact Od|]. split; [exact Kd|]. intro p. split; [intros []|reflexivity].
      - cbn [rfold]. destruct (Hl a (or_introl eq_refl)) as [Fa Ca]. destruct (Step d a Fa Ca) as (x & Ex & Ox & Vx). rewrite Ex. cbn [rbind].
        inversion Nl as [|? ? Na Nl']; subst.
        destruct (IH (dset smono_eqb d (n, a) x) Nl') as (r & E & R1 & R2 & R3 & R4).
        + intros b Hb. apply Hl. right. exact Hb.
        + apply dset_NoDup; [exact smono_eqb_eq|exact Nd].
        + apply oks_dset; assumption.
        + intros m Hm. apply (dset_keys_In smono_eqb smono_eqb_eq) in Hm. destruct Hm as [->|Hm]; [split; [reflexivity|exact Fa]|apply Kd; exact Hm].
        + exists r. split; [exact E|]. split; [exact R1|]. split; [exact R2|]. split; [exact R3|]. intro p. destruct (R4 p) as [R5 R6]. split.
          * intros [<-|Hp]; [|apply R5; exact Hp]. rewrite (proj2 (R4 a) Na), nget_dset, (proj2 (smono_eqb_eq _ _) eq_refl). exact Vx.
          * intro Np. rewrite R6 by (intro; apply Np; right; assumption). rewrite nget_dset. destruct (smono_eqb (n, a) (n, p)) eqn:Eq; [|reflexivity]. apply smono_eqb_eq in Eq. exfalso. apply Np. left. congruence. }
    destruct (Fold as_ [] Nas (fun a => proj1 (Has a)) (NoDup_nil _) (Forall_nil _)) as (r & E & R1 & R2 & R3 & R4); [intros m []|].
    match goal with |- context [@rfold ?A ?B step as_ ?i] => replace (@rfold A B step as_ i) with (@Ok B r) by (symmetry; exact E) end. cbn [rbind].
    match goal with |- context [rfold ?g ?l true] => set (check := g); set (ks := l) end.
    assert (Chk : forall l, incl l ks -> rfold check l true = Ok true).
    { induction l as [|a l IH]; intro Hi; [reflexivity|]. cbn [rfold]. assert (Ha : In a ks) by (apply Hi; left; reflexivity). unfold ks in Ha. apply filter_In in Ha. destruct Ha as [Ha La]. apply Nat.leb_le in La.
      assert (Hs : In (rev (sorted a)) (map fst vec)).
      { apply key_nonzero. rewrite sort_desc, <- (c_sym a) by (try assumption; apply Permutation_sym, psort_perm). apply key_nonzero. exact Ha. }
      assert (D : forall b, In b (map fst vec) -> dget zlist_eqb vec b = Some (lg vec b)).
      { intros b Hb. apply in_map_iff in Hb. destruct Hb as ([b' y] & <- & Hb). cbn [fst]. rewrite (nget_In zlist_eqb zlist_eqb_eq vec b' y (proj1 vec_wf) Hb). apply (In_dget zlist_eqb zlist_eqb_eq); [apply vec_wf|exact Hb]. }
      assert (C1 : check true a = Ok true).
      { unfold check. rewrite (D _ Hs), (D _ Ha), neqb_nsub. f_equal.
        apply nzero_nsub; [apply nget_ok, nvwf_oks, vec_wf|apply nget_ok, nvwf_oks, vec_wf|]. intro G. rewrite !vec_get, sort_desc. rewrite (c_sym a (psort a false)) by (try assumption; apply Permutation_sym, psort_perm). rewrite (zsum_perm (psort a false) a) by apply psort_perm. reflexivity. }
      rewrite C1. cbn [rbind]. apply IH. intros b Hb. apply Hi. right. exact Hb. }
    rewrite (Chk ks (incl_refl _)). cbn [rbind]. exists (vmake nzero r). split; [reflexivity|]. split; [apply vmake_nvwf; assumption|]. split.
    - intros m Hm. apply R3. unfold vmake in Hm. apply in_map_iff in Hm. destruct Hm as (kx & <- & Hk). apply filter_In in Hk. apply in_map. apply Hk.
    - intros p G Fp. rewrite (vmake_get smono_eqb smono_eqb_eq r _ R1 R2). destruct (R4 p) as [R5 R6]. destruct (Z.eq_dec (c p) 0) as [Z0|Z0].
      + rewrite R6 by (intro Q; apply Has in Q; tauto). rewrite nget_nil, Z0. cbn [nev]. lia.
      + rewrite (R5 (proj2 (Has p) (conj Fp Z0))). apply vec_get.
  Qed.
End Symmetrize.
