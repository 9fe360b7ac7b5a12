(* Atoms of fixed-point-free involutions. *)
From Coq Require Import List ZArith Bool Lia Permutation.
From Verif Require Import PyBase FinSum M_Partitions M_Semistandard M_Perm S_Perm M_PermGen L_Perm L_PermLen L_PermWord L_PermGen L_LevelsInst P_Levels L_PermActs L_PermGroth7 M_PermGroth M_InvWords M_Atoms L_PartCorners L_InvLen L_InvLen2 L_InvLen3 L_InvLen4 L_InvLen5 L_InvLen6 L_Atoms6.
Import ListNotations.
Local Open Scope Z_scope.

Section Ord.
Variable aord : list (list Z) -> list (list Z).
Hypothesis aord_perm : forall l, Permutation (aord l) l.
Variable dorder : list Z -> list Z.
Hypothesis dorder_perm : forall l, Permutation (dorder l) l.

Definition fatom (w a : list Z) : Prop := exists v, W (zlen w) w v /\ wordp v = a.
Definition fatoms_ok (w : list Z) (l : list (list Z)) : Prop := NoDup l /\ forall a, In a l <-> fatom w a.
Definition fc_ok (c : atom_cache) : Prop := forall k l, dget zlist_eqb c k = Some l -> fline k -> fatoms_ok k l.
Lemma fatom_canonical : forall w a, fatom w a -> canonical a.
Proof. intros w a (v & [F _] & <-). apply wordp_canonical. apply (W_gens _ _ F). Qed.
Lemma fline_unsigned : forall w, fline w -> is_unsigned w = true.
Proof.
  intros w [[[Hc _] Hf] _]. unfold is_unsigned. apply forallb_forall. intros x Hx. apply In_nthz in Hx. destruct Hx as (i & Hi & <-). destruct (Hf (i + 1) ltac:(lia)) as [P _]. rewrite pcall_pos in P by lia. replace (i + 1 - 1) with i in P by lia. apply Z.ltb_lt. lia.
Qed.
Lemma get_fpf_atoms_ok : forall fuel c w, fc_ok c -> fline w -> ell w < Z.of_nat fuel ->
  exists c' l, get_fpf_atoms aord dorder fuel c w = Ok (c', l) /\ fc_ok c' /\ fatoms_ok w l.
Proof.
  induction fuel as [|fuel IH]; intros c w Hc Hw Hf; [pose proof (ell_nonneg w); lia|].
  cbn [get_fpf_atoms]. rewrite (is_fpf_true (zlen w)) by (apply Hw || lia). cbn [rbind negb]. rewrite (fline_unsigned w Hw). cbn [negb].
  pose proof Hw as [Hl Hm]. pose proof Hl as [Hz Hfix]. pose proof Hz as [Hcan Hinv]. assert (H0 : 0 <= zlen w) by (unfold zlen; lia).
  destruct (dget zlist_eqb c w) as [l|] eqn:Ec; [exists c, l; split; [reflexivity|]; split; [exact Hc|apply Hc; assumption]|].
  assert (Store : forall c1 l, fc_ok c1 -> fatoms_ok w l -> fc_ok (dset zlist_eqb c1 w l)).
  { intros c1 l H1 H2 k l' D Fk. apply dget_set in D. destruct D as [[-> ->]|D]; [exact H2|apply H1; assumption]. }
  set (des := filter (fun i => negb (pcall w i =? i + 1)) (dorder (rdes w))).
  assert (Des : forall i, In i des <-> In i (rdes w) /\ pcall w i <> i + 1).
  { intro i. unfold des. rewrite filter_In. split; intros [A B]; (split; [|lia]); [apply (Permutation_in _ (dorder_perm _)); exact A|apply (Permutation_in _ (Permutation_sym (dorder_perm _))); exact A]. }
  assert (Last : forall v, W (zlen w) w v -> (v = [] /\ w = s0 (zlen w)) \/ exists u i, v = u ++ [i] /\ In i des /\ W (zlen w) (icut w i) u).
  { intros v Hv. destruct v as [|i u _] using rev_ind; [left; split; [reflexivity|]; apply W_nil in Hv; exact Hv|]. right. exists u, i. split; [reflexivity|]. apply W_snoc in Hv; [|exact Hm]. destruct Hv as (Hi & _ & D & Q & Wu). split; [|exact Wu]. apply Des. split; [|exact Q]. apply rdes_spec; [apply Hcan|]. split; [lia|exact D]. }
  assert (Ns : w = s0 (zlen w) -> des = []).
  { intro E. destruct des as [|i r] eqn:Q; [reflexivity|]. exfalso. destruct (proj1 (Des i) (or_introl eq_refl)) as [Hi N]. apply rdes_spec in Hi; [|apply Hcan]. destruct Hi as [Hi D]. pose proof (fpf_descents _ w i Hl ltac:(lia) H0 Hi D) as Ri.
    destruct (fpf_icut _ w i Hl Ri N D) as (Ei & Fi & _). pose proof (icut_len _ w i Hl Ri N D ltac:(lia)) as Z1.
    destruct (get_fpf_word_ok (S (Z.to_nat (ell (icut w i)))) (zlen w) (icut w i) H0 Hm Fi Z1 ltac:(pose proof (ell_nonneg (icut w i)); lia)) as (u & _ & Wu).
    assert (Wv : W (zlen w) w (u ++ [i])) by (apply W_snoc; auto 10). assert (W0 : W (zlen w) w []) by (apply W_nil; exact E).
    apply (W_shortest w _ Hl Hm) in Wv. apply (W_shortest w _ Hl Hm) in W0. destruct Wv as [_ Mv]. destruct W0 as [S0 _]. specialize (Mv _ S0). rewrite zlen_app in Mv. change (zlen [i]) with 1 in Mv. change (zlen (@nil Z)) with 0 in Mv. pose proof (zlen_nonneg _ u). lia. }
  destruct (list_eq_dec Z.eq_dec des []) as [Q|Q].
  - rewrite Q. assert (E : w = s0 (zlen w)).
    { apply fpf_peq; try assumption; try lia. destruct (filter (fun i => negb (pcall w i =? i + 1)) (rdes w)) as [|i r] eqn:F; [reflexivity|]. exfalso. assert (I : In i des); [|rewrite Q in I; destruct I]. apply Des. assert (I : In i (i :: r)) by (left; reflexivity). rewrite <- F in I. apply filter_In in I. split; [apply I|]. destruct I as [_ I]. lia. }
    assert (A : fatoms_ok w [pid]).
    { split; [repeat constructor; intros []|]. intro a. split.
      - intros [<-|[]]. exists []. split; [apply W_nil; exact E|reflexivity].
      - intros (v & Hv & <-). left. apply Last in Hv. destruct Hv as [[-> _]|(u & i & _ & Hi & _)]; [reflexivity|rewrite Q in Hi; destruct Hi]. }
    eexists _, _. split; [reflexivity|]. split; [apply Store; assumption|exact A].
  - assert (Nw : w <> s0 (zlen w)) by (intro E; apply Q; apply Ns; exact E).
    assert (Loop : forall ds, (forall i, In i ds -> In i des) -> forall c1 ans, fc_ok c1 -> NoDup ans ->
      exists c2 ans2, rfold (fun acc i =>
                       let '(c, ans) := acc : atom_cache * list (list Z) in
                       do s <- s_i i;
                       do sw <- pmul s w; do v <- pmul sw s;
                       do r <- get_fpf_atoms aord dorder fuel c v;
                       let '(c, xs) := r : atom_cache * list (list Z) in
                       do ys <- rmap (fun x => pmul x s) xs;
                       Ok (c, wunion ans (wunion [] ys))) ds (c1, ans) = Ok (c2, ans2) /\ fc_ok c2 /\ NoDup ans2 /\
        forall a, In a ans2 <-> In a ans \/ exists u i, In i ds /\ W (zlen w) (icut w i) u /\ wordp (u ++ [i]) = a).
    { induction ds as [|i ds IHd]; intros Hd c1 ans G1 N1.
      - exists c1, ans. cbn. split; [reflexivity|]. split; [exact G1|]. split; [exact N1|]. intro v. split; [tauto|]. intros [?|(u & i & [] & _)]; assumption.
      - destruct (proj1 (Des i) (Hd i (or_introl eq_refl))) as [Hi N]. apply rdes_spec in Hi; [|apply Hcan]. destruct Hi as [Hi D].
        pose proof (fpf_descents _ w i Hl ltac:(lia) H0 Hi D) as Ri. cbn [rfold].
        rewrite sp_ok by assumption. cbn [rbind]. rewrite !pmul_ok by auto 10 with perm. cbn [rbind]. rewrite pmul_ok by auto 10 with perm. cbn [rbind].
        destruct (fpf_icut _ w i Hl Ri N D) as (Ei & Fi & _). destruct (icut_ok w i Hz Hi D) as (_ & _ & _ & Li). rewrite <- Ei.
        assert (Zi : zlen (icut w i) = zlen w).
        { pose proof (icut_len _ w i Hl Ri N D ltac:(lia)) as Z1. destruct (Z_lt_ge_dec (zlen (icut w i)) (zlen w)) as [Z2|Z2]; [|lia]. exfalso.
          destruct (proj2 Fi (zlen w) ltac:(lia)) as [_ Nf]. apply Nf. apply pcall_out. lia. }
        destruct (IH c1 (icut w i) G1 ltac:(split; rewrite Zi; assumption) ltac:(lia)) as (c1' & xs & Ew & G1' & [Nx Ix]). rewrite Ew. cbn [rbind].
        rewrite (rmap_ok _ _ _ (fun x => mulp x (sp i))).
        2:{ intros x Hx. apply Ix in Hx. pose proof (fatom_canonical _ _ Hx) as Cx. apply pmul_ok; auto 10 with perm. }
        cbn [rbind]. set (ys := map (fun x => mulp x (sp i)) xs).
        destruct (wunion_spec ys [] ltac:(constructor)) as [Nu Iu]. destruct (wunion_spec (wunion [] ys) ans N1) as [Nu2 Iu2].
        destruct (IHd (fun j Hj => Hd j (or_intror Hj)) c1' _ G1' Nu2) as (c2 & ans2 & E2 & G2 & N2 & I2).
        exists c2, ans2. split; [exact E2|]. split; [exact G2|]. split; [exact N2|]. intro a. rewrite I2, Iu2, Iu. unfold ys. rewrite in_map_iff. split.
        + intros [[?|[[]|(x & <- & Hx)]]|(u & j & Hj & Hv)]; [left; assumption| |].
          * right. apply Ix in Hx. destruct Hx as (u & Wu & <-). rewrite Zi in Wu. exists u, i. split; [left; reflexivity|]. split; [exact Wu|]. apply wordp_snoc.
          * right. exists u, j. split; [right; exact Hj|exact Hv].
        + intros [?|(u & j & [<-|Hj] & Wu & Eu)]; [tauto| |right; exists u, j; auto]. left. right. right. exists (wordp u). split; [rewrite <- Eu; symmetry; apply wordp_snoc|]. apply Ix. exists u. rewrite Zi. auto. }
    destruct (Loop des (fun i Hi => Hi) c [] Hc ltac:(constructor)) as (c2 & ans2 & E2 & G2 & N2 & I2).
    destruct des as [|d0 dr] eqn:Qd; [congruence|]. rewrite E2. cbn [rbind].
    assert (A : fatoms_ok w (aord ans2)).
    { split; [apply (Permutation_NoDup (Permutation_sym (aord_perm _))); exact N2|]. intro a. assert (P : In a (aord ans2) <-> In a ans2) by (split; apply Permutation_in; [apply aord_perm|apply Permutation_sym, aord_perm]). rewrite P, I2. split.
      - intros [[]|(u & i & Hi & Wu & <-)]. exists (u ++ [i]). split; [|reflexivity]. apply W_snoc; [exact Hm|]. apply Des in Hi. destruct Hi as [Hi N]. apply rdes_spec in Hi; [|apply Hcan]. destruct Hi as [Hi D]. pose proof (fpf_descents _ w i Hl ltac:(lia) H0 Hi D) as Ri. auto 10.
      - intros (v & Hv & <-). right. apply Last in Hv. destruct Hv as [[_ E]|(u & i & -> & Hi & Wu)]; [contradiction|]. exists u, i. auto. }
    eexists _, _. split; [reflexivity|]. split; [apply Store; assumption|exact A].
Qed.
Lemma fpf_atoms_fails : forall fuel c w, canonical w -> ~ fpf (zlen w) w -> (0 < fuel)%nat -> get_fpf_atoms aord dorder fuel c w = Err AssertionError.
Proof.
  intros [|fuel] c w Hw N Hf; [lia|]. cbn [get_fpf_atoms]. unfold is_fpf_involution. rewrite pinv_ok by apply Hw. cbn [rbind].
  destruct (peq w (invp w) && forallb (fun i => negb (pcall w i =? i)) (zrange 1 (zlen w + 1))) eqn:Q; cbn [negb]; [|reflexivity].
  destruct (is_unsigned w) eqn:U; cbn [negb]; [|reflexivity]. exfalso. apply N. apply andb_prop in Q. destruct Q as [Q1 Q2]. apply zlist_eqb_eq in Q1. split; [apply invp_invol; [exact Hw|symmetry; exact Q1]|].
  intros x Hx. rewrite forallb_forall in Q2. specialize (Q2 x ltac:(apply In_zrange; lia)). split; [|lia]. unfold is_unsigned in U. rewrite forallb_forall in U. rewrite pcall_pos by lia. specialize (U (nthz w (x - 1)) ltac:(apply nthz_In; lia)). apply Z.ltb_lt in U. exact U.
Qed.
End Ord.
