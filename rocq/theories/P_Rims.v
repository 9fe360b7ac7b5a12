(* C89: decompositions of shifted shapes, rims and shifted ribbons *)
From Coq Require Import List ZArith Lia Bool Permutation Sorted.
From Verif Require Import PyBase M_Partitions S_Partitions L_Partitions L_PartBasic M_Tableaux S_Tableaux M_Rims S_Rims L_Rims1 L_Rims2 L_Rims3.
From Verif Require P_Partitions.
Import ListNotations.
Local Open Scope Z_scope.

(* decompose_shifted_shape_by_vertical_strips(mu): the strict nu with at most one box of mu/nu in each row, once each *)
Theorem C89_vertical_strips : forall mu, strict_partition mu -> exists l, decompose_by_vertical_strips mu = Ok l /\ NoDup l /\
  forall nu, In nu l <-> strict_partition nu /\ vertical_strip mu nu.
Proof. intros mu H. apply vstrips_ok; [exact H|lia]. Qed.
Print Assumptions C89_vertical_strips.
(* decompose_shifted_shape_by_rims(mu): the strict nu such that mu/nu is a rim, once each; the same nu as in
   shifted_ribbon_complements(mu) *)
Theorem C89_decompose_rims : forall mu, strict_partition mu -> exists l, decompose_by_rims mu = Ok l /\ NoDup l /\
  (forall nu, In nu l <-> strict_partition nu /\ is_rim mu nu) /\ Permutation l (shifted_ribbon_complements mu).
Proof.
  intros mu H. destruct (drims_ok (S (length mu)) mu H ltac:(lia)) as (l & E & N & M). exists l. split; [exact E|]. split; [exact N|].
  assert (M' : forall nu, In nu l <-> strict_partition nu /\ is_rim mu nu).
  { intro nu. rewrite M. split; intros [A B]; (split; [exact A|]); apply (rim_rows mu nu H A) || apply (rim_rows mu nu H A) in B; exact B || (intro i; specialize (B i); lia). }
  split; [exact M'|]. unfold shifted_ribbon_complements.
  assert (St : strict_partition (tl mu)) by (destruct mu; [exact H|exact (strict_tail _ _ H)]). rewrite (trim_id (tl mu)) by (apply strict_rows; exact St). pose proof (partition_weak _ (strict_is_partition _ H)) as Wm. pose proof (partition_weak _ (strict_is_partition _ St)) as Wt.
  destruct (P_Partitions.C16_subpartitions mu (tl mu) true Wm Wt) as [N2 M2]; [rewrite (trim_id (tl mu)) by (apply strict_rows; exact St); destruct mu; cbn [tl length]; lia|]. apply NoDup_Permutation; [exact N|exact N2|]. intro nu. rewrite M, M2. cbn [part_b].
  assert (Rt : forall i, row (tl mu) i = row mu (S i)) by (intro i; destruct mu; [rewrite !row_nil; reflexivity|reflexivity]).
  split.
  - intros [A B]. pose proof (partition_weak _ (strict_is_partition _ A)) as Wn. split; [exact A|]. split; [refine (proj2 (cells_row_le _ _ Wt Wn) _); intro i; rewrite Rt; apply B|refine (proj2 (cells_row_le _ _ Wn Wm) _); intro i; apply B].
  - intros (A & B & C). pose proof (partition_weak _ (strict_is_partition _ A)) as Wn. split; [exact A|]. intro i. split; [rewrite <- Rt; apply (proj1 (cells_row_le _ _ Wt Wn) B)|apply (proj1 (cells_row_le _ _ Wn Wm) C)].
Qed.
Print Assumptions C89_decompose_rims.

(* rims(mu, bound): the sorted boxes of nu/mu, for every strict nu such that nu/mu is a rim with at most bound boxes in the
   first row, once each *)
Theorem C89_rims : forall mu bound, strict_partition mu -> exists l, rims mu bound = Ok l /\ NoDup l /\
  forall t, In t l <-> exists nu, strict_partition nu /\ is_rim nu mu /\ row nu 0 <= row mu 0 + Z.max 0 bound /\
    StronglySorted before t /\ forall i j, In (i, j) t <-> shifted_skew_cell nu mu i j.
Proof.
  intros mu bound H. destruct (rims_ok mu bound H) as (l & E & N & M). exists l. split; [exact E|]. split; [exact N|]. intro t. rewrite M. split; intros (nu & A & B & C); exists nu; (split; [exact A|]); (split; [|exact C]).
  - apply (rim_rows nu mu A H). exact B.
  - apply (rim_rows nu mu A H). exact B.
Qed.
Print Assumptions C89_rims.
Theorem C89_rims_strict : forall mu bound, (exists i, (S i < length mu)%nat /\ row mu i <= row mu (S i)) -> rims mu bound = Err AssertionError.
Proof.
  intros mu bound (i & L & H). unfold rims. replace (is_strict_partition mu) with false; [reflexivity|]. symmetry. unfold is_strict_partition. apply not_true_is_false. intro F. rewrite forallb_forall in F. specialize (F (Z.of_nat (S i)) ltac:(apply In_zrange; unfold zlen; lia)). rewrite !nthz_row' in F. replace (Z.to_nat (Z.of_nat (S i) - 1)) with i in F by lia. rewrite Nat2Z.id in F. lia.
Qed.
Print Assumptions C89_rims_strict.
Example C89_ex : strict_partition [4; 2; 1] /\ decompose_by_rims [4; 2; 1] = Ok [[2; 1]; [3; 1]; [4; 1]; [3; 2]; [4; 2]; [3; 2; 1]; [4; 2; 1]] /\
  decompose_by_vertical_strips [4; 2; 1] = Ok [[3; 1]; [3; 2]; [3; 2; 1]; [4; 1]; [4; 2]; [4; 2; 1]] /\
  rims [3; 2] 1 = Ok [[]; [(1, 4)]; [(1, 4); (2, 4)]; [(3, 3)]; [(1, 4); (3, 3)]; [(1, 4); (2, 4); (3, 3)]; [(1, 4); (2, 4); (3, 3); (3, 4)]] /\
  is_rim [4; 3; 2] [3; 2].
Proof.
  assert (S1 : strict_partition [4; 2; 1]) by (split; [repeat (apply Forall_cons || apply Forall_nil); lia|intros [|[|i]] Hi; cbn in *; lia]).
  split; [exact S1|]. split; [vm_compute; reflexivity|]. split; [vm_compute; reflexivity|]. split; [vm_compute; reflexivity|].
  apply rim_rows; [split; [repeat (apply Forall_cons || apply Forall_nil); lia|intros [|[|i]] Hi; cbn in *; lia]|split; [repeat (apply Forall_cons || apply Forall_nil); lia|intros [|[|i]] Hi; cbn in *; lia]|]. intros [|[|[|i]]]; cbn; try lia. destruct i; lia.
Qed.

(* shifted_ribbon(alpha): nu/lam is a connected rim with alpha_i boxes in row i *)
Theorem C89_shifted_ribbon : forall alpha, Forall (fun a => 0 < a) alpha -> let nu := fst (shifted_ribbon alpha) in let lam := snd (shifted_ribbon alpha) in
  strict_partition nu /\ strict_partition lam /\ length nu = length alpha /\ (forall i, row lam i = row nu (S i)) /\ forall i, row nu i - row lam i = row alpha i.
Proof.
  intros alpha P. unfold shifted_ribbon. cbn [fst snd].
  assert (Zp : forall l, Forall (fun a => 0 < a) l -> 0 <= zsum l /\ (l <> [] -> 0 < zsum l)).
  { induction l as [|a l IH]; intro F; [cbn; split; [lia|congruence]|]. inversion F as [|? ? F1 F2]; subst. destruct (IH F2). cbn [zsum]. split; lia. }
  assert (R : forall l, Forall (fun a => 0 < a) l -> (forall i, row (snd (ribbon_rows l)) i = row (fst (ribbon_rows l)) (S i)) /\ (forall i, row (fst (ribbon_rows l)) i - row (snd (ribbon_rows l)) i = row l i) /\ row (fst (ribbon_rows l)) 0 = zsum l /\ Forall (fun a => 0 < a) (fst (ribbon_rows l)) /\ length (fst (ribbon_rows l)) = length l).
  { induction l as [|a l IH]; intro F; [cbn [ribbon_rows fst snd]; repeat split; intros; rewrite ?row_nil; try lia; constructor|]. inversion F as [|? ? F1 F2]; subst. destruct (IH F2) as (A & B & C & D & E). cbn [ribbon_rows fst snd]. split; [|split; [|split; [|split]]].
    - intros [|i]; cbn [row nth]; [symmetry; exact C|]. apply A.
    - intros [|i]; cbn [row nth]; [cbn [zsum]; lia|]. apply B.
    - reflexivity.
    - constructor; [apply (Zp (a :: l)); [exact F|discriminate]|exact D].
    - cbn [length]. lia. }
  destruct (R alpha P) as (A & B & C & D & E). rewrite (trim_id (fst (ribbon_rows alpha))) by (apply pos_trimmed; exact D).
  assert (Hn : strict_partition (fst (ribbon_rows alpha))).
  { split; [exact D|]. intros i L. rewrite <- A. specialize (B i). rewrite E in L. pose proof (row_pos alpha i P ltac:(lia)). lia. }
  split; [exact Hn|]. split.
  - apply strict_rows in Hn. apply strict_rows. split; [apply trimmed_trim|]. intro k. rewrite !trim_row, !A. apply Hn.
  - split; [exact E|]. split; intro i; rewrite trim_row; [apply A|apply B].
Qed.
Print Assumptions C89_shifted_ribbon.
Example C89_ribbon_ex : shifted_ribbon [2; 1; 3] = ([6; 4; 3], [4; 3]).
Proof. vm_compute. reflexivity. Qed.

Lemma generate_cons : forall n0 nu' lb lam' ub, ribbon_generate (n0 :: nu') (lb :: lam') ub =
  let ub := match ub with None => n0 | Some u => Z.min n0 u end in
  do parts <- rmap (fun a => do xs <- ribbon_generate nu' lam' (Some (a - 1));
                             match nu', xs with [], _ :: _ => Err TypeError | _, _ => Ok (map (fun xy => (n0 :: fst xy, a :: snd xy)) xs) end) (zrange lb (ub + 1));
  Ok (concat parts).
Proof. reflexivity. Qed.
(* shifted_ribbons(n) raises IndexError for every n >= 1, before it yields anything *)
Theorem C89_shifted_ribbons_refuted : (forall n, 1 <= n -> shifted_ribbons n = Err IndexError) /\ shifted_ribbons 0 = Ok [([], [])].
Proof.
  split; [|vm_compute; reflexivity]. intros n Hn.
  assert (G : forall nu ub, nu <> [] -> strict_partition nu -> (forall u, ub = Some u -> row nu 1 <= u) -> ribbon_generate nu (tl nu) ub = Err IndexError).
  { induction nu as [|n0 nu IH]; intros ub NE S U; [congruence|]. destruct nu as [|n1 r]; [reflexivity|]. cbn [tl]. rewrite generate_cons. cbv zeta. pose proof (strict_tail _ _ S) as S'. pose proof (proj2 (proj1 (strict_rows _) S) 0%nat) as K. pose proof (proj2 (proj1 (strict_rows _) S) 1%nat) as K'. cbn [row nth] in K, K'. pose proof (Forall_inv (proj1 S')) as P1. cbn beta in P1.
    rewrite (zrange_cons n1); [|destruct ub as [u|]; [specialize (U u eq_refl); cbn [row nth] in U; lia|lia]]. cbn [rmap]. specialize (IH (Some (n1 - 1)) ltac:(discriminate) S'). cbn [tl] in IH. rewrite IH; [reflexivity|]. intros u Q. injection Q as <-. cbn [row nth]. lia. }
  destruct (P_Partitions.C14_compositions n ltac:(lia)) as [N M]. unfold shifted_ribbons. destruct (compositions n) as [|alpha rest] eqn:E.
  - exfalso. assert (K : In [n] (@nil (list Z))) by (apply M; split; [repeat constructor; lia|cbn; lia]). destruct K.
  - cbn [rfold existsb]. assert (Ha : In alpha (alpha :: rest)) by (left; reflexivity). apply M in Ha. destruct Ha as [Hp Hs]. destruct (C89_shifted_ribbon alpha Hp) as (A & B & C & D & F). cbn zeta in *.
    assert (T : snd (shifted_ribbon alpha) = tl (fst (shifted_ribbon alpha))). { assert (St : strict_partition (tl (fst (shifted_ribbon alpha)))) by (destruct (fst (shifted_ribbon alpha)); [exact A|exact (strict_tail _ _ A)]). apply trimmed_ext; [apply strict_rows; exact B|apply strict_rows; exact St|]. intro i. rewrite D. destruct (fst (shifted_ribbon alpha)); [rewrite !row_nil; reflexivity|reflexivity]. }
    rewrite T, G; [reflexivity| |exact A|discriminate]. intro Q. rewrite Q in C. cbn in C. destruct alpha; [cbn in Hs; lia|discriminate].
Qed.
Print Assumptions C89_shifted_ribbons_refuted.
