(* C32 *)
From Coq Require Import List ZArith Lia Bool Permutation Sorted.
From Verif Require Import PyBase M_Partitions M_Tableaux S_Tableaux L_Tableaux.
Import ListNotations.
Local Open Scope Z_scope.

(* the sorted tuple stored for a value *)
Definition stored (v : pyval) (l : list Z) : Prop :=
  increasing l /\ match v with VInt x => l = [x] | VTup w => Permutation w l end.

(* u is t with the contents of cell c given by o *)
Definition updated (t u : tab) (c : Z * Z) (o : option (list Z)) : Prop :=
  well_formed u /\ tlookup u c = o /\ forall d, d <> c -> tlookup u d = tlookup t d.

Lemma stored_tuplize : forall v, stored v (tuplize v).
Proof. intros [x|l]; (split; [apply tuplize_increasing|]); [reflexivity|apply sorted_perm]. Qed.

Lemma tput_updated : forall t c l, well_formed t -> positive c -> increasing l -> updated t (tput c l t) c (Some l).
Proof.
  intros t c l W P I. split; [apply tput_wf; assumption|]. split.
  - rewrite tlookup_tput, box_eqb_refl by apply W. reflexivity.
  - intros d Hd. rewrite tlookup_tput by apply W. rewrite (proj2 (box_eqb_neq c d)) by congruence. reflexivity.
Qed.
Lemma tdel_updated : forall t c, well_formed t -> updated t (tdel c t) c None.
Proof.
  intros t c W. split; [apply tdel_wf; assumption|]. split.
  - rewrite tlookup_tdel, box_eqb_refl by apply W. reflexivity.
  - intros d Hd. rewrite tlookup_tdel by apply W. rewrite (proj2 (box_eqb_neq c d)) by congruence. reflexivity.
Qed.
Lemma tmem_spec : forall t c, tmem t c = true <-> exists l, tlookup t c = Some l.
Proof. intros t c. unfold tmem. destruct (tlookup t c); split; [eauto|reflexivity|discriminate|intros [l H]; discriminate]. Qed.

(* Tableau(mapping) *)
Theorem C32_construction : forall m, NoDup (map fst m) ->
  ((forall c v, In (c, v) m -> 0 < fst c /\ 0 < snd c) ->
   exists t, tinit m = Ok t /\ well_formed t /\
     (forall c v, In (c, v) m -> exists l, tlookup t c = Some l /\ stored v l) /\
     (forall c, ~ In c (map fst m) -> tlookup t c = None)) /\
  ((exists c v, In (c, v) m /\ ~ (0 < fst c /\ 0 < snd c)) -> tinit m = Err AssertionError).
Proof.
  intros m N. split.
  - intro P. destruct (tinit_spec m N) as (t & E & W & L).
    + intros c H. apply in_map_iff in H. destruct H as ([d v] & <- & H). apply (P d v H).
    + exists t. split; [assumption|]. split; [assumption|]. split.
      * intros c v H. exists (tuplize v). rewrite L, (In_mlookup m c v N H). split; [reflexivity|apply stored_tuplize].
      * intros c H. rewrite L, (proj2 (mlookup_None m c) H). reflexivity.
  - intros (c & v & H & P). apply (tinit_bad m c); [apply (in_map fst) in H; exact H|exact P].
Qed.
Print Assumptions C32_construction.

(* equality is equality of all lookups, and iteration visits every cell once, in order *)
Theorem C32_equality : forall t u, well_formed t -> well_formed u ->
  (teqb t u = true <-> forall c, tlookup t c = tlookup u c) /\
  (forall c l, In (c, l) t <-> tlookup t c = Some l) /\ NoDup (map fst t).
Proof.
  intros t u Wt Wu. split; [|split].
  - assert (H : teqb t u = true <-> t = u).
    { clear. revert u. induction t as [|[c v] t IH]; intros [|[d w] u]; cbn [teqb]; try (split; congruence).
      rewrite !andb_true_iff, IH, box_eqb_eq, zlist_eqb_eq. split; [intros [[-> ->] ->]; reflexivity|intro H; injection H; tauto]. }
    rewrite H. split; [intros -> c; reflexivity|apply wf_ext; assumption].
  - intros c l. split; [apply In_tlookup; apply Wt|apply tlookup_In].
  - apply sorted_NoDup. apply Wt.
Qed.
Print Assumptions C32_equality.

(* add *)
Theorem C32_add : forall t i j, well_formed t ->
  (0 < i -> 0 < j ->
    (forall x, exists u l, tadd t i j (VInt x) = Ok u /\ updated t u (i, j) (Some l) /\ increasing l /\
       Permutation (x :: match tlookup t (i, j) with Some old => old | None => [] end) l) /\
    (forall v, tlookup t (i, j) = None -> exists u l, tadd t i j v = Ok u /\ updated t u (i, j) (Some l) /\ stored v l)) /\
  (forall v, ~ (0 < i /\ 0 < j) -> tadd t i j v = Err AssertionError).
Proof.
  intros t i j W. split.
  - intros Hi Hj. split.
    + intro x. rewrite (tadd_int t i j x W Hi Hj). eexists. exists (sinsert x (entries t (i, j))).
      assert (I : increasing (entries t (i, j))).
      { unfold entries. destruct (tlookup t (i, j)) eqn:E; [|constructor]. apply (wf_lookup t (i, j)); assumption. }
      split; [reflexivity|]. split; [|split].
      * apply tput_updated; [assumption|split; assumption|apply sinsert_increasing; assumption].
      * apply sinsert_increasing; assumption.
      * apply sinsert_perm.
    + intros v E. unfold tadd. replace ((0 <? i) && (0 <? j)) with true by (symmetry; apply andb_true_iff; rewrite !Z.ltb_lt; lia).
      rewrite E, (tinit_mput_eq t (i, j) v W (conj Hi Hj)). eexists. exists (tuplize v). split; [reflexivity|].
      split; [apply tput_updated; [assumption|split; assumption|apply tuplize_increasing]|apply stored_tuplize].
  - intros v H. unfold tadd. replace ((0 <? i) && (0 <? j)) with false; [reflexivity|]. symmetry. apply andb_false_iff. rewrite !Z.ltb_ge. lia.
Qed.
Print Assumptions C32_add.

(* remove, with and without an entry *)
Theorem C32_remove : forall t i j, well_formed t ->
  (tlookup t (i, j) = None -> forall v, tremove t i j v = Err AssertionError) /\
  (forall old, tlookup t (i, j) = Some old ->
     (exists u, tremove t i j None = Ok u /\ updated t u (i, j) None) /\
     (forall x, ~ In x old -> tremove t i j (Some x) = Err AssertionError) /\
     (forall x, In x old -> exists u l, tremove t i j (Some x) = Ok u /\ increasing l /\ Permutation old (x :: l) /\
        updated t u (i, j) (match l with [] => None | _ => Some l end))).
Proof.
  intros t i j W. split.
  - intros E v. unfold tremove. rewrite E. reflexivity.
  - intros old E. destruct (wf_lookup t (i, j) old W E) as [P I]. unfold tremove. rewrite E. split; [|split].
    + rewrite (tinit_items _ (tdel_wf t (i, j) W)). eexists. split; [reflexivity|apply tdel_updated; assumption].
    + intros x H. destruct (existsb (Z.eqb x) old) eqn:X; [|reflexivity]. exfalso. apply existsb_exists in X. destruct X as (y & Hy & Exy).
      apply Z.eqb_eq in Exy. subst. contradiction.
    + intros x H. replace (existsb (Z.eqb x) old) with true.
      2: { symmetry. apply existsb_exists. exists x. split; [assumption|apply Z.eqb_refl]. }
      pose proof (cut_first_perm x old H) as Pm. pose proof (cut_first_increasing x old I) as Ic. destruct (cut_first x old) as [|y l] eqn:C.
      * rewrite (tinit_items _ (tdel_wf t (i, j) W)). eexists. exists []. split; [reflexivity|]. split; [constructor|]. split; [assumption|]. apply tdel_updated; assumption.
      * rewrite (tinit_mput_eq t (i, j) _ W P). eexists. exists (y :: l). split; [reflexivity|]. split; [assumption|]. split; [assumption|].
        cbn [tuplize]. rewrite sorted_id by assumption. apply tput_updated; assumption.
Qed.
Print Assumptions C32_remove.

(* replace, clear and set *)
Theorem C32_replace : forall t i j v, well_formed t ->
  (tlookup t (i, j) = None -> treplace t i j v = Err AssertionError /\ tclear t i j = Err AssertionError /\ tset t i j v = tadd t i j v) /\
  (tlookup t (i, j) <> None ->
     (exists u l, treplace t i j v = Ok u /\ tset t i j v = Ok u /\ updated t u (i, j) (Some l) /\ stored v l) /\
     (exists u, tclear t i j = Ok u /\ updated t u (i, j) None)).
Proof.
  intros t i j v W. unfold treplace, tclear, tset, treplace, tmem. split.
  - intros ->. repeat split.
  - intro H. destruct (tlookup t (i, j)) as [old|] eqn:E; [|contradiction]. destruct (wf_lookup t (i, j) old W E) as [P I]. split.
    + rewrite (tinit_mput_eq t (i, j) v W P). eexists. exists (tuplize v). split; [reflexivity|]. split; [reflexivity|]. split; [|apply stored_tuplize].
      apply tput_updated; [assumption|assumption|apply tuplize_increasing].
    + rewrite (tinit_items _ (tdel_wf t (i, j) W)). eexists. split; [reflexivity|apply tdel_updated; assumption].
Qed.
Print Assumptions C32_replace.

(* transpose exchanges coordinates and is an involution *)
Lemma transpose_spec : forall t, well_formed t -> exists u, ttranspose t = Ok u /\ well_formed u /\
    forall i j, tlookup u (j, i) = tlookup t (i, j).
Proof.
  intros t W. unfold ttranspose. set (m := map _ t).
  assert (K : @map (box * pyval) box fst m = map (fun c => (snd c, fst c)) (map fst t)) by (unfold m; rewrite !map_map; reflexivity).
  destruct (tinit_spec m) as (u & E & Wu & L).
  - rewrite K. apply NoDup_map_inj_in; [|apply sorted_NoDup; apply W]. intros [a1 a2] [b1 b2] _ _ H. cbn [fst snd] in H. congruence.
  - intros c Hc. rewrite K in Hc. apply in_map_iff in Hc. destruct Hc as (d & <- & Hd). apply (wf_keys t d W) in Hd. unfold positive in *. cbn [fst snd]. tauto.
  - exists u. split; [exact E|]. split; [assumption|]. intros i j. rewrite L.
    assert (M : mlookup m (j, i) = option_map VTup (tlookup t (i, j))).
    { unfold m. clear. induction t as [|[[a b] w] t IH]; [reflexivity|]. cbn [map mlookup tlookup fst snd].
      replace (box_eqb (b, a) (j, i)) with (box_eqb (a, b) (i, j)) by (unfold box_eqb; cbn [fst snd]; apply andb_comm).
      destruct (box_eqb (a, b) (i, j)); [reflexivity|apply IH]. }
    rewrite M. destruct (tlookup t (i, j)) eqn:El; [|reflexivity]. cbn [option_map tuplize]. rewrite sorted_id; [reflexivity|]. apply (wf_lookup t (i, j)); assumption.
Qed.
Theorem C32_transpose : forall t, well_formed t -> exists u, ttranspose t = Ok u /\ well_formed u /\
  (forall i j, tlookup u (j, i) = tlookup t (i, j)) /\ ttranspose u = Ok t.
Proof.
  intros t W. destruct (transpose_spec t W) as (u & E & Wu & L). exists u. split; [assumption|]. split; [assumption|]. split; [assumption|].
  destruct (transpose_spec u Wu) as (v & E2 & Wv & L2). rewrite E2. f_equal. apply wf_ext; [assumption|assumption|]. intros [i j]. rewrite L2, L. reflexivity.
Qed.
Print Assumptions C32_transpose.

(* get: one-element tuples are unpacked on request *)
Theorem C32_get : forall t c default unpack,
  (tlookup t c = None -> default = None -> tget t c default unpack = None) /\
  (forall x, tlookup t c = Some [x] -> tget t c default unpack = Some (if unpack then VInt x else VTup [x])) /\
  (forall l, tlookup t c = Some l -> length l <> 1%nat -> tget t c default unpack = Some (VTup l)).
Proof.
  intros t c default unpack. unfold tget. split; [|split].
  - intros -> ->. reflexivity.
  - intros x ->. destruct unpack; reflexivity.
  - intros l -> H. destruct l as [|x [|y l]]; [reflexivity|exfalso; apply H; reflexivity|reflexivity].
Qed.
Print Assumptions C32_get.

Definition ex_tab : tab := [((1, 1), [1]); ((1, 2), [1; 2]); ((2, 1), [3])].
Example C32_example :
  well_formed ex_tab /\ tadd ex_tab 1 2 (VInt 1) = Ok [((1, 1), [1]); ((1, 2), [1; 1; 2]); ((2, 1), [3])] /\
  tremove ex_tab 2 1 (Some 3) = Ok [((1, 1), [1]); ((1, 2), [1; 2])] /\
  tinit [((2, 1), VInt 3); ((1, 2), VTup [2; 1]); ((1, 1), VInt 1)] = Ok ex_tab /\
  ttranspose ex_tab = Ok [((1, 1), [1]); ((1, 2), [3]); ((2, 1), [1; 2])] /\
  tset ex_tab 2 2 (VTup [5; 4]) = Ok (ex_tab ++ [((2, 2), [4; 5])]).
Proof.
  split; [|vm_compute; repeat split]. split.
  - unfold ex_tab, before. cbn. repeat constructor; cbn; lia.
  - intros c l H. cbn in H. repeat (destruct H as [H|H]; [injection H as <- <-; cbn; split; [lia|]; split; [lia|]; repeat constructor; lia|]). destruct H.
Qed.
