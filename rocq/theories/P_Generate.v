(* C15: generators of partitions sharing one table, in every history *)
From Coq Require Import List ZArith Lia Bool.
From Verif Require Import PyBase M_Partitions M_Generate S_Partitions S_Generate L_Generate.
Import ListNotations.
Local Open Scope Z_scope.

(* the partitions a call asks for; all(n, ..) asks for the partitions of 0, ..., n *)
Definition asked (c : pcall) (mu : list Z) : Prop :=
  match c with
  | CGenerate n p r s e => wanted n p r s e mu
  | CAll n p r s e => exists i, 0 <= i <= n /\ wanted i p r s e mu
  end.
Definition row_bound_ok (c : pcall) : Prop :=
  match c with CGenerate _ _ r _ _ => le_opt 0 r | CAll _ _ r _ _ => le_opt 0 r end.

Lemma call_list_asked : forall c, row_bound_ok c ->
  NoDup (call_list c) /\ forall mu, In mu (call_list c) <-> asked c mu.
Proof.
  intros [n p r s e|n p r s e] Hr; unfold call_list, asked; simpl in Hr.
  - split; [apply gl_NoDup|]. intro mu. apply gl_spec; [lia|assumption].
  - split.
    + apply NoDup_flat_map; [apply NoDup_zrange|intros; apply gl_NoDup|].
      intros x y mu _ _ H1 H2. apply gl_spec in H1; [|lia|assumption]. apply gl_spec in H2; [|lia|assumption].
      destruct H1 as (_ & E1 & _). destruct H2 as (_ & E2 & _). congruence.
    + intro mu. rewrite in_flat_map. split.
      * intros (i & Hi & H). apply In_zrange in Hi. exists i. split; [lia|]. apply gl_spec in H; [assumption|lia|assumption].
      * intros (i & Hi & H). exists i. split; [apply In_zrange; lia|]. apply gl_spec; [lia|assumption|assumption].
Qed.

(* After any history of creating and advancing generators (in any interleaving, any of them
   abandoned at any point), each generator has produced only partitions asked for, none twice,
   has not failed, and has produced all of them if it is exhausted. *)
Theorem C15_generate_histories : forall h x, In x (p_live (prun h)) -> row_bound_ok (l_call x) ->
  (forall e, l_status x <> Failed e) /\
  NoDup (l_out x) /\
  (forall mu, In mu (l_out x) -> asked (l_call x) mu) /\
  (l_status x = Exhausted -> forall mu, asked (l_call x) mu -> In mu (l_out x)).
Proof.
  intros h x Hx Hr. destruct (prun_ok h) as [_ Hl]. specialize (Hl x Hx). unfold live_ok in Hl.
  destruct (call_list_asked (l_call x) Hr) as [Hn Hin].
  destruct (l_status x) eqn:Es; [|rewrite Hl in *|destruct Hl].
  - destruct Hl as (rest & E & _). split; [congruence|]. split; [|split].
    + rewrite E in Hn. clear -Hn. induction (l_out x) as [|a l IH]; [constructor|]. simpl in Hn. inversion Hn as [|? ? H1 H2]; subst.
      constructor; [intro H; apply H1; apply in_app_iff; left; assumption|auto].
    + intros mu Hmu. apply Hin. rewrite E. apply in_app_iff. left. assumption.
    + discriminate.
  - split; [congruence|]. split; [assumption|]. split; [intro mu; apply Hin|]. intros _ mu. apply Hin.
Qed.
Print Assumptions C15_generate_histories.

(* the order of the values does not depend on the history either *)
Theorem C15_generate_deterministic : forall h1 h2 x1 x2,
  In x1 (p_live (prun h1)) -> In x2 (p_live (prun h2)) -> l_call x1 = l_call x2 ->
  l_status x1 = Exhausted -> exists rest, l_out x1 = l_out x2 ++ rest.
Proof.
  intros h1 h2 x1 x2 H1 H2 Hc Hs. destruct (prun_ok h1) as [_ L1]. destruct (prun_ok h2) as [_ L2].
  specialize (L1 x1 H1). specialize (L2 x2 H2). unfold live_ok in *. rewrite Hs in L1. rewrite Hc in L1.
  destruct (l_status x2); [|exists []; rewrite app_nil_r; congruence|destruct L2].
  destruct L2 as (rest & E & _). exists rest. congruence.
Qed.
Print Assumptions C15_generate_deterministic.

(* and advancing a generator often enough exhausts it *)
Theorem C15_generate_terminates : forall h i x, nth_error (p_live (prun h)) i = Some x ->
  exists k y, nth_error (p_live (prun (h ++ repeat (Next i) k))) i = Some y /\
    l_status y = Exhausted /\ l_call y = l_call x.
Proof.
  intros h i x Hx. destruct (prun_ok h) as [_ Hl]. specialize (Hl x (nth_error_In _ _ Hx)). unfold live_ok in Hl.
  destruct (l_status x) eqn:Es; [| |destruct Hl].
  - destruct Hl as (rest & _ & Hv). exists (S (length rest)). eapply exhaust; eassumption.
  - exists O, x. rewrite app_nil_r. auto.
Qed.
Print Assumptions C15_generate_terminates.

(* two interleaved calls with the same arguments and one abandoned call *)
Example C15_example :
  let c := CGenerate 4 (Some 3) None false false in
  let s := prun ([Start (CAll 3 None (Some 2) true false); Next 0; Start c; Next 1; Start c; Next 2; Next 1; Next 2] ++ repeat (Next 1) 9) in
  map (fun x => (l_out x, l_status x)) (p_live s) =
  [([[]], Running); ([[1; 1; 1; 1]; [2; 1; 1]; [2; 2]; [3; 1]], Exhausted); ([[1; 1; 1; 1]; [2; 1; 1]], Running)].
Proof. vm_compute. reflexivity. Qed.
