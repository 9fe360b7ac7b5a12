(* Tableaux given by row lengths and values, with an optional outer box: the elementary operations *)
From Coq Require Import List ZArith Bool Lia Sorted.
From Verif Require Import PyBase M_Partitions M_Tableaux S_Tableaux L_Tableaux M_Insertion.
Import ListNotations.
Local Open Scope Z_scope.

Definition inside (L : Z -> Z) (i j : Z) : bool := (1 <=? i) && (1 <=? j) && (j <=? L i).
Lemma inside_iff : forall L i j, inside L i j = true <-> 1 <= i /\ 1 <= j <= L i.
Proof. intros. unfold inside. rewrite !andb_true_iff, !Z.leb_le. lia. Qed.
Lemma inside_false : forall L i j, inside L i j = false <-> ~ (1 <= i /\ 1 <= j <= L i).
Proof. intros. rewrite <- inside_iff. destruct (inside L i j); intuition congruence. Qed.

Definition base (L : Z -> Z) (g : Z -> Z -> Z) (c : box) : option (list Z) :=
  if inside L (fst c) (snd c) then Some [g (fst c) (snd c)] else None.

Definition Rep (L : Z -> Z) (g : Z -> Z -> Z) (o : option (box * Z)) (t : tab) : Prop :=
  well_formed t /\
  forall c, tlookup t c = match o with Some (d, v) => if box_eqb d c then Some [v] else base L g c | None => base L g c end.

(* a partition shape *)
Definition shape (L : Z -> Z) : Prop :=
  (forall i, 1 <= i -> 0 <= L i) /\ (forall i, 1 <= i -> L (i + 1) <= L i).
Lemma shape_mono : forall L i j, shape L -> 1 <= i -> i <= j -> L j <= L i.
Proof.
  intros L i j [_ H] Hi Hij. assert (A : forall n, L (i + Z.of_nat n) <= L i).
  { induction n as [|n IH]; [replace (i + Z.of_nat 0) with i by lia; lia|].
    specialize (H (i + Z.of_nat n) ltac:(lia)). replace (i + Z.of_nat (S n)) with (i + Z.of_nat n + 1) by lia. lia. }
  specialize (A (Z.to_nat (j - i))). replace (i + Z.of_nat (Z.to_nat (j - i))) with j in A by lia. assumption.
Qed.

Lemma Rep_unique : forall L g o t u, Rep L g o t -> Rep L g o u -> t = u.
Proof. intros L g o t u [A B] [C D]. apply wf_ext; [assumption|assumption|]. intro c. rewrite B, D. reflexivity. Qed.
Lemma Rep_ext : forall L g L' g' o t, (forall i, 1 <= i -> L i = L' i) -> (forall i j, 1 <= i -> 1 <= j <= L i -> g i j = g' i j) -> Rep L g o t -> Rep L' g' o t.
Proof.
  intros L g L' g' o t HL Hg [W R]. split; [assumption|]. intro c. rewrite R.
  assert (E : base L g c = base L' g' c).
  { unfold base. destruct (inside L (fst c) (snd c)) eqn:E1, (inside L' (fst c) (snd c)) eqn:E2; try reflexivity.
    - apply inside_iff in E1. rewrite Hg by tauto. reflexivity.
    - apply inside_iff in E1. apply inside_false in E2. rewrite <- HL in E2 by tauto. tauto.
    - apply inside_iff in E2. apply inside_false in E1. rewrite <- HL in E2 by tauto. tauto. }
  rewrite E. reflexivity.
Qed.

(* adding the outer box *)
Definition outside (L : Z -> Z) (c : box) : Prop := inside L (fst c) (snd c) = false.
Lemma Rep_add_outer : forall L g t i j a, Rep L g None t -> 0 < i -> 0 < j -> outside L (i, j) ->
  exists u, tadd t i j (VInt a) = Ok u /\ Rep L g (Some ((i, j), a)) u.
Proof.
  intros L g t i j a [W R] Hi Hj O. rewrite tadd_int by assumption. eexists. split; [reflexivity|]. split.
  - apply tput_wf; [assumption|split; assumption|]. apply sinsert_increasing. unfold entries. rewrite R. unfold base. rewrite O. constructor.
  - intro c. rewrite tlookup_tput by apply W. unfold entries. rewrite R. unfold base at 1. rewrite O. cbn [sinsert]. destruct (box_eqb (i, j) c); [reflexivity|apply R].
Qed.
Lemma tremove_None : forall t i j l, well_formed t -> tlookup t (i, j) = Some l -> tremove t i j None = Ok (tdel (i, j) t).
Proof. intros t i j l W E. unfold tremove. rewrite E. apply tinit_items. apply tdel_wf. assumption. Qed.
Lemma Rep_remove_outer : forall L g t i j a, Rep L g (Some ((i, j), a)) t -> outside L (i, j) ->
  exists u, tremove t i j None = Ok u /\ Rep L g None u.
Proof.
  intros L g t i j a [W R] O. assert (E : tlookup t (i, j) = Some [a]) by (rewrite R, box_eqb_refl; reflexivity).
  rewrite (tremove_None t i j [a]) by assumption. eexists. split; [reflexivity|]. split; [apply tdel_wf; assumption|].
  intro c. rewrite tlookup_tdel by apply W. rewrite R. destruct (box_eqb (i, j) c) eqn:Ec; [|reflexivity].
  apply box_eqb_eq in Ec. subst. unfold base. rewrite O. reflexivity.
Qed.

Lemma geti_lookup : forall t i j x, tlookup t (i, j) = Some [x] -> geti t i j = Ok x.
Proof. intros t i j x E. unfold geti, tget. rewrite E. reflexivity. Qed.
Lemma geti0_lookup : forall t i j, geti0 t i j = match tlookup t (i, j) with Some [x] => Ok x | None => Ok 0 | _ => Err TypeError end.
Proof. intros t i j. unfold geti0, tget. destruct (tlookup t (i, j)) as [[|x [|y l]]|]; reflexivity. Qed.

(* maxima over cells *)
Lemma fold_max_spec : forall l m, m <= fold_left Z.max l m /\ (forall x, In x l -> x <= fold_left Z.max l m) /\ (fold_left Z.max l m = m \/ In (fold_left Z.max l m) l).
Proof.
  induction l as [|a l IH]; intro m; cbn [fold_left].
  - split; [lia|]. split; [intros x []|left; reflexivity].
  - destruct (IH (Z.max m a)) as (A & B & C). split; [lia|]. split.
    + intros x [<-|H]; [lia|apply B; assumption].
    + destruct C as [C|C]; [|right; right; assumption]. rewrite C. destruct (Z.max_spec m a) as [[_ E]|[_ E]]; rewrite E; [right; left; reflexivity|left; reflexivity].
Qed.
Lemma fold_max_eq : forall l m, 0 <= m -> (forall x, In x l -> x <= m) -> (m = 0 \/ In m l) -> fold_left Z.max l 0 = m.
Proof.
  intros l m Hm Hb Ha. destruct (fold_max_spec l 0) as (A & B & C). destruct Ha as [->|Ha].
  - destruct C as [C|C]; [assumption|]. specialize (Hb _ C). lia.
  - specialize (B _ Ha). destruct C as [C|C]; [lia|]. specialize (Hb _ C). lia.
Qed.
Lemma filter_true : forall A (l : list A), filter (fun _ => true) l = l.
Proof. induction l as [|a l IH]; [reflexivity|]. cbn. rewrite IH. reflexivity. Qed.

Lemma Rep_cells : forall L g o t c v, Rep L g o t -> (In (c, v) t <-> tlookup t c = Some v).
Proof. intros L g o t c v [W R]. split; [apply In_tlookup; apply W|apply tlookup_In]. Qed.

Lemma max_column_Rep : forall L g t, shape L -> Rep L g None t -> max_column t None = L 1.
Proof.
  intros L g t S R. unfold max_column. rewrite filter_true. destruct S as [S0 S1]. apply fold_max_eq.
  - apply S0. lia.
  - intros x Hx. apply in_map_iff in Hx. destruct Hx as ([[i j] v] & <- & H). apply (Rep_cells _ _ _ _ _ _ R) in H. destruct R as [W R].
    rewrite R in H. unfold base in H. cbn [fst snd] in *. destruct (inside L i j) eqn:E; [|discriminate]. apply inside_iff in E.
    pose proof (shape_mono L 1 i (conj S0 S1)). lia.
  - destruct (Z.eq_dec (L 1) 0) as [E|E]; [left; assumption|right]. specialize (S0 1 ltac:(lia)). apply in_map_iff. exists ((1, L 1), [g 1 (L 1)]). split; [reflexivity|].
    apply (Rep_cells _ _ _ _ _ _ R). destruct R as [W R]. rewrite R. unfold base. cbn [fst snd]. replace (inside L 1 (L 1)) with true; [reflexivity|symmetry; apply inside_iff; lia].
Qed.
(* the number of rows *)
Lemma max_row_Rep : forall L g t, shape L -> Rep L g None t ->
  0 <= max_row t None /\ (forall i, 1 <= i -> (1 <= L i <-> i <= max_row t None)).
Proof.
  intros L g t S R. unfold max_row. rewrite filter_true.
  match goal with |- context [fold_left Z.max ?x 0] => set (l := x) end. destruct (fold_max_spec l 0) as (A & B & C). set (M := fold_left Z.max l 0) in *. clearbody M. split; [assumption|]. intros i Hi. split.
  - intro H. apply B. unfold l. apply in_map_iff. exists ((i, 1), [g i 1]). split; [reflexivity|]. apply (Rep_cells _ _ _ _ _ _ R). destruct R as [W R]. rewrite R.
    unfold base. cbn [fst snd]. replace (inside L i 1) with true; [reflexivity|symmetry; apply inside_iff; lia].
  - intro H. destruct C as [C|C]; [lia|]. unfold l in C. apply in_map_iff in C. destruct C as ([[r c] v] & E & Hin). cbn [fst snd] in E.
    apply (Rep_cells _ _ _ _ _ _ R) in Hin. destruct R as [W R]. rewrite R in Hin. unfold base in Hin. cbn [fst snd] in Hin. destruct (inside L r c) eqn:E2; [|discriminate].
    apply inside_iff in E2. pose proof (shape_mono L i r S). lia.
Qed.

(* states *)
Definition HS (L : Z -> Z) (g : Z -> Z -> Z) (o : option (Z * Z)) (s : hstate) : Prop :=
  match o with
  | None => Rep L g None (htab s) /\ houter s = None
  | Some (i, a) => Rep L g (Some ((i, L 1 + 2), a)) (htab s) /\ houter s = Some (i, L 1 + 2) /\ hcols s = L 1
  end.
Lemma outer_outside : forall L i, shape L -> outside L (i, L 1 + 2).
Proof. intros L i S. unfold outside. apply inside_false. cbn [fst snd]. intro H. pose proof (shape_mono L 1 i S). lia. Qed.
Lemma hmake_None : forall L g t, Rep L g None t -> exists s, hmake t None = Ok s /\ HS L g None s /\ htab s = t.
Proof. intros L g t R. eexists. split; [reflexivity|]. split; [split; [exact R|reflexivity]|reflexivity]. Qed.
Lemma hmake_Some : forall L g t i a, shape L -> Rep L g (Some ((i, L 1 + 2), a)) t -> 1 <= i -> (i = 1 \/ 1 <= L (i - 1)) ->
  exists s, hmake t (Some (i, L 1 + 2)) = Ok s /\ HS L g (Some (i, a)) s /\ htab s = t.
Proof.
  intros L g t i a S R Hi HL. unfold hmake. destruct (Rep_remove_outer L g t i (L 1 + 2) a R (outer_outside L i S)) as (u & E & Ru).
  rewrite E. cbn [rbind]. rewrite (max_column_Rep L g u S Ru). rewrite Z.eqb_refl.
  destruct (max_row_Rep L g u S Ru) as [M0 M1]. replace (max_row u None + 2 =? i) with false.
  - eexists. split; [reflexivity|]. split; [|reflexivity]. split; [exact R|]. split; reflexivity.
  - symmetry. apply Z.eqb_neq. intro H. destruct (Z.eq_dec i 1) as [->|Hn]; [lia|]. destruct HL as [HL|HL]; [lia|]. pose proof (proj1 (M1 (i - 1) ltac:(lia)) HL). lia.
Qed.
