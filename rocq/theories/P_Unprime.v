(* C99: removing primes from groups of one cell; hinges *)
From Coq Require Import List ZArith Lia Bool Permutation Sorted.
From Verif Require Import PyBase M_Partitions S_Partitions M_Tableaux S_Tableaux L_Tableaux S_Strips S_Semistandard L_Families P_Families S_Standardize P_Standardize M_Transposed S_Transposed M_VST S_VST L_VST P_VST S_Unprime.
Import ListNotations.
Local Open Scope Z_scope.

Definition inb (c : box) (l : list box) : bool := existsb (box_eqb c) l.
Lemma inb_In : forall c l, inb c l = true <-> In c l.
Proof. intros c l. unfold inb. rewrite existsb_exists. split; [intros (d & H & E); apply box_eqb_eq in E; subst d; exact H|intro H; exists c; split; [exact H|apply box_eqb_refl]]. Qed.
(* apply f to the entry of each cell *)
Definition rec (f : box -> Z -> Z) (t : tab) : tab := map (fun cv => (fst cv, map (f (fst cv)) (snd cv))) t.
Lemma rec_keys : forall f t, map fst (rec f t) = map fst t.
Proof. intros f t. unfold rec. rewrite map_map. reflexivity. Qed.
Lemma rec_lookup : forall f t c, tlookup (rec f t) c = option_map (map (f c)) (tlookup t c).
Proof.
  intros f t c. induction t as [|[d w] t IH]; [reflexivity|]. cbn [rec map fst snd tlookup]. destruct (box_eqb d c) eqn:E; [|exact IH]. apply box_eqb_eq in E. subst d. reflexivity.
Qed.

Section Rec.
  Variables T G : tab.
  Hypothesis TG : grouped T G.
  Lemma nz : forall c x, In (c, [x]) T -> x <> 0.
  Proof. intros c x H. destruct (proj1 (proj2 TG) c [x] H) as (y & E & N). injection E as <-. exact N. Qed.
  Lemma single : forall c l, In (c, l) T -> exists x, l = [x].
  Proof. intros c l H. destruct (proj1 (proj2 TG) c l H) as (y & E & N). exists y. exact E. Qed.
  Lemma rec_In : forall f c y, In (c, [y]) (rec f T) <-> exists x, In (c, [x]) T /\ y = f c x.
  Proof.
    intros f c y. unfold rec. rewrite in_map_iff. split.
    - intros ([d l] & E & H). cbn [fst snd] in E. destruct (single d l H) as (x & ->). cbn [map] in E. injection E as -> <-. exists x. split; [exact H|reflexivity].
    - intros (x & H & ->). exists (c, [x]). split; [reflexivity|exact H].
  Qed.
  Lemma rec_cells : forall f c l, In (c, l) (rec f T) -> exists x, In (c, [x]) T /\ l = [f c x].
  Proof.
    intros f c l H. unfold rec in H. apply in_map_iff in H. destruct H as ([d l'] & E & H). cbn [fst snd] in E. destruct (single d l' H) as (x & ->). cbn [map] in E. injection E as <- <-. exists x. split; [exact H|reflexivity].
  Qed.
  Lemma rec_wf : forall f, well_formed (rec f T).
  Proof.
    intro f. split; [rewrite rec_keys; apply (WT T G TG)|]. intros c l H. destruct (rec_cells f c l H) as (x & Hx & ->). destruct (WT T G TG) as [_ P]. destruct (P c [x] Hx) as (A & B & _). split; [exact A|]. split; [exact B|]. repeat constructor.
  Qed.
  Lemma holds_In : forall i j x, holds T i j x <-> In ((i, j), [x]) T.
  Proof. intros i j x. rewrite (holds_single T G TG). apply (lookup_iff T G TG). Qed.
  Lemma rec_holds : forall f i j y, holds (rec f T) i j y <-> exists x, holds T i j x /\ y = f (i, j) x.
  Proof.
    intros f i j y. split.
    - intros (l & H & Hy). destruct (rec_cells f (i, j) l H) as (x & Hx & ->). destruct Hy as [<-|[]]. exists x. split; [apply holds_In; exact Hx|reflexivity].
    - intros (x & Hx & ->). apply holds_In in Hx. exists [f (i, j) x]. split; [apply rec_In; exists x; split; [exact Hx|reflexivity]|left; reflexivity].
  Qed.
  (* f keeps the linked pairs *)
  Definition keeps (f : box -> Z -> Z) : Prop :=
    (forall c x, In (c, [x]) T -> f c x <> 0) /\
    (forall i j x, In ((i, j), [x]) T -> In ((i, j), [1]) G -> f (i, j) x = x /\ (0 < x -> f (i, j + 1) x = x) /\ (x < 0 -> f (i - 1, j) x = x)).
  Lemma rec_grouping : forall f, keeps f -> grouping_of (rec f T) G.
  Proof.
    intros f [K1 K2]. destruct TG as (_ & _ & W & C & L). split; [exact W|]. split.
    - intros i j. rewrite C. split; intros (l & H).
      + destruct (single _ _ H) as (x & ->). exists [f (i, j) x]. apply rec_In. exists x. split; [exact H|reflexivity].
      + destruct (rec_cells f _ _ H) as (x & Hx & _). exists [x]. exact Hx.
    - intros i j l H. destruct (L i j l H) as [->|[-> (x & Hx & A & B)]]; [left; reflexivity|]. right. split; [reflexivity|]. destruct (K2 i j x (proj1 (holds_In i j x) Hx) H) as (F1 & F2 & F3).
      exists x. split; [apply rec_holds; exists x; split; [exact Hx|symmetry; exact F1]|]. split; intro P; apply rec_holds; exists x; (split; [auto|symmetry; auto]).
  Qed.
  Lemma rec_grouped : forall f, keeps f -> grouped (rec f T) G.
  Proof.
    intros f K. split; [apply rec_wf|]. split; [|apply rec_grouping; exact K]. intros c l H. destruct (rec_cells f c l H) as (x & Hx & ->). exists (f c x). split; [reflexivity|]. apply (proj1 K). exact Hx.
  Qed.
End Rec.

(* the constructor accepts groupings *)
Lemma init_grouped : forall T G, grouped T G -> vst_init T G = Ok (T, G).
Proof.
  intros T G TG. unfold vst_init.
  assert (X : forall l : tab, (forall cv, In cv l -> In cv T) -> rfold (fun (ok : bool) (cv : box * list Z) => if ok then (if truthy G (fst cv) then valid_position T (fst cv) else Ok true) else Ok false) l true = Ok true); [|rewrite X by (intros cv H; exact H); reflexivity].
  induction l as [|[c w] l IH]; intro H; [reflexivity|]. cbn [rfold fst]. assert (E : (if truthy G c then valid_position T c else Ok true) = Ok true).
  { destruct (truthy G c) eqn:F; [|reflexivity]. destruct (truthy_cell T G TG c F) as (x & Ex & Nx & A & B). unfold valid_position, tget. rewrite Ex. cbn [fst snd]. f_equal. apply (same_ok T G TG). destruct (Z.ltb_spec 0 x) as [P|P]; [apply A; exact P|apply B; lia]. }
  rewrite E. cbn [rbind]. apply IH. intros cv Hc. apply H. right. exact Hc.
Qed.

Section Unprime.
  Variables T G : tab.
  Hypothesis TG : grouped T G.
  Lemma unprime_fold : forall l m, NoDup (map fst m) -> (forall c, In c l -> exists x, tlookup T c = Some [x]) ->
    exists m', rfold (fun m c => do x <- entry T c; Ok (mput c (VInt (Z.abs x)) m)) l m = Ok m' /\ NoDup (map fst m') /\ (forall d, In d (map fst m') <-> In d (map fst m) \/ In d l) /\
      forall d, mlookup m' d = if inb d l then option_map (fun w => VInt (match w with x :: _ => Z.abs x | [] => 0 end)) (tlookup T d) else mlookup m d.
  Proof.
    induction l as [|c l IH]; intros m N H; [exists m; split; [reflexivity|]; split; [exact N|]; split; [intro d; cbn [In]; tauto|intro d; reflexivity]|].
    destruct (H c (or_introl eq_refl)) as (x & E). cbn [rfold]. rewrite (entry_ok T c x E). cbn [rbind]. destruct (IH (mput c (VInt (Z.abs x)) m) (mput_NoDup _ _ _ N)) as (m' & F & N' & K & L); [intros d Hd; apply H; right; exact Hd|].
    exists m'. split; [exact F|]. split; [exact N'|]. split.
    - intro d. rewrite K, mput_keys. cbn [In]. split; [intros [[D|D]|D]|intros [D|[D|D]]]; auto.
    - intro d. rewrite L. unfold inb. cbn [existsb]. destruct (existsb (box_eqb d) l) eqn:Q; [rewrite orb_true_r; reflexivity|]. rewrite orb_false_r, mlookup_mput. destruct (box_eqb c d) eqn:W.
      + apply box_eqb_eq in W. subst d. rewrite box_eqb_refl, E. reflexivity.
      + replace (box_eqb d c) with false; [reflexivity|]. symmetry. destruct (box_eqb d c) eqn:W2; [|reflexivity]. apply box_eqb_eq in W2. subst d. rewrite box_eqb_refl in W. discriminate.
  Qed.
  Definition absat (l : list box) (c : box) (x : Z) : Z := if inb c l then Z.abs x else x.
  Lemma lonely_zero : forall i j x, lonely T G i j x -> In ((i, j), [x]) T /\ In ((i, j), [0]) G.
  Proof. intros i j x [[P (L & A & _ & Z0 & _)]|[P (L & A & _ & Z0 & _)]]; (split; [apply A; lia|exact Z0]). Qed.
  Lemma absat_keeps : forall l, (forall i j, In (i, j) l -> exists x, lonely T G i j x) -> keeps T G (absat l).
  Proof.
    intros l H. split.
    - intros c x Hx. pose proof (nz T G TG c x Hx). unfold absat. destruct (inb c l); lia.
    - intros i j x Hx L1. unfold absat. split; [|split].
      + destruct (inb (i, j) l) eqn:Q; [|reflexivity]. apply inb_In in Q. destruct (H i j Q) as (y & Y). apply lonely_zero in Y. destruct (NL T G TG (i, j) (proj2 Y) L1).
      + intro P. destruct (inb (i, j + 1) l); lia.
      + intro P. destruct (inb (i - 1, j) l) eqn:Q; [|reflexivity]. exfalso. apply inb_In in Q. destruct (H _ _ Q) as (y & Y). pose proof (proj1 (lonely_zero _ _ _ Y)) as Hy.
        assert (Hl : In ((i - 1, j), [x]) T). { pose proof (proj2 (truthy_ok T G TG (i, j)) L1) as F. destruct (truthy_cell T G TG _ F) as (z & Ez & _ & _ & B). pose proof (proj2 (lookup_iff T G TG (i, j) [x]) Hx). assert (z = x) by congruence. subst z. apply tlookup_In, B. exact P. }
        pose proof (one_entry T G TG _ _ _ Hl Hy) as E. subst y. destruct Y as [[Y _]|[_ (_ & _ & _ & _ & Y)]]; [lia|]. apply Y. replace (i - 1 + 1) with i by lia. split; assumption.
  Qed.
  Lemma unprime_run : forall l, (forall i j, In (i, j) l -> exists x, lonely T G i j x) ->
    (do m <- unprime_cells T l; do t <- tinit m; vst_init t G) = Ok (rec (absat l) T, G).
  Proof.
    intros l H. assert (HL : forall c, In c l -> exists x, tlookup T c = Some [x]). { intros [i j] Hc. destruct (H i j Hc) as (x & Hx). exists x. apply (lookup_iff T G TG), (lonely_zero i j x Hx). }
    destruct (unprime_fold l (items T) (items_NoDup T (WT T G TG)) HL) as (m & E & N & K & L). unfold unprime_cells. rewrite E. cbn [rbind].
    destruct (tinit_spec m N) as (t & Et & W & Lt).
    { intros c Hc. apply K in Hc. rewrite keys_items in Hc. apply (wf_keys T c (WT T G TG)). destruct Hc as [Hc|Hc]; [exact Hc|]. destruct (HL c Hc) as (x & Hx). apply tlookup_In in Hx. apply (in_map fst) in Hx. exact Hx. }
    rewrite Et. cbn [rbind]. assert (Q : t = rec (absat l) T).
    { apply wf_ext; [exact W|apply (rec_wf T G TG)|]. intro c. rewrite Lt, L, rec_lookup. unfold absat. destruct (lookup_cases T G TG c) as [F|(x & F & _)].
      - rewrite F. destruct (inb c l); [reflexivity|]. rewrite mlookup_items, F. reflexivity.
      - rewrite F. destruct (inb c l); [reflexivity|]. rewrite mlookup_items, F. reflexivity. }
    rewrite Q. apply init_grouped. apply (rec_grouped T G TG). apply absat_keeps. exact H.
  Qed.
  Lemma rec_unprimed : forall l (P : Z -> Z -> Prop), (forall i j, In (i, j) l <-> P i j /\ exists x, lonely T G i j x) -> unprimed_where P T G (rec (absat l) T).
  Proof.
    intros l P H. split; [apply rec_keys|]. intros i j x Hx. split.
    - intros Hp Hl. apply (rec_In T G TG). exists x. split; [exact Hx|]. unfold absat. replace (inb (i, j) l) with true; [reflexivity|]. symmetry. apply inb_In, H. split; [exact Hp|exists x; exact Hl].
    - intro Hn. apply (rec_In T G TG). exists x. split; [exact Hx|]. unfold absat. destruct (inb (i, j) l) eqn:Q; [|reflexivity]. exfalso. apply inb_In, H in Q. destruct Q as (Hp & y & Y). apply Hn. split; [exact Hp|]. rewrite (one_entry T G TG _ _ _ Hx (proj1 (lonely_zero _ _ _ Y))). exact Y.
  Qed.
  Lemma singles_ok : exists l, vst_singletons (T, G) [] = Ok l /\ NoDup l /\ forall i j, In (i, j) l <-> exists x, lonely T G i j x.
  Proof.
    destruct (C98_singletons T G TG []) as (l & E & N & H). exists l. split; [exact E|]. split; [exact N|]. intros i j. rewrite H. split; [intros (x & A & _); exists x; exact A|intros (x & A); exists x; split; [exact A|left; reflexivity]].
  Qed.
  Lemma diagonal_ok : exists l, diagonal_singletons (T, G) [] = Ok l /\ forall i, In i l <-> exists x, lonely T G i i x.
  Proof.
    destruct singles_ok as (l & E & N & H). unfold diagonal_singletons. rewrite E. cbn [rbind]. eexists. split; [reflexivity|]. intro i.
    set (m := map fst (filter (fun c => fst c =? snd c) l)). assert (PI : In i (sorted m) <-> In i m) by (split; apply Permutation_in; [apply Permutation_sym|]; apply L_Tableaux.sorted_perm). rewrite PI. unfold m. rewrite in_map_iff. split.
    - intros ([a b] & <- & Hc). apply filter_In in Hc. cbn [fst snd] in *. destruct Hc as [Hc D]. apply Z.eqb_eq in D. subst b. apply H. exact Hc.
    - intros K. exists (i, i). split; [reflexivity|]. apply filter_In. split; [apply H; exact K|]. cbn [fst snd]. apply Z.eqb_refl.
  Qed.
  Lemma unprime_eq : exists l, unprime (T, G) = Ok (rec (absat l) T, G) /\ grouped (rec (absat l) T) G /\ forall i j, In (i, j) l <-> exists x, lonely T G i j x.
  Proof.
    destruct singles_ok as (l & E & _ & H). exists l. assert (K : forall i j, In (i, j) l -> exists x, lonely T G i j x) by (intros i j; apply H). split; [|split; [apply (rec_grouped T G TG), absat_keeps; exact K|exact H]]. unfold unprime. rewrite E. cbn [rbind fst snd]. apply unprime_run. exact K.
  Qed.
  Lemma unprime_diagonal_eq : exists l, unprime_diagonal (T, G) = Ok (rec (absat l) T, G) /\ grouped (rec (absat l) T) G /\ forall i j, In (i, j) l <-> i = j /\ exists x, lonely T G i j x.
  Proof.
    destruct diagonal_ok as (l & E & H). exists (map (fun x => (x, x)) l). assert (K : forall i j, In (i, j) (map (fun x => (x, x)) l) <-> i = j /\ exists x, lonely T G i j x).
    { intros i j. rewrite in_map_iff. split; [intros (a & Ea & Ha); injection Ea as <- <-; split; [reflexivity|apply H; exact Ha]|intros [<- X]; exists i; split; [reflexivity|apply H; exact X]]. }
    split; [|split; [apply (rec_grouped T G TG), absat_keeps; intros i j Hij; apply K; exact Hij|exact K]]. unfold unprime_diagonal. rewrite E. cbn [rbind fst snd]. apply unprime_run. intros i j Hij. apply K. exact Hij.
  Qed.
  Theorem C99_unprime : exists T', unprime (T, G) = Ok (T', G) /\ grouped T' G /\ unprimed_where (fun _ _ => True) T G T'.
  Proof. destruct unprime_eq as (l & E & K & H). exists (rec (absat l) T). split; [exact E|]. split; [exact K|]. apply rec_unprimed. intros i j. rewrite H. tauto. Qed.
  Theorem C99_unprime_diagonal : exists T', unprime_diagonal (T, G) = Ok (T', G) /\ grouped T' G /\ unprimed_where (fun i j => i = j) T G T'.
  Proof. destruct unprime_diagonal_eq as (l & E & K & H). exists (rec (absat l) T). split; [exact E|]. split; [exact K|]. apply rec_unprimed. exact H. Qed.
  (* groups of one primed cell that are left are groups of one cell in T *)
  Lemma lonely_back : forall l i j y, (forall i j, In (i, j) l -> exists x, lonely T G i j x) -> lonely (rec (absat l) T) G i j y -> y < 0 -> lonely T G i j y /\ ~ In (i, j) l.
  Proof.
    intros l i j y H Y N. destruct Y as [[Y _]|[_ (_ & A & _ & Z0 & Q)]]; [lia|]. specialize (A i ltac:(lia)). apply (rec_In T G TG) in A. destruct A as (x & Hx & E). unfold absat in E. destruct (inb (i, j) l) eqn:F; [lia|]. subst y.
    assert (NI : ~ In (i, j) l) by (intro K; apply inb_In in K; congruence). split; [|exact NI]. right. split; [exact N|]. split; [lia|]. split; [intros k Hk; replace k with i by lia; exact Hx|]. split; [intros k Hk; lia|]. split; [exact Z0|].
    intros [A B]. apply Q. split; [|exact B]. apply (rec_In T G TG). exists x. split; [exact A|]. symmetry. unfold absat. destruct (inb (i + 1, j) l) eqn:F2; [|reflexivity]. apply inb_In in F2. destruct (H _ _ F2) as (z & Hz). apply lonely_zero in Hz. destruct (NL T G TG _ (proj2 Hz) B).
  Qed.
End Unprime.

Lemma rec_id : forall (T G : tab) f, grouped T G -> (forall c x, In (c, [x]) T -> f c x = x) -> rec f T = T.
Proof.
  intros T G f TG H. apply wf_ext; [apply (rec_wf T G TG)|apply (WT T G TG)|]. intro c. rewrite rec_lookup. destruct (lookup_cases T G TG c) as [F|(x & F & _)]; rewrite F; [reflexivity|]. cbn [option_map map]. rewrite (H c x (tlookup_In _ _ _ F)). reflexivity.
Qed.
Theorem C99_unprime_idempotent : forall (T G : tab), grouped T G ->
  (do V <- unprime (T, G); unprime V) = unprime (T, G) /\ (do V <- unprime_diagonal (T, G); unprime_diagonal V) = unprime_diagonal (T, G).
Proof.
  intros T G TG. split.
  - destruct (unprime_eq T G TG) as (l & E & K & H). rewrite E. cbn [rbind]. destruct (unprime_eq _ G K) as (l' & E' & _ & H'). rewrite E'. f_equal. f_equal. apply (rec_id _ G _ K). intros [i j] y Hy. unfold absat at 1. destruct (inb (i, j) l') eqn:F; [|reflexivity].
    apply inb_In in F. apply H' in F. destruct F as (z & Hz). pose proof (one_entry _ G K _ _ _ Hy (proj1 (lonely_zero _ G _ _ _ Hz))). subst z. destruct (Z.ltb_spec y 0) as [Y|Y]; [|lia].
    destruct (lonely_back T G TG l i j y (fun a b => proj1 (H a b)) Hz Y) as [A B]. exfalso. apply B, H. exists y. exact A.
  - destruct (unprime_diagonal_eq T G TG) as (l & E & K & H). rewrite E. cbn [rbind]. destruct (unprime_diagonal_eq _ G K) as (l' & E' & _ & H'). rewrite E'. f_equal. f_equal. apply (rec_id _ G _ K). intros [i j] y Hy. unfold absat at 1. destruct (inb (i, j) l') eqn:F; [|reflexivity].
    apply inb_In in F. apply H' in F. destruct F as (D & z & Hz). pose proof (one_entry _ G K _ _ _ Hy (proj1 (lonely_zero _ G _ _ _ Hz))). subst z. destruct (Z.ltb_spec y 0) as [Y|Y]; [|lia].
    destruct (lonely_back T G TG l i j y (fun a b Q => proj2 (proj1 (H a b) Q)) Hz Y) as [A B]. exfalso. apply B, H. split; [exact D|]. exists y. exact A.
Qed.

(* cells (r, r), (r, r + 1), (r + 1, r + 1) with entries i or i + 1, primed or not *)
Definition hinge_at (T : tab) (i r : Z) : Prop :=
  forall c, In c [(r, r); (r, r + 1); (r + 1, r + 1)] -> exists x, In (c, [x]) T /\ (Z.abs x = i \/ Z.abs x = i + 1).
Lemma hinge_ok : forall (T G : tab) i, grouped T G -> 0 < i -> (forall r s, hinge_at T i r -> hinge_at T i s -> r < s -> False) ->
  exists o, hinge (T, G) i = Ok o /\ forall r, o = Some r <-> hinge_at T i r.
Proof.
  intros T G i TG Hi UNI. unfold hinge. rewrite (proj2 (Z.leb_gt i 0) Hi). cbv zeta. cbn [fst snd]. set (args := [i; - i; i + 1; - i - 1]).
    assert (IA : forall c, in_args T args c = true <-> exists x, In (c, [x]) T /\ (Z.abs x = i \/ Z.abs x = i + 1)).
    { intro c. rewrite (in_args_ok T G TG). unfold args. cbn [In]. split; intros (x & H & K); exists x; (split; [exact H|lia]). }
    set (cs := filter _ _). assert (M : forall c, In c cs <-> fst c = snd c /\ hinge_at T i (fst c)).
    { intros [a b]. unfold cs. rewrite filter_In, !andb_true_iff, Z.eqb_eq, !IA. cbn [fst snd]. split.
      - intros (_ & ((D & H1) & H2) & H3). subst b. split; [reflexivity|]. intros c Hc. cbn [In] in Hc. destruct Hc as [<-|[<-|[<-|[]]]]; assumption.
      - intros (<- & H). split; [apply (cell_iff T G TG); destruct (H (a, a)) as (x & Hx & _); [left; reflexivity|exists x; exact Hx]|]. split; [split; [split; [reflexivity|]|]|]; apply H; cbn [In]; tauto. }
    assert (NC : NoDup cs) by (apply NoDup_filter; apply sorted_NoDup; apply (WT T G TG)).
    destruct cs as [|[a b] [|[a' b'] cs]].
    - exists None. split; [reflexivity|]. intro r. split; [discriminate|]. intro H. destruct (proj2 (M (r, r)) (conj eq_refl H)).
    - exists (Some a). split; [reflexivity|]. destruct (proj1 (M (a, b)) (or_introl eq_refl)) as [_ Ha]. cbn [fst] in Ha. intro r. split; [intro E; injection E as <-; exact Ha|]. intro H. f_equal. destruct (Z.lt_trichotomy a r) as [K|[K|K]]; [destruct (UNI a r Ha H K)|exact K|destruct (UNI r a H Ha K)].
    - exfalso. destruct (proj1 (M (a, b)) (or_introl eq_refl)) as [D1 H1]. destruct (proj1 (M (a', b')) (or_intror (or_introl eq_refl))) as [D2 H2]. cbn [fst snd] in *. destruct (Z.lt_trichotomy a a') as [K|[K|K]]; [exact (UNI _ _ H1 H2 K)| |exact (UNI _ _ H2 H1 K)]. inversion NC as [|? ? N1 _]; subst. apply N1. left. reflexivity.
  Qed.

(* ---------- shifted shapes ---------- *)
Section Shifted.
  Variables (n : nat) (mu nu : list Z).
  Local Notation vst := (valued_set_tableau shifted_cell anywhere n mu nu).
  Lemma vst_cell : forall T G i j x, vst (T, G) -> In ((i, j), [x]) T -> in_skew shifted_cell mu nu i j.
  Proof. intros T G i j x [[_ (_ & C & _)] _] H. cbn [fst] in C. apply C. exists [x]. exact H. Qed.
  Lemma vst_upper : forall T G i j x, vst (T, G) -> In ((i, j), [x]) T -> 1 <= i <= j.
  Proof. intros T G i j x V H. apply (vst_cell T G i j x V) in H. destruct H as [(A & B) _]. lia. Qed.
  (* a diagonal cell is the first cell of its group *)
  Lemma diagonal_lonely : forall (T G : tab) i x, vst (T, G) -> In ((i, i), [x]) T -> (lonely T G i i x <-> In ((i, i), [0]) G).
  Proof.
    intros T G i x V H. pose proof (C98_valued_set_tableaux _ _ _ _ _ _ _ V) as TG. split; [apply lonely_zero|]. intro Z0. pose proof (nz T G TG _ _ H) as N. destruct (Z.ltb_spec 0 x) as [P|P]; [left|right]; (split; [lia|]; split; [lia|]; split; [intros k Hk; replace k with i by lia; exact H|]; split; [intros k Hk; lia|]; split; [exact Z0|]).
    - intros [A _]. apply (vst_upper T G _ _ _ V) in A. lia.
    - intros [A _]. apply (vst_upper T G _ _ _ V) in A. lia.
  Qed.
  Lemma rec_vst : forall (T G : tab) f, vst (T, G) -> (forall c x, In (c, [x]) T -> Z.abs (f c x) = Z.abs x) -> (forall i j x, In ((i, j), [x]) T -> i <> j \/ In ((i, j), [1]) G -> f (i, j) x = x) -> vst (rec f T, G).
  Proof.
    intros T G f V F1 F2. pose proof (C98_valued_set_tableaux _ _ _ _ _ _ _ V) as TG. assert (K : keeps T G f).
    { split; [intros c x H; pose proof (nz T G TG c x H); specialize (F1 c x H); lia|]. intros i j x H L1. pose proof (vst_upper T G _ _ _ V H) as U. split; [apply F2; [exact H|right; exact L1]|].
      pose proof (proj2 (truthy_ok T G TG (i, j)) L1) as W. destruct (truthy_cell T G TG _ W) as (z & Ez & _ & A & B). pose proof (proj2 (lookup_iff T G TG (i, j) [x]) H). assert (z = x) by congruence. subst z. cbn [fst snd] in *.
      split; intro P; apply F2; [apply tlookup_In, A; exact P|left; lia|apply tlookup_In, B; exact P|left; lia]. }
    destruct V as [[I0 (W & C & L & R & RO & CO)] GO]. cbn [fst snd] in *. split; cbn [fst snd]; [|apply (rec_grouping T G TG); exact K]. split; [exact I0|]. split; [apply (rec_wf T G TG)|]. split; [|split; [|split; [|split]]].
    - intros i j. rewrite <- C. split; intros (l & H).
      + destruct (rec_cells T G TG f _ _ H) as (x & Hx & _). exists [x]. exact Hx.
      + destruct (single T G TG _ _ H) as (x & ->). exists [f (i, j) x]. apply (rec_In T G TG). exists x. split; [exact H|reflexivity].
    - intros i j l H. destruct (rec_cells T G TG f _ _ H) as (x & Hx & ->). split; [discriminate|]. split; [repeat constructor; intros []|reflexivity].
    - intros i j x H. apply (rec_holds T G TG) in H. destruct H as (y & H & ->). specialize (R i j y H). apply (holds_In T G TG) in H. specialize (F1 _ _ H). split; [lia|]. intros _. exact Logic.I.
    - intros i j x y Hx Hy. apply (rec_holds T G TG) in Hx, Hy. destruct Hx as (x' & Hx & ->), Hy as (y' & Hy & ->). specialize (RO i j x' y' Hx Hy). apply (holds_In T G TG) in Hx, Hy. assert (1 <= i <= j). { assert (Q : in_skew shifted_cell mu nu i j) by (apply C; eexists; exact Hx). destruct Q as [(Q1 & Q2) _]. lia. }
      rewrite (F2 i (j + 1) y' Hy ltac:(left; lia)). specialize (F1 _ _ Hx). unfold row_ok in *. lia.
    - intros i j x y Hx Hy. apply (rec_holds T G TG) in Hx, Hy. destruct Hx as (x' & Hx & ->), Hy as (y' & Hy & ->). specialize (CO i j x' y' Hx Hy). apply (holds_In T G TG) in Hx, Hy. assert (1 <= i + 1 <= j). { assert (Q : in_skew shifted_cell mu nu (i + 1) j) by (apply C; eexists; exact Hy). destruct Q as [(Q1 & Q2) _]. lia. }
      rewrite (F2 i j x' Hx ltac:(left; lia)). specialize (F1 _ _ Hy). unfold column_ok in *. lia.
  Qed.
  Lemma rec_weight : forall (T G : tab) f alpha, grouped T G -> (forall c x, In (c, [x]) T -> Z.abs (f c x) = Z.abs x) -> (group_weight alpha (rec f T, G) <-> group_weight alpha (T, G)).
  Proof.
    intros T G f alpha TG F. unfold group_weight. cbn [fst snd].
    assert (X : forall k (b : box), (exists x, holds (rec f T) (fst b) (snd b) x /\ Z.abs x = k) <-> exists x, holds T (fst b) (snd b) x /\ Z.abs x = k).
    { intros k b. split.
      - intros (x & H & E). apply (rec_holds T G TG) in H. destruct H as (y & H & ->). exists y. split; [exact H|]. apply (holds_In T G TG) in H. rewrite <- (F _ _ H). exact E.
      - intros (x & H & E). exists (f (fst b, snd b) x). split; [apply (rec_holds T G TG); exists x; split; [exact H|reflexivity]|]. apply (holds_In T G TG) in H. rewrite (F _ _ H). exact E. }
    split; intros H k; destruct (H k) as (l & N & M & E); exists l; (split; [exact N|]; split; [|exact E]); intro b; rewrite M; split; intros [A B]; (split; [exact A|]; apply X; exact B).
  Qed.
  (* diagonal cells of label 0 *)
  Definition dzero (T G : tab) : list box := filter (fun c => (fst c =? snd c) && negb (truthy G c)) (map fst T).
  Lemma dzero_In : forall (T G : tab) i j, grouped T G -> (In (i, j) (dzero T G) <-> i = j /\ In ((i, j), [0]) G).
  Proof.
    intros T G i j TG. unfold dzero. rewrite filter_In, andb_true_iff, negb_true_iff, Z.eqb_eq, (cell_iff T G TG). cbn [fst snd]. split.
    - intros [(x & H) [D F]]. split; [exact D|]. apply (label_zero T G TG _ x (proj2 (lookup_iff T G TG (i, j) [x]) H)). exact F.
    - intros [D H]. assert (C : exists l, In ((i, j), l) T) by (apply (proj1 (proj2 (proj2 (proj2 TG)))); exists [0]; exact H). destruct C as (l & C). destruct (single T G TG _ _ C) as (x & ->). split; [exists x; exact C|]. split; [exact D|]. apply (label_zero T G TG _ x (proj2 (lookup_iff T G TG (i, j) [x]) C)). exact H.
  Qed.
  Definition absdiag (G : tab) (c : box) (x : Z) : Z := if (fst c =? snd c) && negb (truthy G c) then Z.abs x else x.
  Lemma unprime_diagonal_shifted : forall (T G : tab), vst (T, G) -> unprime_diagonal (T, G) = Ok (rec (absdiag G) T, G).
  Proof.
    intros T G V. pose proof (C98_valued_set_tableaux _ _ _ _ _ _ _ V) as TG. destruct (unprime_diagonal_eq T G TG) as (l & E & _ & H). rewrite E. f_equal. f_equal. apply wf_ext; [apply (rec_wf T G TG)|apply (rec_wf T G TG)|]. intro c. rewrite !rec_lookup.
    destruct (lookup_cases T G TG c) as [F|(x & F & _)]; rewrite F; [reflexivity|]. cbn [option_map map]. do 2 f_equal. unfold absat, absdiag. destruct c as [i j]. cbn [fst snd]. pose proof (tlookup_In _ _ _ F) as Hx.
    assert (Q : inb (i, j) l = true <-> (i =? j) && negb (truthy G (i, j)) = true).
    { rewrite inb_In, H, andb_true_iff, Z.eqb_eq, negb_true_iff. split; intros [D K]; (split; [exact D|]); subst j.
      - destruct K as (y & Y). apply lonely_zero in Y. apply (label_zero T G TG _ _ F). apply Y.
      - exists x. apply diagonal_lonely; [exact V|exact Hx|]. apply (label_zero T G TG _ _ F). exact K. }
    destruct (inb (i, j) l), ((i =? j) && negb (truthy G (i, j))); try reflexivity; [discriminate (proj1 Q eq_refl)|discriminate (proj2 Q eq_refl)].
  Qed.
  Lemma absdiag_abs : forall G c x, Z.abs (absdiag G c x) = Z.abs x.
  Proof. intros G c x. unfold absdiag. destruct (_ && _); lia. Qed.
  Lemma absdiag_keep : forall (T G : tab) i j x, grouped T G -> i <> j \/ In ((i, j), [1]) G -> absdiag G (i, j) x = x.
  Proof.
    intros T G i j x TG [D|D]; unfold absdiag; cbn [fst snd]; [rewrite (proj2 (Z.eqb_neq i j) D); reflexivity|]. rewrite (proj2 (truthy_ok T G TG (i, j)) D). rewrite andb_false_r. reflexivity.
  Qed.
  Theorem C99_unprime_diagonal_closed : forall (T G : tab), vst (T, G) -> exists T', unprime_diagonal (T, G) = Ok (T', G) /\ vst (T', G) /\
    (forall alpha, group_weight alpha (T', G) <-> group_weight alpha (T, G)) /\
    forall i j x, In ((i, j), [x]) T -> In ((i, j), [x]) T' \/ (i = j /\ In ((i, j), [0]) G /\ In ((i, j), [Z.abs x]) T').
  Proof.
    intros T G V. pose proof (C98_valued_set_tableaux _ _ _ _ _ _ _ V) as TG. exists (rec (absdiag G) T). split; [apply unprime_diagonal_shifted; exact V|]. split; [|split].
    - apply rec_vst; [exact V|intros; apply absdiag_abs|]. intros i j x _. apply (absdiag_keep T G _ _ _ TG).
    - intro alpha. apply rec_weight; [exact TG|]. intros; apply absdiag_abs.
    - intros i j x H. destruct ((i =? j) && negb (truthy G (i, j))) eqn:Q.
      + right. rewrite andb_true_iff, Z.eqb_eq, negb_true_iff in Q. destruct Q as [D Q]. split; [exact D|]. split; [apply (label_zero T G TG _ x (proj2 (lookup_iff T G TG (i, j) [x]) H)); exact Q|]. apply (rec_In T G TG). exists x. split; [exact H|]. unfold absdiag. cbn [fst snd]. rewrite Q, (proj2 (Z.eqb_eq i j) D). reflexivity.
      + left. apply (rec_In T G TG). exists x. split; [exact H|]. unfold absdiag. cbn [fst snd]. rewrite Q. reflexivity.
  Qed.

  (* fibres *)
  Fixpoint sublists (l : list box) : list (list box) := match l with [] => [[]] | c :: l' => sublists l' ++ map (cons c) (sublists l') end.
  Lemma sublists_length : forall l, length (sublists l) = (2 ^ length l)%nat.
  Proof. induction l as [|c l IH]; [reflexivity|]. cbn [sublists length Nat.pow]. rewrite app_length, map_length, IH. lia. Qed.
  Lemma sublists_filter : forall p l, In (filter p l) (sublists l).
  Proof. induction l as [|c l IH]; [left; reflexivity|]. cbn [sublists filter]. apply in_or_app. destruct (p c); [right; apply in_map; exact IH|left; exact IH]. Qed.
  Lemma sublists_of : forall l D, NoDup l -> In D (sublists l) -> D = filter (fun c => inb c D) l.
  Proof.
    induction l as [|c l IH]; intros D N H; [destruct H as [<-|[]]; reflexivity|]. inversion N as [|? ? N1 N2]; subst. cbn [sublists] in H. apply in_app_or in H. destruct H as [H|H].
    - pose proof (IH D N2 H) as E. cbn [filter]. replace (inb c D) with false; [exact E|]. symmetry. destruct (inb c D) eqn:Q; [|reflexivity]. apply inb_In in Q. rewrite E in Q. apply filter_In in Q. destruct (N1 (proj1 Q)).
    - apply in_map_iff in H. destruct H as (D' & <- & H). pose proof (IH D' N2 H) as E. cbn [filter]. replace (inb c (c :: D')) with true by (symmetry; apply inb_In; left; reflexivity). f_equal. rewrite E at 1. apply filter_ext_in. intros d Hd. unfold inb. cbn [existsb]. destruct (box_eqb d c) eqn:Q; [|reflexivity]. apply box_eqb_eq in Q. subst d. contradiction.
  Qed.
  Lemma sublists_NoDup : forall l, NoDup l -> NoDup (sublists l).
  Proof.
    induction l as [|c l IH]; intro N; [repeat constructor; intros []|]. inversion N as [|? ? N1 N2]; subst. cbn [sublists]. apply NoDup_app_intro.
    - apply IH. exact N2.
    - apply FinFun.Injective_map_NoDup; [intros a b E; injection E as ->; reflexivity|apply IH; exact N2].
    - intros D H1 H2. apply in_map_iff in H2. destruct H2 as (D' & <- & _). apply (sublists_of l _ N2) in H1. assert (Q : In c (filter (fun d => inb d (c :: D')) l)) by (rewrite <- H1; left; reflexivity). apply filter_In in Q. destruct (N1 (proj1 Q)).
  Qed.
  Definition negat (D : list box) (c : box) (x : Z) : Z := if inb c D then - x else x.
  Theorem C99_fibres : forall (U G : tab), vst (U, G) -> unprime_diagonal (U, G) = Ok (U, G) ->
    exists k : nat, cardinality (fun i => In ((i, i), [0]) G) (Z.of_nat k) /\ cardinality (fun V : tab * tab => vst V /\ unprime_diagonal V = Ok (U, G)) (2 ^ Z.of_nat k).
  Proof.
    intros U G V0 E0. pose proof (C98_valued_set_tableaux _ _ _ _ _ _ _ V0) as UG. set (ds := dzero U G).
    assert (ND : NoDup ds) by (apply NoDup_filter; apply sorted_NoDup; apply (WT U G UG)).
    assert (DI : forall i j, In (i, j) ds <-> i = j /\ In ((i, j), [0]) G) by (intros i j; apply dzero_In; exact UG).
    assert (POS : forall c x, In c ds -> In (c, [x]) U -> 0 < x).
    { intros [i j] x Hc Hx. apply DI in Hc. destruct Hc as [<- Hc]. pose proof (nz U G UG _ _ Hx). pose proof (eq_trans (eq_sym (unprime_diagonal_shifted U G V0)) E0) as Q. injection Q as Q.
      assert (Hy : In ((i, i), [x]) (rec (absdiag G) U)) by (rewrite Q; exact Hx). apply (rec_In U G UG) in Hy. destruct Hy as (y & Hy & E). pose proof (one_entry U G UG _ _ _ Hx Hy). subst y. unfold absdiag in E. cbn [fst snd] in E. rewrite Z.eqb_refl, (proj2 (label_zero U G UG _ x (proj2 (lookup_iff U G UG (i, i) [x]) Hx)) Hc) in E. cbn in E. lia. }
    exists (length ds). split.
    - exists (map fst ds). split; [|split; [|rewrite map_length; reflexivity]].
      + apply NoDup_map_inj_in; [|exact ND]. intros [a b] [c d] H1 H2 E. apply DI in H1, H2. cbn [fst] in E. destruct H1 as [-> _], H2 as [-> _]. congruence.
      + intro i. rewrite in_map_iff. split; [intros ([a b] & <- & H); apply DI in H; destruct H as [<- H]; exact H|intro H; exists (i, i); split; [reflexivity|apply DI; split; [reflexivity|exact H]]].
    - set (F := fun D => (rec (negat D) U, G)). exists (map F (sublists ds)).
      assert (SUB : forall D, In D (sublists ds) -> forall c, In c D -> In c ds). { intros D HD c Hc. rewrite (sublists_of ds D ND HD) in Hc. apply filter_In in Hc. apply Hc. }
      split; [|split].
      + apply NoDup_map_inj_in; [|apply sublists_NoDup; exact ND]. intros D1 D2 H1 H2 E. unfold F in E. injection E as E. rewrite (sublists_of ds D1 ND H1), (sublists_of ds D2 ND H2). apply filter_ext_in. intros [i j] Hc.
        assert (C : exists l, In ((i, j), l) U) by (apply (proj1 (proj2 (proj2 (proj2 UG)))); exists [0]; apply DI in Hc; apply Hc). destruct C as (l & C). destruct (single U G UG _ _ C) as (x & ->). pose proof (nz U G UG _ _ C) as Nx.
        assert (Q : tlookup (rec (negat D1) U) (i, j) = tlookup (rec (negat D2) U) (i, j)) by (rewrite E; reflexivity). rewrite !rec_lookup, (proj2 (lookup_iff U G UG (i, j) [x]) C) in Q. cbn [option_map map] in Q. injection Q as Q. unfold negat in Q. destruct (inb (i, j) D1), (inb (i, j) D2); try reflexivity; lia.
      + intros [T G']. rewrite in_map_iff. split.
        * intros (D & E & HD). unfold F in E. injection E as <- <-. assert (V1 : vst (rec (negat D) U, G)).
          { apply rec_vst; [exact V0|intros c x _; unfold negat; destruct (inb c D); lia|]. intros i j x Hx K. unfold negat. destruct (inb (i, j) D) eqn:Q; [|reflexivity]. apply inb_In in Q. apply (SUB D HD) in Q. apply DI in Q. destruct Q as [Q1 Q2]. destruct K as [K|K]; [contradiction|]. destruct (NL U G UG _ Q2 K). }
          split; [exact V1|]. refine (eq_trans (unprime_diagonal_shifted _ G V1) _). f_equal. f_equal. pose proof (C98_valued_set_tableaux _ _ _ _ _ _ _ V1) as UG1. apply wf_ext; [apply (rec_wf _ G UG1)|apply (WT U G UG)|]. intro c. rewrite !rec_lookup. destruct (lookup_cases U G UG c) as [K|(x & K & _)]; rewrite K; [reflexivity|]. cbn [option_map map]. do 2 f_equal.
          unfold absdiag, negat. pose proof (tlookup_In _ _ _ K) as Hx. destruct c as [i j]. cbn [fst snd]. destruct ((i =? j) && negb (truthy G (i, j))) eqn:Q.
          -- rewrite andb_true_iff, Z.eqb_eq, negb_true_iff in Q. destruct Q as [Q1 Q2]. assert (M : In (i, j) ds) by (apply DI; split; [exact Q1|apply (label_zero U G UG _ x K); exact Q2]). pose proof (POS _ _ M Hx). destruct (inb (i, j) D); lia.
          -- destruct (inb (i, j) D) eqn:Q2; [|reflexivity]. apply inb_In in Q2. apply (SUB D HD) in Q2. apply DI in Q2. destruct Q2 as [Q2 Q3]. apply (label_zero U G UG _ x K) in Q3. rewrite Q3, (proj2 (Z.eqb_eq i j) Q2) in Q. discriminate.
        * intros [V1 E1]. pose proof (eq_trans (eq_sym (unprime_diagonal_shifted T G' V1)) E1) as E2. injection E2 as E2 ->. clear E1. rename E2 into E1. pose proof (C98_valued_set_tableaux _ _ _ _ _ _ _ V1) as TG.
          set (p := fun c => match tlookup T c with Some [x] => x <? 0 | _ => false end). exists (filter p ds). split; [|apply sublists_filter]. unfold F. f_equal. apply wf_ext; [apply (rec_wf U G UG)|apply (WT T G TG)|]. intro c. rewrite rec_lookup, <- E1, rec_lookup. destruct (lookup_cases T G TG c) as [K|(x & K & _)]; rewrite K; [reflexivity|]. cbn [option_map map]. do 2 f_equal.
          pose proof (tlookup_In _ _ _ K) as Hx. destruct c as [i j]. unfold negat, absdiag. cbn [fst snd]. destruct ((i =? j) && negb (truthy G (i, j))) eqn:Q.
          -- rewrite andb_true_iff, Z.eqb_eq, negb_true_iff in Q. destruct Q as [Q1 Q2]. assert (M : In (i, j) ds) by (apply DI; split; [exact Q1|apply (label_zero T G TG _ x K); exact Q2]). destruct (inb (i, j) (filter p ds)) eqn:W.
             ++ apply inb_In, filter_In in W. destruct W as [_ W]. unfold p in W. rewrite K in W. apply Z.ltb_lt in W. lia.
             ++ destruct (Z.ltb_spec x 0) as [Y|Y]; [|lia]. assert (W2 : inb (i, j) (filter p ds) = true) by (apply inb_In, filter_In; split; [exact M|unfold p; rewrite K; apply Z.ltb_lt; exact Y]). congruence.
          -- destruct (inb (i, j) (filter p ds)) eqn:W; [|reflexivity]. apply inb_In, filter_In in W. destruct W as [W _]. apply DI in W. destruct W as [W1 W2]. apply (label_zero T G TG _ x K) in W2. rewrite W2, (proj2 (Z.eqb_eq i j) W1) in Q. discriminate.
      + rewrite map_length, sublists_length. rewrite Nat2Z.inj_pow. reflexivity.
  Qed.

  (* the diagonal increases strictly in absolute value *)
  Hypothesis SM : strict_partition mu.
  Hypothesis SN : strict_partition nu.
  Theorem C99_diagonal : forall (T G : tab) r s x y, vst (T, G) -> r < s -> In ((r, r), [x]) T -> In ((s, s), [y]) T -> Z.abs x < Z.abs y.
  Proof.
    intros T G r s x y V L Hx Hy. pose proof (C98_valued_set_tableaux _ _ _ _ _ _ _ V) as TG. pose proof (vst_cell _ _ _ _ _ V Hx) as Cx. pose proof (vst_cell _ _ _ _ _ V Hy) as Cy.
    assert (CELL : forall i j, in_skew shifted_cell mu nu i j -> exists z, In ((i, j), [z]) T). { intros i j C. destruct V as [[_ (_ & K & _)] _]. cbn [fst] in K. apply K in C. destruct C as (l & C). destruct (single T G TG _ _ C) as (z & ->). exists z. exact C. }
    assert (STEP : forall t u v, r <= t -> t + 1 <= s -> In ((t, t), [u]) T -> In ((t + 1, t + 1), [v]) T -> Z.abs u < Z.abs v).
    { intros t u v B1 B2 Hu Hv. assert (C : in_skew shifted_cell mu nu t (t + 1)).
      { pose proof (vst_cell _ _ _ _ _ V Hu) as [C1 C2]. pose proof (vst_cell _ _ _ _ _ V Hv) as [C3 C4]. unfold shifted_cell in *. destruct SM as [_ S1]. destruct SN as [SN0 S2]. split.
        - assert (Z.to_nat (t + 1 - 1) = S (Z.to_nat (t - 1))) as W by lia. rewrite W in *. assert ((S (Z.to_nat (t - 1)) < length mu)%nat). { destruct (Nat.lt_ge_cases (S (Z.to_nat (t - 1))) (length mu)); [assumption|]. unfold row in C3. rewrite nth_overflow in C3 by lia. lia. } specialize (S1 _ H). lia.
        - intros [C5 C6]. apply C2. lia. }
      destruct (CELL _ _ C) as (w & Hw). destruct V as [[_ (_ & _ & _ & _ & RO & CO)] _]. cbn [fst] in RO, CO. pose proof (RO t t u w (proj2 (holds_In T G TG _ _ _) Hu) (proj2 (holds_In T G TG _ _ _) Hw)) as R1. pose proof (CO t (t + 1) w v (proj2 (holds_In T G TG _ _ _) Hw) (proj2 (holds_In T G TG _ _ _) Hv)) as R2. unfold row_ok, column_ok in *. lia. }
    assert (DIAG : forall t, r <= t <= s -> exists z, In ((t, t), [z]) T).
    { intros t Ht. apply CELL. unfold in_skew, shifted_cell in *. split.
      - split; [lia|]. destruct SM as [S0 _]. destruct Cy as [Cy _]. destruct (Nat.lt_ge_cases (Z.to_nat (s - 1)) (length mu)) as [K|K]; [|unfold row in Cy; rewrite nth_overflow in Cy by lia; lia]. rewrite Forall_forall in S0. assert (0 < row mu (Z.to_nat (t - 1))). { apply S0. unfold row. apply nth_In. lia. } lia.
      - intros [_ K]. destruct Cx as [Cx0 Cx]. apply Cx. split; [lia|]. destruct SN as [S0 _]. destruct (Nat.lt_ge_cases (Z.to_nat (t - 1)) (length nu)) as [K2|K2]; [|unfold row in K; rewrite nth_overflow in K by lia; lia]. rewrite Forall_forall in S0. assert (0 < row nu (Z.to_nat (r - 1))). { apply S0. unfold row. apply nth_In. lia. } lia. }
    assert (IND : forall k t u, s = t + Z.of_nat k + 1 -> r <= t -> In ((t, t), [u]) T -> Z.abs u < Z.abs y).
    { induction k as [|k IH]; intros t u E B Hu.
      - apply (STEP t u y); [lia|lia|exact Hu|]. replace (t + 1) with s by lia. exact Hy.
      - destruct (DIAG (t + 1) ltac:(lia)) as (v & Hv). pose proof (STEP t u v ltac:(lia) ltac:(lia) Hu Hv). pose proof (IH (t + 1) v ltac:(lia) ltac:(lia) Hv). lia. }
    apply (IND (Z.to_nat (s - r - 1)) r x); [lia|lia|exact Hx].
  Qed.
  Theorem C99_hinge : forall (T G : tab) i, vst (T, G) -> 0 < i -> exists o, hinge (T, G) i = Ok o /\ forall r, o = Some r <-> hinge_at T i r.
  Proof.
    intros T G i V Hi. pose proof (C98_valued_set_tableaux _ _ _ _ _ _ _ V) as TG. apply hinge_ok; [exact TG|exact Hi|].
    intros r s Hr Hs L. destruct (Hr (r, r)) as (x1 & A1 & B1); [left; reflexivity|]. destruct (Hr (r + 1, r + 1)) as (x2 & A2 & B2); [right; right; left; reflexivity|]. destruct (Hs (s, s)) as (x3 & A3 & B3); [left; reflexivity|]. destruct (Hs (s + 1, s + 1)) as (x4 & A4 & B4); [right; right; left; reflexivity|].
      pose proof (C99_diagonal T G r (r + 1) x1 x2 V ltac:(lia) A1 A2). pose proof (C99_diagonal T G s (s + 1) x3 x4 V ltac:(lia) A3 A4). assert (Z.abs x2 <= Z.abs x3). { destruct (Z.eq_dec s (r + 1)) as [->|D]; [rewrite (one_entry T G TG _ _ _ A2 A3); lia|]. pose proof (C99_diagonal T G (r + 1) s x2 x3 V ltac:(lia) A2 A3). lia. } lia.
  Qed.
End Shifted.
Theorem C99_hinge_index : forall V i, i <= 0 -> hinge V i = Err AssertionError.
Proof. intros V i H. unfold hinge. rewrite (proj2 (Z.leb_le i 0) H). reflexivity. Qed.

(* the tableaux of shape (2, 1) with all labels 0 *)
Definition tri (a b c : Z) : tab := [((1, 1), [a]); ((1, 2), [b]); ((2, 2), [c])].
Lemma tri_vst : forall a b c, 1 <= Z.abs a <= 2 -> 1 <= Z.abs b <= 2 -> 1 <= Z.abs c <= 2 -> row_ok a b -> column_ok b c -> valued_set_tableau shifted_cell anywhere 2 [2; 1] [] (tri a b c, tri 0 0 0).
Proof.
  intros a b c Ha Hb Hc R C. assert (IN : forall x y z i j l, In ((i, j), l) (tri x y z) <-> (i = 1 /\ j = 1 /\ l = [x]) \/ (i = 1 /\ j = 2 /\ l = [y]) \/ (i = 2 /\ j = 2 /\ l = [z])).
  { intros x y z i j l. unfold tri. cbn [In]. split.
    - intros [E|[E|[E|[]]]]; injection E as <- <- <-; tauto.
    - intros [(-> & -> & ->)|[(-> & -> & ->)|(-> & -> & ->)]]; tauto. }
  assert (HO : forall i j x, holds (tri a b c) i j x -> (i = 1 /\ j = 1 /\ x = a) \/ (i = 1 /\ j = 2 /\ x = b) \/ (i = 2 /\ j = 2 /\ x = c)).
  { intros i j x (l & H & Hx). apply IN in H. decompose [and or] H; subst; destruct Hx as [<-|[]]; tauto. }
  assert (W : forall x y z, well_formed (tri x y z)).
  { intros x y z. split; [repeat (first [apply SSorted_cons|apply SSorted_nil|apply Forall_cons|apply Forall_nil]); unfold before; cbn [fst snd]; lia|]. intros [i j] l H. apply IN in H. cbn [fst snd]. decompose [and or] H; subst; (split; [lia|]; split; [lia|]; repeat constructor). }
  split; cbn [fst snd].
  - split; [intros i j (A & B); exfalso; unfold row in B; destruct (Z.to_nat (i - 1)); cbn in B; lia|]. split; [apply W|]. split; [|split; [|split; [|split]]].
    + intros i j. split.
      * intros (l & H). apply IN in H. split; [|intros (_ & B); unfold row in B; destruct (Z.to_nat (i - 1)); cbn in B; lia]. decompose [and or] H; subst; unfold shifted_cell, row; vm_compute; repeat split; discriminate.
      * intros [(A & B) _]. assert (R1 : row [2; 1] (Z.to_nat (1 - 1)) = 2) by reflexivity. assert (R2 : row [2; 1] (Z.to_nat (2 - 1)) = 1) by reflexivity. assert (i = 1 \/ i = 2 \/ 2 < i) as [->|[->|K]] by lia.
        -- assert (j = 1 \/ j = 2) as [->| ->] by lia; eexists; apply IN; [left|right; left]; repeat split.
        -- assert (j = 2) by lia. subst j. eexists. apply IN. right. right. repeat split.
        -- exfalso. unfold row in B. rewrite nth_overflow in B by (cbn; lia). lia.
    + intros i j l H. apply IN in H. decompose [and or] H; subst; (split; [discriminate|]; split; [repeat constructor; intros []|reflexivity]).
    + intros i j x H. apply HO in H. decompose [and or] H; subst; (split; [lia|]; intros _; exact Logic.I).
    + intros i j x y Hx Hy. apply HO in Hx, Hy. assert (i = 1 /\ j = 1 /\ x = a /\ y = b) as (_ & _ & -> & ->) by lia. exact R.
    + intros i j x y Hx Hy. apply HO in Hx, Hy. assert (i = 1 /\ j = 2 /\ x = b /\ y = c) as (_ & _ & -> & ->) by lia. exact C.
  - split; [apply W|]. split.
    + intros i j. split; intros (l & H); apply IN in H; decompose [and or] H; subst; eexists; apply IN; [left|right; left|right; right|left|right; left|right; right]; repeat split.
    + intros i j l H. apply IN in H. left. decompose [and or] H; subst; reflexivity.
Qed.
(* unprime, unlike unprime_diagonal, may leave the semistandard tableaux *)
Theorem C99_unprime_semistandard_refuted : exists T G T', valued_set_tableau shifted_cell anywhere 2 [2; 1] [] (T, G) /\ unprime (T, G) = Ok (T', G) /\ ~ valued_set_tableau shifted_cell anywhere 2 [2; 1] [] (T', G) /\ vst_is_semistandard (T', G) = Ok false.
Proof.
  exists (tri 1 (-2) (-2)), (tri 0 0 0), (tri 1 2 2). split; [apply tri_vst; unfold row_ok, column_ok; lia|]. split; [vm_compute; reflexivity|]. split; [|vm_compute; reflexivity].
  intros [[_ (_ & _ & _ & _ & _ & CO)] _]. cbn [fst] in CO. specialize (CO 1 2 2 2 ltac:(exists [2]; unfold tri; cbn; tauto) ltac:(exists [2]; unfold tri; cbn; tauto)). unfold column_ok in CO. lia.
Qed.
Example C99_example : valued_set_tableau shifted_cell anywhere 2 [2; 1] [] (tri 1 (-2) 2, tri 0 0 0) /\ unprime_diagonal (tri 1 (-2) 2, tri 0 0 0) = Ok (tri 1 (-2) 2, tri 0 0 0) /\
  unprime_diagonal (tri (-1) (-2) (-2), tri 0 0 0) = Ok (tri 1 (-2) 2, tri 0 0 0) /\ hinge (tri 1 (-2) 2, tri 0 0 0) 1 = Ok (Some 1) /\ strict_partition [2; 1].
Proof.
  split; [apply tri_vst; unfold row_ok, column_ok; lia|]. split; [vm_compute; reflexivity|]. split; [vm_compute; reflexivity|]. split; [vm_compute; reflexivity|]. split; [repeat constructor|]. intros i H. cbn [length] in H. assert (i = 0%nat) by lia. subst i. cbn. lia.
Qed.

Print Assumptions C99_unprime.
Print Assumptions C99_unprime_diagonal.
Print Assumptions C99_unprime_idempotent.
Print Assumptions C99_unprime_diagonal_closed.
Print Assumptions C99_fibres.
Print Assumptions C99_diagonal.
Print Assumptions C99_hinge.
Print Assumptions C99_hinge_index.
Print Assumptions C99_unprime_semistandard_refuted.
