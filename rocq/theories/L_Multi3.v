(* Decoding reading words; multiset-valued tableaux as lists of columns. *)
From Coq Require Import List ZArith Lia Bool Sorted Permutation.
From Verif Require Import PyBase FinSum M_Partitions M_Tableaux M_Words M_TabCrystal S_Words L_Words S_Partitions S_Tableaux S_Semistandard S_Multi L_PartBasic L_Tableaux L_Semi L_TabCrystal2 L_Multi1 L_Multi2.
Import ListNotations.
Local Open Scope Z_scope.

Lemma from_column_dec : forall j d prev rows ans t a, StronglySorted Z.gt (d ++ [a]) -> match prev with None => True | Some b => forall x, In x (d ++ [a]) -> x < b end ->
  from_column j prev rows ans ((d ++ [a]) ++ t) = from_column j (Some a) (rev (d ++ [a]) ++ rows) ans t.
Proof.
  intros j. induction d as [|b d IH]; intros prev rows ans t a S P.
  - cbn [app rev from_column]. replace (match prev with None => true | Some b => a <? b end) with true; [reflexivity|]. destruct prev as [b|]; [|reflexivity]. symmetry. apply Z.ltb_lt. apply P. left. reflexivity.
  - cbn [app] in *. inversion S as [|? ? S1 S2]; subst. rewrite Forall_forall in S2. cbn [from_column]. replace (match prev with None => true | Some b0 => b <? b0 end) with true; [|destruct prev as [b0|]; [|reflexivity]; symmetry; apply Z.ltb_lt; apply P; left; reflexivity].
    rewrite (IH (Some b) (b :: rows) ans t a S1); [|intros x Hx; specialize (S2 x Hx); lia]. cbn [rev]. rewrite <- app_assoc. reflexivity.
Qed.
Lemma entries_put : forall c d v T, well_formed T -> entries (tput c v T) d = if box_eqb c d then v else entries T d.
Proof. intros. apply entries_tput. assumption. Qed.
Lemma entries_inc : forall T c, well_formed T -> increasing (entries T c).
Proof. intros T c W. unfold entries. destruct (tlookup T c) eqn:E; [apply (wf_lookup T c l W E)|constructor]. Qed.
Lemma sinsert_inc : forall x l, increasing l -> increasing (sinsert x l).
Proof. intros. apply sinsert_sorted. assumption. Qed.
(* what a sequence of additions to column j does *)
Definition touched (j : Z) (P : Z -> list Z) (T U : tab) : Prop :=
  well_formed U /\ (forall x y, y <> j -> tlookup U (x, y) = tlookup T (x, y)) /\
  (forall x, Permutation (entries U (x, j)) (P x ++ entries T (x, j))) /\
  (forall x, tlookup U (x, j) <> None -> tlookup T (x, j) <> None \/ P x <> []).
Lemma touched_put : forall j T k a, well_formed T -> 0 < k -> 0 < j -> touched j (fun x => if x =? k then [a] else []) T (tput (k, j) (sinsert a (entries T (k, j))) T).
Proof.
  intros j T k a W K J. pose proof (entries_inc T (k, j) W) as EI. split; [apply tput_wf; [exact W|split; assumption|apply sinsert_inc; exact EI]|]. split; [|split].
  - intros x y N. rewrite tlookup_tput by apply W. destruct (box_eqb (k, j) (x, y)) eqn:E; [apply box_eqb_eq in E; apply (f_equal snd) in E; cbn [snd] in E; congruence|reflexivity].
  - intro x. rewrite entries_put by exact W. destruct (box_eqb (k, j) (x, j)) eqn:E.
    + apply box_eqb_eq in E. apply (f_equal fst) in E. cbn [fst] in E. subst x. rewrite Z.eqb_refl. cbn [app]. apply L_PartBasic.sinsert_perm.
    + destruct (Z.eqb_spec x k) as [->|]; [rewrite box_eqb_refl in E; discriminate|]. apply Permutation_refl.
  - intros x. rewrite tlookup_tput by apply W. destruct (box_eqb (k, j) (x, j)) eqn:E; [|intro H; left; exact H]. intros _. right. apply box_eqb_eq in E. apply (f_equal fst) in E. cbn [fst] in E. subst x. rewrite Z.eqb_refl. discriminate.
Qed.
Lemma touched_trans : forall j P Q T U V, touched j P T U -> touched j Q U V -> touched j (fun x => Q x ++ P x) T V.
Proof.
  intros j P Q T U V (W1 & A1 & B1 & C1) (W2 & A2 & B2 & C2). split; [exact W2|]. split; [intros x y N; rewrite A2, A1 by exact N; reflexivity|]. split.
  - intro x. eapply Permutation_trans; [apply B2|]. rewrite <- app_assoc. apply Permutation_app_head. apply B1.
  - intros x H. destruct (C2 x H) as [H'|H']; [destruct (C1 x H') as [|H'']; [tauto|right; intro E; apply app_eq_nil in E; tauto]|right; intro E; apply app_eq_nil in E; tauto].
Qed.
Lemma touched_ext : forall j P Q T U, touched j P T U -> (forall x, Permutation (P x) (Q x)) -> touched j Q T U.
Proof.
  intros j P Q T U (W & A & B & C) E. split; [exact W|]. split; [exact A|]. split; [intro x; eapply Permutation_trans; [apply B|apply Permutation_app_tail; apply E]|]. intros x H. destruct (C x H) as [|N]; [tauto|right]. intro EQ. apply N. pose proof (E x) as EP. rewrite EQ in EP. apply Permutation_sym, Permutation_nil in EP. exact EP.
Qed.
Lemma from_column_inc : forall j ms t prev T, 0 < j -> well_formed T -> increasing t -> (forall a, In a t -> prev <= a) -> (forall a, In a t -> exists k : nat, last_le 0 a ms = Some (Z.of_nat k)) ->
  exists U, from_column j (Some prev) ms T t = Ok (ms, U) /\ touched j (fun x => filter (fun a => match last_le 0 a ms with Some s => s =? x - 1 | None => false end) t) T U.
Proof.
  intros j ms. induction t as [|a t IH]; intros prev T J W I L K.
  - exists T. split; [reflexivity|]. split; [exact W|]. split; [reflexivity|]. split; [intro x; apply Permutation_refl|tauto].
  - inversion I as [|? ? I1 I2]; subst. rewrite Forall_forall in I2. cbn [from_column]. destruct (Z.ltb_spec a prev) as [Q|_]; [specialize (L a (or_introl eq_refl)); lia|]. destruct (K a (or_introl eq_refl)) as (k & Ek). rewrite Ek. rewrite tadd_int by (first [exact W|lia]). cbn [rbind].
    pose proof (touched_put j T (1 + Z.of_nat k) a W ltac:(lia) J) as T1. destruct (IH a (tput (1 + Z.of_nat k, j) (sinsert a (entries T (1 + Z.of_nat k, j))) T) J (proj1 T1) I1 I2) as (U & EU & T2); [intros b Hb; apply K; right; exact Hb|]. exists U. split; [exact EU|]. eapply touched_ext; [apply (touched_trans _ _ _ _ _ _ T1 T2)|]. intro x. cbn beta. cbn [filter]. rewrite Ek. replace (x =? 1 + Z.of_nat k) with (Z.of_nat k =? x - 1) by (destruct (Z.eqb_spec (Z.of_nat k) (x - 1)), (Z.eqb_spec x (1 + Z.of_nat k)); try reflexivity; lia). destruct (Z.of_nat k =? x - 1); [apply Permutation_sym, Permutation_cons_append|rewrite app_nil_r; apply Permutation_refl].
Qed.
Lemma add_rows_ok : forall j ms k T, 0 < j -> well_formed T -> exists U, add_rows (Z.of_nat k) j ms T = Ok U /\
  touched j (fun x => match nth_error ms (Z.to_nat (x - 1) - k) with Some m => if (Z.of_nat k + 1 <=? x) then [m] else [] | None => [] end) T U.
Proof.
  intros j. induction ms as [|m ms IH]; intros k T J W.
  - exists T. split; [reflexivity|]. split; [exact W|]. split; [reflexivity|]. split; [|tauto]. intro x. replace (nth_error (@nil Z) (Z.to_nat (x - 1) - k)) with (@None Z) by (destruct (Z.to_nat (x - 1) - k)%nat; reflexivity). apply Permutation_refl.
  - cbn [add_rows]. rewrite tadd_int by (first [exact W|lia]). cbn [rbind]. pose proof (touched_put j T (Z.of_nat k + 1) m W ltac:(lia) J) as T1. destruct (IH (S k) (tput (Z.of_nat k + 1, j) (sinsert m (entries T (Z.of_nat k + 1, j))) T) J (proj1 T1)) as (U & EU & T2). exists U. split; [replace (Z.of_nat k + 1) with (Z.of_nat (S k)) in * by lia; exact EU|]. eapply touched_ext; [apply (touched_trans _ _ _ _ _ _ T1 T2)|]. intro x. cbn beta.
    destruct (Z.leb_spec (Z.of_nat k + 1) x) as [Hx|Hx].
    + destruct (Z.eqb_spec x (Z.of_nat k + 1)) as [->|N].
      * replace (Z.to_nat (Z.of_nat k + 1 - 1) - k)%nat with 0%nat by lia. cbn [nth_error]. destruct (Z.leb_spec (Z.of_nat (S k) + 1) (Z.of_nat k + 1)); [lia|]. destruct (nth_error ms (Z.to_nat (Z.of_nat k + 1 - 1) - S k)); apply Permutation_refl.
      * destruct (Z.leb_spec (Z.of_nat (S k) + 1) x); [|lia]. rewrite app_nil_r. replace (Z.to_nat (x - 1) - k)%nat with (S (Z.to_nat (x - 1) - S k)) by lia. cbn [nth_error]. apply Permutation_refl.
    + destruct (Z.eqb_spec x (Z.of_nat k + 1)); [lia|]. destruct (Z.leb_spec (Z.of_nat (S k) + 1) x); [lia|]. destruct (nth_error ms (Z.to_nat (x - 1) - S k)); destruct (nth_error (m :: ms) (Z.to_nat (x - 1) - k)); apply Permutation_refl.
Qed.
Lemma okh_dec : forall c, okh c -> exists d a, rev (fst c) = d ++ [a] /\ StronglySorted Z.gt (d ++ [a]) /\ (forall b, In b (snd c) -> a <= b).
Proof.
  intros [ms t] (S & I & m & E & L). cbn [fst snd] in *. destruct ms as [|b ms]; [discriminate|]. cbn in E. injection E as ->. exists (rev ms), m. split; [reflexivity|]. split; [|exact L]. change (rev ms ++ [m]) with (rev (m :: ms)). apply StronglySorted_rev with (R := Z.lt); [intros; lia|exact S].
Qed.
(* decoding the j-th column *)
Lemma decode_column : forall c j T, okh c -> 0 < j -> well_formed T -> (forall x, tlookup T (x, j) = None) ->
  exists ra U, from_column j None [] T (wd c) = Ok ra /\ add_rows 0 j (fst ra) (snd ra) = Ok U /\ well_formed U /\
    (forall x y, y <> j -> tlookup U (x, y) = tlookup T (x, y)) /\ (forall k, tlookup U (1 + Z.of_nat k, j) = getrow c k).
Proof.
  intros c j T Hc J W N. destruct (okh_dec c Hc) as (d & a & E & S & L). pose proof Hc as (S' & I & m0 & E0 & L0). unfold wd. rewrite E, (from_column_dec j d None [] T (snd c) a S Logic.I), <- E, rev_involutive, app_nil_r.
  destruct (from_column_inc j (fst c) (snd c) a T J W I L) as (U1 & EU1 & T1).
  { intros b Hb. destruct (last_le_some (fst c) 0 b S') as (k & m & _ & _ & _ & K); [exists m0; split; [exact E0|apply L0; exact Hb]|]. exists k. exact K. }
  exists (fst c, U1). destruct (add_rows_ok j (fst c) 0 U1 J (proj1 T1)) as (U & EU & T2). exists U. split; [exact EU1|]. split; [exact EU|]. pose proof (touched_trans _ _ _ _ _ _ T1 T2) as (W2 & A2 & B2 & C2). split; [exact W2|]. split; [exact A2|]. intro k.
  assert (EN : entries T (1 + Z.of_nat k, j) = []) by (unfold entries; rewrite N; reflexivity). specialize (B2 (1 + Z.of_nat k)). specialize (C2 (1 + Z.of_nat k)). rewrite EN, app_nil_r in B2. replace (Z.to_nat (1 + Z.of_nat k - 1) - 0)%nat with k in * by lia. replace (1 + Z.of_nat k - 1) with (Z.of_nat k) in * by lia. destruct (Z.leb_spec (Z.of_nat 0 + 1) (1 + Z.of_nat k)) as [_|]; [|lia]. change (fun a0 : Z => match last_le 0 a0 (fst c) with Some s => s =? Z.of_nat k | None => false end) with (inslot (fst c) k) in *.
  unfold getrow. destruct (nth_error (fst c) k) as [m|] eqn:Em.
  - assert (EE : entries U (1 + Z.of_nat k, j) = m :: filter (inslot (fst c) k) (snd c)).
    { apply increasing_perm_eq; [apply entries_inc; exact W2| |exact B2]. assert (GE : getrow c k = Some (m :: filter (inslot (fst c) k) (snd c))) by (unfold getrow; rewrite Em; reflexivity). apply (getrow_inc c k _ Hc GE). }
    unfold entries in EE. destruct (tlookup U (1 + Z.of_nat k, j)) as [l|]; [f_equal; exact EE|discriminate].
  - destruct (tlookup U (1 + Z.of_nat k, j)) as [l|] eqn:EL; [exfalso|reflexivity]. destruct C2 as [H|H]; [discriminate|apply H; apply N|]. cbn [app] in H. apply H.
    apply filter_none. intros b Hb. unfold inslot. destruct (last_le_some (fst c) 0 b S') as (k' & m & Ek & _ & _ & ->); [exists m0; split; [exact E0|apply L0; exact Hb]|]. apply Z.eqb_neq. intro Q. assert (k' = k) by lia. congruence.
Qed.
Lemma decode_ok : forall cols, Forall okh cols -> exists T, from_crystal_reading_word (map wd cols) = Ok T /\ Rep cols T.
Proof.
  assert (G : forall cols s T, Forall okh cols -> well_formed T -> (forall x y, Z.of_nat s < y -> tlookup T (x, y) = None) ->
    exists U, from_columns (Z.of_nat s) (map wd cols) T = Ok U /\ well_formed U /\ (forall x y, y <= Z.of_nat s -> tlookup U (x, y) = tlookup T (x, y)) /\
      forall y k, tlookup U (1 + Z.of_nat k, 1 + Z.of_nat (s + y)) = match nth_error cols y with Some c => getrow c k | None => None end).
  { induction cols as [|c cols IH]; intros s T O W N.
    - exists T. split; [reflexivity|]. split; [exact W|]. split; [reflexivity|]. intros y k. replace (nth_error (@nil hk) y) with (@None hk) by (destruct y; reflexivity). apply N. lia.
    - inversion O as [|? ? O1 O2]; subst. cbn [map from_columns]. destruct (decode_column c (Z.of_nat s + 1) T O1 ltac:(lia) W) as (ra & U & E1 & E2 & W2 & A2 & B2); [intro x; apply N; lia|]. rewrite E1. cbn [rbind]. rewrite E2. cbn [rbind]. replace (Z.of_nat s + 1) with (Z.of_nat (S s)) in * by lia.
      destruct (IH (S s) U O2 W2) as (V & EV & WV & AV & BV); [intros x y Hy; rewrite A2 by lia; apply N; lia|]. exists V. split; [exact EV|]. split; [exact WV|]. split; [intros x y Hy; rewrite AV by lia; apply A2; lia|]. intros [|y] k.
      + rewrite AV by lia. replace (1 + Z.of_nat (s + 0)) with (Z.of_nat (S s)) by lia. apply B2.
      + replace (s + S y)%nat with (S s + y)%nat by lia. apply BV. }
  intros cols O. destruct (G cols 0%nat [] O wf_nil) as (T & E & W & _ & B); [reflexivity|]. exists T. split; [exact E|]. split; [exact W|]. intros y k. apply B.
Qed.

(* ---------- the conditions on a table ---------- *)
Lemma Rep_holds : forall cols T y k c v, Rep cols T -> Forall okh cols -> nth_error cols y = Some c -> (holds T (1 + Z.of_nat k) (1 + Z.of_nat y) v <-> inrow c k v).
Proof.
  intros cols T y k c v [W R] O E. assert (Hc : okh c) by (apply (proj1 (Forall_forall _ _) O); apply (nth_error_In _ _ E)). rewrite (lookup_holds T _ _ v W), (inrow_getrow c k v Hc), R, E. reflexivity.
Qed.
Lemma Rep_cells : forall cols T y k, Rep cols T -> ((exists l, In ((1 + Z.of_nat k, 1 + Z.of_nat y), l) T) <-> exists c, nth_error cols y = Some c /\ (k < length (fst c))%nat).
Proof.
  intros cols T y k [W R]. specialize (R y k). split.
  - intros (l & H). apply In_tlookup in H; [|apply W]. rewrite R in H. destruct (nth_error cols y) as [c|]; [|discriminate]. exists c. split; [reflexivity|]. unfold getrow in H. destruct (nth_error (fst c) k) eqn:E; [|discriminate]. apply nth_error_Some. congruence.
  - intros (c & E & L). rewrite E in R. unfold getrow in R. destruct (nth_error (fst c) k) as [m|] eqn:Em; [|apply nth_error_None in Em; lia]. eexists. apply tlookup_In. exact R.
Qed.
Lemma pos_nat : forall x, 0 < x -> exists k, x = 1 + Z.of_nat k.
Proof. intros x H. exists (Z.to_nat (x - 1)). lia. Qed.
Lemma holds_pos : forall T x y v, well_formed T -> holds T x y v -> 0 < x /\ 0 < y.
Proof. intros T x y v W (l & H & _). apply (proj2 W) in H. cbn [fst snd] in H. tauto. Qed.
Lemma Rep_col : forall cols T y k v, Rep cols T -> holds T (1 + Z.of_nat k) (1 + Z.of_nat y) v -> exists c, nth_error cols y = Some c.
Proof.
  intros cols T y k v HR (l & H & _). destruct (proj1 (Rep_cells cols T y k HR) (ex_intro _ l H)) as (c & E & _). exists c. exact E.
Qed.
Lemma getrow_nonempty : forall cols T c l, Rep cols T -> In (c, l) T -> l <> [].
Proof.
  intros cols T [x y] l [W R] H. pose proof (proj2 W _ _ H) as (P1 & P2 & _). cbn [fst snd] in *. destruct (pos_nat x P1) as (k & ->). destruct (pos_nat y P2) as (z & ->). apply In_tlookup in H; [|apply W]. rewrite R in H. destruct (nth_error cols z) as [c|]; [|discriminate]. unfold getrow in H. destruct (nth_error (fst c) k); [|discriminate]. injection H as <-. discriminate.
Qed.
Lemma Rep_column_strict : forall cols T, Rep cols T -> Forall okh cols -> forall x y a b, holds T x y a -> holds T (x + 1) y b -> a < b.
Proof.
  intros cols T HR O x y a b A B. destruct (holds_pos T x y a (proj1 HR) A) as [Px Py]. destruct (pos_nat x Px) as (k & ->). destruct (pos_nat y Py) as (z & ->). destruct (Rep_col cols T z k a HR A) as (c & E). apply (Rep_holds cols T z k c a HR O E) in A. replace (1 + Z.of_nat k + 1) with (1 + Z.of_nat (S k)) in B by lia. apply (Rep_holds cols T z (S k) c b HR O E) in B.
  assert (Hc : okh c) by (apply (proj1 (Forall_forall _ _) O); apply (nth_error_In _ _ E)). destruct Hc as (S & _). destruct A as (m & Em & Ha). destruct B as (m' & Em' & Hb). assert (m' <= b) by (destruct Hb as [->|(_ & Hb & _)]; lia). destruct Ha as [->|(_ & _ & Ha)]; [pose proof (slt_nth _ k (Datatypes.S k) m m' S ltac:(lia) Em Em'); lia|specialize (Ha m' Em'); lia].
Qed.
Lemma okT_rows : forall cols T, Rep cols T -> okT cols -> forall x y a b, holds T x y a -> holds T x (y + 1) b -> a <= b.
Proof.
  intros cols T HR [O K] x y a b A B. destruct (holds_pos T x y a (proj1 HR) A) as [Px Py]. destruct (pos_nat x Px) as (k & ->). destruct (pos_nat y Py) as (z & ->). destruct (Rep_col cols T z k a HR A) as (c & E). apply (Rep_holds cols T z k c a HR O E) in A. replace (1 + Z.of_nat z + 1) with (1 + Z.of_nat (S z)) in B by lia. destruct (Rep_col cols T (S z) k b HR B) as (n & En). apply (Rep_holds cols T (S z) k n b HR O En) in B.
  assert (AD : adj c n).
  { destruct (nth_error_split _ _ E) as (X & Y & EX & LX). rewrite EX in En. rewrite nth_error_app2 in En by lia. replace (S z - length X)%nat with 1%nat in En by lia. cbn [nth_error] in En. destruct Y as [|n' Y]; [discriminate|]. injection En as ->. apply (K X c n Y EX). }
  destruct B as (m & Em & Hb). pose proof (proj2 AD k m a Em A). destruct Hb as [->|(_ & Hb & _)]; lia.
Qed.

(* ---------- a table as a list of columns ---------- *)
Fixpoint vrows (rows : list (list Z)) : Prop :=
  match rows with
  | [] => True
  | r :: rest => increasing r /\ r <> [] /\ (forall a b r', In a r -> In r' rest -> In b r' -> a < b) /\ vrows rest
  end.
Definition of_rows (rows : list (list Z)) : hk := (concat (map (@firstn Z 1) rows), concat (map (@skipn Z 1) rows)).
Lemma firsts_In : forall rows m, In m (concat (map (@firstn Z 1) rows)) -> exists r, In r rows /\ In m r.
Proof. intros rows m H. apply in_concat in H. destruct H as (q & Hq & Hm). apply in_map_iff in Hq. destruct Hq as (r & <- & Hr). exists r. split; [exact Hr|]. destruct r as [|b r]; [destruct Hm|]. destruct Hm as [<-|[]]. left. reflexivity. Qed.
Lemma tails_In : forall rows m, In m (concat (map (@skipn Z 1) rows)) -> exists r, In r rows /\ In m r.
Proof. intros rows m H. apply in_concat in H. destruct H as (q & Hq & Hm). apply in_map_iff in Hq. destruct Hq as (r & <- & Hr). exists r. split; [exact Hr|]. destruct r as [|b r]; [destruct Hm|]. right. exact Hm. Qed.
Lemma inc_app : forall a b, increasing a -> increasing b -> (forall x y, In x a -> In y b -> x <= y) -> increasing (a ++ b).
Proof.
  unfold increasing. induction a as [|x a IH]; intros b A B C; [exact B|]. inversion A as [|? ? A1 A2]; subst. cbn [app]. constructor; [apply IH; [exact A1|exact B|intros; apply C; [right; assumption|assumption]]|]. rewrite Forall_forall in *. intros y Hy. apply in_app_iff in Hy. destruct Hy as [Hy|Hy]; [apply A2; exact Hy|apply C; [left; reflexivity|exact Hy]].
Qed.
Lemma of_rows_ok : forall rows, vrows rows -> rows <> [] -> okh (of_rows rows).
Proof.
  intros rows V N. unfold okh, of_rows. cbn [fst snd]. split; [|split].
  - clear N. induction rows as [|r rows IH]; [constructor|]. destruct V as (I & N & L & V). destruct r as [|b r]; [congruence|]. cbn [map firstn concat app]. constructor; [apply IH; exact V|]. apply Forall_forall. intros m Hm. apply firsts_In in Hm. destruct Hm as (r' & Hr & Hm). apply (L b m r'); [left; reflexivity|exact Hr|exact Hm].
  - clear N. induction rows as [|r rows IH]; [constructor|]. destruct V as (I & N & L & V). cbn [map concat]. destruct r as [|b r]; [congruence|]. inversion I as [|? ? I1 _]; subst. cbn [skipn]. apply inc_app; [exact I1|apply IH; exact V|]. intros x y Hx Hy. apply tails_In in Hy. destruct Hy as (r' & Hr & Hy). pose proof (L x y r' (or_intror Hx) Hr Hy). lia.
  - destruct rows as [|r rows]; [congruence|]. destruct V as (I & N' & L & V). destruct r as [|b r]; [congruence|]. exists b. split; [reflexivity|]. intros a Ha. inversion I as [|? ? _ I2]; subst. rewrite Forall_forall in I2. cbn [map skipn concat] in Ha. apply in_app_iff in Ha. destruct Ha as [Ha|Ha]; [apply I2; exact Ha|]. apply tails_In in Ha. destruct Ha as (r' & Hr & Ha). pose proof (L b a r' (or_introl eq_refl) Hr Ha). lia.
Qed.
Lemma firsts_nth : forall rows k, vrows rows -> nth_error (concat (map (@firstn Z 1) rows)) k = match nth_error rows k with Some (b :: _) => Some b | _ => None end.
Proof.
  induction rows as [|r rows IH]; intros k V; [destruct k; reflexivity|]. destruct V as (_ & N & _ & V). destruct r as [|b r]; [congruence|]. cbn [map firstn concat app]. destruct k as [|k]; [reflexivity|]. cbn [nth_error]. apply IH. exact V.
Qed.
Lemma vrows_at : forall rows k r, vrows rows -> nth_error rows k = Some r -> increasing r /\ r <> [].
Proof. induction rows as [|r0 rows IH]; intros k r V E; [destruct k; discriminate|]. destruct V as (I & N & _ & V). destruct k as [|k]; cbn in E; [injection E as <-; tauto|apply (IH k r V E)]. Qed.
Lemma vrows_lt : forall rows k k' r r' a b, vrows rows -> (k < k')%nat -> nth_error rows k = Some r -> nth_error rows k' = Some r' -> In a r -> In b r' -> a < b.
Proof.
  induction rows as [|r0 rows IH]; intros k k' r r' a b V L E E' A B; [destruct k; discriminate|]. destruct V as (_ & _ & Q & V). destruct k' as [|k']; [lia|]. destruct k as [|k]; cbn in E, E'.
  - injection E as ->. apply (Q a b r' A (nth_error_In _ _ E') B).
  - apply (IH k k' r r' a b V); [lia|exact E|exact E'|exact A|exact B].
Qed.
Lemma filter_concat : forall (p : Z -> bool) (L : list (list Z)) k r, nth_error L k = Some r -> (forall j q a, nth_error L j = Some q -> In a q -> p a = Nat.eqb j k) -> filter p (concat L) = r.
Proof.
  intros p. assert (NO : forall L : list (list Z), (forall q a, In q L -> In a q -> p a = false) -> filter p (concat L) = []). { intros L H. apply filter_none. intros a Ha. apply in_concat in Ha. destruct Ha as (q & Hq & Ha). apply (H q a Hq Ha). }
  induction L as [|q L IH]; intros k r E H; [destruct k; discriminate|]. cbn [concat]. rewrite filter_app. destruct k as [|k]; cbn in E.
  - injection E as ->. rewrite filter_all by (intros a Ha; apply (H 0%nat r a eq_refl Ha)). rewrite NO, app_nil_r; [reflexivity|]. intros q a Hq Ha. apply In_nth_error in Hq. destruct Hq as (j & Ej). rewrite (H (S j) q a Ej Ha). reflexivity.
  - rewrite (filter_none _ p q) by (intros a Ha; apply (H 0%nat q a eq_refl Ha)). apply (IH k r E). intros j q' a Ej Ha. apply (H (S j) q' a Ej Ha).
Qed.
Lemma of_rows_row : forall rows k, vrows rows -> rows <> [] -> getrow (of_rows rows) k = nth_error rows k.
Proof.
  intros rows k V NE. pose proof (of_rows_ok rows V NE) as (S & _). unfold getrow, of_rows in *. cbn [fst snd] in *. rewrite firsts_nth by exact V. destruct (nth_error rows k) as [r|] eqn:E; [|reflexivity]. destruct (vrows_at rows k r V E) as [I N]. destruct r as [|b r]; [congruence|]. f_equal. f_equal.
  apply (filter_concat _ _ k); [rewrite nth_error_map, E; reflexivity|]. intros j q a Ej Ha. rewrite nth_error_map in Ej. destruct (nth_error rows j) as [r'|] eqn:E'; [|discriminate]. cbn [option_map] in Ej. injection Ej as <-. destruct (vrows_at rows j r' V E') as [I' N']. destruct r' as [|b' r']; [congruence|]. cbn [skipn] in Ha. inversion I' as [|? ? _ I2]; subst. rewrite Forall_forall in I2.
  unfold inslot. rewrite (last_le_at _ j 0 a b' S); [|rewrite firsts_nth by exact V; rewrite E'; reflexivity|apply I2; exact Ha|].
  - destruct (Nat.eqb_spec j k), (Z.eqb_spec (0 + Z.of_nat j) (Z.of_nat k)); try reflexivity; lia.
  - intros m' Em'. rewrite firsts_nth in Em' by exact V. destruct (nth_error rows (Datatypes.S j)) as [r2|] eqn:E2; [|discriminate]. destruct r2 as [|b2 r2]; [discriminate|]. injection Em' as <-. apply (vrows_lt rows j (Datatypes.S j) _ _ a b2 V ltac:(lia) E' E2); [right; exact Ha|left; reflexivity].
Qed.
Definition table_rows (T : tab) (y h : nat) : list (list Z) := map (fun k => entries T (1 + Z.of_nat k, 1 + Z.of_nat y)) (seq 0 h).
Definition table_cols (T : tab) (m : nat) (h : Z -> Z) : list hk := map (fun y => of_rows (table_rows T y (Z.to_nat (h (1 + Z.of_nat y))))) (seq 0 m).
Lemma entries_holds : forall T x y v, well_formed T -> (In v (entries T (x, y)) <-> holds T x y v).
Proof. intros T x y v W. rewrite (lookup_holds T x y v W). unfold entries. destruct (tlookup T (x, y)) as [l|]; [split; [intro H; exists l; tauto|intros (l' & E & H); injection E as <-; exact H]|split; [intros []|intros (l & E & _); discriminate]]. Qed.
Lemma vrows_seq : forall T y n s, well_formed T -> (forall k, (s <= k < s + n)%nat -> entries T (1 + Z.of_nat k, y) <> []) ->
  (forall x a b, holds T x y a -> holds T (x + 1) y b -> a < b) -> vrows (map (fun k => entries T (1 + Z.of_nat k, y)) (seq s n)).
Proof.
  intros T y n s W NE C. assert (LT : forall d k a b, (s <= k)%nat -> (k + S d < s + n)%nat -> holds T (1 + Z.of_nat k) y a -> holds T (1 + Z.of_nat (k + S d)) y b -> a < b).
  { induction d as [|d IH]; intros k a b H1 H2 A B.
    - apply (C (1 + Z.of_nat k) a b A). replace (1 + Z.of_nat k + 1) with (1 + Z.of_nat (k + 1)) by lia. exact B.
    - destruct (entries T (1 + Z.of_nat (k + 1), y)) as [|e l] eqn:E; [exfalso; apply (NE (k + 1)%nat); [lia|exact E]|]. assert (He : holds T (1 + Z.of_nat (k + 1)) y e) by (apply entries_holds; [exact W|rewrite E; left; reflexivity]). transitivity e; [apply (C (1 + Z.of_nat k) a e A); replace (1 + Z.of_nat k + 1) with (1 + Z.of_nat (k + 1)) by lia; exact He|]. apply (IH (k + 1)%nat e b); [lia|lia|exact He|]. replace (k + 1 + S d)%nat with (k + S (S d))%nat by lia. exact B. }
  clear C. revert s NE LT. induction n as [|n IH]; intros s NE LT; [exact Logic.I|]. cbn [seq map vrows]. split; [apply entries_inc; exact W|]. split; [apply NE; lia|]. split.
  - intros a b r' Ha Hr Hb. apply in_map_iff in Hr. destruct Hr as (k & <- & Hk). apply in_seq in Hk. apply (LT (k - s - 1)%nat s a b); [lia|lia|apply entries_holds; assumption|]. replace (s + S (k - s - 1))%nat with k by lia. apply entries_holds; assumption.
  - apply IH; [intros k Hk; apply NE; lia|]. intros d k a b H1 H2. apply LT; lia.
Qed.
Lemma table_rows_ok : forall m h T y, column_strict m h T -> (forall z, 1 <= z <= m -> 1 <= h z) -> (Z.of_nat y < m) -> vrows (table_rows T y (Z.to_nat (h (1 + Z.of_nat y)))) /\ table_rows T y (Z.to_nat (h (1 + Z.of_nat y))) <> [].
Proof.
  intros m h T y (W & K & NE & C) H Hy. specialize (H (1 + Z.of_nat y) ltac:(lia)). split.
  - apply vrows_seq; [exact W| |intros x a b; apply C]. intros k Hk E. destruct (proj2 (K (1 + Z.of_nat k) (1 + Z.of_nat y)) ltac:(lia)) as (l & Hl). pose proof (NE _ _ Hl) as N. apply In_tlookup in Hl; [|apply W]. unfold entries in E. rewrite Hl in E. congruence.
  - unfold table_rows. destruct (Z.to_nat (h (1 + Z.of_nat y))) eqn:E; [lia|]. discriminate.
Qed.
Lemma nth_error_mapseq : forall {A} (f : nat -> A) n k, nth_error (map f (seq 0 n)) k = if Nat.ltb k n then Some (f k) else None.
Proof.
  intros A f n k. rewrite nth_error_map. destruct (Nat.ltb_spec k n) as [L|L].
  - rewrite (nth_error_nth' _ 0%nat) by (rewrite seq_length; exact L). rewrite seq_nth by exact L. reflexivity.
  - replace (nth_error (seq 0 n) k) with (@None nat); [reflexivity|]. symmetry. apply nth_error_None. rewrite seq_length. exact L.
Qed.
Lemma table_rep : forall m h T, 0 <= m -> column_strict m h T -> (forall z, 1 <= z <= m -> 1 <= h z) ->
  Rep (table_cols T (Z.to_nat m) h) T /\ Forall okh (table_cols T (Z.to_nat m) h) /\
  map (fun c => Z.of_nat (length (fst c))) (table_cols T (Z.to_nat m) h) = map h (zrange 1 (m + 1)).
Proof.
  intros m h T M C H. pose proof C as (W & K & NE & CS). split; [|split].
  - split; [exact W|]. intros y k. unfold table_cols. rewrite nth_error_mapseq. destruct (Nat.ltb_spec y (Z.to_nat m)) as [L|L].
    + destruct (table_rows_ok m h T y C H ltac:(lia)) as [V N]. rewrite of_rows_row by assumption. unfold table_rows. rewrite nth_error_mapseq. destruct (Nat.ltb_spec k (Z.to_nat (h (1 + Z.of_nat y)))) as [L'|L'].
      * destruct (proj2 (K (1 + Z.of_nat k) (1 + Z.of_nat y)) ltac:(lia)) as (l & Hl). apply In_tlookup in Hl; [|apply W]. unfold entries. rewrite Hl. reflexivity.
      * apply tlookup_None. intro Q. apply in_map_iff in Q. destruct Q as ([d l] & E & Q). cbn [fst] in E. subst d. pose proof (proj1 (K _ _) (ex_intro _ l Q)). lia.
    + apply tlookup_None. intro Q. apply in_map_iff in Q. destruct Q as ([d l] & E & Q). cbn [fst] in E. subst d. pose proof (proj1 (K _ _) (ex_intro _ l Q)). lia.
  - apply Forall_forall. intros c Hc. apply in_map_iff in Hc. destruct Hc as (y & <- & Hy). apply in_seq in Hy. destruct (table_rows_ok m h T y C H ltac:(lia)) as [V N]. apply of_rows_ok; assumption.
  - unfold table_cols. rewrite map_map. pose proof (zrange_seq (Z.to_nat m) 0) as ZS. cbn [Z.of_nat] in ZS. rewrite Z.add_0_r in ZS. replace (m + 1) with (1 + Z.of_nat (Z.to_nat m)) by lia. rewrite ZS, map_map. apply map_ext_in. intros y Hy. apply in_seq in Hy. destruct (table_rows_ok m h T y C H ltac:(lia)) as [V N]. unfold of_rows. cbn [fst].
    assert (G : forall rows, vrows rows -> length (concat (map (@firstn Z 1) rows)) = length rows). { induction rows as [|r rows IH]; intro VR; [reflexivity|]. destruct VR as (_ & N1 & _ & VR). destruct r; [congruence|]. change (S (length (concat (map (@firstn Z 1) rows))) = S (length rows)). rewrite IH by exact VR. reflexivity. }
    rewrite G by exact V. unfold table_rows. rewrite map_length, seq_length. specialize (H (1 + Z.of_nat y) ltac:(lia)). lia.
Qed.
