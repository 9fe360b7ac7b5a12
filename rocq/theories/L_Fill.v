(* Peeling the largest letter off a filling, at the level of predicates *)
From Coq Require Import List ZArith Lia Bool.
Import ListNotations.
Local Open Scope Z_scope.

Notation cellp := (Z * Z)%type.

Section Peel.
  Variables (s d : cellp -> cellp).            (* next cell along the row / down the column (or swapped) *)
  Variable (okS okD : Z -> Z -> Prop).
  Variable v : Z.                              (* the largest letter *)
  Variable low : Z -> Prop.                    (* the smaller letters *)
  Variable allowed : cellp -> Z -> Prop.
  Variable sv : bool.
  Hypothesis A1 : okS v v.
  Hypothesis A2 : ~ okD v v.
  Hypothesis A3 : forall x, low x -> okS x v /\ okD x v.
  Hypothesis A4 : forall y, low y -> ~ okS v y /\ ~ okD v y.
  Hypothesis A5 : ~ low v.

  (* H is a filling of mu \ lam by the letters satisfying [P] *)
  Definition fill (P : Z -> Prop) (lam mu : cellp -> Prop) (H : cellp -> Z -> Prop) : Prop :=
    (forall b, (exists x, H b x) <-> mu b /\ ~ lam b) /\
    (forall b x, H b x -> P x /\ allowed b x) /\
    (forall b x y, H b x -> H (s b) y -> okS x y) /\
    (forall b x y, H b x -> H (d b) y -> okD x y) /\
    (sv = false -> forall b x y, H b x -> H b y -> x = y).

  (* order ideals with respect to s and d, inside a region: [nx b] lists what must precede b *)
  Definition closed (region mu : cellp -> Prop) : Prop :=
    (forall b, region b -> mu (s b) -> mu b) /\ (forall b, region b -> mu (d b) -> mu b).

  Variable region : cellp -> Prop.
  Variables lam mu : cellp -> Prop.
  Hypothesis lam_mu : forall b, lam b -> mu b.
  Hypothesis mu_region : forall b, mu b -> region b.
  Hypothesis lam_closed : closed region lam.
  Hypothesis mu_closed : closed region mu.
  Let top (x : Z) := low x \/ x = v.

  Definition strip_ok (nu : cellp -> Prop) : Prop :=
    closed region nu /\ (forall b, lam b -> nu b) /\ (forall b, nu b -> mu b) /\
    forall b, mu b -> ~ nu b -> mu (d b) -> ~ nu (d b) -> False.
  Definition freeb (nu : cellp -> Prop) (b : cellp) : Prop := nu b /\ ~ lam b /\ ~ nu (s b) /\ ~ mu (d b).

  (* building up *)
  Lemma fill_up : forall (nu C : cellp -> Prop) (H' : cellp -> Z -> Prop), (forall b, nu b \/ ~ nu b) -> strip_ok nu ->
    (forall b, C b -> freeb nu b) -> (sv = false -> forall b, ~ C b) ->
    (forall b, (mu b /\ ~ nu b) \/ C b -> allowed b v) ->
    fill low lam nu H' -> fill top lam mu (fun b x => H' b x \/ (x = v /\ ((mu b /\ ~ nu b) \/ C b))) .
  Proof.
    intros nu C H' Ndec ([N1 N2] & L & M & F) HC HS HA (D1 & D2 & D3 & D4 & D5).
    assert (LM : forall b, lam b -> mu b) by auto.
    assert (Hin : forall b x, H' b x -> nu b /\ ~ lam b) by (intros b x Hx; apply D1; exists x; assumption).
    assert (Hmu : forall b x, H' b x \/ (x = v /\ ((mu b /\ ~ nu b) \/ C b)) -> mu b /\ ~ lam b).
    { intros b x [Hx|(-> & [[A B]|A])].
      - apply Hin in Hx. split; [apply M; tauto|tauto].
      - split; [assumption|]. intro. apply B, L. assumption.
      - apply HC in A. destruct A as (A & B & _). split; [apply M; assumption|assumption]. }
    split; [|split; [|split; [|split]]].
    - intro b. split; [intros (x & Hx); eapply Hmu; eassumption|].
      intros [A B]. destruct (Ndec b) as [Hn|Hn].
      + destruct (proj2 (D1 b) (conj Hn B)) as [x Hx]. exists x. left. assumption.
      + exists v. right. split; [reflexivity|]. left. split; assumption.
    - intros b x [Hx|(-> & Hx)].
      + apply D2 in Hx. split; [left; tauto|tauto].
      + split; [right; reflexivity|apply HA; assumption].
    - intros b x y [Hx|(-> & Hx)] [Hy|(-> & Hy)].
      + eapply D3; eassumption.
      + apply A3. eapply D2. eassumption.
      + exfalso. destruct (Hin _ _ Hy) as [Y1 _]. destruct Hx as [[X1 X2]|X1].
        * apply X2. apply N1; [apply mu_region; assumption|assumption].
        * apply HC in X1. destruct X1 as (_ & _ & X1 & _). contradiction.
      + assumption.
    - intros b x y [Hx|(-> & Hx)] [Hy|(-> & Hy)].
      + eapply D4; eassumption.
      + apply A3. eapply D2. eassumption.
      + exfalso. destruct (Hin _ _ Hy) as [Y1 _]. destruct Hx as [[X1 X2]|X1].
        * apply X2. apply N2; [apply mu_region; assumption|assumption].
        * apply HC in X1. destruct X1 as (_ & _ & _ & X1). apply X1, M. assumption.
      + exfalso. destruct (Hmu (d b) v (or_intror (conj eq_refl Hy))) as [Y1 _]. destruct Hx as [[X1 X2]|X1].
        * destruct Hy as [[Y2 Y3]|Y2]; [exact (F b X1 X2 Y2 Y3)|]. apply HC in Y2. destruct Y2 as (Y2 & _). apply X2. apply N2; [apply mu_region; assumption|assumption].
        * apply HC in X1. destruct X1 as (_ & _ & _ & X1). contradiction.
    - intros Hs b x y [Hx|(-> & Hx)] [Hy|(-> & Hy)].
      + eapply D5; eassumption.
      + exfalso. destruct Hy as [[Y1 Y2]|Y1]; [apply Y2; eapply Hin; eassumption|apply (HS Hs b); assumption].
      + exfalso. destruct Hx as [[Y1 Y2]|Y1]; [apply Y2; eapply Hin; eassumption|apply (HS Hs b); assumption].
      + reflexivity.
  Qed.

  (* taking apart *)
  Definition rest (H : cellp -> Z -> Prop) (b : cellp) (x : Z) : Prop := H b x /\ x <> v.
  Definition inner (H : cellp -> Z -> Prop) (b : cellp) : Prop := lam b \/ exists x, rest H b x.
  Definition extra (H : cellp -> Z -> Prop) (b : cellp) : Prop := inner H b /\ H b v.

  Lemma fill_down : forall H : cellp -> Z -> Prop, (forall b, inner H b \/ ~ inner H b) -> fill top lam mu H ->
    strip_ok (inner H) /\ (forall b, extra H b -> freeb (inner H) b) /\ (sv = false -> forall b, ~ extra H b) /\
    (forall b, (mu b /\ ~ inner H b) \/ extra H b -> allowed b v) /\
    fill low lam (inner H) (rest H) /\
    (forall b x, H b x <-> rest H b x \/ (x = v /\ ((mu b /\ ~ inner H b) \/ extra H b))).
  Proof.
    intros H Idec (D1 & D2 & D3 & D4 & D5).
    assert (Hmu : forall b x, H b x -> mu b /\ ~ lam b) by (intros b x Hx; apply D1; exists x; assumption).
    assert (Hlow : forall b x, rest H b x -> low x) by (intros b x [Hx Hv]; apply D2 in Hx; destruct Hx as [[A|A] _]; [assumption|contradiction]).
    assert (Hout : forall b, mu b -> ~ inner H b -> H b v).
    { intros b Hb Hn. assert (~ lam b) by (intro; apply Hn; left; assumption).
      destruct (proj2 (D1 b) (conj Hb H0)) as [x Hx]. destruct (Z.eq_dec x v) as [->|E]; [assumption|]. exfalso. apply Hn. right. exists x. split; assumption. }
    assert (Hcl : closed region (inner H)).
    { split.
      - intros b Rb [Hl|(x & Hx)]; [left; apply (proj1 lam_closed); assumption|].
        destruct (Idec b) as [|Hn]; [assumption|]. exfalso.
        assert (Mb : mu b) by (apply (proj1 mu_closed); [assumption|]; destruct Hx as [Hx _]; apply Hmu in Hx; tauto).
        pose proof (Hout b Mb Hn) as Hv. apply (proj1 (A4 x (Hlow _ _ Hx))). destruct Hx as [Hx _]. eapply D3; eassumption.
      - intros b Rb [Hl|(x & Hx)]; [left; apply (proj2 lam_closed); assumption|].
        destruct (Idec b) as [|Hn]; [assumption|]. exfalso.
        assert (Mb : mu b) by (apply (proj2 mu_closed); [assumption|]; destruct Hx as [Hx _]; apply Hmu in Hx; tauto).
        pose proof (Hout b Mb Hn) as Hv. apply (proj2 (A4 x (Hlow _ _ Hx))). destruct Hx as [Hx _]. eapply D4; eassumption. }
    assert (Hext : forall b, extra H b -> freeb (inner H) b).
    { intros b [Hi Hv]. pose proof (Hmu _ _ Hv) as [Mb Lb]. split; [assumption|]. split; [assumption|]. split.
      - intros [Hl|(x & Hx)]; [apply Lb; apply (proj1 lam_closed); [apply mu_region; assumption|assumption]|].
        apply (proj1 (A4 x (Hlow _ _ Hx))). destruct Hx as [Hx _]. eapply D3; eassumption.
      - intro Hd. assert (Ld : ~ lam (d b)) by (intro; apply Lb; apply (proj2 lam_closed); [apply mu_region; assumption|assumption]).
        destruct (proj2 (D1 (d b)) (conj Hd Ld)) as [y Hy]. pose proof (D4 _ _ _ Hv Hy) as O.
        destruct (D2 _ _ Hy) as [[Y| ->] _]; [apply (proj2 (A4 y Y)); assumption|apply A2; assumption]. }
    split.
    { split; [assumption|]. split; [intros; left; assumption|]. split.
      - intros b [Hl|(x & [Hx _])]; [apply lam_mu; assumption|apply Hmu in Hx; tauto].
      - intros b M1 N1 M2 N2. exact (A2 (D4 b v v (Hout b M1 N1) (Hout (d b) M2 N2))). }
    split; [assumption|]. split.
    { intros Hs b [[Hl|(x & Hx & Hn)] Hv]; [apply Hmu in Hv; tauto|]. apply Hn. eapply D5; eassumption. }
    split.
    { intros b [[Mb Nb]|[_ Hv]]; [apply (D2 b v); apply Hout; assumption|apply (D2 b v); assumption]. }
    split.
    { split; [|split; [|split; [|split]]].
      - intro b. split.
        + intros (x & Hx). split; [right; exists x; assumption|]. destruct Hx as [Hx _]. apply Hmu in Hx. tauto.
        + intros [[Hl|Hx] Nl]; [contradiction|assumption].
      - intros b x Hx. split; [eapply Hlow; eassumption|]. destruct Hx as [Hx _]. eapply D2. eassumption.
      - intros b x y [Hx _] [Hy _]. eapply D3; eassumption.
      - intros b x y [Hx _] [Hy _]. eapply D4; eassumption.
      - intros Hs b x y [Hx _] [Hy _]. eapply D5; eassumption. }
    intros b x. split.
    - intro Hx. destruct (Z.eq_dec x v) as [->|E]; [right|left; split; assumption]. split; [reflexivity|].
      destruct (Idec b) as [Hi|Hn]; [right; split; assumption|left]. split; [apply Hmu in Hx; tauto|assumption].
    - intros [[Hx _]|(-> & [[Mb Nb]|[_ Hv]])]; [assumption|apply Hout; assumption|assumption].
  Qed.

  (* the pieces are determined by the result *)
  Lemma fill_unique : forall (nu C : cellp -> Prop) (H' H : cellp -> Z -> Prop),
    (forall b, lam b -> nu b) -> (forall b, C b -> freeb nu b) -> fill low lam nu H' -> (forall b, lam b \/ ~ lam b) ->
    (forall b x, H b x <-> H' b x \/ (x = v /\ ((mu b /\ ~ nu b) \/ C b))) ->
    (forall b x, H' b x <-> rest H b x) /\ (forall b, nu b <-> inner H b) /\ (forall b, C b <-> extra H b).
  Proof.
    intros nu C H' H L HC (D1 & D2 & D3 & D4 & D5) Ldec E.
    assert (R : forall b x, H' b x <-> rest H b x).
    { intros b x. unfold rest. rewrite E. split.
      - intro Hx. split; [left; assumption|]. intros ->. apply D2 in Hx. apply A5. tauto.
      - intros [[Hx|[-> _]] Hn]; [assumption|contradiction]. }
    assert (I : forall b, nu b <-> inner H b).
    { intro b. unfold inner. split.
      - intro Hn. destruct (Ldec b) as [Hl|Hl]; [left; assumption|right]. destruct (proj2 (D1 b) (conj Hn Hl)) as [x Hx]. exists x. apply R. assumption.
      - intros [Hl|(x & Hx)]; [apply L; assumption|]. apply R in Hx. apply (D1 b). exists x. assumption. }
    split; [assumption|]. split; [assumption|]. intro b. unfold extra. rewrite <- I, E. split.
    - intro Hc. split; [apply HC in Hc; apply Hc|]. right. split; [reflexivity|right; assumption].
    - intros [Hn [Hv|(_ & [[_ Hm]|Hc])]]; [|contradiction|assumption]. exfalso. apply D2 in Hv. apply A5. tauto.
  Qed.
End Peel.
