(** C43: the walking state machine. *)
From Coq Require Import Reals ZArith List Arith Bool Lra Lia.
From Verif Require Import SpecState SpecGeometry SpecReference SpecContainers SpecWalking StateModel PosRef PropPosRef PropState WalkingModel.
Import ListNotations.
Local Open Scope R_scope.

Ltac decide_tests := repeat match goal with
  | |- context[isLt ?a ?b] => unfold isLt at 1; destruct (Rlt_dec a b); cbn [andb orb]
  | |- context[isLe ?a ?b] => unfold isLe at 1; destruct (Rle_dec a b); cbn [andb orb]
  end.

(** Parameters never change. *)
Definition same_params (m m' : machine) : Prop :=
  stepIncrement m' = stepIncrement m /\ stepDuration m' = stepDuration m /\ horizon m' = horizon m /\
  minimumDt m' = minimumDt m /\ m_forceThreshold m' = m_forceThreshold m /\ positionThreshold m' = positionThreshold m.

Record inv (m : machine) : Prop := mkInv {
  i_dur : 0 <= stepDuration m; i_hor : 0 <= horizon m; i_dt : minimumDt m <= stepDuration m;
  i_w1 : well_formed (activeRange (first m)); i_w2 : well_formed (activeRange (second m));
  i_first : initTime (activeRange (first m)) <= 0;
  i_end : 0 <= minimumDt m -> 0 <= endTime (activeRange (first m));
  i_second : (initTime (activeRange (second m)) <= horizon m /\ desiredPosition (second m) = add3 (desiredPosition (first m)) (stepIncrement m)) \/
             (initTime (activeRange (second m)) = horizon m + 1 /\ endTime (activeRange (second m)) = horizon m + 1 /\ desiredPosition (second m) = desiredPosition (first m)) }.

Lemma setTime_ok r i e : i <= e -> setTimeInterval r i e = mkRange i e (anyTime r).
Proof. intros. unfold setTimeInterval. destruct Rlt_dec; auto. lra. Qed.

Lemma initialize_inv start inc dur hor dt fthr pthr m :
  initialize start inc dur hor dt fthr pthr = Some m -> 0 <= dur -> 0 <= hor ->
  inv m /\ desiredPosition (first m) = start /\ initTime (activeRange (first m)) = 0 /\ endTime (activeRange (first m)) = dur /\
  stepIncrement m = inc /\ stepDuration m = dur /\ horizon m = hor /\ minimumDt m = dt /\ m_forceThreshold m = fthr /\ positionThreshold m = pthr.
Proof.
  unfold initialize. destruct (Rlt_dec fthr 0); [discriminate|]. destruct (Rlt_dec hor dt); [discriminate|].
  destruct (Rlt_dec dur dt); [discriminate|]. intros H Hd Hh. injection H as <-. cbn [first second stepIncrement stepDuration horizon minimumDt m_forceThreshold positionThreshold].
  unfold setRange, setPosition, zeroElement, defaultRange. cbn [desiredPosition activeRange].
  rewrite !setTime_ok by lra. cbn. split; [|repeat split].
  constructor; cbn; unfold well_formed; cbn; try lra; auto; try (split; auto; lra).
Qed.

(** One call, seen from outside: the three ways it can go. *)
Inductive transition (time minForce futureError : R) (m m' : machine) : Prop :=
| Keep : (* the current step is kept, the target of the next step possibly planned *)
    desiredPosition (first m') = desiredPosition (first m) ->
    initTime (activeRange (first m')) = initTime (activeRange (first m)) - time ->
    (desiredPosition (second m') = desiredPosition (second m) \/
      desiredPosition (second m') = add3 (desiredPosition (first m)) (stepIncrement m) /\
      horizon m < initTime (activeRange (second m)) /\
      endTime (activeRange (first m)) <= 6/10 * horizon m /\
      (futureError < positionThreshold m \/ 2 * stepDuration m < endTime (activeRange (first m)) - initTime (activeRange (first m)))) ->
    transition time minForce futureError m m'
| Switch : (* the next step becomes the current one *)
    desiredPosition (first m') = add3 (desiredPosition (first m)) (stepIncrement m) ->
    desiredPosition (second m') = desiredPosition (first m') ->
    initTime (activeRange (first m')) = 0 -> endTime (activeRange (first m')) = stepDuration m ->
    initTime (activeRange (first m)) - time + stepDuration m < minimumDt m ->
    m_forceThreshold m <= minForce ->
    transition time minForce futureError m m'.

Lemma proceed_inv m time minForce : inv m -> 0 <= time ->
  inv (proceed m time minForce) /\ same_params m (proceed m time minForce).
Proof.
  intros [Hd Hh Hdt [W1 W1'] [W2 W2'] F E S] Ht. unfold proceed.
  decide_tests; unfold with_refs, setRange, setPosition; cbn [first second desiredPosition activeRange stepIncrement stepDuration horizon minimumDt m_forceThreshold positionThreshold];
  rewrite ?setTime_ok; cbn [first second desiredPosition activeRange stepIncrement stepDuration horizon minimumDt m_forceThreshold positionThreshold]; rewrite ?W1, ?W2; try lra;
  try (pose proof (Rmax_l (initTime (activeRange (first m)) - time + stepDuration m) (6/10 * horizon m)); lra);
  (split; [|unfold same_params; cbn; tauto]); constructor; cbn; unfold well_formed; cbn; auto; try lra; try (split; auto; lra);
  destruct S as [(S1 & S2)|(S1 & S2 & S3)]; auto; try lra; try (left; split; auto; lra); try (right; repeat split; auto; lra).
  all: try (pose proof (Rmax_l (initTime (activeRange (first m)) - time + stepDuration m) (6/10 * horizon m)); pose proof (Rmax_r (initTime (activeRange (first m)) - time + stepDuration m) (6/10 * horizon m)); split; auto; lra).
  all: intros; pose proof (Rmax_r (initTime (activeRange (first m)) - time + stepDuration m) (6/10 * horizon m)); try lra.
Qed.
Lemma insert_inv m e : inv m -> insertNow m e = true -> inv (insert m) /\ same_params m (insert m).
Proof.
  intros [Hd Hh Hdt [W1 W1'] [W2 W2'] F E S] H. unfold insert, with_refs, setRange, setPosition. rewrite setTime_ok by lra. rewrite W2.
  split; [|unfold same_params; cbn; tauto].
  constructor; cbn; unfold well_formed; cbn; auto; try (split; auto; lra). left. split; auto. lra.
Qed.

Lemma step_transition m time minForce e : inv m -> 0 <= time ->
  let m' := proceed (if insertNow m e then insert m else m) time minForce in
  inv m' /\ same_params m m' /\ transition time minForce e m m'.
Proof.
  intros I Ht m'.
  assert (I1 : inv (if insertNow m e then insert m else m) /\ same_params m (if insertNow m e then insert m else m)).
  { destruct (insertNow m e) eqn:En; [eapply insert_inv; eauto | split; auto; repeat split]. }
  destruct I1 as (I1 & P1). destruct (proceed_inv _ time minForce I1 Ht) as (I2 & P2). fold m' in I2, P2.
  split; auto. split; [unfold same_params in *; intuition congruence|].
  set (m1 := if insertNow m e then insert m else m) in *.
  assert (F1 : first m1 = first m) by (unfold m1; destruct (insertNow m e); reflexivity).
  assert (S1 : desiredPosition (second m1) = desiredPosition (second m) \/
      desiredPosition (second m1) = add3 (desiredPosition (first m)) (stepIncrement m) /\
      horizon m < initTime (activeRange (second m)) /\
      endTime (activeRange (first m)) <= 6/10 * horizon m /\
      (e < positionThreshold m \/ 2 * stepDuration m < endTime (activeRange (first m)) - initTime (activeRange (first m)))).
  { unfold m1. destruct (insertNow m e) eqn:En; auto. right. cbn. split; auto. revert En. unfold insertNow. decide_tests; try discriminate; auto. }
  destruct P1 as (Q1 & Q2 & Q3 & Q4 & Q5 & Q6).
  destruct I1 as [Hd Hh Hdt [W1 W1'] [W2 W2'] F E S].
  unfold m', proceed. decide_tests; unfold with_refs, setRange, setPosition; cbn [first second desiredPosition activeRange stepIncrement stepDuration horizon minimumDt m_forceThreshold positionThreshold].
  all: pose proof (Rmax_l (initTime (activeRange (first m1)) - time + stepDuration m1) (6/10 * horizon m1)).
  all: try solve [apply Keep; cbn [first second desiredPosition activeRange]; rewrite ?setTime_ok by lra; cbn; rewrite ?F1; auto].
  all: apply Switch; cbn [first second desiredPosition activeRange]; rewrite ?setTime_ok by lra; cbn; rewrite <- ?F1; try lra; auto.
  all: destruct S as [(SA & SB)|(SA & _)]; try congruence; lra.
Qed.

Lemma norm_distance a b : norm3 (sub3 a b) = distance3 a b.
Proof. reflexivity. Qed.

Lemma advance_transition Rot m (c f : state Rot) m' : inv m -> 0 <= stateTime c -> advance Rot m c f = Some m' ->
  exists minForce, minimumPointForceOnForwardFoot Rot (stepIncrement m) c = Some minForce /\
  inv m' /\ same_params m m' /\
  transition (stateTime c) minForce (distance3 (computeFeetCentroid Rot f) (desiredPosition (first m))) m m'.
Proof.
  intros I Ht H. unfold advance in H. destruct (minimumPointForceOnForwardFoot Rot (stepIncrement m) c) as [x|] eqn:E; [|discriminate].
  injection H as <-. exists x. split; auto. apply step_transition; auto.
Qed.

Definition times_ok {Rot} (ins : list (state Rot * state Rot)) : Prop := forall cf, In cf ins -> 0 <= stateTime (fst cf).

Lemma advances_app Rot m a b : advances Rot m (a ++ b) = match advances Rot m a with None => None | Some m' => advances Rot m' b end.
Proof. revert m. induction a as [|[c f] a IH]; intros m; cbn; auto. destruct (advance Rot m c f); auto. Qed.

Lemma total_time_app {Rot} (a b : list (state Rot * state Rot)) : total_time (a ++ b) = total_time a + total_time b.
Proof. unfold total_time. induction a as [|x a IH]; cbn; [ring|]. rewrite IH. ring. Qed.

Definition scaled (k : nat) (v : V3) : V3 := scale3 (INR k) v.
Lemma scaled_S k a v : add3 (add3 a (scaled k v)) v = add3 a (scaled (S k) v).
Proof. unfold scaled. rewrite S_INR. destruct a as [[? ?] ?], v as [[? ?] ?]. cbn. repeat (f_equal; try ring). Qed.

Lemma reach Rot start inc dur hor dt fthr pthr m0 : initialize start inc dur hor dt fthr pthr = Some m0 -> 0 <= dur -> 0 <= hor ->
  forall (ins : list (state Rot * state Rot)) m, times_ok ins -> advances Rot m0 ins = Some m ->
  inv m /\ same_params m0 m /\
  exists k n, (k <= n <= length ins)%nat /\ desiredPosition (first m) = add3 start (scaled k inc) /\
    initTime (activeRange (first m)) = - total_time (skipn n ins).
Proof.
  intros H0 Hd Hh ins. destruct (initialize_inv _ _ _ _ _ _ _ _ H0 Hd Hh) as (I0 & P0 & T0 & _ & E1 & E2 & E3 & E4 & E5 & E6).
  induction ins as [|[c f] ins IH] using rev_ind; intros m Ht H.
  - cbn in H. injection H as <-. split; auto. split; [repeat split|]. exists 0%nat, 0%nat. cbn. split; [lia|]. split; [|rewrite T0; ring].
    rewrite P0. unfold scaled. destruct start as [[? ?] ?], inc as [[? ?] ?]. cbn. repeat (f_equal; try ring).
  - rewrite advances_app in H. destruct (advances Rot m0 ins) as [m1|] eqn:Em; [|discriminate]. cbn in H.
    destruct (advance Rot m1 c f) as [m2|] eqn:Ea; [|discriminate]. injection H as <-.
    assert (Ht1 : times_ok ins) by (intros x Hx; apply Ht, in_app_iff; auto).
    assert (Htc : 0 <= stateTime c) by (apply (Ht (c, f)), in_app_iff; right; left; auto).
    destruct (IH m1 Ht1 eq_refl) as (I1 & S1 & k & n & Hkn & Hp & Hi).
    destruct (advance_transition Rot m1 c f m2 I1 Htc Ea) as (x & _ & I2 & S2 & T).
    split; auto. split; [unfold same_params in *; intuition congruence|].
    rewrite app_length. cbn [length]. destruct T as [A B _|A B C D E F].
    + exists k, n. split; [lia|]. split; [congruence|].
      rewrite B, Hi, skipn_app, total_time_app. replace (n - length ins)%nat with O by lia. cbn. ring.
    + exists (S k), (length ins + 1)%nat. split; [lia|]. split.
      * rewrite A, Hp. replace (stepIncrement m1) with inc by (unfold same_params in S1; destruct S1 as (-> & _); auto). apply scaled_S.
      * rewrite C, skipn_all2; [cbn; ring|]. rewrite app_length. cbn. lia.
Qed.

(** After every history of advance calls: the current target is the start plus a
    whole number of increments; the start of its interval is minus the time
    elapsed since it became current (after [n] calls); the next target is one
    increment further once it is planned, and otherwise its interval is out of
    the horizon; intervals are well formed. *)
Theorem C43_invariant : forall Rot start inc dur hor dt fthr pthr m0 (ins : list (state Rot * state Rot)) m,
  initialize start inc dur hor dt fthr pthr = Some m0 -> 0 <= dur -> 0 <= hor ->
  (forall cf, In cf ins -> 0 <= stateTime (fst cf)) -> advances Rot m0 ins = Some m ->
  well_formed (activeRange (first m)) /\ well_formed (activeRange (second m)) /\
  (exists k n, (k <= n <= length ins)%nat /\ desiredPosition (first m) = add3 start (scale3 (INR k) inc) /\
     initTime (activeRange (first m)) = - total_time (skipn n ins)) /\
  ((initTime (activeRange (second m)) <= hor /\ desiredPosition (second m) = add3 (desiredPosition (first m)) inc) \/
   (initTime (activeRange (second m)) = hor + 1 /\ endTime (activeRange (second m)) = hor + 1 /\ desiredPosition (second m) = desiredPosition (first m))).
Proof.
  intros Rot start inc dur hor dt fthr pthr m0 ins m H0 Hd Hh Ht H.
  destruct (initialize_inv _ _ _ _ _ _ _ _ H0 Hd Hh) as (I0 & P0 & T0 & _ & E1 & E2 & E3 & _).
  destruct (reach Rot _ _ _ _ _ _ _ _ H0 Hd Hh ins m Ht H) as (I & (S1 & S2 & S3 & _) & K).
  destruct I as [? ? ? W1 W2 ? ? S]. split; auto. split; auto. split; auto. rewrite S3, E3, S1, E1 in S. exact S.
Qed.

Lemma forward_min Rot d (c : state Rot) x foot : has_feet c -> forward_foot d c foot ->
  minimumPointForceOnForwardFoot Rot d c = Some x -> forall p, In p foot -> x <= norm3 (pointForce p).
Proof.
  intros (HL & HR) (ml & mr & Ml & Mr & A & B) E p Hp. apply C47_minimum_force in E.
  pose proof (C47_left_is_forward Rot c d ml mr HL HR Ml Mr) as L.
  destruct (leftIsForward Rot d c) eqn:Ef.
  - rewrite (A (proj1 L eq_refl)) in Hp. apply E. apply in_map. auto.
  - assert (~ dot3 mr d < dot3 ml d) by (intros C; apply L in C; discriminate).
    rewrite B in Hp by lra. apply E. apply in_map. auto.
Qed.

(** A call changes the current target only by one increment; when it does, the
    target had been current for more than step duration minus minimum dt, every
    point of the forward foot bears at least the force threshold, and the new
    step starts now. *)
Theorem C43_switch : forall Rot start inc dur hor dt fthr pthr m0 (ins : list (state Rot * state Rot)) m c f m',
  initialize start inc dur hor dt fthr pthr = Some m0 -> 0 <= dur -> 0 <= hor ->
  (forall cf, In cf ins -> 0 <= stateTime (fst cf)) -> 0 <= stateTime c -> has_feet c ->
  advances Rot m0 ins = Some m -> advance Rot m c f = Some m' ->
  desiredPosition (first m') <> desiredPosition (first m) ->
  desiredPosition (first m') = add3 (desiredPosition (first m)) inc /\
  dur - dt < stateTime c - initTime (activeRange (first m)) /\
  (forall foot, forward_foot inc c foot -> forall p, In p foot -> fthr <= norm3 (pointForce p)) /\
  initTime (activeRange (first m')) = 0 /\ endTime (activeRange (first m')) = dur.
Proof.
  intros Rot start inc dur hor dt fthr pthr m0 ins m c f m' H0 Hd Hh Ht Htc Hf H Ha Hne.
  destruct (initialize_inv _ _ _ _ _ _ _ _ H0 Hd Hh) as (I0 & P0 & T0 & _ & E1 & E2 & E3 & E4 & E5 & E6).
  destruct (reach Rot _ _ _ _ _ _ _ _ H0 Hd Hh ins m Ht H) as (I & (S1 & S2 & S3 & S4 & S5 & S6) & K).
  destruct (advance_transition Rot m c f m' I Htc Ha) as (x & Ex & _ & _ & T).
  destruct T as [A B _|A B C D E F]; [congruence|].
  rewrite S1, E1 in A. rewrite S2, E2 in D, E. rewrite S4, E4 in E. rewrite S5, E5 in F. rewrite S1, E1 in Ex.
  split; [exact A|]. split; [lra|]. split; [|auto].
  intros foot Hfoot p Hp. pose proof (forward_min Rot inc c x foot Hf Hfoot Ex p Hp). lra.
Qed.

(** A call that does not switch lets the current step age by the elapsed time; it
    plans a new target only when none is planned, the current interval ends in the
    first 60% of the horizon, and the predicted mean of the feet is close to the
    current target or the interval is longer than twice the step duration. *)
Theorem C43_plan : forall Rot start inc dur hor dt fthr pthr m0 (ins : list (state Rot * state Rot)) m c f m',
  initialize start inc dur hor dt fthr pthr = Some m0 -> 0 <= dur -> 0 <= hor ->
  (forall cf, In cf ins -> 0 <= stateTime (fst cf)) -> 0 <= stateTime c ->
  advances Rot m0 ins = Some m -> advance Rot m c f = Some m' ->
  desiredPosition (first m') = desiredPosition (first m) -> desiredPosition (second m') <> desiredPosition (second m) ->
  desiredPosition (second m') = add3 (desiredPosition (first m)) inc /\
  hor < initTime (activeRange (second m)) /\ endTime (activeRange (first m)) <= 6/10 * hor /\
  ((exists mean, is_mean mean (map pointPosition (leftContactPointsState f ++ rightContactPointsState f)) /\
      distance3 mean (desiredPosition (first m)) < pthr) \/
   2 * dur < endTime (activeRange (first m)) - initTime (activeRange (first m))).
Proof.
  intros Rot start inc dur hor dt fthr pthr m0 ins m c f m' H0 Hd Hh Ht Htc H Ha Hs Hne.
  destruct (initialize_inv _ _ _ _ _ _ _ _ H0 Hd Hh) as (I0 & P0 & T0 & _ & E1 & E2 & E3 & E4 & E5 & E6).
  destruct (reach Rot _ _ _ _ _ _ _ _ H0 Hd Hh ins m Ht H) as (I & (S1 & S2 & S3 & S4 & S5 & S6) & K).
  destruct (advance_transition Rot m c f m' I Htc Ha) as (x & Ex & _ & _ & T).
  assert (Q : forall e, e = distance3 (computeFeetCentroid Rot f) (desiredPosition (first m)) -> 
    desiredPosition (second m') = add3 (desiredPosition (first m)) (stepIncrement m) /\
      horizon m < initTime (activeRange (second m)) /\
      endTime (activeRange (first m)) <= 6/10 * horizon m /\
      (e < positionThreshold m \/ 2 * stepDuration m < endTime (activeRange (first m)) - initTime (activeRange (first m)))).
  { intros e ->. destruct T as [A B [C|C]|A B C D E F]; [congruence|exact C|].
    exfalso. destruct I as [? ? ? ? ? ? ? [(S & S')|(S & _ & S')]]; congruence. }
  destruct (Q _ eq_refl) as (A & B & C & D). rewrite S1, E1 in A. rewrite S3, E3 in B, C. rewrite S2, E2, S6, E6 in D.
  repeat (split; [assumption|]). destruct D as [D|D]; auto. left. eexists. split; [apply C47_centroid | exact D].
Qed.

(** With a non negative minimum dt some target is active now (time zero), and
    inside the horizon no target other than the current and the next is seen. *)
Theorem C43_target_seen : forall Rot start inc dur hor dt fthr pthr m0 (ins : list (state Rot * state Rot)) m dp,
  initialize start inc dur hor dt fthr pthr = Some m0 -> 0 <= dur -> 0 <= hor -> 0 <= dt ->
  (forall cf, In cf ins -> 0 <= stateTime (fst cf)) -> advances Rot m0 ins = Some m ->
  in_range (activeRange (first m)) 0 /\
  (forall t, t <= hor -> in_range (activeRange (first m)) t \/ in_range (activeRange (second m)) t ->
     fst (reference_get dp [first m; second m] t) = desiredPosition (first m) \/
     fst (reference_get dp [first m; second m] t) = add3 (desiredPosition (first m)) inc).
Proof.
  intros Rot start inc dur hor dt fthr pthr m0 ins m dp H0 Hd Hh Hdt Ht H.
  destruct (initialize_inv _ _ _ _ _ _ _ _ H0 Hd Hh) as (I0 & P0 & T0 & _ & E1 & E2 & E3 & E4 & E5 & E6).
  destruct (reach Rot _ _ _ _ _ _ _ _ H0 Hd Hh ins m Ht H) as (I & (S1 & S2 & S3 & S4 & S5 & S6) & K).
  destruct I as [? ? ? W1 W2 F E S]. split.
  - right. split; auto. apply E. rewrite S4, E4. auto.
  - intros t Hth Hin. destruct (C29_reference dp [first m; second m] t) as (A & B & [(e & C)|C]).
    + rewrite (A e C). cbn [fst]. destruct C as (i & Hi & Hr & _).
      destruct i as [|[|i]]; cbn in Hi; [injection Hi as <-; auto| |destruct i; discriminate].
      injection Hi as <-. destruct S as [(SA & SB)|(SA & SC & SB)]; [|auto]. right. rewrite <- E1, <- S1. exact SB.
    + exfalso. destruct Hin as [Hin|Hin]; eapply C; try exact Hin; cbn; auto.
Qed.

(** ** Progress *)
Fixpoint take {A} (n : nat) (s : nat -> A) : list A := match n with O => [] | S k => s O :: take k (fun i => s (S i)) end.

Lemma min_defined Rot d (c : state Rot) : has_feet c -> exists x, minimumPointForceOnForwardFoot Rot d c = Some x.
Proof.
  intros (HL & HR). unfold minimumPointForceOnForwardFoot, minForce.
  destruct (leftIsForward Rot d c); [destruct (leftContactPointsState c)|destruct (rightContactPointsState c)]; try congruence; eauto.
Qed.
(** The forces are sufficient: no point of the forward foot is below the threshold. *)
Definition bears {Rot} (d : V3) (thr : R) (c : state Rot) : Prop :=
  exists foot, forward_foot d c foot /\ forall p, In p foot -> thr <= norm3 (pointForce p).
Lemma bears_min Rot d thr (c : state Rot) x : has_feet c -> bears d thr c -> minimumPointForceOnForwardFoot Rot d c = Some x -> thr <= x.
Proof.
  intros (HL & HR) (foot & (ml & mr & Ml & Mr & A & B) & Hp) E. apply C47_minimum_force in E.
  pose proof (C47_left_is_forward Rot c d ml mr HL HR Ml Mr) as L.
  destruct E as ((g & Hg & ->) & _). apply in_map_iff in Hg as (p & <- & Hin). apply Hp.
  destruct (leftIsForward Rot d c) eqn:Ef.
  - rewrite A; [auto|]. apply L. auto.
  - rewrite B; [auto|]. apply Rnot_lt_le. intros C. apply L in C. discriminate.
Qed.

Section Progress.
Variable Rot : Type.
Variable delta : R. Hypothesis Hdelta : 0 < delta.
Variables inc : V3. Variables dur hor dt fthr pthr : R.
Definition params (m : machine) : Prop :=
  stepIncrement m = inc /\ stepDuration m = dur /\ horizon m = hor /\ minimumDt m = dt /\ m_forceThreshold m = fthr /\ positionThreshold m = pthr.
Definition good_input (cf : state Rot * state Rot) : Prop := has_feet (fst cf) /\ delta <= stateTime (fst cf) /\ bears inc fthr (fst cf).

Definition switched (m m' : machine) : Prop := desiredPosition (first m') = add3 (desiredPosition (first m)) inc.

Lemma call m cf : inv m -> params m -> good_input cf -> exists m', advance Rot m (fst cf) (snd cf) = Some m' /\ inv m' /\ params m' /\
  (switched m m' \/ (desiredPosition (first m') = desiredPosition (first m) /\
     initTime (activeRange (first m')) = initTime (activeRange (first m)) - stateTime (fst cf))).
Proof.
  intros I P (Hf & Ht & Hb). destruct (min_defined Rot (stepIncrement m) (fst cf) Hf) as (x & Ex).
  destruct (advance Rot m (fst cf) (snd cf)) as [m'|] eqn:Ea; [|unfold advance in Ea; rewrite Ex in Ea; discriminate].
  exists m'. split; auto. assert (Ht0 : 0 <= stateTime (fst cf)) by lra. destruct (advance_transition Rot m _ _ m' I Ht0 Ea) as (y & Ey & I' & S & T).
  split; auto. split; [unfold params, same_params in *; intuition congruence|].
  destruct T as [A B _|A B C D E F]; [right; auto|]. left. unfold switched. rewrite A. f_equal. apply P.
Qed.

Lemma planned_switch m m1 time x : 0 <= hor -> delta <= time -> fthr <= x ->
  initTime (activeRange (first m)) < dt - dur ->
  first m1 = first m -> initTime (activeRange (second m1)) <= horizon m1 -> desiredPosition (second m1) = add3 (desiredPosition (first m)) inc ->
  stepDuration m1 = dur -> minimumDt m1 = dt -> m_forceThreshold m1 = fthr -> switched m (proceed m1 time x).
Proof.
  intros Hh Ht Hx H1 F1 F2 F3 F4 F5 F6. unfold proceed, switched. rewrite F1, F4, F5, F6. unfold isLe at 1. destruct Rle_dec; [|lra].
  unfold isLt at 1 2. destruct (Rlt_dec x fthr); [lra|]. rewrite andb_false_r. unfold isLt. destruct Rlt_dec; [|lra].
  cbn. exact F3.
Qed.
(** Old enough: at most two more calls. *)
Lemma old_enough m cf : inv m -> params m -> good_input cf ->
  initTime (activeRange (first m)) < dt - dur -> initTime (activeRange (first m)) < 6/10 * hor - 2 * dur ->
  exists m', advance Rot m (fst cf) (snd cf) = Some m' /\
   (switched m m' \/ hor < initTime (activeRange (second m')) /\ endTime (activeRange (first m')) = 6/10 * hor).
Proof.
  intros I P G H1 H2. pose proof G as (Hf & Ht & Hb).
  destruct P as (P1 & P2 & P3 & P4 & P5 & P6).
  destruct (min_defined Rot (stepIncrement m) (fst cf) Hf) as (x & Ex).
  assert (Hx : fthr <= x) by (rewrite P1 in Ex; eapply bears_min; eauto).
  unfold advance. rewrite Ex. eexists. split; [reflexivity|].
  set (e := norm3 _). 
  destruct I as [Id Ih Idt [W1 W1'] [W2 W2'] IF IE IS].
  destruct (insertNow m e) eqn:En.
  - left. apply planned_switch; cbn; auto; try lra.
    + rewrite setTime_ok by lra. cbn. lra.
    + rewrite P1. reflexivity.
  - destruct IS as [(SA & SB)|(SA & SC & SB)].
    + left. apply planned_switch; auto; try lra. rewrite SB, P1. auto.
    + right. unfold proceed. unfold isLe. destruct Rle_dec; [lra|]. cbn. rewrite setTime_ok.
      * cbn. split; [lra|]. rewrite Rmax_right; lra.
      * pose proof (Rmax_l (initTime (activeRange (first m)) - stateTime (fst cf) + stepDuration m) (6/10 * horizon m)). lra.
Qed.
Lemma ready m cf : inv m -> params m -> good_input cf ->
  initTime (activeRange (first m)) < dt - dur -> initTime (activeRange (first m)) < 6/10 * hor - 2 * dur ->
  hor < initTime (activeRange (second m)) -> endTime (activeRange (first m)) = 6/10 * hor ->
  exists m', advance Rot m (fst cf) (snd cf) = Some m' /\ switched m m'.
Proof.
  intros I P G H1 H2 H3 H4. destruct (old_enough m cf I P G H1 H2) as (m' & E & [S|(A & B)]); [eauto|].
  clear E A B m'. pose proof G as (Hf & Ht & Hb).
  destruct (min_defined Rot (stepIncrement m) (fst cf) Hf) as (x & Ex).
  destruct P as (P1 & P2 & P3 & P4 & P5 & P6). destruct I as [Id Ih Idt [W1 W1'] [W2 W2'] IF IE IS].
  assert (Hx : fthr <= x) by (rewrite P1 in Ex; eapply bears_min; eauto).
  assert (En : forall z, insertNow m z = true).
  { intros z. unfold insertNow, isLt, isLe. rewrite P2, P3. destruct (Rlt_dec hor _); [|lra]. destruct (Rle_dec _ (6/10*hor)); [|lra].
    destruct (Rlt_dec (2*dur) _); [|lra]. cbn. apply orb_true_r. }
  unfold advance. rewrite Ex, En. eexists. split; [reflexivity|]. apply planned_switch; cbn; auto; try lra.
  - rewrite setTime_ok by lra. cbn. lra.
  - rewrite P1. reflexivity.
Qed.

Lemma progress_from : forall n m (ins : nat -> state Rot * state Rot), inv m -> params m -> (forall i, good_input (ins i)) ->
  initTime (activeRange (first m)) - Rmin (dt - dur) (6/10 * hor - 2 * dur) < INR n * delta ->
  exists N m', (N <= n + 2)%nat /\ advances Rot m (take N ins) = Some m' /\ switched m m'.
Proof.
  assert (two : forall m (ins : nat -> state Rot * state Rot), inv m -> params m -> (forall i, good_input (ins i)) ->
    initTime (activeRange (first m)) < dt - dur -> initTime (activeRange (first m)) < 6/10 * hor - 2 * dur ->
    exists N m', (N <= 2)%nat /\ advances Rot m (take N ins) = Some m' /\ switched m m').
  { intros m ins I P G H1 H2. destruct (call m (ins O) I P (G O)) as (m1 & E1 & I1 & P1 & [S|(D1 & D2)]).
    - exists 1%nat, m1. split; [lia|]. split; auto. cbn. destruct (ins O). cbn in *. rewrite E1. reflexivity.
    - destruct (old_enough m (ins O) I P (G O) H1 H2) as (m1' & E1' & [S|(A & B)]); rewrite E1 in E1'; injection E1' as <-.
      + exists 1%nat, m1. split; [lia|]. split; auto. cbn. destruct (ins O). cbn in *. rewrite E1. reflexivity.
      + destruct (G O) as (_ & Gt & _).
        destruct (ready m1 (ins 1%nat) I1 P1 (G 1%nat)) as (m2 & E2 & S2); auto; try lra.
        exists 2%nat, m2. split; [lia|]. split; [|unfold switched in *; congruence].
        cbn. destruct (ins O), (ins 1%nat). cbn in *. rewrite E1, E2. reflexivity. }
  induction n as [|n IH]; intros m ins I P G Hn.
  - pose proof (Rmin_l (dt - dur) (6/10*hor - 2*dur)). pose proof (Rmin_r (dt - dur) (6/10*hor - 2*dur)). cbn [INR] in Hn.
    destruct (two m ins I P G) as (N & m' & A & B & C); try lra. exists N, m'. split; [lia|]. auto.
  - destruct (call m (ins O) I P (G O)) as (m1 & E1 & I1 & P1 & [S|(D1 & D2)]).
    + exists 1%nat, m1. split; [lia|]. split; auto. cbn. destruct (ins O). cbn in *. rewrite E1. reflexivity.
    + destruct (G O) as (_ & Gt & _). rewrite S_INR in Hn.
      destruct (IH m1 (fun i => ins (S i)) I1 P1 (fun i => G (S i))) as (N & m' & A & B & C); [lra|].
      exists (S N), m'. split; [lia|]. split; [|unfold switched in *; congruence].
      cbn [take advances]. destruct (ins O). cbn in *. rewrite E1. exact B.
Qed.
End Progress.

(** The walk goes on: if from some point on every call brings a bounded amount of
    new time and a loaded forward foot, the next step is reached after finitely
    many calls, whatever the position errors. *)
Theorem C43_progress : forall Rot start inc dur hor dt fthr pthr m0 (past : list (state Rot * state Rot)) m delta
    (future : nat -> state Rot * state Rot),
  initialize start inc dur hor dt fthr pthr = Some m0 -> 0 <= dur -> 0 <= hor ->
  (forall cf, In cf past -> 0 <= stateTime (fst cf)) -> advances Rot m0 past = Some m ->
  0 < delta -> (forall i, has_feet (fst (future i)) /\ delta <= stateTime (fst (future i)) /\ bears inc fthr (fst (future i))) ->
  exists N m', advances Rot m (take N future) = Some m' /\ desiredPosition (first m') = add3 (desiredPosition (first m)) inc.
Proof.
  intros Rot start inc dur hor dt fthr pthr m0 past m delta future H0 Hd Hh Ht H Hdel Hf.
  destruct (initialize_inv _ _ _ _ _ _ _ _ H0 Hd Hh) as (I0 & P0 & T0 & _ & E1 & E2 & E3 & E4 & E5 & E6).
  destruct (reach Rot _ _ _ _ _ _ _ _ H0 Hd Hh past m Ht H) as (I & (S1 & S2 & S3 & S4 & S5 & S6) & K).
  set (q := (initTime (activeRange (first m)) - Rmin (dt - dur) (6/10 * hor - 2 * dur)) / delta).
  assert (exists n, q < INR n) as (n & Hn).
  { exists (Z.to_nat (up q)). destruct (archimed q) as (A & _). rewrite INR_IZR_INZ.
    destruct (Z_le_gt_dec 0 (up q)) as [C|C]; [rewrite Z2Nat.id by auto; lra|].
    apply Rlt_le_trans with (IZR (up q)); [lra|]. apply IZR_le. lia. }
  destruct (progress_from Rot delta Hdel inc dur hor dt fthr pthr n m future I) as (N & m' & _ & A & B); auto.
  - unfold params. rewrite S1, S2, S3, S4, S5, S6. repeat split; auto.
  - apply Rmult_lt_reg_r with (/ delta); [apply Rinv_0_lt_compat; auto|].
    rewrite Rmult_assoc, Rinv_r, Rmult_1_r by lra. exact Hn.
  - exists N, m'. auto.
Qed.

(** Acceptance, refusal, and calls before initialisation. *)
Theorem C43_initialize : forall start inc dur hor dt fthr pthr,
  (initialize start inc dur hor dt fthr pthr <> None <-> 0 <= fthr /\ dt <= hor /\ dt <= dur).
Proof.
  intros. unfold initialize. destruct (Rlt_dec fthr 0), (Rlt_dec hor dt), (Rlt_dec dur dt); split; intros H; try congruence; try lra; repeat split; lra.
Qed.
Theorem C43_not_initialized : forall Rot c f, do_call Rot None (Advance Rot c f) = Returned false None.
Proof. reflexivity. Qed.
Theorem C43_refusal_keeps : forall Rot o start inc dur hor dt fthr pthr,
  ~ (0 <= fthr /\ dt <= hor /\ dt <= dur) ->
  do_call Rot o (Initialize Rot start inc dur hor dt fthr pthr) = Returned false o.
Proof.
  intros. cbn. destruct (initialize _ _ _ _ _ _ _) eqn:E; auto. exfalso. apply H. eapply C43_initialize. rewrite E. discriminate.
Qed.
(** Undefined exactly when the forward foot has no point. *)
Theorem C43_defined : forall Rot m (c f : state Rot), has_feet c -> exists m', advance Rot m c f = Some m'.
Proof. intros Rot m c f H. unfold advance. destruct (min_defined Rot (stepIncrement m) c H) as (x & ->). eauto. Qed.

(** Refuted: a negative step duration is accepted, and the intervals are not well formed. *)
Theorem C43_negative_duration_refuted : exists start inc dur hor dt fthr pthr m,
  initialize start inc dur hor dt fthr pthr = Some m /\ ~ well_formed (activeRange (first m)).
Proof.
  exists zero3, (1,0,0), (-1), 1, (-2), 0, 0. eexists. unfold initialize.
  destruct (Rlt_dec 0 0); [lra|]. destruct (Rlt_dec 1 (-2)); [lra|]. destruct (Rlt_dec (-1) (-2)); [lra|].
  split; [reflexivity|]. cbn. unfold setTimeInterval. destruct (Rlt_dec (-1) 0); [|lra]. unfold well_formed. cbn. lra.
Qed.

Example C43_example : exists m, initialize zero3 (1/10,0,0) (1/2) 2 (1/10) 40 (5/1000) = Some m /\
  has_feet (mkState (Rot := unit) [mkPointState (0,0,50) (1,0,0)] [mkPointState (0,0,50) zero3] (zero3,zero3) zero3 zero3 tt [] (1/10)) /\
  bears (1/10,0,0) 40 (mkState (Rot := unit) [mkPointState (0,0,50) (1,0,0)] [mkPointState (0,0,50) zero3] (zero3,zero3) zero3 zero3 tt [] (1/10)).
Proof.
  eexists. split; [|split; [split; discriminate|]].
  - unfold initialize. destruct (Rlt_dec 40 0); [lra|]. destruct (Rlt_dec 2 (1/10)); [lra|]. destruct (Rlt_dec (1/2) (1/10)); [lra|]. reflexivity.
  - exists [mkPointState (0,0,50) (1,0,0)]. split.
    + exists (1,0,0), zero3. unfold is_mean, zero3. cbn. repeat split; try (repeat (f_equal; try ring)). intros. lra.
    + intros p [<-|[]]. cbn. unfold norm3. cbn. replace (0*0+0*0+50*50) with (50*50) by ring. rewrite sqrt_square; lra.
Qed.
Print Assumptions C43_invariant.
Print Assumptions C43_switch.
Print Assumptions C43_plan.
Print Assumptions C43_target_seen.
Print Assumptions C43_progress.
Print Assumptions C43_initialize.
Print Assumptions C43_not_initialized.
Print Assumptions C43_refusal_keeps.
Print Assumptions C43_defined.
Print Assumptions C43_negative_duration_refuted.
