(** C39: the kinematic cache. *)
From Coq Require Import Reals String List Arith Bool Lra Lia.
From Verif Require Import SpecKinDyn KinDynCache.
Import ListNotations.
Local Open Scope R_scope.

Lemma VectorsAreEqual_close : forall t a b, VectorsAreEqual t a b = true <-> close_list t a b.
Proof.
  intros t; induction a as [|x a IH]; intros [|y b]; cbn [VectorsAreEqual]; unfold close_list in *; split; intros H; try discriminate;
    try constructor; try (inversion H; fail).
  - apply andb_true_iff in H as [H _]. destruct (Rlt_dec (Rabs (x - y)) t); [assumption | discriminate].
  - apply IH. now apply andb_true_iff in H as [_ H].
  - inversion H; subst. apply andb_true_iff; split; [destruct (Rlt_dec (Rabs (x - y)) t); [reflexivity | contradiction] | now apply IH].
Qed.

Section C39.
Variables (Model Query Answer : Type).
Variable stateAccepted : Model -> robot_state -> bool.
Variable baseAccepted : Model -> string -> bool.
Variable modelAccepted : Model -> bool.
Variable answer : Model -> string -> robot_state -> list R -> Query -> Answer.
Variable answerDefault : Model -> string -> Query -> Answer.
Variable dofs : Model -> nat.
Variable defaultBase : Model -> string.
Notation D := (data Model).
Notation Exec := (exec Model Query Answer stateAccepted baseAccepted modelAccepted answer answerDefault dofs defaultBase).
Notation Step := (step Model Query Answer stateAccepted baseAccepted modelAccepted answer answerDefault dofs defaultBase).
Notation Ask_ := (query Model Query Answer stateAccepted answer answerDefault).
Notation New := (newData Model dofs defaultBase).
Notation Op := (op Model Query).
Notation kmod := (kmodel Model). Notation kb := (kbase Model). Notation kinp := (kin Model). Notation cs := (cstate Model).
Notation grav := (gravity Model). Notation upd := (updateNecessary Model). Notation tl := (tol Model). Notation bto := (baseTransformOf Model).

Lemma same_close : forall (d : D) s, sameState Model d s = true <-> upd d = false /\ close (tl d) s (cs d).
Proof.
  intros d s; unfold sameState, close. rewrite !andb_true_iff, !VectorsAreEqual_close, negb_true_iff. tauto.
Qed.

Definition no_load (o : Op) : Prop := match o with Load _ _ _ => False | _ => True end.
Definition no_gravity (o : Op) : Prop := match o with Gravity _ _ _ => False | _ => True end.

(** When no update is pending the library holds the cached state. *)
Definition inv (d : D) : Prop := upd d = false -> exists g, kinp d = Some (cs d, g).
Definition ginv (d : D) : Prop := upd d = false -> kinp d = Some (cs d, grav d).

Lemma update_cases : forall d s d' ok, updateRobotState Model stateAccepted d s = (d', ok) ->
  (sameState Model d s = true /\ d' = d /\ ok = true) \/
  (sameState Model d s = false /\ stateAccepted (kmod d) s = true /\ ok = true /\
     d' = mkData Model (kmod d) (kb d) (Some (s, grav d)) s (grav d) false (tl d) (Some s)) \/
  (sameState Model d s = false /\ stateAccepted (kmod d) s = false /\ ok = false /\
     d' = mkData Model (kmod d) (kb d) (kinp d) (cs d) (grav d) (upd d) (tl d) (Some s)).
Proof.
  intros d s d' ok H; unfold updateRobotState in H. destruct (sameState Model d s) eqn:E.
  - left; inversion H; auto.
  - right. destruct (stateAccepted (kmod d) s) eqn:A; inversion H; [left | right]; auto.
Qed.
Lemma inv_update : forall d s, inv d -> inv (fst (updateRobotState Model stateAccepted d s)).
Proof.
  intros d s I. destruct (updateRobotState Model stateAccepted d s) as [d' ok] eqn:E.
  destruct (update_cases _ _ _ _ E) as [(_ & -> & _) | [(_ & _ & _ & ->) | (_ & _ & _ & ->)]]; cbn [fst]; [exact I| |exact I].
  intros _; cbn [kin cstate]; eexists; reflexivity.
Qed.
Lemma ginv_update : forall d s, ginv d -> ginv (fst (updateRobotState Model stateAccepted d s)).
Proof.
  intros d s I. destruct (updateRobotState Model stateAccepted d s) as [d' ok] eqn:E.
  destruct (update_cases _ _ _ _ E) as [(_ & -> & _) | [(_ & _ & _ & ->) | (_ & _ & _ & ->)]]; cbn [fst]; [exact I| |exact I].
  intros _; reflexivity.
Qed.
Lemma query_fst : forall d s q, fst (Ask_ d s q) = fst (updateRobotState Model stateAccepted d s).
Proof. intros; unfold query; destruct (updateRobotState Model stateAccepted d s); reflexivity. Qed.
Lemma base_fst : forall d s, fst (getBaseTransform Model stateAccepted d s) = fst (updateRobotState Model stateAccepted d s).
Proof. intros; unfold getBaseTransform; destruct (updateRobotState Model stateAccepted d s); reflexivity. Qed.
Lemma inv_step : forall d o, no_load o -> inv d -> inv (Step d o).
Proof.
  intros d o N I; destruct o; cbn [step]; try contradiction.
  - rewrite query_fst; now apply inv_update.
  - rewrite base_fst; now apply inv_update.
  - now apply inv_update.
  - intros H; cbn [setGravity updateNecessary kin cstate] in *. destruct (VectorsAreEqual (tl d) g (grav d)); [now apply I | discriminate].
  - unfold setToleranceForUpdate. destruct (Rlt_dec t 0); cbn [fst]; exact I.
  - unfold setFloatingBase. destruct (baseAccepted (kmod d) b); cbn [fst]; intros H; discriminate.
Qed.
Lemma ginv_step : forall d o, no_load o -> no_gravity o -> ginv d -> ginv (Step d o).
Proof.
  intros d o N NG I; destruct o; cbn [step]; try contradiction.
  - rewrite query_fst; now apply ginv_update.
  - rewrite base_fst; now apply ginv_update.
  - now apply ginv_update.
  - unfold setToleranceForUpdate. destruct (Rlt_dec t 0); cbn [fst]; exact I.
  - unfold setFloatingBase. destruct (baseAccepted (kmod d) b); cbn [fst]; intros H; discriminate.
Qed.
Lemma exec_inv : forall (P : D -> Prop) (Q : Op -> Prop), (forall d o, Q o -> P d -> P (Step d o)) ->
  forall l d, Forall Q l -> P d -> P (Exec d l).
Proof.
  intros P Q H l; induction l as [|o l IH]; intros d F I; [exact I|]. inversion F; subst.
  unfold exec; cbn [fold_left]. apply IH; [assumption | now apply H].
Qed.

(** Whatever the history of queries, updates, gravity, tolerance and base changes on a loaded
    model, a successful query at [s] is answered by the library for the current model and base
    at a state standing for [s] within the tolerance in force, with some gravity that was set. *)
Theorem C39_never_stale : forall m l s q a, Forall no_load l ->
  snd (Ask_ (Exec (New m) l) s q) = Some a ->
  exists s' g, stands_for (tl (Exec (New m) l)) s s' /\
    a = answer (kmod (Exec (New m) l)) (kb (Exec (New m) l)) s' g q.
Proof.
  intros m l s q a F H. set (d := Exec (New m) l) in *.
  assert (I : inv d) by (apply (exec_inv inv no_load); [intros; now apply inv_step | exact F | intros X; discriminate]).
  unfold query in H. destruct (updateRobotState Model stateAccepted d s) as [d' ok] eqn:E.
  destruct (update_cases _ _ _ _ E) as [(S & -> & ->) | [(S & A & -> & ->) | (S & A & -> & ->)]]; cbn [snd] in H; inversion H; subst a; clear H.
  - apply same_close in S as [U C]. destruct (I U) as [g K]. exists (cs d), g. split; [right; exact C|]. unfold ask; rewrite K; reflexivity.
  - exists s, (grav d). split; [left; reflexivity|]. reflexivity.
Qed.
(** With no gravity change after loading, the gravity is the one in force. *)
Theorem C39_never_stale_gravity : forall m l s q a, Forall no_load l -> Forall no_gravity l ->
  snd (Ask_ (Exec (New m) l) s q) = Some a ->
  exists s', stands_for (tl (Exec (New m) l)) s s' /\
    a = answer (kmod (Exec (New m) l)) (kb (Exec (New m) l)) s' (grav (Exec (New m) l)) q.
Proof.
  intros m l s q a F FG H. set (d := Exec (New m) l) in *.
  assert (I : ginv d).
  { apply (exec_inv ginv (fun o => no_load o /\ no_gravity o)).
    - intros d0 o [A B]; now apply ginv_step.
    - clear - F FG; induction F; inversion FG; subst; constructor; auto.
    - intros X; discriminate. }
  unfold query in H. destruct (updateRobotState Model stateAccepted d s) as [d' ok] eqn:E.
  destruct (update_cases _ _ _ _ E) as [(S & -> & ->) | [(S & A & -> & ->) | (S & A & -> & ->)]]; cbn [snd] in H; inversion H; subst a; clear H.
  - apply same_close in S as [U C]. specialize (I U). exists (cs d). split; [right; exact C|]. unfold ask; rewrite I; reflexivity.
  - exists s. split; [left; reflexivity|]. reflexivity.
Qed.
(** With tolerance zero the answer is the one of the requested state itself. *)
Theorem C39_zero_tolerance_exact : forall m l s q a, Forall no_load l -> tl (Exec (New m) l) = 0 ->
  s <> mkRobotState [] [] [] [] [] [] ->
  snd (Ask_ (Exec (New m) l) s q) = Some a ->
  a = answer (kmod (Exec (New m) l)) (kb (Exec (New m) l)) s (grav (Exec (New m) l)) q.
Proof.
  intros m l s q a F T NE H. set (d := Exec (New m) l) in *.
  unfold query in H. destruct (updateRobotState Model stateAccepted d s) as [d' ok] eqn:E.
  destruct (update_cases _ _ _ _ E) as [(S & -> & ->) | [(S & A & -> & ->) | (S & A & -> & ->)]]; cbn [snd] in H; inversion H; subst a; clear H; [|reflexivity].
  exfalso. apply same_close in S as [U C]. rewrite T in C. destruct C as (C1 & C2 & C3 & C4 & C5 & C6).
  assert (Z : forall a b, close_list 0 a b -> a = []).
  { intros a b X; inversion X as [|x y ? ? XY]; [reflexivity|]. pose proof (Rabs_pos (x - y)); lra. }
  apply NE. destruct s as [s1 s2 s3 s4 s5 s6]; cbn [base_position base_quaternion joints_s base_linearVelocity base_quaternionVelocity joints_dot] in *.
  rewrite (Z _ _ C1), (Z _ _ C2), (Z _ _ C3), (Z _ _ C4), (Z _ _ C5), (Z _ _ C6). reflexivity.
Qed.
(** A query fails exactly when the library refuses the state and it is not close to the cached one;
    a failed query leaves every later query unaffected. *)
Theorem C39_failed_query_harmless : forall d s q s2 q2, snd (Ask_ d s q) = None ->
  stateAccepted (kmod d) s = false /\ snd (Ask_ (fst (Ask_ d s q)) s2 q2) = snd (Ask_ d s2 q2).
Proof.
  intros d s q s2 q2 H. rewrite query_fst. unfold query in *.
  destruct (updateRobotState Model stateAccepted d s) as [d' ok] eqn:E.
  destruct (update_cases _ _ _ _ E) as [(S & -> & ->) | [(S & A & -> & ->) | (S & A & -> & ->)]]; cbn [snd] in H; try discriminate.
  split; [exact A|]. cbn [fst]. unfold updateRobotState, sameState; cbn [kmodel kbase kin cstate gravity updateNecessary tol baseTransformOf].
  match goal with |- context[if ?b then _ else _] => destruct b end; [reflexivity|].
  destruct (stateAccepted (kmod d) s2); reflexivity.
Qed.
(** The base transform: if the library refuses no state of the history, it is the one of a state
    standing for the requested one. *)
Definition accepted_op (m : Model) (o : Op) : Prop :=
  match o with Ask _ _ s _ | Base _ _ s | Update _ _ s => stateAccepted m s = true | _ => True end.
Theorem C39_base_transform : forall m l s, Forall no_load l -> Forall (accepted_op m) l -> stateAccepted m s = true ->
  exists s', snd (getBaseTransform Model stateAccepted (Exec (New m) l) s) = Some s' /\ stands_for (tl (Exec (New m) l)) s s'.
Proof.
  intros m l s F A AS. set (d := Exec (New m) l) in *.
  assert (I : kmod d = m /\ (upd d = false -> bto d = Some (cs d))).
  { apply (exec_inv (fun d => kmod d = m /\ (upd d = false -> bto d = Some (cs d))) (fun o => no_load o /\ accepted_op m o)).
    - intros d0 o [N AO] [M0 U0].
      assert (G : forall s0, stateAccepted m s0 = true ->
        let d1 := fst (updateRobotState Model stateAccepted d0 s0) in kmod d1 = m /\ (upd d1 = false -> bto d1 = Some (cs d1))).
      { intros s0 A0. cbv zeta. destruct (updateRobotState Model stateAccepted d0 s0) as [d' ok] eqn:E.
        destruct (update_cases _ _ _ _ E) as [(S & -> & ->) | [(S & X & -> & ->) | (S & X & -> & ->)]]; cbn [fst].
        - split; assumption.
        - split; [assumption | reflexivity].
        - rewrite M0, A0 in X; discriminate. }
      destruct o; cbn [step accepted_op no_load] in *; try contradiction.
      + rewrite query_fst; now apply G.
      + rewrite base_fst; now apply G.
      + now apply G.
      + split; [exact M0|]. cbn [setGravity updateNecessary baseTransformOf cstate]. intros H; destruct (VectorsAreEqual (tl d0) g (grav d0)); [now apply U0 | discriminate].
      + unfold setToleranceForUpdate. destruct (Rlt_dec t 0); cbn [fst]; split; assumption.
      + unfold setFloatingBase. destruct (baseAccepted (kmod d0) b); cbn [fst]; (split; [exact M0 | intros H; discriminate]).
    - clear - F A; induction F; inversion A; subst; constructor; auto.
    - split; [reflexivity | intros X; discriminate]. }
  destruct I as [M U]. unfold getBaseTransform. destruct (updateRobotState Model stateAccepted d s) as [d' ok] eqn:E.
  destruct (update_cases _ _ _ _ E) as [(S & -> & ->) | [(S & X & -> & ->) | (S & X & -> & ->)]]; cbn [snd baseTransformOf].
  - apply same_close in S as [UU C]. exists (cs d). split; [now apply U | right; exact C].
  - exists s; split; [reflexivity | left; reflexivity].
  - rewrite M, AS in X; discriminate.
Qed.
(** A rejected (negative) tolerance changes nothing, an accepted one is the one in force. *)
Theorem C39_tolerance : forall d t, (t < 0 -> setToleranceForUpdate Model d t = (d, false)) /\
  (0 <= t -> snd (setToleranceForUpdate Model d t) = true /\ tl (fst (setToleranceForUpdate Model d t)) = t).
Proof.
  intros d t; unfold setToleranceForUpdate; destruct (Rlt_dec t 0); split; intros; try lra; try reflexivity. split; reflexivity.
Qed.
End C39.

(** Findings, with a library that answers with what it was given. *)
Definition A := option (robot_state * list R).
Definition ans (m : nat) (b : string) (s : robot_state) (g : list R) (q : unit) : A := Some (s, g).
Definition ansD (m : nat) (b : string) (q : unit) : A := None.
Definition okState (m : nat) (s : robot_state) : bool := Nat.eqb (length (joints_s s)) m.
Notation X := (exec nat unit A okState (fun _ _ => true) (fun _ => true) ans ansD (fun m => m) (fun _ => "base"%string)).
Notation Qy := (query nat unit A okState ans ansD).
Notation N := (newData nat (fun m => m) (fun _ => "base"%string)).
Definition s0 (x : R) (j : list R) := mkRobotState [x; 0; 0] [1; 0; 0; 0] j [0;0;0] [0;0;0;0] j.
Lemma veq_refl : forall t l, 0 < t -> VectorsAreEqual t l l = true.
Proof. intros t l T; apply VectorsAreEqual_close; unfold close_list; induction l; constructor; [rewrite Rminus_diag_eq, Rabs_R0; auto | assumption]. Qed.

Notation St := (step nat unit A okState (fun _ _ => true) (fun _ => true) ans ansD (fun m => m) (fun _ => "base"%string)).
Lemma ask_pending : forall m b k c g t w s, okState m s = true ->
  St (mkData nat m b k c g true t w) (Ask nat unit s tt) = mkData nat m b (Some (s, g)) s g false t (Some s).
Proof.
  intros m b k c g t w s H; cbn [step]; unfold query, updateRobotState, sameState; cbn [updateNecessary negb andb kmodel].
  rewrite H; reflexivity.
Qed.
Lemma ask_cached : forall m b k c g t w s, sameState nat (mkData nat m b k c g false t w) s = true ->
  snd (Qy (mkData nat m b k c g false t w) s tt) = Some (match k with Some (s, g) => Some (s, g) | None => None end).
Proof. intros m b k c g t w s H; unfold query, updateRobotState; rewrite H; unfold ask; cbn [kin snd]; destruct k as [[? ?]|]; reflexivity. Qed.
Ltac closeness := repeat match goal with |- context[Rlt_dec ?a ?b] => destruct (Rlt_dec a b) as [|Hn]; [|exfalso; apply Hn; unfold Rabs; destruct (Rcase_abs _); lra] end.
Lemma tiny : 0 < 1 / 10 ^ 10. Proof. apply Rdiv_lt_0_compat; [lra | apply pow_lt; lra]. Qed.
Lemma same_refl : forall m b k c g t w, 0 < t -> sameState nat (mkData nat m b k c g false t w) c = true.
Proof. intros; unfold sameState; cbn [updateNecessary negb tol cstate]; rewrite !veq_refl by assumption; reflexivity. Qed.

(** Reloading a model does not force an update: a query at the cached base with zero joints is
    answered without ever giving the new library that state. *)
Theorem C39_reload_stale_refuted :
  snd (Qy (X (N 1%nat) [Ask nat unit (s0 5 [0]) tt; Load nat unit 1%nat]) (s0 5 [0]) tt) = Some None.
Proof.
  unfold exec; cbn [fold_left]. unfold newData. rewrite ask_pending by reflexivity.
  cbn [step loadRobotModel fst cstate s0 base_position base_quaternion base_linearVelocity base_quaternionVelocity gravity updateNecessary tol baseTransformOf repeat].
  apply ask_cached, same_refl, tiny.
Qed.
(** Gravity can drift: changes below the tolerance never reach the library. *)
Theorem C39_gravity_drift_refuted :
  snd (Qy (X (N 0%nat) [Tol nat unit 1; Gravity nat unit [0;0;0]; Ask nat unit (s0 5 []) tt; Gravity nat unit [0;0;9/10]; Gravity nat unit [0;0;18/10]]) (s0 5 []) tt)
  = Some (Some (s0 5 [], [0;0;0])).
Proof.
  unfold exec; cbn [fold_left]. unfold newData.
  match goal with |- context[St ?d (Tol nat unit 1)] => set (d0 := d) end.
  assert (E1 : St d0 (Tol nat unit 1) = mkData nat (kmodel nat d0) (kbase nat d0) None (cstate nat d0) (gravity nat d0) true 1 None).
  { cbn [step]; unfold setToleranceForUpdate; destruct (Rlt_dec 1 0); [lra | reflexivity]. }
  rewrite E1; clear E1.
  match goal with |- context[St ?d (Gravity nat unit [0;0;0])] => assert (E2 : St d (Gravity nat unit [0;0;0]) = mkData nat (kmodel nat d0) (kbase nat d0) None (cstate nat d0) [0;0;0] true 1 None) end.
  { cbn [step]; unfold setGravity; cbn [tol updateNecessary kmodel kbase kin cstate baseTransformOf]. destruct (VectorsAreEqual _ _ _); reflexivity. }
  rewrite E2; clear E2. rewrite ask_pending by reflexivity.
  match goal with |- context[St ?d (Gravity nat unit [0;0;9/10])] => assert (E3 : St d (Gravity nat unit [0;0;9/10]) = mkData nat (kmodel nat d0) (kbase nat d0) (Some (s0 5 [], [0;0;0])) (s0 5 []) [0;0;9/10] false 1 (Some (s0 5 []))) end.
  { cbn [step]; unfold setGravity; cbn [tol updateNecessary kmodel kbase kin cstate baseTransformOf gravity VectorsAreEqual]. closeness. reflexivity. }
  rewrite E3; clear E3.
  match goal with |- context[St ?d (Gravity nat unit [0;0;18/10])] => assert (E3 : St d (Gravity nat unit [0;0;18/10]) = mkData nat (kmodel nat d0) (kbase nat d0) (Some (s0 5 [], [0;0;0])) (s0 5 []) [0;0;18/10] false 1 (Some (s0 5 []))) end.
  { cbn [step]; unfold setGravity; cbn [tol updateNecessary kmodel kbase kin cstate baseTransformOf gravity VectorsAreEqual]. closeness. reflexivity. }
  rewrite E3; clear E3. rewrite ask_cached by (apply same_refl; lra). reflexivity.
Qed.
(** A refused state (wrong number of joints) leaves its base transform behind: the transform
    returned for the state that was cached before is then that of the refused one. *)
Theorem C39_base_transform_after_refused_state_refuted :
  snd (getBaseTransform nat okState (X (N 0%nat) [Ask nat unit (s0 5 []) tt; Ask nat unit (s0 7 [1]) tt]) (s0 5 [])) = Some (s0 7 [1]).
Proof.
  unfold exec; cbn [fold_left]. unfold newData. rewrite ask_pending by reflexivity.
  match goal with |- context[St ?d (Ask nat unit (s0 7 [1]) tt)] => set (d1 := d) end.
  assert (E : sameState nat d1 (s0 7 [1]) = false).
  { destruct (sameState nat d1 (s0 7 [1])) eqn:S; [|reflexivity]. apply same_close in S as [_ (_ & _ & C & _)]. inversion C. }
  cbn [step]; unfold query at 1, updateRobotState at 1. rewrite E. cbn [okState kmodel d1 s0 joints_s length Nat.eqb fst kbase kin cstate gravity updateNecessary tol].
  unfold getBaseTransform, updateRobotState.
  match goal with |- context[sameState nat ?d ?c] => replace (sameState nat d c) with true by (symmetry; apply same_refl, tiny) end. reflexivity.
Qed.
(** A history that meets the hypotheses of the theorems, with an answer from the cache. *)
Example C39_nonvacuous : Forall (no_load nat unit) [Tol nat unit 1; Ask nat unit (s0 5 []) tt] /\
  snd (Qy (X (N 0%nat) [Tol nat unit 1; Ask nat unit (s0 5 []) tt]) (s0 (11/2) []) tt) = Some (Some (s0 5 [], [0; 0; -981/100])).
Proof.
  split; [repeat constructor|]. unfold exec; cbn [fold_left]. unfold newData.
  match goal with |- context[St ?d (Tol nat unit 1)] => set (d0 := d) end.
  assert (E1 : St d0 (Tol nat unit 1) = mkData nat (kmodel nat d0) (kbase nat d0) None (cstate nat d0) (gravity nat d0) true 1 None).
  { cbn [step]; unfold setToleranceForUpdate; destruct (Rlt_dec 1 0); [lra | reflexivity]. }
  rewrite E1. rewrite ask_pending by reflexivity. rewrite ask_cached; [reflexivity|].
  unfold sameState; cbn [updateNecessary negb tol cstate s0 base_position base_quaternion joints_s base_linearVelocity base_quaternionVelocity joints_dot VectorsAreEqual].
  closeness. reflexivity.
Qed.

Print Assumptions C39_never_stale.
Print Assumptions C39_zero_tolerance_exact.
Print Assumptions C39_base_transform.
Print Assumptions C39_reload_stale_refuted.
