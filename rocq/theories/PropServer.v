(** C52, C53: the expressions server. *)
From Coq Require Import Reals String List Arith Bool Lra Lia.
From Verif Require Import SpecKinDyn KinDynCache ServerModel PropKinDyn.
Import ListNotations.
Local Open Scope R_scope.

Lemma close_list_trans2 : forall t a b c, close_list t a b -> close_list t b c -> close_list (2 * t) a c.
Proof.
  intros t a b c H; revert c; induction H as [|x y a b XY H IH]; intros c G; inversion G as [|y' z b' c' YZ G']; subst; constructor.
  - replace (x - z) with ((x - y) + (y - z)) by ring. pose proof (Rabs_triang (x - y) (y - z)); lra.
  - now apply IH.
Qed.
Lemma close_list_sym : forall t a b, close_list t a b -> close_list t b a.
Proof. intros t a b H; induction H; constructor; [rewrite Rabs_minus_sym; assumption | assumption]. Qed.
Lemma close_sym : forall t a b, close t a b -> close t b a.
Proof. unfold close; intuition; now apply close_list_sym. Qed.
Lemma close_trans2 : forall t a b c, close t a b -> close t b c -> close (2 * t) a c.
Proof. unfold close; intros t a b c (A1&A2&A3&A4&A5&A6) (B1&B2&B3&B4&B5&B6); repeat split; eapply close_list_trans2; eassumption. Qed.
Lemma close_list_le : forall t u a b, t <= u -> close_list t a b -> close_list u a b.
Proof. intros t u a b H C; induction C; constructor; [lra | assumption]. Qed.
Lemma close_le : forall t u a b, t <= u -> close t a b -> close u a b.
Proof. unfold close; intros t u a b H C; intuition; eapply close_list_le; eassumption. Qed.

Section C52.
Variable Model : Type.
Variable stateAccepted : Model -> robot_state -> bool.
Variable pick : R -> nat.
Notation W := (world Model).
Notation Exec := (exec Model stateAccepted pick).
Notation Step := (step Model stateAccepted pick).
Notation cs := (cstate Model).
Variable t0 : R.
Hypothesis t0_nonneg : 0 <= t0.
(** All the kinematics objects use the tolerance [t0] (it is set on the template they are
    copied from). *)
Definition uniform (w : W) : Prop := forall i, tol Model (knots Model w i) = t0.

Lemma update_tol : forall d s, tol Model (fst (updateRobotState Model stateAccepted d s)) = tol Model d.
Proof.
  intros d s; unfold updateRobotState. destruct (sameState Model d s); [reflexivity|]. destruct (stateAccepted _ s); reflexivity.
Qed.
Lemma uniform_step : forall w o, uniform w -> uniform (Step w o).
Proof.
  intros w o U; destruct o; cbn [step].
  - intros i; cbn [directUpdate knots]. unfold set_knot. destruct (Nat.eqb i (pick t)); [rewrite update_tol|]; apply U.
  - unfold serverUpdateState. destruct (_ || _); [|exact U].
    destruct (updateRobotState Model stateAccepted (knots Model w (pick t)) s) as [d ok] eqn:E.
    assert (T : tol Model d = t0) by (replace d with (fst (updateRobotState Model stateAccepted (knots Model w (pick t)) s)) by (rewrite E; reflexivity); rewrite update_tol; apply U).
    destruct ok; cbn [fst]; intros i; cbn [knots]; unfold set_knot; destruct (Nat.eqb i (pick t)); auto.
  - unfold serverUpdate. destruct (_ || _); exact U.
Qed.
Definition inv (w : W) : Prop := first Model w = false -> stands_for t0 (vars Model w) (robotState Model w).
Lemma inv_step : forall w o, uniform w -> inv w -> inv (Step w o).
Proof.
  intros w o U I; destruct o; cbn [step].
  - exact I.
  - unfold serverUpdateState. destruct (_ || _); [|exact I].
    destruct (updateRobotState Model stateAccepted (knots Model w (pick t)) s) as [d ok] eqn:E.
    destruct (update_cases Model stateAccepted _ _ _ _ E) as [(S & -> & ->) | [(S & X & -> & ->) | (S & X & -> & ->)]]; cbn [fst]; [| |exact I].
    + intros _; cbn [vars robotState]. right. apply same_close in S as [_ C]. rewrite U in C. exact C.
    + intros _; cbn [vars robotState cstate]. left; reflexivity.
  - unfold serverUpdate. destruct (_ || _); [|exact I]. intros _; left; reflexivity.
Qed.

(** After updateRobotState(time), whatever happened before (direct updates of any knot by the
    constraints, other times, the other update function), the variables of the expressions hold
    the state of the kinematics object of that time, up to twice the tolerance. *)
Theorem C52_server_fresh : forall w l t, uniform w -> first Model w = true ->
  let w' := serverUpdate Model pick (Exec w l) t in
  stands_for (2 * t0) (cs (knots Model w' (pick t))) (vars Model w') /\
  knots Model w' = knots Model (Exec w l).
Proof.
  intros w l t U F; cbv zeta.
  assert (J : uniform (Exec w l) /\ inv (Exec w l)).
  { assert (I : inv w) by (intros H; rewrite F in H; discriminate). clear F. revert w U I.
    induction l as [|o l IH]; intros w U I; [split; assumption|].
    unfold exec; cbn [fold_left]. apply IH; [now apply uniform_step | now apply inv_step]. }
  destruct J as [U' I]. set (v := Exec w l) in *. unfold serverUpdate.
  destruct (first Model v || negb (sameState Model (knots Model v (pick t)) (robotState Model v))) eqn:E.
  - split; [left; reflexivity | reflexivity].
  - apply orb_false_iff in E as [E1 E2]. apply negb_false_iff in E2. apply same_close in E2 as [_ C]. rewrite U' in C.
    cbn [vars knots]. split; [|reflexivity]. destruct (I E1) as [E|E].
    + right. rewrite E in C. apply close_sym in C. apply (close_le t0); [lra | exact C].
    + right. apply close_sym. eapply close_trans2; eassumption.
Qed.
(** Without the two-argument update (the code base only uses the one-argument one): within the tolerance itself. *)
Definition one_arg (o : op) : Prop := match o with ServerState _ _ => False | _ => True end.
Theorem C52_server_fresh_one_argument : forall w l t, uniform w -> first Model w = true -> Forall one_arg l ->
  let w' := serverUpdate Model pick (Exec w l) t in
  stands_for t0 (cs (knots Model w' (pick t))) (vars Model w') /\ robotState Model w' = vars Model w'.
Proof.
  intros w l t U F O; cbv zeta.
  assert (J : uniform (Exec w l) /\ (first Model (Exec w l) = false -> robotState Model (Exec w l) = vars Model (Exec w l))).
  { assert (I : first Model w = false -> robotState Model w = vars Model w) by (intros H; rewrite F in H; discriminate).
    clear F. revert w U I. induction O as [|o l N O IH]; intros w U I; [split; assumption|].
    unfold exec; cbn [fold_left]. apply IH; [now apply uniform_step|].
    destruct o; cbn [step]; [exact I | contradiction |]. unfold serverUpdate. destruct (_ || _); [reflexivity | exact I]. }
  destruct J as [U' I]. set (v := Exec w l) in *. unfold serverUpdate.
  destruct (first Model v || negb (sameState Model (knots Model v (pick t)) (robotState Model v))) eqn:E.
  - split; [left; reflexivity | reflexivity].
  - apply orb_false_iff in E as [E1 E2]. apply negb_false_iff in E2. apply same_close in E2 as [_ C]. rewrite U' in C.
    cbn [vars knots robotState]. rewrite (I E1) in *. split; [|reflexivity]. right; now apply close_sym.
Qed.
(** A constraint that updates the kinematics of its time and then the server sees its own state. *)
Corollary C52_constraint_sees_its_state : forall w l t s, uniform w -> first Model w = true -> Forall one_arg l ->
  (forall m, stateAccepted m s = true) ->
  let w1 := directUpdate Model stateAccepted pick (Exec w l) t s in
  let w' := serverUpdate Model pick w1 t in
  stands_for (2 * t0) s (vars Model w').
Proof.
  intros w l t s U F O AS; cbv zeta.
  destruct (C52_server_fresh_one_argument w (l ++ [Direct t s]) t U F) as [S _].
  { apply Forall_app; split; [exact O | repeat constructor]. }
  assert (EE : Exec w (l ++ [Direct t s]) = directUpdate Model stateAccepted pick (Exec w l) t s) by (unfold exec; rewrite fold_left_app; reflexivity).
  rewrite EE in S; clear EE. set (v := Exec w l) in *.
  assert (K : stands_for t0 s (cs (knots Model (directUpdate Model stateAccepted pick v t s) (pick t)))).
  { cbn [directUpdate knots]. unfold set_knot; rewrite Nat.eqb_refl.
    destruct (updateRobotState Model stateAccepted (knots Model v (pick t)) s) as [d ok] eqn:E.
    destruct (update_cases Model stateAccepted _ _ _ _ E) as [(X & -> & ->) | [(X & Y & -> & ->) | (X & Y & -> & ->)]]; cbn [fst cstate].
    - right. apply same_close in X as [_ C]. assert (UU : uniform v).
      { unfold v, exec. clear - U. revert w U. induction l as [|o l IH]; intros w U; [exact U|]. cbn [fold_left]. apply IH; now apply uniform_step. }
      rewrite UU in C; exact C.
    - left; reflexivity.
    - rewrite AS in Y; discriminate. }
  assert (KK : knots Model (serverUpdate Model pick (directUpdate Model stateAccepted pick v t s) t) = knots Model (directUpdate Model stateAccepted pick v t s)).
  { unfold serverUpdate; destruct (_ || _); reflexivity. }
  rewrite KK in S.
  destruct K as [K|K], S as [S|S].
  - left; congruence.
  - right; rewrite K in S. apply (close_le t0); [lra | exact S].
  - right; rewrite S; apply (close_le t0); [lra | exact K].
  - right; eapply close_trans2; eassumption.
Qed.
End C52.

(** Finding: the two-argument update does not refresh the variables when the kinematics object
    of that time already holds the state, although the variables hold the state of another time. *)
Definition sx (x : R) := mkRobotState [x;0;0] [1;0;0;0] [] [0;0;0] [0;0;0;0] [].
Definition w0 : world unit :=
  mkWorld unit (fun _ => mkData unit tt "base" None (sx 0) [0;0;-981/100] true 1 None) 0 (sx 0) (sx 0) true.
Definition pick2 (t : R) : nat := if Rle_dec t (1/2) then 0%nat else 1%nat.
Theorem C52_two_argument_update_stale_refuted :
  uniform unit 1 w0 /\ first unit w0 = true /\
  let w := exec unit (fun _ _ => true) pick2 w0 [ServerState 0 (sx 10); ServerState 1 (sx 20)] in
  let w' := fst (serverUpdateState unit (fun _ _ => true) pick2 w 0 (sx 10)) in
  snd (serverUpdateState unit (fun _ _ => true) pick2 w 0 (sx 10)) = true /\ vars unit w' = sx 20.
Proof.
  split; [intros i; reflexivity|]. split; [reflexivity|]. cbv zeta.
  assert (P0 : pick2 0 = 0%nat) by (unfold pick2; destruct (Rle_dec 0 (1/2)); [reflexivity | lra]).
  assert (P1 : pick2 1 = 1%nat) by (unfold pick2; destruct (Rle_dec 1 (1/2)); [lra | reflexivity]).
  unfold exec; cbn [fold_left step].
  assert (E1 : fst (serverUpdateState unit (fun _ _ => true) pick2 w0 0 (sx 10)) =
    mkWorld unit (set_knot unit (knots unit w0) 0 (mkData unit tt "base" (Some (sx 10, [0;0;-981/100])) (sx 10) [0;0;-981/100] false 1 (Some (sx 10)))) 0 (sx 10) (sx 10) false).
  { unfold serverUpdateState; rewrite P0. reflexivity. }
  rewrite E1. clear E1.
  match goal with |- context[serverUpdateState unit _ pick2 ?w 1 (sx 20)] => set (w1 := w) end.
  assert (E2 : fst (serverUpdateState unit (fun _ _ => true) pick2 w1 1 (sx 20)) =
    mkWorld unit (set_knot unit (knots unit w1) 1 (mkData unit tt "base" (Some (sx 20, [0;0;-981/100])) (sx 20) [0;0;-981/100] false 1 (Some (sx 20)))) 1 (sx 20) (sx 20) false).
  { unfold serverUpdateState; rewrite P1. reflexivity. }
  rewrite E2. clear E2.
  unfold serverUpdateState; rewrite P0. cbn [first orb].
  match goal with |- context[negb (sameState unit ?d (sx 10))] => assert (SS : sameState unit d (sx 10) = true) end.
  { cbn [knots]. unfold set_knot; cbn [Nat.eqb w1 knots]. unfold set_knot; cbn [Nat.eqb]. apply same_close; cbn [updateNecessary tol cstate].
    split; [reflexivity|]. unfold close, sx; cbn [base_position base_quaternion joints_s base_linearVelocity base_quaternionVelocity joints_dot].
    repeat split; repeat constructor; rewrite Rminus_diag_eq, Rabs_R0 by reflexivity; lra. }
  rewrite SS. cbn [negb fst snd vars]. split; reflexivity.
Qed.
(** The theorems' hypotheses are met by the initial world, with histories of any length. *)
Example C52_nonvacuous : uniform unit 1 w0 /\ first unit w0 = true /\ Forall one_arg [Direct 0 (sx 10); Server 0; Direct 1 (sx 20); Server 1; Server 0] /\
  vars unit (exec unit (fun _ _ => true) pick2 w0 [Direct 0 (sx 10); Server 0]) = sx 10.
Proof.
  split; [intros i; reflexivity|]. split; [reflexivity|]. split; [repeat constructor|].
  assert (P0 : pick2 0 = 0%nat) by (unfold pick2; destruct (Rle_dec 0 (1/2)); [reflexivity | lra]).
  unfold exec; cbn [fold_left step]. unfold directUpdate, serverUpdate; rewrite P0. reflexivity.
Qed.

(** ** C53: the expression maps *)
Section C53.
Variable E : Type.
Variable build : string -> string -> E.
Definition key (ab : string * string) : string := String.append (fst ab) (snd ab).
(** No two different pairs asked for have the same concatenation. *)
Definition unambiguous (l : list (string * string)) : Prop :=
  forall p q, In p l -> In q l -> key p = key q -> p = q.
Lemma lookups_inv : forall l m0 all, (forall p, In p l -> In p all) ->
  (forall k e, find E k m0 = Some e -> exists p, In p all /\ key p = k /\ e = build (fst p) (snd p)) ->
  forall k e, find E k (lookups E build m0 l) = Some e -> exists p, In p all /\ key p = k /\ e = build (fst p) (snd p).
Proof.
  induction l as [|ab l IH]; intros m0 all S I k e H; [now apply I|].
  unfold lookups in H; cbn [fold_left] in H. revert H. apply IH; [intros; apply S; now right|].
  intros k' e' H. unfold lookup in H. destruct (find E (String.append (fst ab) (snd ab)) m0) eqn:F; cbn [fst] in H; [now apply I|].
  cbn [find] in H. destruct (String.eqb k' (String.append (fst ab) (snd ab))) eqn:Q; [|now apply I].
  apply String.eqb_eq in Q. inversion H; subst. exists ab; split; [apply S; now left | split; reflexivity].
Qed.
(** After any sequence of requests, a request is answered with the expression built for its two
    names, provided the names asked for are never ambiguous. *)
Theorem C53_expression_of_the_pair : forall l a b, unambiguous ((a, b) :: l) ->
  snd (lookup E build (lookups E build [] l) a b) = build a b.
Proof.
  intros l a b U. unfold lookup. destruct (find E (String.append a b) (lookups E build [] l)) as [e|] eqn:F; [|reflexivity].
  cbn [snd]. apply (lookups_inv l [] ((a, b) :: l)) in F as (p & Ip & Kp & ->); [|intros; now right|intros; discriminate].
  assert (p = (a, b)) by (apply U; [exact Ip | now left | exact Kp]). subst p; reflexivity.
Qed.
(** Asking again returns the same expression. *)
Theorem C53_stable : forall m a b, let '(m', e) := lookup E build m a b in lookup E build m' a b = (m', e).
Proof.
  intros m a b. unfold lookup. destruct (find E (String.append a b) m) eqn:F; [rewrite F; reflexivity|].
  cbn [find]. rewrite String.eqb_refl. reflexivity.
Qed.
End C53.
(** Finding: frame names that concatenate to the same string get each other's expression. *)
Theorem C53_ambiguous_names_refuted :
  snd (lookup _ (fun a b => (a, b)) (lookups _ (fun a b => (a, b)) [] [("l_foot"%string, "_sole"%string)]) "l_foot_"%string "sole"%string)
  = ("l_foot"%string, "_sole"%string).
Proof. reflexivity. Qed.
Example C53_nonvacuous : unambiguous [("l_sole"%string, "r_sole"%string); ("r_sole"%string, "l_sole"%string)] /\
  snd (lookup _ (fun a b => (a, b)) (lookups _ (fun a b => (a, b)) [] [("r_sole"%string, "l_sole"%string)]) "l_sole"%string "r_sole"%string) = ("l_sole"%string, "r_sole"%string).
Proof.
  split; [|reflexivity]. intros p q Hp Hq. cbn [In] in Hp, Hq. intuition; subst; try reflexivity; discriminate.
Qed.

Print Assumptions C52_server_fresh.
Print Assumptions C52_constraint_sees_its_state.
Print Assumptions C53_expression_of_the_pair.
