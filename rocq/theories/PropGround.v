(** C40: placing the feet on the ground. *)
From Coq Require Import Reals List Arith Bool Lra Lia.
From Verif Require Import SpecState SpecGeometry SpecUtilities GroundModel GroundProofs.
Import ListNotations.
Local Open Scope R_scope.

(** Nothing but the height of the base, the CoM and the positions of the points. *)
Definition only_height_com_points (s s' : state M3) : Prop :=
  map pointForce (leftContactPointsState s') = map pointForce (leftContactPointsState s) /\
  map pointForce (rightContactPointsState s') = map pointForce (rightContactPointsState s) /\
  momentumInCoM s' = momentumInCoM s /\ baseRotation s' = baseRotation s /\
  jointsConfiguration s' = jointsConfiguration s /\ stateTime s' = stateTime s /\
  px (basePosition s') = px (basePosition s) /\ py (basePosition s') = py (basePosition s).

(** The recursion ends from every base pose.  The recorded points have their
    lowest height in [0, 1e-8]; the base is then lowered by a further 2e-8, so that
    the recorded points and CoM are 2e-8 above those of the returned base pose. *)
Theorem C40_terminates_in_band : forall rob accepts lp rp s,
  length lp = length rp -> lp <> [] -> accepts (jointsConfiguration s) = true ->
  length (leftContactPointsState s) = length lp -> length (rightContactPointsState s) = length lp ->
  exists k s',
    (forall fuel, (k <= fuel)%nat -> setMinContactPointToZero rob accepts lp rp true true fuel s = Some (Done s')) /\
    only_height_com_points s s' /\
    (exists h, 0 <= h <= 1/100000000 /\ lowest h (recorded_points s')) /\
    recorded_points s' = map (raise (2/100000000)) (true_points rob lp rp s') /\
    comPosition s' = raise (2/100000000) (world_com rob s').
Proof.
  intros rob accepts lp rp s H1 H2 H3 H4 H5.
  destruct (stops_always rob accepts lp rp H1 H2 s) as (k & s' & Hk & G1 & G2 & G3 & G4); [repeat split; auto|].
  exists k, s'. split; [intros fuel Hf; cbn; auto|]. repeat (split; [assumption|]). assumption.
Qed.

(** Hence the contact points of the returned pose are below the ground, by 1e-8 to
    2e-8: the claim that the lowest point of the pose is not under the ground is
    refuted for every input. *)
Theorem C40_returned_pose_below_ground_refuted : forall rob accepts lp rp s fuel s',
  length lp = length rp -> lp <> [] ->
  length (leftContactPointsState s) = length lp -> length (rightContactPointsState s) = length lp ->
  setMinContactPointToZero rob accepts lp rp true true fuel s = Some (Done s') ->
  exists h, -2/100000000 <= h <= -1/100000000 /\ lowest h (true_points rob lp rp s').
Proof.
  intros rob accepts lp rp s fuel s' H1 H2 H4 H5 E.
  assert (H3 : accepts (jointsConfiguration s) = true).
  { destruct fuel; [discriminate|]. cbn [setMinContactPointToZero impl negb] in E. destruct (accepts _); auto. discriminate. }
  destruct (C40_terminates_in_band rob accepts lp rp s H1 H2 H3 H4 H5) as (k & s1 & Hk & _ & (h & Hh & Hl) & Hrec & _).
  assert (Hmono : forall f s0 s2, impl rob accepts lp rp f s0 = Some (Done s2) -> forall f', (f <= f')%nat -> impl rob accepts lp rp f' s0 = Some (Done s2)).
  { clear. induction f as [|f IH]; intros s0 s2 E f' Hf; [discriminate|]. destruct f'; [lia|]. cbn [impl] in *.
    destruct (negb _); auto. destruct (place _ _ _ _ _ _ _) as [[[ls rs] m]|]; auto.
    destruct (basePosition _) as [[x y] z]. destruct Rlt_dec; [apply IH; auto; lia|]. destruct Rlt_dec; auto. apply IH; auto. lia. }
  cbn [setMinContactPointToZero negb] in E, Hk.
  pose proof (Hmono _ _ _ E (Nat.max k fuel) ltac:(lia)) as E2. rewrite Hk in E2 by lia. injection E2 as <-.
  exists (h - 2/100000000). split; [lra|]. rewrite Hrec in Hl. destruct Hl as ((p & Hp & Hz) & Hm).
  apply in_map_iff in Hp as (q & <- & Hq). rewrite add3_raise_pz in Hz. split.
  - exists q. split; auto. lra.
  - intros x Hx. specialize (Hm (raise (2/100000000) x) (in_map _ _ _ Hx)). rewrite add3_raise_pz in Hm. lra.
Qed.

(** Refuted: settings without contact points are valid, and the call never ends. *)
Theorem C40_no_points_diverges_refuted : forall rob accepts s, accepts (jointsConfiguration s) = true ->
  forall fuel, setMinContactPointToZero rob accepts [] [] true true fuel s = None.
Proof. intros. apply impl_no_points; auto. Qed.

(** Refusals leave the state alone; a refused joint vector likewise. *)
Theorem C40_refusal : forall rob accepts lp rp valid loads fuel s,
  (valid = false \/ loads = false \/ accepts (jointsConfiguration s) = false) ->
  setMinContactPointToZero rob accepts lp rp valid loads (S fuel) s = Some (Failed s).
Proof.
  intros. unfold setMinContactPointToZero. destruct valid, loads; cbn [negb]; try reflexivity.
  destruct H as [|[|H]]; try discriminate. cbn [impl]. rewrite H. reflexivity.
Qed.

(** A concrete case: a robot with feet 0.7 under the base, starting 3 above. *)
Definition exampleRobot : robot :=
  mkRobot (fun _ => (ident3, (0, 1/10, -7/10))) (fun _ => (ident3, (0, -1/10, -7/10))) (fun _ => zero3) 30.
Definition exampleState : state M3 :=
  mkState (repeat (mkPointState zero3 zero3) 2) (repeat (mkPointState zero3 zero3) 2) (zero3, zero3) zero3 (0, 0, 3) ident3 [0; 0] 0.
Definition examplePoints : list V3 := [(1/10, 0, 0); (-1/10, 0, 0)].
Example C40_example :
  length examplePoints = length examplePoints /\ examplePoints <> [] /\
  length (leftContactPointsState exampleState) = length examplePoints /\
  length (rightContactPointsState exampleState) = length examplePoints /\
  lowest (23/10) (true_points exampleRobot examplePoints examplePoints exampleState).
Proof.
  repeat split; try discriminate.
  - eexists. split; [left; reflexivity|]. cbn. lra.
  - intros p Hp. cbn in Hp. repeat (destruct Hp as [<-|Hp]; [cbn; lra|]). contradiction.
Qed.
Print Assumptions C40_terminates_in_band.
Print Assumptions C40_returned_pose_below_ground_refuted.
Print Assumptions C40_no_points_diverges_refuted.
Print Assumptions C40_refusal.
