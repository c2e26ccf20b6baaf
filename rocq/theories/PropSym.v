(** C57, C58: the second derivatives of the kinematic expressions with every nested derivative taken from its class. *)
From Coq Require Import Reals List Arith Lia Lra Bool.
From Coquelicot Require Import Coquelicot.
From Verif Require Import Spec PartialLib SpecRigid SpecDerivatives SpecFeet Rigid RigidCalc KinTree.
From Verif Require Import KinModel KinLib KinMotion KinProofs KinExist KinInstance PropKin SymModel SymProofs SymKin FeetProofs.
Import ListNotations.
Local Open Scope R_scope.

Section Resolved.
Variable r : robot.
Variable place : vec -> nat -> pose.
Variable dofs : nat.
Variable up : nat -> nat -> option (nat * nat).
Variable depth : nat -> nat -> nat.
Variable base : nat.
Variable bt : formula.
Variable bt_dep : nat -> bool.
Variable jac : vec -> nat -> nat -> nat -> v6.
Variable fvel : env -> nat -> v6.
Variable btw : env -> v6.
Variable quat : m3 -> vec.
Hypothesis K : kinematics r place dofs up depth base jac fvel btw quat.
Notation Correct := (correct_derivative r place dofs up base bt jac fvel quat).
Notation Deep := (deep r dofs up base bt bt_dep).
Notation UE := (ueval r dofs up base bt (relative r place) jac fvel quat).
Lemma deep_correct k c v : (forall rho, ready dofs Deep UE rho v (leaf k) c) -> exists X, Deep k c v = Some X /\ Correct k c v X.
Proof.
  intros RD. pose proof (RD (fun _ _ => 0)) as R0. unfold leaf in R0. cbn [ready users] in R0. rewrite decode_code in R0. destruct R0 as (X & E & RX & CX & WX & _).
  change (FUser (code k)) with (leaf k) in RX. rewrite leaf_rows in RX.
  exists X. split; [exact E|]. split; [exact RX|]. split; [exact CX|]. split; [exact WX|]. intros rho i j Hi Hj.
  specialize (RD rho). unfold leaf in RD. cbn [ready users] in RD. rewrite decode_code in RD. destruct RD as (X' & E' & _ & _ & _ & D). rewrite E in E'. injection E' as <-.
  change (FUser (code k)) with (leaf k) in D. rewrite leaf_rows in D. specialize (D i j Hi Hj). eapply is_derive_ext; [|exact D]. intros t. apply leaf_value.
Qed.
(** The derivatives of the derivatives of the adjoint transforms, when the offset of g does not move the axes of the
    joints next to its link. *)
Theorem C57_second_derivative_resolved w f g c0 c v : is_frame r f -> is_frame r g -> (c0 < 6)%nat -> (c < dofs)%nat ->
  (forall b, is_frame r b -> offset_neutral r up b g) ->
  exists X, Deep (KAdjD w f g c0) c v = Some X /\ Correct (KAdjD w f g c0) c v X.
Proof.
  intros F G Hc0 Hc H. apply deep_correct. intros rho. apply (adjD_ready r place dofs up depth base bt bt_dep jac fvel btw quat K); auto.
  intros b B. left. apply (neutral_same r place dofs up depth base jac fvel btw quat K); auto.
Qed.
(** For the first three columns of the transform of the twists (the rotation) it is enough that it does not turn them. *)
Theorem C57_second_derivative_rotation f g c0 c v : is_frame r f -> is_frame r g -> (c0 < 3)%nat -> (c < dofs)%nat ->
  (forall b, is_frame r b -> keeps_axis r up b g) ->
  exists X, Deep (KAdjD false f g c0) c v = Some X /\ Correct (KAdjD false f g c0) c v X.
Proof.
  intros F G Hc0 Hc H. apply deep_correct. intros rho. apply (adjD_ready r place dofs up depth base bt bt_dep jac fvel btw quat K); auto; try lia.
  intros b B. right. split; [reflexivity|]. split; [exact Hc0|]. apply (keeps_unturned r place dofs up depth base jac fvel btw quat K); auto.
Qed.
(** The derivatives of the relative Jacobians: whatever the offsets. *)
Theorem C58_jacobian_derivative_resolved f g c v : is_frame r f -> is_frame r g -> (c < dofs)%nat ->
  exists X, Deep (KJac f g) c v = Some X /\ Correct (KJac f g) c v X.
Proof. intros F G Hc. apply deep_correct. intros rho. apply (jac_ready r place dofs up depth base bt bt_dep jac fvel btw quat K); auto. Qed.
End Resolved.

Example arm_resolved : forall b, is_frame arm b -> offset_neutral arm up b 2 /\ keeps_axis arm up b 4.
Proof.
  intros b B. split.
  - intros p i j _ _ _. change (frame_offset arm 2) with pid. assert (E : forall a, m6v (Adj pid) a = a).
    { intros [[a b0 c] [d e f]]. unfold m6v, Adj, mm, mv, skew, vadd, m30, pid, m3I, v30. cbn. f_equal; f_equal; ring. }
    apply E.
  - intros p i j _ _ _. change (rot (frame_offset arm 4)) with m3I. apply mv_I.
Qed.
Print Assumptions C57_second_derivative_resolved.
Print Assumptions C57_second_derivative_rotation.
Print Assumptions C58_jacobian_derivative_resolved.
