(** C57-C59: the kinematic expressions (adjoint transforms, relative Jacobians, positions, quaternions, velocities) have
    the values they stand for, and the derivatives they return are the derivatives of these values. *)
From Coq Require Import Reals List Arith Lia Lra Bool FunctionalExtensionality.
From Coquelicot Require Import Coquelicot.
From Verif Require Import Spec PartialLib SpecQuaternion Quaternion QuaternionProofs.
From Verif Require Import QuatCurve SpecRigid SpecDerivatives Rigid RigidCalc KinTree KinModel KinLib KinMotion KinUsers KinProofs KinExist KinInstance.
Import ListNotations.
Local Open Scope R_scope.

(** The robot, and what iDynTree computes for it: [place] puts the links in space, [up b] is the traversal from link b,
    [jac s f g i] is the velocity of frame g with respect to frame f, seen in g, for a unit velocity of joint i;
    [fvel rho f] is the velocity of frame f, seen in f, in the state rho, the base moving with [btw rho]; [quat] is a
    unit quaternion of a rotation.  There is one degree of freedom per joint, of the same index. *)
Definition kinematics (r : robot) (place : vec -> nat -> pose) (dofs : nat) (up : nat -> nat -> option (nat * nat)) (depth : nat -> nat -> nat)
  (base : nat) (jac : vec -> nat -> nat -> nat -> v6) (fvel : env -> nat -> v6) (btw : env -> v6) (quat : m3 -> vec) : Prop :=
  robot_ok r /\ placement r place /\
  (forall b, (b < r_links r)%nat -> traversal r b (up b) (depth b)) /\
  (length (r_joints r) <= dofs)%nat /\ (base < r_links r)%nat /\
  (forall s f g i, is_frame r f -> is_frame r g -> (i < dofs)%nat -> moves (fun x => relative r place (vset s i x) f g) (s i) (jac s f g i)) /\
  (forall rho f, is_frame r f -> frame_velocity r place base (rho v_s) (rho v_sdot) (btw rho) f (fvel rho f)) /\
  (forall A, rotation A -> represents (quat A) A).

Section Kinematics.
Variable r : robot.
Variable place : vec -> nat -> pose.
Variable dofs : nat.
Variable up : nat -> nat -> option (nat * nat).
Variable depth : nat -> nat -> nat.
Variable base : nat.
Variable bt : formula.
Variable bt_dep : nat -> bool.
Variable jac : vec -> nat -> nat -> nat -> v6.
Variable fvel : env -> nat -> v6.
Variable btw : env -> v6.
Variable quat : m3 -> vec.
Notation rel := (relative r place).
Notation joints := (r_joints r).
Notation Value := (val r dofs up base bt rel jac fvel quat).
Notation Meaning := (meaning (vdim dofs) urows (ucols dofs) (ueval r dofs up base bt rel jac fvel quat)).
Notation Rows := (frows (vdim dofs) urows (ucols dofs)).
Notation Cols := (fcols (vdim dofs) urows (ucols dofs)).
Notation Well_formed := (well_formed (vdim dofs) urows (ucols dofs) (ueval r dofs up base bt rel jac fvel quat)).
Notation Derivative := (derivative r dofs up base bt bt_dep).

(** What getColumnDerivative returns has the right size and evaluates to the derivative of the column. *)
Definition correct_derivative (k : kin) (c v : nat) (X : formula) : Prop :=
  Rows X = krows k /\ Cols X = vdim dofs v /\ Well_formed X /\
  forall rho i j, (i < krows k)%nat -> (j < vdim dofs v)%nat ->
    is_derive (fun x => Value k (at_entry rho v j x) i c) (rho v j) (Meaning rho X i j).
(** The offset of frame g leaves the axis of the joint next to its link, on the way to f, where it is. *)
Definition offset_neutral (f g : nat) : Prop :=
  forall p i j, frame_link r f <> frame_link r g -> up (frame_link r f) (frame_link r g) = Some (p, i) -> nth_error joints i = Some j ->
    m6v (Adj (frame_offset r g)) (axis_of j (frame_link r g)) = axis_of j (frame_link r g).

Hypothesis K : kinematics r place dofs up depth base jac fvel btw quat.
Lemma k_robot : robot_ok r. Proof. apply K. Qed.
Lemma k_place : placement r place. Proof. apply K. Qed.
Lemma k_trav b : (b < r_links r)%nat -> traversal r b (up b) (depth b). Proof. apply K. Qed.
Lemma k_dofs : (length joints <= dofs)%nat. Proof. apply K. Qed.
Lemma k_base : (base < r_links r)%nat. Proof. apply K. Qed.
Lemma k_jac s f g i : frame_ok r f -> frame_ok r g -> (i < dofs)%nat -> moves (fun x => rel (vset s i x) f g) (s i) (jac s f g i).
Proof. apply K. Qed.
Lemma k_fvel rho f : frame_ok r f -> frame_velocity r place base (rho v_s) (rho v_sdot) (btw rho) f (fvel rho f). Proof. apply K. Qed.
Lemma k_quat A : rotation A -> represents (quat A) A. Proof. apply K. Qed.

(** A value that only depends on the joint positions does not change with the other variables. *)
Lemma only_s k c v : v <> v_s -> match k with KAdj _ _ _ | KPos _ _ | KQuat _ _ => True | _ => False end ->
  correct_derivative k c v (FNull (krows k) (vdim dofs v)).
Proof.
  intros N H. split; [reflexivity|]. split; [reflexivity|]. split; [exact Logic.I|]. intros rho i j Hi Hj. cbn [meaning].
  apply is_derive_ext with (f := fun _ : R => Value k rho i c); [|apply D_const].
  intros x. destruct k; try contradiction; cbn [val val1 val0]; rewrite at_other by auto; reflexivity.
Qed.
Lemma neutral_same f g : frame_ok r f -> frame_ok r g -> offset_neutral f g <-> neutral r up f g.
Proof.
  intros F G. split.
  - intros H p i N U. destruct (k_trav _ (fl_lt r k_robot f F) (frame_link r g) (fl_lt r k_robot g G) ltac:(congruence)) as (p' & i' & j & U' & E & _).
    rewrite U in U'. injection U' as <- <-. unfold motion_axis. rewrite (nth_error_nth _ _ _ E). eapply H; eauto.
  - intros H p i j N U E. specialize (H p i N U). unfold motion_axis in H. rewrite (nth_error_nth _ _ _ E) in H. exact H.
Qed.

(** ** C57: adjoint transforms *)
Theorem C57_adjoint_value (w : bool) f g rho i j : is_frame r f -> is_frame r g -> (i < 6)%nat -> (j < 6)%nat ->
  Meaning rho (adj w f g) i j = m6ent (if w then AdjW (rel (rho v_s) f g) else Adj (rel (rho v_s) f g)) i j.
Proof.
  intros F G Hi Hj. destruct (adj_den r place dofs jac fvel quat k_robot k_place (ueval r dofs up base bt rel jac fvel quat)
    (ue_adj r place dofs up base bt jac fvel quat) w f g rho F G) as (_ & _ & _ & E).
  rewrite E by auto. destruct w; reflexivity.
Qed.
(** It is also the value of the object getColumnDerivative differentiates. *)
Theorem C57_adjoint_object_value (w : bool) f g rho i j : is_frame r f -> is_frame r g ->
  Value (KAdj w f g) rho i j = m6ent (if w then AdjW (rel (rho v_s) f g) else Adj (rel (rho v_s) f g)) i j.
Proof.
  intros F G. cbn [val val1]. rewrite (adj_value r place jac fvel quat k_robot k_place) by auto. destruct w; reflexivity.
Qed.
Lemma adj_at_s w f g c : is_frame r f -> is_frame r g -> (c < 6)%nat -> neutral r up f g -> exists X, Derivative (KAdj w f g) c v_s = Some X /\ correct_derivative (KAdj w f g) c v_s X.
Proof.
  intros F G Hc N. destruct (adj_derivative r place dofs up depth base bt bt_dep jac fvel quat k_robot k_place k_trav k_dofs w f g c F G Hc N) as (X & E & R0 & C0 & Wf & D).
  exists X. split; [exact E|]. split; [exact R0|]. split; [exact C0|]. split; [exact Wf|exact D].
Qed.
(** For a link as target the derivatives are right, with respect to every variable. *)
Theorem C57_adjoint_derivative_links w f g c v : is_frame r f -> (g < r_links r)%nat -> (c < 6)%nat ->
  exists X, Derivative (KAdj w f g) c v = Some X /\ correct_derivative (KAdj w f g) c v X.
Proof.
  intros F Hg Hc. assert (G : is_frame r g) by (unfold is_frame; lia). destruct (Nat.eq_dec v v_s) as [->|N].
  - apply adj_at_s; auto. apply (neutral_link r); auto.
  - exists (FNull 6 (vdim dofs v)). split; [|apply (only_s (KAdj w f g)); auto; exact Logic.I]. cbn [derivative].
    apply Nat.eqb_neq in N. rewrite N, andb_false_r. reflexivity.
Qed.
(** In general, with respect to the joints, if and only if the offset of the target frame does not move the axis of the
    last joint. *)
Theorem C57_adjoint_derivative_iff w f g : is_frame r f -> is_frame r g ->
  ((forall c, (c < 6)%nat -> exists X, Derivative (KAdj w f g) c v_s = Some X /\ correct_derivative (KAdj w f g) c v_s X) <-> offset_neutral f g).
Proof.
  intros F G. rewrite neutral_same by auto. split.
  - intros H p i N U. destruct (k_trav _ (fl_lt r k_robot f F) (frame_link r g) (fl_lt r k_robot g G) ltac:(congruence)) as (p' & i' & j & U' & E & _).
    rewrite U in U'. injection U' as <- <-.
    assert (Hi : (i < dofs)%nat). { pose proof k_dofs. assert (i < length joints)%nat by (apply nth_error_Some; congruence). lia. }
    refine (adj_derivative_only r place dofs up depth base bt bt_dep jac fvel quat k_robot k_place k_trav k_dofs w f g (fun _ _ => 0) p i F G N U _).
    intros c a X Hc Ha EX. destruct (H c Hc) as (X' & EX' & _ & _ & _ & D). rewrite EX in EX'. injection EX' as <-. apply D; auto.
  - intros N c Hc. apply adj_at_s; auto.
Qed.
(** The columns of the derivative, which are differentiated again, are right for the value of that derivative. *)
Theorem C57_second_derivative w f g c0 c v : is_frame r f -> is_frame r g -> (c0 < 6)%nat -> (c < dofs)%nat ->
  exists X, Derivative (KAdjD w f g c0) c v = Some X /\ correct_derivative (KAdjD w f g c0) c v X.
Proof.
  intros F G H0 Hc. destruct (adjD_derivative_true r place dofs up depth base bt bt_dep jac fvel quat k_robot k_place k_trav k_dofs w f g c0 c v F G H0 Hc) as (X & E & R0 & C0 & Wf & D).
  exists X. split; [exact E|]. split; [exact R0|]. split; [exact C0|]. split; [exact Wf|exact D].
Qed.

(** ** C58: Jacobians, positions, rotations, quaternions *)
(** Column j of the relative Jacobian is the velocity of g with respect to f when only joint j moves, at unit speed. *)
Theorem C58_jacobian_value f g rho j : is_frame r f -> is_frame r g -> (j < dofs)%nat -> exists w,
  moves (fun x => rel (vset (rho v_s) j x) f g) (rho v_s j) w /\ forall i, Value (KJac f g) rho i j = v6ent w i.
Proof. intros F G Hj. exists (jac (rho v_s) f g j). split; [apply k_jac; auto|reflexivity]. Qed.
Theorem C58_jacobian_columns f g : is_frame r f -> is_frame r g -> exists A, jac_cols r dofs up f g = Some A /\ length A = dofs /\
  forall j, (j < dofs)%nat -> exists X, nth_error A j = Some X /\ Rows X = 6%nat /\ Cols X = 1%nat /\
    forall rho i, (i < 6)%nat -> Meaning rho X i 0%nat = Value (KJac f g) rho i j.
Proof.
  intros F G. destruct (jac_columns r place dofs up depth base bt jac fvel quat k_robot k_place k_trav k_dofs k_jac f g F G) as (A & E & L & C).
  exists A. split; [exact E|]. split; [exact L|]. intros j Hj. destruct (C j Hj) as (X & EX & D). exists X. split; [exact EX|].
  destruct (D (fun _ _ => 0)) as (_ & R0 & C0 & _). split; [exact R0|]. split; [exact C0|]. intros rho i Hi. destruct (D rho) as (_ & _ & _ & Q). apply Q; auto.
Qed.
Theorem C58_jacobian_derivative f g c v : is_frame r f -> is_frame r g -> (c < dofs)%nat ->
  exists X, Derivative (KJac f g) c v = Some X /\ correct_derivative (KJac f g) c v X.
Proof.
  intros F G Hc. destruct (jac_derivative_true r place dofs up depth base bt bt_dep jac fvel quat k_robot k_place k_trav k_dofs k_jac k_base f g c v F G Hc) as (X & E & R0 & C0 & Wf & D).
  exists X. split; [exact E|]. split; [exact R0|]. split; [exact C0|]. split; [exact Wf|exact D].
Qed.
Theorem C58_position_value f g rho i : is_frame r f -> is_frame r g -> (i < 3)%nat -> Meaning rho (relpos f g) i 0%nat = vent (pos (rel (rho v_s) f g)) i.
Proof.
  intros F G Hi. destruct (pos_value r place dofs up base bt jac fvel quat k_robot k_place k_dofs f g rho F G) as (_ & _ & _ & E). apply E; auto.
Qed.
Theorem C58_rotation_value f g rho i j : is_frame r f -> is_frame r g -> (i < 3)%nat -> (j < 3)%nat -> Meaning rho (relrot f g) i j = ment (rot (rel (rho v_s) f g)) i j.
Proof.
  intros F G Hi Hj. destruct (relrot_den r place dofs up base bt jac fvel quat k_robot k_place k_dofs rho f g F G) as (_ & _ & _ & E). apply E; auto.
Qed.
Theorem C58_position_derivative f g v : is_frame r f -> is_frame r g ->
  exists X, Derivative (KPos f g) 0 v = Some X /\ correct_derivative (KPos f g) 0 v X.
Proof.
  intros F G. destruct (Nat.eq_dec v v_s) as [->|N].
  - destruct (pos_derivative_true r place dofs up depth base bt bt_dep jac fvel quat k_robot k_place k_trav k_dofs k_jac f g F G) as (X & E & R0 & C0 & Wf & D).
    exists X. split; [exact E|]. split; [exact R0|]. split; [exact C0|]. split; [exact Wf|exact D].
  - exists (FNull 3 (vdim dofs v)). split; [|apply (only_s (KPos f g)); auto; exact Logic.I]. cbn [derivative]. apply Nat.eqb_neq in N. rewrite N. reflexivity.
Qed.
Theorem C58_quaternion_value f g rho : is_frame r f -> is_frame r g ->
  represents (fun i => Meaning rho (relquat f g) i 0%nat) (rot (rel (rho v_s) f g)).
Proof.
  intros F G. assert (RR : rotation (rot (rel (rho v_s) f g))) by (apply (rel_rigid r place k_robot k_place (rho v_s) f g F G)).
  unfold relquat. destruct (Nat.eqb_spec f g) as [->|N].
  - rewrite (rel_same r place k_robot k_place) by exact G. split.
    + unfold qnorm2. cbn. ring.
    + intros v i Hi. unfold qrot, qvec. cbn [meaning Nat.eqb]. destruct v. cbn [rot pid]. rewrite mv_I.
      destruct i as [|[|[|i]]]; [| | |lia]; cbn; ring.
  - pose proof (k_quat _ RR) as [Q1 Q2]. unfold leaf. cbn [meaning]. rewrite (ue_code r place dofs up base bt jac fvel quat). cbn [val val1 val0]. exact (conj Q1 Q2).
Qed.
(** Where the quaternion that iDynTree returns is a differentiable function of the joint. *)
Theorem C58_quaternion_derivative f g v : is_frame r f -> is_frame r g -> exists X, Derivative (KQuat f g) 0 v = Some X /\
  Rows X = 4%nat /\ Cols X = vdim dofs v /\ Well_formed X /\
  forall rho j, (j < vdim dofs v)%nat ->
    (forall k, (k < 4)%nat -> ex_derive (fun x => Value (KQuat f g) (at_entry rho v j x) k 0%nat) (rho v j)) ->
    forall i, (i < 4)%nat -> is_derive (fun x => Value (KQuat f g) (at_entry rho v j x) i 0%nat) (rho v j) (Meaning rho X i j).
Proof.
  intros F G. destruct (Nat.eq_dec v v_s) as [->|N].
  - destruct (quat_derivative_true r place dofs up depth base bt bt_dep jac fvel quat k_robot k_place k_trav k_dofs k_jac k_quat f g F G) as (X & E & R0 & C0 & Wf & D).
    exists X. split; [exact E|]. split; [exact R0|]. split; [exact C0|]. split; [exact Wf|]. intros rho j Hj H i Hi. apply D; auto.
    exists (fun k => Derive (fun x => Value (KQuat f g) (at_entry rho v_s j x) k 0%nat) (rho v_s j)). intros k Hk. apply Derive_correct, H; auto.
  - exists (FNull 4 (vdim dofs v)). destruct (only_s (KQuat f g) 0 v N Logic.I) as (R0 & C0 & Wf & D).
    split; [cbn [derivative]; apply Nat.eqb_neq in N; rewrite N; reflexivity|]. split; [exact R0|]. split; [exact C0|]. split; [exact Wf|].
    intros rho j Hj _ i Hi. apply D; auto.
Qed.

(** ** C59: velocities *)
(** The relative velocity is the velocity of g with respect to f, seen in g, whatever the motion of the base; it is the
    relative Jacobian times the velocities of the joints, the formula that is differentiated. *)
Theorem C59_relative_velocity f g rho : is_frame r f -> is_frame r g -> exists w,
  (forall (sc : R -> vec) x, sc x = rho v_s -> (forall i, is_derive (fun t => sc t i) x (rho v_sdot i)) -> moves (fun t => rel (sc t) f g) x w) /\
  forall i, (i < 6)%nat -> Meaning rho (relvel f g) i 0%nat = v6ent w i /\ Meaning rho (vel_this dofs f g) i 0%nat = v6ent w i.
Proof.
  intros F G. exists (JV dofs jac (rho v_s) (rho v_sdot) f g). split.
  - intros sc x <- D. apply (rel_curve r place dofs up depth jac k_robot k_place k_trav k_dofs k_jac); auto.
  - intros i Hi. split.
    + destruct (relvel_den r place dofs up depth base jac fvel quat k_robot k_place k_trav k_dofs k_jac btw k_base k_fvel
        (ueval r dofs up base bt rel jac fvel quat) ltac:(intros; apply ue_code) rho f g F G) as (_ & _ & _ & E). apply E; auto.
    + destruct (vel_this_den r place dofs up depth base bt jac fvel quat k_robot k_place k_trav k_dofs k_jac rho f g F G) as (_ & _ & _ & E). apply E; auto.
Qed.
Theorem C59_relative_velocity_derivative f g v : is_frame r f -> is_frame r g -> exists X, Derivative (KVel f g) 0 v = Some X /\ correct_derivative (KVel f g) 0 v X /\
  (v = v_sdot -> forall rho i j, (i < 6)%nat -> (j < dofs)%nat -> Meaning rho X i j = Value (KJac f g) rho i j).
Proof.
  intros F G. destruct (vel_derivative_true r place dofs up depth base bt bt_dep jac fvel quat k_robot k_place k_trav k_dofs k_jac btw k_base k_fvel f g v F G) as (X & E & R0 & C0 & Wf & D & J & _).
  exists X. split; [exact E|]. split; [|exact J]. split; [exact R0|]. split; [exact C0|]. split; [exact Wf|exact D].
Qed.

(** The twist given to absoluteVelocity: a 6-vector that does not use kinematic expressions and does not depend on the
    joints; its isDependentFrom is right. *)
Definition good_twist : Prop :=
  users (fun _ => false) bt = true /\ Well_formed bt /\ Rows bt = 6%nat /\ Cols bt = 1%nat /\ bt_dep v_s = false /\ bt_dep v_sdot = false /\
  (forall v, bt_dep v = false -> forall rho x i, (i < 6)%nat -> Meaning (env_set rho v x) bt i 0%nat = Meaning rho bt i 0%nat).
Hypothesis T : good_twist.
(** The absolute velocity of a frame is its velocity when the base moves with that twist. *)
Theorem C59_absolute_velocity f rho b : is_frame r f -> (forall i, (i < 6)%nat -> Meaning rho bt i 0%nat = v6ent b i) -> exists w,
  frame_velocity r place base (rho v_s) (rho v_sdot) b f w /\ forall i, (i < 6)%nat -> Meaning rho (absvel base bt f) i 0%nat = v6ent w i.
Proof.
  intros F HB. destruct T as (T1 & T2 & T3 & T4 & T5 & T6 & T7).
  destruct (abs_velocity r place dofs up depth base bt jac fvel quat k_robot k_place k_trav k_dofs k_jac btw k_base k_fvel T1 T2 T3 T4 f rho F) as (w & FV & E).
  exists w. split; [|exact E]. replace b with (B r place dofs up base bt jac fvel quat rho); [exact FV|].
  apply v6ent_inj. intros i Hi. rewrite (B_ent _ _ _ _ _ _ _ _ _ k_dofs k_base T3 T4) by auto. apply HB; auto.
Qed.
(** In particular it is what getFrameVel returns when the twist is the one of the state. *)
Theorem C59_absolute_velocity_state f rho i : is_frame r f -> (forall i, (i < 6)%nat -> Meaning rho bt i 0%nat = v6ent (btw rho) i) ->
  (i < 6)%nat -> Meaning rho (absvel base bt f) i 0%nat = v6ent (fvel rho f) i.
Proof.
  intros F HB Hi. destruct (C59_absolute_velocity f rho (btw rho) F HB) as (w & FV & E). rewrite E by auto. f_equal.
  exact (velocity_unique r place base k_robot k_place k_base _ _ _ f w (fvel rho f) F FV (k_fvel rho f F)).
Qed.
Theorem C59_absolute_velocity_derivative f v : is_frame r f -> exists X, Derivative (KAbs f) 0 v = Some X /\
  Rows X = 6%nat /\ Cols X = vdim dofs v /\ Well_formed X /\
  forall rho i j, (i < 6)%nat -> (j < vdim dofs v)%nat ->
    (bt_dep v = true -> forall k, (k < 6)%nat -> ex_derive (fun x => Meaning (at_entry rho v j x) bt k 0%nat) (rho v j)) ->
    is_derive (fun x => Value (KAbs f) (at_entry rho v j x) i 0%nat) (rho v j) (Meaning rho X i j).
Proof.
  intros F. destruct T as (T1 & T2 & T3 & T4 & T5 & T6 & T7).
  exact (abs_derivative_true r place dofs up depth base bt bt_dep jac fvel quat k_robot k_place k_trav k_dofs k_jac btw k_base k_fvel T1 T2 T3 T4 T7 T5 T6 f v F).
Qed.
(** The columns of the derivative with respect to the joints, which are differentiated again. *)
Theorem C59_absolute_velocity_columns f : is_frame r f -> exists A, option_map fst (absD_cols r dofs up base bt f) = Some A /\ length A = dofs /\
  forall j, (j < dofs)%nat -> exists X, nth_error A j = Some X /\ Rows X = 6%nat /\ Cols X = 1%nat /\
    forall rho i, (i < 6)%nat -> Meaning rho X i 0%nat = Value (KAbsD f) rho i j.
Proof.
  intros F. destruct T as (T1 & T2 & T3 & T4 & T5 & T6 & T7).
  destruct (absD_columns r place dofs up depth base bt jac fvel quat k_robot k_place k_trav k_dofs k_jac btw k_base k_fvel T1 T2 T3 T4 f F) as (A & E & L & C).
  exists A. split; [exact E|]. split; [exact L|]. intros j Hj. destruct (C j Hj) as (X & EX & D). exists X. split; [exact EX|].
  destruct (D (fun _ _ => 0)) as (_ & R0 & C0 & _). split; [exact R0|]. split; [exact C0|]. intros rho i Hi. destruct (D rho) as (_ & _ & _ & Q). apply Q; auto.
Qed.
End Kinematics.

(** A joint on the way whose index is not smaller than the number of degrees of freedom (a fixed joint that is not
    numbered last) is an access out of the vector of the columns. *)
Theorem C57_out_of_bounds r dofs up w f g c p j : frame_link r f <> frame_link r g -> up (frame_link r f) (frame_link r g) = Some (p, j) -> (dofs <= j)%nat ->
  adjD_cols r dofs up w f g c = None.
Proof.
  intros N U H. unfold adjD_cols, adjD_blocks. apply Nat.eqb_neq in N. rewrite N, U.
  replace (put (repeat (FNull 6 6) dofs) j (FMul (adj w f g) (cross r w j (frame_link r g)))) with (@None (list formula)); [reflexivity|].
  symmetry. clear U N. pose (F := fun j => FMul (adj w f g) (cross r w j (frame_link r g))). change (put (repeat (FNull 6 6) dofs) j (F j) = None). clearbody F. revert j H. induction dofs as [|n IH]; intros j H; [reflexivity|].
  destruct j as [|j]; [lia|]. cbn [repeat put]. assert (P : forall A (l : list A) i a b, put l i a = None -> put l i b = None).
  { induction l as [|x l IHl]; intros i a b E; [reflexivity|]. destruct i as [|i]; [discriminate E|]. cbn in *. destruct (put l i a) eqn:Q; [discriminate E|]. rewrite (IHl i a b Q). reflexivity. }
  rewrite (P _ _ j (F j) (F (S j)) (IH j ltac:(lia))). reflexivity.
Qed.

(** ** A concrete case *)
Example arm_kinematics : kinematics arm place 2 up depth 0 jac (fvel_with btw) btw quat_of.
Proof.
  split; [apply arm_ok|]. split; [apply arm_placement|]. split; [apply arm_traversal|]. split; [cbn; lia|]. split; [cbn; lia|].
  split; [apply arm_jac|]. split; [intros; apply arm_fvel; auto|apply quat_of_ok].
Qed.
Example arm_twist : good_twist arm place 2 up 0 (FVar v_twist) (fun v => (v =? v_twist)%nat) jac (fvel_with btw) quat_of.
Proof.
  split; [reflexivity|]. split; [exact Logic.I|]. split; [reflexivity|]. split; [reflexivity|]. split; [reflexivity|]. split; [reflexivity|].
  intros v Hv rho x i Hi. cbn [meaning]. unfold env_set. apply Nat.eqb_neq in Hv. destruct (Nat.eqb_spec v_twist v); [congruence|reflexivity].
Qed.
(** Frame 4 (shifted along the axis) is neutral, frame 3 (turned by 90 degrees) is not. *)
Example arm_neutral : offset_neutral arm up 0 4.
Proof.
  intros p i j _ U E. cbn in U. injection U as <- <-. cbn in E. injection E as <-.
  unfold axis_of, Adj, m6v. cbn. unfold mv, mm, skew, m3I, vadd, m30, v30. cbn. f_equal; f_equal; ring.
Qed.
Example arm_not_neutral : ~ offset_neutral arm up 0 3.
Proof.
  intros H. specialize (H 0%nat 0%nat hinge ltac:(cbn; lia) eq_refl eq_refl). apply (f_equal (fun a => vz (ang a))) in H.
  unfold axis_of, Adj, m6v in H. cbn in H. lra.
Qed.
Theorem C57_offset_frame_refuted :
  exists r place dofs up depth base bt bt_dep jac fvel btw quat f g c, kinematics r place dofs up depth base jac fvel btw quat /\
    is_frame r f /\ is_frame r g /\ (c < 6)%nat /\
    ~ exists X, derivative r dofs up base bt bt_dep (KAdj false f g) c v_s = Some X /\
        correct_derivative r place dofs up base bt jac fvel quat (KAdj false f g) c v_s X.
Proof.
  pose proof arm_kinematics as AK.
  assert (N : ~ forall c, (c < 6)%nat -> exists X, derivative arm 2 up 0 (FVar v_twist) (fun v => (v =? v_twist)%nat) (KAdj false 0 3) c v_s = Some X /\
     correct_derivative arm place 2 up 0 (FVar v_twist) jac (fvel_with btw) quat_of (KAdj false 0 3) c v_s X).
  { intros H. apply arm_not_neutral. refine (proj1 (C57_adjoint_derivative_iff _ _ _ _ depth _ _ (fun v => (v =? v_twist)%nat) _ _ btw _ AK false 0 3 _ _) H); unfold is_frame; cbn; lia. }
  (* the column: one of the six *)
  assert (EM : forall (P : nat -> Prop) n, ~ (forall c, (c < n)%nat -> P c) -> (forall c, P c \/ ~ P c) -> exists c, (c < n)%nat /\ ~ P c).
  { intros P n H D. induction n as [|n IH]; [exfalso; apply H; intros; lia|]. destruct (D n) as [Y|Y]; [|exists n; split; [lia|exact Y]].
    destruct IH as (c & Hc & NP); [|exists c; split; [lia|exact NP]]. intros A. apply H. intros c Hc. destruct (Nat.eq_dec c n) as [->|]; [exact Y|apply A; lia]. }
  destruct (EM _ 6%nat N ltac:(intros; apply Classical_Prop.classic)) as (c & Hc & NP).
  exists arm, place, 2%nat, up, depth, 0%nat, (FVar v_twist), (fun v => (v =? v_twist)%nat), jac, (fvel_with btw), btw, quat_of, 0%nat, 3%nat, c.
  split; [exact AK|]. split; [unfold is_frame; cbn; lia|]. split; [unfold is_frame; cbn; lia|]. split; [exact Hc|exact NP].
Qed.
(** The hypothesis of the derivative of the quaternion is met by the hinge at zero. *)
Example arm_quaternion_smooth : forall k, (k < 4)%nat ->
  ex_derive (fun x => val arm 2 up 0 (FVar v_twist) (relative arm place) jac (fvel_with btw) quat_of (KQuat 0 1) (at_entry (fun _ _ => 0) v_s 0 x) k 0%nat) 0.
Proof.
  assert (Q : forall x, rot (relative arm place (vset (fun _ => 0) 0 x) 0 1) = Rz x).
  { intros x. rewrite (rel_links arm place arm_ok arm_placement) by (cbn; lia). unfold rl. cbn [KinInstance.place]. rewrite pinv_id, pmul_id_l.
    unfold vset. cbn. reflexivity. }
  intros k Hk. apply ex_derive_ext_loc with (f := fun x => KinExist.K (Rz x) 0 k / (2 * sqrt (2 + 2 * cos x))).
  - exists (mkposreal 1 Rlt_0_1). intros x Hx. cbn [val val1 val0]. rewrite at_same. rewrite Q. unfold quat_of.
    assert (C : 0 < cos x). { apply cos_gt_0; change (Rabs (x - 0) < 1) in Hx; rewrite Rminus_0_r in Hx; apply Rabs_def2 in Hx; pose proof PI2_1; lra. }
    replace (KinExist.K (Rz x) 0 0) with (2 + 2 * cos x) by (cbn; ring).
    destruct (Rlt_dec 0 (2 + 2 * cos x)); [reflexivity|lra].
  - assert (C0 : 0 < 2 + 2 * cos 0) by (rewrite cos_0; lra). pose proof (sqrt_lt_R0 _ C0).
    destruct k as [|[|[|[|k]]]]; [| | | |lia]; cbn; auto_derive; repeat split; lra.
Qed.
Print Assumptions C57_adjoint_value.
Print Assumptions C57_adjoint_object_value.
Print Assumptions C58_jacobian_value.
Print Assumptions C57_adjoint_derivative_links.
Print Assumptions C57_adjoint_derivative_iff.
Print Assumptions C57_second_derivative.
Print Assumptions C57_out_of_bounds.
Print Assumptions C57_offset_frame_refuted.
Print Assumptions C58_jacobian_columns.
Print Assumptions C58_jacobian_derivative.
Print Assumptions C58_position_value.
Print Assumptions C58_rotation_value.
Print Assumptions C58_position_derivative.
Print Assumptions C58_quaternion_value.
Print Assumptions C58_quaternion_derivative.
Print Assumptions C59_relative_velocity.
Print Assumptions C59_relative_velocity_derivative.
Print Assumptions C59_absolute_velocity.
Print Assumptions C59_absolute_velocity_state.
Print Assumptions C59_absolute_velocity_derivative.
Print Assumptions C59_absolute_velocity_columns.
