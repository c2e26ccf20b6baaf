(** C67: the cost of the angular velocity of a frame. *)
From Coq Require Import Reals List Arith Lia Lra Bool FunctionalExtensionality.
From Coquelicot Require Import Coquelicot.
From Verif Require Import Spec PartialLib QuadLib SpecQuaternion SpecDynamics SpecRigid SpecBase SpecFeet SpecCom SpecOri SpecAng SpecDerivatives Rigid RigidCalc KinTree ConstraintsModel CostsModel Quaternion.
From Verif Require Import KinModel KinLib KinMotion KinProofs QuatCurve PropKin BaseModel BaseProofs PropBase SymModel SymKin FeetModel FeetProofs OriCode AngModel AngProofs PropContact PropOri KinExist KinInstance PropCom.
Import ListNotations.
Local Open Scope R_scope.

(** The entries of the state, and those of the control, do not overlap. *)
Definition ang_apart (c : ang_cfg) (dofs : nat) : Prop :=
  apart (fa_pos c) 3 (fa_quat c) 4 /\ apart (fa_pos c) 3 (fa_joints c) dofs /\ apart (fa_quat c) 4 (fa_joints c) dofs /\ apart (fa_quat_vel c) 4 (fa_joints_vel c) dofs.
(** The quaternion of the base is not zero. *)
Definition ang_turned (c : ang_cfg) (x : vec) : Prop := 0 < qnorm2 (part x (fa_quat c) 4).
(** A state of the shared computations with the velocities of the control u. *)
Definition with_velocities (c : ang_cfg) (dofs : nat) (rho : env) (u : vec) : env := env_set (env_set rho v_qdot (part u (fa_quat_vel c) 4)) v_sdot (part u (fa_joints_vel c) dofs).

Section Ang.
Variable r : robot.
Variable place : vec -> nat -> pose.
Variable dofs : nat.
Variable up : nat -> nat -> option (nat * nat).
Variable depth : nat -> nat -> nat.
Variable base : nat.
Variable jac : vec -> nat -> nat -> nat -> v6.
Variable fvel : env -> nat -> v6.
Variable btw : env -> v6.
Variable quat : m3 -> vec.
Variable second : nat -> nat -> m3 -> env -> mat.
Variable c : ang_cfg.
Variable shared : R -> env.
Hypothesis ST : forall t i, shared t v_twist i = 0.
Notation bt := default_twist.
Notation rel := (relative r place).
Notation UE := (ueval r dofs up base bt rel jac fvel quat).
Notation M := (meaning (vdim dofs) urows (ucols dofs) UE).
Notation Cls := (ang_class r dofs up base UE bt twist_dep second).
Notation op := (fa_pos c).
Notation oq := (fa_quat c).
Notation os := (fa_joints c).
Notation oqv := (fa_quat_vel c).
Notation osv := (fa_joints_vel c).
Notation f := (fa_frame c).
Notation k := (fa_gain c).
Notation RX := (ang_state dofs c).

(** Every history of calls, of changes of the reference and of the shared state. *)
Definition ang_reachable : turning -> Prop := kreach Cls ang_other (ang_ctor c shared).
Definition ang_inv (s : turning) : Prop :=
  fa_cfg s = c /\ (forall t i, fa_shared s t v_twist i = 0) /\ vzero_outside (seq oq 4 ++ seq os dofs) (fa_sbuffer s) /\ vzero_outside (seq oqv 4 ++ seq osv dofs) (fa_cbuffer s).
Lemma in_left o n o' n' i : in_range o n i = true -> In i (seq o n ++ seq o' n').
Proof. intros E. apply in_range_spec in E. apply in_or_app. left. apply in_seq. lia. Qed.
Lemma in_right o n o' n' i : in_range o' n' i = true -> In i (seq o n ++ seq o' n').
Proof. intros E. apply in_range_spec in E. apply in_or_app. right. apply in_seq. lia. Qed.
Lemma not_in_left o n o' n' i : in_range o n i = false -> in_range o' n' i = false -> ~ In i (seq o n ++ seq o' n').
Proof.
  intros A B I. apply in_app_or in I. rewrite !in_seq in I. destruct I as [I|I]; [apply (proj2 (in_range_spec o n i)) in I|apply (proj2 (in_range_spec o' n' i)) in I]; congruence.
Qed.
Lemma update_twist s t x : (forall t i, fa_shared s t v_twist i = 0) -> forall t' i, fa_shared (ang_update dofs s t x) t' v_twist i = 0.
Proof. intros Z t' i. unfold ang_update, ang_set_shared. cbn [fa_shared]. unfold at_time. destruct (Req_EM_T t' t); [|apply Z]. apply (Z t i). Qed.
Lemma ang_invariant s : ang_reachable s -> ang_inv s.
Proof.
  induction 1 as [|s t x u _ IH|s t x u g _ IH|s t x u g _ IH|s t x u H _ IH|s t x u H _ IH|s t x u H _ IH|s s' _ IH O].
  - split; [reflexivity|]. split; [exact ST|]. split; intros i _; reflexivity.
  - destruct IH as (E & T & Z & Y). split; [exact E|]. split; [apply update_twist; exact T|]. split; [exact Z|exact Y].
  - destruct IH as (E & T & Z & Y). cbn [k_sgrad ang_class]. unfold ang_sgrad. destruct (fa_desired s t); (split; [exact E|]; split; [exact (update_twist s t x T)|]; split; [|exact Y]); [|exact Z].
    cbn [fst fa_sbuffer ang_set_buffers]. rewrite E. apply seg_outside; [apply in_right|]. apply seg_outside; [apply in_left|exact Z].
  - destruct IH as (E & T & Z & Y). cbn [k_cgrad ang_class]. unfold ang_cgrad. destruct (fa_desired s t); (split; [exact E|]; split; [exact (update_twist s t x T)|]; split; [exact Z|]); [|exact Y].
    cbn [fst fa_cbuffer ang_set_buffers]. rewrite E. apply seg_outside; [apply in_right|]. apply seg_outside; [apply in_left|exact Y].
  - destruct IH as (E & T & Z & Y). cbn [k_shess ang_class]. unfold ang_shess. destruct (fa_desired s t); (split; [exact E|]; split; [exact (update_twist s t x T)|]; split; [exact Z|exact Y]).
  - exact IH.
  - destruct IH as (E & T & Z & Y). cbn [k_mhess ang_class]. unfold ang_mhess. destruct (fa_desired s t); (split; [exact E|]; split; [exact (update_twist s t x T)|]; split; [exact Z|exact Y]).
  - destruct IH as (E & T & Z & Y). destruct O as [s o|s g G]; [destruct o|]; (split; [exact E|]; split; [|split; [exact Z|exact Y]]); auto.
Qed.
Lemma ang_shared_is s t x : fa_cfg s = c -> fa_shared (ang_update dofs s t x) t = RX (fa_shared s t) x.
Proof. intros E. unfold ang_update, ang_set_shared. cbn [fa_shared]. unfold at_time. rewrite E. destruct (Req_EM_T t t); [reflexivity|contradiction]. Qed.

Hypothesis K : kinematics r place dofs up depth base jac fvel btw quat.
Hypothesis F : is_frame r f.
(** Half the squared norm of the velocity of the frame plus the correction, where the joints and the base move with the velocities of the
    shared state, whatever the control is.  The angular part of the velocity of the base is seen in the world. *)
Theorem C67_value s t x u Rd : ang_reachable s -> fa_desired s t = Some Rd -> ang_turned c x -> exists w,
  frame_velocity r place base (part x os dofs) (fa_shared s t v_sdot)
    (V6 (vec3_of (fa_shared s t v_lin)) (world_spin (qunit (part x oq 4)) (fa_shared s t v_qdot))) f w /\
  snd (k_eval Cls s t x u) = Some (turning_cost k Rd (world_rotation r place base f (part x oq 4) (part x op 3) (part x os dofs)) (ang w)).
Proof.
  intros RS ED P. destruct (ang_invariant s RS) as (E & T & _ & _).
  destruct (velocity_value r place dofs up depth base jac fvel btw quat K f F (RX (fa_shared s t) x) P (T t)) as (w & FV & HW). exists w. split; [exact FV|].
  cbn [k_eval ang_class]. unfold ang_eval. cbn [snd]. rewrite ED. rewrite ang_shared_is by exact E. rewrite E. f_equal.
  rewrite (expression_value r place dofs up depth base jac fvel btw quat K f Rd k). cbn [sumn].
  rewrite !(error_value r place dofs up depth base jac fvel btw quat K f F Rd k (RX (fa_shared s t) x) w P HW) by lia.
  change (world_rotation r place base f (part x oq 4) (part x op 3) (part x os dofs)) with (Rf r place base f (RX (fa_shared s t) x)).
  unfold turning_cost. cbn [vent]. field.
Qed.
(** Without a reference the cost and its derivatives report a failure. *)
Theorem C67_unavailable s t x u g H : fa_desired s t = None -> snd (k_eval Cls s t x u) = None /\ snd (k_sgrad Cls s t x u g) = None /\ snd (k_cgrad Cls s t x u g) = None /\
  snd (k_shess Cls s t x u H) = None /\ snd (k_mhess Cls s t x u H) = None.
Proof. intros ED. cbn [k_eval k_sgrad k_cgrad k_shess k_mhess ang_class]. unfold ang_eval, ang_sgrad, ang_cgrad, ang_shess, ang_mhess. rewrite ED. auto. Qed.
(** The setter of the reference: no reference is refused and changes nothing; any other is stored and changes nothing else. *)
Theorem C67_trajectory_setter (s : turning) : ang_set_trajectory s None = (s, false) /\ forall g, snd (ang_set_trajectory s (Some g)) = true /\
  let s' := fst (ang_set_trajectory s (Some g)) in fa_desired s' = g /\ fa_cfg s' = fa_cfg s /\ fa_shared s' = fa_shared s /\ fa_sbuffer s' = fa_sbuffer s /\ fa_cbuffer s' = fa_cbuffer s.
Proof. split; [reflexivity|]. intros g. repeat split; reflexivity. Qed.
(** The Hessians, whatever the expressions of their blocks return, stay inside the declared patterns, and the blocks of
    quaternion and joints are each other's transpose. *)
Lemma block_inside P M0 r0 c0 nr nc V : (forall e, In e (dense_block r0 c0 nr nc) -> In e P) -> zero_outside P M0 -> zero_outside P (set_block M0 r0 c0 nr nc V).
Proof.
  intros I Z i j N. unfold set_block. destruct (in_range r0 nr i && in_range c0 nc j) eqn:E; [|apply Z; exact N].
  exfalso. apply N, I. apply in_dense_block. apply andb_prop in E. rewrite !in_range_spec in E. exists (i - r0)%nat, (j - c0)%nat. split; [lia|]. split; [lia|]. f_equal; lia.
Qed.
Theorem C67_hessian_patterns s t x u H : ang_apart c dofs -> ang_reachable s -> fa_desired s t <> None ->
  (zero_outside (q_shess (ang_supports dofs s)) H -> exists H', snd (k_shess Cls s t x u H) = Some H' /\ zero_outside (q_shess (ang_supports dofs s)) H' /\
     forall a b, in_range oq 4 a = true -> in_range os dofs b = true -> H' a b = H' b a) /\
  (zero_outside (q_mhess (ang_supports dofs s)) H -> exists H', snd (k_mhess Cls s t x u H) = Some H' /\ zero_outside (q_mhess (ang_supports dofs s)) H').
Proof.
  intros (_ & _ & AQS & _) RS ED. destruct (ang_invariant s RS) as (E & _). cbn [k_shess k_mhess ang_class]. unfold ang_shess, ang_mhess, ang_supports. rewrite E. cbn [q_shess q_mhess].
  destruct (fa_desired s t) as [Rd|]; [|contradiction]. cbn [snd]. split; intros Z; eexists; (split; [reflexivity|]).
  - split; [repeat (apply block_inside; [intros e I; rewrite !in_app_iff; tauto|]); exact Z|]. intros a b Ha Hb. unfold set_block.
    rewrite Ha, Hb, (outside _ _ _ _ _ AQS Ha), (outside _ _ _ _ _ (apart_sym _ _ _ _ AQS) Hb). cbn [andb]. reflexivity.
  - repeat (apply block_inside; [intros e I; rewrite !in_app_iff; tauto|]); exact Z.
Qed.
(** The control is not used. *)
Theorem C67_ignores_control s t x u u' g : snd (k_eval Cls s t x u) = snd (k_eval Cls s t x u') /\ snd (k_sgrad Cls s t x u g) = snd (k_sgrad Cls s t x u' g) /\
  snd (k_cgrad Cls s t x u g) = snd (k_cgrad Cls s t x u' g).
Proof. auto. Qed.

(** ** The gradients *)
Hypothesis KA : keeps_axes r f.
Hypothesis AP : ang_apart c dofs.
Lemma ang_unturned : unturned r up base f.
Proof.
  pose proof (base_frame r place dofs up depth base jac fvel btw quat K) as B.
  apply (keeps_unturned r place dofs up depth base jac fvel btw quat K); auto. apply (keeps_all r place dofs up depth base jac fvel btw quat K); auto.
Qed.
Lemma ang_move_q rho x i t : in_range oq 4 i = true -> RX rho (vset x i t) = at_entry (RX rho x) v_q (i - oq) t.
Proof.
  destruct AP as (APQ & APS & AQS & _). intros I. apply env_eq. intros v. unfold at_entry, ang_state, env_set. rewrite !part_vset, I, (outside _ _ _ _ _ (apart_sym _ _ _ _ APQ) I), (outside _ _ _ _ _ AQS I).
  destruct (Nat.eqb_spec v v_s) as [->|N1]; [reflexivity|]. destruct (Nat.eqb_spec v v_p) as [->|N2]; [reflexivity|]. destruct (Nat.eqb_spec v v_q) as [->|N3]; reflexivity.
Qed.
Lemma ang_move_s rho x i t : in_range os dofs i = true -> RX rho (vset x i t) = at_entry (RX rho x) v_s (i - os) t.
Proof.
  destruct AP as (APQ & APS & AQS & _). intros I. apply env_eq. intros v. unfold at_entry, ang_state, env_set. rewrite !part_vset, I, (outside _ _ _ _ _ (apart_sym _ _ _ _ APS) I), (outside _ _ _ _ _ (apart_sym _ _ _ _ AQS) I).
  destruct (Nat.eqb_spec v v_s) as [->|N1]; reflexivity.
Qed.
(** The value does not depend on the position of the base. *)
Lemma expression_only Rd rho rho' : 0 < qnorm2 (rho v_q) -> (forall i, rho v_twist i = 0) -> (forall i, rho' v_twist i = 0) ->
  (forall v, In v [v_s; v_sdot; v_q; v_qdot; v_lin] -> rho v = rho' v) -> M rho (ang_expression base bt Rd k f) 0%nat 0%nat = M rho' (ang_expression base bt Rd k f) 0%nat 0%nat.
Proof.
  intros P T T' A. assert (P' : 0 < qnorm2 (rho' v_q)) by (rewrite <- (A v_q) by (cbn; auto); exact P).
  destruct (velocity_value r place dofs up depth base jac fvel btw quat K f F rho P T) as (w & FV & HW). destruct (velocity_value r place dofs up depth base jac fvel btw quat K f F rho' P' T') as (w' & FV' & HW').
  assert (EW : w = w').
  { assert (ET : the_twist rho = the_twist rho') by (unfold the_twist; rewrite !A by (cbn; auto 9); reflexivity). rewrite <- ET, <- !A in FV' by (cbn; auto 9).
    exact (velocity_unique r place base (k_robot _ _ _ _ _ _ _ _ _ _ K) (k_place _ _ _ _ _ _ _ _ _ _ K) (k_base _ _ _ _ _ _ _ _ _ _ K) _ _ _ f w w' F FV FV'). }
  subst w'. rewrite !(expression_value r place dofs up depth base jac fvel btw quat K f Rd k). f_equal. apply sumn_ext. intros i Hi.
  rewrite (error_value r place dofs up depth base jac fvel btw quat K f F Rd k rho w P HW), (error_value r place dofs up depth base jac fvel btw quat K f F Rd k rho' w P' HW') by auto.
  unfold Rf. rewrite !A by (cbn; auto 9). reflexivity.
Qed.
(** The gradient with respect to the state is the one of the value. *)
Theorem C67_state_gradient s t x u g : ang_reachable s -> fa_desired s t <> None -> ang_turned c x -> exists V g',
  (forall y u', snd (k_eval Cls s t y u') = Some (V y)) /\ snd (k_sgrad Cls s t x u g) = Some g' /\ vzero_outside (q_sgrad (ang_supports dofs s)) g' /\ is_gradient V x g'.
Proof.
  intros RS ED P. destruct (ang_invariant s RS) as (E & T & Z & _). destruct AP as (APQ & APS & AQS & _). destruct (fa_desired s t) as [Rd|] eqn:E1; [|contradiction]. set (rho := fa_shared s t).
  exists (fun y => M (RX rho y) (ang_expression base bt Rd k f) 0%nat 0%nat). cbn [k_eval k_sgrad ang_class]. unfold ang_eval, ang_sgrad, ang_supports. rewrite E1. cbn [snd q_sgrad]. rewrite ang_shared_is by exact E. rewrite E. fold rho.
  eexists. split; [intros y u'; rewrite ang_shared_is by exact E; reflexivity|]. split; [reflexivity|].
  split; [apply seg_outside; [apply in_right|]; apply seg_outside; [apply in_left|exact Z]|].
  intros i. unfold partial, set_seg. pose proof (fun v j => gradient_value r place dofs up depth base jac fvel btw quat K f F Rd k v (RX rho x) j P ang_unturned) as G.
  destruct (in_range oq 4 i) eqn:IQ.
  - rewrite (outside _ _ _ _ _ AQS IQ). pose proof (proj1 (in_range_spec _ _ _) IQ). specialize (G v_q (i - oq)%nat ltac:(change (vdim dofs v_q) with 4%nat; lia)).
    change (RX rho x v_q) with (part x oq 4) in G. rewrite part_in in G by exact IQ. eapply is_derive_ext; [|exact G]. intros t0. cbv beta. rewrite ang_move_q by exact IQ. reflexivity.
  - destruct (in_range os dofs i) eqn:IS.
    + pose proof (proj1 (in_range_spec _ _ _) IS). specialize (G v_s (i - os)%nat ltac:(change (vdim dofs v_s) with dofs; lia)).
      change (RX rho x v_s) with (part x os dofs) in G. rewrite part_in in G by exact IS. eapply is_derive_ext; [|exact G]. intros t0. cbv beta. rewrite ang_move_s by exact IS. reflexivity.
    + rewrite Z by (apply not_in_left; auto). eapply is_derive_ext; [|exact (D_const (M (RX rho x) (ang_expression base bt Rd k f) 0%nat 0%nat) (x i))]. intros t0. cbv beta.
      apply expression_only; [exact P|exact (T t)|exact (T t)|]. intros v [<-|[<-|[<-|[<-|[<-|[]]]]]]; try reflexivity.
      * change (part x os dofs = part (vset x i t0) os dofs). rewrite part_vset, IS. reflexivity.
      * change (part x oq 4 = part (vset x i t0) oq 4). rewrite part_vset, IQ. reflexivity.
Qed.
Lemma ang_move_qv rho x u i t : in_range oqv 4 i = true -> RX (with_velocities c dofs rho (vset u i t)) x = at_entry (RX (with_velocities c dofs rho u) x) v_qdot (i - oqv) t.
Proof.
  destruct AP as (_ & _ & _ & AV). intros I. apply env_eq. intros v. unfold at_entry, ang_state, with_velocities, env_set. rewrite !part_vset, I, (outside _ _ _ _ _ AV I).
  destruct (Nat.eqb_spec v v_s) as [->|N1]; [reflexivity|]. destruct (Nat.eqb_spec v v_p) as [->|N2]; [reflexivity|]. destruct (Nat.eqb_spec v v_q) as [->|N3]; [reflexivity|].
  destruct (Nat.eqb_spec v v_sdot) as [->|N4]; [reflexivity|]. destruct (Nat.eqb_spec v v_qdot) as [->|N5]; reflexivity.
Qed.
Lemma ang_move_sv rho x u i t : in_range osv dofs i = true -> RX (with_velocities c dofs rho (vset u i t)) x = at_entry (RX (with_velocities c dofs rho u) x) v_sdot (i - osv) t.
Proof.
  destruct AP as (_ & _ & _ & AV). intros I. apply env_eq. intros v. unfold at_entry, ang_state, with_velocities, env_set. rewrite !part_vset, I, (outside _ _ _ _ _ (apart_sym _ _ _ _ AV) I).
  destruct (Nat.eqb_spec v v_s) as [->|N1]; [reflexivity|]. destruct (Nat.eqb_spec v v_p) as [->|N2]; [reflexivity|]. destruct (Nat.eqb_spec v v_q) as [->|N3]; [reflexivity|].
  destruct (Nat.eqb_spec v v_sdot) as [->|N4]; reflexivity.
Qed.
(** When the shared state has the velocities of the control, the gradient with respect to the control is the one of the value that the cost has with the velocities of the control. *)
Theorem C67_control_gradient s t x u g : ang_reachable s -> fa_desired s t <> None -> ang_turned c x -> fa_shared s t = with_velocities c dofs (fa_shared s t) u -> exists V g',
  (forall s' u', ang_reachable s' -> fa_desired s' t = fa_desired s t -> fa_shared s' t = with_velocities c dofs (fa_shared s t) u' -> snd (k_eval Cls s' t x u') = Some (V u')) /\
  snd (k_cgrad Cls s t x u g) = Some g' /\ vzero_outside (q_cgrad (ang_supports dofs s)) g' /\ is_gradient V u g'.
Proof.
  intros RS ED P ST'. destruct (ang_invariant s RS) as (E & T & _ & Z). destruct AP as (APQ & APS & AQS & AV). destruct (fa_desired s t) as [Rd|] eqn:E1; [|contradiction]. set (rho := fa_shared s t) in *.
  exists (fun u' => M (RX (with_velocities c dofs rho u') x) (ang_expression base bt Rd k f) 0%nat 0%nat). cbn [k_eval k_cgrad ang_class]. unfold ang_eval, ang_cgrad, ang_supports. rewrite E1. cbn [snd q_cgrad]. rewrite ang_shared_is by exact E. rewrite E. fold rho.
  eexists. split; [|split; [reflexivity|]].
  { intros s' u' RS' ED' SH. destruct (ang_invariant s' RS') as (E' & _). rewrite ED'. rewrite ang_shared_is by exact E'. rewrite SH, E'. reflexivity. }
  split; [apply seg_outside; [apply in_right|]; apply seg_outside; [apply in_left|exact Z]|].
  set (rx := RX (with_velocities c dofs rho u) x). assert (SR : RX rho x = rx) by (unfold rx; rewrite <- ST'; reflexivity).
  intros i. unfold partial, set_seg. rewrite !SR. pose proof (fun v j => gradient_value r place dofs up depth base jac fvel btw quat K f F Rd k v rx j P ang_unturned) as G.
  destruct (in_range oqv 4 i) eqn:IQ.
  - rewrite (outside _ _ _ _ _ AV IQ). pose proof (proj1 (in_range_spec _ _ _) IQ). specialize (G v_qdot (i - oqv)%nat ltac:(change (vdim dofs v_qdot) with 4%nat; lia)).
    change (rx v_qdot) with (part u oqv 4) in G. rewrite part_in in G by exact IQ. eapply is_derive_ext; [|exact G]. intros t0. cbv beta. rewrite ang_move_qv by exact IQ. reflexivity.
  - destruct (in_range osv dofs i) eqn:IS.
    + pose proof (proj1 (in_range_spec _ _ _) IS). specialize (G v_sdot (i - osv)%nat ltac:(change (vdim dofs v_sdot) with dofs; lia)).
      change (rx v_sdot) with (part u osv dofs) in G. rewrite part_in in G by exact IS. eapply is_derive_ext; [|exact G]. intros t0. cbv beta. rewrite ang_move_sv by exact IS. reflexivity.
    + rewrite Z by (apply not_in_left; auto). eapply is_derive_ext; [|exact (D_const (M rx (ang_expression base bt Rd k f) 0%nat 0%nat) (u i))]. intros t0. cbv beta.
      unfold rx, with_velocities. rewrite !part_vset, IQ, IS. reflexivity.
Qed.
End Ang.

(** ** Concrete cases *)
(** The first moving link of the arm; in the control the velocity of the quaternion is at 3, the one of the joints at 7. *)
Definition arm_ang : ang_cfg := {| fa_frame := 1; fa_gain := 2; fa_pos := 0; fa_quat := 3; fa_joints := 7; fa_quat_vel := 3; fa_joints_vel := 7 |}.
(** The shared state when the hinge moves with a. *)
Definition arm_moving (a : R) : env := fun v i => if (v =? v_sdot)%nat then match i with 0%nat => a | _ => 0 end else 0.
Definition arm_class second := ang_class arm 2 up 0 (ueval arm 2 up 0 default_twist (relative arm place) jac (fvel_with btw) quat_of) default_twist twist_dep second.
Definition arm_reach second shared := ang_reachable arm place 2 up 0 jac (fvel_with btw) quat_of second arm_ang shared.
Lemma arm_frame1 : is_frame arm 1. Proof. cbv; lia. Qed.
Lemma arm_axes1 : keeps_axes arm 1.
Proof. intros j. cbn. intros. apply mv_I. Qed.
Lemma arm_ang_apart : ang_apart arm_ang 2. Proof. unfold ang_apart, apart. cbn. lia. Qed.
Lemma arm_ang_turned a b : ang_turned arm_ang (arm_x a b). Proof. exact (arm_quat a b 0 v30). Qed.
Lemma arm_spin_zero n : world_spin n (fun _ => 0) = v30. Proof. unfold world_spin, v30. f_equal; ring. Qed.
(** The angular velocity of the link is the velocity of the hinge. *)
Lemma arm_hinge_velocity a d w : frame_velocity arm place 0 a d (V6 v30 v30) 1 w -> ang w = V3 0 0 (d 0%nat).
Proof.
  intros FV. specialize (FV (fun _ => pid) (fun t i => a i + t * d i) 0).
  assert (MV : moves (fun _ => pid) 0 (V6 v30 v30)).
  { unfold moves, is_derive_m3, is_derive_v3, pid, m3I, mm, mv, skew, v30. cbn. 
    split; [split; [split; [|split]|split; [split; [|split]|split; [|split]]]|split; [|split]]; (auto_derive; [exact Logic.I|ring]). }
  specialize (FV MV). destruct FV as [DR _].
  - apply functional_extensionality. intros i. ring.
  - intros i. auto_derive; [exact Logic.I|ring].
  - destruct w as [l [wx wy wz]]. cbn [ang] in *.
    assert (ER : forall t, rot (pmul pid (relative arm place (fun i => a i + t * d i) 0 1)) = Rz (a 0%nat + t * d 0%nat)).
    { intros t. destruct (arm_links (fun i => a i + t * d i)) as (_ & E & _). rewrite E. unfold pmul, pid. cbn [rot]. apply mm_I_l. }
    destruct DR as ((D00 & D01 & D02) & (D10 & D11 & D12) & (D20 & D21 & D22)). rewrite ER in D00, D10, D20, D21. replace (a 0%nat + 0 * d 0%nat) with (a 0%nat) in D00, D10, D20, D21 by ring.
    pose proof (sin2_cos2 (a 0%nat)) as SC. unfold Rsqr in SC. set (al := a 0%nat) in *. set (dl := d 0%nat) in *.
    assert (U : forall (h g : R -> R) x y z, is_derive h x y -> (forall t, h t = g t) -> is_derive g x z -> y = z).
    { intros h g x y z H E G. apply (D_unique h x y z H). eapply is_derive_ext; [|exact G]. intros t. symmetry. apply E. }
    assert (G0 : forall z : R, is_derive (fun _ : R => z) 0 0) by (intros z; apply (D_const z 0)).
    pose proof (U _ (fun _ => 0) 0 _ 0 D20) as E20. specialize (E20 ltac:(intros t; cbv beta; rewrite ER; reflexivity) (G0 0)).
    pose proof (U _ (fun _ => 0) 0 _ 0 D21) as E21. specialize (E21 ltac:(intros t; cbv beta; rewrite ER; reflexivity) (G0 0)).
    pose proof (U _ (fun t => cos (al + t * dl)) 0 _ (- sin al * dl) D00) as E00. specialize (E00 ltac:(intros t; cbv beta; rewrite ER; reflexivity) ltac:(auto_derive; [exact Logic.I|rewrite Rmult_0_l, Rplus_0_r; ring])).
    pose proof (U _ (fun t => sin (al + t * dl)) 0 _ (cos al * dl) D10) as E10. specialize (E10 ltac:(intros t; cbv beta; rewrite ER; reflexivity) ltac:(auto_derive; [exact Logic.I|rewrite Rmult_0_l, Rplus_0_r; ring])).
    clear - E20 E21 E00 E10 SC. unfold mm, Rz, skew in *. cbn in *. assert (wy = 0) by lra. assert (wx = 0) by lra. subst.
    assert (wz = dl); [|subst; reflexivity]. assert (A1 : sin al * (wz - dl) = 0) by nra. assert (A2 : cos al * (wz - dl) = 0) by nra.
    assert (wz - dl = (sin al * (wz - dl)) * sin al + (cos al * (wz - dl)) * cos al) by (replace (wz - dl) with ((wz - dl) * (sin al * sin al + cos al * cos al)) at 1 by (rewrite SC; ring); ring). rewrite A1, A2 in *. lra.
Qed.
(** Half the square of the velocity of the hinge plus the gain times the sine of its angle. *)
Example arm_angular_cost second shared s t u a b d : (forall t i, shared t v_twist i = 0) -> arm_reach second shared s -> fa_desired s t = Some m3I -> fa_shared s t = arm_moving d ->
  snd (k_eval (arm_class second) s t (arm_x a b) u) = Some ((d + 2 * sin a) * (d + 2 * sin a) / 2).
Proof.
  intros ST RS ED SH. destruct (C67_value arm place 2 up depth 0 jac (fvel_with btw) btw quat_of second arm_ang shared ST arm_kinematics arm_frame1 s t (arm_x a b) u m3I RS ED (arm_ang_turned a b)) as (w & FV & E).
  unfold arm_class. rewrite E. f_equal. rewrite SH in FV. change (arm_moving d v_qdot) with (fun _ : nat => 0) in FV. rewrite arm_spin_zero in FV. change (vec3_of (arm_moving d v_lin)) with v30 in FV.
  rewrite (arm_hinge_velocity _ _ w FV). change (arm_moving d v_sdot 0%nat) with d.
  unfold world_rotation, base_pose. change (fa_quat arm_ang) with 3%nat. rewrite arm_unit. change (fa_joints arm_ang) with 7%nat. change (fa_frame arm_ang) with 1%nat. destruct (arm_links (part (arm_x a b) 7 2)) as (_ & E1 & _). rewrite E1. change (part (arm_x a b) 7 2 0%nat) with a.
  change (fa_gain arm_ang) with 2. unfold turning_cost, turning_error, skew_part, vadd, vscale, pmul, mm, mtr, m3I, Rz. cbn. field.
Qed.
Lemma arm_shared_ok a : forall (t : R) i, (fun _ : R => arm_moving a) t v_twist i = 0. Proof. reflexivity. Qed.
Lemma arm_reached second a d : arm_reach second (fun _ => arm_moving a) (ang_set_shared (ang_ctor arm_ang (fun _ => arm_moving a)) (fun _ => arm_moving d)).
Proof. eapply kreach_other; [apply kreach_init|]. apply ang_other_shared. reflexivity. Qed.
(** The value depends on the history: the same cost, for the same time, state and control, has different values after different uses of the shared computations. *)
Theorem C67_history_independent_refuted second : exists s s' t x u, arm_reach second (fun _ => arm_moving 0) s /\ arm_reach second (fun _ => arm_moving 0) s' /\ ang_turned arm_ang x /\
  fa_desired s t = fa_desired s' t /\ snd (k_eval (arm_class second) s t x u) = Some 0 /\ snd (k_eval (arm_class second) s' t x u) = Some (1 / 2).
Proof.
  exists (ang_set_shared (ang_ctor arm_ang (fun _ => arm_moving 0)) (fun _ => arm_moving 0)), (ang_set_shared (ang_ctor arm_ang (fun _ => arm_moving 0)) (fun _ => arm_moving 1)), 0, (arm_x 0 0), (fun _ => 0).
  split; [apply arm_reached|]. split; [apply arm_reached|]. split; [apply arm_ang_turned|]. split; [reflexivity|].
  split; (rewrite (arm_angular_cost second (fun _ => arm_moving 0) _ 0 _ 0 0 _ (arm_shared_ok 0) (arm_reached second 0 _) eq_refl eq_refl); rewrite sin_0; f_equal; field).
Qed.
(** The gradient with respect to the control is not the one of the value that the cost returns, which does not depend on the control. *)
Theorem C67_control_gradient_refuted second : exists s t x u V g', arm_reach second (fun _ => arm_moving 0) s /\ ang_turned arm_ang x /\
  (forall u', snd (k_eval (arm_class second) s t x u') = Some (V u')) /\ snd (k_cgrad (arm_class second) s t x u (fun _ => 0)) = Some g' /\ ~ is_gradient V u g'.
Proof.
  set (s := ang_set_shared (ang_ctor arm_ang (fun _ => arm_moving 0)) (fun _ => arm_moving 1)). set (u := fun i : nat => match i with 7%nat => 1 | _ => 0 end).
  destruct (C67_control_gradient arm place 2 up depth 0 jac (fvel_with btw) btw quat_of second arm_ang (fun _ => arm_moving 0) (arm_shared_ok 0) arm_kinematics arm_frame1 arm_axes1 arm_ang_apart s 0 (arm_x 0 0) u (fun _ => 0)
    (arm_reached second 0 1) ltac:(discriminate) (arm_ang_turned 0 0)) as (V & g' & EV & EG & _ & G).
  { apply env_eq. intros v. apply functional_extensionality. intros i. unfold s, with_velocities, ang_set_shared, env_set, arm_moving, part. cbn [fa_shared].
    destruct (Nat.eqb_spec v v_sdot) as [->|N1]; [destruct i as [|[|]]; reflexivity|]. destruct (Nat.eqb_spec v v_qdot) as [->|N2]; [|reflexivity]. destruct i as [|[|[|[|]]]]; reflexivity. }
  exists s, 0, (arm_x 0 0), u, (fun _ => 1 / 2), g'. split; [apply arm_reached|]. split; [apply arm_ang_turned|]. split; [|split; [exact EG|]].
  { intros u'. unfold s. rewrite (arm_angular_cost second (fun _ => arm_moving 0) _ 0 _ 0 0 _ (arm_shared_ok 0) (arm_reached second 0 _) eq_refl eq_refl). rewrite sin_0. f_equal. field. }
  intros N. assert (G7 : g' 7%nat = 1).
  { apply (D_unique (fun h => V (vset u 7 h)) 1); [exact (G 7%nat)|]. apply is_derive_ext with (f := fun h => h * h / 2); [|auto_derive; [exact Logic.I|field]].
    intros h. assert (S : Some (V (vset u 7 h)) = Some (h * h / 2)); [|injection S; auto]. rewrite <- (EV (ang_set_shared (ang_ctor arm_ang (fun _ => arm_moving 0)) (fun _ => arm_moving h)) (vset u 7 h)).
    - pose proof (arm_angular_cost second (fun _ => arm_moving 0) _ 0 (vset u 7 h) 0 0 _ (arm_shared_ok 0) (arm_reached second 0 h) eq_refl eq_refl) as Q. unfold arm_class in Q. rewrite Q. rewrite sin_0. f_equal. field.
    - apply arm_reached.
    - reflexivity.
    - apply env_eq. intros v. apply functional_extensionality. intros i. unfold s, with_velocities, ang_set_shared, env_set, arm_moving, part, vset. cbn [fa_shared].
      destruct (Nat.eqb_spec v v_sdot) as [->|N1]; [destruct i as [|[|]]; reflexivity|]. destruct (Nat.eqb_spec v v_qdot) as [->|N2]; [|reflexivity]. destruct i as [|[|[|[|]]]]; reflexivity. }
  pose proof (N 7%nat) as N7. pose proof (D_unique (fun _ : R => 1 / 2) (u 7%nat) (g' 7%nat) 0 N7 (D_const (1 / 2) (u 7%nat))). lra.
Qed.
(** The second derivatives with respect to the control are reported to be all zero, and they are not, also when the shared state has the velocities of the control. *)
Theorem C67_control_hessian_refuted second : exists s t x u V H', arm_reach second (fun _ => arm_moving 0) s /\ ang_turned arm_ang x /\ fa_shared s t = with_velocities arm_ang 2 (fa_shared s t) u /\
  (forall s' u', arm_reach second (fun _ => arm_moving 0) s' -> fa_desired s' t = fa_desired s t -> fa_shared s' t = with_velocities arm_ang 2 (fa_shared s t) u' -> snd (k_eval (arm_class second) s' t x u') = Some (V u')) /\
  snd (k_chess (arm_class second) s t x u (fun _ _ => 0)) = Some H' /\ zero_outside (q_chess (ang_supports 2 s)) H' /\ ~ is_hessian V u H'.
Proof.
  set (s := ang_set_shared (ang_ctor arm_ang (fun _ => arm_moving 0)) (fun _ => arm_moving 0)). set (u := fun _ : nat => 0).
  destruct (C67_control_gradient arm place 2 up depth 0 jac (fvel_with btw) btw quat_of second arm_ang (fun _ => arm_moving 0) (arm_shared_ok 0) arm_kinematics arm_frame1 arm_axes1 arm_ang_apart s 0 (arm_x 0 0) u (fun _ => 0)
    (arm_reached second 0 0) ltac:(discriminate) (arm_ang_turned 0 0)) as (V & g' & EV & EG & _ & G).
  { apply env_eq. intros v. apply functional_extensionality. intros i. unfold s, with_velocities, ang_set_shared, env_set, arm_moving, part. cbn [fa_shared].
    destruct (Nat.eqb_spec v v_sdot) as [->|N1]; [destruct i as [|[|]]; reflexivity|]. destruct (Nat.eqb_spec v v_qdot) as [->|N2]; [|reflexivity]. destruct i as [|[|[|[|]]]]; reflexivity. }
  exists s, 0, (arm_x 0 0), u, V, (fun _ _ => 0). split; [apply arm_reached|]. split; [apply arm_ang_turned|]. split; [|split; [exact EV|split; [reflexivity|split; [intros i j _; reflexivity|]]]].
  { apply env_eq. intros v. apply functional_extensionality. intros i. unfold s, with_velocities, ang_set_shared, env_set, arm_moving, part. cbn [fa_shared].
    destruct (Nat.eqb_spec v v_sdot) as [->|N1]; [destruct i as [|[|]]; reflexivity|]. destruct (Nat.eqb_spec v v_qdot) as [->|N2]; [|reflexivity]. destruct i as [|[|[|[|]]]]; reflexivity. }
  intros (g & GV & GH).
  assert (VV : forall h, V (vset u 7 h) = h * h / 2).
  { intros h. assert (S : Some (V (vset u 7 h)) = Some (h * h / 2)); [|injection S; auto]. rewrite <- (EV (ang_set_shared (ang_ctor arm_ang (fun _ => arm_moving 0)) (fun _ => arm_moving h)) (vset u 7 h)).
    - pose proof (arm_angular_cost second (fun _ => arm_moving 0) _ 0 (vset u 7 h) 0 0 _ (arm_shared_ok 0) (arm_reached second 0 h) eq_refl eq_refl) as Q. unfold arm_class in Q. rewrite Q. rewrite sin_0. f_equal. field.
    - apply arm_reached.
    - reflexivity.
    - apply env_eq. intros v. apply functional_extensionality. intros i. unfold s, with_velocities, ang_set_shared, env_set, arm_moving, part, vset. cbn [fa_shared].
      destruct (Nat.eqb_spec v v_sdot) as [->|N1]; [destruct i as [|[|]]; reflexivity|]. destruct (Nat.eqb_spec v v_qdot) as [->|N2]; [|reflexivity]. destruct i as [|[|[|[|]]]]; reflexivity. }
  assert (GG : forall h, g (vset u 7 h) 7%nat = h).
  { intros h. apply (D_unique (fun l => V (vset u 7 l)) h).
    - pose proof (GV (vset u 7 h) 7%nat) as Q. unfold partial in Q. change (vset u 7 h 7%nat) with h in Q. eapply is_derive_ext; [|exact Q]. intros l. cbv beta. f_equal. apply functional_extensionality. intros i. unfold vset. destruct (i =? 7)%nat; reflexivity.
    - apply is_derive_ext with (f := fun h => h * h / 2); [intros l; symmetry; apply VV|auto_derive; [exact Logic.I|field]]. }
  pose proof (GH 7%nat 7%nat) as Q. unfold partial in Q. apply (Rgt_not_eq 1 0); [lra|]. apply (D_unique (fun l => g (vset u 7 l) 7%nat) (u 7%nat)); [|exact Q].
  eapply is_derive_ext; [intros l; symmetry; apply GG|]. apply (@is_derive_id R_AbsRing).
Qed.
(** The hypotheses of the gradients hold for the arm. *)
Example arm_angular_gradients second : exists s x u, arm_reach second (fun _ => arm_moving 0) s /\ fa_desired s 0 <> None /\ ang_turned arm_ang x /\ fa_shared s 0 = with_velocities arm_ang 2 (fa_shared s 0) u /\
  kinematics arm place 2 up depth 0 jac (fvel_with btw) btw quat_of /\ is_frame arm 1 /\ keeps_axes arm 1 /\ ang_apart arm_ang 2.
Proof.
  exists (ang_set_shared (ang_ctor arm_ang (fun _ => arm_moving 0)) (fun _ => arm_moving 0)), (arm_x 0 0), (fun _ => 0). split; [apply arm_reached|]. split; [discriminate|]. split; [apply arm_ang_turned|]. split.
  - apply env_eq. intros v. apply functional_extensionality. intros i. unfold with_velocities, ang_set_shared, env_set, arm_moving, part. cbn [fa_shared].
    destruct (Nat.eqb_spec v v_sdot) as [->|N1]; [destruct i as [|[|]]; reflexivity|]. destruct (Nat.eqb_spec v v_qdot) as [->|N2]; [|reflexivity]. destruct i as [|[|[|[|]]]]; reflexivity.
  - split; [apply arm_kinematics|]. split; [apply arm_frame1|]. split; [apply arm_axes1|apply arm_ang_apart].
Qed.
Print Assumptions C67_trajectory_setter.
Print Assumptions C67_hessian_patterns.
Print Assumptions C67_value.
Print Assumptions C67_unavailable.
Print Assumptions C67_ignores_control.
Print Assumptions C67_state_gradient.
Print Assumptions C67_control_gradient.
Print Assumptions C67_history_independent_refuted.
Print Assumptions C67_control_gradient_refuted.
Print Assumptions C67_control_hessian_refuted.
