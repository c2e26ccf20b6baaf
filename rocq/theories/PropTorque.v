(** C74: the cost on the static torques (StaticTorquesCost). *)
From Coq Require Import Reals List Arith Lia Lra Bool FunctionalExtensionality.
From Coquelicot Require Import Coquelicot.
From Verif Require Import Spec PartialLib SpecQuaternion.
From Verif Require Import QuatCurve SpecRigid Rigid RigidCalc KinTree KinModel KinLib KinMotion KinUsers KinProofs KinExist KinInstance.
From Verif Require Import SpecBase BaseProofs PropBase SpecFeet SpecMom MomModel MomProofs PropMom SpecStatic StaticModel StaticProofs StaticCalc PropStatic.
From Verif Require Import SpecTorque TorqueModel TorqueProofs CostsModel.
Import ListNotations.
Local Open Scope R_scope.

(** The two feet are fixed to two links, and their forces, the quaternion and the joints are in distinct parts of the state. *)
Definition feet_ok (r : robot) (dofs : nat) (pl : places) (left right : foot) : Prop :=
  let points := foot_points left ++ foot_points right in
  is_frame r (foot_frame left) /\ is_frame r (foot_frame right) /\ frame_link r (foot_frame left) <> frame_link r (foot_frame right) /\
  NoDup (map fst points) /\
  (forall c c' k, In c points -> In c' points -> in_range (fst c) 3 k = true -> in_range (fst c') 3 k = true -> fst c = fst c') /\
  (forall c k, In c points -> in_range (fst c) 3 k = true -> in_range (at_base_quaternion pl) 4 k = false /\ in_range (at_joint_positions pl) dofs k = false) /\
  (forall k, in_range (at_base_quaternion pl) 4 k = true -> in_range (at_joint_positions pl) dofs k = false).

Lemma nodup_l (a b : list nat) : NoDup (a ++ b) -> NoDup a.
Proof. induction a as [|x a IH]; cbn; intros H; [constructor|]. apply NoDup_cons_iff in H. destruct H as [N H]. constructor; [intros I; apply N, in_or_app; auto|auto]. Qed.
Lemma nodup_r (a b : list nat) : NoDup (a ++ b) -> NoDup b.
Proof. induction a as [|x a IH]; cbn; intros H; [exact H|]. apply NoDup_cons_iff in H. apply IH, H. Qed.

Section Torque.
Variable r : robot.
Variable place : vec -> nat -> pose.
Variable dofs : nat.
Variable up : nat -> option (nat * nat).
Variable depth : nat -> nat.
Variable order : list nat.
Variable base : nat.
Variable child : nat -> nat.
Variable inertia : nat -> m6.
Variable pl : places.
Variable left right : foot.
Variable gravity : v3.
Variable torques : vec -> (nat -> v6) -> vec.
Variable derivative : vec -> (nat -> v6) -> mat.
Variable fjac : vec -> nat -> nat -> v6.
Variable joints_of_foot : foot -> vec -> mat.
Variable quaternion_block : vec -> mat.
Variable quaternion_of_foot : foot -> vec -> mat.
Notation aq := (at_base_quaternion pl).
Notation aj := (at_joint_positions pl).
Notation joints x := (part x aj dofs).
Notation rel := (relative r place).
Notation contact := (contact_wrenches r place base dofs pl left right).
Notation from_world := (from_world r place base dofs pl).
Notation foot_wrench := (foot_wrench r place base dofs pl).
Notation axis j := (info_axis r child j).
(** What iDynTree computes: the torques of the wrenches that keep the robot still, and the Jacobian of a frame. *)
Definition computes : Prop :=
  (forall x W f, static_balance r place base up inertia (rest_acceleration pl gravity x) W (joints x) f ->
     forall j jt, (j < dofs)%nat -> nth_error (r_joints r) j = Some jt -> torques x W j = v6dot (axis_of jt (child j)) (f (child j))) /\
  (forall s f i, is_frame r f -> (i < dofs)%nat -> moves (fun x => rel (vset s i x) base f) (s i) (fjac s f i)).
Hypothesis still : still_robot r place dofs up depth order base child.
Hypothesis feet : feet_ok r dofs pl left right.
Hypothesis oracle : computes.

Definition raw (x : vec) (f : foot) (F : nat -> v3) : v6 :=
  vsum (map (fun c => at_point (from_world x (foot_frame f)) (snd c) (F (fst c))) (foot_points f)).
Lemma foot_wrench_eq x f : foot_wrench x f = m6v (AdjW (frame_offset r (foot_frame f))) (raw x f (part3 x)).
Proof.
  unfold TorqueModel.foot_wrench, raw. f_equal.
  rewrite (fold_vsum (fun c => m6v (AdjW (Pose m3I (snd c))) (m6v (AdjW (Pose (from_world x (foot_frame f)) v30)) (V6 (part3 x (fst c)) v30)))), v6add_0_l. reflexivity.
Qed.
Lemma rel_offset s g f : is_frame r f -> (g < r_links r)%nat -> pmul (rel s g (frame_link r f)) (frame_offset r f) = rel s g f.
Proof.
  intros F Hg. destruct still as (rok & plc & _). pose proof (fl_lt r rok f F) as Hf. unfold relative at 1. unfold frame_pose at 2.
  rewrite (fl_link r _ Hf), (fo_link r _ Hf), pmul_id_r, pmul_assoc. reflexivity.
Qed.
Lemma wf_rigid p x f : is_frame r f -> rigid (world_frame r place base dofs pl p x f).
Proof.
  intros F. destruct still as (rok & plc & _ & _ & _ & Hb & _). unfold world_frame. apply rigid_mul; [apply base_rotation_always|].
  apply (rel_rigid r place rok plc); [apply link_ok; exact Hb|exact F].
Qed.
Lemma foot_load_eq p x f : is_frame r (foot_frame f) ->
  m6v (AdjW (pinv (world_frame r place base dofs pl p x (frame_link r (foot_frame f))))) (foot_load r place base dofs pl p x f) = foot_wrench x f.
Proof.
  intros F. destruct still as (rok & plc & _ & _ & _ & Hb & _). pose proof (fl_lt r rok _ F) as Hf. rewrite foot_wrench_eq.
  set (Wl := world_frame r place base dofs pl p x (frame_link r (foot_frame f))). set (o := frame_offset r (foot_frame f)).
  assert (RO : rigid o) by (apply (fo_rigid r rok); exact F). assert (RL : rigid Wl) by (apply wf_rigid, link_ok; exact Hf).
  assert (E : world_frame r place base dofs pl p x (foot_frame f) = pmul Wl o).
  { unfold Wl, o, world_frame. rewrite pmul_assoc, rel_offset; auto. }
  assert (Q : pinv Wl = pmul o (pinv (pmul Wl o))). { rewrite pinv_mul by exact RL. rewrite <- pmul_assoc, pinv_r, pmul_id_l by exact RO. reflexivity. }
  rewrite Q, AdjW_mul, m6v_mul by exact RO. f_equal. rewrite <- E. unfold foot_load, raw. rewrite vsum_m6v, map_map. f_equal. apply map_ext. intros c.
  rewrite applied_eq by (apply wf_rigid; exact F). reflexivity.
Qed.
(** What the feet do to the links is what the contact forces do to them; where the base is has no influence. *)
Lemma contact_eq p x l : (l < r_links r)%nat -> contact x l = contact_load r place base dofs pl p x [left; right] l.
Proof.
  intros Hl. destruct feet as (FL & FR & NE & _). unfold contact_load, contact_wrenches. cbn [map vsum fold_right]. rewrite v6add_0_r, m6v_add.
  rewrite (Nat.eqb_sym l), (Nat.eqb_sym l).
  destruct (Nat.eqb_spec (frame_link r (foot_frame right)) l) as [E|E], (Nat.eqb_spec (frame_link r (foot_frame left)) l) as [E'|E'].
  - congruence.
  - subst l. rewrite foot_load_eq by exact FR. rewrite m6v_0, v6add_0_l. reflexivity.
  - subst l. rewrite foot_load_eq by exact FL. rewrite m6v_0, v6add_0_r. reflexivity.
  - rewrite m6v_0, v6add_0_r. reflexivity.
Qed.

(** ** One variable of the state changes *)
Lemma part_vset x e t o n : in_range o n e = false -> part (vset x e t) o n = part x o n.
Proof.
  intros H. extensionality i. unfold part. destruct (Nat.ltb_spec i n) as [L|L]; [|reflexivity]. unfold vset. destruct (Nat.eqb_spec (o + i) e) as [E|E]; [|reflexivity].
  subst e. exfalso. unfold in_range in H. apply andb_false_iff in H. destruct H as [H|H]; [apply Nat.leb_gt in H|apply Nat.ltb_ge in H]; lia.
Qed.
Definition unit3 (e o : nat) : v3 := V3 (if (o =? e)%nat then 1 else 0) (if (o + 1 =? e)%nat then 1 else 0) (if (o + 2 =? e)%nat then 1 else 0).
Lemma part3_vset x e t o : part3 (vset x e t) o = vadd (part3 x o) (vscale (t - x e) (unit3 e o)).
Proof.
  unfold part3, vset, vadd, vscale, unit3. cbn.
  destruct (Nat.eqb_spec o e) as [->|]; [|]; (destruct (Nat.eqb_spec (o + 1) e) as [<-|] || destruct (Nat.eqb_spec (e + 1) e) as [|]);
    repeat match goal with |- context [(?a =? ?b)%nat] => destruct (Nat.eqb_spec a b) as [E|E]; [try (exfalso; lia)|try (exfalso; lia)] end; try lia; try rewrite E; f_equal; ring.
Qed.
Definition fixed_part (e : nat) : Prop := in_range aq 4 e = false /\ in_range aj dofs e = false.
Lemma from_world_vset x e t f : fixed_part e -> from_world (vset x e t) f = from_world x f.
Proof. intros (Q & J). unfold TorqueModel.from_world. rewrite (part_vset x e t aq 4 Q), (part_vset x e t aj dofs J). reflexivity. Qed.
Lemma foot_wrench_vset x e t f : fixed_part e ->
  foot_wrench (vset x e t) f = v6add (foot_wrench x f) (v6scale (t - x e) (m6v (AdjW (frame_offset r (foot_frame f))) (raw x f (unit3 e)))).
Proof.
  intros P. rewrite !foot_wrench_eq, <- m6v_scale, <- m6v_add. f_equal. unfold raw. rewrite <- vsum_scale, <- vsum_add. f_equal. apply map_ext. intros c.
  rewrite (from_world_vset x e t _ P), part3_vset, at_point_add, at_point_scale. reflexivity.
Qed.
Lemma rest_vset x e t : fixed_part e -> rest_acceleration pl gravity (vset x e t) = rest_acceleration pl gravity x.
Proof. intros (Q & _). unfold rest_acceleration. rewrite (part_vset x e t aq 4 Q). reflexivity. Qed.

(** The joint columns of the Jacobian of a foot do the work of its wrench. *)
Lemma foot_work s f j jt : is_frame r f -> (j < dofs)%nat -> nth_error (r_joints r) j = Some jt -> forall w,
  (above up base (frame_link r f) (child j) -> v6dot (axis_of jt (child j)) (m6v (AdjW (rel s (child j) (frame_link r f))) (m6v (AdjW (frame_offset r f)) w)) = v6dot (fjac s f j) w) /\
  (~ above up base (frame_link r f) (child j) -> v6dot (fjac s f j) w = 0).
Proof.
  intros F Hj EJ w. destruct still as (rok & plc & trav & ord & one & Hb & kids & crossed). pose proof (fl_lt r rok f F) as Hf.
  destruct (path_exists r base up depth trav Hb _ Hf) as (l & P & _).
  assert (Fb := link_ok r base Hb). destruct (crossed j Hj) as (Hc & Nc & p & U).
  destruct (rel_moves r place rok plc base up depth trav Hb s base f l j Fb F (fl_link r base Hb) P) as [M C].
  pose proof (chain_joint r dofs up depth base child trav Hb kids crossed (frame_link r f) l j Hf Hj P) as CJ.
  pose proof (proj2 oracle s f j F Hj) as J.
  assert (RG : forall x, rigid (rel x base f)) by (intros; apply (rel_rigid r place rok plc); [exact Fb|exact F]).
  split; intros H.
  - apply CJ in H. destruct H as (c & q & I). destruct (path_step r base up depth trav Hb _ _ _ _ _ P Hf I) as (Hc' & Nc' & Uc & _).
    pose proof (kids c q j Hc' Nc' Uc) as Ec. subst c. specialize (M _ _ jt I EJ).
    rewrite (moves_unique _ _ _ _ (RG _) J M).
    assert (RO : rigid (rel s (child j) (frame_link r f))) by (apply (rel_rigid r place rok plc); apply link_ok; auto).
    rewrite <- m6v_mul, <- AdjW_mul by exact RO. rewrite rel_offset by auto.
    rewrite <- (rel_inv r place rok plc s f (child j)) by (auto; apply link_ok; auto). apply dual.
    apply (rel_rigid r place rok plc); [exact F|apply link_ok; exact Hc].
  - assert (Z : fjac s f j = v60).
    { refine (moves_unique _ _ _ _ (RG _) J _). eapply moves_ext; [|apply moves_const]. intros x. symmetry. apply C. intros c q I. apply H, CJ. eauto. }
    rewrite Z. apply v6dot_zero_l.
Qed.
Lemma joint_of j : (j < dofs)%nat -> exists jt, nth_error (r_joints r) j = Some jt.
Proof.
  intros Hj. destruct still as (rok & plc & trav & ord & one & Hb & kids & crossed).
  destruct (joint_at r dofs up depth base child trav one Hb crossed j Hj) as (jt & p & E & _). eauto.
Qed.
Definition rate (x : vec) (e j : nat) : R :=
  v6dot (fjac (joints x) (foot_frame left) j) (raw x left (unit3 e)) + v6dot (fjac (joints x) (foot_frame right) j) (raw x right (unit3 e)).
Lemma torque_change x e t j : fixed_part e -> (j < dofs)%nat ->
  torques (vset x e t) (contact (vset x e t)) j = torques x (contact x) j - (t - x e) * rate x e j.
Proof.
  intros P Hj. destruct (joint_of j Hj) as (jt & EJ). pose proof still as ST. destruct ST as (rok & plc & trav & ord & one & Hb & kids & crossed).
  destruct feet as (FL & FR & NE & _). pose proof (fl_lt r rok _ FL) as HL. pose proof (fl_lt r rok _ FR) as HR.
  destruct (crossed j Hj) as (Hc & Nc & _).
  set (A := rest_acceleration pl gravity x). set (s := joints x).
  set (dL := v6scale (t - x e) (m6v (AdjW (frame_offset r (foot_frame left))) (raw x left (unit3 e)))).
  set (dR := v6scale (t - x e) (m6v (AdjW (frame_offset r (foot_frame right))) (raw x right (unit3 e)))).
  set (W1 := contact x). set (W2 := fun l => if (l =? frame_link r (foot_frame left))%nat then v6add (W1 l) dL else W1 l). set (W3 := contact (vset x e t)).
  destruct (C73_balance_exists r place dofs up depth order base child inertia still A W1) as (f1 & B1). specialize (B1 s).
  destruct (C73_balance_exists r place dofs up depth order base child inertia still A W2) as (f2 & B2). specialize (B2 s).
  destruct (C73_balance_exists r place dofs up depth order base child inertia still A W3) as (f3 & B3). specialize (B3 s).
  assert (E1 : torques x W1 j = v6dot (axis_of jt (child j)) (f1 s (child j))) by (apply (proj1 oracle x W1 (f1 s)); auto).
  assert (E3 : torques (vset x e t) W3 j = v6dot (axis_of jt (child j)) (f3 s (child j))).
  { apply (proj1 oracle (vset x e t) W3 (f3 s)); auto. rewrite (rest_vset x e t P), (part_vset x e t aj dofs (proj2 P)). exact B3. }
  assert (S12 : forall l, (l < r_links r)%nat -> W2 l = if (l =? frame_link r (foot_frame left))%nat then v6add (W1 l) dL else W1 l) by reflexivity.
  assert (S23 : forall l, (l < r_links r)%nat -> W3 l = if (l =? frame_link r (foot_frame right))%nat then v6add (W2 l) dR else W2 l).
  { intros l _. unfold W3, W2, W1, contact_wrenches. rewrite !(foot_wrench_vset x e t _ P). fold dL dR.
    destruct (Nat.eqb_spec l (frame_link r (foot_frame right))) as [E|E], (Nat.eqb_spec l (frame_link r (foot_frame left))) as [E'|E']; congruence. }
  destruct (load_effect r place up depth base inertia rok plc trav Hb A s W1 W2 _ dL _ _ HL S12 B1 B2 (child j) Hc Nc) as [X1 Y1].
  destruct (load_effect r place up depth base inertia rok plc trav Hb A s W2 W3 _ dR _ _ HR S23 B2 B3 (child j) Hc Nc) as [X2 Y2].
  destruct (foot_work s _ j jt FL Hj EJ (raw x left (unit3 e))) as [L1 L2]. destruct (foot_work s _ j jt FR Hj EJ (raw x right (unit3 e))) as [R1 R2].
  assert (T2 : v6dot (axis_of jt (child j)) (f2 s (child j)) = v6dot (axis_of jt (child j)) (f1 s (child j)) - (t - x e) * v6dot (fjac s (foot_frame left) j) (raw x left (unit3 e))).
  { destruct (ab_dec r base up depth trav Hb _ (child j) HL) as [H|H].
    - rewrite (X1 H), v6dot_add_r, v6dot_opp_r. unfold dL. rewrite m6v_scale, v6dot_scale_r, (L1 H). ring.
    - rewrite (Y1 H), (L2 H). ring. }
  assert (T3 : v6dot (axis_of jt (child j)) (f3 s (child j)) = v6dot (axis_of jt (child j)) (f2 s (child j)) - (t - x e) * v6dot (fjac s (foot_frame right) j) (raw x right (unit3 e))).
  { destruct (ab_dec r base up depth trav Hb _ (child j) HR) as [H|H].
    - rewrite (X2 H), v6dot_add_r, v6dot_opp_r. unfold dR. rewrite m6v_scale, v6dot_scale_r, (R1 H). ring.
    - rewrite (Y2 H), (R2 H). ring. }
  fold W1 W3. rewrite E3, E1, T3, T2. unfold rate. fold s. ring.
Qed.
Lemma torque_partial x e j : fixed_part e -> (j < dofs)%nat -> partial (fun y => torques y (contact y) j) x e (- rate x e j).
Proof.
  intros P Hj. unfold partial. eapply is_derive_ext; [intros t; symmetry; exact (torque_change x e t j P Hj)|]. auto_derive; [exact Logic.I|ring].
Qed.

(** ** The cost *)
Notation Eval := (tc_eval r place base dofs pl left right torques).
Notation Jacobian := (torques_jacobian r place base dofs pl left right derivative fjac joints_of_foot quaternion_block quaternion_of_foot).
Notation Sgrad := (tc_sgrad r place base dofs pl left right torques derivative fjac joints_of_foot quaternion_block quaternion_of_foot).
Notation points := (foot_points left ++ foot_points right).
(** The torques the cost uses are those that hold the robot still under its weight and the contact forces. *)
Lemma torques_right x tau : static_torques r place base dofs up inertia child pl gravity [left; right] x tau ->
  forall j, (j < dofs)%nat -> torques x (contact x) j = tau j.
Proof.
  intros (f & B & T) j Hj. destruct (joint_of j Hj) as (jt & EJ). rewrite (T j jt Hj EJ). apply (proj1 oracle x (contact x) f); auto.
  intros l Hl. rewrite (contact_eq v30 x l Hl). apply B. exact Hl.
Qed.
(** The value: half the weighted sum of the squares of the torques that hold the robot still. *)
Theorem C74_value s x tau : static_torques r place base dofs up inertia child pl gravity [left; right] x tau ->
  Eval s x = 1 / 2 * sumn dofs (fun j => snd (tc_weights s) j * (tau j * tau j)).
Proof.
  intros T. unfold tc_eval, compute_torques. f_equal. apply sumn_ext. intros j Hj. rewrite (torques_right x tau T j Hj). ring.
Qed.
(** There is exactly one vector of such torques. *)
Theorem C74_torques_exist x : exists tau, static_torques r place base dofs up inertia child pl gravity [left; right] x tau.
Proof.
  destruct (C73_balance_exists r place dofs up depth order base child inertia still (rest_acceleration pl gravity x) (contact_load r place base dofs pl v30 x [left; right])) as (f & B).
  exists (fun j => v6dot (axis_of (nth j (r_joints r) no_joint) (child j)) (f (joints x) (child j))), (f (joints x)). split; [apply B|].
  intros j jt _ E. rewrite (nth_error_nth _ _ no_joint E). reflexivity.
Qed.

Lemma sum6 (a : v6) (g : nat -> R) : sumn 6 (fun i => v6ent a i * g i) = v6dot a (V6 (V3 (g 0%nat) (g 1%nat) (g 2%nat)) (V3 (g 3%nat) (g 4%nat) (g 5%nat))).
Proof. destruct a as [[] []]. unfold v6dot, vdot, v6ent, vent. cbn. ring. Qed.
Definition column (x : vec) (f : foot) (c : v3) (k : nat) : v6 := at_point (from_world x (foot_frame f)) c (unit3 k 0).
Lemma force_block_eq x f c j k : (k < 3)%nat -> force_block r place base dofs pl fjac x f c j k = - v6dot (fjac (joints x) (foot_frame f) j) (column x f c k).
Proof.
  intros Hk. unfold force_block. rewrite sum6. unfold column. rewrite at_point_eq. do 2 f_equal.
  generalize (from_world x (foot_frame f)). intros [a b d e g h i l m]. destruct c as [c1 c2 c3].
  destruct k as [|[|[|k]]]; [| | |lia]; unfold unit3, ment, mm, mv, SpecRigid.skew; cbn; f_equal; f_equal; ring.
Qed.
Lemma unit3_shift e o : in_range o 3 e = true -> unit3 e o = unit3 (e - o) 0.
Proof.
  intros H. apply andb_true_iff in H. destruct H as [H1 H2]. apply Nat.leb_le in H1. apply Nat.ltb_lt in H2. assert (E : exists k, (k < 3)%nat /\ e = (o + k)%nat) by (exists (e - o)%nat; lia).
  destruct E as (k & Hk & ->). replace (o + k - o)%nat with k by lia. unfold unit3.
  destruct k as [|[|[|k]]]; [| | |lia]; cbn;
    repeat match goal with |- context [(?a =? ?b)%nat] => destruct (Nat.eqb_spec a b); try lia end; reflexivity.
Qed.
Lemma unit3_out e o : in_range o 3 e = false -> unit3 e o = v30.
Proof.
  intros H. apply andb_false_iff in H. unfold unit3, v30.
  destruct (Nat.eqb_spec o e), (Nat.eqb_spec (o + 1) e), (Nat.eqb_spec (o + 2) e); try reflexivity;
    (exfalso; destruct H as [H|H]; [apply Nat.leb_gt in H|apply Nat.ltb_ge in H]; lia).
Qed.
Lemma at_point_0 R c : at_point R c v30 = v60.
Proof. rewrite at_point_eq, !mv_0. reflexivity. Qed.
Lemma raw_out x f e : (forall c, In c (foot_points f) -> in_range (fst c) 3 e = false) -> raw x f (unit3 e) = v60.
Proof.
  unfold raw. induction (foot_points f) as [|c l IH]; intros H; [reflexivity|]. cbn [map vsum fold_right]. fold (vsum (map (fun c => at_point (from_world x (foot_frame f)) (snd c) (unit3 e (fst c))) l)).
  rewrite IH by (intros c' I; apply H; right; exact I). rewrite (unit3_out e (fst c)) by (apply H; left; reflexivity). rewrite at_point_0. apply v6add_0_l.
Qed.
Lemma raw_in x f e c : NoDup (map fst (foot_points f)) -> In c (foot_points f) -> in_range (fst c) 3 e = true ->
  (forall c', In c' (foot_points f) -> in_range (fst c') 3 e = true -> fst c' = fst c) -> raw x f (unit3 e) = column x f (snd c) (e - fst c).
Proof.
  unfold raw. induction (foot_points f) as [|a l IH]; intros ND I H U; [contradiction|]. cbn [map vsum fold_right].
  fold (vsum (map (fun c => at_point (from_world x (foot_frame f)) (snd c) (unit3 e (fst c))) l)). cbn [map] in ND. apply NoDup_cons_iff in ND. destruct ND as [N ND].
  destruct I as [->|I].
  - replace (vsum _) with v60; [rewrite v6add_0_r; unfold column; rewrite (unit3_shift e _ H); reflexivity|]. symmetry.
    assert (O : forall c', In c' l -> in_range (fst c') 3 e = false).
    { intros c' I'. destruct (in_range (fst c') 3 e) eqn:Q; [|reflexivity]. exfalso. apply N. rewrite <- (U c' (or_intror I') Q). apply in_map. exact I'. }
    clear - O. induction l as [|c' l IH]; [reflexivity|]. cbn [map vsum fold_right]. fold (vsum (map (fun c => at_point (from_world x (foot_frame f)) (snd c) (unit3 e (fst c))) l)).
    rewrite IH by (intros b Ib; apply O; right; exact Ib). rewrite (unit3_out e (fst c')) by (apply O; left; reflexivity). rewrite at_point_0. apply v6add_0_l.
  - rewrite (unit3_out e (fst a)), at_point_0, v6add_0_l.
    + apply IH; auto. intros c' I' Q. apply U; [right; exact I'|exact Q].
    + destruct (in_range (fst a) 3 e) eqn:Q; [|reflexivity]. exfalso. apply N. rewrite (U a (or_introl eq_refl) Q). apply in_map. exact I.
Qed.
(** The blocks of the forces of a foot, after the loop. *)
Lemma force_loop x f j e : (j < dofs)%nat -> forall l J,
  let F := fold_left (fun J c => set_block J 0 (fst c) dofs 3 (force_block r place base dofs pl fjac x f (snd c))) l J in
  ((forall c, In c l -> in_range (fst c) 3 e = false) -> F j e = J j e) /\
  (forall c, NoDup (map fst l) -> In c l -> in_range (fst c) 3 e = true -> (forall c', In c' l -> in_range (fst c') 3 e = true -> fst c' = fst c) ->
     F j e = - v6dot (fjac (joints x) (foot_frame f) j) (column x f (snd c) (e - fst c))).
Proof.
  intros Hj. assert (R0 : in_range 0 dofs j = true) by (apply andb_true_iff; split; [apply Nat.leb_le; lia|apply Nat.ltb_lt; lia]).
  induction l as [|a l IH]; intros J; cbn zeta; cbn [fold_left]; [split; [reflexivity|intros; contradiction]|].
  destruct (IH (set_block J 0 (fst a) dofs 3 (force_block r place base dofs pl fjac x f (snd a)))) as [O I]. split.
  - intros H. rewrite O by (intros c C; apply H; right; exact C). unfold set_block. rewrite (H a (or_introl eq_refl)), andb_false_r. reflexivity.
  - intros c ND IC Q U. cbn [map] in ND. apply NoDup_cons_iff in ND. destruct ND as [N ND]. destruct IC as [->|IC].
    + rewrite O.
      * unfold set_block. rewrite R0, Q. cbn [andb]. rewrite Nat.sub_0_r. apply force_block_eq.
        apply andb_true_iff in Q. destruct Q as [Q1 Q2]. apply Nat.leb_le in Q1. apply Nat.ltb_lt in Q2. lia.
      * intros c' I'. destruct (in_range (fst c') 3 e) eqn:Q'; [|reflexivity]. exfalso. apply N. rewrite <- (U c' (or_intror I') Q'). apply in_map. exact I'.
    + apply I; auto. intros c' I' Q'. apply U; [right; exact I'|exact Q'].
Qed.
Lemma blocks x f J j e : (j < dofs)%nat -> fixed_part e ->
  foot_jacobians r place base dofs pl fjac joints_of_foot quaternion_of_foot x f J j e =
  fold_left (fun J c => set_block J 0 (fst c) dofs 3 (force_block r place base dofs pl fjac x f (snd c))) (foot_points f) J j e.
Proof. intros Hj (Q & P). unfold foot_jacobians, set_block at 1 2. rewrite Q, P, !andb_false_r. reflexivity. Qed.
(** The columns of the forces: the derivative of the torques, whatever the buffer held. *)
Theorem C74_force_columns s x c k : In c points -> in_range (fst c) 3 k = true ->
  forall j, (j < dofs)%nat -> partial (fun y => torques y (contact y) j) x k (Jacobian s x j k).
Proof.
  intros I H j Hj. pose proof feet as (FL & FR & NE & ND & U & AP & _). assert (P : fixed_part k) by (apply (AP c k I H)).
  assert (NL : NoDup (map fst (foot_points left)) /\ NoDup (map fst (foot_points right)) /\ forall a b, In a (foot_points left) -> In b (foot_points right) -> fst a <> fst b).
  { rewrite map_app in ND. split; [exact (nodup_l _ _ ND)|]. split; [exact (nodup_r _ _ ND)|]. intros a b A B E.
    clear - ND A B E. induction (foot_points left) as [|d l IH]; [contradiction|]. cbn in ND. apply NoDup_cons_iff in ND. destruct ND as [N ND].
    destruct A as [->|A]; [|apply IH; auto]. apply N. apply in_or_app. right. rewrite E. apply in_map. exact B. }
  destruct NL as (NL & NR & DIS).
  pose proof (torque_partial x k j P Hj) as D. replace (Jacobian s x j k) with (- rate x k j); [exact D|].
  unfold torques_jacobian. rewrite (blocks x right _ j k Hj P). unfold rate.
  apply in_app_or in I. destruct I as [I|I].
  - assert (O : forall c', In c' (foot_points right) -> in_range (fst c') 3 k = false).
    { intros c' I'. destruct (in_range (fst c') 3 k) eqn:Q; [|reflexivity]. exfalso. apply (DIS c c' I I'). apply (U c c' k); auto; apply in_or_app; auto. }
    rewrite (proj1 (force_loop x right j k Hj (foot_points right) _) O), (blocks x left _ j k Hj P).
    rewrite (raw_out x right k O), v6dot_zero.
    assert (UL : forall c', In c' (foot_points left) -> in_range (fst c') 3 k = true -> fst c' = fst c) by (intros c' I' Q; apply (U c' c k); auto; apply in_or_app; auto).
    rewrite (proj2 (force_loop x left j k Hj (foot_points left) _) c NL I H UL), (raw_in x left k c NL I H UL). rewrite <- Rplus_0_r at 1. ring.
  - assert (O : forall c', In c' (foot_points left) -> in_range (fst c') 3 k = false).
    { intros c' I'. destruct (in_range (fst c') 3 k) eqn:Q; [|reflexivity]. exfalso. apply (DIS c' c I' I). apply (U c' c k); auto; apply in_or_app; auto. }
    rewrite (raw_out x left k O), v6dot_zero.
    assert (UR : forall c', In c' (foot_points right) -> in_range (fst c') 3 k = true -> fst c' = fst c) by (intros c' I' Q; apply (U c' c k); auto; apply in_or_app; auto).
    rewrite (proj2 (force_loop x right j k Hj (foot_points right) _) c NR I H UR), (raw_in x right k c NR I H UR). ring.
Qed.

(** The costs that can be obtained: constructed, weights set, gradients computed, in any order. *)
Inductive reachable : torque_cost -> Prop :=
| reach_ctor : reachable (tc_ctor dofs)
| reach_weights s n w : reachable s -> reachable (fst (tc_set_weights s n w))
| reach_sgrad s x : reachable s -> reachable (fst (Sgrad s x))
| reach_cgrad s x : reachable s -> reachable (fst (tc_cgrad s x)).
Definition in_force (k : nat) : bool := existsb (fun c => in_range (fst c) 3 k) points.
Definition written (k : nat) : bool := in_range aj dofs k || in_range aq 4 k || in_force k.
Definition slope (s : torque_cost) (x : vec) (k : nat) : R := sumn dofs (fun j => torques x (contact x) j * snd (tc_weights s) j * Jacobian s x j k).
Lemma seg_loop (g : nat -> nat -> R) h : (forall o k, in_range o 3 k = true -> g o (k - o)%nat = h k) -> forall (l : list (nat * v3)) G k,
  fold_left (fun G c => set_seg G (fst c) 3 (g (fst c))) l G k = if existsb (fun c => in_range (fst c) 3 k) l then h k else G k.
Proof.
  intros E. induction l as [|c l IH]; intros G k; cbn [fold_left existsb]; [reflexivity|]. rewrite IH. unfold set_seg.
  destruct (in_range (fst c) 3 k) eqn:H; cbn [orb]; [|reflexivity]. rewrite (E _ _ H). destruct (existsb _ l); reflexivity.
Qed.
Lemma in_range_le o n k : in_range o n k = true -> (o + (k - o))%nat = k.
Proof. intros H. apply andb_true_iff in H. destruct H as [H _]. apply Nat.leb_le in H. lia. Qed.
Lemma gradient_entry s x k : snd (Sgrad s x) k = if written k then slope s x k else tc_gradient s k.
Proof.
  set (g := fun o k => sumn dofs (fun j => compute_torques r place base dofs pl left right torques x j * snd (tc_weights s) j * Jacobian s x j (o + k)%nat)).
  assert (E : forall o n k, in_range o n k = true -> g o (k - o)%nat = slope s x k) by (intros o n k' H; unfold g; rewrite (in_range_le _ _ _ H); reflexivity).
  transitivity (fold_left (fun G c => set_seg G (fst c) 3 (g (fst c))) (foot_points right) (fold_left (fun G c => set_seg G (fst c) 3 (g (fst c))) (foot_points left)
    (set_seg (set_seg (tc_gradient s) aj dofs (g aj)) aq 4 (g aq))) k); [reflexivity|].
  rewrite !(seg_loop g (slope s x)) by (intros o k' H; exact (E o 3%nat k' H)). unfold written, in_force. rewrite existsb_app.
  destruct (existsb (fun c => in_range (fst c) 3 k) (foot_points right)); [rewrite !orb_true_r; reflexivity|].
  destruct (existsb (fun c => in_range (fst c) 3 k) (foot_points left)); [rewrite !orb_true_r; reflexivity|]. cbn [orb]. rewrite !orb_false_r. unfold set_seg.
  destruct (in_range aq 4 k) eqn:Q; [rewrite orb_true_r; exact (E _ _ _ Q)|]. destruct (in_range aj dofs k) eqn:J; [exact (E _ _ _ J)|reflexivity].
Qed.
(** The Jacobian of the torques does not depend on the calls made before. *)
Lemma force_loop_ext x f j k : forall l J J', J j k = J' j k ->
  fold_left (fun J c => set_block J 0 (fst c) dofs 3 (force_block r place base dofs pl fjac x f (snd c))) l J j k =
  fold_left (fun J c => set_block J 0 (fst c) dofs 3 (force_block r place base dofs pl fjac x f (snd c))) l J' j k.
Proof. induction l as [|c l IH]; intros J J' E; [exact E|]. cbn [fold_left]. apply IH. unfold set_block. rewrite E. reflexivity. Qed.
Lemma foot_ext x f j k J J' : J j k = J' j k ->
  foot_jacobians r place base dofs pl fjac joints_of_foot quaternion_of_foot x f J j k = foot_jacobians r place base dofs pl fjac joints_of_foot quaternion_of_foot x f J' j k.
Proof.
  intros E. pose proof (force_loop_ext x f j k (foot_points f) J J' E) as Q.
  assert (G : forall A B : mat, A j k = B j k ->
    set_block (set_block A 0 aq dofs 4 (fun j k => A j (aq + k)%nat - quaternion_of_foot f x j k)) 0 aj dofs dofs
      (fun j' k' => set_block A 0 aq dofs 4 (fun j k => A j (aq + k)%nat - quaternion_of_foot f x j k) j' (aj + k')%nat - joints_of_foot f x j' k') j k =
    set_block (set_block B 0 aq dofs 4 (fun j k => B j (aq + k)%nat - quaternion_of_foot f x j k)) 0 aj dofs dofs
      (fun j' k' => set_block B 0 aq dofs 4 (fun j k => B j (aq + k)%nat - quaternion_of_foot f x j k) j' (aj + k')%nat - joints_of_foot f x j' k') j k).
  { clear Q. intros A B Q. unfold set_block. rewrite !Nat.sub_0_r. destruct (in_range 0 dofs j) eqn:R0; cbn [andb]; [|exact Q].
    destruct (in_range aj dofs k) eqn:JK; [rewrite (in_range_le _ _ _ JK)|]; (destruct (in_range aq 4 k) eqn:QK; [rewrite (in_range_le _ _ _ QK), Q; reflexivity|rewrite Q; reflexivity]). }
  exact (G _ _ Q).
Qed.
Theorem C74_jacobian_history s s' x j k : (j < dofs)%nat -> written k = true -> Jacobian s x j k = Jacobian s' x j k.
Proof.
  intros Hj W. assert (R0 : in_range 0 dofs j = true) by (apply andb_true_iff; split; [apply Nat.leb_le; lia|apply Nat.ltb_lt; lia]).
  unfold written in W. apply orb_true_iff in W. destruct W as [W|W].
  - unfold torques_jacobian. do 2 apply foot_ext. unfold set_block. rewrite R0. cbn [andb].
    apply orb_true_iff in W. destruct (in_range aq 4 k); [reflexivity|]. destruct W as [->|W]; [reflexivity|discriminate].
  - apply existsb_exists in W. destruct W as (c & I & Q).
    exact (D_unique _ _ _ _ (C74_force_columns s x c k I Q j Hj) (C74_force_columns s' x c k I Q j Hj)).
Qed.
Lemma reachable_zero s : reachable s -> (forall k, written k = false -> tc_gradient s k = 0) /\ tc_control s = (fun _ => 0).
Proof.
  induction 1 as [|s n w R [G C]|s x R [G C]|s x R IH]; [split; reflexivity| | |exact IH].
  - unfold tc_set_weights. destruct (n =? _)%nat; split; auto.
  - split; [|exact C]. intros k K. change (snd (Sgrad s x) k = 0). rewrite gradient_entry, K. apply G, K.
Qed.
(** The gradient with respect to the state.  It is the one of the cost wherever the blocks of the joints and of the quaternion of
    the Jacobian of the torques are exact (PropTorqueJoints.v, PropTorqueQuaternion.v); those of the forces always are, and the
    other variables have no influence.  The gradient with respect to the control is zero. *)
Theorem C74_gradient_of_blocks s x : reachable s ->
  (forall k, in_range aj dofs k = true \/ in_range aq 4 k = true -> forall j, (j < dofs)%nat -> partial (fun y => torques y (contact y) j) x k (Jacobian s x j k)) ->
  is_gradient (fun y => Eval s y) x (snd (Sgrad s x)) /\ (forall k, snd (tc_cgrad s x) k = 0).
Proof.
  intros R H. destruct (reachable_zero s R) as [Z C]. split; [|intros k; cbn; rewrite C; reflexivity]. intros k. rewrite gradient_entry.
  assert (G : forall d, (forall j, (j < dofs)%nat -> partial (fun y => torques y (contact y) j) x k (d j)) ->
    partial (fun y => Eval s y) x k (sumn dofs (fun j => torques x (contact x) j * snd (tc_weights s) j * d j))).
  { intros d D. unfold partial. unfold tc_eval, compute_torques.
    assert (E : forall j, (j < dofs)%nat -> is_derive (fun t => torques (vset x k t) (contact (vset x k t)) j * snd (tc_weights s) j * torques (vset x k t) (contact (vset x k t)) j) (x k)
       (2 * (torques x (contact x) j * snd (tc_weights s) j * d j))).
    { intros j Hj. pose proof (D j Hj) as Dj. unfold partial in Dj. pose proof (D_mult _ _ _ _ _ (D_mult _ _ _ _ _ Dj (D_const (snd (tc_weights s) j) (x k))) Dj) as Q.
      cbv beta in Q. assert (V : vset x k (x k) = x) by (extensionality i; unfold vset; destruct (Nat.eqb_spec i k); congruence). rewrite V in Q. eapply D_eq; [exact Q|]. ring. }
    pose proof (is_derive_scal _ _ (1 / 2) _ (D_sumn dofs _ (x k) _ E)) as Q. eapply D_eq; [exact Q|]. cbv beta.
    rewrite (sumn_scal dofs 2 (fun j => torques x (contact x) j * snd (tc_weights s) j * d j)). field. }
  destruct (written k) eqn:W.
  - apply G. unfold written in W. apply orb_true_iff in W. destruct W as [W|W]; [apply orb_true_iff in W; apply H; tauto|].
    apply existsb_exists in W. destruct W as (c & I & Q). apply (C74_force_columns s x c k I Q).
  - rewrite (Z k W). unfold written in W. apply orb_false_iff in W. destruct W as [W F]. apply orb_false_iff in W. destruct W as [J Q].
    assert (P : fixed_part k) by (split; assumption).
    assert (O : forall f, (forall c, In c (foot_points f) -> In c points) -> raw x f (unit3 k) = v60).
    { intros f I. apply raw_out. intros c Hc. destruct (in_range (fst c) 3 k) eqn:T; [|reflexivity]. unfold in_force in F. rewrite <- F. symmetry. apply existsb_exists. exists c. split; [apply I; exact Hc|exact T]. }
    assert (N : forall j, rate x k j = 0).
    { intros j. unfold rate. rewrite !O by (intros c Hc; apply in_or_app; auto). rewrite !v6dot_zero. ring. }
    pose proof (G (fun j => - rate x k j) (fun j Hj => torque_partial x k j P Hj)) as Y. cbv beta in Y. eapply partial_eq; [exact Y|].
    rewrite (sumn_ext dofs _ (fun _ => 0)); [|intros j _; rewrite N; ring]. clear. induction dofs as [|n IH]; cbn [sumn]; [reflexivity|]. rewrite IH. ring.
Qed.
End Torque.
(** setWeights refuses a vector of another size and then changes nothing; the weights are one at first. *)
Theorem C74_weights dofs s n w :
  (snd (tc_set_weights s n w) = false -> fst (tc_set_weights s n w) = s) /\
  (snd (tc_set_weights s n w) = true <-> n = fst (tc_weights s)) /\
  (snd (tc_set_weights s n w) = true -> tc_weights (fst (tc_set_weights s n w)) = (n, w)) /\
  tc_weights (tc_ctor dofs) = (dofs, fun _ => 1).
Proof. unfold tc_set_weights. destruct (Nat.eqb_spec n (fst (tc_weights s))); cbn; repeat split; auto; try discriminate; intros; contradiction. Qed.
(** Two feet fixed to the same link: the forces of the left one are lost. *)
Theorem C74_same_link_refuted r place base dofs pl left right x : frame_link r (foot_frame left) = frame_link r (foot_frame right) ->
  forall l, contact_wrenches r place base dofs pl left right x l = contact_wrenches r place base dofs pl (Foot (foot_frame left) []) right x l.
Proof.
  intros E l. unfold contact_wrenches. cbn [foot_frame]. rewrite E. destruct (l =? frame_link r (foot_frame right))%nat; reflexivity.
Qed.

(** * An example: the arm of KinInstance.v with a foot on link 1 (frame 3) and one on link 2 *)
Definition arm_places : places := Places 0 4.
Definition arm_left : foot := Foot 3 [(6%nat, V3 1 0 0)].
Definition arm_right : foot := Foot 2 [(9%nat, V3 0 1 0); (12%nat, V3 0 (-1) 0)].
Example arm_feet : feet_ok arm 2 arm_places arm_left arm_right.
Proof.
  unfold feet_ok. cbn [foot_points arm_left arm_right app foot_frame]. split; [unfold is_frame; cbn; lia|]. split; [unfold is_frame; cbn; lia|].
  split; [cbn; discriminate|]. split; [repeat constructor; cbn; lia|].
  assert (R : forall o n k, in_range o n k = true -> (o <= k < o + n)%nat).
  { intros o n k H. apply andb_true_iff in H. destruct H as [H1 H2]. apply Nat.leb_le in H1. apply Nat.ltb_lt in H2. lia. }
  assert (N : forall o n k, ~ (o <= k < o + n)%nat -> in_range o n k = false).
  { intros o n k H. destruct (in_range o n k) eqn:E; [|reflexivity]. exfalso. apply H, R, E. }
  split; [|split].
  - intros c c' k [<-|[<-|[<-|[]]]] [<-|[<-|[<-|[]]]] H H'; cbn [fst] in *; apply R in H, H'; lia.
  - intros c k [<-|[<-|[<-|[]]]] H; cbn [fst] in *; apply R in H; cbn [at_base_quaternion at_joint_positions arm_places]; split; apply N; lia.
  - intros k H. cbn [at_base_quaternion at_joint_positions arm_places] in *. apply R in H. apply N. lia.
Qed.
(** There is an iDynTree for the arm, whatever the inertia and the gravity. *)
Example arm_computes inertia gravity : exists torques, computes arm place 2 (up 0) 0 arm_child inertia arm_places gravity torques (fun s f i => jac s 0%nat f i).
Proof.
  destruct (rest_still arm place 2 (up 0) (depth 0) [0%nat; 1%nat; 2%nat] 0 arm_child inertia arm_still) as (n & B).
  exists (fun x W j => v6dot (axis_of (nth j (r_joints arm) no_joint) (arm_child j))
    (rest arm place (up 0) 0 inertia (rest_acceleration arm_places gravity x) W (part x (at_joint_positions arm_places) 2) n (arm_child j))). split.
  - intros x W f Hf j jt Hj E. rewrite (nth_error_nth _ _ no_joint E). f_equal.
    apply (C73_balance_unique arm place 2 (up 0) (depth 0) [0%nat; 1%nat; 2%nat] 0 arm_child inertia arm_still _ W _ _ f (B _ W _) Hf). unfold arm_child. cbn. lia.
  - intros s f i F Hi. apply arm_jac; [unfold frame_ok; cbn; lia|exact F|exact Hi].
Qed.
(** All together: every force column of the arm is exact. *)
Example arm_force_column gravity derivative jof qb qof s x j k : (j < 2)%nat -> (6 <= k < 15)%nat -> exists torques,
  computes arm place 2 (up 0) 0 arm_child arm_inertia arm_places gravity torques (fun s f i => jac s 0%nat f i) /\
  partial (fun y => torques y (contact_wrenches arm place 0 2 arm_places arm_left arm_right y) j) x k
    (torques_jacobian arm place 0 2 arm_places arm_left arm_right derivative (fun s f i => jac s 0%nat f i) jof qb qof s x j k).
Proof.
  intros Hj Hk. destruct (arm_computes arm_inertia gravity) as (torques & C). exists torques. split; [exact C|].
  assert (H : exists c, In c (foot_points arm_left ++ foot_points arm_right) /\ in_range (fst c) 3 k = true).
  { assert (R : forall o, (o <= k < o + 3)%nat -> in_range o 3 k = true) by (intros o H; apply andb_true_iff; split; [apply Nat.leb_le|apply Nat.ltb_lt]; lia).
    destruct (le_lt_dec 12 k); [exists (12%nat, V3 0 (-1) 0)|destruct (le_lt_dec 9 k); [exists (9%nat, V3 0 1 0)|exists (6%nat, V3 1 0 0)]]; cbn [fst]; (split; [cbn; auto|apply R; lia]). }
  destruct H as (c & I & Q).
  exact (C74_force_columns arm place 2 (up 0) (depth 0) _ 0 arm_child arm_inertia arm_places arm_left arm_right gravity torques derivative _ jof qb qof arm_still arm_feet C s x c k I Q j Hj).
Qed.
Print Assumptions C74_value.
Print Assumptions C74_torques_exist.
Print Assumptions C74_force_columns.
Print Assumptions C74_jacobian_history.
Print Assumptions C74_gradient_of_blocks.
Print Assumptions C74_weights.
Print Assumptions C74_same_link_refuted.
