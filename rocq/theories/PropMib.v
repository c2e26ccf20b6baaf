(** C72: the momentum in the base frame and its first and second derivatives, as the expressions of
    MomentumInBaseExpression.cpp compute them. *)
From Coq Require Import Reals List Arith Lia Lra Bool FunctionalExtensionality.
From Coquelicot Require Import Coquelicot.
From Verif Require Import Spec PartialLib SpecQuaternion QuatCurve SpecRigid Rigid RigidCalc KinTree KinModel KinLib KinMotion KinUsers KinProofs KinExist PropKin.
From Verif Require Import SpecBase SpecDerivatives ComModel ComLib ComProofs ComHess SpecMom MomModel MomProofs PropMom CmmProofs SpecMib MibModel MibLib MibProofs MibDouble.
Import ListNotations.
Local Open Scope R_scope.

(** The robot, its traversals (the one from the base reaches every degree of freedom, one per joint) and the velocities of
    its frames, for all positions and velocities of the joints and all base twists. *)
Definition moving_robot (r : robot) (place : vec -> nat -> pose) (dofs : nat) (up : nat -> nat -> option (nat * nat)) (depth : nat -> nat -> nat)
  (base : nat) (vel : point -> nat -> v6) : Prop :=
  robot_ok r /\ placement r place /\ (forall b, (b < r_links r)%nat -> traversal r b (up b) (depth b)) /\
  (length (r_joints r) <= dofs)%nat /\ (base < r_links r)%nat /\
  (up base base = None /\ forall j, (j < dofs)%nat -> exists l p, (l < r_links r)%nat /\ up base l = Some (p, j)) /\
  (forall s sd b f, is_frame r f -> frame_velocity r place base s sd b f (vel (Point s sd b) f)).

Section Mib.
Variable r : robot.
Variable place : vec -> nat -> pose.
Variable dofs : nat.
Variable up : nat -> nat -> option (nat * nat).
Variable depth : nat -> nat -> nat.
Variable base : nat.
Variable inertia : nat -> m6.
Variable vel : point -> nat -> v6.
Notation rel := (relative r place).
Notation Momentum := (momentum_in r place inertia base).
Notation Value := (mib_value r base inertia rel vel).
Notation Joint_columns := (mib_joint_cols r dofs up base inertia rel vel).
Notation Rate_columns := (mib_rate_cols r dofs up base inertia rel).
Notation Twist_derivative := (mib_twist r base inertia rel).
Notation Twist_joint_columns := (mib_twist_joint_cols r dofs up base inertia rel).
Notation Double := (mib_double r dofs up base inertia rel vel).
Notation "'links'" := (r_links r).
Hypothesis MR : moving_robot r place dofs up depth base vel.
Let rok : robot_ok r := proj1 MR.
Let plc : placement r place := proj1 (proj2 MR).
Let trav := proj1 (proj2 (proj2 MR)).
Let one := proj1 (proj2 (proj2 (proj2 MR))).
Let Hb := proj1 (proj2 (proj2 (proj2 (proj2 MR)))).
Let TR : tree r dofs up base := proj1 (proj2 (proj2 (proj2 (proj2 (proj2 MR))))).
Let vok := proj2 (proj2 (proj2 (proj2 (proj2 (proj2 MR))))).
Notation VB := (V r place dofs up base).
Notation MB := (ML r place dofs up base inertia).

Lemma momentum_sum s sd b h : Momentum s sd b h -> h = v6sum links (MB sd b s).
Proof.
  intros (w & Hw & ->). rewrite v6total_sum. apply v6sum_ext. intros l Hl. unfold ML. do 2 f_equal.
  eapply (velocity_unique r place base); [exact rok|exact plc|exact Hb|apply link_ok; exact Hl|apply Hw; exact Hl|].
  apply (W_velocity r place dofs up depth base (jac_of r place up) rok plc trav one (jac_fine r place dofs up depth rok plc trav) Hb). apply link_ok; exact Hl.
Qed.
(** The value of the expression is the momentum of the robot. *)
Theorem C72_value s sd b h : Momentum s sd b h <-> h = Value (Point s sd b).
Proof.
  rewrite (mib_value_ok r place dofs up depth base inertia vel rok plc trav one Hb vok). split; [apply momentum_sum|]. intros ->.
  exists (VB sd b s). split; [|symmetry; exact (v6total_sum links (MB sd b s))]. intros l Hl.
  apply (W_velocity r place dofs up depth base (jac_of r place up) rok plc trav one (jac_fine r place dofs up depth rok plc trav) Hb). apply link_ok; exact Hl.
Qed.
Lemma sum_D s sd b i j : (j < dofs)%nat -> is_derive (fun x => v6ent (v6sum links (MB sd b (vset s j x))) i) (s j) (v6ent (v6sum links (fun l => DM r place dofs up base inertia sd b s l j)) i).
Proof.
  intros Hj. apply (v6ent_D (fun x => v6sum links (MB sd b (vset s j x)))). apply (v6_D_sum links (fun l x => MB sd b (vset s j x) l)). intros l Hl.
  apply (ML_D r place dofs up depth base inertia rok plc trav one Hb TR sd b s l j Hl Hj).
Qed.
(** The derivative with respect to the joints. *)
Theorem C72_joints s sd b : exists cols, Joint_columns (Point s sd b) = Some cols /\
  forall h, (forall s, Momentum s sd b (h s)) -> joints_derivative dofs h s (as_matrix cols).
Proof.
  destruct (joint_cols_ok r place dofs up depth base inertia vel rok plc trav one Hb TR vok s sd b) as (cols & E & Q). exists cols. split; [exact E|].
  intros h Hh i j Hi Hj. unfold as_matrix. rewrite Q. eapply is_derive_ext; [|exact (sum_D s sd b i j Hj)]. intros x. cbv beta. rewrite (momentum_sum _ _ _ _ (Hh (vset s j x))). reflexivity.
Qed.
(** It is the matrix that evaluate() asks SharedKinDynComputations for (C69). *)
Theorem C72_evaluate_agrees child fvel st cols D : mechanics r place dofs up depth base child fvel ->
  Joint_columns (Point (st_s st) (st_sd st) (base_twist_of st)) = Some cols -> mom_derivative r dofs (up base) base child inertia rel fvel st = Some D ->
  forall i j, (i < 6)%nat -> (j < dofs)%nat -> as_matrix cols i j = D i j.
Proof.
  intros ME E ED i j Hi Hj. destruct (C72_joints (st_s st) (st_sd st) (base_twist_of st)) as (cols' & E' & H). rewrite E in E'. injection E' as <-.
  destruct (C69_momentum_derivative r place dofs up depth base child inertia fvel ME st) as (D' & ED' & H'). rewrite ED in ED'. injection ED' as <-.
  set (h := fun s => Value (Point s (st_sd st) (base_twist_of st))).
  assert (Hh : forall s, Momentum s (st_sd st) (base_twist_of st) (h s)) by (intros s; apply C72_value; reflexivity).
  exact (D_unique _ _ _ _ (H h Hh i j Hi Hj) (H' h Hh i j Hi Hj)).
Qed.
(** The derivative with respect to the velocities of the joints. *)
Theorem C72_rates s sd b : exists cols, Rate_columns (Point s sd b) = Some cols /\
  forall h, (forall sd, Momentum s sd b (h sd)) -> joints_derivative dofs h sd (as_matrix cols).
Proof.
  destruct (rate_cols_ok r place dofs up depth base inertia rok plc trav one Hb TR s sd b) as (cols & E & Q). exists cols. split; [exact E|].
  intros h Hh i j Hi Hj. unfold as_matrix. rewrite Q.
  apply is_derive_ext with (f := fun x => v6ent (v6sum links (fun l => MB (vset sd j x) b s l)) i); [intros x; rewrite (momentum_sum _ _ _ _ (Hh (vset sd j x))); reflexivity|].
  apply (v6ent_D (fun x => v6sum links (fun l => MB (vset sd j x) b s l))). apply (v6_D_sum links (fun l x => MB (vset sd j x) b s l)). intros l Hl. unfold DR, ML.
  assert (VD : is_derive_v6 (fun x => VB (vset sd j x) b s l) (sd j) (jac_of r place up s base l j)).
  { unfold V, W.
    pose proof (v6_D_sum dofs (fun k x => v6scale (vset sd j x k) (jac_of r place up s base l k)) (sd j) (fun k => if (k =? j)%nat then jac_of r place up s base l j else v60)) as Z0.
    rewrite (v6sum_one dofs j _ Hj) in Z0.
    pose proof (fun H => v6_D_add _ _ _ _ _ (v6_D_const (m6v (Adj (rel s l base)) b) (sd j)) (Z0 H)) as Z. rewrite v6add_0_l in Z. apply Z. intros k _. destruct (Nat.eqb_spec k j) as [->|N].
    - apply v6_D_ext with (f := fun x => v6scale x (jac_of r place up s base l j)); [intros x; rewrite vset_at; reflexivity|].
      destruct (jac_of r place up s base l j) as [[a0 a1 a2] [a3 a4 a5]]. unfold v6scale, vscale. cbn [lin ang vx vy vz].
      split; (split; [|split]); cbn [lin ang vx vy vz]; auto_derive; auto; ring.
    - apply v6_D_ext with (f := fun x => v6scale (sd k) (jac_of r place up s base l k)); [intros x; rewrite vset_other by auto; reflexivity|]. apply v6_D_const. }
  pose proof (v6_D_mv _ _ _ _ _ (m6_D_const (AdjW (rel s base l)) (sd j)) (v6_D_mv _ _ _ _ _ (m6_D_const (inertia l) (sd j)) VD)) as Z. cbv beta in Z.
  rewrite !m6v_m0, !v6add_0_l in Z.
  match goal with |- is_derive_v6 _ _ (m6v _ (m6v _ ?t)) => replace t with (jac_of r place up s base l j); [exact Z|] end.
  pose proof (KIN r place dofs up depth base rok plc trav one Hb) as KI. destruct (onp r up base l j) eqn:O.
  - destruct (on_facts r place dofs up depth base rok plc trav one Hb TR l j Hl O) as (p & jt & I & _). exact (jac_on _ _ _ _ _ _ _ _ _ _ KI s l j _ p Hl I).
  - exact (jac_out _ _ _ _ _ _ _ _ _ _ KI s l j Hl Hj O).
Qed.
Lemma mib_affine s sd b l : MB sd b s l = v6add (m6v (AdjW (rel s base l)) (m6v (inertia l) (m6v (Adj (rel s l base)) b))) (MB sd v60 s l).
Proof. unfold ML, V, W. rewrite !m6v_add, !m6v_0, v6add_0_l. reflexivity. Qed.
(** The derivative with respect to a variable the base twist depends on, [J] being the derivative of the base twist. *)
Theorem C72_twist s sd n (bt : vec -> v6) y J : joints_derivative n bt y J ->
  forall b h, (forall y, Momentum s sd (bt y) (h y)) -> joints_derivative n h y (Twist_derivative (Point s sd b) J).
Proof.
  intros HJ b h Hh i k Hi Hk.
  apply is_derive_ext with (f := fun x => v6ent (v6add (m6v (crbi r base inertia rel (Point s sd b)) (bt (vset y k x))) (v6sum links (MB sd v60 s))) i).
  { intros x. rewrite (momentum_sum _ _ _ _ (Hh (vset y k x))). rewrite (v6sum_ext _ _ _ (fun l _ => mib_affine s sd (bt (vset y k x)) l)), v6sum_add.
    rewrite (crbi_v r place dofs base inertia rok plc one Hb s sd b). reflexivity. }
  pose proof (of6_D (fun x => bt (vset y k x)) (y k) (fun i => J i k) (fun i Hi => HJ i k Hi Hk)) as BD.
  pose proof (v6_D_add _ _ _ _ _ (v6_D_mv _ _ _ _ _ (m6_D_const (crbi r base inertia rel (Point s sd b)) (y k)) BD) (v6_D_const (v6sum links (MB sd v60 s)) (y k))) as Z.
  rewrite m6v_m0, v6add_0_l, v6add_0_r in Z. pose proof (v6ent_D _ _ _ Z i) as Y. eapply D_eq; [exact Y|]. rewrite v6ent_mul by exact Hi. unfold mib_twist. apply sumn_ext. intros a Ha. rewrite of6_ent by exact Ha. reflexivity.
Qed.
(** The derivative of column k of it with respect to the joints ([jcol]: column k of the derivative of the base twist). *)
Theorem C72_twist_joints s sd b (J : mat) k jcol : (forall a, (a < 6)%nat -> v6ent jcol a = J a k) -> exists cols, Twist_joint_columns (Point s sd b) jcol = Some cols /\
  forall i j, (i < 6)%nat -> (j < dofs)%nat -> is_derive (fun x => Twist_derivative (Point (vset s j x) sd b) J i k) (s j) (as_matrix cols i j).
Proof.
  intros HJ. unfold mib_twist_joint_cols. destruct (blocks_ok r place dofs up depth base inertia rok plc trav one Hb TR s sd b) as (A & E & Q). rewrite E.
  eexists. split; [reflexivity|]. intros i j Hi Hj. unfold as_matrix. apply Nat.ltb_lt in Hj as Hj'. rewrite Hj', Q.
  eapply is_derive_ext; [|exact (sum_D s (fun _ => 0) jcol i j Hj)]. intros x. cbv beta.
  replace (v6sum links (MB (fun _ => 0) jcol (vset s j x))) with (m6v (crbi r base inertia rel (Point (vset s j x) sd b)) jcol).
  - rewrite v6ent_mul by exact Hi. unfold mib_twist. apply sumn_ext. intros a Ha. rewrite HJ by exact Ha. reflexivity.
  - rewrite (crbi_v r place dofs base inertia rok plc one Hb). apply v6sum_ext. intros l Hl. unfold ML. rewrite V_rest. reflexivity.
Qed.
(** The second derivatives: for every joint k the construction ends, and gives every column - the joints above k, those below
    k (taken from the other constructions) and those of other branches. *)
Theorem C72_second_derivative s sd b k : (k < dofs)%nat -> exists N, forall n, (N <= n)%nat -> exists cols, Double (Point s sd b) n k = Some cols /\
  forall h, (forall s, Momentum s sd b (h s)) -> joints_second_derivative dofs h k s (as_matrix cols).
Proof.
  intros Hk. destruct (proj2 TR k Hk) as (K & p & HK & U). pose proof (KIN r place dofs up depth base rok plc trav one Hb) as KI.
  pose proof (child_spec _ _ _ _ _ _ _ _ _ _ KI TR K p k HK U) as C. exists (S (deepest r depth base)). intros n Hn.
  destruct (double_ok r place dofs up depth base inertia vel rok plc trav one Hb TR vok s sd b n k K C ltac:(lia)) as (cols & E & Q). exists cols. split; [exact E|].
  intros h Hh D HD i j Hi Hj. unfold as_matrix. rewrite Q. unfold DDs.
  apply is_derive_ext with (f := fun x => v6ent (v6sum links (fun l => DM r place dofs up base inertia sd b (vset s j x) l k)) i).
  { intros x. apply (D_unique (fun y => v6ent (h (vset (vset s j x) k y)) i) (vset s j x k)); [|apply HD; auto].
    eapply is_derive_ext; [|exact (sum_D (vset s j x) sd b i k Hk)]. intros y. cbv beta. rewrite (momentum_sum _ _ _ _ (Hh (vset (vset s j x) k y))). reflexivity. }
  apply (v6ent_D (fun x => v6sum links (fun l => DM r place dofs up base inertia sd b (vset s j x) l k))).
  apply (v6_D_sum links (fun l x => DM r place dofs up base inertia sd b (vset s j x) l k)). intros l Hl.
  apply (DM_D r place dofs up depth base inertia rok plc trav one Hb TR sd b s l k j Hl Hj).
Qed.
(** More nesting changes nothing, and the matrices are symmetric. *)
Theorem C72_second_symmetric s sd b n m k j cols cols' : (S (deepest r depth base) <= n)%nat -> (S (deepest r depth base) <= m)%nat -> (k < dofs)%nat -> (j < dofs)%nat ->
  Double (Point s sd b) n k = Some cols -> Double (Point s sd b) m j = Some cols' -> cols j = cols' k.
Proof.
  intros Hn Hm Hk Hj E E'. pose proof (KIN r place dofs up depth base rok plc trav one Hb) as KI.
  destruct (proj2 TR k Hk) as (K & p & HK & U). destruct (proj2 TR j Hj) as (J & p' & HJ & U').
  destruct (double_ok r place dofs up depth base inertia vel rok plc trav one Hb TR vok s sd b n k K (child_spec _ _ _ _ _ _ _ _ _ _ KI TR K p k HK U) ltac:(lia)) as (c & Ec & Q).
  destruct (double_ok r place dofs up depth base inertia vel rok plc trav one Hb TR vok s sd b m j J (child_spec _ _ _ _ _ _ _ _ _ _ KI TR J p' j HJ U') ltac:(lia)) as (c' & Ec' & Q').
  rewrite E in Ec. rewrite E' in Ec'. injection Ec as <-. injection Ec' as <-. rewrite Q, Q'. apply (DDs_sym r place dofs up depth base inertia rok plc trav one Hb TR s sd b).
Qed.
End Mib.

(** * An example: the arm of KinInstance.v *)
From Coq Require Import Nsatz.
From Verif Require Import KinInstance PropCom.
Definition arm_vel_at (x : point) (f : nat) : v6 := W arm place 2 jac 0 (x_s x) (x_sd x) (x_b x) f.
Example arm_moving_robot : moving_robot arm place 2 up depth 0 arm_vel_at.
Proof.
  split; [apply arm_ok|]. split; [apply arm_placement|]. split; [apply arm_traversal|]. split; [cbn; lia|]. split; [cbn; lia|]. split; [apply arm_tree|].
  intros s sd b f F. apply (W_velocity arm place 2 up depth 0 jac arm_ok arm_placement arm_traversal); auto; try apply arm_jac; cbn; lia.
Qed.
(** The joints are still, the base moves along x, only the last link has a mass (two): the angular momentum about z. *)
Notation drift := (V6 (V3 1 0 0) v30).
Lemma arm_drift s h : momentum_in arm place arm_inertia 0 s (fun _ => 0) drift h -> v6ent h 5%nat = - 2 * s 1%nat * sin (s 0%nat).
Proof.
  intros H. rewrite (momentum_sum arm place 2 up depth 0 arm_inertia arm_vel_at arm_moving_robot _ _ _ _ H). change (r_links arm) with 3%nat. cbn [v6sum]. unfold ML. rewrite !V_rest.
  unfold arm_inertia at 1 2. rewrite !m6v_m0, !m6v_0, !v6add_0_l. rewrite <- (rel_inv arm place arm_ok arm_placement s 0 2) by (apply link_ok; cbn; lia).
  destruct (arm_links s) as (_ & _ & ->). pose proof (sin2_cos2 (s 0%nat)) as Q. unfold Rsqr in Q. unfold Rz. revert Q. generalize (sin (s 0%nat)) (cos (s 0%nat)) (s 1%nat). intros sn cs u Q.
  cbv -[Rplus Rmult Ropp Rminus IZR]. nsatz.
Qed.
(** Its mixed derivative with respect to the hinge and the slider is minus two: it is not zero.  The column of the hinge is
    given by the construction for the slider. *)
Example arm_double : exists N, forall n, (N <= n)%nat -> exists cols,
  mib_double arm 2 up 0 arm_inertia (relative arm place) arm_vel_at (Point (fun _ => 0) (fun _ => 0) drift) n 0 = Some cols /\ as_matrix cols 5%nat 1%nat = - 2.
Proof.
  destruct (C72_second_derivative arm place 2 up depth 0 arm_inertia arm_vel_at arm_moving_robot (fun _ => 0) (fun _ => 0) drift 0%nat ltac:(lia)) as (N & HN).
  exists N. intros n Hn. destruct (HN n Hn) as (cols & E & H). exists cols. split; [exact E|].
  set (h := fun s => mib_value arm 0 arm_inertia (relative arm place) arm_vel_at (Point s (fun _ => 0) drift)).
  assert (Hh : forall s, momentum_in arm place arm_inertia 0 s (fun _ => 0) drift (h s)).
  { intros s. apply (C72_value arm place 2 up depth 0 arm_inertia arm_vel_at arm_moving_robot). reflexivity. }
  specialize (H h Hh).
  set (cl := fun s => match mib_joint_cols arm 2 up 0 arm_inertia (relative arm place) arm_vel_at (Point s (fun _ => 0) drift) with Some c => as_matrix c | None => fun _ _ => 0 end).
  assert (HD : forall s, joints_derivative 2 h s (cl s)).
  { intros s. destruct (C72_joints arm place 2 up depth 0 arm_inertia arm_vel_at arm_moving_robot s (fun _ => 0) drift) as (c & Ec & Hc). unfold cl. rewrite Ec. apply Hc, Hh. }
  pose proof (H cl HD 5%nat 1%nat ltac:(lia) ltac:(lia)) as Y. cbv beta in Y.
  assert (CL : forall s, cl s 5%nat 0%nat = - 2 * s 1%nat * cos (s 0%nat)).
  { intros s. apply (D_unique (fun x => v6ent (h (vset s 0%nat x)) 5%nat) (s 0%nat)); [apply HD; lia|].
    apply is_derive_ext with (f := fun x => - 2 * s 1%nat * sin x).
    - intros x. rewrite (arm_drift _ _ (Hh (vset s 0%nat x))). unfold vset. cbn. reflexivity.
    - generalize (s 1%nat). intros u. evar_last; [apply is_derive_scal, is_derive_sin|]. reflexivity. }
  refine (D_unique _ _ _ _ Y _). apply is_derive_ext with (f := fun x => - 2 * x * cos 0).
  - intros x. rewrite CL. unfold vset. cbn. reflexivity.
  - rewrite cos_0. apply is_derive_ext with (f := fun x => (- 2) * x); [intros x; exact (eq_sym (Rmult_1_r (- 2 * x)))|]. evar_last; [apply is_derive_scal, @is_derive_id|]. apply Rmult_1_r.
Qed.

Print Assumptions C72_value.
Print Assumptions C72_joints.
Print Assumptions C72_evaluate_agrees.
Print Assumptions C72_rates.
Print Assumptions C72_twist.
Print Assumptions C72_twist_joints.
Print Assumptions C72_second_derivative.
Print Assumptions C72_second_symmetric.
