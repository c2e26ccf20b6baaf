(** C70: the second derivatives of CentroidalMomentumConstraint, given by the expressions of constructExpressions. *)
From Coq Require Import Reals List Arith Lia Lra Bool FunctionalExtensionality.
From Coquelicot Require Import Coquelicot.
From Verif Require Import Spec PartialLib QuadLib SpecQuaternion SpecRigid SpecBase SpecFeet SpecCom SpecMom SpecCmm SpecDerivatives SpecDynamics Rigid RigidCalc KinTree ConstraintsModel CostsModel Quaternion QuaternionProofs.
From Verif Require Import KinModel KinLib KinMotion KinProofs QuatCurve BaseModel BaseProofs SymModel FeetModel FeetProofs RatLib ContactProofs PropBase PropContact ComModel ComCode MomModel MomProofs PropMom CmmModel CmmProofs PropCmm.
From Verif Require Import MibModel MibLib MibProofs PropMib CmmExprModel CmmExprProofs.
Import ListNotations.
Local Open Scope R_scope.

Section Hess.
Variable r : robot.
Variable place : vec -> nat -> pose.
Variable dofs : nat.
Variable up : nat -> nat -> option (nat * nat).
Variable depth : nat -> nat -> nat.
Variable base : nat.
Variable child : nat -> nat.
Variable inertia : nat -> m6.
Variable fvel : rstate -> nat -> v6.
Variable vel : point -> nat -> v6.
Variable mas : masses.
Variable mom : rstate -> v6.
Variable matrix : rstate -> mat.
Variable cpos : vec -> vec -> vec -> v3.
Variable cjac : vec -> vec -> vec -> mat.
Notation dmom := (mom_derivative r dofs (up base) base child inertia (relative r place) fvel).
(** What the asynchronous evaluations of the expressions return. *)
Notation second := (cmm_second r base inertia (relative r place) vel cpos).
Notation Cmm := (cmm_class dofs mom matrix dmom cpos cjac second).
Variable c : layout.
Variable shared : R -> rstate.
Notation om := (at_momentum c).
Notation oq := (at_quaternion c).
Notation os := (at_joints c).
Notation ol := (at_linear c).
Notation od := (at_quaternion_rate c).
Notation ov := (at_joint_rates c).
Notation REACH := (reachable r place dofs up base child inertia fvel mom matrix cpos cjac second c shared).
Hypothesis MC : mechanics r place dofs up depth base child fvel.
Hypothesis MR : moving_robot r place dofs up depth base vel.
Hypothesis CO : com_oracle r place mas base dofs cpos cjac.
Hypothesis MO : momentum_oracle r place inertia base dofs mom matrix.
Hypothesis AP : layout_apart c dofs.
Variable L : vec -> vec -> v3.
Hypothesis LF : centroidal_function r place inertia mas base dofs c L.
Notation turned := (turned_base c).
Notation FLr := (FL r place base inertia vel).
Notation QLr := (QL r place base inertia vel).
Notation JLr := (JL r place base inertia vel cpos).
Notation VV := (variables cpos).
Notation ST := (cmm_state dofs c).

(** ** The entries of the matrices *)
Lemma shess_entry s t x u l H j k : cm_cfg s = c -> snd (c_shess Cmm s t x u l H) j k =
  if in_range oq 4 j then (if in_range oq 4 k then second v_q v_q (ST x u) l (j - oq)%nat (k - oq)%nat else if in_range os dofs k then second v_q v_s (ST x u) l (j - oq)%nat (k - os)%nat else H j k)
  else if in_range os dofs j then (if in_range oq 4 k then second v_q v_s (ST x u) l (k - oq)%nat (j - os)%nat else if in_range os dofs k then second v_s v_s (ST x u) l (j - os)%nat (k - os)%nat else H j k)
  else H j k.
Proof.
  intros E. destruct AP as (A1 & A2 & A3 & A4 & A5 & A6 & _).
  cbn [cmm_class c_shess]. unfold cmm_shess. rewrite (state_now dofs c), E by exact E. cbv zeta. cbn [snd]. unfold set_block.
  destruct (in_range oq 4 j) eqn:Q1.
  - rewrite (outside _ _ _ _ _ A6 Q1). cbn [andb]. destruct (in_range oq 4 k) eqn:Q2; [rewrite (outside _ _ _ _ _ A6 Q2)|]; cbn [andb]; reflexivity.
  - cbn [andb]. destruct (in_range os dofs j) eqn:Q2; cbn [andb]; [|reflexivity]. destruct (in_range oq 4 k) eqn:Q3; [rewrite (outside _ _ _ _ _ A6 Q3); reflexivity|]. reflexivity.
Qed.
Lemma mhess_entry s t x u l H j k : cm_cfg s = c -> snd (c_mhess Cmm s t x u l H) j k =
  if in_range oq 4 j then (if in_range ol 3 k then second v_q v_lin (ST x u) l (j - oq)%nat (k - ol)%nat else if in_range od 4 k then second v_q v_qdot (ST x u) l (j - oq)%nat (k - od)%nat
    else if in_range ov dofs k then second v_q v_sdot (ST x u) l (j - oq)%nat (k - ov)%nat else H j k)
  else if in_range os dofs j then (if in_range ol 3 k then second v_s v_lin (ST x u) l (j - os)%nat (k - ol)%nat else if in_range od 4 k then second v_s v_qdot (ST x u) l (j - os)%nat (k - od)%nat
    else if in_range ov dofs k then second v_s v_sdot (ST x u) l (j - os)%nat (k - ov)%nat else H j k)
  else H j k.
Proof.
  intros E. destruct AP as (A1 & A2 & A3 & A4 & A5 & A6 & A7 & A8 & A9).
  cbn [cmm_class c_mhess]. unfold cmm_mhess. rewrite (state_now dofs c), E by exact E. cbv zeta. cbn [snd]. unfold set_block.
  assert (K : forall (v1 v2 v3 v4 : R), (if in_range ov dofs k then v1 else if in_range od 4 k then v2 else if in_range ol 3 k then v3 else v4) =
     if in_range ol 3 k then v3 else if in_range od 4 k then v2 else if in_range ov dofs k then v1 else v4).
  { intros. destruct (in_range ov dofs k) eqn:Q1; [rewrite (outside _ _ _ _ _ (apart_sym _ _ _ _ A8) Q1), (outside _ _ _ _ _ (apart_sym _ _ _ _ A9) Q1); reflexivity|].
    destruct (in_range od 4 k) eqn:Q2; [rewrite (outside _ _ _ _ _ (apart_sym _ _ _ _ A7) Q2)|]; reflexivity. }
  destruct (in_range oq 4 j) eqn:Q1.
  - rewrite (outside _ _ _ _ _ A6 Q1). cbn [andb]. apply K.
  - cbn [andb]. destruct (in_range os dofs j) eqn:Q2; cbn [andb]; [apply K|reflexivity].
Qed.
(** ** The weighted value *)
Definition low (l x : vec) : R := sumn 3 (fun i => l i * x (om + 3 + i)%nat).
Lemma weighted_eq l y u : turned y -> weighted 3 l (momentum_error c L y u) = FLr (VV (ST y u) l) - low l y.
Proof.
  intros P. rewrite (FL_value r place dofs up depth base inertia vel mas cpos cjac MR CO). unfold weighted, momentum_error, low.
  rewrite (L_val r place dofs up depth base child inertia fvel mas mom matrix c MC MO L LF y u P). unfold val.
  replace (mom (ST y u)) with (KinMotion.v6sum (r_links r) (ML r place dofs up base inertia (st_sd (ST y u)) (base_twist_of (ST y u)) (st_s (ST y u)))).
  - cbn [sumn]. ring.
  - eapply momentum_unique; [exact MC|apply (HH_momentum r place dofs up depth base inertia vel MR)|apply MO].
Qed.
Lemma low_partial l x k : partial (low l) x k (sumn 3 (fun i => l i * ind (om + 3 + i) k)).
Proof.
  unfold low. apply (sum_partial (fun i x => l i * x (om + 3 + i)%nat)). intros i Hi. eapply partial_eq; [apply partial_mult; [apply partial_const|apply partial_var]|]. cbv beta. ring.
Qed.
Lemma low_partial_0 l k n o : in_range o n k = true -> apart om 6 o n -> sumn 3 (fun i => l i * ind (om + 3 + i) k) = 0.
Proof.
  intros Q A. apply in_range_spec in Q. unfold apart in A. rewrite (sumn_ext 3 _ (fun _ => 0)); [apply sumn_0|]. intros i Hi. unfold ind. destruct (Nat.eqb_spec (om + 3 + i) k); [lia|ring].
Qed.
(** ** The state moves *)
Lemma ST_q y u k t : in_range oq 4 k = true -> ST (vset y k t) u = with_q (ST y u) (vset (st_q (ST y u)) (k - oq)%nat t).
Proof.
  intros E. destruct AP as (A1 & A2 & A3 & A4 & A5 & A6 & _). unfold cmm_state, with_q. cbn [st_p st_q st_s st_lin st_qd st_sd].
  rewrite !part_vset, E, (outside _ _ _ _ _ A6 E), (outside _ _ _ _ _ (apart_sym _ _ _ _ A4) E). reflexivity.
Qed.
Lemma ST_s y u k t : in_range os dofs k = true -> ST (vset y k t) u = with_s (ST y u) (vset (st_s (ST y u)) (k - os)%nat t).
Proof.
  intros E. destruct AP as (A1 & A2 & A3 & A4 & A5 & A6 & _). unfold cmm_state, with_s. cbn [st_p st_q st_s st_lin st_qd st_sd].
  rewrite !part_vset, E, (outside _ _ _ _ _ (apart_sym _ _ _ _ A6) E), (outside _ _ _ _ _ (apart_sym _ _ _ _ A5) E). reflexivity.
Qed.
Definition with_p (st : rstate) (p : vec) : rstate := RState p (st_q st) (st_s st) (st_lin st) (st_qd st) (st_sd st).
Lemma ST_other y u k t : in_range oq 4 k = false -> in_range os dofs k = false -> exists p, ST (vset y k t) u = with_p (ST y u) p.
Proof.
  intros E1 E2. eexists. unfold cmm_state, with_p. cbn [st_p st_q st_s st_lin st_qd st_sd]. rewrite !part_vset, E1, E2. reflexivity.
Qed.
Lemma VV_p st p l : VV (with_p st p) l = env_set (VV st l) v_p p.
Proof.
  assert (C : VV (with_p st p) l v_com = VV st l v_com).
  { apply functional_extensionality. intros i. destruct (Nat.lt_ge_cases i 3) as [Hi|Hi].
    - pose proof (fun rho => com_value_is r place dofs base mas cpos cjac CO rho i Hi) as Q. unfold variables at 1 2, env_set. cbn [Nat.eqb v_com]. unfold com_expression. rewrite !Q. reflexivity.
    - destruct i as [|[|[|i]]]; try lia. reflexivity. }
  apply functional_extensionality. intros v. unfold env_set at 1. destruct v as [|[|[|[|[|[|[|[|[|[|[|[|v]]]]]]]]]]]]; try reflexivity. exact C.
Qed.
Lemma FL_p rho p : FLr (env_set rho v_p p) = FLr rho. Proof. reflexivity. Qed.
Lemma QL_p a rho p : QLr a (env_set rho v_p p) = QLr a rho. Proof. reflexivity. Qed.
Lemma JL_p a rho p : (a < dofs)%nat -> JLr a (env_set rho v_p p) = JLr a rho.
Proof.
  intros Ha. rewrite !JL_is. apply (f_equal2 Rplus); [reflexivity|]. apply sumn_ext. intros e He. apply (f_equal2 Rmult); [reflexivity|].
  rewrite !(comJ_is r place dofs up depth base vel mas cpos cjac MR CO) by auto. reflexivity.
Qed.
(** ** The gradient *)
Definition gradient (l y u : vec) : vec := fun k =>
  (if in_range oq 4 k then QLr (k - oq)%nat (VV (ST y u) l) else if in_range os dofs k then JLr (k - os)%nat (VV (ST y u) l) else 0) - sumn 3 (fun i => l i * ind (om + 3 + i) k).
Lemma gradient_ok l y u : turned y -> is_gradient (fun z => weighted 3 l (momentum_error c L z u)) y (gradient l y u).
Proof.
  intros P k. apply (is_derive_ext_loc (fun t => FLr (VV (ST (vset y k t) u) l) - low l (vset y k t))).
  - eapply filter_imp; [|apply (near_turned c y k P)]. intros t Pt. cbv beta. symmetry. apply weighted_eq. exact Pt.
  - change (partial (fun z => FLr (VV (ST z u) l) - low l z) y k (gradient l y u k)). unfold gradient. apply partial_minus; [|apply low_partial]. unfold partial.
    destruct (in_range oq 4 k) eqn:E1; [|destruct (in_range os dofs k) eqn:E2].
    + assert (Hk : (k - oq < 4)%nat) by (apply in_range_spec in E1; lia).
      pose proof (FL_along_q r place dofs up depth base inertia vel mas cpos cjac MR CO (ST y u) l (k - oq) P Hk) as Q. change (st_q (ST y u) (k - oq)%nat) with (part y oq 4 (k - oq)%nat) in Q. rewrite part_in in Q by exact E1.
      eapply is_derive_ext; [|exact Q]. intros t. cbv beta. rewrite ST_q by exact E1. reflexivity.
    + assert (Hk : (k - os < dofs)%nat) by (apply in_range_spec in E2; lia).
      pose proof (FL_along_s r place dofs up depth base inertia vel mas cpos cjac MR CO (ST y u) l (k - os) Hk) as Q. change (st_s (ST y u) (k - os)%nat) with (part y os dofs (k - os)%nat) in Q. rewrite part_in in Q by exact E2.
      eapply is_derive_ext; [|exact Q]. intros t. cbv beta. rewrite ST_s by exact E2. reflexivity.
    + eapply is_derive_ext; [|exact (D_const (FLr (VV (ST y u) l)) _)]. intros t. cbv beta. destruct (ST_other y u k t E1 E2) as (p & ->). rewrite VV_p, FL_p. reflexivity.
Qed.
(** A function of the state of the robot, along the variables of the state. *)
Lemma along_state (f : rstate -> R) x u k d :
  (in_range oq 4 k = true -> is_derive (fun t => f (with_q (ST x u) (vset (st_q (ST x u)) (k - oq) t))) (st_q (ST x u) (k - oq)%nat) d) ->
  (in_range oq 4 k = false -> in_range os dofs k = true -> is_derive (fun t => f (with_s (ST x u) (vset (st_s (ST x u)) (k - os) t))) (st_s (ST x u) (k - os)%nat) d) ->
  (in_range oq 4 k = false -> in_range os dofs k = false -> d = 0 /\ forall p, f (with_p (ST x u) p) = f (ST x u)) -> partial (fun y => f (ST y u)) x k d.
Proof.
  intros HQ HS HO. unfold partial. destruct (in_range oq 4 k) eqn:E1; [|destruct (in_range os dofs k) eqn:E2].
  - specialize (HQ eq_refl). change (st_q (ST x u) (k - oq)%nat) with (part x oq 4 (k - oq)%nat) in HQ. rewrite part_in in HQ by exact E1. eapply is_derive_ext; [|exact HQ]. intros t. cbv beta. rewrite ST_q by exact E1. reflexivity.
  - specialize (HS eq_refl eq_refl). change (st_s (ST x u) (k - os)%nat) with (part x os dofs (k - os)%nat) in HS. rewrite part_in in HS by exact E2. eapply is_derive_ext; [|exact HS]. intros t. cbv beta. rewrite ST_s by exact E2. reflexivity.
  - destruct (HO eq_refl eq_refl) as (-> & F). eapply is_derive_ext; [|exact (D_const (f (ST x u)) _)]. intros t. cbv beta. destruct (ST_other x u k t E1 E2) as (p & ->). rewrite F. reflexivity.
Qed.
Lemma in_shess j k : In (j, k) (p_shess (cmm_patterns dofs (cmm_ctor c shared))) -> (in_range oq 4 j || in_range os dofs j) && (in_range oq 4 k || in_range os dofs k) = true.
Proof.
  cbn [cmm_patterns p_shess cmm_ctor cm_cfg]. rewrite !in_app_iff, !in_dense_block. intros H. apply andb_true_iff. rewrite !orb_true_iff, !in_range_spec.
  destruct H as [(a & b & Ha & Hb & Q)|[(a & b & Ha & Hb & Q)|[(a & b & Ha & Hb & Q)|(a & b & Ha & Hb & Q)]]]; injection Q as -> ->; lia.
Qed.
Lemma in_mhess j k : In (j, k) (p_mhess (cmm_patterns dofs (cmm_ctor c shared))) -> (in_range oq 4 j || in_range os dofs j) && (in_range ol 3 k || in_range od 4 k || in_range ov dofs k) = true.
Proof.
  cbn [cmm_patterns p_mhess cmm_ctor cm_cfg]. rewrite !in_app_iff, !in_dense_block. intros H. apply andb_true_iff. rewrite !orb_true_iff, !in_range_spec.
  destruct H as [(a & b & Ha & Hb & Q)|[(a & b & Ha & Hb & Q)|[(a & b & Ha & Hb & Q)|[(a & b & Ha & Hb & Q)|[(a & b & Ha & Hb & Q)|(a & b & Ha & Hb & Q)]]]]]; injection Q as -> ->; lia.
Qed.
(** After any history of calls, at any state whose base quaternion is not zero: what constraintSecondPartialDerivativeWRTState
    writes is the Hessian, with respect to the state, of the value weighted with the multipliers. *)
Theorem C70_state_hessian s : REACH s -> forall t x u l H, turned x -> zero_outside (p_shess (cmm_patterns dofs s)) H ->
  let H' := snd (c_shess Cmm s t x u l H) in
  zero_outside (p_shess (cmm_patterns dofs s)) H' /\ is_hessian_on turned (fun y => weighted 3 l (momentum_error c L y u)) x H'.
Proof.
  intros R t x u l H P Z. cbv zeta. destruct (reachable_inv r place dofs up base child inertia fvel mom matrix cpos cjac second c shared AP s R) as (E & _).
  split; [exact (proj1 (C70_hessian_patterns r place dofs up base child inertia fvel mom matrix cpos cjac second c shared AP s R t x u l H) Z)|].
  assert (ZO : forall j k, (in_range oq 4 j || in_range os dofs j) && (in_range oq 4 k || in_range os dofs k) = false -> H j k = 0).
  { intros j k F. apply Z. unfold cmm_patterns. rewrite E. intros I. apply in_shess in I. congruence. }
  exists (fun y => gradient l y u). split; [intros y Py; apply gradient_ok; exact Py|]. intros j k. rewrite shess_entry by exact E. unfold gradient.
  eapply partial_eq; [apply partial_minus; [|apply (partial_const (sumn 3 (fun i => l i * ind (om + 3 + i) j)))]|apply Rminus_0_r].
  destruct (in_range oq 4 j) eqn:J1; [|destruct (in_range os dofs j) eqn:J2].
  - assert (Hj : (j - oq < 4)%nat) by (apply in_range_spec in J1; lia). apply (along_state (fun st => QLr (j - oq)%nat (VV st l))).
    + intros K. rewrite K. apply (second_qq r place dofs up depth base inertia vel mas cpos cjac MR CO); [exact P|exact Hj|apply in_range_spec in K; lia].
    + intros K1 K2. rewrite K1, K2. apply (second_qs r place dofs up depth base inertia vel mas cpos cjac MR CO); [exact P|exact Hj|apply in_range_spec in K2; lia].
    + intros K1 K2. rewrite K1, K2. split; [apply ZO; rewrite K1, K2; apply andb_false_r|]. intros p. rewrite VV_p, QL_p. reflexivity.
  - assert (Hj : (j - os < dofs)%nat) by (apply in_range_spec in J2; lia). apply (along_state (fun st => JLr (j - os)%nat (VV st l))).
    + intros K. rewrite K. apply (second_sq r place dofs up depth base inertia vel mas cpos cjac MR CO); [exact P|exact Hj|apply in_range_spec in K; lia].
    + intros K1 K2. rewrite K1, K2. apply (second_ss r place dofs up depth base inertia vel mas cpos cjac MR CO); [exact Hj|apply in_range_spec in K2; lia].
    + intros K1 K2. rewrite K1, K2. split; [apply ZO; rewrite K1, K2; apply andb_false_r|]. intros p. rewrite VV_p, JL_p by exact Hj. reflexivity.
  - eapply partial_eq; [apply partial_const|]. symmetry. apply ZO. rewrite J1, J2. reflexivity.
Qed.
(** ** The control moves *)
Lemma ST_lin x w k t : in_range ol 3 k = true -> ST x (vset w k t) = with_lin (ST x w) (vset (st_lin (ST x w)) (k - ol) t).
Proof.
  intros E. destruct AP as (_ & _ & _ & _ & _ & _ & A7 & A8 & A9). unfold cmm_state, with_lin, with_u. cbn [st_p st_q st_s st_lin st_qd st_sd].
  rewrite !part_vset, E, (outside _ _ _ _ _ A7 E), (outside _ _ _ _ _ A8 E). reflexivity.
Qed.
Lemma ST_qd x w k t : in_range od 4 k = true -> ST x (vset w k t) = with_qd (ST x w) (vset (st_qd (ST x w)) (k - od) t).
Proof.
  intros E. destruct AP as (_ & _ & _ & _ & _ & _ & A7 & A8 & A9). unfold cmm_state, with_qd, with_u. cbn [st_p st_q st_s st_lin st_qd st_sd].
  rewrite !part_vset, E, (outside _ _ _ _ _ (apart_sym _ _ _ _ A7) E), (outside _ _ _ _ _ A9 E). reflexivity.
Qed.
Lemma ST_sd x w k t : in_range ov dofs k = true -> ST x (vset w k t) = with_sd (ST x w) (vset (st_sd (ST x w)) (k - ov) t).
Proof.
  intros E. destruct AP as (_ & _ & _ & _ & _ & _ & A7 & A8 & A9). unfold cmm_state, with_sd, with_u. cbn [st_p st_q st_s st_lin st_qd st_sd].
  rewrite !part_vset, E, (outside _ _ _ _ _ (apart_sym _ _ _ _ A8) E), (outside _ _ _ _ _ (apart_sym _ _ _ _ A9) E). reflexivity.
Qed.
Lemma ST_still x w k t : in_range ol 3 k = false -> in_range od 4 k = false -> in_range ov dofs k = false -> ST x (vset w k t) = ST x w.
Proof. intros E1 E2 E3. unfold cmm_state. rewrite !part_vset, E1, E2, E3. reflexivity. Qed.
Lemma along_control (f : rstate -> R) x u k d :
  (in_range ol 3 k = true -> is_derive (fun t => f (with_lin (ST x u) (vset (st_lin (ST x u)) (k - ol) t))) (st_lin (ST x u) (k - ol)%nat) d) ->
  (in_range ol 3 k = false -> in_range od 4 k = true -> is_derive (fun t => f (with_qd (ST x u) (vset (st_qd (ST x u)) (k - od) t))) (st_qd (ST x u) (k - od)%nat) d) ->
  (in_range ol 3 k = false -> in_range od 4 k = false -> in_range ov dofs k = true -> is_derive (fun t => f (with_sd (ST x u) (vset (st_sd (ST x u)) (k - ov) t))) (st_sd (ST x u) (k - ov)%nat) d) ->
  (in_range ol 3 k = false -> in_range od 4 k = false -> in_range ov dofs k = false -> d = 0) -> partial (fun w => f (ST x w)) u k d.
Proof.
  intros H1 H2 H3 H4. unfold partial. destruct (in_range ol 3 k) eqn:E1; [|destruct (in_range od 4 k) eqn:E2; [|destruct (in_range ov dofs k) eqn:E3]].
  - specialize (H1 eq_refl). change (st_lin (ST x u) (k - ol)%nat) with (part u ol 3 (k - ol)%nat) in H1. rewrite part_in in H1 by exact E1. eapply is_derive_ext; [|exact H1]. intros t. cbv beta. rewrite ST_lin by exact E1. reflexivity.
  - specialize (H2 eq_refl eq_refl). change (st_qd (ST x u) (k - od)%nat) with (part u od 4 (k - od)%nat) in H2. rewrite part_in in H2 by exact E2. eapply is_derive_ext; [|exact H2]. intros t. cbv beta. rewrite ST_qd by exact E2. reflexivity.
  - specialize (H3 eq_refl eq_refl eq_refl). change (st_sd (ST x u) (k - ov)%nat) with (part u ov dofs (k - ov)%nat) in H3. rewrite part_in in H3 by exact E3. eapply is_derive_ext; [|exact H3]. intros t. cbv beta. rewrite ST_sd by exact E3. reflexivity.
  - rewrite (H4 eq_refl eq_refl eq_refl). eapply is_derive_ext; [|exact (D_const (f (ST x u)) _)]. intros t. cbv beta. rewrite ST_still by auto. reflexivity.
Qed.
(** The same for constraintSecondPartialDerivativeWRTStateControl: rows of the state, columns of the control. *)
Theorem C70_mixed_hessian s : REACH s -> forall t x u l H, turned x -> zero_outside (p_mhess (cmm_patterns dofs s)) H ->
  let H' := snd (c_mhess Cmm s t x u l H) in
  zero_outside (p_mhess (cmm_patterns dofs s)) H' /\ is_mixed_hessian_on turned (fun y w => weighted 3 l (momentum_error c L y w)) x u H'.
Proof.
  intros R t x u l H P Z. cbv zeta. destruct (reachable_inv r place dofs up base child inertia fvel mom matrix cpos cjac second c shared AP s R) as (E & _).
  split; [exact (proj1 (proj2 (C70_hessian_patterns r place dofs up base child inertia fvel mom matrix cpos cjac second c shared AP s R t x u l H)) Z)|].
  assert (ZO : forall j k, (in_range oq 4 j || in_range os dofs j) && (in_range ol 3 k || in_range od 4 k || in_range ov dofs k) = false -> H j k = 0).
  { intros j k F. apply Z. unfold cmm_patterns. rewrite E. intros I. apply in_mhess in I. congruence. }
  exists (fun y w => gradient l y w). split; [intros y w Py; apply gradient_ok; exact Py|]. intros j k. rewrite mhess_entry by exact E. unfold gradient.
  eapply partial_eq; [apply partial_minus; [|apply (partial_const (sumn 3 (fun i => l i * ind (om + 3 + i) j)))]|apply Rminus_0_r].
  destruct (in_range oq 4 j) eqn:J1; [|destruct (in_range os dofs j) eqn:J2].
  - assert (Hj : (j - oq < 4)%nat) by (apply in_range_spec in J1; lia). apply (along_control (fun st => QLr (j - oq)%nat (VV st l))).
    + intros K. rewrite K. apply (second_ql r place dofs up depth base inertia vel cpos MR); [exact P|exact Hj|apply in_range_spec in K; lia].
    + intros K1 K. rewrite K1, K. apply (second_qd r place dofs up depth base inertia vel cpos MR); [exact P|exact Hj|apply in_range_spec in K; lia].
    + intros K1 K2 K. rewrite K1, K2, K. apply (second_qv r place dofs up depth base inertia vel cpos MR); [exact P|exact Hj|apply in_range_spec in K; lia].
    + intros K1 K2 K. rewrite K1, K2, K. apply ZO. rewrite K1, K2, K. apply andb_false_r.
  - assert (Hj : (j - os < dofs)%nat) by (apply in_range_spec in J2; lia). apply (along_control (fun st => JLr (j - os)%nat (VV st l))).
    + intros K. rewrite K. apply (second_sl r place dofs up depth base inertia vel mas cpos cjac MR CO); [exact Hj|apply in_range_spec in K; lia].
    + intros K1 K. rewrite K1, K. apply (second_sd r place dofs up depth base inertia vel mas cpos cjac MR CO); [exact Hj|apply in_range_spec in K; lia].
    + intros K1 K2 K. rewrite K1, K2, K. apply (second_sv r place dofs up depth base inertia vel mas cpos cjac MR CO); [exact Hj|apply in_range_spec in K; lia].
    + intros K1 K2 K. rewrite K1, K2, K. apply ZO. rewrite K1, K2, K. apply andb_false_r.
  - eapply partial_eq; [apply partial_const|]. symmetry. apply ZO. rewrite J1, J2. reflexivity.
Qed.
End Hess.

(** ** A concrete case: the arm of KinInstance.v *)
From Verif Require Import KinUsers KinExist KinInstance PropCom.
Example arm_cmm_hessians : exists cpos cjac L, centroidal_function arm place arm_inertia arm_masses 0 2 arm_layout L /\ turned_base arm_layout arm_state /\
  let dmom := mom_derivative arm 2 (up 0) 0 arm_child arm_inertia (relative arm place) arm_vel in
  let C := cmm_class 2 arm_momentum arm_matrix dmom cpos cjac (cmm_second arm 0 arm_inertia (relative arm place) arm_vel_at cpos) in
  forall s, reach C cmm_other (cmm_ctor arm_layout (fun _ => arm_turning)) s -> forall t u l,
    is_hessian_on (turned_base arm_layout) (fun y => weighted 3 l (momentum_error arm_layout L y u)) arm_state (snd (c_shess C s t arm_state u l (fun _ _ => 0))) /\
    is_mixed_hessian_on (turned_base arm_layout) (fun y w => weighted 3 l (momentum_error arm_layout L y w)) arm_state u (snd (c_mhess C s t arm_state u l (fun _ _ => 0))).
Proof.
  destruct arm_com_oracle as (cpos & cjac & CO). exists cpos, cjac.
  destruct (proj1 (C70_value_exists arm place 2 up depth 0 arm_child arm_inertia arm_vel arm_masses arm_layout arm_mechanics)) as (L & HL).
  exists L. split; [exact HL|].
  assert (T : turned_base arm_layout arm_state) by (unfold turned_base, qnorm2, part, arm_state; cbn; lra). split; [exact T|]. cbv zeta. intros s R t u l. split.
  - apply (C70_state_hessian arm place 2 up depth 0 arm_child arm_inertia arm_vel arm_vel_at arm_masses arm_momentum arm_matrix cpos cjac arm_layout (fun _ => arm_turning) arm_mechanics arm_moving_robot CO arm_momentum_oracle arm_apart L HL s R t arm_state u l (fun _ _ => 0) T). intros i k _. reflexivity.
  - apply (C70_mixed_hessian arm place 2 up depth 0 arm_child arm_inertia arm_vel arm_vel_at arm_masses arm_momentum arm_matrix cpos cjac arm_layout (fun _ => arm_turning) arm_mechanics arm_moving_robot CO arm_momentum_oracle arm_apart L HL s R t arm_state u l (fun _ _ => 0) T). intros i k _. reflexivity.
Qed.
Print Assumptions C70_state_hessian.
Print Assumptions C70_mixed_hessian.
