(** The expressions of FrameAngularVelocityCost: values and first derivatives. *)
From Coq Require Import Reals List Arith Lia Lra Bool FunctionalExtensionality.
From Coquelicot Require Import Coquelicot.
From Verif Require Import Spec PartialLib SpecQuaternion SpecRigid SpecBase SpecCom SpecOri SpecAng SpecDerivatives Rigid RigidCalc KinTree KinModel KinLib KinMotion KinProofs PropKin.
From Verif Require Import SymModel SymProofs SymKin BaseModel BaseProofs PropBase RatLib AngModel.
Import ListNotations.
Local Open Scope R_scope.

Lemma world_spin_E n d : world_spin n d = Einv n d.
Proof. unfold world_spin, Einv. f_equal; ring. Qed.

Section Ang.
Variable r : robot.
Variable place : vec -> nat -> pose.
Variable dofs : nat.
Variable up : nat -> nat -> option (nat * nat).
Variable depth : nat -> nat -> nat.
Variable base : nat.
Variable jac : vec -> nat -> nat -> nat -> v6.
Variable fvel : env -> nat -> v6.
Variable btw : env -> v6.
Variable quat : m3 -> vec.
Notation bt := default_twist.
Notation rel := (relative r place).
Notation VD := (vdim dofs).
Notation UE := (ueval r dofs up base bt rel jac fvel quat).
Notation FR := (frows VD urows (ucols dofs)).
Notation FC := (fcols VD urows (ucols dofs)).
Notation M := (meaning VD urows (ucols dofs) UE).
Notation WF := (well_formed VD urows (ucols dofs) UE).
Notation DU := (ang_du r dofs up base bt twist_dep).
Notation DEN := (den VD urows (ucols dofs) UE).
Hypothesis K : kinematics r place dofs up depth base jac fvel btw quat.

Lemma twist_value rho i : 0 < qnorm2 (rho v_q) -> (i < 6)%nat ->
  M rho bt i 0%nat = v6ent (V6 (vec3_of (rho v_lin)) (world_spin (qunit (rho v_q)) (rho v_qdot))) i + rho v_twist i.
Proof.
  intros P Hi. change (M rho bt i 0%nat) with (M rho base_twist i 0%nat + rho v_twist i). f_equal.
  destruct (base_twist_den dofs UE rho P) as (_ & _ & _ & E). rewrite E by auto. rewrite world_spin_E. reflexivity.
Qed.
Lemma twist_shape : FR bt = 6%nat /\ FC bt = 1%nat /\ WF bt.
Proof. destruct (default_twist_good r place dofs up base jac fvel quat) as (_ & W & A & B & _). auto. Qed.
Lemma vset_smooth (q : vec) j k x : ex_derive (fun t => vset q j t k) x.
Proof. unfold vset. destruct (k =? j)%nat; [exists 1; apply (@is_derive_id R_AbsRing)|exists 0; apply (D_const (q k) x)]. Qed.
Lemma entry_smooth (rho : env) v j u i x : ex_derive (fun t => at_entry rho v j t u i) x.
Proof.
  destruct (Nat.eq_dec v u) as [->|N].
  - apply ex_derive_ext with (f := fun t => vset (rho u) j t i); [intros t; rewrite at_same; reflexivity|apply vset_smooth].
  - apply ex_derive_ext with (f := fun _ : R => rho u i); [intros t; rewrite at_other by auto; reflexivity|apply ex_derive_const].
Qed.
Lemma near_turned (rho : env) v j : 0 < qnorm2 (rho v_q) -> locally (rho v j) (fun t => 0 < qnorm2 (at_entry rho v j t v_q)).
Proof.
  intros P. destruct (Nat.eq_dec v v_q) as [->|N].
  - eapply filter_imp; [|apply (vset_near (rho v_q) j P)]. intros t Pt. rewrite at_same. exact Pt.
  - apply filter_forall. intros t. rewrite at_other by auto. exact P.
Qed.
Lemma spin_component (f g h l a b c d : R -> R) x : ex_derive f x -> ex_derive g x -> ex_derive h x -> ex_derive l x -> ex_derive a x -> ex_derive b x -> ex_derive c x -> ex_derive d x ->
  ex_derive (fun t => 2 * (f t * a t - g t * b t + h t * c t - l t * d t)) x.
Proof. intros A B C D A' B' C' D'. auto_derive. repeat split; auto. Qed.
Lemma spin_smooth (q d : R -> vec) x i : (forall k, (k < 4)%nat -> ex_derive (fun t => q t k) x) -> (forall k, (k < 4)%nat -> ex_derive (fun t => d t k) x) ->
  ex_derive (fun t => vent (world_spin (q t) (d t)) i) x.
Proof.
  intros Q D.
  assert (C : forall a0 a1 b0 b1 c0 c1 d0 d1, (a0 < 4)%nat -> (a1 < 4)%nat -> (b0 < 4)%nat -> (b1 < 4)%nat -> (c0 < 4)%nat -> (c1 < 4)%nat -> (d0 < 4)%nat -> (d1 < 4)%nat ->
    ex_derive (fun t => 2 * (q t a0 * d t a1 - q t b0 * d t b1 + q t c0 * d t c1 - q t d0 * d t d1)) x).
  { intros. apply (spin_component (fun t => q t a0) (fun t => q t b0) (fun t => q t c0) (fun t => q t d0) (fun t => d t a1) (fun t => d t b1) (fun t => d t c1) (fun t => d t d1)); auto. }
  destruct i as [|[|[|i]]]; [apply (C 0%nat 1%nat 1%nat 0%nat 2%nat 3%nat 3%nat 2%nat)|apply (C 0%nat 2%nat 2%nat 0%nat 3%nat 1%nat 1%nat 3%nat)|apply (C 0%nat 3%nat 3%nat 0%nat 1%nat 2%nat 2%nat 1%nat)|apply (ex_derive_const 0)]; lia.
Qed.
(** The twist of the base has derivatives with respect to every variable. *)
Lemma twist_smooth rho v : 0 < qnorm2 (rho v_q) -> smooth dofs UE rho v bt 0.
Proof.
  intros P i j Hi Hj. destruct twist_shape as (R0 & _). rewrite R0 in Hi.
  eapply ex_derive_ext_loc; [eapply filter_imp; [|apply (near_turned rho v j P)]; intros t Pt; symmetry; apply twist_value; auto|].
  apply (ex_derive_plus (fun t => v6ent (V6 (vec3_of (at_entry rho v j t v_lin)) (world_spin (qunit (at_entry rho v j t v_q)) (at_entry rho v j t v_qdot))) i) (fun t => at_entry rho v j t v_twist i)); [|apply entry_smooth].
  assert (SP : forall n, ex_derive (fun t => vent (world_spin (qunit (at_entry rho v j t v_q)) (at_entry rho v j t v_qdot)) n) (rho v j)).
  { intros n. apply (spin_smooth (fun t => qunit (at_entry rho v j t v_q)) (fun t => at_entry rho v j t v_qdot)).
    - intros k Hk. eexists. apply (unit_D (fun t => at_entry rho v j t v_q) (rho v j) (fun i => Derive (fun t => at_entry rho v j t v_q i) (rho v j))).
      + rewrite at_self. exact P.
      + intros n' _. apply Derive_correct. apply entry_smooth.
      + exact Hk.
    - intros k Hk. apply entry_smooth. }
  destruct i as [|[|[|[|[|[|i]]]]]]; [apply entry_smooth|apply entry_smooth|apply entry_smooth|apply (SP 0%nat)|apply (SP 1%nat)|apply (SP 2%nat)|lia].
Qed.

Variable f : nat.
Hypothesis F : is_frame r f.
(** The frame moves with the base. *)
Definition still (rho : env) : Prop := forall i, rho v_twist i = 0.
Definition the_twist (rho : env) : v6 := V6 (vec3_of (rho v_lin)) (world_spin (qunit (rho v_q)) (rho v_qdot)).
Lemma velocity_value rho : 0 < qnorm2 (rho v_q) -> still rho -> exists w,
  frame_velocity r place base (rho v_s) (rho v_sdot) (the_twist rho) f w /\ forall i, (i < 6)%nat -> M rho (absvel base bt f) i 0%nat = v6ent w i.
Proof.
  intros P S. apply (C59_absolute_velocity r place dofs up depth base bt twist_dep jac fvel btw quat K (default_twist_good r place dofs up base jac fvel quat) f rho (the_twist rho) F).
  intros i Hi. rewrite twist_value by auto. rewrite S. apply Rplus_0_r.
Qed.
Lemma absvel_shape : FR (absvel base bt f) = 6%nat /\ FC (absvel base bt f) = 1%nat /\ WF (absvel base bt f).
Proof.
  unfold absvel. destruct (f =? base)%nat; [apply twist_shape|]. split; [apply (leaf_rows dofs (KAbs f))|]. split; [apply (leaf_cols dofs (KAbs f))|exact Logic.I].
Qed.
Lemma absvel_ready rho v : 0 < qnorm2 (rho v_q) -> ready dofs DU UE rho v (absvel base bt f) 0.
Proof.
  intros P. unfold absvel. destruct (Nat.eqb_spec f base) as [->|N].
  - apply none_ready; [reflexivity|]. apply twist_smooth. exact P.
  - destruct (C59_absolute_velocity_derivative r place dofs up depth base bt twist_dep jac fvel btw quat K (default_twist_good r place dofs up base jac fvel quat) f v F) as (X & E & RX & CX & WX & DX).
    apply (leaf_ready r place dofs up base bt jac fvel quat DU rho v (KAbs f) 0 X E RX CX WX). intros i j Hi Hj. apply DX; [exact Hi|exact Hj|].
    intros _ k Hk. destruct twist_shape as (R0 & _). apply (twist_smooth rho v P k j); [rewrite R0; exact Hk|exact Hj].
Qed.
Lemma uses_hand_du : uses_hand r dofs up base bt twist_dep DU. Proof. intros k c v. destruct k; exact Logic.I || reflexivity. Qed.

(** ** The rotation error *)
Variable Rd : m3.
Variable k : R.
Notation Et := (ang_turn base Rd f).
Notation e := (ang_error base bt Rd k f).
Definition Rf (rho : env) : m3 := mm (qmat (qunit (rho v_q))) (rot (rel (rho v_s) base f)).
Lemma turn_shape : FR Et = 3%nat /\ FC Et = 3%nat /\ WF Et.
Proof.
  destruct (base_shape dofs UE) as (R0 & C0 & W0). destruct (relrot_shape r place dofs up depth base bt jac fvel btw quat K base f) as (R2 & C2 & W2).
  destruct (wf_mul_intro dofs UE base_rotation (relrot base f) W0 W2 ltac:(lia)) as (W4 & R4 & C4 & _).
  destruct (wf_mul_intro dofs UE (FMul base_rotation (relrot base f)) (FTransp (FConst 3 3 (ment Rd))) W4 Logic.I ltac:(rewrite C4, C2; reflexivity)) as (W5 & R5 & C5 & _).
  unfold ang_turn. split; [congruence|]. split; [exact C5|exact W5].
Qed.
Lemma ment_mm A B i j : (i < 3)%nat -> (j < 3)%nat -> ment (mm A B) i j = sumn 3 (fun l => ment A i l * ment B l j).
Proof. intros Hi Hj. destruct i as [|[|[|]]]; [| | |lia]; (destruct j as [|[|[|]]]; [| | |lia]); cbn; ring. Qed.
Lemma turn_value rho i j : 0 < qnorm2 (rho v_q) -> (i < 3)%nat -> (j < 3)%nat -> M rho Et i j = ment (mm (Rf rho) (mtr Rd)) i j.
Proof.
  intros P Hi Hj. destruct (base_shape dofs UE) as (R0 & C0 & W0). destruct (relrot_shape r place dofs up depth base bt jac fvel btw quat K base f) as (R2 & C2 & W2).
  destruct (wf_mul_intro dofs UE base_rotation (relrot base f) W0 W2 ltac:(lia)) as (W4 & R4 & C4 & V4).
  destruct (wf_mul_intro dofs UE (FMul base_rotation (relrot base f)) (FTransp (FConst 3 3 (ment Rd))) W4 Logic.I ltac:(rewrite C4, C2; reflexivity)) as (W5 & R5 & C5 & V5).
  unfold ang_turn. rewrite V5; [|lia|exact Hj]. rewrite C4, C2. rewrite (ment_mm (Rf rho) (mtr Rd)) by auto. apply sumn_ext. intros l Hl. f_equal.
  - rewrite V4 by lia. unfold Rf. rewrite ment_mm by auto. rewrite C0. apply sumn_ext. intros m Hm. rewrite base_value by auto. f_equal.
    destruct (relrot_den r place dofs up base bt jac fvel quat (k_robot _ _ _ _ _ _ _ _ _ _ K) (k_place _ _ _ _ _ _ _ _ _ _ K) (k_dofs _ _ _ _ _ _ _ _ _ _ K) rho base f) as (_ & _ & _ & E); auto.
    { unfold frame_ok. pose proof (k_base _ _ _ _ _ _ _ _ _ _ K). lia. }
  - cbn [meaning]. destruct j as [|[|[|]]]; [| | |lia]; (destruct l as [|[|[|]]]; [| | |lia]); reflexivity.
Qed.
Lemma base_frame : is_frame r base.
Proof. unfold is_frame. pose proof (k_base _ _ _ _ _ _ _ _ _ _ K). lia. Qed.
Lemma turn_ready rho v c : 0 < qnorm2 (rho v_q) -> unturned r up base f -> (c < 3)%nat -> ready dofs DU UE rho v Et c.
Proof.
  intros P UT Hc. destruct (base_shape dofs UE) as (R0 & C0 & W0). destruct (relrot_shape r place dofs up depth base bt jac fvel btw quat K base f) as (R2 & C2 & W2).
  destruct (wf_mul_intro dofs UE base_rotation (relrot base f) W0 W2 ltac:(lia)) as (W4 & R4 & C4 & _).
  unfold ang_turn. apply ready_mul; [exact W4|exact Logic.I|rewrite C4, C2; reflexivity|exact Hc| |].
  - intros l Hl. rewrite C4, C2 in Hl. apply ready_mul; [exact W0|exact W2|lia|lia| |].
    + intros m Hm. rewrite C0 in Hm. apply none_ready; [reflexivity|]. apply base_smooth; auto.
    + apply (relrot_ready r place dofs up depth base bt twist_dep jac fvel btw quat K DU base f l rho v uses_hand_du base_frame F Hl UT).
  - apply ready_const; [reflexivity|]. intros. reflexivity.
Qed.

(** ** The error of the velocity *)
Notation sk := (FMul (scalar (1 / 2)) (FSub Et (FTransp Et))).
Lemma sub_shape : FR (FSub Et (FTransp Et)) = 3%nat /\ FC (FSub Et (FTransp Et)) = 3%nat /\ WF (FSub Et (FTransp Et)).
Proof.
  destruct turn_shape as (R0 & C0 & W0). split; [exact R0|]. split; [exact C0|]. split; [exact W0|]. split; [exact W0|].
  change (FR (FTransp Et)) with (FC Et). change (FC (FTransp Et)) with (FR Et). split; congruence.
Qed.
Lemma sk_shape : FR sk = 3%nat /\ FC sk = 3%nat /\ WF sk /\ forall rho i j, M rho sk i j = 1 / 2 * (M rho Et i j - M rho Et j i).
Proof.
  destruct sub_shape as (R0 & C0 & W0). destruct (mul_scal dofs UE (scalar (1 / 2)) (FSub Et (FTransp Et)) eq_refl) as (R1 & C1 & V1).
  split; [congruence|]. split; [congruence|]. split; [split; [exact Logic.I|]; split; [exact W0|]; left; split; reflexivity|].
  intros rho i j. rewrite V1. reflexivity.
Qed.
Lemma vee_shape : WF (FVee sk). Proof. destruct sk_shape as (A & B & C & _). split; [exact C|]. auto. Qed.
Notation ve := (FMul (scalar k) (FVee sk)).
Lemma ve_shape : FR ve = 3%nat /\ FC ve = 1%nat /\ WF ve /\ forall rho i, M rho ve i 0%nat = k * M rho (FVee sk) i 0%nat.
Proof.
  destruct (mul_scal dofs UE (scalar k) (FVee sk) eq_refl) as (R1 & C1 & V1). split; [exact R1|]. split; [exact C1|].
  split; [split; [exact Logic.I|]; split; [exact vee_shape|]; left; split; reflexivity|]. intros rho i. rewrite V1. reflexivity.
Qed.
Lemma wf_error : FR e = 3%nat /\ FC e = 1%nat /\ WF e.
Proof.
  destruct absvel_shape as (R0 & C0 & W0). destruct ve_shape as (R1 & C1 & W1 & _). unfold ang_error. split; [reflexivity|]. split; [reflexivity|].
  split; [split; [exact W0|]; lia|]. split; [exact W1|]. split; [symmetry; exact R1|symmetry; exact C1].
Qed.
Lemma error_ready rho v : 0 < qnorm2 (rho v_q) -> unturned r up base f -> ready dofs DU UE rho v e 0.
Proof.
  intros P UT. destruct absvel_shape as (R0 & C0 & W0). destruct ve_shape as (R1 & C1 & W1 & _). destruct wf_error as (_ & _ & WE).
  unfold ang_error in *. apply ready_add; [exact WE|cbn [fcols]; lia| |].
  - apply ready_block; [split; [exact W0|]; lia|lia|]. apply absvel_ready; exact P.
  - apply ready_scal; [exact Logic.I|exact vee_shape|reflexivity|change (FC (FVee sk)) with 1%nat; lia|apply ready_const; [reflexivity|reflexivity]|].
    destruct sub_shape as (R2 & C2 & W2). destruct turn_shape as (R3 & C3 & W3).
    apply ready_vee; [exact vee_shape|]. intros c Hc. apply ready_scal; [exact Logic.I|exact W2|reflexivity|lia|apply ready_const; [reflexivity|reflexivity]|].
    apply ready_sub; [exact W2|lia|apply turn_ready; auto|]. apply ready_transp; [exact W3|lia|lia|]. intros j Hj. rewrite C3 in Hj. apply turn_ready; auto.
Qed.
(** Its value, for the velocity w of the frame. *)
Lemma error_value rho w : 0 < qnorm2 (rho v_q) -> (forall i, (i < 6)%nat -> M rho (absvel base bt f) i 0%nat = v6ent w i) ->
  forall i, (i < 3)%nat -> M rho e i 0%nat = vent (turning_error k Rd (Rf rho) (ang w)) i.
Proof.
  intros P HW i Hi. change (M rho e i 0%nat) with (M rho (absvel base bt f) (3 + i)%nat 0%nat + M rho ve i 0%nat).
  destruct ve_shape as (_ & _ & _ & VE). destruct sk_shape as (_ & _ & _ & VS). rewrite HW by lia. rewrite VE.
  change (M rho (FVee sk) i 0%nat) with (match i with 0%nat => M rho sk 2%nat 1%nat | 1%nat => M rho sk 0%nat 2%nat | _ => M rho sk 1%nat 0%nat end).
  destruct i as [|[|[|]]]; [| | |lia]; rewrite VS, !turn_value by (auto; lia); unfold turning_error, skew_part, vadd, vscale; cbn [vent v6ent lin ang vx vy vz ment Nat.add]; unfold v6ent; cbn [Nat.ltb Nat.leb Nat.sub vent]; field.
Qed.
(** The derivative of half the squared norm. *)
Lemma expression_value rho : M rho (ang_expression base bt Rd k f) 0%nat 0%nat = 1 / 2 * sumn 3 (fun i => M rho e i 0%nat * M rho e i 0%nat).
Proof.
  destruct wf_error as (R0 & C0 & W0). unfold ang_expression. destruct (mul_scal dofs UE (scalar (1 / 2)) (FTransp e) eq_refl) as (R1 & C1 & V1).
  change (FR (FTransp e)) with (FC e) in R1. change (FC (FTransp e)) with (FR e) in C1.
  assert (W1 : WF (FMul (scalar (1 / 2)) (FTransp e))) by (split; [exact Logic.I|]; split; [exact W0|]; left; split; reflexivity).
  destruct (wf_mul_intro dofs UE (FMul (scalar (1 / 2)) (FTransp e)) e W1 W0 ltac:(congruence)) as (W2 & R2 & C2 & V2).
  rewrite V2 by lia. rewrite C1, R0. rewrite <- sumn_scal. apply sumn_ext. intros i Hi. rewrite V1. change (M rho (FTransp e) 0%nat i) with (M rho e i 0%nat).
  change (M rho (scalar (1 / 2)) 0%nat 0%nat) with (1 / 2). ring.
Qed.
Lemma gradient_value v rho j : 0 < qnorm2 (rho v_q) -> unturned r up base f -> (j < VD v)%nat ->
  is_derive (fun x => M (at_entry rho v j x) (ang_expression base bt Rd k f) 0%nat 0%nat) (rho v j)
    (ang_at dofs UE rho (ang_gradient r dofs up base bt twist_dep Rd k f v) j 0%nat).
Proof.
  intros P UT Hj. destruct wf_error as (R0 & C0 & W0).
  destruct (dcol_sound dofs DU UE rho v e 0%nat W0 ltac:(lia) (error_ready rho v P UT)) as (D & ED & RD & CD & WD & DD).
  unfold ang_gradient, ang_dcol. rewrite ED. cbn [option_map ang_at].
  destruct (wf_mul_intro dofs UE (FTransp e) D W0 WD ltac:(change (FC (FTransp e)) with (FR e); congruence)) as (W2 & R2 & C2 & V2).
  change (M rho (FTransp (FMul (FTransp e) D)) j 0%nat) with (M rho (FMul (FTransp e) D) 0%nat j).
  rewrite V2; [|change (FR (FTransp e)) with (FC e); lia|lia]. change (FC (FTransp e)) with (FR e). rewrite R0.
  apply is_derive_ext with (f := fun x => 1 / 2 * sumn 3 (fun i => M (at_entry rho v j x) e i 0%nat * M (at_entry rho v j x) e i 0%nat)); [intros t; symmetry; apply expression_value|].
  eapply D_eq; [refine (D_mult _ _ _ _ _ (D_const (1 / 2) _) (D_sumn 3 (fun i x => M (at_entry rho v j x) e i 0%nat * M (at_entry rho v j x) e i 0%nat) (rho v j)
    (fun i => M rho D i j * M rho e i 0%nat + M rho e i 0%nat * M rho D i j) _))|].
  - intros i Hi. eapply D_eq; [apply D_mult; apply DD; auto; lia|]. cbv beta. rewrite at_self. reflexivity.
  - cbv beta. rewrite Rmult_0_l, Rplus_0_l. rewrite <- sumn_scal. apply sumn_ext. intros i Hi. change (M rho (FTransp e) 0%nat i) with (M rho e i 0%nat). lra.
Qed.
End Ang.
