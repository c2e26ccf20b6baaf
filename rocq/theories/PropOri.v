(** C66: the cost of the orientation of a frame. *)
From Coq Require Import Reals List Arith Lia Lra Bool FunctionalExtensionality.
From Coquelicot Require Import Coquelicot.
From Verif Require Import Spec PartialLib QuadLib SpecQuaternion SpecDynamics SpecRigid SpecBase SpecFeet SpecCom SpecOri SpecDerivatives Rigid RigidCalc KinTree ConstraintsModel CostsModel Quaternion.
From Verif Require Import KinModel KinLib KinMotion KinProofs QuatCurve PropKin BaseModel BaseProofs PropBase SymModel FeetModel FeetProofs OriModel OriMix OriCode OriExist PropContact KinExist KinInstance PropCom PropComPos.
Import ListNotations.
Local Open Scope R_scope.

(** The entries of the base position, of the quaternion and of the joints do not overlap. *)
Definition ori_apart (c : ori_cfg) (dofs : nat) : Prop := apart (fo_pos c) 3 (fo_quat c) 4 /\ apart (fo_pos c) 3 (fo_joints c) dofs /\ apart (fo_quat c) 4 (fo_joints c) dofs.
(** A desired orientation and a weight are available at the time t. *)
Definition ori_available (s : ori) (t : R) : Prop := fo_desired s t <> None /\ fo_weight s t <> None.
(** The set of states where the derivatives are claimed: it may depend on the desired rotation. *)
Definition ori_domain (D : m3 -> vec -> Prop) (s : ori) (t : R) (x : vec) : Prop := match fo_desired s t with Some Rd => D Rd x | None => False end.

Section Ori.
Variable r : robot.
Variable place : vec -> nat -> pose.
Variable dofs : nat.
Variable up : nat -> nat -> option (nat * nat).
Variable depth : nat -> nat -> nat.
Variable base : nat.
Variable bt : formula.
Variable bt_dep : nat -> bool.
Variable jac : vec -> nat -> nat -> nat -> v6.
Variable fvel : env -> nat -> v6.
Variable btw : env -> v6.
Variable quat : m3 -> vec.
Variable fjac : nat -> vec -> vec -> vec -> mat.
Variable qri qrt : vec -> mat.
Variable c : ori_cfg.
Variable shared : R -> env.
Notation rel := (relative r place).
Notation UE0 := (ueval r dofs up base bt rel jac fvel quat).
Notation Cls := (ori_class r dofs up base bt bt_dep rel UE0 quat fjac qri qrt).
Notation op := (fo_pos c).
Notation oq := (fo_quat c).
Notation os := (fo_joints c).
Notation f := (fo_frame c).
Notation RX := (ori_state dofs c).
Notation cost_of := (orientation_cost r place base f quat op oq os dofs).

(** Every history of calls and of changes of the reference, of the weight and of the shared state. *)
Definition ori_reachable : ori -> Prop := kreach Cls ori_other (ori_ctor c shared).
Definition ori_value (s : ori) (t : R) (x u : vec) : R :=
  match fo_desired s t, fo_weight s t with Some Rd, Some w => cost_of Rd w x | _, _ => 0 end.

(** What holds after every history: the configuration is the one given at first, the desired orientations are rotations. *)
Definition ori_inv (s : ori) : Prop := fo_cfg s = c /\ (forall t A, fo_desired s t = Some A -> rotation A) /\ vzero_outside (seq oq 4 ++ seq os dofs) (fo_buffer s).
Lemma seg_outside l g o n h : (forall k, in_range o n k = true -> In k l) -> vzero_outside l g -> vzero_outside l (set_seg g o n h).
Proof. intros I Z k N. unfold set_seg. destruct (in_range o n k) eqn:E; [elim N; auto|apply Z; exact N]. Qed.
Lemma in_q k : in_range oq 4 k = true -> In k (seq oq 4 ++ seq os dofs).
Proof. intros E. apply in_range_spec in E. apply in_or_app. left. apply in_seq. lia. Qed.
Lemma in_s k : in_range os dofs k = true -> In k (seq oq 4 ++ seq os dofs).
Proof. intros E. apply in_range_spec in E. apply in_or_app. right. apply in_seq. lia. Qed.
Lemma ori_invariant s : ori_reachable s -> ori_inv s.
Proof.
  induction 1 as [|s t x u _ IH|s t x u g _ IH|s t x u g _ IH|s t x u H _ IH|s t x u H _ IH|s t x u H _ IH|s s' _ IH O]; auto.
  - split; [reflexivity|]. split; [intros t A E; injection E as <-; apply rotation_I|]. intros k _. reflexivity.
  - destruct IH as (E & Q & Z). cbn [k_sgrad ori_class]. unfold ori_sgrad.
    destruct (fo_desired s t) eqn:E1; [|exact (conj E (conj Q Z))]. destruct (fo_weight s t) eqn:E2; [|exact (conj E (conj Q Z))].
    cbn [fst]. split; [exact E|]. split; [exact Q|]. rewrite E. apply seg_outside; [apply in_s|]. apply seg_outside; [apply in_q|exact Z].
  - destruct IH as (E & Q & Z). cbn [k_shess ori_class]. unfold ori_shess. destruct (fo_desired s t); [|exact (conj E (conj Q Z))]. destruct (fo_weight s t); exact (conj E (conj Q Z)).
  - destruct IH as (E & Q & Z). destruct O as [s A RA|s o RA|s g|s g].
    + split; [exact E|]. split; [intros t B EB; injection EB as <-; exact RA|exact Z].
    + destruct o as [g|]; [|exact (conj E (conj Q Z))]. split; [exact E|]. split; [intros t B EB; exact (RA g t B eq_refl EB)|exact Z].
    + exact (conj E (conj Q Z)).
    + exact (conj E (conj Q Z)).
Qed.

Hypothesis K : kinematics r place dofs up depth base jac fvel btw quat.
Hypothesis F : is_frame r f.
Hypothesis PD : (0 < dofs)%nat.
Hypothesis AP : ori_apart c dofs.
Hypothesis FJ : forall q p s, frame_spin r place base f dofs (base_pose q (vec3_of p)) s (fjac f q p s).
Hypothesis RTI : right_trivialized qri.
Hypothesis RTB : right_trivialized_back qrt.
Variable D : m3 -> vec -> Prop.
Hypothesis DD : forall Rd, rotation Rd -> coordinate_open (D Rd) /\ error_smooth r place base f quat op oq os dofs Rd (D Rd).

Lemma shared_is s t x : fo_cfg s = c -> fo_shared (ori_update dofs s t x) t = RX (fo_shared s t) x.
Proof. intros E. unfold ori_update, ori_set_shared. cbn [fo_shared]. unfold at_time. rewrite E. destruct (Req_EM_T t t); [reflexivity|contradiction]. Qed.
Theorem C66_value s t x u : ori_reachable s -> ori_available s t -> snd (k_eval Cls s t x u) = Some (ori_value s t x u).
Proof.
  intros RS [A1 A2]. destruct (ori_invariant s RS) as (E & _ & _). cbn [k_eval ori_class]. unfold ori_eval, ori_value. cbn [snd].
  destruct (fo_desired s t) as [Rd|]; [|contradiction]. destruct (fo_weight s t) as [w|]; [|contradiction]. rewrite shared_is by exact E. rewrite E. f_equal.
  unfold orientation_cost, orientation_distance, QuaternionSquaredNorm. cbn [sumn].
  change (orientation_error quat Rd (world_rotation r place base f (part x oq 4) (part x op 3) (part x os dofs))) with (ori_error base rel quat Rd f (RX (fo_shared s t) x)). unfold ori_diff. field.
Qed.
(** Without a reference or a weight the cost and its derivatives report a failure. *)
Theorem C66_unavailable s t x u g H : ~ ori_available s t -> snd (k_eval Cls s t x u) = None /\ snd (k_sgrad Cls s t x u g) = None /\ snd (k_shess Cls s t x u H) = None.
Proof.
  intros N. cbn [k_eval k_sgrad k_shess ori_class]. unfold ori_eval, ori_sgrad, ori_shess, ori_available in *.
  destruct (fo_desired s t) as [Rd|]; [|auto]. destruct (fo_weight s t) as [w|]; [|auto]. elim N. split; discriminate.
Qed.
Lemma state_gradient s t x u g : ori_reachable s -> ori_available s t -> ori_domain D s t x ->
  exists g', snd (k_sgrad Cls s t x u g) = Some g' /\ vzero_outside (seq oq 4 ++ seq os dofs) g' /\ is_gradient (fun y => ori_value s t y u) x g'.
Proof.
  intros RS [A1 A2] Dx. destruct (ori_invariant s RS) as (E & Q & Z). destruct AP as (APQ & APS & AQS). unfold ori_domain in Dx. cbn [k_sgrad ori_class]. unfold ori_sgrad, ori_value.
  destruct (fo_desired s t) as [Rd|] eqn:ED; [|contradiction]. destruct (fo_weight s t) as [w|]; [|contradiction]. pose proof (Q t Rd ED) as RD. destruct (DD Rd RD) as [DO DS].
  rewrite shared_is by exact E. rewrite E. set (rho := fo_shared s t). eexists. split; [reflexivity|].
  split; [apply seg_outside; [apply in_s|]; apply seg_outside; [apply in_q|exact Z]|].
  pose proof (fine_x r place dofs base quat Rd f PD c eq_refl APQ APS AQS (D Rd) DS rho x Dx) as FN.
  pose proof (gradient_exact r place dofs up depth base bt jac fvel btw quat Rd f K RD F PD c eq_refl APQ APS AQS (D Rd) DS w rho x Dx) as G. intros k. specialize (G k).
  eapply partial_eq; [exact G|]. unfold grad, set_seg.
  assert (ES : forall e' e j, (forall i, (i < 4)%nat -> e' i j = mulv 3 (QuaternionLeftTrivializedDerivative (err_value base rel quat Rd f (RX rho x))) (vent (spin r place base jac f (RX rho x) e j)) i) ->
     gfun r place base jac quat Rd f w (RX rho x) e j = w * sumn 4 (fun i => e' i j * ori_diff base rel quat Rd f (RX rho x) i)).
  { intros e' e j H. unfold gfun. f_equal. apply sumn_ext. intros i Hi. rewrite H by exact Hi. unfold ori_diff, ori_error. rewrite Rmult_comm. reflexivity. }
  destruct (in_range oq 4 k) eqn:IQ.
  - rewrite (outside _ _ _ _ _ AQS IQ). apply (ES (fun i j => ori_error_jacobian qrt Rd (ori_error base rel quat Rd f (RX rho x)) (ori_jacobian qri (fjac f (RX rho x v_q) (RX rho x v_p) (RX rho x v_s)) (RX rho x v_q)) i (3 + j)%nat)).
    intros i Hi. apply in_range_spec in IQ. apply (code_quaternion r place dofs up depth base bt jac fvel btw quat Rd f K RD F PD c eq_refl fjac qri qrt FJ RTI RTB (RX rho x) i (k - oq) FN Hi). lia.
  - destruct (in_range os dofs k) eqn:IS; [|symmetry; apply Z; intros I; apply in_app_or in I; rewrite !in_seq in I; destruct I as [I|I]; [apply (proj2 (in_range_spec oq 4 k)) in I|apply (proj2 (in_range_spec os dofs k)) in I]; congruence].
    apply (ES (fun i j => ori_error_jacobian qrt Rd (ori_error base rel quat Rd f (RX rho x)) (ori_jacobian qri (fjac f (RX rho x v_q) (RX rho x v_p) (RX rho x v_s)) (RX rho x v_q)) i (7 + j)%nat)).
    intros i Hi. apply in_range_spec in IS. apply (code_joints r place dofs up depth base bt jac fvel btw quat Rd f K RD F PD c eq_refl fjac qri qrt FJ RTB (RX rho x) i (k - os) FN Hi). lia.
Qed.
Lemma state_hessian s t x u H : ori_reachable s -> ori_available s t -> ori_domain D s t x -> zero_outside (q_shess (ori_supports dofs s)) H ->
  exists H', snd (k_shess Cls s t x u H) = Some H' /\ zero_outside (q_shess (ori_supports dofs s)) H' /\ is_hessian_on (ori_domain D s t) (fun y => ori_value s t y u) x H'.
Proof.
  intros RS [A1 A2] Dx Z. destruct (ori_invariant s RS) as (E & Q & _). destruct AP as (APQ & APS & AQS). unfold ori_domain in *. cbn [k_shess ori_class]. unfold ori_shess, ori_value.
  destruct (fo_desired s t) as [Rd|] eqn:ED; [|contradiction]. destruct (fo_weight s t) as [w|]; [|contradiction]. pose proof (Q t Rd ED) as RD. destruct (DD Rd RD) as [DO DS].
  rewrite shared_is by exact E. unfold ori_supports in *. rewrite E in *. cbn [q_shess] in *. set (rho := fo_shared s t).
  set (HE v u0 := ori_at dofs base rel UE0 quat Rd (env_set (RX rho x) v_weight (fun _ => w)) (ori_hessian r dofs up base bt bt_dep quat f v u0)).
  eexists. split; [reflexivity|].
  match goal with |- zero_outside _ ?h /\ _ => set (H' := h) end.
  assert (EH : forall i j, H' i j = if in_range oq 4 i then (if in_range oq 4 j then HE v_q v_q (i - oq)%nat (j - oq)%nat else if in_range os dofs j then HE v_q v_s (i - oq)%nat (j - os)%nat else H i j)
     else if in_range os dofs i then (if in_range oq 4 j then HE v_q v_s (j - oq)%nat (i - os)%nat else if in_range os dofs j then HE v_s v_s (i - os)%nat (j - os)%nat else H i j) else H i j).
  { intros i j. unfold H', set_block. destruct (in_range oq 4 i) eqn:Q1, (in_range os dofs i) eqn:S1, (in_range oq 4 j) eqn:Q2, (in_range os dofs j) eqn:S2;
      try (pose proof (outside _ _ _ _ _ AQS Q1); congruence); try (pose proof (outside _ _ _ _ _ AQS Q2); congruence); reflexivity. }
  assert (ZB : forall i j, in_range oq 4 i || in_range os dofs i = false \/ in_range oq 4 j || in_range os dofs j = false -> H i j = 0).
  { intros i j N. apply Z. intros I. rewrite !orb_false_iff in N. rewrite !in_app_iff, !in_dense_block in I.
    assert (RQ : forall a, (a < 4)%nat -> in_range oq 4 (oq + a) = true) by (intros; apply in_range_spec; lia).
    assert (RJ : forall a, (a < dofs)%nat -> in_range os dofs (os + a) = true) by (intros; apply in_range_spec; lia).
    destruct I as [I|[I|[I|I]]]; destruct I as (a & b & Ha & Hb & EQ); injection EQ as -> ->; destruct N as [[N1 N2]|[N1 N2]];
      rewrite ?(RQ a Ha) in *; rewrite ?(RQ b Hb) in *; rewrite ?(RJ a Ha) in *; rewrite ?(RJ b Hb) in *; discriminate. }
  split.
  - intros i j N. rewrite EH.
    assert (BLK : forall o n o' n', (forall p, In p (dense_block o o' n n') -> In p (dense_block oq oq 4 4 ++ dense_block oq os 4 dofs ++ dense_block os oq dofs 4 ++ dense_block os os dofs dofs)) -> in_range o n i = true -> in_range o' n' j = true -> False).
    { intros o n o' n' S I J. apply N, S. apply in_range_spec in I, J. apply in_dense_block. exists (i - o)%nat, (j - o')%nat. split; [lia|]. split; [lia|]. f_equal; lia. }
    destruct (in_range oq 4 i) eqn:Q1; [|destruct (in_range os dofs i) eqn:S1; [|apply Z; exact N]];
    (destruct (in_range oq 4 j) eqn:Q2; [|destruct (in_range os dofs j) eqn:S2; [|apply Z; exact N]]); exfalso.
    + apply (BLK oq 4 oq 4)%nat; auto. intros p I. apply in_or_app. auto.
    + apply (BLK oq 4 os dofs)%nat; auto. intros p I. apply in_or_app. right. apply in_or_app. auto.
    + apply (BLK os dofs oq 4)%nat; auto. intros p I. apply in_or_app. right. apply in_or_app. right. apply in_or_app. auto.
    + apply (BLK os dofs os dofs)%nat; auto. intros p I. apply in_or_app. right. apply in_or_app. right. apply in_or_app. auto.
  - exists (grad r place dofs base jac quat Rd f c w rho). split.
    { intros y Dy. apply (gradient_exact r place dofs up depth base bt jac fvel btw quat Rd f K RD F PD c eq_refl APQ APS AQS (D Rd) DS w rho y Dy). }
    pose proof (hess_entry r place dofs up depth base bt bt_dep jac fvel btw quat Rd f K RD F PD c eq_refl APQ APS AQS (D Rd) DO DS w rho x) as HEN.
    pose proof (hess_transposed r place dofs up depth base bt bt_dep jac fvel btw quat Rd f K RD F PD c eq_refl APQ APS AQS (D Rd) DO DS w rho x) as HTR.
    intros j k. rewrite EH. unfold partial, grad. destruct (in_range oq 4 j) eqn:Q1; [|destruct (in_range os dofs j) eqn:S1].
    + pose proof (proj1 (in_range_spec _ _ _) Q1). destruct (in_range oq 4 k) eqn:Q2; [|destruct (in_range os dofs k) eqn:S2].
      * pose proof (proj1 (in_range_spec _ _ _) Q2). pose proof (HEN v_q v_q (j - oq)%nat (k - oq)%nat Dx ltac:(auto) ltac:(auto) ltac:(change (vdim dofs v_q) with 4%nat; lia) ltac:(change (vdim dofs v_q) with 4%nat; lia)) as G.
        rewrite (RX_q dofs c rho x), part_in in G by exact Q2. eapply is_derive_ext; [|exact G]. intros t0. cbv beta. rewrite (move_q dofs c APQ AQS) by exact Q2. reflexivity.
      * pose proof (proj1 (in_range_spec _ _ _) S2). pose proof (HEN v_q v_s (j - oq)%nat (k - os)%nat Dx ltac:(auto) ltac:(auto) ltac:(change (vdim dofs v_q) with 4%nat; lia) ltac:(change (vdim dofs v_s) with dofs; lia)) as G.
        rewrite (RX_s dofs c rho x), part_in in G by exact S2. eapply is_derive_ext; [|exact G]. intros t0. cbv beta. rewrite (move_s dofs c APS AQS) by exact S2. reflexivity.
      * rewrite ZB by (right; rewrite Q2, S2; reflexivity). eapply is_derive_ext; [|exact (D_const (gfun r place base jac quat Rd f w (RX rho x) v_q (j - oq)) _)].
        intros t0. symmetry. apply gfun_only; apply stay; auto.
    + pose proof (proj1 (in_range_spec _ _ _) S1). destruct (in_range oq 4 k) eqn:Q2; [|destruct (in_range os dofs k) eqn:S2].
      * pose proof (proj1 (in_range_spec _ _ _) Q2). pose proof (HTR (j - os)%nat (k - oq)%nat Dx ltac:(lia) ltac:(lia)) as G.
        rewrite (RX_q dofs c rho x), part_in in G by exact Q2. eapply is_derive_ext; [|exact G]. intros t0. cbv beta. rewrite (move_q dofs c APQ AQS) by exact Q2. reflexivity.
      * pose proof (proj1 (in_range_spec _ _ _) S2). pose proof (HEN v_s v_s (j - os)%nat (k - os)%nat Dx ltac:(auto) ltac:(auto) ltac:(change (vdim dofs v_s) with dofs; lia) ltac:(change (vdim dofs v_s) with dofs; lia)) as G.
        rewrite (RX_s dofs c rho x), part_in in G by exact S2. eapply is_derive_ext; [|exact G]. intros t0. cbv beta. rewrite (move_s dofs c APS AQS) by exact S2. reflexivity.
      * rewrite ZB by (right; rewrite Q2, S2; reflexivity). eapply is_derive_ext; [|exact (D_const (gfun r place base jac quat Rd f w (RX rho x) v_s (j - os)) _)].
        intros t0. symmetry. apply gfun_only; apply stay; auto.
    + rewrite ZB by (left; rewrite Q1, S1; reflexivity). exact (D_const 0 (x k)).
Qed.
Theorem C66_frame_orientation_exact : cost_exact_on (ori_domain D) Cls ori_reachable ori_available ori_value (ori_supports dofs).
Proof.
  split; [intros s RS t x u A; apply C66_value; auto|]. split.
  - intros s RS t x u A Dx. assert (E : q_sgrad (ori_supports dofs s) = seq oq 4 ++ seq os dofs) by (cbn; rewrite (proj1 (ori_invariant s RS)); reflexivity).
    split; [intros g _; rewrite E; apply state_gradient; auto|].
    split; [intros g Z; exists (fun _ => 0); split; [reflexivity|]; split; [intros k _; reflexivity|]; intros k; apply (partial_const (ori_value s t x u))|].
    split; [intros H Z; apply state_hessian; auto|].
    split; [intros H Z; exists H; split; [reflexivity|]; split; [exact Z|]; exists (fun _ _ => 0); split; [intros y k; apply (partial_const (ori_value s t x u))|]; intros j k; eapply partial_eq; [apply (partial_const 0)|]; symmetry; apply Z; cbn; auto|].
    intros H Z. exists H. split; [reflexivity|]. split; [exact Z|].
    destruct (state_hessian s t x u (fun _ _ => 0) RS A Dx (fun _ _ _ => eq_refl)) as (H2 & _ & _ & g & G & _).
    exists (fun y _ => g y). split; [intros y w Dy; exact (G y Dy)|]. intros j k. eapply partial_eq; [apply (partial_const (g x j))|]. symmetry. apply Z. cbn. auto.
  - intros s RS t x u g M. split; [reflexivity|]. split; [|split; [reflexivity|split; [|split; reflexivity]]]; cbn [k_sgrad k_shess ori_class]; unfold ori_sgrad, ori_shess, ori_value;
      destruct (fo_desired s t); try reflexivity; destruct (fo_weight s t); reflexivity.
Qed.
(** With a positive weight the cost is zero exactly when the frame has the desired orientation. *)
Theorem C66_zero_iff Rd w x : rotation Rd -> 0 < w -> (cost_of Rd w x = 0 <-> world_rotation r place base f (part x oq 4) (part x op 3) (part x os dofs) = Rd).
Proof.
  intros RD W. set (Rf := world_rotation _ _ _ _ _ _ _). set (rho := RX (shared 0) x).
  pose proof (err_rep r place dofs up depth base jac fvel btw quat Rd f K RD F rho) as RP. pose proof (err_qmat r place dofs up depth base jac fvel btw quat Rd f K RD F rho) as QM.
  change (err_value base rel quat Rd f rho) with (orientation_error quat Rd Rf) in *. change (turned r place base Rd f rho) with (mm (mtr Rd) Rf) in *.
  assert (RI : represents (quat m3I) m3I) by (destruct K as (_ & _ & _ & _ & _ & _ & _ & K8); apply K8; apply rotation_I).
  unfold orientation_cost, orientation_distance. fold Rf. split.
  - intros Z. assert (EQ : forall i, (i < 4)%nat -> orientation_error quat Rd Rf i = quat m3I i).
    { assert (P : sumn 4 (fun i => (orientation_error quat Rd Rf i - quat m3I i) * (orientation_error quat Rd Rf i - quat m3I i)) = 0) by (apply (Rmult_eq_reg_l (w / 2)); lra).
      cbn [sumn] in P. assert (SQ : forall i, 0 <= (orientation_error quat Rd Rf i - quat m3I i) * (orientation_error quat Rd Rf i - quat m3I i)) by (intros i; apply Rle_0_sqr).
      pose proof (SQ 0%nat). pose proof (SQ 1%nat). pose proof (SQ 2%nat). pose proof (SQ 3%nat).
      assert (IZ : forall i, (orientation_error quat Rd Rf i - quat m3I i) * (orientation_error quat Rd Rf i - quat m3I i) = 0 -> orientation_error quat Rd Rf i = quat m3I i).
      { intros i E0. apply Rmult_integral in E0. lra. }
      intros i Hi. destruct i as [|[|[|[|i]]]]; [| | | |lia]; apply IZ; lra. }
    assert (I : mm (mtr Rd) Rf = m3I).
    { apply same_action. intros v i Hi. rewrite <- (proj2 RI v i Hi), <- (proj2 RP v i Hi). unfold qrot, SpecQuaternion.cross, qvec. rewrite !EQ by lia. reflexivity. }
    rewrite <- (mm_I_l Rf), <- (rot_r Rd RD), mm_assoc, I, mm_I_r. reflexivity.
  - intros ->. unfold orientation_error. rewrite (rot_l Rd RD). rewrite (sumn_ext 4 _ (fun _ => 0)) by (intros; ring). rewrite sumn_0. ring.
Qed.
End Ori.

(** When the quaternions are taken with a real part that is not negative: everywhere but half a turn away from the desired orientation. *)
Theorem C66_exact_below_half_turn r place dofs up depth base bt bt_dep jac fvel btw quat fjac qri qrt c shared :
  kinematics r place dofs up depth base jac fvel btw quat -> positive_quaternion quat -> is_frame r (fo_frame c) -> (0 < dofs)%nat -> ori_apart c dofs ->
  (forall q p s, frame_spin r place base (fo_frame c) dofs (base_pose q (vec3_of p)) s (fjac (fo_frame c) q p s)) -> right_trivialized qri -> right_trivialized_back qrt ->
  cost_exact_on (ori_domain (below_half_turn r place base (fo_frame c) (fo_pos c) (fo_quat c) (fo_joints c) dofs))
    (ori_class r dofs up base bt bt_dep (relative r place) (ueval r dofs up base bt (relative r place) jac fvel quat) quat fjac qri qrt)
    (ori_reachable r place dofs up base bt bt_dep jac fvel quat fjac qri qrt c shared) ori_available (ori_value r place dofs base quat c) (ori_supports dofs).
Proof.
  intros K PQ F PD AP FJ RI RB. apply (C66_frame_orientation_exact r place dofs up depth base bt bt_dep jac fvel btw quat fjac qri qrt c shared K F PD AP FJ RI RB).
  intros Rd RD. destruct AP as (A1 & A2 & A3). apply (half_turn_ok r place dofs up depth base jac fvel btw quat K (fo_frame c) F Rd RD PQ PD c eq_refl A1 A2 A3).
Qed.
(** The cost is the weight times one minus the cosine of half the angle to the desired orientation. *)
Theorem C66_half_angle r place dofs up depth base jac fvel btw quat f op oq os Rd w x :
  kinematics r place dofs up depth base jac fvel btw quat -> positive_quaternion quat -> is_frame r f -> rotation Rd ->
  orientation_cost r place base f quat op oq os dofs Rd w x =
    w * (1 - sqrt (1 + mtrace (mm (mtr Rd) (world_rotation r place base f (part x oq 4) (part x op 3) (part x os dofs)))) / 2).
Proof.
  intros K PQ F RD. exact (half_angle r place dofs up depth base jac fvel btw quat K f F Rd RD PQ {| fo_frame := f; fo_pos := op; fo_quat := oq; fo_joints := os |} w x).
Qed.

(** ** Concrete cases *)
Lemma quat_of_positive : positive_quaternion quat_of.
Proof.
  intros A RA. pose proof (quat_of_K A RA 0%nat 0%nat ltac:(lia) ltac:(lia)) as E. unfold quat_of in *. destruct (Rlt_dec 0 (KinExist.K A 0 0)) as [L|N].
  - cbv beta. apply Rlt_le, Rdiv_lt_0_compat; [exact L|]. pose proof (sqrt_lt_R0 _ L). lra.
  - match goal with |- 0 <= ?q => assert (Z : q * q <= 0) by lra; pose proof (Rle_0_sqr q) as S; unfold Rsqr in S; destruct (Rle_dec 0 q); [assumption|exfalso; nra] end.
Qed.
(** The tip of the arm: base position at 0, quaternion at 3, two joints at 7. *)
Definition arm_ori : ori_cfg := {| fo_frame := 2; fo_pos := 0; fo_quat := 3; fo_joints := 7 |}.
Definition arm_fjac : nat -> vec -> vec -> vec -> mat := fun f => spin_jacobian arm place 0 jac f.
Example arm_orientation_exact bt bt_dep :
  cost_exact_on (ori_domain (below_half_turn arm place 0 2 0 3 7 2)) (ori_class arm 2 up 0 bt bt_dep (relative arm place) (ueval arm 2 up 0 bt (relative arm place) jac (fvel_with btw) quat_of) quat_of arm_fjac right_inverse right_map)
    (ori_reachable arm place 2 up 0 bt bt_dep jac (fvel_with btw) quat_of arm_fjac right_inverse right_map arm_ori (fun _ _ _ => 0)) ori_available (ori_value arm place 2 0 quat_of arm_ori) (ori_supports 2).
Proof.
  apply (C66_exact_below_half_turn arm place 2 up depth 0 bt bt_dep jac (fvel_with btw) btw quat_of arm_fjac right_inverse right_map arm_ori); [exact arm_kinematics|exact quat_of_positive|cbv; lia|lia| | |exact right_inverse_ok|exact right_map_ok].
  - unfold ori_apart, apart. cbn. lia.
  - intros q p s. apply (spin_jacobian_ok arm place 2 up depth 0 jac (fvel_with btw) btw quat_of arm_kinematics). cbv; lia.
Qed.
(** With the base not turned and the hinge at a, the desired orientation being the identity: 1 - |cos(a / 2)|; it is in the domain unless cos a = -1. *)
Example arm_orientation a c : ori_available (ori_ctor arm_ori (fun _ _ _ => 0)) 0 /\
  ori_value arm place 2 0 quat_of arm_ori (ori_ctor arm_ori (fun _ _ _ => 0)) 0 (arm_x a c) (fun _ => 0) = 1 - sqrt (2 + 2 * cos a) / 2 /\
  (-1 < cos a -> ori_domain (below_half_turn arm place 0 2 0 3 7 2) (ori_ctor arm_ori (fun _ _ _ => 0)) 0 (arm_x a c)).
Proof.
  assert (W : mtrace (mm (mtr m3I) (world_rotation arm place 0 2 (part (arm_x a c) 3 4) (part (arm_x a c) 0 3) (part (arm_x a c) 7 2))) = 1 + 2 * cos a).
  { unfold world_rotation, base_pose. rewrite arm_unit. destruct (arm_links (part (arm_x a c) 7 2)) as (_ & _ & E). rewrite E. change (part (arm_x a c) 7 2 0%nat) with a.
    unfold mtrace, pmul, mm, m3I, Rz, mtr. cbn. ring. }
  split; [split; discriminate|]. split.
  - unfold ori_value. cbn [ori_ctor fo_desired fo_weight]. change (fo_frame arm_ori) with 2%nat. change (fo_pos arm_ori) with 0%nat. change (fo_quat arm_ori) with 3%nat. change (fo_joints arm_ori) with 7%nat.
    rewrite (C66_half_angle arm place 2 up depth 0 jac (fvel_with btw) btw quat_of 2 0 3 7 m3I 1 (arm_x a c) arm_kinematics quat_of_positive ltac:(cbv; lia) rotation_I). rewrite W.
    replace (1 + (1 + 2 * cos a)) with (2 + 2 * cos a) by ring. ring.
  - intros C. split; [exact (arm_quat a c 0 v30)|]. rewrite W. lra.
Qed.
(** The setter of the reference: no reference is refused and changes nothing; any other is stored and changes nothing else. *)
Theorem C66_trajectory_setter s : ori_set_trajectory s None = (s, false) /\ forall g, snd (ori_set_trajectory s (Some g)) = true /\
  let s' := fst (ori_set_trajectory s (Some g)) in fo_desired s' = g /\ fo_cfg s' = fo_cfg s /\ fo_weight s' = fo_weight s /\ fo_shared s' = fo_shared s /\ fo_buffer s' = fo_buffer s.
Proof. split; [reflexivity|]. intros g. repeat split; reflexivity. Qed.
Print Assumptions C66_trajectory_setter.
Print Assumptions C66_value.
Print Assumptions C66_unavailable.
Print Assumptions C66_frame_orientation_exact.
Print Assumptions C66_zero_iff.
Print Assumptions C66_exact_below_half_turn.
Print Assumptions C66_half_angle.
