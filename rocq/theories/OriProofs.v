(** Proofs about FrameOrientationCost: the quaternion error and its derivatives. *)
From Coq Require Import Reals List Arith Lia Lra Bool FunctionalExtensionality.
From Coquelicot Require Import Coquelicot.
From Verif Require Import Spec PartialLib QuadLib SpecQuaternion SpecRigid SpecBase SpecFeet SpecCom SpecOri SpecDerivatives Rigid RigidCalc KinTree ConstraintsModel CostsModel Quaternion QuaternionProofs.
From Verif Require Import KinModel KinLib KinMotion KinProofs QuatCurve PropKin BaseModel BaseProofs PropBase SymModel SymProofs SymKin SymMove MixLib FeetModel FeetProofs RatLib ContactProofs OriModel.
Import ListNotations.
Local Open Scope R_scope.

Section Ori.
Variable r : robot.
Variable place : vec -> nat -> pose.
Variable dofs : nat.
Variable up : nat -> nat -> option (nat * nat).
Variable depth : nat -> nat -> nat.
Variable base : nat.
Variable bt : formula.
Variable bt_dep : nat -> bool.
Variable jac : vec -> nat -> nat -> nat -> v6.
Variable fvel : env -> nat -> v6.
Variable btw : env -> v6.
Variable quat : m3 -> vec.
Variable Rd : m3.
Variable f : nat.
Notation rel := (relative r place).
Notation VD := (vdim dofs).
Notation UE0 := (ueval r dofs up base bt rel jac fvel quat).
Notation UE := (with_err base rel quat Rd UE0).
Notation DU := (ori_du r dofs up base bt bt_dep).
Notation FR := (frows VD urows (ucols dofs)).
Notation FC := (fcols VD urows (ucols dofs)).
Notation M := (meaning VD urows (ucols dofs) UE).
Notation WF := (well_formed VD urows (ucols dofs) UE).
Notation RDY := (ready dofs DU UE).
Hypothesis K : kinematics r place dofs up depth base jac fvel btw quat.
Hypothesis RD : rotation Rd.
Hypothesis F : is_frame r f.
Hypothesis PD : (0 < dofs)%nat.
Notation Err := (err_value base rel quat Rd f).
Notation QL := QuaternionLeftTrivializedDerivative.
Notation moving v := (v = v_q \/ v = v_s).

(** The state allows to differentiate the error. *)
Definition fine (rho : env) : Prop := 0 < qnorm2 (rho v_q) /\
  forall v j k, moving v -> (j < VD v)%nat -> (k < 4)%nat -> ex_derive (fun x => Err (at_entry rho v j x) k) (rho v j).
Lemma base_frame : is_frame r base. Proof. clear PD. destruct K as (_ & _ & _ & _ & B & _). unfold is_frame. lia. Qed.
Lemma err_shape : FR (leaf (KOther f)) = 4%nat /\ FC (leaf (KOther f)) = 1%nat /\ WF (leaf (KOther f)).
Proof. destruct (e_leaf r place dofs up base bt jac fvel quat Rd (fun _ _ => 0) f) as (W & A & B & _). auto. Qed.
Lemma err_leaf rho i : (i < 4)%nat -> M rho (leaf (KOther f)) i 0%nat = Err rho i.
Proof. intros Hi. destruct (e_leaf r place dofs up base bt jac fvel quat Rd rho f) as (_ & _ & _ & V). apply V; lia. Qed.

(** ** Ready *)
Definition derived (v : nat) : formula := if (v =? v_s)%nat then err_joints dofs base f else err_quaternion base f.
Lemma derived_ok v : moving v -> err_derivative dofs base v_des f v = Some (derived v) /\ error_derivative r place dofs up base bt jac fvel quat Rd f v (derived v).
Proof.
  intros [->| ->].
  - destruct (C61_error_quaternion r place dofs up depth base bt jac fvel btw quat Rd K RD v_des f F) as (X & E & H). split; [reflexivity|]. injection E as <-. exact H.
  - destruct (C61_error_joints r place dofs up depth base bt jac fvel btw quat Rd K RD v_des f F) as (X & E & H). split; [reflexivity|]. injection E as <-. exact H.
Qed.
Lemma derived_shape v : moving v -> FR (derived v) = 4%nat /\ FC (derived v) = VD v /\ WF (derived v).
Proof. intros V. destruct (derived_ok v V) as (_ & A & B & C & _). auto. Qed.
Lemma derived_value rho v i j : fine rho -> moving v -> (i < 4)%nat -> (j < VD v)%nat -> is_derive (fun x => Err (at_entry rho v j x) i) (rho v j) (M rho (derived v) i j).
Proof. intros [P S] V Hi Hj. destruct (derived_ok v V) as (_ & _ & _ & _ & D). apply D; auto. Qed.
Lemma err_ready rho v : fine rho -> moving v -> RDY rho v (leaf (KOther f)) 0.
Proof.
  intros FN V. destruct err_shape as (R0 & C0 & W0). destruct (derived_shape v V) as (R1 & C1 & W1). unfold leaf. cbn [ready users]. exists (derived v). rewrite decode_code.
  split; [exact (proj1 (derived_ok v V))|]. split; [change (FR (derived v) = FR (leaf (KOther f))); congruence|]. split; [exact C1|]. split; [exact W1|].
  intros i j Hi Hj. change (FR (FUser (code (KOther f)))) with (FR (leaf (KOther f))) in Hi. rewrite R0 in Hi.
  eapply is_derive_ext; [intros t; symmetry; apply (err_leaf (at_entry rho v j t) i Hi)|]. apply derived_value; auto.
Qed.
Lemma same_rigid n : rigid_leaf n = true -> forall rho i j, UE0 n rho i j = UE n rho i j.
Proof. intros H rho i j. unfold with_err. unfold rigid_leaf in H. destruct (decode n); try discriminate H; reflexivity. Qed.
Lemma agree_rigid n c v : rigid_leaf n = true -> deep r dofs up base bt bt_dep (decode n) c v = DU (decode n) c v.
Proof. intros H. unfold rigid_leaf in H. destruct (decode n); try discriminate H; reflexivity. Qed.
Lemma move rho v X c : users rigid_leaf X = true -> ready dofs (deep r dofs up base bt bt_dep) UE0 rho v X c -> RDY rho v X c.
Proof. apply (ready_move dofs rigid_leaf _ _ _ _ same_rigid (fun n c v X => deep_closed r dofs up base bt bt_dep n c v X) agree_rigid). Qed.
Lemma rot_shape g h : FR (relrot g h) = 3%nat /\ FC (relrot g h) = 3%nat /\ WF (relrot g h).
Proof.
  destruct (relrot_shape r place dofs up depth base bt jac fvel btw quat K g h) as (A & B & C). split; [exact A|]. split; [exact B|].
  apply (wf_move VD urows (ucols dofs) rigid_leaf UE0 UE same_rigid); [apply relrot_rigid|exact C].
Qed.
Lemma jac_shape g h : FR (reljac dofs g h) = 6%nat /\ FC (reljac dofs g h) = dofs /\ WF (reljac dofs g h).
Proof.
  destruct (reljac_shape r place dofs up base bt jac fvel quat g h) as (A & B & C). split; [exact A|]. split; [exact B|].
  apply (wf_move VD urows (ucols dofs) rigid_leaf UE0 UE same_rigid); [apply reljac_rigid|exact C].
Qed.
Lemma rot_rdy rho v c : (c < 3)%nat -> RDY rho v (relrot f base) c.
Proof.
  intros Hc. apply move; [apply relrot_rigid|]. pose proof base_frame as B.
  apply (relrot_ready r place dofs up depth base bt bt_dep jac fvel btw quat K); auto; [apply deep_hand|]. apply unturned_link. apply K.
Qed.
Lemma jac_rdy rho v c : (c < dofs)%nat -> RDY rho v (reljac dofs base f) c.
Proof.
  intros Hc. apply move; [apply reljac_rigid|]. pose proof base_frame as B. apply (reljac_ready r place dofs up depth base bt bt_dep jac fvel btw quat K); auto.
Qed.

(** The matrix G of a quaternion. *)
Lemma G_shape X : FR X = 4%nat -> FC X = 1%nat -> WF X -> FR (G_formula X) = 3%nat /\ FC (G_formula X) = 4%nat /\ WF (G_formula X).
Proof.
  intros R0 C0 W0. assert (D : den VD urows (ucols dofs) UE (fun _ _ => 0) X 4 1 (fun i _ => M (fun _ _ => 0) X i 0%nat)).
  { split; [exact W0|]. split; [exact R0|]. split; [exact C0|]. intros i j Hi Hj. replace j with 0%nat by lia. reflexivity. }
  destruct (G_den r dofs ltac:(apply K) UE (fun _ _ => 0) X _ D) as (W & A & B & _). auto.
Qed.
Lemma ident_ready rho v n c : RDY rho v (FIdent n) c.
Proof. apply none_ready; [reflexivity|]. intros i j _ _. exists 0. eapply is_derive_ext; [intros t; reflexivity|]. cbn [meaning]. apply (D_const (if (i =? c)%nat then 1 else 0)). Qed.
Lemma G_ready rho v X c : FR X = 4%nat -> FC X = 1%nat -> WF X -> RDY rho v X 0 -> (c < 4)%nat -> RDY rho v (G_formula X) c.
Proof.
  intros R0 C0 W0 RX Hc. assert (WB : WF (FBlock X 1 0 3 1)) by (split; [exact W0|]; split; lia).
  assert (RB : RDY rho v (FBlock X 1 0 3 1) 0) by (apply ready_block; [exact WB|lia|exact RX]).
  assert (WE : WF (FElem X 0 0)) by (split; [exact W0|]; split; lia).
  assert (RE : RDY rho v (FElem X 0 0) 0) by (apply ready_elem; [exact WE|exact RX]).
  assert (SE : scalar_size dofs (FElem X 0 0) = true) by reflexivity.
  assert (SI : scalar_size dofs (FIdent 3) = false) by reflexivity.
  assert (WM : WF (FMul (FIdent 3) (FElem X 0 0))) by (split; [exact Logic.I|]; split; [exact WE|]; right; left; split; reflexivity).
  destruct (mul_scal_r dofs UE (FIdent 3) (FElem X 0 0) SI SE) as (R1 & C1 & V1).
  assert (WN : WF (FNeg (FBlock X 1 0 3 1))) by exact WB.
  assert (WS : WF (FSkew (FNeg (FBlock X 1 0 3 1)))) by (split; [exact WN|]; split; reflexivity).
  unfold G_formula. apply ready_horz.
  - split; [exact WN|]. split; [|reflexivity]. split; [exact WM|]. split; [exact WS|]. split; [exact R1|exact C1].
  - change (c < 1 + FC (FMul (FIdent 3) (FElem X 0 0)))%nat. rewrite C1. change (c < 1 + 3)%nat. lia.
  - intros L. change (c < 1)%nat in L. replace c with 0%nat by lia. apply ready_neg; [exact WB|cbn; lia|exact RB].
  - intros L. change (1 <= c)%nat in L. change (FC (FNeg (FBlock X 1 0 3 1))) with 1%nat. apply ready_add.
    + split; [exact WM|]. split; [exact WS|]. split; [exact R1|exact C1].
    + rewrite C1. change (c - 1 < 3)%nat. lia.
    + cbn [ready]. destruct (users (fun _ => false) (FMul (FIdent 3) (FElem X 0 0))) eqn:NU.
      * intros i j Hi Hj. destruct (ready_smooth dofs DU UE rho v (FElem X 0 0) 0 WE ltac:(cbn; lia) RE 0%nat j ltac:(cbn; lia) Hj) as [a Ha].
        eexists. eapply is_derive_ext; [intros t; symmetry; apply V1|]. eapply D_mult; [|exact Ha]. exact (D_const (if (i =? c - 1)%nat then 1 else 0) _).
      * rewrite SI, SE. split; [apply ident_ready|exact RE].
    + apply ready_skew; [exact WS|lia|]. apply ready_neg; [exact WB|cbn; lia|exact RB].
Qed.

(** The normalised quaternion of the base. *)
Lemma norm_shape : FR (normalized v_q) = 4%nat /\ FC (normalized v_q) = 1%nat /\ WF (normalized v_q).
Proof. destruct (normalized_den dofs UE (fun _ _ => 0)) as (W & A & B & _). auto. Qed.
Lemma norm_value rho i : 0 < qnorm2 (rho v_q) -> (i < 4)%nat -> M rho (normalized v_q) i 0%nat = NormalizedQuaternion (rho v_q) i.
Proof.
  intros P Hi. destruct (normalized_unit dofs UE rho P) as (_ & _ & _ & V). rewrite V by lia. unfold NormalizedQuaternion, qunit.
  change (QuaternionSquaredNorm (rho v_q)) with (qnorm2 (rho v_q)). destruct (Rlt_dec 0 (qnorm2 (rho v_q))); [reflexivity|contradiction].
Qed.
Lemma norm_partial rho i j : 0 < qnorm2 (rho v_q) -> (i < 4)%nat -> (j < 4)%nat ->
  is_derive (fun t => M (at_entry rho v_q j t) (normalized v_q) i 0%nat) (rho v_q j) (NormalizedQuaternionDerivative (rho v_q) i j).
Proof.
  intros P Hi Hj. pose proof (NormalizedDerivative_exact (rho v_q) P i j Hi Hj) as D. unfold partial in D. eapply is_derive_ext_loc; [|exact D].
  eapply filter_imp; [|apply (near_q rho j P)]. intros t Ht. symmetry. rewrite norm_value by auto. rewrite at_same. reflexivity.
Qed.
Lemma norm_const rho v j x i : v <> v_q -> (i < 4)%nat -> M (at_entry rho v j x) (normalized v_q) i 0%nat = M rho (normalized v_q) i 0%nat.
Proof.
  intros N Hi. destruct (normalized_den dofs UE rho) as (_ & _ & _ & V). destruct (normalized_den dofs UE (at_entry rho v j x)) as (_ & _ & _ & V').
  rewrite V, V' by lia. rewrite at_other by auto. reflexivity.
Qed.
Lemma norm_ready rho v : 0 < qnorm2 (rho v_q) -> RDY rho v (normalized v_q) 0.
Proof.
  intros P. apply none_ready; [reflexivity|]. intros i j Hi Hj. destruct norm_shape as (R0 & _). rewrite R0 in Hi. destruct (Nat.eq_dec v v_q) as [->|N].
  - eexists. apply norm_partial; auto.
  - exists 0. eapply is_derive_ext; [intros t; symmetry; apply norm_const; auto|]. apply D_const.
Qed.
Lemma norm_deriv rho i k : 0 < qnorm2 (rho v_q) -> (i < 4)%nat -> (k < 4)%nat -> M rho (FDeriv (normalized v_q) 0 v_q) i k = NormalizedQuaternionDerivative (rho v_q) i k.
Proof. intros P Hi Hk. cbn [meaning]. apply is_derive_unique. apply norm_partial; auto. Qed.
Lemma norm_second q i k j : 0 < qnorm2 q -> ex_derive (fun t => NormalizedQuaternionDerivative (vset q j t) i k) (q j).
Proof.
  intros P. unfold NormalizedQuaternionDerivative, QuaternionNorm, QuaternionSquaredNorm.
  assert (V : forall n, ex_derive (fun t => vset q j t n) (q j)) by (intros n; eexists; apply (partial_var n q j)).
  assert (N : ex_derive (fun t => qnorm2 (vset q j t)) (q j)).
  { eexists. apply (pder_ok Pq q j). }
  assert (E0 : qnorm2 (vset q j (q j)) = qnorm2 q) by (rewrite vset_same; reflexivity).
  assert (S : ex_derive (fun t => sqrt (qnorm2 (vset q j t))) (q j)).
  { destruct N as [n N]. eexists. apply (is_derive_comp sqrt (fun t => qnorm2 (vset q j t))); [|exact N]. rewrite E0. apply is_derive_Reals. apply derivable_pt_lim_sqrt. exact P. }
  apply ex_derive_mult.
  - apply (ex_derive_minus (V := R_NormedModule) (fun t => identity i k * qnorm2 (vset q j t)) (fun t => vset q j t i * vset q j t k)).
    + apply ex_derive_mult; [apply ex_derive_const|exact N].
    + apply ex_derive_mult; apply V.
  - apply (ex_derive_ext (fun t => / (sqrt (qnorm2 (vset q j t)) * qnorm2 (vset q j t)))); [intros t; unfold Rdiv; symmetry; apply Rmult_1_l|].
    apply ex_derive_inv; [apply ex_derive_mult; assumption|]. rewrite E0. pose proof (sqrt_lt_R0 _ P). intros Z. apply Rmult_integral in Z. lra.
Qed.
Lemma norm_ready2 rho v k : moving v -> 0 < qnorm2 (rho v_q) -> (k < 4)%nat -> RDY rho v (FDeriv (normalized v_q) 0 v_q) k.
Proof.
  intros V P Hk. apply none_ready; [reflexivity|]. intros i j Hi Hj. destruct norm_shape as (R0 & _). change (FR (FDeriv (normalized v_q) 0 v_q)) with (FR (normalized v_q)) in Hi. rewrite R0 in Hi. destruct V as [->| ->].
  - eapply ex_derive_ext_loc; [|apply (norm_second (rho v_q) i k j P)]. eapply filter_imp; [|apply (near_q rho j P)]. intros t Ht. symmetry. rewrite norm_deriv by auto. rewrite at_same. reflexivity.
  - exists 0. eapply is_derive_ext; [|apply (D_const (NormalizedQuaternionDerivative (rho v_q) i k))]. intros t. symmetry. rewrite norm_deriv; [|rewrite at_other by discriminate; exact P|auto|auto]. rewrite at_other by discriminate. reflexivity.
Qed.

(** ** The derivatives of the error can be derived *)
Lemma GT_shape : FR (FTransp (G_formula (leaf (KOther f)))) = 4%nat /\ FC (FTransp (G_formula (leaf (KOther f)))) = 3%nat /\ WF (FTransp (G_formula (leaf (KOther f)))).
Proof. destruct err_shape as (R0 & C0 & W0). destruct (G_shape _ R0 C0 W0) as (A & B & C). auto. Qed.
Lemma GT_ready rho w c : fine rho -> moving w -> (c < 3)%nat -> RDY rho w (FTransp (G_formula (leaf (KOther f)))) c.
Proof.
  intros FN Hw Hc. destruct err_shape as (R0 & C0 & W0). destruct (G_shape _ R0 C0 W0) as (A & B & C).
  apply ready_transp; [exact C|lia|lia|]. intros j Hj. apply G_ready; auto; try lia. apply err_ready; auto.
Qed.
Lemma const_ready rho w n m A c : RDY rho w (FConst n m A) c.
Proof. apply none_ready; [reflexivity|]. intros i j _ _. exists 0. eapply is_derive_ext; [intros t; reflexivity|]. exact (D_const (A i c) _). Qed.
Lemma joints_ready rho w c : fine rho -> moving w -> (c < dofs)%nat -> RDY rho w (err_joints dofs base f) c.
Proof.
  intros FN Hw Hc. destruct GT_shape as (R1 & C1 & W1). destruct (jac_shape base f) as (R2 & C2 & W2). unfold err_joints.
  assert (SC : scalar_size dofs (scalar (1 / 2)) = true) by reflexivity. destruct (mul_scal dofs UE (scalar (1 / 2)) (FTransp (G_formula (leaf (KOther f)))) SC) as (R3 & C3 & _).
  assert (WA : WF (FMul (scalar (1 / 2)) (FTransp (G_formula (leaf (KOther f)))))) by (split; [exact Logic.I|]; split; [exact W1|]; left; split; reflexivity).
  assert (WB : WF (FBlock (reljac dofs base f) 3 0 3 dofs)) by (split; [exact W2|]; split; lia).
  apply ready_mul; [exact WA|exact WB|rewrite C3, C1; reflexivity|exact Hc| |].
  - intros l Hl. rewrite C3, C1 in Hl. apply ready_scal; [exact Logic.I|exact W1|reflexivity|lia|apply const_ready|]. apply GT_ready; auto.
  - apply ready_block; [exact WB|exact Hc|]. apply jac_rdy. lia.
Qed.
Lemma quaternion_ready rho w c : fine rho -> moving w -> (c < 4)%nat -> RDY rho w (err_quaternion base f) c.
Proof.
  intros FN Hw Hc. pose proof (proj1 FN) as P. destruct GT_shape as (R1 & C1 & W1). destruct (rot_shape f base) as (R2 & C2 & W2). destruct norm_shape as (R3 & C3 & W3).
  destruct (G_shape _ R3 C3 W3) as (R4 & C4 & W4). unfold err_quaternion.
  destruct (wf_mul_intro dofs UE _ _ W1 W2 ltac:(congruence)) as (W5 & R5 & C5 & _). rewrite R1 in R5. rewrite C2 in C5.
  destruct (wf_mul_intro dofs UE _ _ W5 W4 ltac:(congruence)) as (W6 & R6 & C6 & _). rewrite R5 in R6. rewrite C4 in C6.
  assert (W7 : WF (FDeriv (normalized v_q) 0 v_q)) by (split; [exact W3|lia]).
  apply ready_mul; [exact W6|exact W7| |exact Hc| |apply norm_ready2; auto].
  - rewrite C6. change (4%nat = FR (normalized v_q)). auto.
  - intros l Hl. rewrite C6 in Hl. apply ready_mul; [exact W5|exact W4|congruence|lia| |apply G_ready; auto; apply norm_ready; auto].
    intros m Hm. rewrite C5 in Hm. apply ready_mul; [exact W1|exact W2|congruence|lia| |apply rot_rdy; auto]. intros k Hk. rewrite C1 in Hk. apply GT_ready; auto.
Qed.
Lemma derived_ready rho v w c : fine rho -> moving v -> moving w -> (c < VD v)%nat -> RDY rho w (derived v) c.
Proof. intros FN [->| ->] Hw Hc; [apply quaternion_ready; auto|apply joints_ready; auto]. Qed.

(** ** The gradient of the expression *)
Notation D := (ori_difference quat f).
Definition Dv (v : nat) : formula := FSub (derived v) (FDeriv (FConst 4 1 (fun i _ => quat m3I i)) 0 v).
Definition Gv (v : nat) : formula := FMul (FVar v_weight) (FTransp (FMul (FTransp D) (Dv v))).
Lemma D_shape : FR D = 4%nat /\ FC D = 1%nat /\ WF D.
Proof. destruct err_shape as (R0 & C0 & W0). split; [exact R0|]. split; [exact C0|]. split; [exact W0|]. split; [exact Logic.I|]. split; [exact R0|exact C0]. Qed.
Lemma D_value rho i : (i < 4)%nat -> M rho D i 0%nat = Err rho i - quat m3I i.
Proof. intros Hi. change (M rho (leaf (KOther f)) i 0%nat - quat m3I i = Err rho i - quat m3I i). rewrite err_leaf by exact Hi. reflexivity. Qed.
Lemma D_ready rho v : fine rho -> moving v -> RDY rho v D 0.
Proof. intros FN V. destruct err_shape as (R0 & C0 & W0). apply ready_sub; [exact (proj2 (proj2 D_shape))|lia|apply err_ready; auto|apply const_ready]. Qed.
Lemma D_dcol v : moving v -> ori_dcol r dofs up base bt bt_dep D 0 v = Some (Dv v).
Proof.
  intros V. unfold ori_dcol, ori_difference, Dv. assert (NU : users (fun _ => false) (FSub (leaf (KOther f)) (FConst 4 1 (fun i _ => quat m3I i))) = false) by reflexivity.
  cbn [dcol]. rewrite NU. unfold leaf at 1. cbn [dcol users]. rewrite decode_code. cbn [ori_du]. rewrite (proj1 (derived_ok v V)). reflexivity.
Qed.
Lemma gradient_formula v : moving v -> ori_gradient r dofs up base bt bt_dep quat f v = Some (Gv v).
Proof. intros V. unfold ori_gradient. rewrite D_dcol by exact V. reflexivity. Qed.
Lemma Dv_shape v : moving v -> FR (Dv v) = 4%nat /\ FC (Dv v) = VD v /\ WF (Dv v).
Proof.
  intros V. destruct (derived_shape v V) as (R0 & C0 & W0). split; [exact R0|]. split; [exact C0|]. split; [exact W0|]. split; [split; [exact Logic.I|cbn; lia]|]. split; [exact R0|exact C0].
Qed.
Lemma Dv_value rho v i j : M rho (Dv v) i j = M rho (derived v) i j.
Proof.
  change (M rho (derived v) i j - M rho (FDeriv (FConst 4 1 (fun i _ => quat m3I i)) 0 v) i j = M rho (derived v) i j).
  replace (M rho (FDeriv (FConst 4 1 (fun i _ => quat m3I i)) 0 v) i j) with 0; [ring|]. cbn [meaning]. symmetry. apply Derive_const.
Qed.
Lemma Dv_ready rho v w c : fine rho -> moving v -> moving w -> (c < VD v)%nat -> RDY rho w (Dv v) c.
Proof.
  intros FN V Hw Hc. destruct (derived_shape v V) as (R0 & C0 & W0). apply ready_sub; [exact (proj2 (proj2 (Dv_shape v V)))|lia|apply derived_ready; auto|].
  apply none_ready; [reflexivity|]. intros i j _ _. exists 0. eapply is_derive_ext; [|exact (D_const 0 _)]. intros t. cbn [meaning]. symmetry. apply Derive_const.
Qed.
Lemma DT_shape v : moving v -> FR (FMul (FTransp D) (Dv v)) = 1%nat /\ FC (FMul (FTransp D) (Dv v)) = VD v /\ WF (FMul (FTransp D) (Dv v)) /\
  forall rho j, (j < VD v)%nat -> M rho (FMul (FTransp D) (Dv v)) 0%nat j = sumn 4 (fun k => (Err rho k - quat m3I k) * M rho (derived v) k j).
Proof.
  intros V. destruct D_shape as (R0 & C0 & W0). destruct (Dv_shape v V) as (R1 & C1 & W1).
  destruct (wf_mul_intro dofs UE (FTransp D) (Dv v) W0 W1) as (W2 & R2 & C2 & V2); [change (FR D = FR (Dv v)); congruence|].
  change (FR (FTransp D)) with (FC D) in *. change (FC (FTransp D)) with (FR D) in *. split; [congruence|]. split; [congruence|]. split; [exact W2|].
  intros rho j Hj. rewrite V2 by lia. rewrite R0. apply sumn_ext. intros k Hk. change (M rho (FTransp D) 0%nat k) with (M rho D k 0%nat). rewrite D_value by exact Hk. rewrite Dv_value. reflexivity.
Qed.
Lemma Gv_shape v : moving v -> FR (Gv v) = VD v /\ FC (Gv v) = 1%nat /\ WF (Gv v).
Proof.
  intros V. destruct (DT_shape v V) as (R2 & C2 & W2 & _). destruct (mul_scal dofs UE (FVar v_weight) (FTransp (FMul (FTransp D) (Dv v))) eq_refl) as (R3 & C3 & _).
  split; [exact (eq_trans R3 C2)|]. split; [exact (eq_trans C3 R2)|]. split; [exact Logic.I|]. split; [exact W2|]. left. split; reflexivity.
Qed.
Lemma Gv_value rho v j : moving v -> (j < VD v)%nat -> M rho (Gv v) j 0%nat = rho v_weight 0%nat * sumn 4 (fun k => (Err rho k - quat m3I k) * M rho (derived v) k j).
Proof.
  intros V Hj. destruct (DT_shape v V) as (R2 & C2 & W2 & V2). destruct (mul_scal dofs UE (FVar v_weight) (FTransp (FMul (FTransp D) (Dv v))) eq_refl) as (_ & _ & V3).
  unfold Gv. rewrite V3. f_equal. exact (V2 rho j Hj).
Qed.
Lemma VD_pos v : moving v -> (0 < VD v)%nat.
Proof. intros [->| ->]; cbn; lia. Qed.
Lemma Gv_ready rho v w : fine rho -> moving v -> moving w -> RDY rho w (Gv v) 0.
Proof.
  intros FN V Hw. destruct D_shape as (R0 & C0 & W0). destruct (Dv_shape v V) as (R1 & C1 & W1). destruct (DT_shape v V) as (R2 & C2 & W2 & V2). pose proof (VD_pos v V).
  unfold Gv. apply ready_scal; [exact Logic.I|exact W2|reflexivity| | |].
  - change (0 < FR (FMul (FTransp D) (Dv v)))%nat. lia.
  - apply none_ready; [reflexivity|]. intros i j Hi Hj. exists 0. eapply is_derive_ext; [|apply (D_const (rho v_weight i))]. intros t. cbn [meaning]. symmetry. rewrite at_other by (destruct Hw; subst w; discriminate). reflexivity.
  - apply ready_transp; [exact W2|lia|lia|]. intros j Hj. rewrite C2 in Hj. apply ready_mul; [exact W0|exact W1|change (FR D = FR (Dv v)); congruence|lia| |apply Dv_ready; auto].
    intros l Hl. change (l < FR D)%nat in Hl. apply ready_transp; [exact W0|lia|lia|]. intros i Hi. replace i with 0%nat by lia. apply D_ready; auto.
Qed.
(** Its derivative. *)
Lemma hessian_ok rho v w : fine rho -> moving v -> moving w -> exists X, ori_hessian r dofs up base bt bt_dep quat f v w = Some X /\
  forall i j, (i < VD v)%nat -> (j < VD w)%nat -> is_derive (fun t => M (at_entry rho w j t) (Gv v) i 0%nat) (rho w j) (M rho X i j).
Proof.
  intros FN V Hw. destruct (Gv_shape v V) as (R0 & C0 & W0).
  destruct (dcol_sound dofs DU UE rho w (Gv v) 0 W0 ltac:(lia) (Gv_ready rho v w FN V Hw)) as (X & EX & RX & CX & WX & DX).
  exists X. split; [unfold ori_hessian; rewrite gradient_formula by exact V; exact EX|]. intros i j Hi Hj. apply DX; [lia|exact Hj].
Qed.
End Ori.
