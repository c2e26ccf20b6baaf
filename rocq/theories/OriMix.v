(** Proofs about FrameOrientationCost: closed forms of the derivatives of the error, and their mixed derivatives. *)
From Coq Require Import Reals List Arith Lia Lra Bool FunctionalExtensionality.
From Coquelicot Require Import Coquelicot.
From Verif Require Import Spec PartialLib QuadLib SpecQuaternion SpecRigid SpecBase SpecFeet SpecCom SpecOri SpecDerivatives Rigid RigidCalc KinTree ConstraintsModel CostsModel Quaternion QuaternionProofs.
From Verif Require Import KinModel KinLib KinMotion KinProofs QuatCurve PropKin BaseModel BaseProofs PropBase SymModel SymProofs SymKin SymMove MixLib FeetModel FeetProofs RatLib ContactProofs OriModel OriProofs.
Import ListNotations.
Local Open Scope R_scope.

Lemma same_action A B : (forall v i, (i < 3)%nat -> vent (mv A v) i = vent (mv B v) i) -> A = B.
Proof.
  intros H. destruct A, B. pose proof (fun i => H (V3 1 0 0) i) as H0. pose proof (fun i => H (V3 0 1 0) i) as H1. pose proof (fun i => H (V3 0 0 1) i) as H2.
  pose proof (H0 0%nat ltac:(lia)) as X0. pose proof (H0 1%nat ltac:(lia)) as X1. pose proof (H0 2%nat ltac:(lia)) as X2.
  pose proof (H1 0%nat ltac:(lia)) as Y0. pose proof (H1 1%nat ltac:(lia)) as Y1. pose proof (H1 2%nat ltac:(lia)) as Y2.
  pose proof (H2 0%nat ltac:(lia)) as Z0. pose proof (H2 1%nat ltac:(lia)) as Z1. pose proof (H2 2%nat ltac:(lia)) as Z2.
  cbn in X0, X1, X2, Y0, Y1, Y2, Z0, Z1, Z2. f_equal; lra.
Qed.

Section Ori.
Variable r : robot.
Variable place : vec -> nat -> pose.
Variable dofs : nat.
Variable up : nat -> nat -> option (nat * nat).
Variable depth : nat -> nat -> nat.
Variable base : nat.
Variable bt : formula.
Variable bt_dep : nat -> bool.
Variable jac : vec -> nat -> nat -> nat -> v6.
Variable fvel : env -> nat -> v6.
Variable btw : env -> v6.
Variable quat : m3 -> vec.
Variable Rd : m3.
Variable f : nat.
Notation rel := (relative r place).
Notation VD := (vdim dofs).
Notation UE0 := (ueval r dofs up base bt rel jac fvel quat).
Notation UE := (with_err base rel quat Rd UE0).
Notation DU := (ori_du r dofs up base bt bt_dep).
Notation FR := (frows VD urows (ucols dofs)).
Notation FC := (fcols VD urows (ucols dofs)).
Notation M := (meaning VD urows (ucols dofs) UE).
Notation WF := (well_formed VD urows (ucols dofs) UE).
Notation RDY := (ready dofs DU UE).
Hypothesis K : kinematics r place dofs up depth base jac fvel btw quat.
Hypothesis RD : rotation Rd.
Hypothesis F : is_frame r f.
Hypothesis PD : (0 < dofs)%nat.
Notation Err := (err_value base rel quat Rd f).
Notation QL := QuaternionLeftTrivializedDerivative.
Notation moving v := (v = v_q \/ v = v_s).

(** The state allows to differentiate the error. *)
Notation Fine := (fine r place dofs base quat Rd f).
Notation Dd := (derived dofs base f).
(** The rotation from the desired orientation, and how fast it turns with an entry of the variable v. *)
Definition turned (rho : env) : m3 := mm (mtr Rd) (frame_rotation base rel (rho v_q) (rho v_s) f).
Definition qspin (q : vec) (j : nat) : v3 := Ginv3 (qunit q) (unit_rate q (fun k => delta k j)).
Definition spin (rho : env) (v j : nat) : v3 :=
  if (v =? v_s)%nat then ang (jac (rho v_s) base f j) else mv (mtr (rot (rel (rho v_s) base f))) (qspin (rho v_q) j).
Lemma rel_rot s : rotation (rot (rel s base f)).
Proof. pose proof (base_frame r place dofs up depth base jac fvel btw quat K). destruct K as (K1 & K2 & _). apply (rel_rigid r place K1 K2); auto. Qed.
Lemma turned_rot rho : rotation (turned rho).
Proof. apply rotation_mm; [apply rotation_tr; exact RD|]. apply rotation_mm; [apply base_rotation_always|apply rel_rot]. Qed.
Lemma err_rep rho : represents (Err rho) (turned rho).
Proof. destruct K as (_ & _ & _ & _ & _ & _ & _ & K8). apply K8. apply turned_rot. Qed.
Lemma err_qmat rho : qmat (Err rho) = turned rho.
Proof. destruct (err_rep rho) as [N A]. destruct (qmat_rep (Err rho) N) as [_ B]. apply same_action. intros v i Hi. rewrite <- (A v i Hi), <- (B v i Hi). reflexivity. Qed.
Lemma vset_D q j : forall k, is_derive (fun t => vset q j t k) (q j) (delta k j).
Proof. intros k. unfold vset, delta. destruct (Nat.eqb k j); [eapply D_eq; [apply (@is_derive_id R_AbsRing)|reflexivity]|apply D_const]. Qed.
Lemma qunit_curve q j : 0 < qnorm2 q -> is_derive_m3 (fun t => qmat (qunit (vset q j t))) (q j) (mm (qmat (qunit q)) (SpecRigid.skew (qspin q j))).
Proof.
  intros P. pose proof (qmat_D (fun t => qunit (vset q j t)) (q j) (unit_rate q (fun k => delta k j))) as G. cbv beta in G. rewrite vset_same in G. apply G.
  - apply qunit_norm; auto.
  - intros k Hk. pose proof (unit_D (fun t => vset q j t) (q j) (fun k => delta k j)) as U. cbv beta in U. rewrite vset_same in U. apply U; auto. intros l Hl. apply vset_D.
  - apply unit_rate_tangent; auto.
Qed.
Lemma turned_D rho v j : moving v -> 0 < qnorm2 (rho v_q) -> (j < VD v)%nat -> is_derive_m3 (fun t => turned (at_entry rho v j t)) (rho v j) (mm (turned rho) (SpecRigid.skew (spin rho v j))).
Proof.
  intros V P Hj. pose proof (base_frame r place dofs up depth base jac fvel btw quat K) as B. unfold turned. destruct V as [->| ->].
  - eapply (m3_D_ext (fun t => mm (mtr Rd) (mm (qmat (qunit (vset (rho v_q) j t))) (rot (rel (rho v_s) base f))))).
    { intros t. unfold frame_rotation. rewrite at_same, at_other by discriminate. reflexivity. }
    pose proof (m3_D_mul _ (fun _ => rot (rel (rho v_s) base f)) _ _ _ (qunit_curve (rho v_q) j P) (m3_D_const (rot (rel (rho v_s) base f)) (rho v_q j))) as DM.
    cbv beta in DM. rewrite mm_0_r, madd_0_r in DM. apply (R_mm_chain Rd) in DM. cbn [spin v_q v_s Nat.eqb]. unfold frame_rotation. rewrite !mm_assoc in *.
    rewrite (skew_rot_tr _ _ (rel_rot (rho v_s))) in DM. exact DM.
  - destruct K as (_ & _ & _ & _ & _ & K6 & _ & _). cbn [vdim v_s Nat.eqb] in Hj. pose proof (K6 (rho v_s) base f j B F Hj) as [DR _]. cbv beta in DR. rewrite vset_same in DR.
    eapply (m3_D_ext (fun t => mm (mtr Rd) (mm (qmat (qunit (rho v_q))) (rot (rel (vset (rho v_s) j t) base f))))).
    { intros t. unfold frame_rotation. rewrite at_same, at_other by discriminate. reflexivity. }
    pose proof (m3_D_mul (fun _ => qmat (qunit (rho v_q))) _ _ _ _ (m3_D_const (qmat (qunit (rho v_q))) (rho v_s j)) DR) as DM. cbv beta in DM. rewrite mm_0_l, madd_0_l in DM.
    apply (R_mm_chain Rd) in DM. unfold frame_rotation. cbn [spin v_s Nat.eqb]. rewrite !mm_assoc in *. exact DM.
Qed.
Lemma at_self_err rho v j : Err (at_entry rho v j (rho v j)) = Err rho.
Proof. rewrite at_self. reflexivity. Qed.
(** The closed form of the derivatives. *)
Lemma derived_closed rho v i j : Fine rho -> moving v -> (i < 4)%nat -> (j < VD v)%nat -> M rho (Dd v) i j = mulv 3 (QL (Err rho)) (vent (spin rho v j)) i.
Proof.
  intros FN V Hi Hj.
  pose proof (quat_curve (fun x => Err (at_entry rho v j x)) (fun x => turned (at_entry rho v j x)) (rho v j) (fun k => M rho (Dd v) k j) (spin rho v j)) as C.
  cbv beta in C. rewrite at_self in C. apply C; auto.
  - intros t. apply err_rep.
  - apply turned_rot.
  - intros k Hk. apply (derived_value r place dofs up depth base bt jac fvel btw quat Rd f K RD F); auto.
  - apply turned_D; auto. apply FN.
Qed.

(** ** The mixed derivatives *)
Lemma QL_add e w w' i : mulv 3 (QL e) (vent (vadd w w')) i = mulv 3 (QL e) (vent w) i + mulv 3 (QL e) (vent w') i.
Proof. unfold mulv. cbn [sumn vent vadd vx vy vz]. ring. Qed.
Lemma QL_swap e a b i : (i < 4)%nat -> mulv 3 (QL (mulv 3 (QL e) (vent a))) (vent b) i + mulv 3 (QL e) (vent (vopp (vcross a b))) i = mulv 3 (QL (mulv 3 (QL e) (vent b))) (vent a) i.
Proof.
  intros Hi. destruct a as [a0 a1 a2], b as [b0 b1 b2]. unfold mulv, QL, tail3, identity, Quaternion.skew, vcross, vopp. cbn [sumn vent vx vy vz].
  destruct i as [|[|[|[|]]]]; [| | | |lia]; cbn; field.
Qed.
Lemma QL_ext e e' w i : (forall k, (k < 4)%nat -> e k = e' k) -> (i < 4)%nat -> mulv 3 (QL e) w i = mulv 3 (QL e') w i.
Proof.
  intros E Hi. unfold mulv, QL, tail3, Quaternion.skew. pose proof (E 0%nat ltac:(lia)). pose proof (E 1%nat ltac:(lia)). pose proof (E 2%nat ltac:(lia)). pose proof (E 3%nat ltac:(lia)).
  destruct i as [|[|[|[|]]]]; [| | | |lia]; cbn; congruence.
Qed.
Definition QLx (e : vec) (w : v3) (i : nat) : R :=
  match i with
  | 0%nat => (-1/2) * (e 1%nat * vx w) + (-1/2) * (e 2%nat * vy w) + (-1/2) * (e 3%nat * vz w)
  | 1%nat => (1/2) * (e 0%nat * vx w) + (-1/2) * (e 3%nat * vy w) + (1/2) * (e 2%nat * vz w)
  | 2%nat => (1/2) * (e 3%nat * vx w) + (1/2) * (e 0%nat * vy w) + (-1/2) * (e 1%nat * vz w)
  | _ => (-1/2) * (e 2%nat * vx w) + (1/2) * (e 1%nat * vy w) + (1/2) * (e 0%nat * vz w)
  end.
Lemma QLx_ok e w i : (i < 4)%nat -> mulv 3 (QL e) (vent w) i = QLx e w i.
Proof.
  intros Hi. unfold mulv, QL, tail3, identity, Quaternion.skew, QLx. destruct i as [|[|[|[|]]]]; [| | | |lia]; cbn; field.
Qed.
Lemma three_D c1 c2 c3 (a1 b1 a2 b2 a3 b3 : R -> R) x a1' b1' a2' b2' a3' b3' : is_derive a1 x a1' -> is_derive b1 x b1' -> is_derive a2 x a2' -> is_derive b2 x b2' ->
  is_derive a3 x a3' -> is_derive b3 x b3' -> is_derive (fun t => c1 * (a1 t * b1 t) + c2 * (a2 t * b2 t) + c3 * (a3 t * b3 t)) x
    (c1 * (a1' * b1 x) + c2 * (a2' * b2 x) + c3 * (a3' * b3 x) + (c1 * (a1 x * b1') + c2 * (a2 x * b2') + c3 * (a3 x * b3'))).
Proof.
  intros A1 B1 A2 B2 A3 B3.
  pose proof (D_mult _ _ _ _ _ (D_const c1 x) (D_mult _ _ _ _ _ A1 B1)) as X1. pose proof (D_mult _ _ _ _ _ (D_const c2 x) (D_mult _ _ _ _ _ A2 B2)) as X2.
  pose proof (D_mult _ _ _ _ _ (D_const c3 x) (D_mult _ _ _ _ _ A3 B3)) as X3.
  eapply D_eq; [exact (D_plus _ _ _ _ _ (D_plus _ _ _ _ _ X1 X2) X3)|]. cbv beta. ring.
Qed.
Lemma QL_D (e : R -> vec) (w : R -> v3) x d w' : (forall k, (k < 4)%nat -> is_derive (fun t => e t k) x (d k)) -> is_derive_v3 w x w' ->
  forall i, (i < 4)%nat -> is_derive (fun t => mulv 3 (QL (e t)) (vent (w t)) i) x (mulv 3 (QL d) (vent (w x)) i + mulv 3 (QL (e x)) (vent w') i).
Proof.
  intros E (W0 & W1 & W2) i Hi. pose proof (E 0%nat ltac:(lia)) as E0. pose proof (E 1%nat ltac:(lia)) as E1. pose proof (E 2%nat ltac:(lia)) as E2. pose proof (E 3%nat ltac:(lia)) as E3.
  rewrite !QLx_ok by exact Hi. eapply is_derive_ext; [intros t; symmetry; apply QLx_ok; exact Hi|]. unfold QLx.
  destruct i as [|[|[|[|]]]]; [| | | |lia].
  - exact (three_D _ _ _ _ _ _ _ _ _ x _ _ _ _ _ _ E1 W0 E2 W1 E3 W2).
  - exact (three_D _ _ _ _ _ _ _ _ _ x _ _ _ _ _ _ E0 W0 E3 W1 E2 W2).
  - exact (three_D _ _ _ _ _ _ _ _ _ x _ _ _ _ _ _ E3 W0 E0 W1 E1 W2).
  - exact (three_D _ _ _ _ _ _ _ _ _ x _ _ _ _ _ _ E2 W0 E1 W1 E0 W2).
Qed.
(** Fine along an entry. *)
Notation near rho v j := (locally (rho v j) (fun t => Fine (at_entry rho v j t))).
Lemma spin_q_D rho j l : (l < dofs)%nat -> is_derive_v3 (fun t => spin (at_entry rho v_s l t) v_q j) (rho v_s l) (vopp (vcross (spin rho v_s l) (spin rho v_q j))).
Proof.
  intros Hl. pose proof (base_frame r place dofs up depth base jac fvel btw quat K) as B. destruct K as (_ & _ & _ & _ & _ & K6 & _ & _).
  pose proof (K6 (rho v_s) base f l B F Hl) as [DR _]. cbv beta in DR. rewrite vset_same in DR.
  eapply (v3_D_ext (fun t => mv (mtr (rot (rel (vset (rho v_s) l t) base f))) (qspin (rho v_q) j))).
  { intros t. cbn [spin v_q v_s Nat.eqb]. rewrite at_same, at_other by discriminate. reflexivity. }
  pose proof (v3_D_mv _ _ _ _ _ (m3_D_tr _ _ _ DR) (v3_D_const (qspin (rho v_q) j) (rho v_s l))) as X. cbv beta in X. rewrite vset_same, mv_0 in X.
  replace (vopp (vcross (spin rho v_s l) (spin rho v_q j))) with (vadd (mv (mtr (mm (rot (rel (rho v_s) base f)) (SpecRigid.skew (ang (jac (rho v_s) base f l))))) (qspin (rho v_q) j)) v30); [exact X|].
  cbn [spin v_q v_s Nat.eqb]. rewrite mtr_mm, mv_mm, skew_tr, mv_neg, skew_v. generalize (vopp (vcross (ang (jac (rho v_s) base f l)) (mv (mtr (rot (rel (rho v_s) base f))) (qspin (rho v_q) j)))).
  intros [a b c]. unfold vadd, v30. cbn. f_equal; ring.
Qed.
Lemma spin_s_D rho j l : is_derive_v3 (fun t => spin (at_entry rho v_q j t) v_s l) (rho v_q j) v30.
Proof. eapply (v3_D_ext (fun t => spin rho v_s l)); [|apply v3_D_const]. intros t. cbn [spin v_s Nat.eqb]. rewrite at_other by discriminate. reflexivity. Qed.
Lemma mixed_derivatives rho j l k : Fine rho -> near rho v_q j -> near rho v_s l -> (j < 4)%nat -> (l < dofs)%nat -> (k < 4)%nat ->
  let m := mulv 3 (QL (fun i => M rho (Dd v_q) i j)) (vent (spin rho v_s l)) k in
  is_derive (fun t => M (at_entry rho v_s l t) (Dd v_q) k j) (rho v_s l) m /\ is_derive (fun t => M (at_entry rho v_q j t) (Dd v_s) k l) (rho v_q j) m.
Proof.
  intros FN NQ NS Hj Hl Hk m. subst m. split.
  - eapply is_derive_ext_loc; [eapply filter_imp; [|exact NS]; intros t Ft; symmetry; apply derived_closed; auto|].
    pose proof (QL_D (fun t => Err (at_entry rho v_s l t)) (fun t => spin (at_entry rho v_s l t) v_q j) (rho v_s l) (fun i => M rho (Dd v_s) i l) _
      (fun i Hi => derived_value r place dofs up depth base bt jac fvel btw quat Rd f K RD F rho v_s i l FN (or_intror eq_refl) Hi Hl) (spin_q_D rho j l Hl) k Hk) as X.
    cbv beta in X. rewrite at_self in X. eapply D_eq; [exact X|].
    rewrite (QL_ext (fun i => M rho (Dd v_s) i l) (mulv 3 (QL (Err rho)) (vent (spin rho v_s l)))); [|intros i Hi; apply derived_closed; auto|exact Hk].
    rewrite (QL_ext (fun i => M rho (Dd v_q) i j) (mulv 3 (QL (Err rho)) (vent (spin rho v_q j)))); [|intros i Hi; apply derived_closed; auto|exact Hk].
    apply QL_swap. exact Hk.
  - eapply is_derive_ext_loc; [eapply filter_imp; [|exact NQ]; intros t Ft; symmetry; apply derived_closed; auto|].
    pose proof (QL_D (fun t => Err (at_entry rho v_q j t)) (fun t => spin (at_entry rho v_q j t) v_s l) (rho v_q j) (fun i => M rho (Dd v_q) i j) _
      (fun i Hi => derived_value r place dofs up depth base bt jac fvel btw quat Rd f K RD F rho v_q i j FN (or_introl eq_refl) Hi Hj) (spin_s_D rho j l) k Hk) as X.
    cbv beta in X. rewrite at_self in X. eapply D_eq; [exact X|]. replace (mulv 3 (QL (Err rho)) (vent v30) k) with 0; [ring|]. unfold mulv. cbn [sumn vent v30 vx vy vz]. ring.
Qed.
(** The derivative of the gradient of the expression with respect to the joints along the quaternion is the transposed one. *)
Notation GG := (Gv dofs base quat f).
Lemma transposed_block rho j l : Fine rho -> near rho v_q j -> near rho v_s l -> (j < 4)%nat -> (l < dofs)%nat -> exists m,
  is_derive (fun t => M (at_entry rho v_s l t) (GG v_q) j 0%nat) (rho v_s l) m /\ is_derive (fun t => M (at_entry rho v_q j t) (GG v_s) l 0%nat) (rho v_q j) m.
Proof.
  intros FN NQ NS Hj Hl.
  set (m := fun k => mulv 3 (QL (fun i => M rho (Dd v_q) i j)) (vent (spin rho v_s l)) k).
  assert (Hm : forall k, (k < 4)%nat -> is_derive (fun t => M (at_entry rho v_s l t) (Dd v_q) k j) (rho v_s l) (m k) /\ is_derive (fun t => M (at_entry rho v_q j t) (Dd v_s) k l) (rho v_q j) (m k))
    by (intros k Hk; apply mixed_derivatives; auto).
  exists (rho v_weight 0%nat * sumn 4 (fun k => M rho (Dd v_s) k l * M rho (Dd v_q) k j + (Err rho k - quat m3I k) * m k)). split.
  - eapply is_derive_ext; [intros t; symmetry; apply (Gv_value r place dofs up depth base bt jac fvel btw quat Rd f K RD F); auto|].
    eapply is_derive_ext; [intros t; rewrite at_other by discriminate; reflexivity|].
    eapply D_eq; [refine (D_mult _ _ _ _ _ (D_const (rho v_weight 0%nat) (rho v_s l)) (D_sumn 4 (fun k t => (Err (at_entry rho v_s l t) k - quat m3I k) * M (at_entry rho v_s l t) (Dd v_q) k j) (rho v_s l) (fun k => (M rho (Dd v_s) k l - 0) * M rho (Dd v_q) k j + (Err rho k - quat m3I k) * m k) _)); intros k Hk|].
    + pose proof (D_mult _ _ _ _ _ (D_minus _ _ _ _ _ (derived_value r place dofs up depth base bt jac fvel btw quat Rd f K RD F rho v_s k l FN (or_intror eq_refl) Hk Hl) (D_const (quat m3I k) _)) (proj1 (Hm k Hk))) as X. cbv beta in X. rewrite at_self in X. exact X.
    + cbv beta. rewrite Rmult_0_l, Rplus_0_l. f_equal. apply sumn_ext. intros k Hk. ring.
  - eapply is_derive_ext; [intros t; symmetry; apply (Gv_value r place dofs up depth base bt jac fvel btw quat Rd f K RD F); auto|].
    eapply is_derive_ext; [intros t; rewrite at_other by discriminate; reflexivity|].
    eapply D_eq; [refine (D_mult _ _ _ _ _ (D_const (rho v_weight 0%nat) (rho v_q j)) (D_sumn 4 (fun k t => (Err (at_entry rho v_q j t) k - quat m3I k) * M (at_entry rho v_q j t) (Dd v_s) k l) (rho v_q j) (fun k => (M rho (Dd v_q) k j - 0) * M rho (Dd v_s) k l + (Err rho k - quat m3I k) * m k) _)); intros k Hk|].
    + pose proof (D_mult _ _ _ _ _ (D_minus _ _ _ _ _ (derived_value r place dofs up depth base bt jac fvel btw quat Rd f K RD F rho v_q k j FN (or_introl eq_refl) Hk Hj) (D_const (quat m3I k) _)) (proj2 (Hm k Hk))) as X. cbv beta in X. rewrite at_self in X. exact X.
    + cbv beta. rewrite Rmult_0_l, Rplus_0_l. f_equal. apply sumn_ext. intros k Hk. ring.
Qed.
(** The gradient of the expression is that of the distance. *)
Definition dist (w : R) (rho : env) : R := w / 2 * sumn 4 (fun k => (Err rho k - quat m3I k) * (Err rho k - quat m3I k)).
Lemma dist_D w rho v j : Fine rho -> moving v -> (j < VD v)%nat ->
  is_derive (fun t => dist w (at_entry rho v j t)) (rho v j) (w * sumn 4 (fun k => (Err rho k - quat m3I k) * M rho (Dd v) k j)).
Proof.
  intros FN V Hj. unfold dist.
  eapply D_eq; [refine (D_mult _ _ _ _ _ (D_const (w / 2) (rho v j)) (D_sumn 4 (fun k t => (Err (at_entry rho v j t) k - quat m3I k) * (Err (at_entry rho v j t) k - quat m3I k)) (rho v j) (fun k => (M rho (Dd v) k j - 0) * (Err rho k - quat m3I k) + (Err rho k - quat m3I k) * (M rho (Dd v) k j - 0)) _)); intros k Hk|].
  - pose proof (D_minus _ _ _ _ _ (derived_value r place dofs up depth base bt jac fvel btw quat Rd f K RD F rho v k j FN V Hk Hj) (D_const (quat m3I k) _)) as X.
    pose proof (D_mult _ _ _ _ _ X X) as Y. cbv beta in Y. rewrite at_self in Y. exact Y.
  - cbv beta. rewrite Rmult_0_l, Rplus_0_l. rewrite <- !sumn_scal. apply sumn_ext. intros k Hk. field.
Qed.
End Ori.
