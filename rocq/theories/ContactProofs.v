(** Proofs about ContactPositionConsistencyConstraint. *)
From Coq Require Import Reals List Arith Lia Lra Bool FunctionalExtensionality.
From Coquelicot Require Import Coquelicot.
From Verif Require Import Spec PartialLib QuadLib SpecQuaternion SpecRigid SpecBase SpecDerivatives SpecFeet Rigid RigidCalc KinTree ConstraintsModel CostsModel.
From Verif Require Import KinModel KinLib KinMotion KinProofs QuatCurve PropKin BaseProofs PropBase SymModel SymProofs SymKin MixLib BaseModel FeetModel FeetProofs RatLib ContactModel.
Import ListNotations.
Local Open Scope R_scope.

Lemma vset_env rho v x : env_set rho v x v = x. Proof. unfold env_set. rewrite Nat.eqb_refl. reflexivity. Qed.

Section Contact.
Variable r : robot.
Variable place : vec -> nat -> pose.
Variable dofs : nat.
Variable up : nat -> nat -> option (nat * nat).
Variable depth : nat -> nat -> nat.
Variable base : nat.
Variable bt : formula.
Variable bt_dep : nat -> bool.
Variable jac : vec -> nat -> nat -> nat -> v6.
Variable fvel : env -> nat -> v6.
Variable btw : env -> v6.
Variable quat : m3 -> vec.
Notation rel := (relative r place).
Notation VD := (vdim dofs).
Notation UE := (ueval r dofs up base bt rel jac fvel quat).
Notation FR := (frows VD urows (ucols dofs)).
Notation FC := (fcols VD urows (ucols dofs)).
Notation M := (meaning VD urows (ucols dofs) UE).
Notation WF := (well_formed VD urows (ucols dofs) UE).
Notation DEEP := (deep r dofs up base bt bt_dep).
Hypothesis K : kinematics r place dofs up depth base jac fvel btw quat.
Let rok : robot_ok r := k_robot _ _ _ _ _ _ _ _ _ _ K.
Let plc : placement r place := k_place _ _ _ _ _ _ _ _ _ _ K.
Let trav : forall b, (b < r_links r)%nat -> traversal r b (up b) (depth b) := k_trav _ _ _ _ _ _ _ _ _ _ K.
Variable c : contact_cfg.
Notation op := (cn_pos c).
Notation oq := (cn_quat c).
Notation os := (cn_joints c).
Notation ot := (cn_point c).
Notation foot := (cn_foot c).
Notation pf := (cn_in_foot c).
Hypothesis F : is_frame r foot.
Lemma B : is_frame r base.
Proof. pose proof (k_base _ _ _ _ _ _ _ _ _ _ K) as H. unfold is_frame. lia. Qed.

(** ** The pieces of the value *)
Definition XX (s : vec) (l : nat) : R := vent (papply (rel s base foot) pf) l.
Definition XD (s : vec) (j l : nat) : R :=
  vent (vadd (mv (mm (rot (rel s base foot)) (skew (ang (jac s base foot j)))) pf) (mv (rot (rel s base foot)) (lin (jac s base foot j)))) l.
Definition RR (q : vec) (n l : nat) : R := ment (qmat (qunit q)) n l.
Definition RD (q : vec) (n l j : nat) : R := rat (ratn (Pm n l) Pq j) (PM Pq Pq) q.
Lemma XX_partial s j l : (j < dofs)%nat -> partial (fun s => XX s l) s j (XD s j l).
Proof.
  intros Hj. pose proof (k_jac _ _ _ _ _ _ _ _ _ _ K s base foot j B F Hj) as [A D]. rewrite vset_same in A, D. unfold partial, XX.
  refine (vent_D (fun t => papply (rel (vset s j t) base foot) pf) _ _ _ l). unfold papply.
  destruct A as ((A1 & A2 & A3) & (A4 & A5 & A6) & A7 & A8 & A9). destruct D as (D1 & D2 & D3).
  assert (Q : forall f g h k (x a b d e : R), is_derive f x a -> is_derive g x b -> is_derive h x d -> is_derive k x e ->
    is_derive (fun t => f t * vx pf + g t * vy pf + h t * vz pf + k t) x (a * vx pf + b * vy pf + d * vz pf + e)).
  { intros f g h k x a b d e Ha Hb Hd He. apply D_plus; [|exact He]. apply D_plus; [apply D_plus|].
    - eapply D_eq; [apply D_mult; [exact Ha|apply D_const]|]. cbv beta. ring.
    - eapply D_eq; [apply D_mult; [exact Hb|apply D_const]|]. cbv beta. ring.
    - eapply D_eq; [apply D_mult; [exact Hd|apply D_const]|]. cbv beta. ring. }
  split; [|split]; cbn [vadd mv vx vy vz]; apply Q; assumption.
Qed.
Lemma RR_partial q n l j : 0 < qnorm2 q -> partial (fun q => RR q n l) q j (RD q n l j).
Proof. intros P. apply rm_partial. exact P. Qed.
Lemma error_sum y n : (n < 3)%nat ->
  contact_error r place base foot pf op oq os ot dofs y n = y (op + n)%nat + sumn 3 (fun l => RR (part y oq 4) n l * XX (part y os dofs) l) - y (ot + n)%nat.
Proof.
  intros Hn. unfold contact_error, RR, XX, part3, base_pose, papply, pmul. cbn [rot pos]. set (R0 := qmat _). set (P := relative _ _ _ _ _). f_equal.
  destruct n as [|[|[|n]]]; try lia; rewrite ?Nat.add_0_r; cbn [sumn vent ment vadd mv mm vx vy vz a00 a01 a02 a10 a11 a12 a20 a21 a22]; ring.
Qed.
Definition W (n : nat) (q s : vec) : R := sumn 3 (fun l => RR q n l * XX s l).

(** ** The expression *)
Notation E := (contact_expression base c).
Lemma E_shape : WF E /\ FR E = 3%nat /\ FC E = 1%nat.
Proof.
  destruct (base_shape dofs UE) as (R0 & C0 & W0).
  destruct (relpos_shape r place dofs up base bt jac fvel quat base foot) as (R1 & C1 & W1).
  destruct (relrot_shape r place dofs up depth base bt jac fvel btw quat K base foot) as (R2 & C2 & W2).
  destruct (wf_mul_intro dofs UE base_rotation (relpos base foot) W0 W1 ltac:(lia)) as (W3 & R3 & C3 & _).
  destruct (wf_mul_intro dofs UE base_rotation (relrot base foot) W0 W2 ltac:(lia)) as (W4 & R4 & C4 & _).
  destruct (wf_mul_intro dofs UE (FMul base_rotation (relrot base foot)) (FConst 3 1 (fun i _ => vent pf i)) W4 Logic.I ltac:(rewrite C4, C2; reflexivity)) as (W5 & R5 & C5 & _).
  split; [|split; [reflexivity|reflexivity]].
  unfold contact_expression. refine (conj (conj Logic.I (conj W3 (conj _ _))) (conj W5 (conj _ _))).
  - rewrite R3, R0. reflexivity.
  - rewrite C3, C1. reflexivity.
  - rewrite R5, R4, R0. reflexivity.
  - rewrite C5. reflexivity.
Qed.
Lemma E_value rho n : 0 < qnorm2 (rho v_q) -> (n < 3)%nat -> M rho E n 0%nat = rho v_p n + W n (rho v_q) (rho v_s).
Proof.
  intros P Hn.
  destruct (base_shape dofs UE) as (R0 & C0 & W0).
  destruct (relpos_shape r place dofs up base bt jac fvel quat base foot) as (R1 & C1 & W1).
  destruct (relrot_shape r place dofs up depth base bt jac fvel btw quat K base foot) as (R2 & C2 & W2).
  destruct (wf_mul_intro dofs UE base_rotation (relpos base foot) W0 W1 ltac:(lia)) as (W3 & R3 & C3 & V3).
  destruct (wf_mul_intro dofs UE base_rotation (relrot base foot) W0 W2 ltac:(lia)) as (W4 & R4 & C4 & V4).
  destruct (wf_mul_intro dofs UE (FMul base_rotation (relrot base foot)) (FConst 3 1 (fun i _ => vent pf i)) W4 Logic.I ltac:(rewrite C4, C2; reflexivity)) as (W5 & R5 & C5 & V5).
  unfold contact_expression.
  change (M rho (FAdd (FAdd (FVar v_p) (FMul base_rotation (relpos base foot))) (FMul (FMul base_rotation (relrot base foot)) (FConst 3 1 (fun i _ => vent pf i)))) n 0%nat)
    with (rho v_p n + M rho (FMul base_rotation (relpos base foot)) n 0%nat + M rho (FMul (FMul base_rotation (relrot base foot)) (FConst 3 1 (fun i _ => vent pf i))) n 0%nat).
  rewrite V3 by lia. rewrite V5; [|lia|cbn; lia]. rewrite C0, C4, C2.
  rewrite (sumn_ext 3 (fun l => M rho base_rotation n l * M rho (relpos base foot) l 0%nat) (fun l => RR (rho v_q) n l * vent (pos (rel (rho v_s) base foot)) l)).
  2:{ intros l Hl. rewrite base_value by auto. rewrite (C58_position_value r place dofs up depth base bt jac fvel btw quat K base foot rho l B F Hl). reflexivity. }
  rewrite (sumn_ext 3 (fun k => M rho (FMul base_rotation (relrot base foot)) n k * M rho (FConst 3 1 (fun i _ => vent pf i)) k 0%nat)
     (fun k => sumn 3 (fun l => RR (rho v_q) n l * ment (rot (rel (rho v_s) base foot)) l k) * vent pf k)).
  2:{ intros k Hk. rewrite V4 by lia. rewrite C0. cbn [meaning]. f_equal. apply sumn_ext. intros l Hl. rewrite base_value by auto.
      rewrite (C58_rotation_value r place dofs up depth base bt jac fvel btw quat K base foot rho l k B F Hl Hk). reflexivity. }
  unfold W, XX, papply. set (A := rel (rho v_s) base foot). cbn [sumn vent vadd mv vx vy vz ment]. ring.
Qed.

(** ** It can be derived twice *)
(** With respect to other variables than the joints the rotation is constant. *)
Lemma relrot_const f g k rho v : v <> v_s -> is_frame r f -> is_frame r g -> (k < 3)%nat -> ready dofs DEEP UE rho v (relrot f g) k.
Proof.
  intros N HF HG Hk. unfold relrot. destruct (f =? g)%nat eqn:Q; [apply ready_const; [reflexivity|]; reflexivity|].
  destruct (adj_shape r place dofs up base bt jac fvel quat false f g) as (R0 & C0 & W0).
  apply ready_block; [split; [exact W0|]; rewrite R0, C0; lia|exact Hk|]. unfold adj. rewrite Q.
  apply (leaf_ready r place dofs up base bt jac fvel quat DEEP rho v (KAdj false f g) (0 + k) (FNull 6 (VD v))); [|reflexivity|reflexivity|exact Logic.I|].
  - cbn [deep hand derivative]. apply Nat.eqb_neq in N. rewrite N, andb_false_r. reflexivity.
  - intros i j Hi Hj. cbn [meaning]. apply is_derive_ext with (f := fun _ : R => val r dofs up base bt rel jac fvel quat (KAdj false f g) rho i (0 + k)%nat); [|apply D_const].
    intros x. cbn [val val1 val0]. rewrite at_other by auto. reflexivity.
Qed.
Lemma rotp_ready rho v l : 0 < qnorm2 (rho v_q) -> (l < 3)%nat -> ready dofs DEEP UE rho v base_rotation l.
Proof. intros P Hl. apply none_ready; [reflexivity|]. apply base_smooth; auto. Qed.
Lemma p_ready rho v : ready dofs DEEP UE rho v (FVar v_p) 0.
Proof.
  apply none_ready; [reflexivity|]. intros i j Hi Hj. cbn [meaning]. unfold at_entry, env_set. destruct (v_p =? v)%nat eqn:Q.
  - apply Nat.eqb_eq in Q. subst v. eexists. apply (partial_var i (rho v_p) j).
  - exists 0. apply D_const.
Qed.
Lemma E_ready rho v : (v <> v_s \/ unturned r up base foot) -> 0 < qnorm2 (rho v_q) -> ready dofs DEEP UE rho v E 0.
Proof.
  intros UV P. destruct E_shape as (WE & _).
  destruct (base_shape dofs UE) as (R0 & C0 & W0).
  destruct (relpos_shape r place dofs up base bt jac fvel quat base foot) as (R1 & C1 & W1).
  destruct (relrot_shape r place dofs up depth base bt jac fvel btw quat K base foot) as (R2 & C2 & W2).
  destruct (wf_mul_intro dofs UE base_rotation (relrot base foot) W0 W2 ltac:(lia)) as (W4 & R4 & C4 & V4).
  unfold contact_expression in *. destruct WE as (WA & WB & EA & EB).
  apply ready_add; [split; auto|cbn; lia| |].
  - apply ready_add; [exact WA|cbn; lia|apply p_ready|]. apply ready_mul; [exact W0|exact W1|lia|lia| |].
    + intros l Hl. apply rotp_ready; [exact P|lia].
    + apply (relpos_ready r place dofs up depth base bt bt_dep jac fvel btw quat K); [apply B|exact F].
  - apply ready_mul; [exact W4|exact Logic.I|rewrite C4, C2; reflexivity|cbn; lia| |].
    + intros l Hl. rewrite C4, C2 in Hl. apply ready_mul; [exact W0|exact W2|lia|lia| |].
      * intros l' Hl'. apply rotp_ready; [exact P|lia].
      * destruct UV as [UV|UV]; [apply relrot_const; auto; apply B|].
        apply (relrot_ready r place dofs up depth base bt bt_dep jac fvel btw quat K); auto; [apply deep_hand|apply B].
    + apply ready_const; [reflexivity|]. reflexivity.
Qed.
Lemma rotp_ready2 rho v1 v2 l : 0 < qnorm2 (rho v_q) -> (l < 3)%nat -> ready2 dofs DEEP UE rho v1 v2 base_rotation l.
Proof. intros P Hl. apply (none_ready2 r place dofs up base bt jac fvel quat); [reflexivity|]. intros k Hk. apply base_smooth2; auto. Qed.
Lemma p_ready2 rho v1 v2 : ready2 dofs DEEP UE rho v1 v2 (FVar v_p) 0.
Proof.
  apply (none_ready2 r place dofs up base bt jac fvel quat); [reflexivity|]. intros k Hk i j Hi Hj. exists 0.
  eapply is_derive_ext; [|apply (D_const (if (v_p =? v1)%nat then ind i k else 0))]. intros t. cbn [meaning]. symmetry.
  apply is_derive_unique. unfold at_entry at 1. unfold env_set. destruct (v_p =? v1)%nat eqn:Q.
  - apply Nat.eqb_eq in Q. subst v1. apply (partial_var i (at_entry rho v2 j t v_p) k).
  - apply D_const.
Qed.
(** A product of matrices, at least one of them not 1x1. *)
Lemma mul_ready2 rho v1 v2 A C k : scalar_size dofs A = false -> scalar_size dofs C = false -> users (fun _ => false) (FMul A C) = false ->
  ready2 dofs DEEP UE rho v1 v2 C k -> (forall l, (l < FC A)%nat -> ready dofs DEEP UE rho v1 A l /\ ready dofs DEEP UE rho v2 A l /\ ready2 dofs DEEP UE rho v1 v2 A l) ->
  ready2 dofs DEEP UE rho v1 v2 (FMul A C) k.
Proof. intros SA SC N HC HA. cbn [ready2]. rewrite N, SA, SC. auto. Qed.

(** ** First derivatives *)
Definition GQ (q s : vec) (n j : nat) : R := sumn 3 (fun l => RD q n l j * XX s l).
Definition GS (q s : vec) (n j : nat) : R := sumn 3 (fun l => RR q n l * XD s j l).
Lemma sum_partial (f : nat -> vec -> R) x k d : (forall l, (l < 3)%nat -> partial (f l) x k (d l)) -> partial (fun y => sumn 3 (fun l => f l y)) x k (sumn 3 d).
Proof. intros H. cbn [sumn]. repeat apply partial_plus; try (apply H; lia). apply partial_const. Qed.
Lemma W_q n q s j : 0 < qnorm2 q -> partial (fun q => W n q s) q j (GQ q s n j).
Proof.
  intros P. unfold W, GQ. apply (sum_partial (fun l q => RR q n l * XX s l)). intros l Hl. eapply partial_eq; [apply partial_mult; [apply RR_partial; exact P|apply partial_const]|]. cbv beta. ring.
Qed.
Lemma W_s n q s j : (j < dofs)%nat -> partial (fun s => W n q s) s j (GS q s n j).
Proof.
  intros Hj. unfold W, GS. apply (sum_partial (fun l s => RR q n l * XX s l)). intros l Hl. eapply partial_eq; [apply partial_mult; [apply partial_const|apply XX_partial; exact Hj]|]. cbv beta. ring.
Qed.
Lemma GQ_s n q s i j : (j < dofs)%nat -> partial (fun s => GQ q s n i) s j (sumn 3 (fun l => RD q n l i * XD s j l)).
Proof.
  intros Hj. unfold GQ. apply (sum_partial (fun l s => RD q n l i * XX s l)). intros l Hl. eapply partial_eq; [apply partial_mult; [apply partial_const|apply XX_partial; exact Hj]|]. cbv beta. ring.
Qed.
Lemma GS_q n q s i j : 0 < qnorm2 q -> partial (fun q => GS q s n j) q i (sumn 3 (fun l => RD q n l i * XD s j l)).
Proof.
  intros P. unfold GS. apply (sum_partial (fun l q => RR q n l * XD s j l)). intros l Hl. eapply partial_eq; [apply partial_mult; [apply RR_partial; exact P|apply partial_const]|]. cbv beta. ring.
Qed.
(** The derivatives of E along one entry of a variable. *)
Lemma near_q rho j : 0 < qnorm2 (rho v_q) -> locally (rho v_q j) (fun t => 0 < qnorm2 (at_entry rho v_q j t v_q)).
Proof. intros P. eapply filter_imp; [|apply (vset_near (rho v_q) j P)]. intros t H. rewrite at_same. exact H. Qed.
Lemma E_q rho n j : 0 < qnorm2 (rho v_q) -> (n < 3)%nat -> is_derive (fun t => M (at_entry rho v_q j t) E n 0%nat) (rho v_q j) (GQ (rho v_q) (rho v_s) n j).
Proof.
  intros P Hn. eapply is_derive_ext_loc; [eapply filter_imp; [|apply (near_q rho j P)]; intros t H; symmetry; rewrite E_value by auto; rewrite at_same, !at_other by discriminate; reflexivity|].
  eapply D_eq; [apply D_plus; [apply D_const|apply (W_q n (rho v_q) (rho v_s) j P)]|]. ring.
Qed.
Lemma E_s rho n j : 0 < qnorm2 (rho v_q) -> (n < 3)%nat -> (j < dofs)%nat -> is_derive (fun t => M (at_entry rho v_s j t) E n 0%nat) (rho v_s j) (GS (rho v_q) (rho v_s) n j).
Proof.
  intros P Hn Hj. eapply is_derive_ext; [intros t; symmetry; rewrite E_value by (rewrite ?at_other by discriminate; auto); rewrite at_same, !at_other by discriminate; reflexivity|].
  eapply D_eq; [apply D_plus; [apply D_const|apply (W_s n (rho v_q) (rho v_s) j Hj)]|]. ring.
Qed.
Notation one := (fun _ _ => 1 : R).
Lemma one_pos : 0 < qnorm2 ((fun _ _ => 1 : R) v_q). Proof. unfold qnorm2. lra. Qed.
Lemma quat_first : exists X, contact_dcol r dofs up base bt bt_dep E 0 v_q = Some X /\ FR X = 3%nat /\ FC X = 4%nat /\ WF X /\
  forall rho, 0 < qnorm2 (rho v_q) -> forall n j, (n < 3)%nat -> (j < 4)%nat -> M rho X n j = GQ (rho v_q) (rho v_s) n j.
Proof.
  destruct E_shape as (W0 & R0 & C0). assert (NV : v_q <> v_s \/ unturned r up base foot) by (left; discriminate).
  destruct (dcol_sound dofs DEEP UE one v_q E 0 W0 ltac:(lia) (E_ready _ _ NV one_pos)) as (X & EX & RX & CX & WX & _).
  exists X. split; [exact EX|]. split; [congruence|]. split; [exact CX|]. split; [exact WX|]. intros rho P n j Hn Hj.
  destruct (dcol_sound dofs DEEP UE rho v_q E 0 W0 ltac:(lia) (E_ready _ _ NV P)) as (X' & EX' & _ & _ & _ & D). rewrite EX in EX'. injection EX' as <-.
  apply (D_unique _ _ _ _ (D n j ltac:(lia) Hj)). apply E_q; auto.
Qed.

Hypothesis UT : forall b, is_frame r b -> unturned r up b foot.
Lemma joints_first : exists X, contact_dcol r dofs up base bt bt_dep E 0 v_s = Some X /\ FR X = 3%nat /\ FC X = dofs /\ WF X /\
  forall rho, 0 < qnorm2 (rho v_q) -> forall n j, (n < 3)%nat -> (j < dofs)%nat -> M rho X n j = GS (rho v_q) (rho v_s) n j.
Proof.
  destruct E_shape as (W0 & R0 & C0). assert (NV : v_s <> v_s \/ unturned r up base foot) by (right; apply UT, B).
  destruct (dcol_sound dofs DEEP UE one v_s E 0 W0 ltac:(lia) (E_ready _ _ NV one_pos)) as (X & EX & RX & CX & WX & _).
  exists X. split; [exact EX|]. split; [congruence|]. split; [exact CX|]. split; [exact WX|]. intros rho P n j Hn Hj.
  destruct (dcol_sound dofs DEEP UE rho v_s E 0 W0 ltac:(lia) (E_ready _ _ NV P)) as (X' & EX' & _ & _ & _ & D). rewrite EX in EX'. injection EX' as <-.
  apply (D_unique _ _ _ _ (D n j ltac:(lia) Hj)). apply E_s; auto.
Qed.

(** ** Second derivatives *)
Lemma XX_same s l : foot = base -> XX s l = vent pf l.
Proof.
  intros Q. unfold XX. rewrite Q. rewrite (rel_same r place rok plc) by apply B. unfold papply, pid, m3I, v30. cbn [rot pos].
  destruct pf as [a b d]. destruct l as [|[|[|l]]]; cbn [vent vadd mv vx vy vz a00 a01 a02 a10 a11 a12 a20 a21 a22]; ring.
Qed.
Lemma E_ready2 rho v1 v2 : (v1 = v_q \/ v1 = v_s) -> (v2 = v_q \/ v2 = v_s) -> 0 < qnorm2 (rho v_q) -> ready2 dofs DEEP UE rho v1 v2 E 0.
Proof.
  intros V1 V2 P. destruct (base_shape dofs UE) as (R0 & C0 & W0).
  destruct (relpos_shape r place dofs up base bt jac fvel quat base foot) as (R1 & C1 & W1).
  destruct (relrot_shape r place dofs up depth base bt jac fvel btw quat K base foot) as (R2 & C2 & W2).
  destruct (wf_mul_intro dofs UE base_rotation (relrot base foot) W0 W2 ltac:(lia)) as (W4 & R4 & C4 & V4).
  assert (UU : forall v, v <> v_s \/ unturned r up base foot) by (intros v; right; apply UT, B).
  assert (S0 : scalar_size dofs base_rotation = false) by (apply (not_scalar r place dofs up depth base jac fvel btw quat K base_rotation 3 3); auto).
  assert (S1 : scalar_size dofs (relpos base foot) = false) by (apply (not_scalar r place dofs up depth base jac fvel btw quat K (relpos base foot) 3 1); auto).
  assert (S2 : scalar_size dofs (relrot base foot) = false) by (apply (not_scalar r place dofs up depth base jac fvel btw quat K (relrot base foot) 3 3); auto).
  assert (S4 : scalar_size dofs (FMul base_rotation (relrot base foot)) = false) by (apply (not_scalar r place dofs up depth base jac fvel btw quat K _ 3 3); [congruence|congruence|auto]).
  destruct (Nat.eq_dec base foot) as [EQ|N].
  - apply (none_ready2 r place dofs up base bt jac fvel quat).
    { unfold contact_expression, relpos, relrot. rewrite <- EQ, Nat.eqb_refl. reflexivity. }
    intros k Hk i j Hi Hj. destruct E_shape as (_ & RE & _). change (FR (FDeriv E 0 v1)) with (FR E) in Hi. rewrite RE in Hi.
    assert (DQ : forall rho k, 0 < qnorm2 (rho v_q) -> M rho (FDeriv E 0 v_q) i k = sumn 3 (fun l => RD (rho v_q) i l k * vent pf l)).
    { intros rho' k' P'. transitivity (GQ (rho' v_q) (rho' v_s) i k'); [apply (is_derive_unique (fun t => M (at_entry rho' v_q k' t) E i 0%nat)), E_q; auto|]. unfold GQ. apply sumn_ext. intros l Hl. rewrite XX_same by auto. reflexivity. }
    assert (DS : forall rho k, 0 < qnorm2 (rho v_q) -> M rho (FDeriv E 0 v_s) i k = 0).
    { intros rho' k' P'. apply (is_derive_unique (fun t => M (at_entry rho' v_s k' t) E i 0%nat)). eapply is_derive_ext; [|apply (D_const (rho' v_p i + W i (rho' v_q) (rho' v_s)))].
      intros t. rewrite E_value by (rewrite ?at_other by discriminate; auto). rewrite !at_other by discriminate. rewrite at_same. f_equal. unfold W. apply sumn_ext. intros l Hl. rewrite !XX_same by auto. reflexivity. }
    destruct V1 as [-> | ->].
    + destruct V2 as [-> | ->].
      * assert (SM : forall l, (l < 3)%nat -> exists d, is_derive (fun t => RD (vset (rho v_q) j t) i l k) (rho v_q j) d).
        { intros l Hl. eexists. apply (rat_ok (ratn (Pm i l) Pq k) (PM Pq Pq) (rho v_q) j). cbn [pev]. rewrite Pq_ok. intros Z. apply Rmult_integral in Z. lra. }
        destruct (SM 0%nat ltac:(lia)) as [d0 D0]. destruct (SM 1%nat ltac:(lia)) as [d1 D1]. destruct (SM 2%nat ltac:(lia)) as [d2 D2].
        eexists. eapply is_derive_ext_loc; [eapply filter_imp; [|apply (near_q rho j P)]; intros t H; symmetry; rewrite DQ by exact H; rewrite at_same; cbn [sumn]; reflexivity|].
        apply D_plus; [apply D_plus; [apply D_plus; [apply D_const|]|]|]; (apply D_mult; [eassumption|apply D_const]).
      * exists 0. eapply is_derive_ext; [intros t; symmetry; apply DQ; rewrite at_other by discriminate; exact P|]. eapply is_derive_ext; [|apply D_const]. intros t. rewrite at_other by discriminate. reflexivity.
    + exists 0. destruct V2 as [-> | ->].
      * eapply is_derive_ext_loc; [eapply filter_imp; [|apply (near_q rho j P)]; intros t H; symmetry; apply DS; exact H|]. apply D_const.
      * eapply is_derive_ext; [intros t; symmetry; apply DS; rewrite at_other by discriminate; exact P|]. apply D_const.
  - apply Nat.eqb_neq in N.
    assert (N1 : users (fun _ => false) (FMul base_rotation (relpos base foot)) = false) by (unfold relpos; rewrite N; reflexivity).
    assert (N2 : users (fun _ => false) (FMul base_rotation (relrot base foot)) = false) by (unfold relrot, adj; rewrite N; reflexivity).
    unfold contact_expression.
    assert (NA : forall A C, users (fun _ => false) (FAdd A C) = (users (fun _ => false) A && users (fun _ => false) C)%bool) by reflexivity.
    assert (NM : forall A C, users (fun _ => false) (FMul A C) = (users (fun _ => false) A && users (fun _ => false) C)%bool) by reflexivity.
    assert (NT : users (fun _ => false) (FAdd (FAdd (FVar v_p) (FMul base_rotation (relpos base foot))) (FMul (FMul base_rotation (relrot base foot)) (FConst 3 1 (fun i _ => vent pf i)))) = false)
      by (rewrite NA, (NM (FMul base_rotation (relrot base foot))), N2; apply andb_false_r).
    cbn [ready2]. rewrite NT.
    assert (NT1 : users (fun _ => false) (FAdd (FVar v_p) (FMul base_rotation (relpos base foot))) = false) by (rewrite NA, N1; reflexivity). rewrite NT1.
    assert (RB : forall v l, (l < 3)%nat -> ready dofs DEEP UE rho v (relrot base foot) l).
    { intros v l Hl. apply (relrot_ready r place dofs up depth base bt bt_dep jac fvel btw quat K); auto; [apply deep_hand|apply B|apply UT, B]. }
    assert (PR : ready2 dofs DEEP UE rho v1 v2 (FMul base_rotation (relpos base foot)) 0).
    { apply mul_ready2; auto.
      - apply (relpos_ready2 r place dofs up depth base bt bt_dep jac fvel btw quat K); [apply B|exact F|apply UT, B].
      - intros l Hl. rewrite C0 in Hl. split; [apply rotp_ready; auto|]. split; [apply rotp_ready; auto|apply rotp_ready2; auto]. }
    assert (PM' : ready2 dofs DEEP UE rho v1 v2 (FMul (FMul base_rotation (relrot base foot)) (FConst 3 1 (fun i _ => vent pf i))) 0).
    { apply mul_ready2; auto.
      - rewrite NM, N2. reflexivity.
      - apply (const_ready2 r place dofs up base bt jac fvel quat); [reflexivity|]. reflexivity.
      - intros l Hl. rewrite C4, C2 in Hl.
        assert (MR : forall v, ready dofs DEEP UE rho v (FMul base_rotation (relrot base foot)) l).
        { intros v. apply ready_mul; [exact W0|exact W2|lia|lia| |apply RB; exact Hl]. intros l' Hl'. apply rotp_ready; [exact P|lia]. }
        split; [apply MR|]. split; [apply MR|]. apply mul_ready2; auto.
        + apply (relrot_ready2 r place dofs up depth base bt bt_dep jac fvel btw quat K); auto. apply B.
        + intros l' Hl'. rewrite C0 in Hl'. split; [apply rotp_ready; auto|]. split; [apply rotp_ready; auto|apply rotp_ready2; auto]. }
    split; [|exact PM']. split; [apply p_ready2|exact PR].
Qed.
(** Deriving again: [v1], then [v2]. *)
Lemma again v1 v2 D i : (v1 = v_q \/ v1 = v_s) -> (v2 = v_q \/ v2 = v_s) -> contact_dcol r dofs up base bt bt_dep E 0 v1 = Some D -> (i < VD v1)%nat ->
  exists X, contact_dcol r dofs up base bt bt_dep D i v2 = Some X /\ forall rho, 0 < qnorm2 (rho v_q) -> forall n j, (n < 3)%nat -> (j < VD v2)%nat ->
    is_derive (fun t => M (at_entry rho v2 j t) D n i) (rho v2 j) (M rho X n j).
Proof.
  intros V1 V2 ED Hi. destruct E_shape as (W0 & R0 & C0). assert (UU : forall v, v <> v_s \/ unturned r up base foot) by (intros v; right; apply UT, B).
  assert (RDY : forall rho, 0 < qnorm2 (rho v_q) -> ready dofs DEEP UE rho v2 D i).
  { intros rho P. refine (dcol_ready dofs DEEP UE rho v1 v2 E 0 D W0 _ (E_ready _ _ (UU _) P) (E_ready _ _ (UU _) P) (E_ready2 _ _ _ V1 V2 P) ED i Hi). lia. }
  destruct (dcol_sound dofs DEEP UE one v1 E 0 W0 ltac:(lia) (E_ready _ _ (UU _) one_pos)) as (D' & ED' & RD' & CD & WD & _).
  unfold contact_dcol in ED. rewrite ED in ED'. injection ED' as <-.
  destruct (dcol_sound dofs DEEP UE one v2 D i WD ltac:(lia) (RDY _ one_pos)) as (X & EX & _).
  exists X. split; [exact EX|]. intros rho P n j Hn Hj.
  destruct (dcol_sound dofs DEEP UE rho v2 D i WD ltac:(lia) (RDY _ P)) as (X' & EX' & _ & _ & _ & DX). rewrite EX in EX'. injection EX' as <-.
  apply DX; [lia|exact Hj].
Qed.
(** Mixed derivatives in two joints. *)
Lemma GS_sym n q s i j a b : (i < dofs)%nat -> (j < dofs)%nat -> partial (fun s => GS q s n i) s j a -> partial (fun s => GS q s n j) s i b -> a = b.
Proof.
  intros Hi Hj HA HB. destruct (Nat.eq_dec i j) as [->|N].
  { apply (D_unique (fun t => GS q (vset s j t) n j) (s j)); assumption. }
  pose proof (rel_mix (fun _ _ => True) r place up depth rok plc trav s i j base foot N B F) as [XR XP].
  assert (Y : mix (fun _ _ => True) (fun x y => W n q (vset (vset s i x) j y))).
  { assert (YX : forall l, mix (fun _ _ => True) (fun x y => XX (vset (vset s i x) j y) l)).
    { intros l. apply (vmix_ent (fun _ _ => True) (fun x y => papply (rel (vset (vset s i x) j y) base foot) pf)). unfold papply. apply vmix_add; [|exact XP]. apply vmix_mv; [exact XR|apply vmix_const]. }
    unfold W. cbn [sumn]. apply mix_plus; [apply mix_plus; [apply mix_plus; [apply mix_const|]|]|]; (apply mix_mult; [apply mix_const|apply YX]). }
  refine (mix_sym (fun _ _ => True) _ (fun x y => GS q (vset (vset s i x) j y) n i) (fun x y => GS q (vset (vset s i x) j y) n j) (s i) (s j) a b Y Logic.I _ _ _ _ _ _).
  - apply filter_true.
  - apply filter_true.
  - intros t _. pose proof (W_s n q (vset (vset s i (s i)) j t) i Hi) as D. unfold partial in D. rewrite vset_other, vset_at in D by auto.
    eapply is_derive_ext; [|exact D]. intros z. cbv beta. rewrite (vset_comm _ j i), vset_vset by auto. reflexivity.
  - intros t _. pose proof (W_s n q (vset (vset s i t) j (s j)) j Hj) as D. unfold partial in D. rewrite vset_at in D.
    eapply is_derive_ext; [|exact D]. intros z. cbv beta. rewrite vset_vset. reflexivity.
  - unfold partial in HA. eapply is_derive_ext; [|exact HA]. intros t. cbv beta. rewrite vset_same. reflexivity.
  - unfold partial in HB. eapply is_derive_ext; [|exact HB]. intros t. cbv beta.
    replace (vset (vset s i t) j (s j)) with (vset s i t); [reflexivity|]. rewrite <- (vset_other s i j t) by auto. rewrite vset_same. reflexivity.
Qed.
End Contact.
