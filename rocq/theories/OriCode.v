(** Proofs about FrameOrientationCost: the gradient computed by the code, and the state. *)
From Coq Require Import Reals List Arith Lia Lra Bool FunctionalExtensionality.
From Coquelicot Require Import Coquelicot.
From Verif Require Import Spec PartialLib QuadLib SpecQuaternion SpecRigid SpecBase SpecFeet SpecCom SpecOri SpecDerivatives Rigid RigidCalc KinTree ConstraintsModel CostsModel Quaternion QuaternionProofs.
From Verif Require Import KinModel KinLib KinMotion KinProofs QuatCurve PropKin BaseModel BaseProofs PropBase SymModel SymProofs SymKin SymMove MixLib FeetModel FeetProofs RatLib ContactProofs OriModel OriProofs OriMix PropContact.
Import ListNotations.
Local Open Scope R_scope.

Section Ori.
Variable r : robot.
Variable place : vec -> nat -> pose.
Variable dofs : nat.
Variable up : nat -> nat -> option (nat * nat).
Variable depth : nat -> nat -> nat.
Variable base : nat.
Variable bt : formula.
Variable bt_dep : nat -> bool.
Variable jac : vec -> nat -> nat -> nat -> v6.
Variable fvel : env -> nat -> v6.
Variable btw : env -> v6.
Variable quat : m3 -> vec.
Variable Rd : m3.
Variable f : nat.
Notation rel := (relative r place).
Notation VD := (vdim dofs).
Notation UE0 := (ueval r dofs up base bt rel jac fvel quat).
Notation UE := (with_err base rel quat Rd UE0).
Notation DU := (ori_du r dofs up base bt bt_dep).
Notation FR := (frows VD urows (ucols dofs)).
Notation FC := (fcols VD urows (ucols dofs)).
Notation M := (meaning VD urows (ucols dofs) UE).
Notation WF := (well_formed VD urows (ucols dofs) UE).
Notation RDY := (ready dofs DU UE).
Hypothesis K : kinematics r place dofs up depth base jac fvel btw quat.
Hypothesis RD : rotation Rd.
Hypothesis F : is_frame r f.
Hypothesis PD : (0 < dofs)%nat.
Notation Err := (err_value base rel quat Rd f).
Notation QL := QuaternionLeftTrivializedDerivative.
Notation moving v := (v = v_q \/ v = v_s).

(** The state allows to differentiate the error. *)
Notation Fine := (fine r place dofs base quat Rd f).
Notation Dd := (derived dofs base f).
(** The rotation from the desired orientation, and how fast it turns with an entry of the variable v. *)
Notation Turned := (turned r place base Rd f).
Notation Spin := (spin r place base jac f).
Variable c : ori_cfg.
Hypothesis CF : fo_frame c = f.
Notation op := (fo_pos c).
Notation oq := (fo_quat c).
Notation os := (fo_joints c).
Hypothesis APQ : apart op 3 oq 4.
Hypothesis APS : apart op 3 os dofs.
Hypothesis AQS : apart oq 4 os dofs.
Variable D : vec -> Prop.
Hypothesis DO : coordinate_open D.
Hypothesis DS : error_smooth r place base f quat op oq os dofs Rd D.
Notation RX := (ori_state dofs c).

(** ** The variables of a state *)
Lemma RX_q rho x : RX rho x v_q = part x oq 4. Proof. reflexivity. Qed.
Lemma RX_s rho x : RX rho x v_s = part x os dofs. Proof. reflexivity. Qed.
Lemma env_eq (a b : env) : (forall v, a v = b v) -> a = b. Proof. intros H. apply functional_extensionality. exact H. Qed.
Lemma move_q rho x k t : in_range oq 4 k = true -> RX rho (vset x k t) = at_entry (RX rho x) v_q (k - oq) t.
Proof.
  intros I. apply env_eq. intros v. unfold at_entry, ori_state, env_set. rewrite !part_vset, I, (outside _ _ _ _ _ (apart_sym _ _ _ _ APQ) I), (outside _ _ _ _ _ AQS I).
  destruct (Nat.eqb_spec v v_s) as [->|N1]; [reflexivity|]. destruct (Nat.eqb_spec v v_p) as [->|N2]; [reflexivity|]. destruct (Nat.eqb_spec v v_q) as [->|N3]; reflexivity.
Qed.
Lemma move_s rho x k t : in_range os dofs k = true -> RX rho (vset x k t) = at_entry (RX rho x) v_s (k - os) t.
Proof.
  intros I. apply env_eq. intros v. unfold at_entry, ori_state, env_set. rewrite !part_vset, I, (outside _ _ _ _ _ (apart_sym _ _ _ _ APS) I), (outside _ _ _ _ _ (apart_sym _ _ _ _ AQS) I).
  destruct (Nat.eqb_spec v v_s) as [->|N1]; reflexivity.
Qed.
Lemma stay rho x k t v : in_range oq 4 k = false -> in_range os dofs k = false -> moving v -> RX rho (vset x k t) v = RX rho x v.
Proof. intros I J [->| ->]; [rewrite !RX_q|rewrite !RX_s]; rewrite part_vset, ?I, ?J; reflexivity. Qed.
Lemma err_only a b : a v_q = b v_q -> a v_s = b v_s -> Err a = Err b.
Proof. intros E1 E2. unfold err_value. rewrite E1, E2. reflexivity. Qed.
Lemma spin_only a b v j : a v_q = b v_q -> a v_s = b v_s -> Spin a v j = Spin b v j.
Proof. intros E1 E2. unfold spin. rewrite E1, E2. reflexivity. Qed.
Lemma world_is q p s : mm (mtr Rd) (world_rotation r place base f q p s) = mm (mtr Rd) (frame_rotation base rel q s f).
Proof. reflexivity. Qed.
Lemma error_is rho x : orientation_error quat Rd (world_rotation r place base f (part x oq 4) (part x op 3) (part x os dofs)) = Err (RX rho x).
Proof. reflexivity. Qed.
Lemma pos_of v : moving v -> exists o n, (v = v_q /\ o = oq /\ n = 4%nat \/ v = v_s /\ o = os /\ n = dofs) /\ VD v = n /\
  (forall rho x k t, in_range o n k = true -> RX rho (vset x k t) = at_entry (RX rho x) v (k - o) t) /\ (forall rho x k, in_range o n k = true -> RX rho x v (k - o)%nat = x k).
Proof.
  intros [->| ->].
  - exists oq, 4%nat. split; [left; auto|]. split; [reflexivity|]. split; [intros; apply move_q; auto|]. intros rho x k I. rewrite RX_q. apply part_in. exact I.
  - exists os, dofs. split; [right; auto|]. split; [reflexivity|]. split; [intros; apply move_s; auto|]. intros rho x k I. rewrite RX_s. apply part_in. exact I.
Qed.
Lemma in_range_at o n j : (j < n)%nat -> in_range o n (o + j) = true. Proof. intros H. apply in_range_spec. lia. Qed.
Lemma fine_x rho x : D x -> Fine (RX rho x).
Proof.
  intros Dx. destruct (DS x Dx) as [P S]. split; [exact P|]. intros v j k V Hj Hk. destruct (pos_of v V) as (o & n & _ & EN & MV & EV). rewrite EN in Hj.
  pose proof (in_range_at o n j Hj) as I. specialize (S (o + j)%nat k Hk). specialize (EV rho x (o + j)%nat I). replace (o + j - o)%nat with j in EV by lia. rewrite EV.
  eapply ex_derive_ext; [|exact S]. intros t. cbv beta zeta. rewrite (error_is rho). rewrite MV by exact I. replace (o + j - o)%nat with j by lia. reflexivity.
Qed.
Lemma near_x rho x v j : D x -> moving v -> (j < VD v)%nat -> locally (RX rho x v j) (fun t => Fine (at_entry (RX rho x) v j t)).
Proof.
  intros Dx V Hj. destruct (pos_of v V) as (o & n & _ & EN & MV & EV). rewrite EN in Hj. pose proof (in_range_at o n j Hj) as I.
  pose proof (EV rho x _ I) as EX. replace (o + j - o)%nat with j in EX by lia. rewrite EX. eapply filter_imp; [|apply (DO x (o + j)%nat Dx)].
  intros t Dt. cbv beta in Dt. pose proof (fine_x rho _ Dt) as H. rewrite MV in H by exact I. replace (o + j - o)%nat with j in H by lia. exact H.
Qed.

(** ** The gradient *)
Definition gfun (w : R) (rho : env) (v j : nat) : R := w * sumn 4 (fun k => (Err rho k - quat m3I k) * mulv 3 (QL (Err rho)) (vent (Spin rho v j)) k).
Lemma gfun_only w a b v j : a v_q = b v_q -> a v_s = b v_s -> gfun w a v j = gfun w b v j.
Proof. intros E1 E2. unfold gfun. rewrite (err_only a b), (spin_only a b) by assumption. reflexivity. Qed.
Definition grad (w : R) (rho : env) (x : vec) : vec := fun k =>
  if in_range oq 4 k then gfun w (RX rho x) v_q (k - oq) else if in_range os dofs k then gfun w (RX rho x) v_s (k - os) else 0.
Lemma cost_is w rho x : orientation_cost r place base f quat op oq os dofs Rd w x = dist r place base quat Rd f w (RX rho x).
Proof. reflexivity. Qed.
Lemma gfun_D w rho v j : Fine rho -> moving v -> (j < VD v)%nat -> is_derive (fun t => dist r place base quat Rd f w (at_entry rho v j t)) (rho v j) (gfun w rho v j).
Proof.
  intros FN V Hj. eapply D_eq; [apply (dist_D r place dofs up depth base bt jac fvel btw quat Rd f K RD F w rho v j FN V Hj)|]. unfold gfun. f_equal. apply sumn_ext. intros k Hk.
  rewrite (derived_closed r place dofs up depth base bt jac fvel btw quat Rd f K RD F rho v k j FN V Hk Hj). reflexivity.
Qed.
Lemma gradient_exact w rho x : D x -> is_gradient (orientation_cost r place base f quat op oq os dofs Rd w) x (grad w rho x).
Proof.
  intros Dx k. unfold partial, grad. destruct (in_range oq 4 k) eqn:IQ; [|destruct (in_range os dofs k) eqn:IS].
  - pose proof (proj1 (in_range_spec oq 4 k) IQ). pose proof (gfun_D w _ v_q (k - oq) (fine_x rho x Dx) ltac:(auto) ltac:(change (VD v_q) with 4%nat; lia)) as G.
    rewrite RX_q, part_in in G by exact IQ. eapply is_derive_ext; [|exact G]. intros t. cbv beta. rewrite <- move_q by exact IQ. reflexivity.
  - pose proof (proj1 (in_range_spec os dofs k) IS). pose proof (gfun_D w _ v_s (k - os) (fine_x rho x Dx) ltac:(auto) ltac:(change (VD v_s) with dofs; lia)) as G.
    rewrite RX_s, part_in in G by exact IS. eapply is_derive_ext; [|exact G]. intros t. cbv beta. rewrite <- move_s by exact IS. reflexivity.
  - eapply is_derive_ext; [|exact (D_const (orientation_cost r place base f quat op oq os dofs Rd w x) _)]. intros t. cbv beta. rewrite !(cost_is _ rho). unfold dist.
    rewrite (err_only (RX rho (vset x k t)) (RX rho x)) by (apply stay; auto). reflexivity.
Qed.
(** The expression gives the same gradient. *)
Notation weighted rho w := (env_set rho v_weight (fun _ => w)).
Lemma fine_weighted rho w : Fine rho -> Fine (weighted rho w).
Proof.
  intros [P S]. split; [exact P|]. intros v' j' k' V' Hj' Hk'. replace (weighted rho w v' j') with (rho v' j') by (destruct V' as [->| ->]; reflexivity).
  eapply ex_derive_ext; [|apply (S v' j' k' V' Hj' Hk')]. intros t. cbv beta. rewrite (err_only (at_entry rho v' j' t) (at_entry (weighted rho w) v' j' t)); [reflexivity| |]; destruct V' as [->| ->]; reflexivity.
Qed.
Lemma weighted_at rho w v j t : moving v -> weighted (at_entry rho v j t) w = at_entry (weighted rho w) v j t.
Proof.
  intros V. apply env_eq. intros u. unfold at_entry, env_set. destruct (Nat.eqb_spec u v_weight) as [->|N].
  - replace (v_weight =? v)%nat with false by (destruct V as [->| ->]; reflexivity). reflexivity.
  - destruct (Nat.eqb_spec u v) as [->|N']; [|reflexivity]. replace (v =? v_weight)%nat with false by (destruct V as [->| ->]; reflexivity). reflexivity.
Qed.
Lemma gfun_M w rho v j : Fine rho -> moving v -> (j < VD v)%nat -> M (weighted rho w) (Gv dofs base quat f v) j 0%nat = gfun w rho v j.
Proof.
  intros FN V Hj. rewrite (Gv_value r place dofs up depth base bt jac fvel btw quat Rd f K RD F) by auto. unfold env_set at 1. rewrite Nat.eqb_refl.
  pose proof (fine_weighted rho w FN) as FW.
  unfold gfun. f_equal. apply sumn_ext. intros k Hk. rewrite (derived_closed r place dofs up depth base bt jac fvel btw quat Rd f K RD F (weighted rho w) v k j FW V Hk Hj).
  rewrite (err_only (weighted rho w) rho), (spin_only (weighted rho w) rho) by reflexivity. reflexivity.
Qed.
Notation HE w rho v u := (ori_at dofs base rel UE0 quat Rd (weighted rho w) (ori_hessian r dofs up base bt bt_dep quat f v u)).
Lemma expression_entry w rho x v u i j d : D x -> moving v -> moving u -> (i < VD v)%nat -> (j < VD u)%nat ->
  is_derive (fun t => M (at_entry (weighted (RX rho x) w) u j t) (Gv dofs base quat f v) i 0%nat) (RX rho x u j) d -> is_derive (fun t => gfun w (at_entry (RX rho x) u j t) v i) (RX rho x u j) d.
Proof.
  intros Dx V U Hi Hj H. eapply is_derive_ext_loc; [|exact H]. eapply filter_imp; [|apply (near_x rho x u j Dx U Hj)]. intros t Ft. cbv beta in Ft.
  rewrite <- weighted_at by exact U. apply gfun_M; auto.
Qed.
Lemma weighted_entry rho w v j : moving v -> weighted rho w v j = rho v j. Proof. intros [->| ->]; reflexivity. Qed.
Lemma hess_entry w rho x v u i j : D x -> moving v -> moving u -> (i < VD v)%nat -> (j < VD u)%nat ->
  is_derive (fun t => gfun w (at_entry (RX rho x) u j t) v i) (RX rho x u j) (HE w (RX rho x) v u i j).
Proof.
  intros Dx V U Hi Hj. apply expression_entry; auto. pose proof (fine_weighted _ w (fine_x rho x Dx)) as FW.
  destruct (hessian_ok r place dofs up depth base bt bt_dep jac fvel btw quat Rd f K RD F PD _ v u FW V U) as (X & EX & HX). rewrite EX. cbn [ori_at].
  specialize (HX i j Hi Hj). rewrite (weighted_entry (RX rho x) w u j U) in HX. exact HX.
Qed.
Lemma near_weighted rho x w v j : D x -> moving v -> (j < VD v)%nat -> locally (weighted (RX rho x) w v j) (fun t => Fine (at_entry (weighted (RX rho x) w) v j t)).
Proof.
  intros Dx V Hj. rewrite (weighted_entry (RX rho x) w v j V). eapply filter_imp; [|apply (near_x rho x v j Dx V Hj)]. intros t Ft. cbv beta in Ft.
  rewrite <- weighted_at by exact V. apply fine_weighted. exact Ft.
Qed.
Lemma hess_transposed w rho x i j : D x -> (i < dofs)%nat -> (j < 4)%nat ->
  is_derive (fun t => gfun w (at_entry (RX rho x) v_q j t) v_s i) (RX rho x v_q j) (HE w (RX rho x) v_q v_s j i).
Proof.
  intros Dx Hi Hj. pose proof (fine_weighted _ w (fine_x rho x Dx)) as FW.
  destruct (transposed_block r place dofs up depth base bt jac fvel btw quat Rd f K RD F PD _ j i FW (near_weighted rho x w v_q j Dx (or_introl eq_refl) Hj) (near_weighted rho x w v_s i Dx (or_intror eq_refl) Hi) Hj Hi) as (m & H1 & H2).
  pose proof (hess_entry w rho x v_q v_s j i Dx (or_introl eq_refl) (or_intror eq_refl) Hj Hi) as H3.
  pose proof (expression_entry w rho x v_q v_s j i m Dx (or_introl eq_refl) (or_intror eq_refl) Hj Hi H1) as H4. rewrite (D_unique _ _ _ _ H3 H4).
  apply expression_entry; auto.
Qed.

(** ** The gradient computed by the code *)
Variable fjac : nat -> vec -> vec -> vec -> mat.
Variable qri qrt : vec -> mat.
Hypothesis FJ : forall q p s, frame_spin r place base f dofs (base_pose q (vec3_of p)) s (fjac f q p s).
Hypothesis RTI : right_trivialized qri.
Hypothesis RTB : right_trivialized_back qrt.
Lemma turning rho v j (o : v3) i : Fine rho -> moving v -> (j < VD v)%nat -> (i < 4)%nat ->
  is_derive_m3 (fun t => frame_rotation base rel (at_entry rho v j t v_q) (at_entry rho v j t v_s) f) (rho v j) (mm (SpecRigid.skew o) (frame_rotation base rel (rho v_q) (rho v_s) f)) ->
  sumn 3 (fun c => sumn 3 (fun a => qrt (Err rho) i a * ment (mtr Rd) a c) * vent o c) = mulv 3 (QL (Err rho)) (vent (Spin rho v j)) i.
Proof.
  intros FN V Hj Hi DF. rewrite <- (derived_closed r place dofs up depth base bt jac fvel btw quat Rd f K RD F rho v i j FN V Hi Hj).
  pose proof (RTB (fun t => Err (at_entry rho v j t)) (rho v j) (fun k => M rho (Dd v) k j) (mv (mtr Rd) o)) as T. cbv beta in T. rewrite at_self in T. rewrite T; auto; clear T.
  - unfold mv. destruct o as [o0 o1 o2]. cbn [sumn vent vx vy vz]. generalize (qrt (Err rho) i). intros g. destruct (mtr Rd). cbn. ring.
  - intros t. apply (err_rep r place dofs up depth base jac fvel btw quat Rd f K RD F (at_entry rho v j t)).
  - intros k Hk. apply (derived_value r place dofs up depth base bt jac fvel btw quat Rd f K RD F); auto.
  - rewrite (err_qmat r place dofs up depth base jac fvel btw quat Rd f K RD F). apply (m3_D_ext (fun t => Turned (at_entry rho v j t))).
    { intros t. symmetry. apply (err_qmat r place dofs up depth base jac fvel btw quat Rd f K RD F). }
    apply (R_mm_chain Rd) in DF. unfold turned. rewrite <- !mm_assoc in *. rewrite <- (skew_rot (mtr Rd) o) by (apply rotation_tr; exact RD). exact DF.
Qed.
Lemma NQ q : 0 < qnorm2 q -> NormalizedQuaternion q = qunit q.
Proof.
  intros P. apply functional_extensionality. intros i. unfold NormalizedQuaternion, qunit. change (QuaternionSquaredNorm q) with (qnorm2 q). destruct (Rlt_dec 0 (qnorm2 q)); [reflexivity|contradiction].
Qed.
Lemma map_spin q j : 0 < qnorm2 q -> (j < 4)%nat -> is_derive_m3 (fun t => qmat (qunit (vset q j t))) (q j) (mm (SpecRigid.skew (V3 (ori_map qri q 0%nat j) (ori_map qri q 1%nat j) (ori_map qri q 2%nat j))) (qmat (qunit q))).
Proof.
  intros P Hj. pose proof (RTI (fun t => qunit (vset q j t)) (q j) (fun k => NormalizedQuaternionDerivative q k j)) as T. cbv zeta beta in T. rewrite vset_same in T.
  unfold ori_map. rewrite NQ by exact P. apply T.
  - eapply filter_imp; [|apply (vset_near q j P)]. intros t Pt. apply qunit_norm. exact Pt.
  - intros k Hk. pose proof (NormalizedDerivative_exact q P k j Hk Hj) as Q. unfold partial in Q. eapply is_derive_ext_loc; [|exact Q].
    eapply filter_imp; [|apply (vset_near q j P)]. intros t Pt. rewrite NQ by exact Pt. reflexivity.
Qed.
Lemma code_quaternion rho i j : Fine rho -> (i < 4)%nat -> (j < 4)%nat ->
  ori_error_jacobian qrt Rd (Err rho) (ori_jacobian qri (fjac f (rho v_q) (rho v_p) (rho v_s)) (rho v_q)) i (3 + j)%nat = mulv 3 (QL (Err rho)) (vent (Spin rho v_q j)) i.
Proof.
  intros FN Hi Hj. pose proof (proj1 FN) as P. set (q := rho v_q) in *. set (w := V3 (ori_map qri q 0%nat j) (ori_map qri q 1%nat j) (ori_map qri q 2%nat j)).
  pose proof (FJ q (rho v_p) (rho v_s) (fun t => base_pose (vset q j t) (vec3_of (rho v_p))) (fun _ => rho v_s) (q j) v30 w (fun _ => 0)) as J. cbv beta zeta in J. rewrite vset_same in J.
  assert (MV : mixed_moves (fun t => base_pose (vset q j t) (vec3_of (rho v_p))) (q j) v30 w).
  { split; [cbn [rot base_pose]; rewrite vset_same; exact (map_spin q j P Hj)|exact (v3_D_const (vec3_of (rho v_p)) (q j))]. }
  specialize (J MV eq_refl eq_refl (fun k => D_const _ _)).
  set (F0 := fjac f q (rho v_p) (rho v_s)) in *.
  match type of J with is_derive_m3 _ _ (mm (SpecRigid.skew ?v) _) => set (o := v) in J end.
  rewrite <- (turning rho v_q j o i FN (or_introl eq_refl) Hj Hi).
  - unfold ori_error_jacobian. apply sumn_ext. intros a Ha. f_equal. unfold ori_jacobian. 
    replace (3 + j <? 3)%nat with false by (symmetry; apply Nat.ltb_ge; lia). replace (3 + j <? 7)%nat with true by (symmetry; apply Nat.ltb_lt; lia). replace (3 + j - 3)%nat with j by lia.
    unfold o, w, v30. cbn [vent vx vy vz].
    rewrite !(sumn_ext dofs (fun k => _ * 0) (fun _ => 0)) by (intros; ring). rewrite sumn_0. destruct a as [|[|[|]]]; [| | |lia]; cbn [vent vx vy vz sumn Nat.add]; ring.
  - eapply m3_D_ext; [|exact J]. intros t. cbv beta. rewrite at_same, at_other by discriminate. reflexivity.
Qed.
Lemma code_joints rho i j : Fine rho -> (i < 4)%nat -> (j < dofs)%nat ->
  ori_error_jacobian qrt Rd (Err rho) (ori_jacobian qri (fjac f (rho v_q) (rho v_p) (rho v_s)) (rho v_q)) i (7 + j)%nat = mulv 3 (QL (Err rho)) (vent (Spin rho v_s j)) i.
Proof.
  intros FN Hi Hj. set (s := rho v_s).
  pose proof (FJ (rho v_q) (rho v_p) s (fun t => base_pose (rho v_q) (vec3_of (rho v_p))) (fun t => vset s j t) (s j) v30 v30 (fun k => delta k j)) as J. cbv beta zeta in J. rewrite vset_same in J.
  assert (MV : mixed_moves (fun t => base_pose (rho v_q) (vec3_of (rho v_p))) (s j) v30 v30).
  { split; [|exact (v3_D_const (vec3_of (rho v_p)) (s j))]. rewrite skew_0, mm_0_l. exact (m3_D_const (rot (base_pose (rho v_q) (vec3_of (rho v_p)))) (s j)). }
  specialize (J MV eq_refl eq_refl (vset_D s j)).
  set (F0 := fjac f (rho v_q) (rho v_p) s) in *.
  match type of J with is_derive_m3 _ _ (mm (SpecRigid.skew ?v) _) => set (o := v) in J end.
  rewrite <- (turning rho v_s j o i FN (or_intror eq_refl) Hj Hi).
  - unfold ori_error_jacobian. apply sumn_ext. intros a Ha. f_equal. unfold ori_jacobian. 
    replace (7 + j <? 3)%nat with false by (symmetry; apply Nat.ltb_ge; lia). replace (7 + j <? 7)%nat with false by (symmetry; apply Nat.ltb_ge; lia). replace (7 + j - 7)%nat with j by lia.
    unfold o, v30. cbn [vent vx vy vz]. 
    assert (Q : forall b, sumn dofs (fun k => F0 b (6 + k)%nat * delta k j) = F0 b (6 + j)%nat).
    { intros b. rewrite (sumn_single dofs _ j Hj); [unfold delta; rewrite Nat.eqb_refl; ring|]. intros k Hk N. unfold delta. destruct (Nat.eqb_spec k j); [contradiction|ring]. }
    rewrite !Q. destruct a as [|[|[|]]]; [| | |lia]; cbn [vent vx vy vz sumn Nat.add]; ring.
  - eapply m3_D_ext; [|exact J]. intros t. cbv beta. unfold s. rewrite at_same, at_other by discriminate. reflexivity.
Qed.
End Ori.
