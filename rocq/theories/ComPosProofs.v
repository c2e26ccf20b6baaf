(** Proofs about CoMPositionConstraint. *)
From Coq Require Import Reals List Arith Lia Lra Bool FunctionalExtensionality.
From Coquelicot Require Import Coquelicot.
From Verif Require Import Spec PartialLib QuadLib SpecQuaternion SpecRigid SpecBase SpecFeet SpecCom SpecDerivatives Rigid RigidCalc KinTree ConstraintsModel CostsModel Quaternion QuaternionProofs.
From Verif Require Import KinModel KinLib KinMotion KinProofs QuatCurve PropKin BaseModel BaseProofs PropBase SymModel SymProofs SymKin MixLib FeetModel FeetProofs RatLib ContactProofs ComModel ComLib ComProofs ComHess ComCode ComPosModel.
Import ListNotations.
Local Open Scope R_scope.

Section ComPos.
Variable r : robot.
Variable place : vec -> nat -> pose.
Variable dofs : nat.
Variable up : nat -> nat -> option (nat * nat).
Variable depth : nat -> nat -> nat.
Variable base : nat.
Variable bt : formula.
Variable jac : vec -> nat -> nat -> nat -> v6.
Variable fvel : env -> nat -> v6.
Variable btw : env -> v6.
Variable quat : m3 -> vec.
Variable b : masses.
Variable cpos : vec -> vec -> vec -> v3.
Variable cjac : vec -> vec -> vec -> mat.
Variable qri : vec -> mat.
Variable N : nat.
Notation rel := (relative r place).
Notation VD := (vdim dofs).
Notation UE0 := (ueval r dofs up base bt rel jac fvel quat).
Notation UE := (com_ue r b dofs up base UE0 N cpos cjac).
Notation DU := (com_du r b dofs up base UE0 N).
Notation FR := (frows VD urows (ucols dofs)).
Notation FC := (fcols VD urows (ucols dofs)).
Notation M := (meaning VD urows (ucols dofs) UE).
Notation WF := (well_formed VD urows (ucols dofs) UE).
Hypothesis K : kinematics r place dofs up depth base jac fvel btw quat.
Hypothesis TR : tree r dofs up base.
Hypothesis CO : com_oracle r place b base dofs cpos cjac.
Hypothesis HN : forall k, (k < dofs)%nat -> hess r b dofs up base UE0 N k <> None.
Notation CX := (com_entry r place b base).
Notation DC := (DC r place base jac b).
Notation HV := (HV r place up base b).

(** ** Leaves *)
Lemma leaf_FR k : FR (leaf k) = krows k. Proof. unfold leaf. change (urows (code k) = krows k). unfold urows. rewrite decode_code. reflexivity. Qed.
Lemma leaf_FC k : FC (leaf k) = kcols dofs k. Proof. unfold leaf. change (ucols dofs (code k) = kcols dofs k). unfold ucols. rewrite decode_code. reflexivity. Qed.
Lemma leaf_WF k : WF (leaf k). Proof. exact Logic.I. Qed.
Lemma leaf_M rho k : M rho (leaf k) = UE (code k) rho. Proof. reflexivity. Qed.
Lemma v0 rho i : (i < 3)%nat -> M rho (leaf (KCom 0)) i 0%nat = CX (rho v_s) i.
Proof. intros Hi. rewrite leaf_M. unfold com_ue. rewrite decode_code. apply (value_eq r place dofs base b cpos cjac CO rho i Hi). Qed.
Lemma v1 rho i k : (i < 3)%nat -> (k < dofs)%nat -> M rho (leaf (KCom 1)) i k = DC (rho v_s) k i.
Proof.
  intros Hi Hk. rewrite leaf_M. unfold com_ue. rewrite decode_code.
  exact (D_unique _ _ _ _ (jacobian_eq r place dofs base b cpos cjac CO rho i k Hi Hk) (DC_partial r place dofs up depth base jac fvel btw quat b K (rho v_s) k i Hk)).
Qed.
Lemma v2 rho i c j : (i < 3)%nat -> (c < dofs)%nat -> (j < dofs)%nat -> M rho (leaf (KCom (2 + c))) i j = HV (rho v_s) c i j.
Proof.
  intros Hi Hc Hj. rewrite leaf_M. unfold com_ue. rewrite decode_code. cbn [Nat.add]. destruct (hess r b dofs up base UE0 N c) as [h|] eqn:E; [|exfalso; exact (HN c Hc E)].
  apply (hess_value r place dofs up depth base jac fvel btw quat b K TR UE0 (ue_adj r place dofs up base bt jac fvel quat) N c h E rho i j Hi Hj).
Qed.
Lemma leaf_rdy rho v k c X : DU k c v = Some X -> FR X = krows k -> FC X = VD v -> WF X ->
  (forall i j, (i < krows k)%nat -> (j < VD v)%nat -> is_derive (fun x => M (at_entry rho v j x) (leaf k) i c) (rho v j) (M rho X i j)) -> ready dofs DU UE rho v (leaf k) c.
Proof.
  intros E R0 C0 W D. unfold leaf. cbn [ready users]. exists X. rewrite decode_code. split; [exact E|].
  split; [change (FR X = FR (leaf k)); rewrite leaf_FR; exact R0|]. split; [exact C0|]. split; [exact W|].
  intros i j Hi Hj. change (FR (FUser (code k))) with (FR (leaf k)) in Hi. rewrite leaf_FR in Hi. apply D; auto.
Qed.
Lemma ready0 rho v : ready dofs DU UE rho v (leaf (KCom 0)) 0.
Proof.
  destruct (Nat.eqb_spec v v_s) as [->|NV].
  - apply (leaf_rdy rho v_s (KCom 0) 0 (leaf (KCom 1))); [reflexivity|rewrite leaf_FR; reflexivity|rewrite leaf_FC; reflexivity|apply leaf_WF|].
    intros i j Hi Hj. cbn [krows] in Hi. rewrite v1 by auto. eapply is_derive_ext; [intros t; symmetry; apply (v0 (at_entry rho v_s j t) i Hi)|].
    eapply is_derive_ext; [intros t; rewrite at_same; reflexivity|]. apply (DC_partial r place dofs up depth base jac fvel btw quat b K (rho v_s) j i Hj).
  - apply (leaf_rdy rho v (KCom 0) 0 (FNull 3 (VD v))); [|reflexivity|reflexivity|exact Logic.I|].
    + cbn [com_du]. apply Nat.eqb_neq in NV. rewrite NV. reflexivity.
    + intros i j Hi Hj. cbn [krows] in Hi. change (M rho (FNull 3 (VD v)) i j) with 0. eapply is_derive_ext; [intros t; symmetry; rewrite v0 by exact Hi; rewrite at_other by auto; reflexivity|apply D_const].
Qed.
Lemma ready1 rho v c : (c < dofs)%nat -> ready dofs DU UE rho v (leaf (KCom 1)) c.
Proof.
  intros Hc. destruct (Nat.eqb_spec v v_s) as [->|NV].
  - apply (leaf_rdy rho v_s (KCom 1) c (leaf (KCom (2 + c)))); [|rewrite leaf_FR; reflexivity|rewrite leaf_FC; reflexivity|apply leaf_WF|].
    + cbn [com_du]. change (v_s =? v_s)%nat with true. cbv iota. destruct (hess r b dofs up base UE0 N c) eqn:E; [reflexivity|exfalso; exact (HN c Hc E)].
    + intros i j Hi Hj. cbn [krows] in Hi. rewrite v2 by auto. eapply is_derive_ext; [intros t; symmetry; apply (v1 (at_entry rho v_s j t) i c Hi Hc)|].
      eapply is_derive_ext; [intros t; rewrite at_same; reflexivity|]. apply (DC_second r place dofs up depth base jac fvel btw quat b K TR (rho v_s) c j i Hc Hj).
  - apply (leaf_rdy rho v (KCom 1) c (FNull 3 (VD v))); [|reflexivity|reflexivity|exact Logic.I|].
    + cbn [com_du]. apply Nat.eqb_neq in NV. rewrite NV. reflexivity.
    + intros i j Hi Hj. cbn [krows] in Hi. change (M rho (FNull 3 (VD v)) i j) with 0. eapply is_derive_ext; [intros t; symmetry; rewrite v1 by auto; rewrite at_other by auto; reflexivity|apply D_const].
Qed.

(** ** The expression *)
Notation E := com_expression.
Definition W (n : nat) (q s : vec) : R := sumn 3 (fun l => RR q n l * CX s l).
Definition GQ (q s : vec) (n j : nat) : R := sumn 3 (fun l => RD q n l j * CX s l).
Definition GS (q s : vec) (n j : nat) : R := sumn 3 (fun l => RR q n l * DC s j l).
Lemma M_shape : WF (FMul base_rotation (leaf (KCom 0))) /\ FR (FMul base_rotation (leaf (KCom 0))) = 3%nat /\ FC (FMul base_rotation (leaf (KCom 0))) = 1%nat /\
  forall rho i, (i < 3)%nat -> M rho (FMul base_rotation (leaf (KCom 0))) i 0%nat = sumn 3 (fun l => M rho base_rotation i l * M rho (leaf (KCom 0)) l 0%nat).
Proof.
  destruct (base_shape dofs UE) as (R0 & C0 & W0).
  destruct (wf_mul_intro dofs UE base_rotation (leaf (KCom 0)) W0 (leaf_WF _) ltac:(rewrite leaf_FR, C0; reflexivity)) as (W3 & R3 & C3 & V3).
  split; [exact W3|]. split; [congruence|]. split; [rewrite C3, leaf_FC; reflexivity|]. intros rho i Hi. rewrite V3; [rewrite C0; reflexivity|lia|rewrite leaf_FC; cbn; lia].
Qed.
Lemma E_shape : WF E /\ FR E = 3%nat /\ FC E = 1%nat.
Proof. destruct M_shape as (W3 & R3 & C3 & _). split; [|split; reflexivity]. refine (conj Logic.I (conj W3 (conj _ _))); [rewrite R3|rewrite C3]; reflexivity. Qed.
Lemma E_value rho n : 0 < qnorm2 (rho v_q) -> (n < 3)%nat -> M rho E n 0%nat = rho v_p n + W n (rho v_q) (rho v_s).
Proof.
  intros P Hn. destruct M_shape as (_ & _ & _ & V). unfold com_expression.
  change (M rho (FAdd (FVar v_p) (FMul base_rotation (leaf (KCom 0)))) n 0%nat) with (rho v_p n + M rho (FMul base_rotation (leaf (KCom 0))) n 0%nat).
  rewrite V by exact Hn. f_equal. apply sumn_ext. intros l Hl. rewrite base_value by auto. rewrite v0 by exact Hl. reflexivity.
Qed.
Lemma rot_ready rho v l : 0 < qnorm2 (rho v_q) -> (l < 3)%nat -> ready dofs DU UE rho v base_rotation l.
Proof. intros P Hl. apply none_ready; [reflexivity|]. apply base_smooth; auto. Qed.
Lemma pos_ready rho v : ready dofs DU UE rho v (FVar v_p) 0.
Proof.
  apply none_ready; [reflexivity|]. intros i j Hi Hj. cbn [meaning]. unfold at_entry, env_set. destruct (v_p =? v)%nat eqn:Q.
  - apply Nat.eqb_eq in Q. subst v. eexists. apply (partial_var i (rho v_p) j).
  - exists 0. apply D_const.
Qed.
Lemma E_ready rho v : 0 < qnorm2 (rho v_q) -> ready dofs DU UE rho v E 0.
Proof.
  intros P. destruct E_shape as (WE & _). destruct (base_shape dofs UE) as (R0 & C0 & W0).
  apply ready_add; [exact WE|cbn; lia|apply pos_ready|]. apply ready_mul; [exact W0|apply leaf_WF|rewrite leaf_FR, C0; reflexivity|rewrite leaf_FC; cbn; lia| |apply ready0].
  intros l Hl. apply rot_ready; [exact P|lia].
Qed.
Lemma no_ready2 rho v w F c : users (fun _ => false) F = true -> (forall k, (k < VD v)%nat -> smooth dofs UE rho w (FDeriv F c v) k) -> ready2 dofs DU UE rho v w F c.
Proof. intros HU S. destruct F; cbn [ready2]; rewrite HU; exact S. Qed.
Lemma rot_ready2 rho v w l : 0 < qnorm2 (rho v_q) -> (l < 3)%nat -> ready2 dofs DU UE rho v w base_rotation l.
Proof. intros P Hl. apply no_ready2; [reflexivity|]. intros k Hk. apply base_smooth2; auto. Qed.
Lemma pos_ready2 rho v w : ready2 dofs DU UE rho v w (FVar v_p) 0.
Proof.
  apply no_ready2; [reflexivity|]. intros k Hk i j Hi Hj. exists 0.
  eapply is_derive_ext; [|apply (D_const (if (v_p =? v)%nat then ind i k else 0))]. intros t. cbn [meaning]. symmetry.
  apply is_derive_unique. unfold at_entry at 1. unfold env_set. destruct (v_p =? v)%nat eqn:Q.
  - apply Nat.eqb_eq in Q. subst v. apply (partial_var i (at_entry rho w j t v_p) k).
  - apply D_const.
Qed.
Lemma null_ready rho v n m k : ready dofs DU UE rho v (FNull n m) k.
Proof. apply none_ready; [reflexivity|]. intros i j _ _. exists 0. eapply is_derive_ext; [intros t; reflexivity|]. exact (D_const 0 _). Qed.
Lemma leaf_ready2 rho v w : ready2 dofs DU UE rho v w (leaf (KCom 0)) 0.
Proof.
  unfold leaf. cbn [ready2 users]. rewrite decode_code. intros X EX k Hk. cbn [com_du] in EX. injection EX as <-. destruct (Nat.eqb_spec v v_s) as [->|NV]; [|apply null_ready].
  apply ready1. exact Hk.
Qed.
Lemma scalar3 F n m : FR F = n -> FC F = m -> (n <> 1 \/ m <> 1)%nat -> scalar_size dofs F = false.
Proof. intros R0 C0 H. unfold scalar_size. rewrite R0, C0. destruct (Nat.eqb_spec n 1), (Nat.eqb_spec m 1); cbn; try reflexivity; lia. Qed.
Lemma E_ready2 rho v w : 0 < qnorm2 (rho v_q) -> ready2 dofs DU UE rho v w E 0.
Proof.
  intros P. destruct (base_shape dofs UE) as (R0 & C0 & W0).
  assert (NT : users (fun _ => false) com_expression = false) by reflexivity.
  assert (NM : users (fun _ => false) (FMul base_rotation (leaf (KCom 0))) = false) by reflexivity.
  assert (G : ready2 dofs DU UE rho v w (FMul base_rotation (leaf (KCom 0))) 0).
  { cbn [ready2]. rewrite NM. rewrite (scalar3 base_rotation 3 3) by auto. rewrite (scalar3 (leaf (KCom 0)) 3 1); [|apply leaf_FR|apply leaf_FC|auto].
    split; [apply leaf_ready2|]. intros l Hl. rewrite C0 in Hl. split; [apply rot_ready; auto|]. split; [apply rot_ready; auto|apply rot_ready2; auto]. }
  unfold com_expression in *. cbn [ready2]. rewrite NT. split; [apply pos_ready2|exact G].
Qed.

(** ** First derivatives *)
Lemma W_q n q s j : 0 < qnorm2 q -> partial (fun q => W n q s) q j (GQ q s n j).
Proof.
  intros P. unfold W, GQ. apply (sum_partial (fun l q => RR q n l * CX s l)). intros l Hl. eapply partial_eq; [apply partial_mult; [apply RR_partial; exact P|apply (partial_const (CX s l))]|]. cbv beta. ring.
Qed.
Lemma W_s n q s j : (j < dofs)%nat -> partial (fun s => W n q s) s j (GS q s n j).
Proof.
  intros Hj. unfold W, GS. apply (sum_partial (fun l s => RR q n l * CX s l)). intros l Hl.
  eapply partial_eq; [apply partial_mult; [apply (partial_const (RR q n l))|apply (DC_partial r place dofs up depth base jac fvel btw quat b K); exact Hj]|]. cbv beta. ring.
Qed.
Lemma GQ_s n q s i j : (j < dofs)%nat -> partial (fun s => GQ q s n i) s j (sumn 3 (fun l => RD q n l i * DC s j l)).
Proof.
  intros Hj. unfold GQ. apply (sum_partial (fun l s => RD q n l i * CX s l)). intros l Hl.
  eapply partial_eq; [apply partial_mult; [apply (partial_const (RD q n l i))|apply (DC_partial r place dofs up depth base jac fvel btw quat b K); exact Hj]|]. cbv beta. ring.
Qed.
Lemma GS_q n q s i j : 0 < qnorm2 q -> partial (fun q => GS q s n j) q i (sumn 3 (fun l => RD q n l i * DC s j l)).
Proof.
  intros P. unfold GS. apply (sum_partial (fun l q => RR q n l * DC s j l)). intros l Hl. eapply partial_eq; [apply partial_mult; [apply RR_partial; exact P|apply (partial_const (DC s j l))]|]. cbv beta. ring.
Qed.
Lemma GS_s n q s i j : (i < dofs)%nat -> (j < dofs)%nat -> partial (fun s => GS q s n i) s j (sumn 3 (fun l => RR q n l * HV s i l j)).
Proof.
  intros Hi Hj. unfold GS. apply (sum_partial (fun l s => RR q n l * DC s i l)). intros l Hl.
  eapply partial_eq; [apply partial_mult; [apply (partial_const (RR q n l))|apply (DC_second r place dofs up depth base jac fvel btw quat b K TR); [exact Hi|exact Hj]]|]. cbv beta. ring.
Qed.
Lemma GS_sym n q s i j x y : (i < dofs)%nat -> (j < dofs)%nat -> partial (fun s => GS q s n i) s j x -> partial (fun s => GS q s n j) s i y -> x = y.
Proof.
  intros Hi Hj HX HY. rewrite (D_unique _ _ _ _ HX (GS_s n q s i j Hi Hj)), (D_unique _ _ _ _ HY (GS_s n q s j i Hj Hi)). apply sumn_ext. intros l Hl.
  rewrite (HV_sym r place dofs up depth base jac fvel btw quat b K TR). reflexivity.
Qed.
Lemma E_q rho n j : 0 < qnorm2 (rho v_q) -> (n < 3)%nat -> is_derive (fun t => M (at_entry rho v_q j t) E n 0%nat) (rho v_q j) (GQ (rho v_q) (rho v_s) n j).
Proof.
  intros P Hn. eapply is_derive_ext_loc; [eapply filter_imp; [|apply (near_q rho j P)]; intros t H; symmetry; rewrite E_value by auto; rewrite at_same, !at_other by discriminate; reflexivity|].
  eapply D_eq; [apply D_plus; [apply D_const|apply (W_q n (rho v_q) (rho v_s) j P)]|]. ring.
Qed.
Lemma E_s rho n j : 0 < qnorm2 (rho v_q) -> (n < 3)%nat -> (j < dofs)%nat -> is_derive (fun t => M (at_entry rho v_s j t) E n 0%nat) (rho v_s j) (GS (rho v_q) (rho v_s) n j).
Proof.
  intros P Hn Hj. eapply is_derive_ext; [intros t; symmetry; rewrite E_value by (rewrite ?at_other by discriminate; auto); rewrite at_same, !at_other by discriminate; reflexivity|].
  eapply D_eq; [apply D_plus; [apply D_const|apply (W_s n (rho v_q) (rho v_s) j Hj)]|]. ring.
Qed.
Notation one := (fun _ _ => 1 : R).
Notation DCOL := (com_dcol r b dofs up base UE0 N).
Lemma first v : (v = v_q \/ v = v_s) -> exists X, DCOL E 0 v = Some X /\
  forall rho, 0 < qnorm2 (rho v_q) -> forall n j, (n < 3)%nat -> (j < VD v)%nat -> M rho X n j = if (v =? v_q)%nat then GQ (rho v_q) (rho v_s) n j else GS (rho v_q) (rho v_s) n j.
Proof.
  intros V. destruct E_shape as (W0 & R0 & C0).
  destruct (dcol_sound dofs DU UE one v E 0 W0 ltac:(lia) (E_ready _ _ one_pos)) as (X & EX & RX & CX' & WX & _).
  exists X. split; [exact EX|]. intros rho P n j Hn Hj.
  destruct (dcol_sound dofs DU UE rho v E 0 W0 ltac:(lia) (E_ready _ _ P)) as (X' & EX' & _ & _ & _ & D). rewrite EX in EX'. injection EX' as <-.
  apply (D_unique _ _ _ _ (D n j ltac:(lia) Hj)). destruct V as [-> | ->]; [apply E_q; auto|apply E_s; auto].
Qed.
Lemma again v w D i : DCOL E 0 v = Some D -> (i < VD v)%nat ->
  exists X, DCOL D i w = Some X /\ forall rho, 0 < qnorm2 (rho v_q) -> forall n j, (n < 3)%nat -> (j < VD w)%nat ->
    is_derive (fun t => M (at_entry rho w j t) D n i) (rho w j) (M rho X n j).
Proof.
  intros ED Hi. destruct E_shape as (W0 & R0 & C0).
  assert (RDY : forall rho, 0 < qnorm2 (rho v_q) -> ready dofs DU UE rho w D i).
  { intros rho P. refine (dcol_ready dofs DU UE rho v w E 0 D W0 _ (E_ready _ _ P) (E_ready _ _ P) (E_ready2 _ _ _ P) ED i Hi). lia. }
  destruct (dcol_sound dofs DU UE one v E 0 W0 ltac:(lia) (E_ready _ _ one_pos)) as (D' & ED' & RD' & CD & WD & _).
  unfold com_dcol in ED. rewrite ED in ED'. injection ED' as <-.
  destruct (dcol_sound dofs DU UE one w D i WD ltac:(lia) (RDY _ one_pos)) as (X & EX & _).
  exists X. split; [exact EX|]. intros rho P n j Hn Hj.
  destruct (dcol_sound dofs DU UE rho w D i WD ltac:(lia) (RDY _ P)) as (X' & EX' & _ & _ & _ & DX). rewrite EX in EX'. injection EX' as <-.
  apply DX; [lia|exact Hj].
Qed.

(** ** The Jacobian of iDynTree *)
Lemma world_sum q p s n : (n < 3)%nat -> vent (com_world r place b base (base_pose q p) s) n = vent p n + W n q s.
Proof.
  intros Hn. unfold com_world, base_pose, papply, W, RR, com_in_base. cbn [rot pos]. destruct n as [|[|[|n]]]; [| | |lia]; unfold vadd, mv; cbn; ring.
Qed.
Lemma still v x : (forall k : nat, is_derive (fun _ : R => v k) x (0 : R)). Proof. intros k. apply D_const. Qed.
Lemma lin_D (a c x : R) : is_derive (fun t : R => a + t * c) x c.
Proof. eapply D_eq; [apply D_plus; [apply D_const|apply D_mult; [apply (@is_derive_id R_AbsRing)|apply D_const]]|]. change (0 + (1 * c + x * 0) = c). ring. Qed.
(** The base moves along an axis. *)
Lemma cjac_base q p s n m : (n < 3)%nat -> (m < 3)%nat -> cjac q p s n m = delta n m.
Proof.
  intros Hn Hm. destruct (CO q p s) as [_ J]. set (e := V3 (delta 0 m) (delta 1 m) (delta 2 m)).
  specialize (J (fun t => Pose (qmat (qunit q)) (vadd (vec3_of p) (vscale t e))) (fun _ => s) 0 e v30 (fun _ => 0)).
  assert (MV : mixed_moves (fun t => Pose (qmat (qunit q)) (vadd (vec3_of p) (vscale t e))) 0 e v30).
  { split.
    - cbn [rot]. replace (mm (SpecRigid.skew v30) (qmat (qunit q))) with m30; [apply m3_D_const|]. unfold mm, SpecRigid.skew, m30, v30. cbn. f_equal; ring.
    - cbn [pos]. unfold is_derive_v3, vadd, vscale. cbn [vx vy vz]. split; [|split]; apply lin_D. }
  assert (E0 : Pose (qmat (qunit q)) (vadd (vec3_of p) (vscale 0 e)) = base_pose q (vec3_of p)).
  { unfold base_pose. f_equal. unfold vadd, vscale, vec3_of, e. cbn. f_equal; ring. }
  specialize (J MV E0 eq_refl (fun k => D_const _ _) n Hn).
  assert (D : is_derive (fun t => vent (com_world r place b base (Pose (qmat (qunit q)) (vadd (vec3_of p) (vscale t e))) s) n) 0 (vent e n)).
  { eapply is_derive_ext; [intros t; symmetry; apply (world_sum q (vadd (vec3_of p) (vscale t e)) s n Hn)|].
    eapply D_eq; [apply D_plus; [|apply D_const]|rewrite Rplus_0_r; reflexivity].
    destruct n as [|[|[|n]]]; [| | |lia]; unfold vadd, vscale; cbn [vent vx vy vz]; apply lin_D. }
  pose proof (D_unique _ _ _ _ J D) as Q. clear J D MV E0.
  rewrite (sumn_ext dofs _ (fun _ => 0)) in Q by (intros; ring). rewrite sumn_0 in Q. unfold e, v30 in Q. cbn [sumn vent vx vy vz] in Q.
  destruct m as [|[|[|m]]]; [| | |lia]; destruct n as [|[|[|n]]]; try lia; unfold delta in *; cbn in *; lra.
Qed.
(** The joints move. *)
Lemma cjac_joints q p s n k : (n < 3)%nat -> (k < dofs)%nat -> cjac q p s n (6 + k)%nat = GS q s n k.
Proof.
  intros Hn Hk. refine (D_unique _ _ _ _ (cjac_joint r place dofs base b cpos cjac CO q p s k n Hk Hn) _).
  eapply is_derive_ext; [intros t; symmetry; apply world_sum; exact Hn|]. eapply D_eq; [apply D_plus; [apply D_const|apply (W_s n q s k Hk)]|]. ring.
Qed.
(** The quaternion moves. *)
Hypothesis RT : right_trivialized qri.
Lemma cjac_quaternion q p s n j : 0 < qnorm2 q -> (n < 3)%nat -> (j < 4)%nat ->
  sumn 3 (fun a => cjac q p s n (3 + a)%nat * quaternion_map qri q a j) = GQ q s n j.
Proof.
  intros P Hn Hj. destruct (CO q p s) as [_ J].
  assert (NQ : NormalizedQuaternion q = qunit q).
  { apply functional_extensionality. intros i. unfold NormalizedQuaternion, qunit. change (QuaternionSquaredNorm q) with (qnorm2 q). destruct (Rlt_dec 0 (qnorm2 q)); [reflexivity|contradiction]. }
  set (w := V3 (quaternion_map qri q 0%nat j) (quaternion_map qri q 1%nat j) (quaternion_map qri q 2%nat j)).
  assert (DR : is_derive_m3 (fun t => qmat (qunit (vset q j t))) (q j) (mm (SpecRigid.skew w) (qmat (qunit q)))).
  { pose proof (RT (fun t => qunit (vset q j t)) (q j) (fun k => NormalizedQuaternionDerivative q k j)) as T. cbv zeta beta in T. rewrite vset_same in T.
    unfold w, quaternion_map. rewrite NQ. apply T.
    - eapply filter_imp; [|apply (vset_near q j P)]. intros t Pt. apply qunit_norm. exact Pt.
    - intros k Hk. pose proof (NormalizedDerivative_exact q P k j Hk Hj) as Q. unfold partial in Q. eapply is_derive_ext_loc; [|exact Q].
      eapply filter_imp; [|apply (vset_near q j P)]. intros t Pt. unfold NormalizedQuaternion, qunit. change (QuaternionSquaredNorm (vset q j t)) with (qnorm2 (vset q j t)). destruct (Rlt_dec 0 (qnorm2 (vset q j t))); [reflexivity|contradiction]. }
  specialize (J (fun t => base_pose (vset q j t) (vec3_of p)) (fun _ => s) (q j) v30 w (fun _ => 0)).
  cbv beta in J. rewrite vset_same in J.
  assert (MV : mixed_moves (fun t => base_pose (vset q j t) (vec3_of p)) (q j) v30 w).
  { split; [cbn [rot base_pose]; rewrite vset_same; exact DR|exact (v3_D_const (vec3_of p) (q j))]. }
  specialize (J MV eq_refl eq_refl (fun k => D_const _ _) n Hn).
  assert (D : is_derive (fun t => vent (com_world r place b base (base_pose (vset q j t) (vec3_of p)) s) n) (q j) (GQ q s n j)).
  { eapply is_derive_ext; [intros t; symmetry; apply (world_sum (vset q j t) (vec3_of p) s n Hn)|]. eapply D_eq; [apply D_plus; [apply D_const|apply (W_q n q s j P)]|]. ring. }
  rewrite <- (D_unique _ _ _ _ J D). rewrite (sumn_ext dofs _ (fun _ => 0)) by (intros; ring). rewrite sumn_0. unfold w, v30. cbn [sumn vent vx vy vz]. ring.
Qed.
End ComPos.
