(** The derivatives of the centre of mass seen in the base, and the values of the code. *)
From Coq Require Import Reals List Arith Lia Lra Bool FunctionalExtensionality.
From Coquelicot Require Import Coquelicot.
From Verif Require Import Spec PartialLib SpecQuaternion SpecRigid SpecBase SpecCom SpecDerivatives Rigid RigidCalc KinTree KinModel KinLib KinMotion KinProofs PropKin BaseModel BaseProofs PropBase MixLib LeviMat ComModel ComLib ComProofs ComHess.
Import ListNotations.
Local Open Scope R_scope.

Section Com.
Variable r : robot.
Variable place : vec -> nat -> pose.
Variable dofs : nat.
Variable up : nat -> nat -> option (nat * nat).
Variable depth : nat -> nat -> nat.
Variable base : nat.
Variable jac : vec -> nat -> nat -> nat -> v6.
Variable fvel : env -> nat -> v6.
Variable btw : env -> v6.
Variable quat : m3 -> vec.
Variable b : masses.
Notation rel := (relative r place).
Notation links := (r_links r).
Notation CX := (com_entry r place b base).
Notation M := (total_mass r b).
Hypothesis K : kinematics r place dofs up depth base jac fvel btw quat.
Notation DX := (DX r place base jac b).
Definition DC (s : vec) (k i : nat) : R := sumn links (fun l => m_of b l / M * vent (DX s l k) i).
Lemma CX_sum s i : CX s i = sumn links (fun l => m_of b l / M * vent (papply (rel s base l) (m_com b l)) i).
Proof. unfold com_entry, Rdiv. rewrite Rmult_comm, <- sumn_scal. apply sumn_ext. intros l Hl. ring. Qed.
Lemma DC_partial s k i : (k < dofs)%nat -> partial (fun s => CX s i) s k (DC s k i).
Proof.
  intros Hk. unfold partial. eapply is_derive_ext; [intros t; symmetry; apply CX_sum|].
  apply (D_sumn links (fun l t => m_of b l / M * vent (papply (rel (vset s k t) base l) (m_com b l)) i)). intros l Hl.
  eapply D_eq; [apply D_mult; [apply D_const|exact (vent_D _ _ _ (DX_partial r place dofs up depth base jac fvel btw quat b K s l k Hl Hk) i)]|]. cbv beta. ring.
Qed.
Lemma DC_second (TR : tree r dofs up base) s k j i : (k < dofs)%nat -> (j < dofs)%nat -> partial (fun s => DC s k i) s j (HV r place up base b s k i j).
Proof.
  intros Hk Hj. unfold partial, DC. apply (D_sumn links (fun l t => m_of b l / M * vent (DX (vset s j t) l k) i)). intros l Hl.
  eapply D_eq; [apply D_mult; [apply D_const|exact (vent_D _ _ _ (DX_second r place dofs up depth base jac fvel btw quat b K TR s l k j Hl Hk Hj) i)]|]. cbv beta. ring.
Qed.
(** Any derivative of the position is DC. *)
Lemma DC_unique (G : vec -> nat -> R) i : (forall s k, (k < dofs)%nat -> partial (fun s => CX s i) s k (G s k)) -> forall s k, (k < dofs)%nat -> G s k = DC s k i.
Proof. intros H s k Hk. exact (D_unique _ _ _ _ (H s k Hk) (DC_partial s k i Hk)). Qed.

(** ** The values *)
Variable cpos : vec -> vec -> vec -> v3.
Variable cjac : vec -> vec -> vec -> mat.
Hypothesis CO : com_oracle r place b base dofs cpos cjac.
Lemma base_rigid q p : rigid (base_pose q p). Proof. apply base_rotation_always. Qed.
Lemma papply_inv H c : rigid H -> papply (pinv H) (papply H c) = c.
Proof.
  intros RH. destruct H as [Rm p]. unfold rigid in RH. cbn [rot] in RH. unfold papply, pinv. cbn [rot pos]. rewrite mv_add, <- mv_mm, (proj1 RH), mv_I.
  unfold vopp, vadd. destruct c. cbn. f_equal; ring.
Qed.
Lemma value_eq rho i : (i < 3)%nat -> com_value cpos rho i 0%nat = CX (rho v_s) i.
Proof.
  intros Hi. unfold com_value. rewrite (proj1 (CO _ _ _)). unfold com_world. rewrite papply_inv by apply base_rigid. unfold com_in_base.
  destruct i as [|[|[|i]]]; [reflexivity|reflexivity|reflexivity|lia].
Qed.
Lemma still_mixed H0 x : mixed_moves (fun _ => H0) x v30 v30.
Proof.
  split; [|apply v3_D_const]. replace (mm (skew v30) (rot H0)) with m30; [apply m3_D_const|]. unfold mm, skew, m30, v30. cbn. f_equal; ring.
Qed.
(** The columns of the joints. *)
Lemma cjac_joint q p s k n : (k < dofs)%nat -> (n < 3)%nat ->
  is_derive (fun t => vent (com_world r place b base (base_pose q (vec3_of p)) (vset s k t)) n) (s k) (cjac q p s n (6 + k)%nat).
Proof.
  intros Hk Hn. destruct (CO q p s) as [_ J].
  specialize (J (fun _ => base_pose q (vec3_of p)) (fun t => vset s k t) (s k) v30 v30 (fun m => delta m k) (still_mixed _ _) eq_refl (vset_same _ _)).
  specialize (J ltac:(intros m; unfold vset, delta; destruct (Nat.eqb_spec m k) as [->|N]; [eapply D_eq; [apply (@is_derive_id R_AbsRing)|reflexivity]|apply D_const]) n Hn).
  eapply D_eq; [exact J|]. rewrite (sumn_single dofs _ k Hk); [|intros i Hi N; unfold delta; apply Nat.eqb_neq in N; rewrite N; ring].
  unfold delta. rewrite Nat.eqb_refl. unfold v30. cbn [sumn vent vx vy vz]. ring.
Qed.
Lemma jacobian_eq rho i k : (i < 3)%nat -> (k < dofs)%nat -> partial (fun s => CX s i) (rho v_s) k (com_jac_value cjac rho i k).
Proof.
  intros Hi Hk. set (q := rho v_q). set (p := rho v_p). set (s := rho v_s).
  unfold partial, com_jac_value. fold q p s.
  apply D_ext with (f := fun t => sumn 3 (fun a => ment (mtr (qmat (qunit q))) i a * (vent (com_world r place b base (base_pose q (vec3_of p)) (vset s k t)) a - vent (vec3_of p) a))).
  - intros t. transitivity (vent (com_in_base r place b base (vset s k t)) i); [|unfold com_in_base; destruct i as [|[|[|i]]]; [reflexivity|reflexivity|reflexivity|lia]].
    rewrite <- (papply_inv (base_pose q (vec3_of p)) (com_in_base r place b base (vset s k t)) (base_rigid _ _)).
    unfold com_world, papply, pinv, base_pose. cbn [rot pos]. set (Y := mv (qmat (qunit q)) (com_in_base r place b base (vset s k t))).
    destruct i as [|[|[|i]]]; [| | |lia]; unfold vadd, vopp, mv, mtr; cbn; ring.
  - apply (D_sumn 3 (fun a t => ment (mtr (qmat (qunit q))) i a * (vent (com_world r place b base (base_pose q (vec3_of p)) (vset s k t)) a - vent (vec3_of p) a))).
    intros a Ha. eapply D_eq; [apply D_mult; [apply D_const|apply D_minus; [apply (cjac_joint q p s k a Hk Ha)|apply D_const]]|]. cbv beta. ring.
Qed.
End Com.

(** ** The contract of iDynTree can be met *)
Section Exists.
Variable r : robot.
Variable place : vec -> nat -> pose.
Variable dofs : nat.
Variable up : nat -> nat -> option (nat * nat).
Variable depth : nat -> nat -> nat.
Variable base : nat.
Variable jac : vec -> nat -> nat -> nat -> v6.
Variable fvel : env -> nat -> v6.
Variable btw : env -> v6.
Variable quat : m3 -> vec.
Variable b : masses.
Hypothesis K : kinematics r place dofs up depth base jac fvel btw quat.
Let rok : robot_ok r := k_robot _ _ _ _ _ _ _ _ _ _ K.
Let plc : placement r place := k_place _ _ _ _ _ _ _ _ _ _ K.
Let trav : forall b, (b < r_links r)%nat -> traversal r b (up b) (depth b) := k_trav _ _ _ _ _ _ _ _ _ _ K.
Let one_dof : (length (r_joints r) <= dofs)%nat := k_dofs _ _ _ _ _ _ _ _ _ _ K.
Let jac_ok := k_jac _ _ _ _ _ _ _ _ _ _ K.
Notation CX := (com_entry r place b base).
Notation DC := (DC r place base jac b).
Lemma CX_curve sc x sd i : (i < 3)%nat -> (forall k, is_derive (fun t => sc t k) x (sd k)) -> is_derive (fun t => CX (sc t) i) x (sumn dofs (fun k => DC (sc x) k i * sd k)).
Proof.
  intros Hi D. apply D_ext with (f := fun t => sumn (r_links r) (fun l => m_of b l / total_mass r b * vent (papply (relative r place (sc t) base l) (m_com b l)) i)).
  { intros t. symmetry. apply CX_sum. }
  eapply D_eq; [apply (D_sumn (r_links r) (fun l t => m_of b l / total_mass r b * vent (papply (relative r place (sc t) base l) (m_com b l)) i)
    x (fun l => m_of b l / total_mass r b * sumn dofs (fun k => vent (DX r place base jac b (sc x) l k) i * sd k)))|].
  - intros l Hl. pose proof (rel_curve r place dofs up depth jac rok plc trav one_dof jac_ok base l sc x sd) as RC.
    specialize (RC (link_ok r base (k_base _ _ _ _ _ _ _ _ _ _ K)) (link_ok r l Hl) (fun k _ => D k)).
    pose proof (pt_moves _ _ _ (m_com b l) RC) as Q. eapply D_eq; [apply D_mult; [apply D_const|exact (vent_D _ _ _ Q i)]|]. cbv beta. rewrite Rmult_0_l, Rplus_0_l. f_equal.
    unfold DX. set (Rm := rot _). unfold JV.
    assert (E : forall n, vent (mv Rm (vadd (vcross (ang (v6sum n (fun k => v6scale (sd k) (jac (sc x) base l k)))) (m_com b l)) (lin (v6sum n (fun k => v6scale (sd k) (jac (sc x) base l k)))))) i
      = sumn n (fun k => vent (mv Rm (vadd (vcross (ang (jac (sc x) base l k)) (m_com b l)) (lin (jac (sc x) base l k)))) i * sd k)).
    { induction n as [|n IH]; cbn [v6sum sumn].
      - destruct i as [|[|[|i]]]; [| | |lia]; unfold mv, vadd, vcross; cbn; ring.
      - rewrite <- IH. set (A := v6sum n _). set (B := jac (sc x) base l n). destruct i as [|[|[|i]]]; [| | |lia]; unfold mv, vadd, vcross, v6add, v6scale, vscale; cbn; ring. }
    apply E.
  - rewrite (sumn_ext dofs _ (fun k => sumn (r_links r) (fun l => m_of b l / total_mass r b * vent (DX r place base jac b (sc x) l k) i * sd k))).
    2:{ intros k Hk. unfold ComCode.DC. rewrite Rmult_comm, <- sumn_scal. apply sumn_ext. intros l Hl. ring. }
    rewrite sumn_swap. apply sumn_ext. intros l Hl. rewrite <- sumn_scal. apply sumn_ext. intros k Hk. ring.
Qed.
(** A Jacobian: the identity, minus the skew matrix of the centre of mass seen from the base, the turned columns. *)
Definition the_com_jacobian (q p s : vec) : mat :=
  fun n c => if (c <? 3)%nat then delta n c
    else if (c <? 6)%nat then ment (skew (vopp (mv (qmat (qunit q)) (com_in_base r place b base s)))) n (c - 3)%nat
    else sumn 3 (fun a => ment (qmat (qunit q)) n a * DC s (c - 6)%nat a).
Theorem com_oracle_exists : com_oracle r place b base dofs (fun q p s => com_world r place b base (base_pose q (vec3_of p)) s) the_com_jacobian.
Proof.
  intros q p s. split; [reflexivity|]. intros H sc x v w sd [MR MP] EH ES D n Hn.
  assert (DV : is_derive_v3 (fun t => com_in_base r place b base (sc t)) x (V3 (sumn dofs (fun k => DC s k 0%nat * sd k)) (sumn dofs (fun k => DC s k 1%nat * sd k)) (sumn dofs (fun k => DC s k 2%nat * sd k)))).
  { rewrite <- ES. split; [apply (CX_curve sc x sd 0%nat)|split; [apply (CX_curve sc x sd 1%nat)|apply (CX_curve sc x sd 2%nat)]]; auto; lia. }
  pose proof (v3_D_add _ _ _ _ _ (v3_D_mv _ _ _ _ _ MR DV) MP) as Q. pose proof (vent_D _ _ _ Q n) as Z. unfold com_world, papply. eapply D_eq; [exact Z|].
  cbv beta. rewrite EH, ES.
  assert (E : sumn dofs (fun k => the_com_jacobian q p s n (6 + k)%nat * sd k) = sumn dofs (fun k => sumn 3 (fun a => ment (qmat (qunit q)) n a * (DC s k a * sd k)))).
  { apply sumn_ext. intros k Hk. unfold the_com_jacobian. change (6 + k <? 3)%nat with false. change (6 + k <? 6)%nat with false. cbv iota. replace (6 + k - 6)%nat with k by lia. cbn [sumn]. ring. }
  rewrite E. clear E. unfold the_com_jacobian.
  cbn [rot base_pose]. cbn [sumn]. rewrite !sumn_plus, !sumn_scal. set (c := com_in_base r place b base s). set (Rm := qmat (qunit q)).
  rewrite ?sumn_0.
  destruct n as [|[|[|n]]]; [| | |lia]; unfold delta, mv, mm, skew, vopp, vadd; cbn; ring.
Qed.
End Exists.
