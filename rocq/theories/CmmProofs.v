(** Proofs about CentroidalMomentumConstraint: the value and its first derivatives. *)
From Coq Require Import Reals List Arith Lia Lra Bool FunctionalExtensionality.
From Coquelicot Require Import Coquelicot.
From Verif Require Import Spec PartialLib QuadLib SpecQuaternion SpecRigid SpecBase SpecFeet SpecCom SpecMom SpecCmm Rigid RigidCalc KinTree ConstraintsModel CostsModel Quaternion QuaternionProofs.
From Verif Require Import KinModel KinLib KinMotion KinProofs QuatCurve BaseModel BaseProofs SymModel FeetModel FeetProofs RatLib ContactProofs ComCode MomModel MomProofs PropMom CmmModel.
Import ListNotations.
Local Open Scope R_scope.

(** ** Vectors *)
Definition of6 (f : vec) : v6 := V6 (V3 (f 0%nat) (f 1%nat) (f 2%nat)) (V3 (f 3%nat) (f 4%nat) (f 5%nat)).
Lemma of6_ent f i : (i < 6)%nat -> v6ent (of6 f) i = f i.
Proof. intros Hi. split6 i; reflexivity. Qed.
Lemma of6_D (h : R -> v6) x (d : vec) : (forall i, (i < 6)%nat -> is_derive (fun t => v6ent (h t) i) x (d i)) -> is_derive_v6 h x (of6 d).
Proof.
  intros H. split; (split; [|split]); cbn [lin ang of6 vx vy vz]; [exact (H 0%nat ltac:(lia))|exact (H 1%nat ltac:(lia))|exact (H 2%nat ltac:(lia))|exact (H 3%nat ltac:(lia))|exact (H 4%nat ltac:(lia))|exact (H 5%nat ltac:(lia))].
Qed.
Lemma v6ent_low a i : (i < 3)%nat -> v6ent a i = vent (lin a) i. Proof. intros Hi. unfold v6ent. apply Nat.ltb_lt in Hi. rewrite Hi. reflexivity. Qed.
Lemma v6ent_high a i : v6ent a (3 + i)%nat = vent (ang a) i.
Proof. unfold v6ent. replace (3 + i <? 3)%nat with false by (symmetry; apply Nat.ltb_ge; lia). f_equal. lia. Qed.
Lemma mv_cross A x y : rotation A -> mv A (vcross x y) = vcross (mv A x) (mv A y).
Proof. intros RA. rewrite <- !skew_v, <- !mv_mm. rewrite skew_rot by exact RA. reflexivity. Qed.
Lemma v3_D_cross f g x d e : is_derive_v3 f x d -> is_derive_v3 g x e -> is_derive_v3 (fun t => vcross (f t) (g t)) x (vadd (vcross d (g x)) (vcross (f x) e)).
Proof.
  intros F G. apply v3_D_ext with (f := fun t => mv (SpecRigid.skew (f t)) (g t)); [intros t; apply skew_v|].
  rewrite <- !skew_v. apply v3_D_mv; [apply m3_D_skew; exact F|exact G].
Qed.
(** What the momentum h, seen in the base, is about the centre of mass c (in the base), with the rotation A. *)
Definition about (A : m3) (c : v3) (h : v6) : v3 := mv A (vadd (ang h) (vopp (vcross c (lin h)))).
Definition world_of (A : m3) (p c : v3) : pose := pmul (Pose m3I (vopp (papply (Pose A p) c))) (Pose A p).
Lemma world_of_eq A p c : world_of A p c = Pose A (vopp (mv A c)).
Proof.
  unfold world_of, pmul, papply. cbn [rot pos]. rewrite mm_I_l, mv_I. f_equal. destruct (mv A c), p. unfold vadd, vopp. cbn. f_equal; ring.
Qed.
Lemma wrench_ang A p c h : rotation A -> ang (m6v (AdjW (world_of A p c)) h) = about A c h.
Proof.
  intros RA. rewrite world_of_eq. unfold AdjW, m6v, about. cbn [rot pos bal baa ang]. rewrite skew_opp, mm_neg_l, <- skew_rot by exact RA.
  rewrite mv_neg, mv_mm, skew_v, mv_add, mv_opp. apply vadd_comm.
Qed.
Lemma wrench_lin A p c h : lin (m6v (AdjW (world_of A p c)) h) = mv A (lin h).
Proof. rewrite world_of_eq. unfold AdjW, m6v. cbn [rot pos bll bla lin]. rewrite mv_m30. apply vadd_0_r. Qed.
(** ** The derivative of a vector rotated by a unit quaternion, both moving *)
Lemma qrot_sum n w i : (i < 3)%nat -> qrot n w i = sumn 3 (fun j => qrot n (fun k => delta k j) i * w j).
Proof. intros Hi. unfold qrot, SpecQuaternion.cross, qvec, delta. split3 i; cbn; ring. Qed.
Lemma RVJ_sum n w e i : (i < 3)%nat -> mulv 4 (RotatedVectorQuaternionJacobian w n) e i = sumn 3 (fun j => mulv 4 (RotatedVectorQuaternionJacobian (fun k => delta k j) n) e i * w j).
Proof.
  intros Hi. unfold mulv. cbn [sumn]. rewrite !Rotated_eq by lia. unfold mat3mul, qvec, delta. split3 i; cbn; ring.
Qed.
Lemma RVJ_add n x y i e : (i < 3)%nat -> (e < 4)%nat -> RotatedVectorQuaternionJacobian (vent x) n i e + RotatedVectorQuaternionJacobian (vent y) n i e = RotatedVectorQuaternionJacobian (vent (vadd x y)) n i e.
Proof.
  intros Hi He. rewrite !Rotated_eq by lia. destruct x, y. unfold mat3mul, qvec, vadd. split3 i; (destruct e as [|[|[|[|e]]]]; [| | | |lia]); cbn; ring.
Qed.
Lemma rotated_D (n : R -> vec) (w : R -> v3) x e w' i : (i < 3)%nat -> (forall k, (k < 4)%nat -> is_derive (fun t => n t k) x (e k)) -> is_derive_v3 w x w' ->
  is_derive (fun t => vent (mv (qmat (n t)) (w t)) i) x (mulv 4 (RotatedVectorQuaternionJacobian (vent (w x)) (n x)) e i + vent (mv (qmat (n x)) w') i).
Proof.
  intros Hi HN HW. apply is_derive_ext with (f := fun t => sumn 3 (fun j => qrot (n t) (fun k => delta k j) i * vent (w t) j)).
  { intros t. rewrite <- qmat_mv by exact Hi. rewrite (qrot_sum (n t) (vent (w t))) by exact Hi. reflexivity. }
  rewrite <- qmat_mv by exact Hi. rewrite RVJ_sum, (qrot_sum (n x) (vent w')) by exact Hi.
  eapply D_eq; [apply (D_sumn 3 (fun j t => qrot (n t) (fun k => delta k j) i * vent (w t) j)); intros j Hj; apply D_mult; [apply (qrot_D n x e (fun k => delta k j) i Hi HN)|apply (vent_D w x w' HW)]|].
  cbn [sumn]. ring.
Qed.
Lemma body_spin_eq n d : body_spin n d = Ginv3 n d.
Proof. rewrite Ginv3_eq. unfold body_spin. f_equal; ring. Qed.
Lemma v6total_ext n f g : (forall i, (i < n)%nat -> f i = g i) -> v6total n f = v6total n g.
Proof. intros H. rewrite !v6total_sum. apply v6sum_ext. exact H. Qed.
Lemma m6v_total A n f : m6v A (v6total n f) = v6total n (fun i => m6v A (f i)).
Proof. rewrite !v6total_sum. apply m6v_sum. Qed.

Section Cmm.
Variable r : robot.
Variable place : vec -> nat -> pose.
Variable dofs : nat.
Variable up : nat -> nat -> option (nat * nat).
Variable depth : nat -> nat -> nat.
Variable base : nat.
Variable child : nat -> nat.
Variable inertia : nat -> m6.
Variable fvel : rstate -> nat -> v6.
Variable mas : masses.
Variable mom : rstate -> v6.
Variable matrix : rstate -> mat.
Variable cpos : vec -> vec -> vec -> v3.
Variable cjac : vec -> vec -> vec -> mat.
Notation rel := (relative r place).
Notation dmom := (mom_derivative r dofs (up base) base child inertia rel fvel).
Notation IN := (momentum_in r place inertia base).
Hypothesis MC : mechanics r place dofs up depth base child fvel.
Hypothesis CO : com_oracle r place mas base dofs cpos cjac.
Hypothesis HM : forall st, IN (st_s st) (st_sd st) (base_twist_of st) (mom st).
Hypothesis HX : forall st, momentum_matrix r place inertia base dofs (st_s st) (matrix st).
Notation cB := (com_in_base r place mas base).

Lemma momentum_unique s sd b h h' : IN s sd b h -> IN s sd b h' -> h = h'.
Proof.
  destruct MC as (rok & plc & trav & one & Hb & kids & fv).
  intros (w & Hw & ->) (w' & Hw' & ->). apply v6total_ext. intros l Hl. do 2 f_equal.
  eapply (velocity_unique r place base); [exact rok|exact plc|exact Hb|apply link_ok; exact Hl|apply Hw; exact Hl|apply Hw'; exact Hl].
Qed.
(** ** The value *)
Definition val (st : rstate) : v3 := about (qmat (qunit (st_q st))) (cB (st_s st)) (mom st).
Lemma val_same st st' : st_q st = st_q st' -> st_s st = st_s st' -> st_lin st = st_lin st' -> st_qd st = st_qd st' -> st_sd st = st_sd st' -> val st = val st'.
Proof.
  intros E1 E2 E3 E4 E5. unfold val. rewrite E1, E2. f_equal. eapply momentum_unique; [apply HM|]. rewrite E2, E5.
  replace (base_twist_of st) with (base_twist_of st') by (unfold base_twist_of; rewrite E1, E3, E4; reflexivity). apply HM.
Qed.
Lemma centroidal_eq st p a : 0 < qnorm2 (st_q st) -> centroidal_angular r place inertia mas base (base_pose (st_q st) p) (st_s st) (st_sd st) (base_twist_of st) a -> a = val st.
Proof.
  intros P (w & Hw & ->). set (A := qmat (qunit (st_q st))). assert (RA : rotation A) by (apply qmat_rot, qunit_norm; exact P).
  unfold base_pose. fold A. unfold com_world.
  assert (E : forall l, m6v (AdjW (pmul (Pose m3I (vopp (papply (Pose A p) (cB (st_s st))))) (pmul (Pose A p) (rel (st_s st) base l)))) (m6v (inertia l) (w l)) =
    m6v (AdjW (world_of A p (cB (st_s st)))) (m6v (AdjW (rel (st_s st) base l)) (m6v (inertia l) (w l)))).
  { intros l. rewrite <- pmul_assoc. fold (world_of A p (cB (st_s st))). rewrite AdjW_mul; [apply m6v_mul|]. rewrite world_of_eq. exact RA. }
  rewrite (v6total_ext _ _ _ (fun l _ => E l)), <- m6v_total, wrench_ang by exact RA. unfold val. fold A. f_equal.
  eapply momentum_unique; [|apply HM]. exists w. split; [exact Hw|reflexivity].
Qed.
Lemma frame_eq st : centroidal_base cpos st = world_of (qmat (qunit (st_q st))) (vec3_of (st_p st)) (cB (st_s st)).
Proof. unfold centroidal_base, com_transform, com_position. rewrite (proj1 (CO _ _ _)). reflexivity. Qed.
Lemma code_ang st h : 0 < qnorm2 (st_q st) -> ang (m6v (AdjW (centroidal_base cpos st)) h) = about (qmat (qunit (st_q st))) (cB (st_s st)) h.
Proof. intros P. rewrite frame_eq. apply wrench_ang. apply qmat_rot, qunit_norm. exact P. Qed.
Lemma code_ent st h i : 0 < qnorm2 (st_q st) -> (i < 3)%nat -> sumn 6 (fun a => m6ent (AdjW (centroidal_base cpos st)) (3 + i)%nat a * v6ent h a) = vent (about (qmat (qunit (st_q st))) (cB (st_s st)) h) i.
Proof. intros P Hi. rewrite <- v6ent_mul by lia. rewrite v6ent_high, code_ang by exact P. reflexivity. Qed.
Lemma code_value st i : 0 < qnorm2 (st_q st) -> v6ent (m6v (AdjW (com_transform cpos st)) (m6v (AdjW (base_transform st)) (mom st))) (3 + i)%nat = vent (val st) i.
Proof.
  intros P. rewrite <- m6v_mul, <- AdjW_mul by (apply rotation_I). fold (centroidal_base cpos st). rewrite v6ent_high, code_ang by exact P. reflexivity.
Qed.
Lemma com_back st : 0 < qnorm2 (st_q st) -> papply (pinv (base_transform st)) (com_position cpos st) = cB (st_s st).
Proof.
  intros P. assert (RA : rotation (qmat (qunit (st_q st)))) by (apply qmat_rot, qunit_norm; exact P).
  unfold com_position. rewrite (proj1 (CO _ _ _)). unfold com_world, base_transform. fold (vec3_of (st_p st)). unfold papply, pinv, base_pose. cbn [rot pos].
  rewrite mv_add, <- mv_mm, rot_l, mv_I by exact RA. rewrite vadd_assoc, vadd_opp, vadd_0_r. reflexivity.
Qed.
Lemma NQ q : 0 < qnorm2 q -> NormalizedQuaternion q = qunit q.
Proof. intros P. apply functional_extensionality. intros i. unfold NormalizedQuaternion, qunit. change (QuaternionSquaredNorm q) with (qnorm2 q). destruct (Rlt_dec 0 (qnorm2 q)); [reflexivity|contradiction]. Qed.

(** ** The derivatives *)
Lemma inner_D c h x c' h' : is_derive_v3 c x c' -> is_derive_v6 h x h' ->
  is_derive_v3 (fun t => vadd (ang (h t)) (vopp (vcross (c t) (lin (h t))))) x (vadd (vadd (ang h') (vopp (vcross (c x) (lin h')))) (vcross (lin (h x)) c')).
Proof.
  intros DC [DL DA]. pose proof (v3_D_add _ _ x _ _ DA (v3_D_opp _ x _ (v3_D_cross c (fun t => lin (h t)) x c' (lin h') DC DL))) as Q. cbv beta in Q.
  match type of Q with is_derive_v3 _ _ ?d => match goal with |- is_derive_v3 _ _ ?e => replace e with d; [exact Q|] end end.
  destruct c', h' as [[] []], (c x), (lin (h x)). unfold vadd, vopp, vcross. cbn. f_equal; ring.
Qed.
(** The quaternion moves. *)
Definition with_q (st : rstate) (q : vec) : rstate := RState (st_p st) q (st_s st) (st_lin st) (st_qd st) (st_sd st).
Definition with_u (st : rstate) (l d v : vec) : rstate := RState (st_p st) (st_q st) (st_s st) l d v.
Lemma mom_ent st st' i : st_s st' = st_s st -> (i < 6)%nat ->
  v6ent (mom st') i = sumn 3 (fun f => matrix st i f * st_lin st' f) + sumn 3 (fun f => matrix st i (3 + f)%nat * vent (Ginv3 (qunit (st_q st')) (st_qd st')) f) + sumn dofs (fun k => matrix st i (6 + k)%nat * st_sd st' k).
Proof.
  intros E Hi. pose proof (HX st (st_sd st') (base_twist_of st') (mom st')) as Q. rewrite <- E in Q at 1. rewrite (Q (HM st') i Hi).
  unfold base_twist_of. cbn [sumn Nat.add]. unfold v6ent. cbn. ring.
Qed.
Lemma Ginv3_n n d f : (f < 3)%nat -> vent (Ginv3 n d) f = sumn 4 (fun e => InverseTimesQuaternionDerivativeJacobian d f e * n e).
Proof. intros Hf. rewrite Ginv3_eq. unfold InverseTimesQuaternionDerivativeJacobian, identity, tail3. split3 f; cbn; ring. Qed.
Lemma unit_partial q j k : 0 < qnorm2 q -> (j < 4)%nat -> (k < 4)%nat -> is_derive (fun t => qunit (vset q j t) k) (q j) (NormalizedQuaternionDerivative q k j).
Proof.
  intros P Hj Hk. pose proof (NormalizedDerivative_exact q P k j Hk Hj) as Q. unfold partial in Q. eapply is_derive_ext; [|exact Q]. intros t. cbv beta. apply Normalized_eq. exact Hk.
Qed.
Definition hq (st : rstate) (j : nat) : vec := fun a =>
  sumn 4 (fun e => sumn 3 (fun f => matrix st a (3 + f)%nat * InverseTimesQuaternionDerivativeJacobian (st_qd st) f e) * NormalizedQuaternionDerivative (st_q st) e j).
Lemma mom_q st j : 0 < qnorm2 (st_q st) -> (j < 4)%nat -> is_derive_v6 (fun t => mom (with_q st (vset (st_q st) j t))) (st_q st j) (of6 (hq st j)).
Proof.
  intros P Hj. apply of6_D. intros i Hi.
  apply is_derive_ext with (f := fun t => sumn 3 (fun f => matrix st i f * st_lin st f) + sumn 3 (fun f => matrix st i (3 + f)%nat * sumn 4 (fun e => InverseTimesQuaternionDerivativeJacobian (st_qd st) f e * qunit (vset (st_q st) j t) e)) + sumn dofs (fun k => matrix st i (6 + k)%nat * st_sd st k)).
  { intros t. rewrite (mom_ent st (with_q st (vset (st_q st) j t)) i eq_refl Hi). cbn [with_q st_lin st_sd st_qd st_q]. f_equal. f_equal. apply sumn_ext. intros f Hf. rewrite Ginv3_n by exact Hf. reflexivity. }
  eapply D_eq.
  - apply D_plus; [apply D_plus; [apply D_const|]|apply D_const].
    apply (D_sumn 3 (fun f t => matrix st i (3 + f)%nat * sumn 4 (fun e => InverseTimesQuaternionDerivativeJacobian (st_qd st) f e * qunit (vset (st_q st) j t) e))). intros f Hf.
    apply D_mult; [apply D_const|]. apply (D_sumn 4 (fun e t => InverseTimesQuaternionDerivativeJacobian (st_qd st) f e * qunit (vset (st_q st) j t) e)). intros e He. apply D_mult; [apply D_const|apply unit_partial; auto].
  - unfold hq. cbn [sumn]. ring.
Qed.
Lemma val_q st j i : 0 < qnorm2 (st_q st) -> (j < 4)%nat -> (i < 3)%nat ->
  is_derive (fun t => vent (val (with_q st (vset (st_q st) j t))) i) (st_q st j)
    (sumn 4 (fun e => RotatedVectorQuaternionJacobian (vent (vadd (ang (mom st)) (vopp (vcross (cB (st_s st)) (lin (mom st)))))) (qunit (st_q st)) i e * NormalizedQuaternionDerivative (st_q st) e j)
     + vent (about (qmat (qunit (st_q st))) (cB (st_s st)) (of6 (hq st j))) i).
Proof.
  intros P Hj Hi.
  pose proof (inner_D (fun _ => cB (st_s st)) (fun t => mom (with_q st (vset (st_q st) j t))) (st_q st j) v30 _ (v3_D_const _ _) (mom_q st j P Hj)) as D.
  pose proof (rotated_D (fun t => qunit (vset (st_q st) j t)) _ (st_q st j) (fun k => NormalizedQuaternionDerivative (st_q st) k j) _ i Hi (fun k Hk => unit_partial (st_q st) j k P Hj Hk) D) as Q.
  cbv beta in Q. replace (with_q st (vset (st_q st) j (st_q st j))) with st in Q by (rewrite vset_same; destruct st; reflexivity). rewrite vset_same in Q.
  eapply D_eq; [exact Q|]. f_equal. unfold about. f_equal. f_equal.
  destruct (vadd (ang (of6 (hq st j))) (vopp (vcross (cB (st_s st)) (lin (of6 (hq st j)))))), (lin (mom st)). unfold vadd, vcross, v30. cbn. f_equal; ring.
Qed.
(** What the code writes in the columns of the quaternion. *)
Lemma code_q st i k : 0 < qnorm2 (st_q st) -> (k < 4)%nat -> (i < 3)%nat ->
  sumn 4 (fun e => (RotatedVectorQuaternionJacobian (vent (ang (mom st))) (NormalizedQuaternion (st_q st)) i e +
     RotatedVectorQuaternionJacobian (vent (vcross (vopp (papply (pinv (base_transform st)) (com_position cpos st))) (lin (mom st)))) (NormalizedQuaternion (st_q st)) i e) * NormalizedQuaternionDerivative (st_q st) e k)
  + sumn 6 (fun a => m6ent (AdjW (centroidal_base cpos st)) (3 + i)%nat a * hq st k a) =
  sumn 4 (fun e => RotatedVectorQuaternionJacobian (vent (vadd (ang (mom st)) (vopp (vcross (cB (st_s st)) (lin (mom st)))))) (qunit (st_q st)) i e * NormalizedQuaternionDerivative (st_q st) e k)
     + vent (about (qmat (qunit (st_q st))) (cB (st_s st)) (of6 (hq st k))) i.
Proof.
  intros P Hk Hi. rewrite com_back, NQ by exact P. f_equal.
  - apply sumn_ext. intros e He. replace (vopp (vcross (cB (st_s st)) (lin (mom st)))) with (vcross (vopp (cB (st_s st))) (lin (mom st))) by (destruct (cB (st_s st)), (lin (mom st)); unfold vcross, vopp; cbn; f_equal; ring). rewrite RVJ_add by auto. reflexivity.
  - rewrite <- code_ent by auto. apply sumn_ext. intros a Ha. rewrite of6_ent by exact Ha. reflexivity.
Qed.
(** The joints move. *)
Lemma com_s st j : 0 < qnorm2 (st_q st) -> (j < dofs)%nat ->
  is_derive_v3 (fun t => cB (vset (st_s st) j t)) (st_s st j) (mv (mtr (qmat (qunit (st_q st)))) (V3 (cjac (st_q st) (st_p st) (st_s st) 0%nat (6 + j)%nat) (cjac (st_q st) (st_p st) (st_s st) 1%nat (6 + j)%nat) (cjac (st_q st) (st_p st) (st_s st) 2%nat (6 + j)%nat))).
Proof.
  intros P Hj. assert (RA : rotation (qmat (qunit (st_q st)))) by (apply qmat_rot, qunit_norm; exact P). set (A := qmat (qunit (st_q st))) in *.
  set (W := fun t => com_world r place mas base (base_pose (st_q st) (vec3_of (st_p st))) (vset (st_s st) j t)).
  assert (DW : is_derive_v3 W (st_s st j) (V3 (cjac (st_q st) (st_p st) (st_s st) 0%nat (6 + j)%nat) (cjac (st_q st) (st_p st) (st_s st) 1%nat (6 + j)%nat) (cjac (st_q st) (st_p st) (st_s st) 2%nat (6 + j)%nat))).
  { split; [|split]; cbn [vx vy vz].
    - exact (cjac_joint r place dofs base mas cpos cjac CO (st_q st) (st_p st) (st_s st) j 0 Hj ltac:(lia)).
    - exact (cjac_joint r place dofs base mas cpos cjac CO (st_q st) (st_p st) (st_s st) j 1 Hj ltac:(lia)).
    - exact (cjac_joint r place dofs base mas cpos cjac CO (st_q st) (st_p st) (st_s st) j 2 Hj ltac:(lia)). }
  apply v3_D_ext with (f := fun t => mv (mtr A) (vadd (W t) (vopp (vec3_of (st_p st))))).
  { intros t. unfold W, com_world, papply, base_pose. cbn [rot pos]. fold A. rewrite vadd_assoc, vadd_opp, vadd_0_r, <- mv_mm, rot_l, mv_I by exact RA. reflexivity. }
  pose proof (v3_D_mv (fun _ => mtr A) _ (st_s st j) _ _ (m3_D_const (mtr A) _) (v3_D_add W (fun _ => vopp (vec3_of (st_p st))) (st_s st j) _ _ DW (v3_D_const _ _))) as Q.
  rewrite mv_m30, vadd_0_l, vadd_0_r in Q. exact Q.
Qed.
Lemma val_s st D j i : dmom st = Some D -> 0 < qnorm2 (st_q st) -> (j < dofs)%nat -> (i < 3)%nat ->
  is_derive (fun t => vent (val (with_s st (vset (st_s st) j t))) i) (st_s st j)
    (sumn 6 (fun a => m6ent (AdjW (centroidal_base cpos st)) (3 + i)%nat a * D a j) +
     sumn 3 (fun a => ment (SpecRigid.skew (lin (m6v (AdjW (centroidal_base cpos st)) (mom st)))) i a * cjac (st_q st) (st_p st) (st_s st) a (6 + j)%nat)).
Proof.
  intros ED P Hj Hi. assert (RA : rotation (qmat (qunit (st_q st)))) by (apply qmat_rot, qunit_norm; exact P).
  destruct (C69_momentum_derivative r place dofs up depth base child inertia fvel MC st) as (D' & ED' & HD). rewrite ED in ED'. injection ED' as <-.
  specialize (HD (fun s => mom (with_s st s)) (fun s => HM (with_s st s))).
  pose proof (of6_D (fun t => mom (with_s st (vset (st_s st) j t))) (st_s st j) (fun a => D a j) (fun a Ha => HD a j Ha Hj)) as DH.
  pose proof (inner_D (fun t => cB (vset (st_s st) j t)) (fun t => mom (with_s st (vset (st_s st) j t))) (st_s st j) _ _ (com_s st j P Hj) DH) as DI.
  pose proof (v3_D_mv (fun _ => qmat (qunit (st_q st))) _ (st_s st j) _ _ (m3_D_const _ _) DI) as Q. cbv beta in Q.
  replace (with_s st (vset (st_s st) j (st_s st j))) with st in Q by (rewrite vset_same; destruct st; reflexivity). rewrite vset_same in Q.
  rewrite mv_m30, vadd_0_l, mv_add, mv_cross in Q by exact RA. rewrite <- (mv_mm (qmat (qunit (st_q st))) (mtr _)), rot_r, mv_I in Q by exact RA.
  apply (vent_D _ _ _) with (i := i) in Q. eapply D_eq; [exact Q|]. rewrite vent_add. f_equal.
  - transitivity (vent (about (qmat (qunit (st_q st))) (cB (st_s st)) (of6 (fun a => D a j))) i); [reflexivity|]. rewrite <- code_ent by auto. apply sumn_ext. intros a Ha. rewrite of6_ent by exact Ha. reflexivity.
  - rewrite frame_eq, wrench_lin, <- skew_v, vent_mul by exact Hi. cbn [sumn vent vx vy vz]. reflexivity.
Qed.
(** The control moves. *)
Definition hu (st : rstate) (l d v : vec) : vec := fun a => sumn 3 (fun f => matrix st a f * l f) + sumn 3 (fun f => matrix st a (3 + f)%nat * sumn 4 (fun e => QuaternionLeftTrivializedDerivativeInverse (qunit (st_q st)) f e * d e)) + sumn dofs (fun k => matrix st a (6 + k)%nat * v k).
Lemma val_u st l d v i : 0 < qnorm2 (st_q st) -> (i < 3)%nat ->
  vent (val (with_u st l d v)) i = sumn 6 (fun a => m6ent (AdjW (centroidal_base cpos st)) (3 + i)%nat a * hu st l d v a).
Proof.
  intros P Hi. unfold val. change (st_q (with_u st l d v)) with (st_q st). change (st_s (with_u st l d v)) with (st_s st). rewrite <- code_ent by auto.
  apply sumn_ext. intros a Ha. f_equal. rewrite (mom_ent st (with_u st l d v) a eq_refl Ha). unfold hu. reflexivity.
Qed.
End Cmm.
