(** C70: the angular momentum about the centre of mass (CentroidalMomentumConstraint). *)
From Coq Require Import Reals List Arith Lia Lra Bool FunctionalExtensionality.
From Coquelicot Require Import Coquelicot.
From Verif Require Import Spec PartialLib QuadLib SpecQuaternion SpecRigid SpecBase SpecFeet SpecCom SpecMom SpecCmm Rigid RigidCalc KinTree ConstraintsModel CostsModel Quaternion QuaternionProofs.
From Verif Require Import KinModel KinLib KinMotion KinProofs QuatCurve BaseModel BaseProofs SymModel FeetModel FeetProofs RatLib ContactProofs PropBase PropContact ComCode MomModel MomProofs PropMom CmmModel CmmProofs.
Import ListNotations.
Local Open Scope R_scope.

(** What the constraint takes from iDynTree: the momentum in the base frame, the matrix that gives it from the velocities,
    the position of the centre of mass and its Jacobian. *)
Definition momentum_oracle (r : robot) (place : vec -> nat -> pose) (inertia : nat -> m6) (base dofs : nat) (mom : rstate -> v6) (matrix : rstate -> mat) : Prop :=
  forall st, momentum_in r place inertia base (st_s st) (st_sd st) (base_twist_of st) (mom st) /\ momentum_matrix r place inertia base dofs (st_s st) (matrix st).

Lemma set_block_zero P M r0 c0 nr nc V : (forall e, In e (dense_block r0 c0 nr nc) -> In e P) -> zero_outside P M -> zero_outside P (set_block M r0 c0 nr nc V).
Proof.
  intros I Z i k N. unfold set_block. destruct (in_range r0 nr i && in_range c0 nc k) eqn:E; [|apply Z; exact N].
  exfalso. apply N, I. apply in_dense_block. apply andb_prop in E. rewrite !in_range_spec in E. exists (i - r0)%nat, (k - c0)%nat. split; [lia|]. split; [lia|]. f_equal; lia.
Qed.
Lemma sum_swap6 n (a : vec) (m : mat) (v : vec) : sumn n (fun k => sumn 6 (fun i => a i * m i (6 + k)%nat) * v k) = sumn 6 (fun i => a i * sumn n (fun k => m i (6 + k)%nat * v k)).
Proof. induction n as [|n IH]; [cbn [sumn]; ring|]. change (sumn (S n) ?f) with (sumn n f + f n). rewrite IH. cbn [sumn]. ring. Qed.

Section Cmm.
Variable r : robot.
Variable place : vec -> nat -> pose.
Variable dofs : nat.
Variable up : nat -> nat -> option (nat * nat).
Variable depth : nat -> nat -> nat.
Variable base : nat.
Variable child : nat -> nat.
Variable inertia : nat -> m6.
Variable fvel : rstate -> nat -> v6.
Variable mas : masses.
Variable mom : rstate -> v6.
Variable matrix : rstate -> mat.
Variable cpos : vec -> vec -> vec -> v3.
Variable cjac : vec -> vec -> vec -> mat.
Variable second : nat -> nat -> rstate -> vec -> mat.
Notation dmom := (mom_derivative r dofs (up base) base child inertia (relative r place) fvel).
Notation Cmm := (cmm_class dofs mom matrix dmom cpos cjac second).
Variable c : layout.
Variable shared : R -> rstate.
Notation om := (at_momentum c).
Notation oq := (at_quaternion c).
Notation os := (at_joints c).
Notation ol := (at_linear c).
Notation od := (at_quaternion_rate c).
Notation ov := (at_joint_rates c).
Definition reachable : cmm -> Prop := reach Cmm cmm_other (cmm_ctor c shared).
(** The quaternion of the base is not zero. *)
Definition turned_base (x : vec) : Prop := 0 < qnorm2 (part x oq 4).
(** The documented value: the angular momentum about the centre of mass minus the angular part of the momentum of the state. *)
Definition momentum_error (L : vec -> vec -> v3) (x u : vec) : vec := fun i => vent (L x u) i - x (om + 3 + i)%nat.

Hypothesis MC : mechanics r place dofs up depth base child fvel.
Hypothesis CO : com_oracle r place mas base dofs cpos cjac.
Hypothesis MO : momentum_oracle r place inertia base dofs mom matrix.
Hypothesis AP : layout_apart c dofs.
Lemma HM st : momentum_in r place inertia base (st_s st) (st_sd st) (base_twist_of st) (mom st). Proof. apply MO. Qed.
Lemma HX st : momentum_matrix r place inertia base dofs (st_s st) (matrix st). Proof. apply MO. Qed.
Notation val := (val r place base mas mom).

Notation spattern := (p_sjac (cmm_patterns dofs (cmm_ctor c shared))).
Notation cpattern := (p_cjac (cmm_patterns dofs (cmm_ctor c shared))).
Definition inv (s : cmm) : Prop := cm_cfg s = c /\ (forall i k, ~ In (i, k) spattern -> cm_sbuffer s (3 + i)%nat k = 0) /\ (forall i k, ~ In (i, k) cpattern -> cm_cbuffer s (3 + i)%nat k = 0).
Lemma in_spattern i k : In (i, k) spattern <-> (i < 3)%nat /\ (in_range os dofs k = true \/ k = om + 3 + i \/ in_range oq 4 k = true)%nat.
Proof.
  cbn [cmm_patterns p_sjac cmm_ctor cm_cfg]. rewrite !in_app_iff, !in_identity_block, !in_dense_block. split.
  - intros [(a & b & Ha & Hb & Q)|[(a & Ha & Q)|(a & b & Ha & Hb & Q)]]; injection Q as -> ->; rewrite !in_range_spec; cbn [Nat.add]; (split; [lia|]); lia.
  - rewrite !in_range_spec. intros [Hi [H|[-> |H]]].
    + left. exists i, (k - os)%nat. split; [lia|]. split; [lia|]. f_equal; lia.
    + right. left. exists i. auto.
    + right. right. exists i, (k - oq)%nat. split; [lia|]. split; [lia|]. f_equal; lia.
Qed.
Lemma in_cpattern i k : In (i, k) cpattern <-> (i < 3)%nat /\ (in_range od 4 k = true \/ in_range ol 3 k = true \/ in_range ov dofs k = true).
Proof.
  cbn [cmm_patterns p_cjac cmm_ctor cm_cfg]. rewrite !in_app_iff, !in_dense_block. split.
  - intros [(a & b & Ha & Hb & Q)|[(a & b & Ha & Hb & Q)|(a & b & Ha & Hb & Q)]]; injection Q as -> ->; rewrite !in_range_spec; cbn [Nat.add]; (split; [lia|]); lia.
  - rewrite !in_range_spec. intros [Hi [H|[H|H]]].
    + left. exists i, (k - od)%nat. split; [lia|]. split; [lia|]. f_equal; lia.
    + right. left. exists i, (k - ol)%nat. split; [lia|]. split; [lia|]. f_equal; lia.
    + right. right. exists i, (k - ov)%nat. split; [lia|]. split; [lia|]. f_equal; lia.
Qed.
(** ** What the methods write *)
Definition DQ (st : rstate) (i k : nat) : R :=
  sumn 4 (fun e => (RotatedVectorQuaternionJacobian (vent (ang (mom st))) (NormalizedQuaternion (st_q st)) i e +
     RotatedVectorQuaternionJacobian (vent (vcross (vopp (papply (pinv (base_transform st)) (com_position cpos st))) (lin (mom st)))) (NormalizedQuaternion (st_q st)) i e) * NormalizedQuaternionDerivative (st_q st) e k)
  + sumn 6 (fun a => m6ent (AdjW (centroidal_base cpos st)) (3 + i)%nat a * hq matrix st k a).
Definition DS (st : rstate) (i k : nat) : R :=
  sumn 6 (fun a => m6ent (AdjW (centroidal_base cpos st)) (3 + i)%nat a * match dmom st with Some D => D | None => fun _ _ => 0 end a k) +
  sumn 3 (fun a => ment (SpecRigid.skew (lin (m6v (AdjW (centroidal_base cpos st)) (mom st)))) i a * cjac (st_q st) (st_p st) (st_s st) a (6 + k)%nat).
Definition DU (st : rstate) (i k : nat) : R := sumn 6 (fun a => m6ent (AdjW (centroidal_base cpos st)) (3 + i)%nat a * matrix st a k).
Definition sform (st : rstate) (B : mat) (i k : nat) : R :=
  if (i <? 3)%nat then
    if in_range oq 4 k then DQ st i (k - oq) else if in_range om 6 k then scaled_identity (-1) (3 + i)%nat (k - om)%nat
    else if in_range os dofs k then DS st i (k - os) else B (3 + i)%nat k
  else B (3 + i)%nat k.
Definition cform (st : rstate) (B : mat) (i k : nat) : R :=
  if (i <? 3)%nat then
    if in_range ov dofs k then DU st i (6 + (k - ov))%nat
    else if in_range od 4 k then sumn 3 (fun f => DU st i (3 + f)%nat * QuaternionLeftTrivializedDerivativeInverse (NormalizedQuaternion (st_q st)) f (k - od)%nat)
    else if in_range ol 3 k then DU st i (k - ol)%nat else B (3 + i)%nat k
  else B (3 + i)%nat k.
Lemma state_now s t x u : cm_cfg s = c -> cm_shared (cmm_update dofs s t x u) t = cmm_state dofs c x u.
Proof. intros E. unfold cmm_update, cmm_set_shared. cbn [cm_shared]. destruct (Req_EM_T t t); [|congruence]. rewrite E. reflexivity. Qed.
Lemma row6 i : in_range 0 6 (3 + i) = (i <? 3)%nat. Proof. unfold in_range. destruct (Nat.ltb_spec i 3), (Nat.ltb_spec (3 + i) (0 + 6)); cbn; auto; lia. Qed.
Lemma row3 i : in_range 3 3 (3 + i) = (i <? 3)%nat. Proof. unfold in_range. destruct (Nat.ltb_spec i 3), (Nat.ltb_spec (3 + i) (3 + 3)), (Nat.leb_spec 3 (3 + i)); cbn; auto; lia. Qed.
Lemma row0 i : in_range 0 3 (3 + i) = false. Proof. unfold in_range. destruct (Nat.ltb_spec (3 + i) (0 + 3)); cbn; auto; lia. Qed.
Lemma sbuffer_form s t x u J i k : cm_cfg s = c -> cm_sbuffer (fst (cmm_sjac dofs mom matrix dmom cpos cjac s t x u J)) (3 + i)%nat k = sform (cmm_state dofs c x u) (cm_sbuffer s) i k.
Proof.
  intros E. unfold cmm_sjac. rewrite state_now, E by exact E. cbv zeta. cbn [fst cmm_set_buffers cm_sbuffer]. set (st := cmm_state dofs c x u).
  destruct AP as (A1 & A2 & A3 & A4 & A5 & A6 & _).
  unfold set_block, sform. rewrite !row6, ?row3, ?row0. cbn [andb].
  destruct (Nat.ltb_spec i 3) as [Hi|Hi]; cbn [andb]; [|reflexivity].
  destruct (in_range oq 4 k) eqn:Q.
  - replace (oq + (k - oq))%nat with k by (apply in_range_spec in Q; lia). rewrite ?Nat.sub_0_r, ?Q, ?row6, ?row3, ?row0.
    replace (3 + i - 3)%nat with i by lia. assert (LI : (i <? 3)%nat = true) by (apply Nat.ltb_lt; exact Hi). rewrite LI. cbn [andb]. reflexivity.
  - destruct (in_range om 6 k) eqn:Q1; [rewrite Nat.sub_0_r; reflexivity|]. destruct (in_range os dofs k) eqn:Q2; [|reflexivity].
    replace (3 + i - 3)%nat with i by lia. replace (os + (k - os))%nat with k by (apply in_range_spec in Q2; lia). rewrite Q2. assert (LI : (i <? 3)%nat = true) by (apply Nat.ltb_lt; exact Hi). rewrite LI. cbn [andb].
    rewrite Nat.sub_0_r. reflexivity.
Qed.
Lemma cbuffer_form s t x u J i k : cm_cfg s = c -> cm_cbuffer (fst (cmm_cjac dofs matrix cpos s t x u J)) (3 + i)%nat k = cform (cmm_state dofs c x u) (cm_cbuffer s) i k.
Proof.
  intros E. unfold cmm_cjac. rewrite state_now, E by exact E. cbv zeta. cbn [fst cmm_set_buffers cm_cbuffer]. set (st := cmm_state dofs c x u).
  unfold set_block, cform. rewrite !row6, !Nat.sub_0_r. destruct (i <? 3)%nat; cbn [andb]; [|reflexivity].
  destruct (in_range ov dofs k); [reflexivity|]. destruct (in_range od 4 k); [reflexivity|]. destruct (in_range ol 3 k); reflexivity.
Qed.
Lemma sform_zero st B : (forall i k, ~ In (i, k) spattern -> B (3 + i)%nat k = 0) -> forall i k, ~ In (i, k) spattern -> sform st B i k = 0.
Proof.
  intros H i k N. unfold sform. destruct (Nat.ltb_spec i 3) as [Hi|Hi]; [|auto]. rewrite in_spattern in N.
  destruct (in_range oq 4 k) eqn:Q1; [exfalso; apply N; auto|]. destruct (in_range om 6 k) eqn:Q2.
  { apply in_range_spec in Q2. unfold scaled_identity. destruct (Nat.eqb_spec (3 + i) (k - om)); [|reflexivity]. exfalso. apply N. lia. }
  destruct (in_range os dofs k) eqn:Q3; [exfalso; apply N; auto|]. apply H. rewrite in_spattern, Q1, Q3. exact N.
Qed.
Lemma cform_zero st B : (forall i k, ~ In (i, k) cpattern -> B (3 + i)%nat k = 0) -> forall i k, ~ In (i, k) cpattern -> cform st B i k = 0.
Proof.
  intros H i k N. unfold cform. destruct (Nat.ltb_spec i 3) as [Hi|Hi]; [|auto]. rewrite in_cpattern in N.
  destruct (in_range ov dofs k) eqn:Q1; [exfalso; apply N; auto|]. destruct (in_range od 4 k) eqn:Q2; [exfalso; apply N; auto|].
  destruct (in_range ol 3 k) eqn:Q3; [exfalso; apply N; auto|]. apply H. rewrite in_cpattern, Q1, Q2, Q3. exact N.
Qed.
Lemma reachable_inv s : reachable s -> inv s.
Proof.
  apply reach_inv; unfold inv.
  - cbn. auto.
  - intros s' t x u (A & B & C). cbn. auto.
  - intros s' t x u J (A & B & C). split; [exact A|]. split; [|exact C]. intros i k N. change (c_sjac Cmm s' t x u J) with (cmm_sjac dofs mom matrix dmom cpos cjac s' t x u J). rewrite sbuffer_form by exact A. apply sform_zero; auto.
  - intros s' t x u J (A & B & C). split; [exact A|]. split; [exact B|]. intros i k N. change (c_cjac Cmm s' t x u J) with (cmm_cjac dofs matrix cpos s' t x u J). rewrite cbuffer_form by exact A. apply cform_zero; auto.
  - intros s' t x u l H (A & B & C). cbn. auto.
  - intros s' t x u l H (A & B & C). cbn. auto.
  - intros s' t x u l H (A & B & C). cbn. auto.
  - intros s' s'' (A & B & C) O. destruct O; cbn; auto.
Qed.

(** ** The value *)
Variable L : vec -> vec -> v3.
Hypothesis LF : centroidal_function r place inertia mas base dofs c L.
Lemma part3_of x o : V3 (part x o 3 0%nat) (part x o 3 1%nat) (part x o 3 2%nat) = part3 x o.
Proof. unfold part, part3. cbn. f_equal; f_equal; lia. Qed.
Lemma L_val x u : turned_base x -> L x u = val (cmm_state dofs c x u).
Proof.
  intros P. apply (centroidal_eq r place dofs up depth base child inertia fvel mas mom MC HM (cmm_state dofs c x u) (part3 x (at_position c)) (L x u) P).
  pose proof (LF x u) as Q. rewrite body_spin_eq in Q. unfold base_twist_of. cbn [cmm_state st_q st_s st_sd st_lin st_qd]. rewrite part3_of. exact Q.
Qed.
Lemma near_turned x k : turned_base x -> locally (x k) (fun t => turned_base (vset x k t)).
Proof.
  intros P. unfold turned_base. destruct (in_range oq 4 k) eqn:E.
  - eapply filter_imp; [|pose proof (vset_near (part x oq 4) (k - oq) P) as Q; rewrite part_in in Q by exact E; exact Q]. intros t Pt. rewrite part_vset, E. exact Pt.
  - apply filter_forall. intros t. rewrite part_vset, E. exact P.
Qed.
Lemma val_moved st st' : st_q st = st_q st' -> st_s st = st_s st' -> st_lin st = st_lin st' -> st_qd st = st_qd st' -> st_sd st = st_sd st' -> val st = val st'.
Proof. apply (val_same r place dofs up depth base child inertia fvel mas mom MC HM). Qed.
Lemma value_right s : reachable s -> forall t x u i, turned_base x -> snd (c_eval Cmm s t x u) i = momentum_error L x u i.
Proof.
  intros R t x u i P. destruct (reachable_inv s R) as [E _]. cbn [cmm_class c_eval cmm_eval snd]. rewrite state_now, E by exact E.
  rewrite (code_value r place dofs base mas mom cpos cjac CO (cmm_state dofs c x u) i P). unfold momentum_error. rewrite L_val by exact P. f_equal. f_equal. lia.
Qed.
(** ** The Jacobian with respect to the state *)
Lemma joints_value x u i k : turned_base x -> (i < 3)%nat -> in_range os dofs k = true -> partial (fun y => vent (L y u) i) x k (DS (cmm_state dofs c x u) i (k - os)).
Proof.
  intros P Hi E. unfold partial. destruct AP as (A1 & A2 & A3 & A4 & A5 & A6 & _). set (st := cmm_state dofs c x u).
  destruct (C69_momentum_derivative r place dofs up depth base child inertia fvel MC st) as (D & ED & _).
  assert (Hk : (k - os < dofs)%nat) by (apply in_range_spec in E; lia).
  pose proof (val_s r place dofs up depth base child inertia fvel mas mom cpos cjac MC CO HM st D (k - os) i ED P Hk Hi) as Q.
  unfold DS. fold st. rewrite ED. replace (st_s st (k - os)%nat) with (x k) in Q by (symmetry; apply (part_in x os dofs k E)).
  eapply is_derive_ext_loc; [|exact Q]. eapply filter_imp; [|apply (near_turned x k P)]. intros t Pt. cbv beta. rewrite L_val by exact Pt. f_equal. apply val_moved; cbn [with_s cmm_state st_q st_s st_lin st_qd st_sd st]; try reflexivity.
  - rewrite part_vset, (outside _ _ _ _ _ (apart_sym _ _ _ _ A6) E). reflexivity.
  - rewrite part_vset, E. reflexivity.
Qed.
Lemma quaternion_value x u i k : turned_base x -> (i < 3)%nat -> in_range oq 4 k = true -> partial (fun y => vent (L y u) i) x k (DQ (cmm_state dofs c x u) i (k - oq)).
Proof.
  intros P Hi E. unfold partial. destruct AP as (A1 & A2 & A3 & A4 & A5 & A6 & _). set (st := cmm_state dofs c x u).
  assert (Hk : (k - oq < 4)%nat) by (apply in_range_spec in E; lia).
  pose proof (val_q r place dofs base inertia mas mom matrix HM HX st (k - oq) i P Hk Hi) as Q.
  unfold DQ. rewrite (code_q r place dofs base mas mom matrix cpos cjac CO st i (k - oq) P Hk Hi). replace (st_q st (k - oq)%nat) with (x k) in Q by (symmetry; apply (part_in x oq 4 k E)).
  eapply is_derive_ext_loc; [|exact Q]. eapply filter_imp; [|apply (near_turned x k P)]. intros t Pt. cbv beta. rewrite L_val by exact Pt. f_equal. apply val_moved; cbn [with_q cmm_state st_q st_s st_lin st_qd st_sd st]; try reflexivity.
  - rewrite part_vset, E. reflexivity.
  - rewrite part_vset, (outside _ _ _ _ _ A6 E). reflexivity.
Qed.
Lemma other_value x u i k : turned_base x -> in_range oq 4 k = false -> in_range os dofs k = false -> partial (fun y => vent (L y u) i) x k 0.
Proof.
  intros P E1 E2. unfold partial. eapply is_derive_ext_loc; [|apply (D_const (vent (L x u) i))]. eapply filter_imp; [|apply (near_turned x k P)]. intros t Pt. cbv beta.
  rewrite !L_val by assumption. f_equal. apply val_moved; cbn [cmm_state st_q st_s st_lin st_qd st_sd]; rewrite ?part_vset, ?E1, ?E2; reflexivity.
Qed.
Lemma sform_partial x u i k : turned_base x -> (i < 3)%nat -> partial (fun y => momentum_error L y u i) x k (sform (cmm_state dofs c x u) (fun _ _ => 0) i k).
Proof.
  intros P Hi. destruct AP as (A1 & A2 & A3 & A4 & A5 & A6 & _). unfold momentum_error, sform. assert (LI : (i <? 3)%nat = true) by (apply Nat.ltb_lt; exact Hi). rewrite LI.
  destruct (in_range oq 4 k) eqn:Q1; [|destruct (in_range os dofs k) eqn:Q2].
  - eapply partial_eq; [apply partial_minus; [apply quaternion_value; auto|apply partial_var]|]. unfold ind.
    destruct (Nat.eqb_spec (om + 3 + i) k); [|ring]. exfalso. apply in_range_spec in Q1. unfold apart in *. lia.
  - rewrite (outside _ _ _ _ _ (apart_sym _ _ _ _ A3) Q2). eapply partial_eq; [apply partial_minus; [apply joints_value; auto|apply partial_var]|]. unfold ind.
    destruct (Nat.eqb_spec (om + 3 + i) k); [|ring]. exfalso. apply in_range_spec in Q2. unfold apart in *. lia.
  - eapply partial_eq; [apply partial_minus; [apply other_value; auto|apply partial_var]|]. unfold ind, scaled_identity. destruct (in_range om 6 k) eqn:Q3.
    + apply in_range_spec in Q3. destruct (Nat.eqb_spec (om + 3 + i) k), (Nat.eqb_spec (3 + i) (k - om)); try lia; ring.
    + destruct (Nat.eqb_spec (om + 3 + i) k); [|ring]. exfalso. assert (T : in_range om 6 k = true) by (apply in_range_spec; lia). congruence.
Qed.
Lemma sform_now st B i k : (forall i k, ~ In (i, k) spattern -> B (3 + i)%nat k = 0) -> sform st B i k = sform st (fun _ _ => 0) i k.
Proof.
  intros H. unfold sform. destruct (Nat.ltb_spec i 3) as [Hi|Hi]; [|apply H; rewrite in_spattern; lia].
  destruct (in_range oq 4 k) eqn:Q1; [reflexivity|]. destruct (in_range om 6 k) eqn:Q2; [reflexivity|]. destruct (in_range os dofs k) eqn:Q3; [reflexivity|].
  apply H. rewrite in_spattern, Q1, Q3. intros (_ & [Q|[Q|Q]]); try discriminate. assert (T : in_range om 6 k = true) by (apply in_range_spec; lia). congruence.
Qed.
(** ** The Jacobian with respect to the control *)
Lemma cform_now st B i k : (forall i k, ~ In (i, k) cpattern -> B (3 + i)%nat k = 0) -> cform st B i k = cform st (fun _ _ => 0) i k.
Proof.
  intros H. unfold cform. destruct (Nat.ltb_spec i 3) as [Hi|Hi]; [|apply H; rewrite in_cpattern; lia].
  destruct (in_range ov dofs k) eqn:Q1; [reflexivity|]. destruct (in_range od 4 k) eqn:Q2; [reflexivity|]. destruct (in_range ol 3 k) eqn:Q3; [reflexivity|].
  apply H. rewrite in_cpattern, Q1, Q2, Q3. intros (_ & [Q|[Q|Q]]); discriminate.
Qed.
(** The value is linear in the velocities, with coefficients that do not depend on them. *)
Lemma L_control st x u w i : turned_base x -> (i < 3)%nat -> st = cmm_state dofs c x u ->
  vent (L x w) i = sumn 3 (fun k => DU st i k * part w ol 3 k) + sumn 4 (fun k => sumn 3 (fun f => DU st i (3 + f)%nat * QuaternionLeftTrivializedDerivativeInverse (NormalizedQuaternion (st_q st)) f k) * part w od 4 k) + sumn dofs (fun k => DU st i (6 + k)%nat * part w ov dofs k).
Proof.
  intros P Hi ->. rewrite L_val by exact P. set (st := cmm_state dofs c x u).
  replace (cmm_state dofs c x w) with (with_u st (part w ol 3) (part w od 4) (part w ov dofs)) by reflexivity.
  rewrite (val_u r place dofs base inertia mas mom matrix cpos cjac CO HM HX st _ _ _ i P Hi). unfold hu, DU. rewrite NQ by exact P.
  rewrite (sum_swap6 dofs (m6ent (AdjW (centroidal_base cpos st)) (3 + i)%nat) (matrix st) (part w ov dofs)). cbn [sumn Nat.add]. ring.
Qed.
Lemma block_partial (a : vec) o n (u : vec) k : partial (fun w => sumn n (fun j => a j * part w o n j)) u k (if in_range o n k then a (k - o)%nat else 0).
Proof.
  unfold partial. destruct (in_range o n k) eqn:E.
  - assert (Hk : (k - o < n)%nat) by (apply in_range_spec in E; lia).
    pose proof (D_sumn n (fun j t => a j * part (vset u k t) o n j) (u k) (fun j => if (j =? k - o)%nat then a j else 0)) as Q.
    eapply D_eq; [apply Q|].
    + intros j Hj. apply is_derive_ext with (f := fun t => a j * vset (part u o n) (k - o) t j); [intros t; rewrite part_vset, E; reflexivity|].
      unfold vset. destruct (Nat.eqb_spec j (k - o)) as [->|N].
      * eapply D_eq; [apply D_mult; [apply D_const|apply (@is_derive_id R_AbsRing)]|]. change (0 * u k + a (k - o)%nat * 1 = a (k - o)%nat). ring.
      * apply (D_const (a j * part u o n j)).
    + rewrite (sumn_single n _ (k - o) Hk); [rewrite Nat.eqb_refl; reflexivity|]. intros j Hj N. apply Nat.eqb_neq in N. rewrite N. reflexivity.
  - eapply is_derive_ext; [|apply (D_const (sumn n (fun j => a j * part u o n j)))]. intros t. cbv beta. rewrite part_vset, E. reflexivity.
Qed.
Lemma cform_partial x u v i k : turned_base x -> (i < 3)%nat -> partial (fun w => momentum_error L x w i) v k (cform (cmm_state dofs c x u) (fun _ _ => 0) i k).
Proof.
  intros P Hi. destruct AP as (_ & _ & _ & _ & _ & _ & A7 & A8 & A9). set (st := cmm_state dofs c x u).
  eapply partial_ext; [intros w; unfold momentum_error; rewrite (L_control st x u w i P Hi eq_refl); reflexivity|].
  eapply partial_eq; [apply partial_minus; [apply partial_plus; [apply partial_plus|]; apply block_partial|apply (partial_const (x (om + 3 + i)%nat))]|].
  unfold cform. assert (LI : (i <? 3)%nat = true) by (apply Nat.ltb_lt; exact Hi). rewrite LI.
  destruct (in_range ov dofs k) eqn:Q1.
  - rewrite (outside _ _ _ _ _ (apart_sym _ _ _ _ A8) Q1), (outside _ _ _ _ _ (apart_sym _ _ _ _ A9) Q1). ring.
  - destruct (in_range od 4 k) eqn:Q2; [rewrite (outside _ _ _ _ _ (apart_sym _ _ _ _ A7) Q2); ring|]. destruct (in_range ol 3 k); ring.
Qed.

(** ** The theorems *)
(** After any history of calls, at any state whose base quaternion is not zero: the value, and the Jacobians with respect to
    state and control with their patterns, are those of the angular momentum about the centre of mass minus the one of the
    state. *)
Theorem C70_value_and_jacobians s : reachable s -> forall t x u, turned_base x ->
  (forall i, snd (c_eval Cmm s t x u) i = momentum_error L x u i) /\
  (forall J, let J' := snd (c_sjac Cmm s t x u J) in
     zero_outside (p_sjac (cmm_patterns dofs s)) J' /\ is_jacobian 3 (fun y => momentum_error L y u) x J') /\
  (forall J, let J' := snd (c_cjac Cmm s t x u J) in
     zero_outside (p_cjac (cmm_patterns dofs s)) J' /\ is_jacobian 3 (fun w => momentum_error L x w) u J').
Proof.
  intros R t x u P. destruct (reachable_inv s R) as (E & BS & BC). split; [intros i; apply value_right; auto|].
  assert (ES : p_sjac (cmm_patterns dofs s) = spattern) by (unfold cmm_patterns; rewrite E; reflexivity).
  assert (EC : p_cjac (cmm_patterns dofs s) = cpattern) by (unfold cmm_patterns; rewrite E; reflexivity).
  split; intros J; cbv zeta.
  - assert (F : forall i k, snd (c_sjac Cmm s t x u J) i k = sform (cmm_state dofs c x u) (cm_sbuffer s) i k) by (intros i k; rewrite <- (sbuffer_form s t x u J i k E); reflexivity).
    rewrite ES. split; [intros i k N; rewrite F; apply sform_zero; auto|]. intros i k Hi. rewrite F, sform_now by exact BS. apply sform_partial; auto.
  - assert (F : forall i k, snd (c_cjac Cmm s t x u J) i k = cform (cmm_state dofs c x u) (cm_cbuffer s) i k) by (intros i k; rewrite <- (cbuffer_form s t x u J i k E); reflexivity).
    rewrite EC. split; [intros i k N; rewrite F; apply cform_zero; auto|]. intros i k Hi. rewrite F, cform_now by exact BC. apply cform_partial; auto.
Qed.
(** The value is linear in the control: the second derivatives with respect to the control that the constraint returns
    (nothing is written, the pattern is empty) are right. *)
Theorem C70_control_hessian s : reachable s -> forall t x u l H, turned_base x -> zero_outside (p_chess (cmm_patterns dofs s)) H ->
  let H' := snd (c_chess Cmm s t x u l H) in
  zero_outside (p_chess (cmm_patterns dofs s)) H' /\ is_hessian (fun w => weighted 3 l (momentum_error L x w)) u H'.
Proof.
  intros R t x u l H P Z. cbv zeta. split; [exact Z|]. exists (fun _ k => sumn 3 (fun i => l i * cform (cmm_state dofs c x u) (fun _ _ => 0) i k)). split.
  - intros w k. unfold weighted. apply (sum_partial (fun i w => l i * momentum_error L x w i)). intros i Hi.
    eapply partial_eq; [apply partial_mult; [apply partial_const|apply (cform_partial x u w i k P Hi)]|]. cbv beta. ring.
  - intros j k. eapply partial_eq; [apply partial_const|]. symmetry. apply Z. cbn. auto.
Qed.
(** The other second derivatives: zero outside the declared patterns, and the block joints-quaternion is the transpose of the
    block quaternion-joints, whatever the expressions return.  PropCmmHess.v: with the expressions of the code, the blocks are
    the second derivatives. *)
Theorem C70_hessian_patterns s : reachable s -> forall t x u l H,
  (zero_outside (p_shess (cmm_patterns dofs s)) H -> zero_outside (p_shess (cmm_patterns dofs s)) (snd (c_shess Cmm s t x u l H))) /\
  (zero_outside (p_mhess (cmm_patterns dofs s)) H -> zero_outside (p_mhess (cmm_patterns dofs s)) (snd (c_mhess Cmm s t x u l H))) /\
  (forall a b, in_range oq 4 a = true -> in_range os dofs b = true -> snd (c_shess Cmm s t x u l H) a b = snd (c_shess Cmm s t x u l H) b a).
Proof.
  intros R t x u l H. destruct (reachable_inv s R) as (E & _). destruct AP as (A1 & A2 & A3 & A4 & A5 & A6 & A7 & A8 & A9).
  split; [|split].
  - intros Z. cbn [cmm_class c_shess cmm_shess snd cmm_patterns p_shess] in *. rewrite E in *. repeat (apply set_block_zero; [intros e I; rewrite !in_app_iff; tauto|]). exact Z.
  - intros Z. cbn [cmm_class c_mhess cmm_mhess snd cmm_patterns p_mhess] in *. rewrite E in *. repeat (apply set_block_zero; [intros e I; rewrite !in_app_iff; tauto|]). exact Z.
  - intros a b Ha Hb. cbn [cmm_class c_shess cmm_shess snd]. rewrite E. unfold set_block.
    rewrite Ha, Hb, (outside _ _ _ _ _ A6 Ha), (outside _ _ _ _ _ (apart_sym _ _ _ _ A6) Hb). cbn [andb]. reflexivity.
Qed.
(** The specification is met by one function. *)
Theorem C70_value_exists : (exists L, centroidal_function r place inertia mas base dofs c L) /\
  forall L1 L2, centroidal_function r place inertia mas base dofs c L1 -> centroidal_function r place inertia mas base dofs c L2 -> forall x u, L1 x u = L2 x u.
Proof.
  destruct MC as (rok & plc & trav & one & Hb & kids & fv). split.
  - exists (fun x u => ang (v6total (r_links r) (fun l => m6v (AdjW (pmul (Pose m3I (vopp (com_world r place mas base (base_pose (part x oq 4) (part3 x (at_position c))) (part x os dofs))))
      (pmul (base_pose (part x oq 4) (part3 x (at_position c))) (relative r place (part x os dofs) base l)))) (m6v (inertia l) (fvel (cmm_state dofs c x u) l))))).
    intros x u. exists (fvel (cmm_state dofs c x u)). split; [|reflexivity]. intros l Hl. rewrite body_spin_eq, <- part3_of.
    apply (fv (cmm_state dofs c x u) l). unfold is_frame. lia.
  - intros L1 L2 H1 H2 x u. destruct (H1 x u) as (w1 & W1 & ->), (H2 x u) as (w2 & W2 & ->). f_equal. apply v6total_ext. intros l Hl. do 2 f_equal.
    eapply (velocity_unique r place base); [exact rok|exact plc|exact Hb|apply link_ok; exact Hl|apply W1; exact Hl|apply W2; exact Hl].
Qed.
End Cmm.

(** The angular velocity of the base in the specification is the one of a base whose quaternion has norm one and moves with d. *)
Theorem C70_body_spin (q : R -> vec) (p : R -> v3) (x : R) (d : vec) (v : v3) : qnorm2 (q x) = 1 ->
  (forall k, (k < 4)%nat -> is_derive (fun t => q t k) x (d k)) -> is_derive_v3 p x (mv (qmat (qunit (q x))) v) ->
  moves (fun t => base_pose (q t) (p t)) x (V6 v (body_spin (qunit (q x)) d)).
Proof.
  intros U D DP. pose proof (base_moves q p x d v ltac:(lra) D DP) as Q. rewrite U, sqrt_1 in Q. rewrite body_spin_eq.
  replace (vscale (1 / 1) (Ginv3 (qunit (q x)) d)) with (Ginv3 (qunit (q x)) d) in Q; [exact Q|]. destruct (Ginv3 (qunit (q x)) d). unfold vscale. cbn. f_equal; field.
Qed.
(** The bounds: zero at first, then plus and minus half the tolerance last set; nothing else changes them. *)
Theorem C70_bounds dofs mom matrix dmom cpos cjac second c shared s tol :
  let C := cmm_class dofs mom matrix dmom cpos cjac second in
  (cm_lower (cmm_ctor c shared) = 0 /\ cm_upper (cmm_ctor c shared) = 0) /\
  (cm_lower (cmm_set_tolerance s tol) = - (tol / 2) /\ cm_upper (cmm_set_tolerance s tol) = tol / 2) /\
  (forall t x u l M, let same s' := cm_lower s' = cm_lower s /\ cm_upper s' = cm_upper s in
     same (fst (c_eval C s t x u)) /\ same (fst (c_sjac C s t x u M)) /\ same (fst (c_cjac C s t x u M)) /\ same (fst (c_shess C s t x u l M)) /\
     same (fst (c_chess C s t x u l M)) /\ same (fst (c_mhess C s t x u l M)) /\ forall g, same (cmm_set_shared s g)).
Proof. split; [split; reflexivity|]. split; [split; cbn; lra|]. intros t x u l M. repeat split; reflexivity. Qed.

(** The robot state shared with the other elements: at the time of the call it becomes the one of the call, at every other time it
    is left as it was. *)
Theorem C70_other_times dofs mom matrix dmom cpos cjac second s t x u l M :
  let C := cmm_class dofs mom matrix dmom cpos cjac second in
  forall s', In s' [fst (c_eval C s t x u); fst (c_sjac C s t x u M); fst (c_cjac C s t x u M); fst (c_shess C s t x u l M); fst (c_mhess C s t x u l M)] ->
    cm_shared s' t = cmm_state dofs (cm_cfg s) x u /\ forall t', t' <> t -> cm_shared s' t' = cm_shared s t'.
Proof.
  intros C s' I. assert (E : forall v, cm_shared v = cm_shared (cmm_update dofs s t x u) -> cm_shared v t = cmm_state dofs (cm_cfg s) x u /\ forall t', t' <> t -> cm_shared v t' = cm_shared s t').
  { intros v ->. cbn. destruct (Req_EM_T t t); [|congruence]. split; [reflexivity|]. intros t' N. destruct (Req_EM_T t' t); congruence. }
  apply E. cbn in I. repeat (destruct I as [<-|I]; [reflexivity|]). contradiction.
Qed.

(** ** Concrete cases: the arm of KinInstance.v *)
From Verif Require Import KinUsers KinExist KinInstance PropCom.
Section Matrix.
Variable r : robot.
Variable place : vec -> nat -> pose.
Variable inertia : nat -> m6.
Variable dofs base : nat.
Variable jac : vec -> nat -> nat -> nat -> v6.
Notation rel := (relative r place).
Notation WV := (KinMotion.W r place dofs jac base).
Hypothesis VW : forall s sd b l w, (l < r_links r)%nat -> frame_velocity r place base s sd b l w -> w = WV s sd b l.
Definition link_matrix (s : vec) (l : nat) : mat := fun i k =>
  if (k <? 6)%nat then m6ent (m6mul (AdjW (rel s base l)) (m6mul (inertia l) (Adj (rel s l base)))) i k
  else v6ent (m6v (AdjW (rel s base l)) (m6v (inertia l) (jac s base l (k - 6)%nat))) i.
Definition total_matrix (s : vec) : mat := fun i k => sumn (r_links r) (fun l => link_matrix s l i k).
Lemma link_matrix_ok s sd b l i : (i < 6)%nat -> v6ent (m6v (AdjW (rel s base l)) (m6v (inertia l) (WV s sd b l))) i =
  sumn 6 (fun k => link_matrix s l i k * v6ent b k) + sumn dofs (fun k => link_matrix s l i (6 + k)%nat * sd k).
Proof.
  intros Hi. unfold KinMotion.W. rewrite !m6v_add, v6ent_add. f_equal.
  - rewrite <- !m6v_mul, v6ent_mul by exact Hi. apply sumn_ext. intros k Hk. unfold link_matrix. apply Nat.ltb_lt in Hk. rewrite Hk. rewrite m6mul_assoc. reflexivity.
  - rewrite !m6v_sum, v6ent_sum. apply sumn_ext. intros k Hk. rewrite !m6v_scale, v6ent_scale. unfold link_matrix.
    replace (6 + k <? 6)%nat with false by (symmetry; apply Nat.ltb_ge; lia). replace (6 + k - 6)%nat with k by lia. ring.
Qed.
Lemma sumn_swap n m (f : nat -> nat -> R) : sumn n (fun i => sumn m (fun j => f i j)) = sumn m (fun j => sumn n (fun i => f i j)).
Proof. induction n as [|n IH]; cbn [sumn]; [rewrite sumn_0; reflexivity|]. rewrite IH, <- sumn_plus. reflexivity. Qed.
Lemma sumn_scal_r n c f : sumn n (fun i => f i * c) = sumn n f * c.
Proof. rewrite Rmult_comm, <- sumn_scal. apply sumn_ext. intros. ring. Qed.
Lemma matrix_exists s : momentum_matrix r place inertia base dofs s (total_matrix s).
Proof.
  intros sd b h (w & Hw & ->) i Hi. rewrite v6total_sum, v6ent_sum.
  rewrite (sumn_ext _ _ (fun l => sumn 6 (fun k => link_matrix s l i k * v6ent b k) + sumn dofs (fun k => link_matrix s l i (6 + k)%nat * sd k))).
  - rewrite sumn_plus. f_equal; rewrite sumn_swap; apply sumn_ext; intros k Hk; rewrite sumn_scal_r; reflexivity.
  - intros l Hl. rewrite (VW _ _ _ _ _ Hl (Hw l Hl)). apply link_matrix_ok. exact Hi.
Qed.
End Matrix.
Definition arm_momentum (st : rstate) : v6 := v6total (r_links arm) (fun l => m6v (AdjW (relative arm place (st_s st) 0 l)) (m6v (arm_inertia l) (arm_vel st l))).
Definition arm_matrix (st : rstate) : mat := total_matrix arm place arm_inertia 0 jac (st_s st).
Example arm_momentum_oracle : momentum_oracle arm place arm_inertia 0 2 arm_momentum arm_matrix.
Proof.
  intros st. split; [apply (C69_momentum_exists arm place 2 up depth 0 arm_child arm_inertia arm_vel arm_mechanics)|].
  apply matrix_exists. intros s sd b l w Hl H. eapply (velocity_unique arm place 0); [exact arm_ok|exact arm_placement|cbn; lia|apply link_ok; exact Hl|exact H|].
  apply (W_velocity arm place 2 up depth 0 jac arm_ok arm_placement arm_traversal); auto; try apply arm_jac; try (cbn; lia). apply link_ok; exact Hl.
Qed.
(** State: momentum 0-5, base position 6-8, quaternion 9-12, two joints 13-14.  Control: linear velocity 0-2, derivative of the
    quaternion 3-6, velocities of the joints 7-8. *)
Definition arm_layout : layout := Layout 0 6 9 13 0 3 7.
Example arm_apart : layout_apart arm_layout 2. Proof. unfold layout_apart, apart. cbn. lia. Qed.
Definition arm_state : vec := fun i => if (i =? 9)%nat then 1 else 0.
Example arm_cmm second : exists cpos cjac L, centroidal_function arm place arm_inertia arm_masses 0 2 arm_layout L /\ turned_base arm_layout arm_state /\
  let dmom := mom_derivative arm 2 (up 0) 0 arm_child arm_inertia (relative arm place) arm_vel in
  let C := cmm_class 2 arm_momentum arm_matrix dmom cpos cjac second in
  forall s, reach C cmm_other (cmm_ctor arm_layout (fun _ => arm_turning)) s -> forall t u J,
    is_jacobian 3 (fun y => momentum_error arm_layout L y u) arm_state (snd (c_sjac C s t arm_state u J)).
Proof.
  destruct arm_com_oracle as (cpos & cjac & CO). exists cpos, cjac.
  destruct (proj1 (C70_value_exists arm place 2 up depth 0 arm_child arm_inertia arm_vel arm_masses arm_layout arm_mechanics)) as (L & HL).
  exists L. split; [exact HL|].
  assert (T : turned_base arm_layout arm_state) by (unfold turned_base, qnorm2, part, arm_state; cbn; lra). split; [exact T|]. cbv zeta. intros s R t u J.
  apply (C70_value_and_jacobians arm place 2 up depth 0 arm_child arm_inertia arm_vel arm_masses arm_momentum arm_matrix cpos cjac second arm_layout (fun _ => arm_turning) arm_mechanics CO arm_momentum_oracle arm_apart L HL s R t arm_state u T).
Qed.
Print Assumptions C70_value_and_jacobians.
Print Assumptions C70_control_hessian.
Print Assumptions C70_hessian_patterns.
Print Assumptions C70_value_exists.
Print Assumptions C70_body_spin.
Print Assumptions C70_other_times.
Print Assumptions C70_bounds.
