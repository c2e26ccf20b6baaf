(** Proofs about FeetLateralDistanceConstraint. *)
From Coq Require Import Reals List Arith Lia Lra Bool FunctionalExtensionality.
From Coquelicot Require Import Coquelicot.
From Verif Require Import Spec PartialLib QuadLib SpecRigid SpecDerivatives SpecFeet Rigid RigidCalc KinTree ConstraintsModel CostsModel.
From Verif Require Import KinModel KinLib KinMotion KinProofs PropKin SymModel SymProofs SymKin MixLib FeetModel.
Import ListNotations.
Local Open Scope R_scope.

Lemma part_vset x k t o n : part (vset x k t) o n = if in_range o n k then vset (part x o n) (k - o) t else part x o n.
Proof.
  apply functional_extensionality. intros i. destruct (in_range o n k) eqn:E.
  - apply in_range_spec in E. unfold part, vset. destruct (Nat.ltb_spec i n), (Nat.eqb_spec i (k - o)), (Nat.eqb_spec (o + i) k); try lia; reflexivity.
  - unfold part, vset. destruct (Nat.ltb_spec i n); [|reflexivity]. destruct (Nat.eqb_spec (o + i) k); [|reflexivity].
    exfalso. assert (in_range o n k = true) by (apply in_range_spec; lia). congruence.
Qed.
Lemma part_in x o n k : in_range o n k = true -> part x o n (k - o)%nat = x k.
Proof. intros E. apply in_range_spec in E. unfold part. destruct (Nat.ltb_spec (k - o) n); [|lia]. f_equal. lia. Qed.
(** A function of a part of the state. *)
Lemma part_partial (h : vec -> R) o n x k d : in_range o n k = true -> partial h (part x o n) (k - o) d -> partial (fun y => h (part y o n)) x k d.
Proof.
  intros E H. unfold partial in *. rewrite part_in in H by exact E. eapply is_derive_ext; [|exact H].
  intros t. cbv beta. rewrite part_vset, E. reflexivity.
Qed.
Lemma part_partial_0 (h : vec -> R) o n x k : in_range o n k = false -> partial (fun y => h (part y o n)) x k 0.
Proof. intros E. unfold partial. eapply is_derive_ext; [|apply D_const]. intros t. cbv beta. rewrite part_vset, E. reflexivity. Qed.
(** The Hessian written column by column. *)
Lemma columns_block (o n : nat) (f : nat -> nat -> R) (H : mat) a b :
  fold_left (fun H i => set_block H o (o + i) n 1 (fun a _ => f i a)) (seq 0 n) H a b =
  if in_range o n a && in_range o n b then f (b - o)%nat (a - o)%nat else H a b.
Proof.
  assert (G : forall m, (m <= n)%nat -> fold_left (fun H i => set_block H o (o + i) n 1 (fun a _ => f i a)) (seq 0 m) H a b =
     if in_range o n a && in_range o m b then f (b - o)%nat (a - o)%nat else H a b); [|apply (G n (le_n n))].
  induction m as [|m IH]; intros L.
  - cbn. replace (in_range o 0 b) with false; [rewrite andb_false_r; reflexivity|]. symmetry. apply not_true_is_false. rewrite in_range_spec. lia.
  - rewrite seq_S, fold_left_app. cbn [fold_left Nat.add]. unfold set_block at 1. rewrite IH by lia.
    destruct (in_range o n a); cbn [andb]; [|reflexivity].
    destruct (in_range (o + m) 1 b) eqn:E1; destruct (in_range o m b) eqn:E2; destruct (in_range o (S m) b) eqn:E3;
      try reflexivity; try apply in_range_spec in E1; try apply in_range_spec in E2; try apply in_range_spec in E3; try lia.
    + replace (b - o)%nat with m by lia. reflexivity.
    + exfalso. assert (in_range o (S m) b = true) by (apply in_range_spec; lia). congruence.
    + exfalso. assert (in_range o (S m) b = true) by (apply in_range_spec; lia). congruence.
    + exfalso. assert (in_range o m b = true \/ in_range (o + m) 1 b = true) as [|] by (rewrite !in_range_spec; lia); congruence.
Qed.

Section Feet.
Variable r : robot.
Variable place : vec -> nat -> pose.
Variable dofs : nat.
Variable up : nat -> nat -> option (nat * nat).
Variable depth : nat -> nat -> nat.
Variable base : nat.
Variable bt : formula.
Variable bt_dep : nat -> bool.
Variable jac : vec -> nat -> nat -> nat -> v6.
Variable fvel : env -> nat -> v6.
Variable btw : env -> v6.
Variable quat : m3 -> vec.
Notation rel := (relative r place).
Notation VD := (vdim dofs).
Notation UE := (ueval r dofs up base bt rel jac fvel quat).
Notation FR := (frows VD urows (ucols dofs)).
Notation FC := (fcols VD urows (ucols dofs)).
Notation M := (meaning VD urows (ucols dofs) UE).
Notation WF := (well_formed VD urows (ucols dofs) UE).
Notation DEEP := (deep r dofs up base bt bt_dep).
Hypothesis K : kinematics r place dofs up depth base jac fvel btw quat.
Let rok : robot_ok r := k_robot _ _ _ _ _ _ _ _ _ _ K.
Let plc : placement r place := k_place _ _ _ _ _ _ _ _ _ _ K.
Let trav : forall b, (b < r_links r)%nat -> traversal r b (up b) (depth b) := k_trav _ _ _ _ _ _ _ _ _ _ K.

Lemma keeps_unturned f g : is_frame r f -> is_frame r g -> keeps_axis r up f g -> unturned r up f g.
Proof.
  intros F G H p i N U. destruct (trav _ (fl_lt r rok f F) (frame_link r g) (fl_lt r rok g G) ltac:(congruence)) as (p' & i' & j & U' & E & _).
  rewrite U in U'. injection U' as <- <-. unfold motion_axis. rewrite (nth_error_nth _ _ _ E). eapply H; eauto.
Qed.
Lemma keeps_all f g : is_frame r f -> is_frame r g -> keeps_axes r g -> keeps_axis r up f g.
Proof.
  intros F G H p i j N U E. destruct (trav _ (fl_lt r rok f F) (frame_link r g) (fl_lt r rok g G) ltac:(congruence)) as (p' & i' & j' & U' & E' & C & _).
  rewrite U in U'. injection U' as <- <-. rewrite E in E'. injection E' as <-. eapply H; eauto.
Qed.

Section Frames.
Variable f g n : nat.
Hypothesis F : is_frame r f.
Hypothesis G : is_frame r g.
Hypothesis Hn : (n < 3)%nat.
(** The distance as a function of the joints, and its gradient. *)
Definition hh (s : vec) : R := vent (pos (rel s f g)) n.
Definition gg (s : vec) (k : nat) : R := vent (mixed_linear rel jac s f g k) n.
Lemma hh_partial s k : (k < dofs)%nat -> partial hh s k (gg s k).
Proof.
  intros Hk. pose proof (k_jac _ _ _ _ _ _ _ _ _ _ K s f g k F G Hk) as [_ D]. unfold partial, hh.
  pose proof (vent_D _ _ _ D n) as Q. unfold gg, mixed_linear. rewrite vset_same in Q. exact Q.
Qed.
Lemma hh_mixed s i j a b : (i < dofs)%nat -> (j < dofs)%nat -> partial (fun s => gg s i) s j a -> partial (fun s => gg s j) s i b -> a = b.
Proof.
  intros Hi Hj A B. destruct (Nat.eq_dec i j) as [->|N].
  { apply (D_unique (fun t => gg (vset s j t) j) (s j)); assumption. }
  pose proof (rel_mix (fun _ _ => True) r place up depth rok plc trav s i j f g N F G) as [_ X].
  pose proof (vmix_ent (fun _ _ => True) _ n X) as Y.
  refine (mix_sym (fun _ _ => True) _ (fun x y => gg (vset (vset s i x) j y) i) (fun x y => gg (vset (vset s i x) j y) j) (s i) (s j) a b Y Logic.I _ _ _ _ _ _).
  - apply filter_true.
  - apply filter_true.
  - intros t _. pose proof (hh_partial (vset (vset s i (s i)) j t) i Hi) as D. unfold partial in D. rewrite vset_other, vset_at in D by auto.
    eapply is_derive_ext; [|exact D]. intros z. cbv beta. unfold hh. rewrite (vset_comm _ j i), vset_vset by auto. reflexivity.
  - intros t _. pose proof (hh_partial (vset (vset s i t) j (s j)) j Hj) as D. unfold partial in D. rewrite vset_at in D.
    eapply is_derive_ext; [|exact D]. intros z. cbv beta. unfold hh. rewrite vset_vset. reflexivity.
  - unfold partial in A. eapply is_derive_ext; [|exact A]. intros t. cbv beta. rewrite vset_same. reflexivity.
  - unfold partial in B. eapply is_derive_ext; [|exact B]. intros t. cbv beta.
    replace (vset (vset s i t) j (s j)) with (vset s i t); [reflexivity|]. rewrite <- (vset_other s i j t) by auto. rewrite vset_same. reflexivity.
Qed.

Definition ff : formula := FRow (relpos f g) n.
Lemma ff_value rho : M rho ff 0%nat 0%nat = hh (rho v_s).
Proof. unfold ff. cbn [meaning]. apply (C58_position_value r place dofs up depth base bt jac fvel btw quat K f g rho n F G Hn). Qed.
Lemma ff_wf : WF ff /\ FR ff = 1%nat /\ FC ff = 1%nat.
Proof.
  destruct (relpos_shape r place dofs up base bt jac fvel quat f g) as (R0 & C0 & W0). unfold ff. cbn [frows fcols well_formed]. rewrite R0. auto.
Qed.
Lemma ff_first : exists X, dcol dofs DEEP ff 0 v_s = Some X /\ FR X = 1%nat /\ FC X = dofs /\ WF X /\
  forall rho k, (k < dofs)%nat -> M rho X 0%nat k = gg (rho v_s) k.
Proof.
  destruct ff_wf as (W & R0 & C0). destruct (relpos_shape r place dofs up base bt jac fvel quat f g) as (_ & CP & _).
  assert (RD : forall rho, ready dofs DEEP UE rho v_s ff 0).
  { intros rho. apply ready_row; [exact W|rewrite CP; lia|]. apply (relpos_ready r place dofs up depth base bt bt_dep jac fvel btw quat K f g rho v_s F G). }
  destruct (dcol_sound dofs DEEP UE (fun _ _ => 0) v_s ff 0 W ltac:(lia) (RD _)) as (X & E & RX & CX & WX & _).
  exists X. split; [exact E|]. split; [congruence|]. split; [exact CX|]. split; [exact WX|]. intros rho k Hk.
  destruct (dcol_sound dofs DEEP UE rho v_s ff 0 W ltac:(lia) (RD _)) as (X' & E' & _ & _ & _ & D). rewrite E in E'. injection E' as <-.
  specialize (D 0%nat k ltac:(lia) Hk). apply (D_unique _ _ _ _ D).
  eapply is_derive_ext; [intros t; symmetry; apply ff_value|]. pose proof (hh_partial (rho v_s) k Hk) as Q. unfold partial in Q.
  eapply is_derive_ext; [|exact Q]. intros t. cbv beta. unfold at_entry, env_set. rewrite Nat.eqb_refl. reflexivity.
Qed.
(** What the code computes for the second derivatives, whatever the offset of g. *)
Lemma ff_code rho i k : f <> g -> (i < dofs)%nat -> (k < dofs)%nat ->
  exists D X J', dcol dofs DEEP ff 0 v_s = Some D /\ dcol dofs DEEP D i v_s = Some X /\
    (forall l, (l < 3)%nat -> is_derive (fun x => vent (lin (jac (vset (rho v_s) k x) f g i)) l) (rho v_s k) (J' l)) /\
    M rho X 0%nat k = sumn 3 (fun l => ment (rot (rel (rho v_s) f g)) n l * J' l) +
      sumn 3 (fun l => vent (lin (jac (rho v_s) f g i)) l * (if (frame_link r f =? frame_link r g)%nat then 0 else val r dofs up base bt rel jac fvel quat (KAdjD false f g l) rho n k)).
Proof.
  intros N Hi Hk. apply Nat.eqb_neq in N.
  set (A := relrot f g). set (B := FBlock (reljac dofs f g) 0 0 3 dofs).
  destruct (relrot_shape r place dofs up depth base bt jac fvel btw quat K f g) as (RA & CA & WA). fold A in RA, CA, WA.
  destruct (reljac_shape r place dofs up base bt jac fvel quat f g) as (RJ & CJ & WJ).
  assert (WB : WF B) by (split; [exact WJ|]; lia).
  assert (RB : ready dofs DEEP UE rho v_s B i).
  { apply ready_block; [exact WB|exact Hi|]. apply (reljac_ready r place dofs up depth base bt bt_dep jac fvel btw quat K); auto. }
  destruct (dcol_sound dofs DEEP UE rho v_s B i WB Hi RB) as (DB & EB & RDB & CDB & WDB & HB).
  change (FR B) with 3%nat in RDB, HB.
  assert (DA : forall l, (l < 3)%nat -> exists DL, dcol dofs DEEP A l v_s = Some DL /\ FR DL = 3%nat /\ FC DL = dofs /\ WF DL /\
     forall a b, M rho DL a b = if (frame_link r f =? frame_link r g)%nat then 0 else val r dofs up base bt rel jac fvel quat (KAdjD false f g l) rho a b).
  { intros l Hl. unfold A, relrot, adj. rewrite N. unfold leaf. cbn [dcol users Nat.add]. rewrite decode_code. cbn [deep hand derivative option_map].
    rewrite Nat.eqb_refl, andb_true_r. eexists. split; [reflexivity|]. split; [reflexivity|]. split; [reflexivity|]. split.
    - destruct (frame_link r f =? frame_link r g)%nat; cbn [negb].
      + split; [exact Logic.I|]. split; [cbn; lia|apply le_n].
      + unfold adjD. rewrite N. split; [exact Logic.I|]. rewrite leaf_rows, leaf_cols. split; [cbn; lia|apply le_n].
    - intros a b. cbn [meaning Nat.add]. destruct (frame_link r f =? frame_link r g)%nat; cbn [negb]; [reflexivity|].
      unfold adjD. rewrite N. apply leaf_value. }
  assert (SH : forall l, (l < FC A)%nat -> shaped dofs DEEP UE A l v_s).
  { intros l Hl. rewrite CA in Hl. destruct (DA l Hl) as (DL & E1 & E2 & E3 & E4 & _). exists DL. rewrite RA. auto. }
  destruct (wf_mul_intro dofs UE A DB WA WDB ltac:(congruence)) as (W1 & R1 & C1 & V1).
  destruct (fold_spec dofs DEEP UE A B i v_s 3 (FMul A DB) WB Hi ltac:(rewrite CA; reflexivity) SH ltac:(lia) ltac:(congruence) ltac:(congruence) W1) as (X & EX & RX & CX & WX & VX).
  assert (SA : scalar_size dofs A = false) by (unfold scalar_size; rewrite RA, CA; reflexivity).
  assert (SB : scalar_size dofs B = false) by reflexivity.
  assert (E1 : dcol dofs DEEP ff 0 v_s = Some (FRow (FMul A B) n)).
  { unfold ff, relpos. rewrite N. unfold leaf. cbn [dcol users]. rewrite decode_code. cbn [deep hand derivative option_map]. rewrite Nat.eqb_refl. reflexivity. }
  assert (NA : users (fun _ => false) A = false) by (unfold A, relrot, adj; rewrite N; reflexivity).
  assert (E2 : dcol dofs DEEP (FRow (FMul A B) n) i v_s = Some (FRow X n)).
  { cbn [dcol users]. rewrite NA. cbn [andb]. rewrite SA, SB, CA. fold B. rewrite EB. cbn [option_map]. rewrite EX. reflexivity. }
  exists (FRow (FMul A B) n), (FRow X n), (fun l => M rho DB l k). split; [exact E1|]. split; [exact E2|]. split.
  - intros l Hl. specialize (HB l k Hl Hk). eapply is_derive_ext; [|exact HB]. intros t. unfold B. cbn [meaning Nat.add]. unfold reljac. rewrite N, leaf_value.
    cbn [val val1 val0]. unfold at_entry, env_set. rewrite Nat.eqb_refl. unfold v6ent. apply Nat.ltb_lt in Hl. rewrite Hl. reflexivity.
  - cbn [meaning]. rewrite VX by (rewrite ?RA; auto). rewrite V1 by (rewrite ?RA, ?CDB; auto). rewrite CA. f_equal.
    + apply sumn_ext. intros l Hl. f_equal. apply (C58_rotation_value r place dofs up depth base bt jac fvel btw quat K f g rho n l F G Hn Hl).
    + apply sumn_ext. intros l Hl. unfold dval. destruct (DA l Hl) as (DL & E3 & _ & _ & _ & E4). rewrite E3, E4. f_equal.
      unfold B. cbn [meaning Nat.add]. unfold reljac. rewrite N, leaf_value. cbn [val val1 val0]. unfold v6ent. apply Nat.ltb_lt in Hl. rewrite Hl. reflexivity.
Qed.
Hypothesis UT : unturned r up f g.
Lemma ff_second D i : dcol dofs DEEP ff 0 v_s = Some D -> (i < dofs)%nat ->
  exists X, dcol dofs DEEP D i v_s = Some X /\ forall rho k, (k < dofs)%nat -> partial (fun s => gg s i) (rho v_s) k (M rho X 0%nat k).
Proof.
  intros E Hi. destruct ff_first as (D' & E' & RD & CD & WD & VD'). rewrite E in E'. injection E' as <-. destruct ff_wf as (W & R0 & C0).
  destruct (relpos_shape r place dofs up base bt jac fvel quat f g) as (_ & CP & _).
  assert (RDY : forall rho, ready dofs DEEP UE rho v_s D i).
  { intros rho.
    assert (R1 : ready dofs DEEP UE rho v_s ff 0).
    { apply ready_row; [exact W|rewrite CP; lia|]. apply (relpos_ready r place dofs up depth base bt bt_dep jac fvel btw quat K f g rho v_s F G). }
    refine (dcol_ready dofs DEEP UE rho v_s v_s ff 0 D W _ R1 R1 _ E i Hi); [lia|].
    pose proof (relpos_ready2 r place dofs up depth base bt bt_dep jac fvel btw quat K f g rho v_s v_s F G UT) as R2.
    unfold ff. cbn [ready2]. destruct (users (fun _ => false) (FRow (relpos f g) n)) eqn:NU; [|exact R2].
    intros k Hk. change (users (fun _ => false) (relpos f g) = true) in NU. revert R2. unfold relpos in *. destruct (f =? g)%nat; [|discriminate NU].
    intros _ a b Ha Hb. exists 0. eapply is_derive_ext; [|apply D_const]. intros t. cbn [meaning]. symmetry. apply (Derive_const 0). }
  destruct (dcol_sound dofs DEEP UE (fun _ _ => 0) v_s D i WD ltac:(lia) (RDY _)) as (X & EX & _).
  exists X. split; [exact EX|]. intros rho k Hk.
  destruct (dcol_sound dofs DEEP UE rho v_s D i WD ltac:(lia) (RDY _)) as (X' & EX' & _ & _ & _ & DX). rewrite EX in EX'. injection EX' as <-.
  specialize (DX 0%nat k ltac:(lia) Hk). unfold partial. eapply is_derive_ext; [|exact DX]. intros t. cbv beta. rewrite VD' by exact Hi.
  unfold at_entry, env_set. rewrite Nat.eqb_refl. reflexivity.
Qed.
End Frames.
End Feet.
