(** What the code computes for the derivatives of the position of a contact point with respect to the joints, whatever the frame. *)
From Coq Require Import Reals List Arith Lia Lra Bool FunctionalExtensionality.
From Coquelicot Require Import Coquelicot.
From Verif Require Import Spec PartialLib QuadLib SpecQuaternion SpecRigid SpecBase SpecDerivatives SpecFeet Rigid RigidCalc KinTree ConstraintsModel CostsModel.
From Verif Require Import KinModel KinLib KinMotion KinProofs QuatCurve PropKin BaseProofs PropBase SymModel SymProofs SymKin BaseModel FeetModel RatLib ContactModel ContactProofs.
Import ListNotations.
Local Open Scope R_scope.

Section Code.
Variable dofs : nat.
Variable du : kin -> nat -> nat -> option formula.
Variable ue : nat -> env -> mat.
Notation VD := (vdim dofs).
Notation FR := (frows VD urows (ucols dofs)).
Notation FC := (fcols VD urows (ucols dofs)).
Notation M := (meaning VD urows (ucols dofs) ue).
Notation WF := (well_formed VD urows (ucols dofs) ue).
Notation DV := (dval dofs du ue).
Notation SH := (shaped dofs du ue).
Lemma shaped_none A l v : users (fun _ => false) A = true -> WF A -> (l < FC A)%nat -> SH A l v.
Proof. intros N W H. exists (FDeriv A l v). split; [destruct A; cbn [dcol]; rewrite N; reflexivity|]. split; [reflexivity|]. split; [reflexivity|]. split; auto. Qed.
Lemma dval_none rho A l v i j : users (fun _ => false) A = true -> DV rho v A l i j = M rho (FDeriv A l v) i j.
Proof. intros N. unfold dval. destruct A; cbn [dcol]; rewrite N; reflexivity. Qed.
Lemma mul_code rho A C k v : WF A -> WF C -> FC A = FR C -> (k < FC C)%nat -> scalar_size dofs A = false -> scalar_size dofs C = false ->
  users (fun _ => false) (FMul A C) = false -> (forall l, (l < FC A)%nat -> SH A l v) -> SH C k v ->
  SH (FMul A C) k v /\ forall i j, (i < FR A)%nat -> (j < VD v)%nat ->
    DV rho v (FMul A C) k i j = sumn (FC A) (fun l => M rho A i l * DV rho v C k l j) + sumn (FC A) (fun l => M rho C l k * DV rho v A l i j).
Proof.
  intros WA WC EK Hk SA SC N HA (D & ED & RD & CD & WD).
  destruct (wf_mul_intro dofs ue A D WA WD ltac:(lia)) as (W1 & R1 & C1 & V1).
  destruct (fold_spec dofs du ue A C k v (FC A) (FMul A D) WC Hk EK HA (Nat.le_refl _) R1 ltac:(congruence) W1) as (X & EX & RX & CX & WX & VX).
  assert (E1 : dcol dofs du (FMul A C) k v = Some X).
  { cbn [dcol]. rewrite N, SA, SC, ED. cbn [option_map]. exact EX. }
  destruct (mul_mat dofs ue A C SA SC) as (R2 & _). split.
  - exists X. split; [exact E1|]. split; [congruence|]. split; [exact CX|exact WX].
  - intros i j Hi Hj. unfold dval at 1. rewrite E1. rewrite VX, V1 by (auto; lia). f_equal. apply sumn_ext. intros l Hl. unfold dval. rewrite ED. reflexivity.
Qed.
Lemma add_code rho A C k v : WF (FAdd A C) -> users (fun _ => false) (FAdd A C) = false -> SH A k v -> SH C k v ->
  SH (FAdd A C) k v /\ forall i j, DV rho v (FAdd A C) k i j = DV rho v A k i j + DV rho v C k i j.
Proof.
  intros (WA & WC & ER & EC) N (D1 & E1 & R1 & C1 & W1) (D2 & E2 & R2 & C2 & W2).
  assert (E : dcol dofs du (FAdd A C) k v = Some (FAdd D1 D2)) by (cbn [dcol]; rewrite N, E1, E2; reflexivity). split.
  - exists (FAdd D1 D2). split; [exact E|]. split; [exact R1|]. split; [exact C1|]. refine (conj W1 (conj W2 (conj _ _))); congruence.
  - intros i j. unfold dval. rewrite E, E1, E2. reflexivity.
Qed.
End Code.

Section Contact.
Variable r : robot.
Variable place : vec -> nat -> pose.
Variable dofs : nat.
Variable up : nat -> nat -> option (nat * nat).
Variable depth : nat -> nat -> nat.
Variable base : nat.
Variable bt : formula.
Variable bt_dep : nat -> bool.
Variable jac : vec -> nat -> nat -> nat -> v6.
Variable fvel : env -> nat -> v6.
Variable btw : env -> v6.
Variable quat : m3 -> vec.
Notation rel := (relative r place).
Notation VD := (vdim dofs).
Notation UE := (ueval r dofs up base bt rel jac fvel quat).
Notation FR := (frows VD urows (ucols dofs)).
Notation FC := (fcols VD urows (ucols dofs)).
Notation M := (meaning VD urows (ucols dofs) UE).
Notation WF := (well_formed VD urows (ucols dofs) UE).
Notation DEEP := (deep r dofs up base bt bt_dep).
Notation DV := (dval dofs DEEP UE).
Notation SH := (shaped dofs DEEP UE).
Hypothesis K : kinematics r place dofs up depth base jac fvel btw quat.
Variable c : contact_cfg.
Notation foot := (cn_foot c).
Notation pf := (cn_in_foot c).
Hypothesis F : is_frame r foot.
Hypothesis N : base <> foot.
Hypothesis NL : frame_link r base <> frame_link r foot.
Notation E := (contact_expression base c).
Lemma joints_code rho n k : 0 < qnorm2 (rho v_q) -> (n < 3)%nat -> (k < dofs)%nat ->
  exists D, contact_dcol r dofs up base bt bt_dep E 0 v_s = Some D /\
    M rho D n k = sumn 3 (fun l => RR (rho v_q) n l * vent (mixed_linear rel jac (rho v_s) base foot k) l) +
      sumn 3 (fun l => vent pf l * sumn 3 (fun m => RR (rho v_q) n m * val r dofs up base bt rel jac fvel quat (KAdjD false base foot l) rho m k)).
Proof.
  intros P Hn Hk. pose proof (B r place dofs up depth base jac fvel btw quat K) as HB. apply Nat.eqb_neq in N as NB. apply Nat.eqb_neq in NL as NLB.
  destruct (base_shape dofs UE) as (R0 & C0 & W0).
  destruct (relpos_shape r place dofs up base bt jac fvel quat base foot) as (R1 & C1 & W1).
  destruct (relrot_shape r place dofs up depth base bt jac fvel btw quat K base foot) as (R2 & C2 & W2).
  destruct (wf_mul_intro dofs UE base_rotation (relrot base foot) W0 W2 ltac:(lia)) as (W4 & R4 & C4 & _).
  destruct (E_shape r place dofs up depth base bt jac fvel btw quat K c) as (WE & _).
  assert (S0 : scalar_size dofs base_rotation = false) by (apply (not_scalar r place dofs up depth base jac fvel btw quat K base_rotation 3 3); auto).
  assert (S1 : scalar_size dofs (relpos base foot) = false) by (apply (not_scalar r place dofs up depth base jac fvel btw quat K (relpos base foot) 3 1); auto).
  assert (S2 : scalar_size dofs (relrot base foot) = false) by (apply (not_scalar r place dofs up depth base jac fvel btw quat K (relrot base foot) 3 3); auto).
  assert (S4 : scalar_size dofs (FMul base_rotation (relrot base foot)) = false) by (apply (not_scalar r place dofs up depth base jac fvel btw quat K _ 3 3); [congruence|congruence|auto]).
  assert (N1 : users (fun _ => false) (FMul base_rotation (relpos base foot)) = false) by (unfold relpos; rewrite NB; reflexivity).
  assert (N2 : users (fun _ => false) (FMul base_rotation (relrot base foot)) = false) by (unfold relrot, adj; rewrite NB; reflexivity).
  assert (NA : forall A C, users (fun _ => false) (FAdd A C) = (users (fun _ => false) A && users (fun _ => false) C)%bool) by reflexivity.
  assert (NM : forall A C, users (fun _ => false) (FMul A C) = (users (fun _ => false) A && users (fun _ => false) C)%bool) by reflexivity.
  set (KO := FConst 3 1 (fun i _ => vent pf i)).
  (* the rotation of the base *)
  assert (HR : forall l, (l < FC base_rotation)%nat -> SH base_rotation l v_s) by (intros l Hl; apply shaped_none; auto).
  assert (VR : forall l i j, (l < 3)%nat -> (i < 3)%nat -> DV rho v_s base_rotation l i j = 0).
  { intros l i j Hl Hi. rewrite dval_none by reflexivity. rewrite base_deriv by auto. reflexivity. }
  (* the relative position *)
  destruct (dcol_sound dofs DEEP UE rho v_s (relpos base foot) 0 W1 ltac:(lia) (relpos_ready r place dofs up depth base bt bt_dep jac fvel btw quat K base foot rho v_s HB F)) as (D1 & E1 & RD1 & CD1 & WD1 & DD1).
  assert (HP : SH (relpos base foot) 0 v_s) by (exists D1; auto).
  assert (VP : forall l, (l < 3)%nat -> DV rho v_s (relpos base foot) 0 l k = vent (mixed_linear rel jac (rho v_s) base foot k) l).
  { intros l Hl. unfold dval. rewrite E1. specialize (DD1 l k ltac:(lia) Hk). apply (D_unique _ _ _ _ DD1).
    pose proof (k_jac _ _ _ _ _ _ _ _ _ _ K (rho v_s) base foot k HB F Hk) as [_ D]. rewrite vset_same in D. pose proof (vent_D _ _ _ D l) as Q. unfold mixed_linear.
    eapply is_derive_ext; [|exact Q]. intros t. cbv beta.
    rewrite (C58_position_value r place dofs up depth base bt jac fvel btw quat K base foot (at_entry rho v_s k t) l HB F Hl). rewrite at_same. reflexivity. }
  (* the relative rotation *)
  assert (DA : forall l, (l < 3)%nat -> exists DL, dcol dofs DEEP (relrot base foot) l v_s = Some DL /\ FR DL = 3%nat /\ FC DL = dofs /\ WF DL /\
     forall a b, M rho DL a b = val r dofs up base bt rel jac fvel quat (KAdjD false base foot l) rho a b).
  { intros l Hl. unfold relrot, adj. rewrite NB. unfold leaf. cbn [dcol users Nat.add]. rewrite decode_code. cbn [deep hand derivative option_map].
    rewrite Nat.eqb_refl, andb_true_r, NLB. cbn [negb]. eexists. split; [reflexivity|]. split; [reflexivity|]. split; [reflexivity|]. split.
    - unfold adjD. rewrite NB. split; [exact Logic.I|]. rewrite (leaf_rows dofs), (leaf_cols dofs). split; [cbn; lia|apply le_n].
    - intros a b. cbn [meaning Nat.add]. unfold adjD. rewrite NB. apply leaf_value. }
  assert (HRR : forall l, (l < 3)%nat -> SH (relrot base foot) l v_s).
  { intros l Hl. destruct (DA l Hl) as (DL & A1 & A2 & A3 & A4 & _). exists DL. rewrite R2. auto. }
  assert (VRR : forall l m, (l < 3)%nat -> DV rho v_s (relrot base foot) l m k = val r dofs up base bt rel jac fvel quat (KAdjD false base foot l) rho m k).
  { intros l m Hl. destruct (DA l Hl) as (DL & A1 & _ & _ & _ & A5). unfold dval. rewrite A1. apply A5. }
  (* products and sums *)
  destruct (mul_code dofs DEEP UE rho base_rotation (relpos base foot) 0 v_s W0 W1 ltac:(lia) ltac:(lia) S0 S1 N1 HR HP) as (H1 & V1).
  assert (MUL : forall l, (l < 3)%nat -> SH (FMul base_rotation (relrot base foot)) l v_s /\ DV rho v_s (FMul base_rotation (relrot base foot)) l n k =
     sumn 3 (fun m => RR (rho v_q) n m * val r dofs up base bt rel jac fvel quat (KAdjD false base foot l) rho m k)).
  { intros l Hl. destruct (mul_code dofs DEEP UE rho base_rotation (relrot base foot) l v_s W0 W2 ltac:(lia) ltac:(lia) S0 S2 N2 HR (HRR l Hl)) as (H2 & V2). split; [exact H2|].
    rewrite V2 by (auto; lia). rewrite C0. cbn [sumn]. rewrite !VR, !VRR by lia. rewrite !base_value by (auto; lia). unfold RR. ring. }
  assert (HK : SH KO 0 v_s) by (apply shaped_none; [reflexivity|exact Logic.I|cbn; lia]).
  assert (VK : forall i j, DV rho v_s KO 0 i j = 0) by (intros i j; rewrite dval_none by reflexivity; apply (Derive_const (vent pf i))).
  destruct (mul_code dofs DEEP UE rho (FMul base_rotation (relrot base foot)) KO 0 v_s W4 Logic.I ltac:(rewrite C4, C2; reflexivity) ltac:(cbn; lia) S4 eq_refl ltac:(rewrite NM, N2; reflexivity)
     ltac:(intros l Hl; apply MUL; lia) HK) as (H3 & V3).
  assert (HV : SH (FVar v_p) 0 v_s) by (apply shaped_none; [reflexivity|exact Logic.I|cbn; lia]).
  destruct WE as (WA & WB & EA & EB).
  destruct (add_code dofs DEEP UE rho (FVar v_p) (FMul base_rotation (relpos base foot)) 0 v_s WA ltac:(rewrite NA, N1; reflexivity) HV H1) as (H4 & V4).
  destruct (add_code dofs DEEP UE rho (FAdd (FVar v_p) (FMul base_rotation (relpos base foot))) (FMul (FMul base_rotation (relrot base foot)) KO) 0 v_s (conj WA (conj WB (conj EA EB)))
     ltac:(rewrite NA, (NM (FMul base_rotation (relrot base foot))), N2; apply andb_false_r) H4 H3) as ((D & ED & _) & V5).
  exists D. split; [exact ED|]. specialize (V5 n k). unfold dval at 1 in V5. rewrite ED in V5. rewrite V5, V4, V1, V3 by (rewrite ?R4; lia || auto). rewrite dval_none by reflexivity.
  assert (Z : M rho (FDeriv (FVar v_p) 0 v_s) n k = 0) by apply (Derive_const (rho v_p n)). rewrite Z, C0, C4, C2. cbn [sumn].
  rewrite !VR, !VP, !VK by lia. rewrite (proj2 (MUL 0%nat ltac:(lia))), (proj2 (MUL 1%nat ltac:(lia))), (proj2 (MUL 2%nat ltac:(lia))). rewrite !base_value by (auto; lia).
  assert (MK : forall l, M rho KO l 0%nat = vent pf l) by reflexivity. rewrite !MK. cbn [sumn]. unfold RR. ring.
Qed.
End Contact.
