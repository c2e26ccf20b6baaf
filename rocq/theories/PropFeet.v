(** C62: the lateral distance of the feet. *)
From Coq Require Import Reals List Arith Lia Lra Bool FunctionalExtensionality.
From Coquelicot Require Import Coquelicot.
From Verif Require Import Spec PartialLib QuadLib SpecRigid SpecDerivatives SpecFeet Rigid RigidCalc KinTree ConstraintsModel CostsModel.
From Verif Require Import KinModel KinLib KinMotion KinProofs PropKin SymModel SymProofs SymKin MixLib FeetModel FeetProofs.
Import ListNotations.
Local Open Scope R_scope.

Section Feet.
Variable r : robot.
Variable place : vec -> nat -> pose.
Variable dofs : nat.
Variable up : nat -> nat -> option (nat * nat).
Variable depth : nat -> nat -> nat.
Variable base : nat.
Variable bt : formula.
Variable bt_dep : nat -> bool.
Variable jac : vec -> nat -> nat -> nat -> v6.
Variable fvel : env -> nat -> v6.
Variable btw : env -> v6.
Variable quat : m3 -> vec.
Notation rel := (relative r place).
Notation Feet := (feet_class r dofs up base bt bt_dep rel jac fvel quat).
Variable c : feet_cfg.
Variable shared : R -> env.
Notation ref := (ft_ref c).
Notation other := (ft_other c).
Notation index := (ft_index c).
(** The documented value. *)
Definition distance (s : feet) (t : R) (x u : vec) : vec := fun _ => lateral_distance r place ref other index (ft_joints c) dofs x.
Definition reachable : feet -> Prop := reach Feet feet_other (feet_ctor c shared).

Hypothesis K : kinematics r place dofs up depth base jac fvel btw quat.
Hypothesis F : is_frame r ref.
Hypothesis G : is_frame r other.
Hypothesis I : (index < 3)%nat.

Definition inv (s : feet) : Prop := ft_cfg s = c /\ forall i k, ~ In (i, k) (dense_block 0 (ft_joints c) 1 dofs) -> ft_buffer s i k = 0.
Lemma reachable_inv s : reachable s -> inv s.
Proof.
  apply reach_inv; unfold inv.
  - cbn. auto.
  - intros s' t x u [A B]. cbn. auto.
  - intros s' t x u J [A B]. cbn [feet_class c_sjac feet_sjac fst ft_cfg ft_buffer]. split; [exact A|]. intros i k N. unfold set_block.
    destruct (in_range 0 1 i && in_range (ft_joints (ft_cfg s')) dofs k)%bool eqn:E; [|auto]. exfalso. apply N. rewrite A in E.
    apply andb_prop in E. rewrite !in_range_spec in E. apply in_dense_block. exists i, (k - ft_joints c)%nat. split; [lia|]. split; [lia|]. f_equal; lia.
  - intros s' t x u J [A B]. cbn. auto.
  - intros s' t x u l H [A B]. cbn. auto.
  - intros s' t x u l H [A B]. cbn. auto.
  - intros s' t x u l H [A B]. cbn. auto.
  - intros s' s'' [A B] O. destruct O as [s' d|s' g]; [|cbn; auto]. unfold feet_set_minimum. destruct (Rlt_dec d 0); cbn; auto.
Qed.
Lemma state_now s t x : ft_cfg s = c -> ft_shared (feet_update dofs s t x) t v_s = part x (ft_joints c) dofs.
Proof.
  intros E. unfold feet_update, feet_state, feet_set_shared, at_time. cbn [ft_shared]. destruct (Req_EM_T t t); [|congruence]. rewrite E. unfold env_set. reflexivity.
Qed.
Definition field (x : vec) (k : nat) : R := if in_range (ft_joints c) dofs k then gg r place jac ref other index (part x (ft_joints c) dofs) (k - ft_joints c) else 0.
Lemma field_partial x k : partial (fun y => lateral_distance r place ref other index (ft_joints c) dofs y) x k (field x k).
Proof.
  unfold field. destruct (in_range (ft_joints c) dofs k) eqn:E.
  - apply (part_partial (hh r place ref other index) (ft_joints c) dofs x k); [exact E|].
    apply (hh_partial r place dofs up depth base jac fvel btw quat K ref other index F G). apply in_range_spec in E. lia.
  - apply (part_partial_0 (hh r place ref other index) (ft_joints c) dofs x k E).
Qed.

(** The value, the Jacobians and their patterns, the other Hessians: for any two frames. *)
Theorem C62_value_and_jacobians :
  eval_correct Feet reachable 1 distance /\
  state_jacobian_exact Feet reachable 1 distance (fun s => p_sjac (feet_patterns dofs s)) /\
  control_jacobian_exact Feet reachable 1 distance (fun s => p_cjac (feet_patterns dofs s)) /\
  control_hessian_exact Feet reachable 1 distance (fun s => p_chess (feet_patterns dofs s)) /\
  mixed_hessian_exact Feet reachable 1 distance (fun s => p_mhess (feet_patterns dofs s)) /\
  methods_keep_value Feet reachable distance.
Proof.
  split; [|split; [|split; [|split; [|split]]]].
  - intros s R t x u i _. destruct (reachable_inv s R) as [E _]. cbn [feet_class c_eval feet_eval snd]. rewrite state_now, E by exact E. reflexivity.
  - intros s R t x u J _. destruct (reachable_inv s R) as [E B]. cbv zeta. cbn [feet_class c_sjac feet_sjac snd feet_patterns p_sjac]. rewrite state_now, E by exact E.
    assert (Z : forall i k, (0 < 1)%nat -> i = 0%nat -> set_block (ft_buffer s) 0 (ft_joints c) 1 dofs (fun _ j => vent (mixed_linear rel jac (part x (ft_joints c) dofs) ref other j) index) i k = field x k).
    { intros i k _ ->. unfold set_block, field. change (in_range 0 1 0) with true. cbn [andb]. destruct (in_range (ft_joints c) dofs k) eqn:Q; [reflexivity|].
      apply B. rewrite in_dense_block. intros (a & b & _ & Hb & Q'). injection Q' as _ ->. assert (in_range (ft_joints c) dofs (ft_joints c + b) = true) by (apply in_range_spec; lia). congruence. }
    split.
    + intros i k N. destruct (Nat.eq_dec i 0) as [->|Ni].
      * rewrite Z by lia. unfold field. destruct (in_range (ft_joints c) dofs k) eqn:Q; [|reflexivity]. exfalso. apply N. apply in_range_spec in Q.
        apply in_dense_block. exists 0%nat, (k - ft_joints c)%nat. split; [lia|]. split; [lia|]. f_equal; lia.
      * unfold set_block. replace (in_range 0 1 i) with false; [apply B; exact N|]. symmetry. apply not_true_is_false. rewrite in_range_spec. lia.
    + intros i k Hi. eapply partial_eq; [|symmetry; apply Z; lia]. apply field_partial.
  - intros s R t x u J _. split; [intros i k _; reflexivity|]. intros i k _. unfold distance. eapply partial_eq; [apply partial_const|reflexivity].
  - intros s R t x u l H Z. split; [exact Z|]. exists (fun _ _ => 0). split; [intros y k; unfold distance; apply partial_const|]. intros j k.
    eapply partial_eq; [apply partial_const|]. symmetry. apply Z. cbn. auto.
  - intros s R t x u l H Z. split; [exact Z|]. exists (fun y w k => l 0%nat * field y k). split.
    + intros y w k. eapply partial_ext; [intros z; symmetry; unfold weighted; cbn [sumn]; apply Rplus_0_l|].
      eapply partial_eq; [apply partial_mult; [apply partial_const|apply field_partial]|]. cbv beta. unfold distance. ring.
    + intros j k. eapply partial_eq; [apply partial_const|]. symmetry. apply Z. cbn. auto.
  - intros s R t x u l M. repeat split; reflexivity.
Qed.

(** All together, when the offset of the other foot does not turn the axis of its last joint. *)
Theorem C62_feet_distance_exact : keeps_axis r up ref other -> constraint_exact Feet reachable 1 distance (feet_patterns dofs).
Proof.
  intros KA. pose proof (keeps_unturned r place dofs up depth base jac fvel btw quat K ref other F G KA) as UT.
  destruct C62_value_and_jacobians as (A & B & C & D & E & H0).
  split; [exact A|]. split; [exact B|]. split; [exact C|]. split; [|split; [exact D|split; [exact E|exact H0]]].
  intros s R t x u l H Z. destruct (reachable_inv s R) as [EC _]. cbv zeta. cbn [feet_class c_shess feet_shess snd feet_patterns p_shess].
  cbn [feet_patterns p_shess] in Z. rewrite EC in *. set (o := ft_joints c) in *. set (rho := ft_shared (feet_update dofs s t x) t).
  assert (ER : rho v_s = part x o dofs) by (apply state_now; exact EC).
  set (H' := fold_left _ _ H).
  assert (EH : forall a b, H' a b = if (in_range o dofs a && in_range o dofs b)%bool then value_of r dofs up base bt rel jac fvel quat rho (feet_column r dofs up base bt bt_dep c (b - o)) 0%nat (a - o)%nat * l 0%nat else H a b).
  { intros a b. unfold H'. apply (columns_block o dofs (fun i a => value_of r dofs up base bt rel jac fvel quat rho (feet_column r dofs up base bt bt_dep c i) 0%nat a * l 0%nat) H a b). }
  split.
  - intros a b N. rewrite EH. destruct (in_range o dofs a && in_range o dofs b)%bool eqn:Q; [|apply Z; exact N]. exfalso. apply N.
    apply andb_prop in Q. rewrite !in_range_spec in Q. apply in_dense_block. exists (a - o)%nat, (b - o)%nat. split; [lia|]. split; [lia|]. f_equal; lia.
  - exists (fun y k => l 0%nat * field y k). split.
    { intros y k. eapply partial_ext; [intros z; symmetry; unfold weighted; cbn [sumn]; apply Rplus_0_l|].
      eapply partial_eq; [apply partial_mult; [apply partial_const|apply field_partial]|]. cbv beta. unfold distance. ring. }
    assert (GG : forall i, (i < dofs)%nat -> exists X, feet_column r dofs up base bt bt_dep c i = Some X /\
       forall k, (k < dofs)%nat -> partial (fun s => gg r place jac ref other index s i) (part x o dofs) k (meaning (vdim dofs) urows (ucols dofs) (ueval r dofs up base bt rel jac fvel quat) rho X 0%nat k)).
    { intros i Hi. destruct (ff_first r place dofs up depth base bt bt_dep jac fvel btw quat K ref other index F G I) as (D0 & E0 & _).
      destruct (ff_second r place dofs up depth base bt bt_dep jac fvel btw quat K ref other index F G I UT D0 i E0 Hi) as (X & EX & PX).
      exists X. split; [unfold feet_column, feet_dcol, feet_expression; unfold ff in E0; rewrite E0; exact EX|]. rewrite <- ER. apply PX. }
    intros j k. rewrite EH. destruct (in_range o dofs j) eqn:Qj; cbn [andb].
    2:{ eapply partial_eq; [|symmetry; apply Z; rewrite in_dense_block; intros (a & b & Ha & Hb & Q); injection Q as -> ->;
          assert (in_range o dofs (o + a) = true) by (apply in_range_spec; lia); congruence].
        eapply partial_ext; [intros y; unfold field; fold o; rewrite Qj; symmetry; apply Rmult_0_r|]. apply partial_const. }
    assert (Hj : (j - o < dofs)%nat) by (apply in_range_spec in Qj; lia).
    eapply partial_ext; [intros y; unfold field; fold o; rewrite Qj; reflexivity|].
    destruct (in_range o dofs k) eqn:Qk.
    + assert (Hk : (k - o < dofs)%nat) by (apply in_range_spec in Qk; lia).
      destruct (GG (k - o)%nat Hk) as (X & EX & PX). rewrite EX. cbn [value_of]. destruct (GG (j - o)%nat Hj) as (Y & EY & PY).
      pose proof (hh_mixed r place dofs up depth base jac fvel btw quat K ref other index F G (part x o dofs) (k - o) (j - o) _ _ Hk Hj (PX _ Hj) (PY _ Hk)) as SY.
      eapply partial_eq; [apply partial_mult; [apply partial_const|]|].
      * apply (part_partial (fun z => gg r place jac ref other index z (j - o)) o dofs x k _ Qk (PY _ Hk)).
      * rewrite SY. ring.
    + eapply partial_eq; [apply (part_partial_0 (fun z => l 0%nat * gg r place jac ref other index z (j - o)) o dofs x k Qk)|].
      symmetry. apply Z. rewrite in_dense_block. intros (a & b & Ha & Hb & Q). injection Q as -> ->. assert (in_range o dofs (o + b) = true) by (apply in_range_spec; lia). congruence.
Qed.
End Feet.

(** The minimum distance: zero at first; a negative one is refused and changes nothing, the others become the lower bound,
    which the other methods never change. *)
Theorem C62_minimum_distance r dofs up base bt bt_dep rel jac fvel quat c shared s :
  ft_lower (feet_ctor c shared) = 0 /\
  (forall d, d < 0 -> feet_set_minimum s d = (s, false)) /\
  (forall d, 0 <= d -> snd (feet_set_minimum s d) = true /\ ft_lower (fst (feet_set_minimum s d)) = d) /\
  (reach (feet_class r dofs up base bt bt_dep rel jac fvel quat) feet_other (feet_ctor c shared) s -> 0 <= ft_lower s) /\
  (forall t x u l M, ft_lower (fst (c_eval (feet_class r dofs up base bt bt_dep rel jac fvel quat) s t x u)) = ft_lower s /\
     ft_lower (fst (c_sjac (feet_class r dofs up base bt bt_dep rel jac fvel quat) s t x u M)) = ft_lower s /\
     ft_lower (fst (c_shess (feet_class r dofs up base bt bt_dep rel jac fvel quat) s t x u l M)) = ft_lower s).
Proof.
  split; [reflexivity|]. split; [|split; [|split]].
  - intros d H. unfold feet_set_minimum. destruct (Rlt_dec d 0); [reflexivity|lra].
  - intros d H. unfold feet_set_minimum. destruct (Rlt_dec d 0); [lra|]. split; reflexivity.
  - revert s. apply reach_inv; try (intros; assumption); [cbn; lra|]. intros s s' H O. destruct O as [s d|s g]; [|exact H]. unfold feet_set_minimum. destruct (Rlt_dec d 0); cbn; lra.
  - intros. split; [reflexivity|]. split; reflexivity.
Qed.

(** ** Concrete cases *)
From Verif Require Import QuatCurve KinExist KinInstance.
(** The last link, seen from the first one: the offset is the identity. *)
Example arm_feet_frames : keeps_axes arm 2 /\ keeps_axes arm 4 /\ is_frame arm 0 /\ is_frame arm 2.
Proof.
  split; [|split; [|split; unfold is_frame; cbn; lia]].
  - intros i j p E C. change (frame_offset arm 2) with pid. apply mv_I.
  - intros i j p E C. apply mv_I.
Qed.
Example arm_feet bt bt_dep :
  constraint_exact (feet_class arm 2 up 0 bt bt_dep (relative arm place) jac (fvel_with btw) quat_of)
    (reachable arm place 2 up 0 bt bt_dep jac (fvel_with btw) quat_of {| ft_joints := 5; ft_index := 1; ft_ref := 0; ft_other := 2 |} (fun _ _ _ => 0)) 1
    (distance arm place 2 {| ft_joints := 5; ft_index := 1; ft_ref := 0; ft_other := 2 |}) (feet_patterns 2).
Proof.
  destruct arm_feet_frames as (A & _ & F & G). apply (C62_feet_distance_exact arm place 2 up depth 0 bt bt_dep jac (fvel_with btw) btw quat_of); auto; [apply arm_kinematics|].
  apply (keeps_all arm place 2 up depth 0 jac (fvel_with btw) btw quat_of arm_kinematics); auto.
Qed.
(** What the distance is there. *)
Example arm_distance x : lateral_distance arm place 0 2 1 5 2 x = sin (x 5%nat) * x 6%nat.
Proof.
  unfold lateral_distance, relative, frame_pose. change (frame_link arm 0) with 0%nat. change (frame_link arm 2) with 2%nat.
  change (frame_offset arm 0) with pid. change (frame_offset arm 2) with pid. rewrite !pmul_id_r. cbn [place]. rewrite pinv_id, pmul_id_l.
  unfold part, hinge, slider, Rz, pmul, mv, vadd. cbn. ring.
Qed.

(** The distance of the frame 3, which is turned: 1 + cos. *)
Definition turned : feet_cfg := {| ft_joints := 0; ft_index := 0; ft_ref := 0; ft_other := 3 |}.
Lemma turned_distance x : lateral_distance arm place 0 3 0 0 2 x = 1 + cos (x 0%nat).
Proof.
  unfold lateral_distance, relative, frame_pose. change (frame_link arm 0) with 0%nat. change (frame_link arm 3) with 1%nat.
  change (frame_offset arm 0) with pid. change (frame_offset arm 3) with (Pose Rx90 (V3 1 0 0)). rewrite pmul_id_r. cbn [place]. rewrite pinv_id, pmul_id_l.
  unfold part, hinge, Rz, pmul, mv, vadd. cbn. ring.
Qed.
Lemma turned_jac s : lin (jac s 0 3 0) = V3 0 0 (-1).
Proof.
  assert (E : jac s 0 3 0 = m6v (Adj (relative arm place s 3 1)) (V6 v30 (V3 0 0 1))) by reflexivity. rewrite E.
  assert (E1 : relative arm place s 3 1 = pinv (Pose Rx90 (V3 1 0 0))).
  { rewrite (rel_rl arm place arm_ok arm_placement) by (unfold frame_ok; cbn; lia). change (frame_link arm 3) with 1%nat. change (frame_link arm 1) with 1%nat.
    rewrite (rl_same arm place arm_placement) by (cbn; lia). change (frame_offset arm 1) with pid. change (frame_offset arm 3) with (Pose Rx90 (V3 1 0 0)). rewrite !pmul_id_r. reflexivity. }
  rewrite E1. cbv [pinv Adj m6v mv mm skew mtr vadd vopp Rx90 v30 lin ang rot pos bll bla bal baa a00 a01 a02 a10 a11 a12 a20 a21 a22 vx vy vz]. f_equal; ring.
Qed.
Theorem C62_turned_frame_refuted :
  exists r place dofs up depth base bt bt_dep jac fvel btw quat c shared,
    kinematics r place dofs up depth base jac fvel btw quat /\ is_frame r (ft_ref c) /\ is_frame r (ft_other c) /\ (ft_index c < 3)%nat /\
    ~ state_hessian_exact (feet_class r dofs up base bt bt_dep (relative r place) jac fvel quat)
        (reachable r place dofs up base bt bt_dep jac fvel quat c shared) 1 (distance r place dofs c) (fun s => p_shess (feet_patterns dofs s)).
Proof.
  exists arm, place, 2%nat, up, depth, 0%nat, (FVar v_twist), (fun v => (v =? v_twist)%nat), jac, (fvel_with btw), btw, quat_of, turned, (fun _ _ _ => 0).
  split; [apply arm_kinematics|]. split; [unfold is_frame; cbn; lia|]. split; [unfold is_frame; cbn; lia|]. split; [cbn; lia|].
  intros H. specialize (H _ (reach_init _ _ _) 0 (fun _ => 0) (fun _ => 0) (fun _ => 1) (fun _ _ => 0) ltac:(intros i k _; reflexivity)).
  cbv zeta in H. destruct H as [_ (g & Hg & Hh)]. specialize (Hh 0%nat 0%nat).
  cbn [feet_class c_shess feet_shess snd feet_ctor ft_cfg turned ft_joints] in Hh.
  set (rho := ft_shared (feet_update 2 (feet_ctor turned (fun _ _ _ => 0)) 0 (fun _ => 0)) 0) in *.
  assert (CODE : snd (feet_shess arm 2 up 0 (FVar v_twist) (fun v => (v =? v_twist)%nat) (relative arm place) jac (fvel_with btw) quat_of (feet_ctor turned (fun _ _ _ => 0)) 0 (fun _ => 0) (fun _ => 0) (fun _ => 1) (fun _ _ => 0)) 0%nat 0%nat = 0).
  { unfold feet_shess. cbn [snd feet_ctor ft_cfg]. fold rho.
    rewrite (columns_block (ft_joints turned) 2 (fun i a => value_of arm 2 up 0 (FVar v_twist) (relative arm place) jac (fvel_with btw) quat_of rho (feet_column arm 2 up 0 (FVar v_twist) (fun v => (v =? v_twist)%nat) turned i) 0%nat a * 1)).
    change (in_range (ft_joints turned) 2 0) with true. cbn [andb]. change (0 - ft_joints turned)%nat with 0%nat.
    destruct (ff_code arm place 2 up depth 0 (FVar v_twist) (fun v => (v =? v_twist)%nat) jac (fvel_with btw) btw quat_of arm_kinematics 0 3 0 ltac:(unfold is_frame; cbn; lia) ltac:(unfold is_frame; cbn; lia) ltac:(lia) rho 0 0 ltac:(lia) ltac:(lia) ltac:(lia)) as (D & X & J' & ED & EX & DJ & VX).
    unfold feet_column, feet_dcol, feet_expression. change (ft_ref turned) with 0%nat. change (ft_other turned) with 3%nat. change (ft_index turned) with 0%nat.
    unfold ff in ED. rewrite ED, EX. cbn [value_of]. rewrite VX. change (frame_link arm 0 =? frame_link arm 3)%nat with false. cbv iota.
    assert (Z : forall l, (l < 3)%nat -> J' l = 0).
    { intros l Hl. apply (D_unique (fun x => vent (lin (jac (vset (rho v_s) 0 x) 0 3 0)) l) (rho v_s 0%nat)); [apply DJ; exact Hl|].
      eapply is_derive_ext; [intros t; symmetry; rewrite turned_jac; reflexivity|]. apply D_const. }
    cbn [sumn]. rewrite !Z by lia. rewrite turned_jac. cbn [vent vx vy vz].
    destruct (adjD_value arm place 2 up depth 0 (FVar v_twist) jac (fvel_with btw) quat_of arm_ok arm_placement arm_traversal ltac:(cbn; lia) false 0 3 2 ltac:(unfold frame_ok; cbn; lia) ltac:(unfold frame_ok; cbn; lia) ltac:(lia)) as (l & P & VAL).
    change (frame_link arm 0) with 0%nat in P. change (frame_link arm 3) with 1%nat in P.
    assert (PL : l = [(1%nat, 0%nat, 0%nat)]).
    { apply (path_fun _ _ _ _ P). econstructor; [lia|reflexivity|constructor]. }
    destruct (VAL rho 0%nat 0%nat ltac:(lia) ltac:(lia)) as [VI _]. rewrite (VI 1%nat 0%nat) by (rewrite PL; left; reflexivity).
    unfold adjD_code. change (1 =? frame_link arm 3)%nat with true. cbv iota. unfold AdjOf, adOf. unfold motion_axis. cbn [nth r_joints arm hinge axis_of j_link1 j_axis1 j_axis2 j_link2 Nat.eqb].
    unfold m6mul, Adj, adx, m6ent. cbn [bll bla bal baa]. change (0 <? 3)%nat with true. change (2 <? 3)%nat with true. cbv iota. unfold axis_of, mm, madd, m30, skew. cbn. ring. }
  assert (GF : forall y, g y 0%nat = - sin (y 0%nat)).
  { intros y. apply (D_unique (fun t => 1 + cos t) (y 0%nat)).
    - specialize (Hg y 0%nat). unfold partial in Hg. eapply is_derive_ext; [|exact Hg]. intros t. cbv beta. unfold weighted, distance. cbn [sumn turned ft_ref ft_other ft_index ft_joints]. rewrite turned_distance, vset_at. rring.
    - auto_derive; [exact Logic.I|ring]. }
  assert (Q : partial (fun y : vec => - sin (y 0%nat)) (fun _ => 0) 0 0).
  { eapply partial_eq; [eapply partial_ext; [intros y; apply GF|exact Hh]|exact CODE]. }
  unfold partial in Q. assert (E : (0 : R) = - cos 0).
  { apply (D_unique (fun t => - sin t) 0); [|auto_derive; [exact Logic.I|ring]]. eapply is_derive_ext; [|exact Q]. intros t. cbv beta. rewrite vset_at. reflexivity. }
  rewrite cos_0 in E. lra.
Qed.
Print Assumptions C62_value_and_jacobians.
Print Assumptions C62_feet_distance_exact.
Print Assumptions C62_minimum_distance.
Print Assumptions C62_turned_frame_refuted.
