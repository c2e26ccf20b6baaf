(** C19: the planner's dynamics (DynamicalConstraints).
    [s] ranges over every state of the object reached from its construction with configuration [c]
    by any sequence of calls of its methods; [w0] is the (arbitrary) initial
    content of its buffers.  [hess], [cols] are the derivatives handed over by the
    expression library. *)
From Coq Require Import Reals String List Arith Lia Lra Bool.
From Coquelicot Require Import Coquelicot.
From Verif Require Import Spec SpecConstraints SpecQuaternion PartialLib Smoothing SmoothingProofs Quaternion QuaternionProofs.
From Verif Require Import Labeller LabellerProofs Layout LayoutProofs.
From Verif Require Import ConstraintsModel ConstraintStatements CostsModel QuadLib SpecDynamics DynamicsModel DynamicsLib DynamicsProofs DynamicsJac DynamicsHess DynamicsWitness DynamicsLayout.
Import ListNotations.
Local Open Scope R_scope.

Section History.
  Context (hess : vec -> vec -> nat -> mat) (cols : vec -> nat -> mat).
  Context (c : dy_cfg) (w0 : dy_ws) (LO : layout_ok (dy_L c)) (s : dy).
  Hypothesis H : reach (dy_class hess cols) no_other (dy_ctor c w0) s.
  Notation L := (dy_L c).
  Notation K := (dy_class hess cols).
  (** What the object reports as the derivative of the state. *)
  Definition f (t : R) (x u : vec) : vec := snd (c_eval K s t x u).

  Lemma s_is : s = (c, snd s).
  Proof. pose proof (dy_reach_cfg _ _ _ _ _ H) as E. destruct s as [c' w']; simpl in *. congruence. Qed.
  Lemma f_is t x u i : (i < dl_nx L)%nat -> f t x u i = V c x u i.
  Proof. intros Hi. unfold f. rewrite s_is. apply (dynamics_V c LO (snd s) t x u i Hi). Qed.
  Lemma wf_is t l x u : weighted (dl_nx L) l (f t x u) = weighted (dl_nx L) l (V c x u).
  Proof. apply weighted_ext. intros. apply f_is; auto. Qed.

  Theorem hist_dynamics_law : forall t x u, quat_nonzero L x ->
    dynamics_law L (dy_mass c) (dy_diss c) (smooth_step (sm_K (dy_xy c)) (disabled_of (dy_xy c)))
      (smooth_bump (sm_K (dy_z c)) (disabled_of (dy_z c))) x u (f t x u).
  Proof.
    intros t x u Q. pose proof (V_law c LO x u Q) as W.
    assert (X : forall o n a, In (o, n) (state_blocks L) -> (a < n)%nat -> f t x u (o + a)%nat = V c x u (o + a)%nat).
    { intros o n a I Ha. apply f_is. destruct LO as [[_ P] _]. apply P. exists (o, n). split; auto. simpl. lia. }
    assert (XP : forall p a, In p (dl_points L) -> (a < 3)%nat -> f t x u (cp_f p + a)%nat = V c x u (cp_f p + a)%nat /\ f t x u (cp_p p + a)%nat = V c x u (cp_p p + a)%nat).
    { intros p a I Ha. split; apply (X _ 3%nat); auto; unfold state_blocks; apply in_or_app; right; apply in_flat_map; exists p; simpl; auto. }
    destruct W as [W1 W2 W3 W4 W5 W6 W7 W8 W9 W10]. split; intros.
    - rewrite (proj1 (XP p a H0 ltac:(lia))). auto.
    - rewrite (proj1 (XP p 2%nat H0 ltac:(lia))). auto.
    - rewrite (proj2 (XP p a H0 ltac:(lia))). auto.
    - rewrite (proj2 (XP p 2%nat H0 ltac:(lia))). auto.
    - rewrite (X (dl_mom L) 6%nat) by (simpl; auto; lia). auto.
    - replace (dl_mom L + 3 + a)%nat with (dl_mom L + (3 + a))%nat by lia. rewrite (X (dl_mom L) 6%nat) by (simpl; auto; lia).
      replace (dl_mom L + (3 + a))%nat with (dl_mom L + 3 + a)%nat by lia. auto.
    - rewrite (X (dl_com L) 3%nat) by (simpl; auto; lia). auto.
    - rewrite (X (dl_base L) 3%nat) by (simpl; auto; lia). auto.
    - rewrite (X (dl_quat L) 4%nat) by (simpl; auto 10; lia). auto.
    - rewrite (X (dl_jnt L) (dl_dof L)) by (simpl; auto 10; lia). auto.
  Qed.

  Theorem hist_state_jacobian : forall t x u J, quat_nonzero L x -> zero_outside (true_sjac c) J ->
    let J' := snd (c_sjac K s t x u J) in
    is_jacobian (dl_nx L) (fun y => f t y u) x J' /\ zero_outside (true_sjac c) J'.
  Proof.
    intros t x u J Q Z J'. subst J'. cbn [dy_class c_sjac].
    assert (ES : snd (dy_sjac s t x u J) = SJ c x u).
    { rewrite s_is. apply (sjac_SJ c LO). apply true_sjac_needed; auto. }
    rewrite ES. split.
    - intros i k Hi. apply (partial_ext (fun y => V c y u i)); [intros y; symmetry; apply f_is; auto|].
      apply (V_state_jacobian c x u Q); auto.
    - apply SJ_zero_outside_true; auto.
  Qed.
  Theorem hist_control_jacobian : forall t x u J, zero_outside (p_cjac (dy_patterns s)) J ->
    let J' := snd (c_cjac K s t x u J) in
    is_jacobian (dl_nx L) (fun v => f t x v) u J' /\ zero_outside (p_cjac (dy_patterns s)) J'.
  Proof.
    intros t x u J Z J'. subst J'. cbn [dy_class c_cjac].
    assert (E : fst s = c) by (rewrite s_is; reflexivity).
    assert (ES : snd (dy_cjac s t x u J) = CJ c x).
    { rewrite s_is. apply (cjac_CJ c LO). apply (declared_cjac_needed c J s); auto. }
    rewrite ES. split.
    - intros i k Hi. apply (partial_ext (fun y => V c x y i)); [intros y; symmetry; apply f_is; auto|].
      apply (V_control_jacobian c x u); auto.
    - apply CJ_zero_outside_declared; auto.
  Qed.
  Theorem hist_state_hessian : forall t x u l M, rotation_hessian_ok hess -> quat_nonzero L x ->
    zero_outside (p_shess (dy_patterns s)) M ->
    let M' := snd (c_shess K s t x u l M) in
    is_hessian_on (quat_nonzero L) (fun y => weighted (dl_nx L) l (f t y u)) x M' /\ zero_outside (p_shess (dy_patterns s)) M'.
  Proof.
    intros t x u l M HH Q Z M'. subst M'.
    assert (E : fst s = c) by (rewrite s_is; reflexivity).
    assert (ES : snd (c_shess K s t x u l M) = HS c (hess (seg x (dl_quat L)) (seg u (dl_lin L))) x u l).
    { rewrite s_is. apply (shess_HS c LO). rewrite <- s_is. exact Z. }
    rewrite ES. split.
    - destruct (V_state_hessian c LO hess l x u HH Q) as [g [G1 G2]]. exists g. split; auto.
      intros y Qy k. apply (partial_ext (fun z => weighted (dl_nx L) l (V c z u))); [intros; symmetry; apply wf_is|]. apply G1; auto.
    - apply (HS_zero_outside c); auto.
  Qed.
  Theorem hist_control_hessian : forall t x u l M, zero_outside (p_chess (dy_patterns s)) M ->
    let M' := snd (c_chess K s t x u l M) in
    is_hessian (fun v => weighted (dl_nx L) l (f t x v)) u M' /\ zero_outside (p_chess (dy_patterns s)) M'.
  Proof.
    intros t x u l M Z M'. subst M'. cbn [dy_class c_chess dy_chess snd]. split; [|exact Z].
    destruct (V_control_hessian c l x u) as [g [G1 G2]]. exists g. split.
    - intros y k. apply (partial_ext (fun z => weighted (dl_nx L) l (V c x z))); [intros; symmetry; apply wf_is|]. apply G1; auto.
    - intros j k. rewrite (Z j k) by (cbn; auto). apply G2.
  Qed.
  Theorem hist_mixed_hessian : forall t x u l M, rotation_columns_ok cols -> quat_nonzero L x ->
    zero_outside (p_mhess (dy_patterns s)) M ->
    let M' := snd (c_mhess K s t x u l M) in
    is_mixed_hessian_on (quat_nonzero L) (fun y v => weighted (dl_nx L) l (f t y v)) x u M' /\ zero_outside (p_mhess (dy_patterns s)) M'.
  Proof.
    intros t x u l M HC Q Z M'. subst M'.
    assert (E : fst s = c) by (rewrite s_is; reflexivity).
    assert (ES : snd (c_mhess K s t x u l M) = MH c (cols (seg x (dl_quat L))) x l).
    { rewrite s_is. apply (mhess_MH c LO). rewrite <- s_is. exact Z. }
    rewrite ES. split.
    - destruct (V_mixed_hessian c LO cols l x u HC Q) as [g [G1 G2]]. exists g. split; auto.
      intros y v Qy k. apply (partial_ext (fun z => weighted (dl_nx L) l (V c z v))); [intros; symmetry; apply wf_is|]. apply G1; auto.
    - apply (MH_zero_outside c); auto.
  Qed.
End History.

(** What the object reports as the derivative of the state. *)
Definition reported hess cols (s : dy) (t : R) (x u : vec) : vec := snd (c_eval (dy_class hess cols) s t x u).

Theorem C19_dynamics_law : forall hess cols c w0 s, layout_ok (dy_L c) ->
  reach (dy_class hess cols) no_other (dy_ctor c w0) s ->
  forall t x u, quat_nonzero (dy_L c) x ->
  dynamics_law (dy_L c) (dy_mass c) (dy_diss c) (smooth_step (sm_K (dy_xy c)) (disabled_of (dy_xy c)))
    (smooth_bump (sm_K (dy_z c)) (disabled_of (dy_z c))) x u (reported hess cols s t x u).
Proof. exact (fun hess cols c w0 s LO H => hist_dynamics_law hess cols c w0 LO s H). Qed.

(** The law fixes every entry of the derivative. *)
Theorem C19_dynamics_law_complete : forall L mass diss dxy dz x u r r', layout_ok L ->
  dynamics_law L mass diss dxy dz x u r -> dynamics_law L mass diss dxy dz x u r' ->
  forall i, (i < dl_nx L)%nat -> r i = r' i.
Proof.
  intros L mass diss dxy dz x u r r' LO W W' i Hi. destruct LO as [[_ P] _]. apply P in Hi. destruct Hi as [[o n] [I Hi]].
  simpl in Hi. assert (E : i = (o + (i - o))%nat) by lia. assert (Hn : (i - o < n)%nat) by lia. rewrite E. clear E Hi. set (a := (i - o)%nat) in *. clearbody a.
  destruct W as [W1 W2 W3 W4 W5 W6 W7 W8 W9 W10]. destruct W' as [U1 U2 U3 U4 U5 U6 U7 U8 U9 U10].
  unfold state_blocks in I. apply in_app_or in I. destruct I as [I|I].
  - simpl in I. destruct I as [I|[I|[I|[I|[I|[]]]]]]; injection I; intros; subst o n.
    + destruct (Nat.lt_ge_cases a 3); [rewrite W5, U5 by auto; reflexivity|].
      replace (dl_mom L + a)%nat with (dl_mom L + 3 + (a - 3))%nat by lia. rewrite W6, U6 by lia. reflexivity.
    + rewrite W7, U7 by auto; reflexivity.
    + rewrite W8, U8 by auto; reflexivity.
    + rewrite W9, U9 by auto; reflexivity.
    + rewrite W10, U10 by auto; reflexivity.
  - apply in_flat_map in I. destruct I as [p [Ip I]]. simpl in I. destruct I as [I|[I|[]]]; injection I; intros; subst o n;
      (destruct (Nat.lt_ge_cases a 2); [|assert (a = 2)%nat by lia; subst a]).
    + rewrite W1, U1 by auto; reflexivity.
    + rewrite W2, U2 by auto; reflexivity.
    + rewrite W3, U3 by auto; reflexivity.
    + rewrite W4, U4 by auto; reflexivity.
Qed.

(** The total mass is the sum of the masses of the links. *)
Theorem C19_total_mass : forall masses, dy_totalMass masses = lsum (fun m => m) masses.
Proof.
  intros l. unfold dy_totalMass. assert (G : forall a, fold_left Rplus l a = a + lsum (fun m => m) l); [|rewrite G; ring].
  induction l as [|m l IH]; intros a; cbn [fold_left]; [unfold lsum; simpl; ring|]. rewrite IH, lsum_cons. ring.
Qed.

(** Jacobians: the caller's matrix may hold anything in the entries the method writes. *)
Theorem C19_state_jacobian : forall hess cols c w0 s, layout_ok (dy_L c) ->
  reach (dy_class hess cols) no_other (dy_ctor c w0) s ->
  forall t x u J, quat_nonzero (dy_L c) x -> zero_outside (true_sjac c) J ->
  let J' := snd (c_sjac (dy_class hess cols) s t x u J) in
  is_jacobian (dl_nx (dy_L c)) (fun y => reported hess cols s t y u) x J' /\ zero_outside (true_sjac c) J'.
Proof. exact (fun hess cols c w0 s LO H => hist_state_jacobian hess cols c w0 LO s H). Qed.
Theorem C19_control_jacobian : forall hess cols c w0 s, layout_ok (dy_L c) ->
  reach (dy_class hess cols) no_other (dy_ctor c w0) s ->
  forall t x u J, zero_outside (p_cjac (dy_patterns s)) J ->
  let J' := snd (c_cjac (dy_class hess cols) s t x u J) in
  is_jacobian (dl_nx (dy_L c)) (fun v => reported hess cols s t x v) u J' /\ zero_outside (p_cjac (dy_patterns s)) J'.
Proof. exact (fun hess cols c w0 s LO H => hist_control_jacobian hess cols c w0 LO s H). Qed.

(** Hessians of the multiplier-weighted sum of the rows. *)
Theorem C19_state_hessian : forall hess cols c w0 s, layout_ok (dy_L c) ->
  reach (dy_class hess cols) no_other (dy_ctor c w0) s ->
  forall t x u l M, rotation_hessian_ok hess -> quat_nonzero (dy_L c) x -> zero_outside (p_shess (dy_patterns s)) M ->
  let M' := snd (c_shess (dy_class hess cols) s t x u l M) in
  is_hessian_on (quat_nonzero (dy_L c)) (fun y => weighted (dl_nx (dy_L c)) l (reported hess cols s t y u)) x M' /\
  zero_outside (p_shess (dy_patterns s)) M'.
Proof. exact (fun hess cols c w0 s LO H => hist_state_hessian hess cols c w0 LO s H). Qed.
Theorem C19_control_hessian : forall hess cols c w0 s, layout_ok (dy_L c) ->
  reach (dy_class hess cols) no_other (dy_ctor c w0) s ->
  forall t x u l M, zero_outside (p_chess (dy_patterns s)) M ->
  let M' := snd (c_chess (dy_class hess cols) s t x u l M) in
  is_hessian (fun v => weighted (dl_nx (dy_L c)) l (reported hess cols s t x v)) u M' /\ zero_outside (p_chess (dy_patterns s)) M'.
Proof. exact (fun hess cols c w0 s LO H => hist_control_hessian hess cols c w0 LO s H). Qed.
Theorem C19_mixed_hessian : forall hess cols c w0 s, layout_ok (dy_L c) ->
  reach (dy_class hess cols) no_other (dy_ctor c w0) s ->
  forall t x u l M, rotation_columns_ok cols -> quat_nonzero (dy_L c) x -> zero_outside (p_mhess (dy_patterns s)) M ->
  let M' := snd (c_mhess (dy_class hess cols) s t x u l M) in
  is_mixed_hessian_on (quat_nonzero (dy_L c)) (fun y v => weighted (dl_nx (dy_L c)) l (reported hess cols s t y v)) x u M' /\
  zero_outside (p_mhess (dy_patterns s)) M'.
Proof. exact (fun hess cols c w0 s LO H => hist_mixed_hessian hess cols c w0 LO s H). Qed.

(** The layout hypothesis holds for the variable structure the solver builds, for
    every number of contact points and of joints. *)
Theorem C19_layout_built : forall zok dofs n S0 C0 SL CL vr,
  setVariablesStructure zok dofs n S0 C0 = (SL, CL, Some vr) ->
  layout_ok (dy_layout SL CL) /\ dl_nx (dy_layout SL CL) = stateDimension vr /\ dl_nu (dy_layout SL CL) = controlDimension vr /\
  length (dl_left (dy_layout SL CL)) = n /\ length (dl_right (dy_layout SL CL)) = n /\ dl_dof (dy_layout SL CL) = dofs.
Proof.
  intros zok dofs n S0 C0 SL CL vr B. destruct (setVariablesStructure_some _ _ _ _ _ _ _ _ B) as (E & HS & HC).
  rewrite (dy_layout_is dofs n SL CL HS HC). split; [apply planner_layout_ok|]. subst vr.
  cbn [planner_layout dl_nx dl_nu dl_left dl_right dl_dof layout stateDimension controlDimension]. rewrite !map_length, !seq_length. repeat split; lia.
Qed.

(** The declared pattern of the state Jacobian covers every non-zero entry except
    the derivative of the normal force rate with respect to the normal force. *)
Theorem C19_declared_state_pattern : forall hess cols c w0 s, layout_ok (dy_L c) ->
  reach (dy_class hess cols) no_other (dy_ctor c w0) s ->
  forall i k, In (i, k) (true_sjac c) ->
  In (i, k) (p_sjac (dy_patterns s)) \/ (exists p, In p (dl_points (dy_L c)) /\ i = (cp_f p + 2)%nat /\ k = (cp_f p + 2)%nat).
Proof.
  intros hess cols c w0 s LO H i k M. pose proof (dy_reach_cfg _ _ _ _ _ H) as E. unfold dy_patterns, p_sjac. rewrite E.
  unfold true_sjac in M. rewrite !in_app_iff, !in_flat_map in *. destruct M as [[p [I M]]|M].
  - rewrite !in_app_iff in M. simpl in M.
    assert (X : (i, k) <> (cp_f p + 2, cp_f p + 2)%nat -> In (i, k) (identity_block (dl_mom (dy_L c)) (cp_f p) 3 ++ dense_block (dl_mom (dy_L c) + 3) (cp_f p) 3 3 ++
         dense_block (dl_mom (dy_L c) + 3) (cp_p p) 3 3 ++ dense_block (cp_p p) (cp_p p + 2) 2 1 ++ [(cp_f p + 2, cp_p p + 2)%nat])).
    { intros N. rewrite !in_app_iff. simpl. intuition congruence. }
    destruct (Nat.eq_dec i (cp_f p + 2)) as [->|N]; [destruct (Nat.eq_dec k (cp_f p + 2)) as [->|N]|].
    + right. eauto.
    + left. left. exists p. split; auto. apply X. congruence.
    + left. left. exists p. split; auto. apply X. congruence.
  - left. right. tauto.
Qed.
(** That entry is not declared although it is not zero: diss * (activation - 1). *)
Theorem C19_state_sparsity_refuted : forall hess cols, exists c w0 t x u J,
  layout_ok (dy_L c) /\ quat_nonzero (dy_L c) x /\
  let s := dy_ctor c w0 in
  zero_outside [] J /\
  ~ zero_outside (p_sjac (dy_patterns s)) (snd (c_sjac (dy_class hess cols) s t x u J)) /\
  is_jacobian (dl_nx (dy_L c)) (fun y => reported hess cols s t y u) x (snd (c_sjac (dy_class hess cols) s t x u J)).
Proof.
  intros hess cols.
  set (c := {| dy_L := planner_layout 1 1; dy_mass := 30; dy_diss := 5; dy_xy := smoothing_ctor; dy_z := smoothing_ctor |}).
  set (w0 := {| y_x := vzero; y_u := vzero; y_dyn := vzero; y_lam := vzero; y_com := vzero; y_rot := mzero; y_q := vzero; y_qn := vzero; y_qv := vzero; y_lin := vzero; y_sdot := vzero |}).
  exists c, w0, 0, (fun _ => 1), vzero, mzero.
  assert (LO : layout_ok (dy_L c)) by apply planner_layout_ok.
  assert (Q : quat_nonzero (dy_L c) (fun _ => 1)). { exists 0%nat. split; [lia|lra]. }
  split; auto. split; auto. cbv zeta. split; [intros i k _; reflexivity|].
  destruct (C19_state_jacobian hess cols c w0 (dy_ctor c w0) LO (reach_init _ _ _) 0 (fun _ => 1) vzero mzero Q) as [JJ JZ]; [intros i k _; reflexivity|].
  split; auto. intros Z.
  assert (E : snd (c_sjac (dy_class hess cols) (dy_ctor c w0) 0 (fun _ => 1) vzero mzero) 2%nat 2%nat = 5 * (hs_eval smoothing_ctor 1 - 1)).
  { unfold dy_ctor at 1. cbn [dy_class c_sjac]. rewrite (sjac_SJ c LO) by (intros i k _; reflexivity).
    change (2%nat) with (cp_f (planner_point 1 true 0) + 2)%nat at 1 2. rewrite (SJ_at_ff c LO); [reflexivity|]. simpl. auto. }
  rewrite Z in E.
  - pose proof (sech_bounds 1) as B. assert (M : / cosh 1 <> 1). { intros X. apply sech_max in X. lra. }
    unfold hs_eval in E. cbn [smoothing_ctor sm_disabled sm_K] in E. 
    replace (1 * 1) with 1 in E by ring. unfold Rdiv in E. rewrite Rmult_1_l in E. apply M. lra.
  - unfold dy_patterns, p_sjac. intros I. cbn in I. repeat (destruct I as [I|I]; [discriminate|]). exact I.
Qed.
(** The declared quaternion block is never written: an entry left there by the
    caller is reported as a derivative. *)
Theorem C19_stale_block_refuted : forall hess cols, exists c w0 t x u J,
  layout_ok (dy_L c) /\ quat_nonzero (dy_L c) x /\
  let s := dy_ctor c w0 in
  zero_outside (p_sjac (dy_patterns s)) J /\
  ~ is_jacobian (dl_nx (dy_L c)) (fun y => reported hess cols s t y u) x (snd (c_sjac (dy_class hess cols) s t x u J)).
Proof.
  intros hess cols.
  set (c := {| dy_L := planner_layout 1 1; dy_mass := 30; dy_diss := 5; dy_xy := smoothing_ctor; dy_z := smoothing_ctor |}).
  set (w0 := {| y_x := vzero; y_u := vzero; y_dyn := vzero; y_lam := vzero; y_com := vzero; y_rot := mzero; y_q := vzero; y_qn := vzero; y_qv := vzero; y_lin := vzero; y_sdot := vzero |}).
  exists c, w0, 0, (fun _ => 1), vzero, (mset mzero 24 24 1).
  assert (LO : layout_ok (dy_L c)) by apply planner_layout_ok.
  assert (Q : quat_nonzero (dy_L c) (fun _ => 1)). { exists 0%nat. split; [lia|lra]. }
  split; auto. split; auto. cbv zeta. split.
  - intros i k N. unfold mset. destruct (Nat.eqb_spec i 24), (Nat.eqb_spec k 24); cbn [andb]; auto. exfalso. apply N. subst i k.
    unfold dy_patterns, p_sjac. cbn. repeat (try (left; reflexivity); right).
  - intros J. destruct (C19_state_jacobian hess cols c w0 (dy_ctor c w0) LO (reach_init _ _ _) 0 (fun _ => 1) vzero mzero Q) as [JJ JZ]; [intros i k _; reflexivity|].
    pose proof (partial_unique _ _ _ _ _ (J 24%nat 24%nat ltac:(cbn; lia)) (JJ 24%nat 24%nat ltac:(cbn; lia))) as E.
    rewrite (JZ 24%nat 24%nat) in E.
    + revert E. cbn. unfold scale_block, add_block, set_block, mset. cbn. lra.
    + unfold true_sjac. cbn. intros I. repeat (destruct I as [I|I]; [discriminate|]). exact I.
Qed.

(** The hypotheses can be met. *)
Example C19_oracles_exist : rotation_columns_ok example_cols /\ rotation_hessian_ok example_hess.
Proof. exact (conj example_cols_ok example_hess_ok). Qed.
Example C19_hypotheses_met : exists c w0 s x,
  layout_ok (dy_L c) /\ length (dl_points (dy_L c)) = 8%nat /\ dl_dof (dy_L c) = 23%nat /\
  reach (dy_class example_hess example_cols) no_other (dy_ctor c w0) s /\ s <> dy_ctor c w0 /\ quat_nonzero (dy_L c) x.
Proof.
  set (c := {| dy_L := planner_layout 23 4; dy_mass := 30; dy_diss := 5; dy_xy := smoothing_ctor; dy_z := smoothing_ctor |}).
  set (w0 := {| y_x := vzero; y_u := vzero; y_dyn := vzero; y_lam := vzero; y_com := vzero; y_rot := mzero; y_q := vzero; y_qn := vzero; y_qv := vzero; y_lin := vzero; y_sdot := vzero |}).
  exists c, w0, (fst (c_sjac (dy_class example_hess example_cols) (dy_ctor c w0) 0 (fun _ => 1) vzero mzero)), (fun _ => 1).
  split; [apply planner_layout_ok|]. split; [reflexivity|]. split; [reflexivity|]. split; [|split].
  - apply reach_sjac. apply reach_init.
  - intros E. apply (f_equal (fun s : dy => y_x (snd s) 0%nat)) in E. cbn in E. unfold vzero in E. lra.
  - exists 0%nat. split; [lia|lra].
Qed.

Print Assumptions C19_dynamics_law.
Print Assumptions C19_dynamics_law_complete.
Print Assumptions C19_total_mass.
Print Assumptions C19_state_jacobian.
Print Assumptions C19_control_jacobian.
Print Assumptions C19_state_hessian.
Print Assumptions C19_control_hessian.
Print Assumptions C19_mixed_hessian.
Print Assumptions C19_layout_built.
Print Assumptions C19_declared_state_pattern.
Print Assumptions C19_state_sparsity_refuted.
Print Assumptions C19_stale_block_refuted.
