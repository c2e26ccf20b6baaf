From Coq Require Import Reals List Arith Lia Lra Bool FunctionalExtensionality.
From Coquelicot Require Import Coquelicot.
From Verif Require Import Spec SpecConstraints SpecCosts Smoothing ConstraintsModel ConstraintStatements
  CostsModel CostStatements SmoothingProofs PartialLib QuadLib ConstraintProofs ConstraintSemantics CostProofs CostProofs2 CostProofs3 CostProofs4.
Import ListNotations.
Local Open Scope R_scope.

(** * Phantom forces: the Hessian is right exactly where the missing factor is harmless *)
Lemma ph_hessian_iff c x0 u0 s : disjoint3 (ph_pos c) (ph_force c) -> kreach ph_class no_other (ph_ctor c x0 u0) s ->
  forall t x u H, zero_outside (q_shess (ph_sup s)) H ->
  let fz := x (ph_force c + 2)%nat in let pz := x (ph_pos c + 2)%nat in
  ((exists H', snd (ph_shess s t x u H) = Some H' /\ is_hessian (fun y => ph_value s t y u) x H') <->
   (fz = 0 \/ fz = 1 \/ hs_eval (ph_act c) pz = 1 \/ hs_dderiv (ph_act c) pz = 0)).
Proof.
  intros D R t x u H Z fz pz. split.
  - intros [H' [E1 HH]]. pose proof (ph_inv c x0 u0 s R) as I. destruct s as [c' w]. simpl in *. destruct I as [-> I].
    injection E1; intros E2. clear E1. unfold disjoint3 in D.
    set (G := fun j k : nat => (ind (ph_pos c + 2) j * ((hs_deriv (ph_act c) pz * fz)^2 - (1 - hs_eval (ph_act c) pz) * fz * hs_dderiv (ph_act c) pz * fz) * ind (ph_pos c + 2) k
     - 2 * (1 - hs_eval (ph_act c) pz) * fz * hs_deriv (ph_act c) pz * (ind (ph_pos c + 2) j * ind (ph_force c + 2) k + ind (ph_force c + 2) j * ind (ph_pos c + 2) k)
     + (1 - hs_eval (ph_act c) pz)^2 * ind (ph_force c + 2) j * ind (ph_force c + 2) k)).
    assert (T : is_hessian (fun y => ph_value (c, w) t y u) x G).
    { exists (ph_G (ph_act c) (ph_pos c + 2) (ph_force c + 2)). split. { intros y. apply ph_grad. }
      intros j k. unfold G, fz, pz. apply ph_grad_partial. }
    pose proof (hessian_unique _ _ _ _ HH T (ph_pos c + 2)%nat (ph_pos c + 2)%nat) as Q. rewrite <- E2 in Q. clear T HH E2.
    unfold G in Q. rewrite ind_refl in Q. rewrite (ind_neq (ph_force c + 2) (ph_pos c + 2)) in Q by lia.
    unfold mset, seg in Q. rewrite Nat.eqb_refl in Q.
    destruct (Nat.eqb_spec (ph_pos c + 2) (ph_force c + 2)); [lia|]. simpl in Q. fold pz fz in Q.
    assert (P : (1 - hs_eval (ph_act c) pz) * (fz * ((fz - 1) * hs_dderiv (ph_act c) pz)) = 0) by lra.
    apply Rmult_integral in P. destruct P as [P|P]; [right; right; left; lra|].
    apply Rmult_integral in P. destruct P as [P|P]; [left; lra|].
    apply Rmult_integral in P. destruct P as [P|P]; [right; left; lra|right; right; right; lra].
  - intros W. destruct (ph_hessian_when c x0 u0 D s R t x u H Z W) as [H' [A [_ B]]]. exists H'; auto.
Qed.

Lemma cosh_2_big : 2 < cosh 2.
Proof.
  unfold cosh. assert (2 < exp 1) by (pose proof (exp_ineq1 1 R1_neq_R0); lra).
  assert (4 < exp 2). { replace 2 with (1 + 1) at 1 by ring. rewrite exp_plus. nra. }
  pose proof (exp_pos (- (2))). lra.
Qed.
Lemma hs_dderiv_2 : hs_dderiv smoothing_ctor 2 <> 0 /\ hs_eval smoothing_ctor 2 <> 1.
Proof.
  pose proof cosh_2_big as B. unfold hs_dderiv, hs_deriv, hs_eval, smoothing_ctor; simpl. rewrite !Rmult_1_l, !Rmult_1_r.
  assert (C := cosh_sinh 2). assert (T : tanh 2 * tanh 2 = 1 - / (cosh 2 * cosh 2)).
  { unfold tanh. field_simplify; try lra. rewrite <- C. field. lra. }
  split.
  - intros E. 
    assert (E' : / cosh 2 * (tanh 2 * tanh 2 + tanh 2 * tanh 2 - 1) = 0) by (unfold Rdiv in E; lra).
    rewrite T in E'. apply Rmult_integral in E'. destruct E' as [E'|E'].
    + pose proof (Rinv_0_lt_compat (cosh 2) ltac:(lra)). lra.
    + assert (/ (cosh 2 * cosh 2) < / 4). { apply Rinv_lt_contravar; nra. } lra.
  - intros E. assert (cosh 2 = 1). { apply (Rmult_eq_compat_r (cosh 2)) in E. unfold Rdiv in E. rewrite Rmult_assoc, Rinv_l in E; lra. } lra.
Qed.

(** * Non-negativity *)
Lemma sw_nonneg c w t x u v : 0 <= sw_w c 0%nat -> 0 <= sw_w c 1%nat -> 0 <= sw_w c 2%nat -> snd (sw_eval (c, w) t x u) = Some v -> 0 <= v.
Proof.
  intros A B C E. simpl in E. injection E; intros <-.
  assert (Q : forall a z, 0 <= a -> 0 <= a * z * z). { intros. rewrite Rmult_assoc. apply Rmult_le_pos; auto. apply Rle_0_sqr. }
  pose proof (Q _ (seg u (sw_vel c) 0%nat * (seg x (sw_pos c) 2%nat - sw_h c)) A).
  pose proof (Q _ (seg u (sw_vel c) 1%nat * (seg x (sw_pos c) 2%nat - sw_h c)) B).
  pose proof (Q _ (seg u (sw_vel c) 2%nat * (seg x (sw_pos c) 2%nat - sw_h c)) C). lra.
Qed.
Lemma kc_nonneg s t x u v : snd (kc_eval s t x u) = Some v -> 0 <= v /\ (v = 0 <-> x (kc_force (fst s) + 2)%nat = 0 \/ u (kc_vel (fst s) + 2)%nat = 0).
Proof.
  destruct s as [c w]. intros E. simpl in E. injection E; intros <-. simpl. unfold seg.
  set (a := u (kc_vel c + 2)%nat). set (b := x (kc_force c + 2)%nat).
  split. { replace (/ 2 * a * a * b * b) with (/ 2 * Rsqr (a * b)) by (unfold Rsqr; ring). pose proof (Rle_0_sqr (a * b)). lra. }
  split.
  - intros Z. assert (Q : (a * b) * (a * b) = 0) by lra. apply Rmult_integral in Q. destruct Q as [Q|Q]; apply Rmult_integral in Q; tauto.
  - intros [Q|Q]; rewrite Q; ring.
Qed.

(** * Force mean / ratio *)
Lemma sq_zero a : a^2 = 0 -> a = 0.
Proof. intros H. replace (a^2) with (a * a) in H by ring. apply Rmult_integral in H. tauto. Qed.
Lemma sumn_sq_zero n f : (forall i, 0 <= f i) -> (sumn n f = 0 <-> forall i, (i < n)%nat -> f i = 0).
Proof.
  intros P. assert (Q : forall n, 0 <= sumn n f). { induction n0; simpl; [lra|]. pose proof (P n0). lra. }
  induction n; simpl. { split; auto. intros; lia. }
  split.
  - intros E i Hi. pose proof (Q n). pose proof (P n). destruct (Nat.eq_dec i n) as [->|]; [lra|]. apply IHn; [lra|lia].
  - intros H. rewrite (proj2 IHn); [rewrite H by lia; lra|]. intros; apply H; lia.
Qed.
Lemma force_mean_zero own all x : force_mean_value own all x = 0 <->
  (x own = lmean (fun o => x o) all /\ x (own + 1)%nat = lmean (fun o => x (o + 1)%nat) all).
Proof.
  assert (S : lmean (fun o => x (o + 0)%nat) all = lmean x all).
  { unfold lmean. f_equal. apply lsum_ext. intros. f_equal; lia. }
  unfold force_mean_value. cbn [sumn]. rewrite S, Nat.add_0_r. change (lmean (fun o => x o) all) with (lmean x all).
  set (a := x own - lmean x all). set (b := x (own + 1)%nat - lmean (fun o => x (o + 1)%nat) all).
  split.
  - intros E. assert (A : a^2 = 0) by nra. assert (B : b^2 = 0) by nra.
    apply sq_zero in A. apply sq_zero in B. unfold a, b in *. split; lra.
  - intros [A B]. replace a with 0 by (unfold a; lra). replace b with 0 by (unfold b; lra). ring.
Qed.
Lemma force_ratio_zero r own all x : force_ratio_value r own all x = 0 <-> x (own + 2)%nat = r * lsum (fun o => x (o + 2)%nat) all.
Proof.
  unfold force_ratio_value. set (a := x (own + 2)%nat - r * lsum (fun o => x (o + 2)%nat) all). split.
  - intros E. assert (A : a^2 = 0) by lra. apply sq_zero in A. unfold a in A. lra.
  - intros E. replace a with 0 by (unfold a; lra). ring.
Qed.

(** * Feet distance / mean point: zero sets *)
Lemma feet_distance_zero l r x : feet_distance_value l r x = 0 <->
  forall c, (c < 3)%nat -> lmean (fun o => x (o + c)%nat) l = lmean (fun o => x (o + c)%nat) r.
Proof.
  unfold feet_distance_value. set (f := fun c => (lmean (fun o => x (o + c)%nat) l - lmean (fun o => x (o + c)%nat) r)^2).
  assert (P : forall i, 0 <= f i) by (intros; apply pow2_ge_0). split.
  - intros E c Hc. assert (Z : sumn 3 f = 0) by lra. apply (sumn_sq_zero 3 f P) with (i := c) in Z; auto. unfold f in Z. apply sq_zero in Z. lra.
  - intros H. replace (sumn 3 f) with 0; [lra|]. symmetry. apply sumn_sq_zero; auto. intros. unfold f. rewrite H by auto. ring.
Qed.

(** * Postural *)
Section JP.
  Variables joints vel n : nat.
  Variables weights gains : vec.
  Variable ref : reference vec.
  Variables x0 u0 : vec.
  Let s0 := jp_ctor joints vel n weights gains ref x0 u0.
  Let ok := kreach jp_class no_other s0.
  Lemma jp_inv s : ok s -> fst s = fst s0.
  Proof.
    unfold ok. revert s. apply kreach_inv; [reflexivity| | | | | | |intros ? ? ? []];
    intros [c w] t x u; try intros ?; intros; simpl in *; try destruct (jp_ref c t); simpl; auto.
  Qed.
  Definition jp_b (d : vec) (x u : vec) i := weights i * (u (vel + i)%nat + gains i * (x (joints + i)%nat - d i)).
  Lemma jp_grad d x u : is_gradient (fun y => postural_value n weights gains d joints vel y u) x
     (fun k => sumn n (fun i => weights i * gains i * jp_b d x u i * ind (joints + i) k)).
  Proof.
    intros k. unfold postural_value. eapply partial_eq.
    { eapply partial_mult; [apply partial_const|]. apply (partial_sumn n _ _ _ (fun i => 2 * (weights i * gains i * jp_b d x u i * ind (joints + i) k))).
      intros i _. eapply partial_eq; [deriv idtac|]. unfold jp_b. simpl. ring. }
    cbv beta. rewrite Rmult_0_l, Rplus_0_l, <- sumn_scal. apply sumn_ext. intros i _. field.
  Qed.
  Lemma jp_gradu d x u : is_gradient (fun w => postural_value n weights gains d joints vel x w) u
     (fun k => sumn n (fun i => weights i * jp_b d x u i * ind (vel + i) k)).
  Proof.
    intros k. unfold postural_value. eapply partial_eq.
    { eapply partial_mult; [apply partial_const|]. apply (partial_sumn n _ _ _ (fun i => 2 * (weights i * jp_b d x u i * ind (vel + i) k))).
      intros i _. eapply partial_eq; [deriv idtac|]. unfold jp_b. simpl. ring. }
    cbv beta. rewrite Rmult_0_l, Rplus_0_l, <- sumn_scal. apply sumn_ext. intros i _. field.
  Qed.
  Lemma sum_ind (f : vec) o k : sumn n (fun i => f i * ind (o + i) k) = if in_range o n k then f (k - o)%nat else 0.
  Proof.
    destruct (in_range o n k) eqn:E.
    - apply in_range_spec in E. rewrite (sumn_single n _ (k - o)).
      + replace (o + (k - o))%nat with k by lia. rewrite ind_refl. ring.
      + lia.
      + intros i Hi N. rewrite ind_neq by lia. ring.
    - rewrite (sumn_ext n _ (fun _ => 0)); [apply sumn_0|]. intros i Hi. rewrite ind_neq; [ring|].
      intros <-. assert (in_range o n (o + i) = true) by (apply in_range_spec; lia). congruence.
  Qed.
  Lemma sum_ind2 (f : vec) o o' j k : sumn n (fun i => f i * ind (o + i) j * ind (o' + i) k)
    = if in_range o n j && in_range o' n k then diagonal f (j - o) (k - o') else 0.
  Proof.
    destruct (in_range o n j) eqn:E; simpl.
    - pose proof (proj1 (in_range_spec _ _ _) E) as E'.
      rewrite (sumn_ext n _ (fun i => (f i * ind (o' + i) k) * ind (o + i) j)) by (intros; ring).
      rewrite (sumn_single n _ (j - o)); [|lia|intros i Hi N; rewrite (ind_neq (o + i)) by lia; ring].
      replace (o + (j - o))%nat with j by lia. rewrite ind_refl.
      destruct (in_range o' n k) eqn:F.
      + pose proof (proj1 (in_range_spec _ _ _) F) as F'. unfold diagonal. destruct (Nat.eqb_spec (j - o) (k - o')).
        * replace (o' + (j - o))%nat with k by lia. rewrite ind_refl. ring.
        * rewrite ind_neq by lia. ring.
      + rewrite ind_neq; [ring|]. intros <-. assert (in_range o' n (o' + (j - o)) = true) by (apply in_range_spec; lia). congruence.
    - rewrite (sumn_ext n _ (fun _ => 0)); [apply sumn_0|]. intros i Hi. rewrite (ind_neq (o + i) j); [ring|].
      intros <-. assert (in_range o n (o + i) = true) by (apply in_range_spec; lia). congruence.
  Qed.
  Lemma seg_total (f : vec) o g k : vzero_outside (seq o n) g -> sumn n (fun i => f i * ind (o + i) k) = set_seg g o n f k.
  Proof.
    intros Z. rewrite sum_ind. unfold set_seg. destruct (in_range o n k) eqn:E; auto. symmetry. apply Z.
    rewrite in_seq. intros H. apply in_range_spec in H. congruence.
  Qed.
  Lemma diag_total (f : vec) o o' H j k : zero_outside (identity_block o o' n) H ->
    sumn n (fun i => f i * ind (o + i) j * ind (o' + i) k) = set_block H o o' n n (diagonal f) j k.
  Proof.
    intros Z. rewrite sum_ind2. unfold set_block. destruct (in_range o n j && in_range o' n k) eqn:E; auto. symmetry. apply Z.
    rewrite in_identity_block. intros [i [Hi X]]. injection X; intros; subst j k.
    apply andb_false_iff in E. destruct E as [E|E]; rewrite (proj2 (in_range_spec _ _ _)) in E; try discriminate; lia.
  Qed.
  Lemma seg_support (f : vec) o g : vzero_outside (seq o n) g -> vzero_outside (seq o n) (set_seg g o n f).
  Proof. intros Z. apply seg_out; auto. intros; apply in_seq; lia. Qed.
  Lemma diag_support (f : vec) o o' H : zero_outside (identity_block o o' n) H -> zero_outside (identity_block o o' n) (set_block H o o' n n (diagonal f)).
  Proof.
    intros Z i j N. unfold set_block. destruct (in_range o n i && in_range o' n j) eqn:E; [|apply Z; auto].
    apply andb_true_iff in E. destruct E as [E F]. apply in_range_spec in E, F. unfold diagonal.
    destruct (Nat.eqb_spec (i - o) (j - o')); auto. exfalso. apply N. apply in_identity_block. exists (i - o)%nat. split; [lia|]. f_equal; lia.
  Qed.
  Lemma jp_keep : cost_methods_keep_value jp_class ok (jp_value joints vel n weights gains ref).
  Proof. intros s _ t x u g M. repeat split; reflexivity. Qed.

  Theorem jp_exact : cost_exact jp_class ok jp_valid (jp_value joints vel n weights gains ref) jp_sup.
  Proof.
    unfold cost_exact; repeat match goal with |- _ /\ _ => split end; [| | | | | |exact jp_keep];
    red; intros [c w] R t x u; first [intros g V Z | intros V]; pose proof (jp_inv _ R) as Ic; simpl in Ic; subst c;
    unfold jp_valid, jp_value, s0, jp_ctor in *; simpl in *;
    destruct (ref t) as [d|] eqn:Er; try congruence; simpl.
    - f_equal. unfold postural_value. f_equal. apply sumn_ext. intros i _. unfold jp_buffer, seg; simpl. ring.
    - give. split. { apply seg_support; auto. } eapply gradient_eq; [|apply jp_grad].
      intros k. cbv beta. rewrite <- (seg_total _ joints g k Z). apply sumn_ext. intros i _. unfold jp_b, jp_buffer, seg; simpl. ring.
    - give. split. { apply seg_support; auto. } eapply gradient_eq; [|apply jp_gradu].
      intros k. cbv beta. rewrite <- (seg_total _ vel g k Z). apply sumn_ext. intros i _. unfold jp_b, jp_buffer, seg; simpl. ring.
    - give. split. { apply diag_support; auto. } eexists. split. { intros y. apply jp_grad. }
      intros j k. cbv beta. rewrite <- (diag_total _ joints joints g j k Z). apply (partial_sumn n _ _ _ (fun i => _)).
      intros i _. eapply partial_eq; [unfold jp_b; deriv idtac|]. simpl. ring.
    - give. split. { apply diag_support; auto. } eexists. split. { intros y. apply jp_gradu. }
      intros j k. cbv beta. rewrite <- (diag_total _ vel vel g j k Z). apply (partial_sumn n _ _ _ (fun i => _)).
      intros i _. eapply partial_eq; [unfold jp_b; deriv idtac|]. simpl. ring.
    - give. split. { apply diag_support; auto. } eexists. split. { intros y z. apply jp_grad. }
      intros j k. cbv beta. rewrite <- (diag_total _ joints vel g j k Z). apply (partial_sumn n _ _ _ (fun i => _)).
      intros i _. eapply partial_eq; [unfold jp_b; deriv idtac|]. simpl. ring.
  Qed.
  Lemma jp_zero d x u : (forall i, (i < n)%nat -> weights i <> 0) ->
    (postural_value n weights gains d joints vel x u = 0 <->
     forall i, (i < n)%nat -> u (vel + i)%nat = - gains i * (x (joints + i)%nat - d i)).
  Proof.
    intros W. unfold postural_value. set (f := fun i => (weights i * (u (vel + i)%nat + gains i * (x (joints + i)%nat - d i)))^2).
    assert (P : forall i, 0 <= f i) by (intros; apply pow2_ge_0). split.
    - intros E i Hi. assert (Z : sumn n f = 0) by lra. apply (sumn_sq_zero n f P) with (i := i) in Z; auto. unfold f in Z. apply sq_zero in Z.
      apply Rmult_integral in Z. destruct Z as [Z|Z]; [elim (W i Hi Z)|lra].
    - intros H. replace (sumn n f) with 0; [lra|]. symmetry. apply sumn_sq_zero; auto. intros. unfold f. rewrite H by auto. ring.
  Qed.
End JP.

(** * Foot yaw: zero set *)
Lemma foot_yaw_zero_at psi b r l tx ty (P B L : R * R) x :
  x b = planar_x psi tx B -> x (b + 1)%nat = planar_y psi ty B ->
  x r = planar_x psi tx P -> x (r + 1)%nat = planar_y psi ty P ->
  x l = planar_x psi tx L -> x (l + 1)%nat = planar_y psi ty L ->
  foot_yaw_value psi b r l x = / 2 * (snd P - snd B)^2 + / 2 * (fst L - fst P)^2.
Proof.
  intros A1 A2 A3 A4 A5 A6. unfold foot_yaw_value. rewrite A1, A2, A3, A4, A5, A6. unfold planar_x, planar_y.
  pose proof (sin2_cos2 psi) as T. unfold Rsqr in T. set (s := sin psi) in *. set (c := cos psi) in *.
  assert (Q : c * c = 1 - s * s) by lra.
  match goal with |- / 2 * ?u ^ 2 + / 2 * ?v ^ 2 = _ => replace u with ((snd P - snd B) * (c * c + s * s)) by ring;
    replace v with ((fst L - fst P) * (c * c + s * s)) by ring end.
  replace (c * c + s * s) with 1 by lra. ring.
Qed.

Lemma atan2_pos d : 0 < d -> atan2 0 d = 0.
Proof. intros. unfold atan2. destruct (Rlt_dec 0 d); [|lra]. unfold Rdiv. rewrite Rmult_0_l. apply atan_0. Qed.

(** An axis-aligned foot rotated by the desired yaw and translated has zero cost. *)
Lemma fy_zero off pts x0 u0 s0 s t x u psi tx ty :
  fy_ctor off pts x0 u0 = Some s0 ->
  (forall b r l, sel_br (fy_select pts) = Some b -> sel_tr (fy_select pts) = Some r -> sel_tl (fy_select pts) = Some l ->
     snd (nth b pts (0, 0)) = snd (nth r pts (0, 0)) /\ fst (nth r pts (0, 0)) = fst (nth l pts (0, 0))) ->
  kreach fy_class fy_other s0 s ->
  fy_ref (fst s) t = Some psi ->
  (forall i, (i < length pts)%nat -> x (off i) = planar_x psi tx (nth i pts (0, 0)) /\ x (off i + 1)%nat = planar_y psi ty (nth i pts (0, 0))) ->
  snd (fy_eval s t x u) = Some 0.
Proof.
  intros CT AL R Er PX. destruct (fy_corners off pts x0 u0 s0 CT) as [b [r [l [[Hb [Hr [Hl _]]] [Eb [Et [El [Ei [Sb [Sr Sl]]]]]]]]]].
  destruct (fy_inv s0 s R) as [I0 [I1 [I2 I3]]]. destruct (AL b r l Sb Sr Sl) as [Y X].
  destruct (fy_select_ok pts) as [cx [cy [A [B C]]]]. destruct (A _ Sb) as [_ [A1 _]]. destruct (B _ Sr) as [_ [B1 _]]. unfold px in *.
  assert (Z : fy_init (fst s) = 0). { rewrite I0, Ei, Y. rewrite Rminus_eq_0. apply atan2_pos. lra. }
  destruct s as [c w]. simpl in *. rewrite Er. simpl. f_equal.
  pose proof (foot_yaw_zero_at psi (off b) (off r) (off l) tx ty (nth r pts (0, 0)) (nth b pts (0, 0)) (nth l pts (0, 0)) x
    (proj1 (PX b Hb)) (proj2 (PX b Hb)) (proj1 (PX r Hr)) (proj2 (PX r Hr)) (proj1 (PX l Hl)) (proj2 (PX l Hl))) as V.
  unfold fy_topBottom, fy_left, seg. rewrite Z, Rminus_0_r, I1, I2, I3, Eb, Et, El. rewrite !Nat.add_0_r.
  unfold foot_yaw_value in V. rewrite Y, X in V.
  transitivity (/ 2 * (snd (nth r pts (0, 0)) - snd (nth r pts (0, 0))) ^ 2 + / 2 * (fst (nth l pts (0, 0)) - fst (nth l pts (0, 0))) ^ 2); [|ring].
  rewrite <- V. ring.
Qed.

(** A foot whose side edge is tilted in its own frame: the cost is not zero at the desired yaw. *)
Definition tilted_foot : list (R * R) := [(-2, -4); (4, -2); (2, 4); (-4, 2)].
Ltac decide_all := repeat match goal with |- context [Rlt_dec ?a ?b] => destruct (Rlt_dec a b); try (exfalso; lra) end.
Lemma tilted_select : fy_select tilted_foot = {| sel_br := Some 0%nat; sel_brv := 8; sel_tr := Some 1%nat; sel_trv := 8; sel_tl := Some 2%nat; sel_tlv := 8 |}.
Proof.
  unfold fy_select, tilted_foot. cbn [length seq combine fold_left fst snd].
  replace ((0 + -2 + 4 + 2 + -4) / INR 4) with 0 by (simpl; field).
  replace ((0 + -4 + -2 + 4 + 2) / INR 4) with 0 by (simpl; field).
  repeat match goal with |- context [fy_select_step 0 0 (Build_fy_sel ?a ?b ?c ?d ?e ?f) ?p] =>
    let E := fresh in eassert (E : fy_select_step 0 0 (Build_fy_sel a b c d e f) p = _);
    [unfold fy_select_step; cbn [fst snd]; decide_all; cbn; reflexivity|rewrite E; clear E] end.
  f_equal; ring.
Qed.
Definition tilted_x : vec := fun k => nth k [-2; -4; 0; 4; -2; 0; 2; 4; 0; -4; 2] 0.
Lemma fy_tilted_wrong : exists s0 v, fy_ctor (fun i => 3 * i)%nat tilted_foot vzero vzero = Some s0 /\
  fy_ref (fst s0) 0 = Some 0 /\
  (forall i, (i < 4)%nat -> tilted_x (3 * i)%nat = planar_x 0 0 (nth i tilted_foot (0, 0)) /\ tilted_x (3 * i + 1)%nat = planar_y 0 0 (nth i tilted_foot (0, 0))) /\
  snd (fy_eval s0 0 tilted_x vzero) = Some v /\ 0 < v.
Proof.
  unfold fy_ctor. rewrite tilted_select. cbn [sel_br sel_tr sel_tl]. eexists. eexists. split; [reflexivity|]. split; [reflexivity|]. split.
  { intros i Hi. unfold planar_x, planar_y. rewrite cos_0, sin_0. destruct i as [|[|[|[|]]]]; unfold tilted_x, tilted_foot; cbn [nth Nat.mul Nat.add fst snd]; try lia; split; ring. }
  split; [reflexivity|]. unfold fy_topBottom, fy_left, seg. cbn [k_x kset_x fy_br fy_tr fy_tl fy_init nth tilted_foot fst snd].
  simpl (tilted_x _).
  set (yaw := 0 - _).
  assert (Y : sin yaw < 0 /\ 0 < cos yaw).
  { unfold yaw, atan2. destruct (Rlt_dec 0 (4 - -2)); [|lra]. set (a := (-2 - -4) / (4 - -2)).
    pose proof (atan_bound a) as AB. assert (0 < atan a). { rewrite <- atan_0. apply atan_increasing. unfold a. lra. }
    replace (0 - atan a) with (- atan a) by ring. rewrite sin_neg, cos_neg. split.
    - assert (0 < sin (atan a)) by (apply sin_gt_0; lra). lra.
    - apply cos_gt_0; lra. }
  destruct Y as [Y1 Y2]. simpl.
   set (e := (_ - _) * cos yaw - _). set (e' := (_ - _) * cos yaw + _). 
  assert (0 < e) by (unfold e, tilted_x; cbn [nth]; nra). pose proof (pow2_ge_0 e'). nra.
Qed.

(** * Momentum reference *)
Lemma lm_get_ok s t v : lm_ref s t = Some v -> length v = 3%nat -> snd (lm_get s t) = (map (fun a => lm_mass s * a) v, true).
Proof. intros E L. unfold lm_get. rewrite E, L. reflexivity. Qed.
Lemma lm_get_bad s t : (lm_ref s t = None \/ exists v, lm_ref s t = Some v /\ length v <> 3%nat) -> snd (lm_get s t) = ([0; 0; 0], false).
Proof.
  unfold lm_get. intros [E|[v [E L]]]; rewrite E; auto. destruct (Nat.eqb_spec (length v) 3); [contradiction|reflexivity].
Qed.
Lemma lm_stable s t : lm_mass (fst (lm_get s t)) = lm_mass s /\ lm_ref (fst (lm_get s t)) = lm_ref s.
Proof. unfold lm_get. destruct (lm_ref s t) as [v|]; [destruct (Nat.eqb (length v) 3)|]; auto. Qed.
Lemma lm_mass_sum links : lm_totalMass links = lsum (fun m => m) links.
Proof. unfold lm_totalMass. rewrite (fold_sum (fun m => m)). ring. Qed.

(** * Feet relative height: feasible set *)
Lemma fh_feasible c w t x u :
  (forall v, fh_lower (c, w) = Some v -> v 0%nat <= snd (fh_eval (c, w) t x u) 0%nat) /\
  (forall v, fh_upper (c, w) = Some v -> snd (fh_eval (c, w) t x u) 0%nat <= v 0%nat) <->
  Rabs (lmean (fun o => x (o + 2)%nat) (fh_left c) - lmean (fun o => x (o + 2)%nat) (fh_right c)) <= fh_max c.
Proof.
  simpl. unfold vset; simpl. rewrite !(fold_sum (fun o => x (o + 2)%nat)), !Rplus_0_l. fold (lmean (fun o => x (o + 2)%nat) (fh_left c)).
  fold (lmean (fun o => x (o + 2)%nat) (fh_right c)). set (d := _ - _). split.
  - intros [A B]. specialize (A _ eq_refl). specialize (B _ eq_refl). simpl in *. apply Rabs_le. lra.
  - intros H. split; intros v E; injection E; intros <-; simpl; revert H; unfold Rabs; destruct (Rcase_abs d); lra.
Qed.
