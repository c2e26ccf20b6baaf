(** Additional facts for C19: declared patterns, and the existence of the
    derivatives asked of the expression library. *)
From Coq Require Import Reals List Arith Lia Lra Bool FunctionalExtensionality.
From Coquelicot Require Import Coquelicot.
From Verif Require Import Spec SpecConstraints SpecQuaternion PartialLib Smoothing SmoothingProofs Quaternion QuaternionProofs.
From Verif Require Import ConstraintsModel ConstraintStatements CostsModel QuadLib SpecDynamics DynamicsModel DynamicsLib DynamicsProofs DynamicsJac DynamicsHess.
Import ListNotations.
Local Open Scope R_scope.

(** Every history keeps the configuration. *)
Lemma dy_reach_cfg hess cols c w0 s : reach (dy_class hess cols) no_other (dy_ctor c w0) s -> fst s = c.
Proof.
  intros H. induction H; simpl in *; auto;
    try (destruct s; simpl in *; subst; reflexivity); try contradiction.
Qed.

Lemma weighted_ext n l v v' : (forall i, (i < n)%nat -> v i = v' i) -> weighted n l v = weighted n l v'.
Proof.
  intros H. unfold weighted. induction n; simpl; auto. rewrite IHn by (intros; apply H; lia). rewrite H by lia. reflexivity.
Qed.

(** ** The derivatives required of the expression library exist *)
Definition rotJ (v q : vec) : mat := matmul44 (RotatedVectorQuaternionJacobian v (NormalizedQuaternion q)) (NormalizedQuaternionDerivative q).
Lemma quat_ok_pos q : quat_ok q -> 0 < qnorm2 q.
Proof. intros [i [Hi N]]. exact (qnorm2_pos q i Hi N). Qed.
Lemma rotJ_exact v q : quat_ok q -> is_jacobian_mn 3 4 (fun p => qrot (qunit p) v) q (rotJ v q).
Proof.
  intros Q a b Ha Hb. apply (partial_ext (fun y => qrot (NormalizedQuaternion (seg y 0)) v a)).
  { intros y. rewrite qrot_normalized by auto. reflexivity. }
  eapply partial_eq; [apply (base_partial 0 v q b a Ha (quat_ok_pos q Q))|].
  unfold rowv. rewrite in_range_yes by lia. rewrite Nat.sub_0_r. reflexivity.
Qed.
Definition example_cols (q : vec) (i : nat) : mat := rotJ (delta i) q.
Lemma example_cols_ok : rotation_columns_ok example_cols.
Proof. intros q i Q Hi. apply rotJ_exact; auto. Qed.

Lemma rotJ_differentiable v q a b k : quat_ok q -> (a < 3)%nat -> (b < 4)%nat -> (k < 4)%nat ->
  exists d, partial (fun p => rotJ v p a b) q k d.
Proof.
  intros Q Ha Hb Hk. pose proof (quat_ok_pos q Q) as P.
  pose proof (NormalizedDerivative_exact q P) as N.
  pose proof (N 0%nat k ltac:(lia) Hk) as N0. pose proof (N 1%nat k ltac:(lia) Hk) as N1.
  pose proof (N 2%nat k ltac:(lia) Hk) as N2. pose proof (N 3%nat k ltac:(lia) Hk) as N3.
  assert (D : forall m, exists d, partial (fun p => NormalizedQuaternionDerivative p m b) q k d).
  { intros m. pose proof (sqrt_lt_R0 _ P) as Hs.
    pose proof (partial_qnorm2 q k Hk) as DQ.
    assert (DS : partial (fun y => sqrt (qnorm2 y)) q k (/ (2 * sqrt (qnorm2 q)) * (2 * q k))).
    { eapply partial_eq.
      - apply (partial_comp sqrt (fun z => / (2 * sqrt z)) (fun y => qnorm2 y)); [|exact DQ].
        apply is_derive_Reals. apply derivable_pt_lim_sqrt; auto.
      - ring. }
    eexists. apply (partial_ext (fun y => (identity m b * qnorm2 y - y m * y b) * (1 / (sqrt (qnorm2 y) * qnorm2 y)))).
    { reflexivity. }
    apply partial_mult.
    - apply partial_minus; [apply partial_mult; [apply partial_const|exact DQ]|apply partial_mult; apply partial_var].
    - apply partial_div; [|apply partial_const|apply partial_mult; [exact DS|exact DQ]].
      apply Rgt_not_eq. apply Rmult_lt_0_compat; auto. }
  destruct (D 0%nat) as [e0 D0]. destruct (D 1%nat) as [e1 D1]. destruct (D 2%nat) as [e2 D2]. destruct (D 3%nat) as [e3 D3]. clear D N.
  assert (RD : forall m, (m < 4)%nat -> exists d, partial (fun p => RotatedVectorQuaternionJacobian v (NormalizedQuaternion p) a m) q k d).
  { intros m Hm. set (N := fun p => NormalizedQuaternion p) in *.
    change (partial (fun y => N y 0%nat) q k (NormalizedQuaternionDerivative q 0%nat k)) in N0.
    change (partial (fun y => N y 1%nat) q k (NormalizedQuaternionDerivative q 1%nat k)) in N1.
    change (partial (fun y => N y 2%nat) q k (NormalizedQuaternionDerivative q 2%nat k)) in N2.
    change (partial (fun y => N y 3%nat) q k (NormalizedQuaternionDerivative q 3%nat k)) in N3.
    change (fun p => RotatedVectorQuaternionJacobian v (NormalizedQuaternion p) a m) with (fun p => RotatedVectorQuaternionJacobian v (N p) a m).
    clearbody N.
    assert (X : forall f : vec -> R, (forall p, RotatedVectorQuaternionJacobian v (N p) a m = f p) -> (exists d, partial f q k d) ->
                exists d, partial (fun p => RotatedVectorQuaternionJacobian v (N p) a m) q k d).
    { intros f E [d H]. exists d. apply (partial_ext f); auto. }
    eapply X. { intros p. rewrite Rotated_eq by auto. reflexivity. }
    clear X. idx3 a; idx m; unfold mat3mul, qvec; cbn [skew cross]; eexists; dv fail. }
  destruct (RD 0%nat ltac:(lia)) as [r0 R0]. destruct (RD 1%nat ltac:(lia)) as [r1 R1].
  destruct (RD 2%nat ltac:(lia)) as [r2 R2]. destruct (RD 3%nat ltac:(lia)) as [r3 R3].
  eexists. unfold rotJ, matmul44.
  apply partial_plus; [apply partial_plus; [apply partial_plus|]|]; (apply partial_mult; [eassumption|eassumption]).
Qed.
Definition example_hess (q v : vec) (i : nat) : mat := fun a k => Derive (fun t => rotJ v (vset q k t) a i) (q k).
Lemma example_hess_ok : rotation_hessian_ok example_hess.
Proof.
  intros v. exists (rotJ v). split.
  - intros q Q. apply rotJ_exact; auto.
  - intros q i Q Hi a k Ha Hk. unfold partial, example_hess. apply Derive_correct.
    destruct (rotJ_differentiable v q a i k Q Ha Hi Hk) as [d D]. exists d. exact D.
Qed.

(** ** Declared patterns *)
Section Patterns.
  Variable c : dy_cfg.
  Let L := dy_L c.
  Hypothesis LO : layout_ok L.
  Let pts := dl_points L.

  Lemma CJ_zero_outside_declared x s : fst s = c -> zero_outside (p_cjac (dy_patterns s)) (CJ c x).
  Proof.
    intros Es i k N. unfold dy_patterns, p_cjac in N. rewrite Es in N. fold L pts in N.
    pose proof (assemble_cases L LO (cjf c x k) (cjp c x k) zrow zrow (cjb c x k) (fun a => ind (dl_qd L + a) k) (fun a => ind (dl_jv L + a) k) i) as K.
    change (assemble L (cjf c x k) (cjp c x k) zrow zrow (cjb c x k) (fun a => ind (dl_qd L + a) k) (fun a => ind (dl_jv L + a) k) i) with (CJ c x i k) in K.
    assert (NP : forall p q, In p pts -> In q (identity_block (cp_f p) (cp_fc p) 3 ++ identity_block (cp_p p) (cp_vc p) 3) -> q <> (i, k)).
    { intros p q I J ->. apply N. apply in_or_app. left. apply in_flat_map. eauto. }
    assert (NF : forall q, In q (dense_block (dl_base L) (dl_lin L) 3 3 ++ identity_block (dl_quat L) (dl_qd L) 4 ++
       identity_block (dl_jnt L) (dl_jv L) (dl_dof L)) -> q <> (i, k)).
    { intros q J ->. apply N. apply in_or_app. auto. }
    clear N.
    destruct K as [(p&a&I&Ha&->&E)|[(p&a&I&Ha&->&E)|[(a&Ha&->&E)|[(a&Ha&->&E)|[(a&Ha&->&E)|[(a&Ha&->&E)|[(a&Ha&->&E)|(E&Ep&Er)]]]]]]]; rewrite E; auto.
    - assert (B : (cp_fc p + a <> k)%nat).
      { intros <-. apply (NP p (cp_f p + a, cp_fc p + a)%nat); auto. rewrite !in_app_iff, !in_identity_block. left. exists a; auto. }
      destruct a as [|[|[|a]]]; cbn [cjf]; rewrite ind_neq by auto; ring.
    - assert (B : (cp_vc p + a <> k)%nat).
      { intros <-. apply (NP p (cp_p p + a, cp_vc p + a)%nat); auto. rewrite !in_app_iff, !in_identity_block. right. exists a; auto. }
      destruct a as [|[|[|a]]]; cbn [cjp]; rewrite ind_neq by auto; ring.
    - unfold cjb. destruct (rowv_cases (dl_lin L) 3 k (fun b => rotation_of (NormalizedQuaternion (seg x (dl_quat L))) a b)) as [[b [Hb [-> R]]]|[Hb R]]; auto.
      exfalso. apply (NF (dl_base L + a, dl_lin L + b)%nat); auto. rewrite !in_app_iff, !in_dense_block. left. exists a, b; auto.
    - apply ind_neq. intros <-. apply (NF (dl_quat L + a, dl_qd L + a)%nat); auto. rewrite !in_app_iff, !in_identity_block. right; left. exists a; auto.
    - apply ind_neq. intros <-. apply (NF (dl_jnt L + a, dl_jv L + a)%nat); auto. rewrite !in_app_iff, !in_identity_block. right; right. exists a; auto.
  Qed.
  Lemma declared_cjac_needed J s : fst s = c -> zero_outside (p_cjac (dy_patterns s)) J -> zero_outside (needed_cjac c) J.
  Proof.
    intros Es Z i k N. apply Z. intros M. apply N. clear N. unfold dy_patterns, p_cjac in M. rewrite Es in M. fold L pts in M.
    unfold needed_cjac. fold L pts. rewrite !in_app_iff, in_flat_map in *. rewrite !in_dense_block, !in_identity_block in M.
    destruct M as [[p [I M]]|[M|[(a&Ha&E)|(a&Ha&E)]]].
    - left. exists p. split; auto. rewrite !in_app_iff, !in_identity_block, !in_dense_block in *.
      destruct M as [(a&Ha&E)|(a&Ha&E)]; [|right; right; exists a, a; auto].
      destruct a as [|[|[|a]]]; try lia; [left; exists 0%nat, 0%nat; auto|left; exists 1%nat, 1%nat; auto|right; left; simpl; auto].
    - right; left. apply in_dense_block. exact M.
    - right; right; left. apply in_dense_block. exists a, a; auto.
    - right; right; right. apply in_dense_block. exists a, a; auto.
  Qed.

  (** The declared state Jacobian pattern, without the (never written, identically zero)
      quaternion block, and with the missing normal force entries. *)
  Definition true_sjac : list (nat * nat) :=
    flat_map (fun p =>
         identity_block (dl_mom L) (cp_f p) 3 ++ dense_block (dl_mom L + 3) (cp_f p) 3 3 ++
         dense_block (dl_mom L + 3) (cp_p p) 3 3 ++ dense_block (cp_p p) (cp_p p + 2) 2 1 ++
         [(cp_f p + 2, cp_p p + 2)%nat; (cp_f p + 2, cp_f p + 2)%nat]) pts ++
       dense_block (dl_mom L + 3) (dl_com L) 3 3 ++ identity_block (dl_com L) (dl_mom L) 3 ++
       dense_block (dl_base L) (dl_quat L) 3 4.
  Lemma true_sjac_needed J : zero_outside true_sjac J -> zero_outside (needed_sjac c) J.
  Proof.
    intros Z i k N. apply Z. intros M. apply N. clear N. unfold true_sjac in M. unfold needed_sjac. fold L pts.
    rewrite !in_app_iff, in_flat_map in *. 
    destruct M as [[p [I M]]|[M|[M|M]]]; auto.
    - left. exists p. split; auto. rewrite !in_app_iff in *. destruct M as [M|M]; [left|right; exact M].
      apply in_identity_block in M. destruct M as (a&Ha&E). apply in_dense_block. exists a, a; auto.
    - right; right; left. apply in_identity_block in M. destruct M as (a&Ha&E). apply in_dense_block. exists a, a; auto.
  Qed.
  Lemma SJ_zero_outside_true x u : zero_outside true_sjac (SJ c x u).
  Proof.
    intros i k N. destruct (in_dec (fun a b : nat * nat => ltac:(decide equality; apply Nat.eq_dec)) (i, k) (needed_sjac c)) as [M|M].
    2:{ apply (SJ_zero_outside c LO x u); auto. }
    unfold needed_sjac in M. fold L pts in M. unfold true_sjac in N. rewrite !in_app_iff, in_flat_map in M, N.
    destruct M as [[p [I M]]|[M|[M|M]]]; try (exfalso; tauto).
    - rewrite !in_app_iff in M. destruct M as [M|M].
      2:{ exfalso. apply N. left. exists p. split; auto. rewrite !in_app_iff. tauto. }
      apply in_dense_block in M. destruct M as (a&b&Ha&Hb&E). injection E; intros -> ->.
      rewrite (SJ_mom_lin c LO) by auto. unfold identity. destruct (Nat.eqb_spec a b) as [Eab|]; auto.
      exfalso. apply N. left. exists p. split; auto. rewrite !in_app_iff, in_identity_block. left. exists a. split; [auto|]. rewrite <- Eab. reflexivity.
    - apply in_dense_block in M. destruct M as (a&b&Ha&Hb&E). injection E; intros -> ->.
      rewrite (SJ_com_mom c LO) by auto. unfold identity. destruct (Nat.eqb_spec a b) as [Eab|]; [|ring].
      exfalso. apply N. right; right; left. apply in_identity_block. exists a. split; [auto|]. rewrite <- Eab. reflexivity.
  Qed.
End Patterns.
