(** Proofs about DynamicsModel.v: the Hessians. *)
From Coq Require Import Reals List Arith Lia Lra Bool FunctionalExtensionality.
From Coquelicot Require Import Coquelicot.
From Verif Require Import Spec SpecConstraints SpecQuaternion PartialLib Smoothing SmoothingProofs Quaternion QuaternionProofs.
From Verif Require Import ConstraintsModel ConstraintStatements CostsModel QuadLib SpecDynamics DynamicsModel DynamicsLib DynamicsProofs DynamicsJac.
Import ListNotations.
Local Open Scope R_scope.

Lemma partial_seg_row_on (f : vec -> R) x o n k (d : nat -> R) :
  (forall q, (forall i, (i < n)%nat -> q i = seg x o i) -> f q = f (seg x o)) ->
  (forall a, (a < n)%nat -> partial f (seg x o) a (d a)) ->
  partial (fun y => f (seg y o)) x k (rowv o n k d).
Proof.
  intros L H. destruct (rowv_cases o n k d) as [[a [Ha [-> E]]]|[Ha E]]; rewrite E.
  - apply partial_seg. auto.
  - apply partial_indep. intros t. apply L. intros i Hi. unfold seg, vset. destruct (Nat.eqb_spec (o + i) k); auto; lia.
Qed.
Lemma partial_unique f x k d d' : partial f x k d -> partial f x k d' -> d = d'.
Proof. unfold partial. intros A B. apply is_derive_unique in A. apply is_derive_unique in B. congruence. Qed.
Lemma partial_local (f : vec -> R) n q q' b d : (forall p p', (forall i, (i < n)%nat -> p i = p' i) -> f p = f p') ->
  (forall i, (i < n)%nat -> q i = q' i) -> (b < n)%nat -> partial f q b d -> partial f q' b d.
Proof.
  intros L H Hb P. unfold partial in *. rewrite <- (H b Hb). eapply is_derive_ext; [|exact P].
  intros t. simpl. apply L. intros i Hi. unfold vset. destruct (Nat.eqb i b); auto.
Qed.
Lemma qunit_local j : (j < 4)%nat -> forall q q', (forall i, (i < 4)%nat -> q i = q' i) -> qunit q j = qunit q' j.
Proof. intros Hj q q' H. unfold qunit, qnorm2. rewrite !H by lia. reflexivity. Qed.
Lemma qrot_qunit_local v a : (a < 3)%nat -> forall q q', (forall i, (i < 4)%nat -> q i = q' i) ->
  qrot (qunit q) v a = qrot (qunit q') v a.
Proof.
  intros Ha q q' H. unfold qrot, qvec. 
  rewrite (qunit_local 0 ltac:(lia) q q' H).
  idx3 a; cbn [cross]; rewrite (qunit_local 1 ltac:(lia) q q' H), (qunit_local 2 ltac:(lia) q q' H), (qunit_local 3 ltac:(lia) q q' H); reflexivity.
Qed.
Lemma qrot_normalized q v a : (a < 3)%nat -> qrot (NormalizedQuaternion q) v a = qrot (qunit q) v a.
Proof. intros. unfold qrot, qvec. idx3 a; cbn [cross]; rewrite !Normalized_eq by lia; reflexivity. Qed.
Lemma qrot_linear Q v a : (a < 3)%nat ->
  qrot Q v a = v 0%nat * qrot Q (delta 0) a + v 1%nat * qrot Q (delta 1) a + v 2%nat * qrot Q (delta 2) a.
Proof. intros. unfold qrot, qvec, delta. idx3 a; cbn [cross Nat.eqb]; ring. Qed.

Section Dyn.
  Variable c : dy_cfg.
  Let L := dy_L c.
  Hypothesis LO : layout_ok L.
  Let pts := dl_points L.
  Notation V := (V c).

  (** The state Jacobian, with the rotation block given by a matrix. *)
  Definition SJg (G : mat) (x u : vec) : mat := fun i k =>
    assemble L (jf c x u k) (jp c x u k) (jm c x k) (jc c k) (fun a => rowv (dl_quat L) 4 k (fun b => G a b)) zrow zrow i.
  Lemma V_jacobian_gen G x u :
    is_jacobian_mn 3 4 (fun p => qrot (qunit p) (seg u (dl_lin L))) (seg x (dl_quat L)) G ->
    is_jacobian (dl_nx L) (fun y => V y u) x (SJg G x u).
  Proof.
    intros HG i k Hi. unfold DynamicsProofs.V, SJg. fold L. apply partial_assemble.
    - intros p a I Ha. idx3 a; cbn [rf jf]; [apply partial_const|apply partial_const|].
      eapply partial_eq; [dv acts|]. cbv beta. ring.
    - intros p a I Ha. idx3 a; cbn [rp jp]; [| |apply partial_const]; (eapply partial_eq; [dv acts|]); cbv beta; ring.
    - intros a Ha. unfold rm, jm. fold L pts. eapply partial_eq.
      { apply partial_plus; [apply partial_const|].
        apply (partial_lsum pts (fun p y => momrow c y p a) x k (fun p => dmomrow c x k p a)).
        intros p I. apply partial_momrow; auto. }
      ring.
    - intros a Ha. unfold rc, jc. fold L. unfold Rdiv. eapply partial_eq; [dv fail|]. ring.
    - intros a Ha. apply (partial_ext (fun y => qrot (qunit (seg y (dl_quat L))) (seg u (dl_lin L)) a)).
      { intros y. unfold rb. fold L. symmetry. apply qrot_normalized; auto. }
      apply (partial_seg_row (fun q => qrot (qunit q) (seg u (dl_lin L)) a)).
      + apply qrot_qunit_local; auto.
      + intros b Hb. apply HG; auto.
    - intros a Ha. apply partial_const.
    - intros a Ha. apply partial_const.
  Qed.

  (** The weighted gradient. *)
  Definition grad (l : vec) (G : mat) (y u : vec) (j : nat) : R :=
    block_sum L l (jf c y u j) (jp c y u j) (jm c y j) (jc c j) (fun a => rowv (dl_quat L) 4 j (fun b => G a b)) zrow zrow.
  Lemma grad_ok l G y u :
    is_jacobian_mn 3 4 (fun p => qrot (qunit p) (seg u (dl_lin L))) (seg y (dl_quat L)) G ->
    is_gradient (fun z => weighted (dl_nx L) l (V z u)) y (grad l G y u).
  Proof.
    intros HG k. unfold grad. rewrite <- weighted_assemble by auto.
    apply (weighted_gradient (dl_nx L) l (fun z => V z u) (SJg G y u)). apply V_jacobian_gen; auto.
  Qed.

  Definition dd (p : contact_point) (j : nat) : vec := fun m => ind (cp_p p + m) j - ind (dl_com L + m) j.
  Definition ddcross (j k : nat) (p : contact_point) (b : nat) : R :=
    cross (dd p j) (fun m => ind (cp_f p + m) k) b + cross (dd p k) (fun m => ind (cp_f p + m) j) b.
  Definition FP (l : vec) (j k : nat) : R :=
    lsum (fun p => l (dl_mom L + 3)%nat * ddcross j k p 0 + l (dl_mom L + 4)%nat * ddcross j k p 1 +
                   l (dl_mom L + 5)%nat * ddcross j k p 2) pts.
  Definition dpart (x u l : vec) (j k : nat) (p : contact_point) : R :=
    l (cp_f p + 2)%nat *
      (ind (cp_p p + 2) j * (ind (cp_p p + 2) k * (hs_dderiv (dy_z c) (x (cp_p p + 2)%nat) * (u (cp_fc p + 2)%nat + dy_diss c * x (cp_f p + 2)%nat))
                             + ind (cp_f p + 2) k * (hs_deriv (dy_z c) (x (cp_p p + 2)%nat) * dy_diss c)) +
       ind (cp_f p + 2) j * (ind (cp_p p + 2) k * (dy_diss c * hs_deriv (dy_z c) (x (cp_p p + 2)%nat)))) +
    ind (cp_p p + 2) j * (ind (cp_p p + 2) k * (ht_dderiv (dy_xy c) (x (cp_p p + 2)%nat) *
       (l (cp_p p + 0)%nat * u (cp_vc p + 0)%nat + l (cp_p p + 1)%nat * u (cp_vc p + 1)%nat))).
  Definition DP (x u l : vec) (j k : nat) : R := lsum (dpart x u l j k) pts.
  Definition QP (T : nat -> mat) (l : vec) (j k : nat) : R :=
    rowv (dl_quat L) 4 j (fun b => rowv (dl_quat L) 4 k (fun b' => sumn 3 (fun a => l (dl_base L + a)%nat * T b a b'))).
  Definition HS (T : nat -> mat) (x u l : vec) : mat := fun j k => FP l j k + DP x u l j k + QP T l j k.

  Lemma grad_partial l G T x u j k :
    (forall b, (b < 4)%nat -> is_jacobian_mn 3 4 (fun q a => G q a b) (seg x (dl_quat L)) (T b)) ->
    (forall q, (forall i, (i < 4)%nat -> q i = seg x (dl_quat L) i) -> forall a b, (a < 3)%nat -> (b < 4)%nat ->
       G q a b = G (seg x (dl_quat L)) a b) ->
    partial (fun y => grad l (G (seg y (dl_quat L))) y u j) x k (HS T x u l j k).
  Proof.
    intros HT GL. unfold grad, block_sum. eapply partial_eq.
    { apply partial_plus.
      - apply (partial_lsum (dl_points L) (fun p y => sumn 3 (fun a => l (cp_f p + a)%nat * jf c y u j p a) + sumn 3 (fun a => l (cp_p p + a)%nat * jp c y u j p a))
                 x k (fun p => dpart x u l j k p)).
        intros p I. cbn [sumn jf jp]. eapply partial_eq; [dv acts|]. cbv beta. unfold dpart. ring.
      - apply partial_plus; [apply partial_plus; [apply partial_plus; [apply partial_plus|]|]|].
        + (* momentum *)
          cbn [sumn]. unfold jm. cbn [dmomrow]. fold L pts.
          assert (D : forall b, (b < 3)%nat -> partial (fun y => lsum (fun p => dcross c y j p b) pts) x k (lsum (fun p => ddcross j k p b) pts)).
          { intros b Hb. apply (partial_lsum pts (fun p y => dcross c y j p b)). intros p I.
            unfold dcross, ddcross, dist, dd, vsub, seg. fold L. idx3 b; cbn [cross]; (eapply partial_eq; [deriv fail|]); ring. }
          pose proof (D 0%nat ltac:(lia)) as D0. pose proof (D 1%nat ltac:(lia)) as D1. pose proof (D 2%nat ltac:(lia)) as D2. clear D.
          dv fail.
        + apply (partial_sumn 3 (fun a y => l (dl_com L + a)%nat * jc c j a)). intros a Ha. apply (partial_const (l (dl_com L + a)%nat * jc c j a)).
        + apply (partial_sumn 3 (fun a y => l (dl_base L + a)%nat * rowv (dl_quat L) 4 j (fun b => G (seg y (dl_quat L)) a b))
                   x k (fun a => l (dl_base L + a)%nat * rowv (dl_quat L) 4 j (fun b => rowv (dl_quat L) 4 k (fun b' => T b a b')))).
          intros a Ha. eapply partial_eq.
          { apply partial_mult; [apply partial_const|]. apply partial_rowv. intros b Hb.
            apply (partial_seg_row_on (fun q => G q a b) x (dl_quat L) 4 k (fun b' => T b a b')).
            - intros q H. apply GL; auto.
            - intros b' Hb'. apply (HT b Hb a b'); auto. }
          cbv beta. ring.
        + apply (partial_sumn 4 (fun a y => l (dl_quat L + a)%nat * zrow a)). intros a Ha. apply (partial_const (l (dl_quat L + a)%nat * zrow a)).
        + apply (partial_sumn (dl_dof L) (fun a y => l (dl_jnt L + a)%nat * zrow a)). intros a Ha. apply (partial_const (l (dl_jnt L + a)%nat * zrow a)). }
    unfold HS, FP, DP, QP. fold pts. rewrite !lsum_plus, !lsum_scal, !sumn_0. cbn [sumn].
    unfold rowv. destruct (in_range (dl_quat L) 4 j), (in_range (dl_quat L) 4 k); change (fun p : contact_point => dpart x u l j k p) with (dpart x u l j k); ring.
  Qed.

  Lemma V_state_hessian hess l x u : rotation_hessian_ok hess -> quat_nonzero L x ->
    is_hessian_on (quat_nonzero L) (fun y => weighted (dl_nx L) l (V y u)) x (HS (hess (seg x (dl_quat L)) (seg u (dl_lin L))) x u l).
  Proof.
    intros HH Q. destruct (HH (seg u (dl_lin L))) as [G [HG HT]].
    exists (fun y => grad l (G (seg y (dl_quat L))) y u). split.
    - intros y Qy. apply grad_ok. apply HG. exact Qy.
    - intros j k. apply grad_partial.
      + intros b Hb. apply HT; auto.
      + intros q E a b Ha Hb.
        assert (Qq : quat_ok q). { destruct Q as [i [Hi N]]. exists i. split; auto. rewrite E by auto. exact N. }
        apply (partial_unique (fun p => qrot (qunit p) (seg u (dl_lin L)) a) (seg x (dl_quat L)) b).
        * apply (partial_local _ 4 q); auto; [apply qrot_qunit_local; auto|]. apply HG; auto.
        * apply HG; auto.
  Qed.

  (** ** The state Hessian method writes it *)
  Definition FH (l : vec) (j b : nat) : R :=
    l (dl_mom L + 3)%nat * skew (identity b) 0%nat j + l (dl_mom L + 4)%nat * skew (identity b) 1%nat j + l (dl_mom L + 5)%nat * skew (identity b) 2%nat j.
  Lemma ddcross_other p p' i k b : In p pts -> In p' pts -> p' <> p -> (b < 3)%nat ->
    (forall m, (m < 3)%nat -> ind (cp_f p' + m) i = 0) -> (forall m, (m < 3)%nat -> ind (cp_f p' + m) k = 0) -> ddcross i k p' b = 0.
  Proof. intros I I' N Hb A B. unfold ddcross. rewrite !cross_r0; auto. ring. Qed.
  Ltac fp I :=
    unfold FP; rewrite (lsum_single _ pts _ I (pts_nodup L LO));
    [| let p' := fresh "p'" in let I' := fresh "I'" in let N := fresh "N" in intros p' I' N;
       match type of I with In ?p _ =>
         destruct (pts_apart L LO p' p I' I N); destruct (pt_fixed L LO p' (dl_com L) 3 I') as [? ?]; [simpl; tauto|]; unfold apart in *;
         rewrite !(ddcross_other p p') by (auto; intros; apply ind_neq; lia); ring end ].
  Lemma FP_com_f l p j b : In p pts -> (j < 3)%nat -> (b < 3)%nat -> FP l (dl_com L + j) (cp_f p + b) = FH l j b.
  Proof.
    intros I Hj Hb. destruct (pt_fixed L LO p (dl_com L) 3 I) as [A1 A2]; [simpl; tauto|]. pose proof (pt_self L LO p I) as A3. unfold apart in *.
    fp I. unfold ddcross, dd, FH, identity. idx3 j; idx3 b; cbn [cross skew Nat.eqb]; kill_ind; ring.
  Qed.
  Lemma FP_p_f l p j b : In p pts -> (j < 3)%nat -> (b < 3)%nat -> FP l (cp_p p + j) (cp_f p + b) = - FH l j b.
  Proof.
    intros I Hj Hb. destruct (pt_fixed L LO p (dl_com L) 3 I) as [A1 A2]; [simpl; tauto|]. pose proof (pt_self L LO p I) as A3. unfold apart in *.
    fp I. unfold ddcross, dd, FH, identity. idx3 j; idx3 b; cbn [cross skew Nat.eqb]; kill_ind; ring.
  Qed.
  Lemma FP_sym l j k : FP l j k = FP l k j.
  Proof. unfold FP. apply lsum_ext. intros. unfold ddcross. ring. Qed.
  Lemma DP_sym x u l j k : DP x u l j k = DP x u l k j.
  Proof. unfold DP. apply lsum_ext. intros. unfold dpart. ring. Qed.
  (** Cells of the activation terms. *)
  Definition dcell (p : contact_point) (i k : nat) : Prop :=
    (i = cp_p p + 2 /\ k = cp_p p + 2 \/ i = cp_p p + 2 /\ k = cp_f p + 2 \/ i = cp_f p + 2 /\ k = cp_p p + 2)%nat.
  Lemma dpart_zero x u l i k p : ~ dcell p i k -> dpart x u l i k p = 0.
  Proof.
    intros N. unfold dcell in N. unfold dpart, ind.
    destruct (Nat.eqb_spec (cp_p p + 2) i), (Nat.eqb_spec (cp_p p + 2) k), (Nat.eqb_spec (cp_f p + 2) i), (Nat.eqb_spec (cp_f p + 2) k);
      try ring; exfalso; apply N; auto.
  Qed.
  Lemma DP_zero x u l i k : (forall p, In p pts -> ~ dcell p i k) -> DP x u l i k = 0.
  Proof. intros H. apply lsum_zero. intros. apply dpart_zero; auto. Qed.
  Lemma DP_single x u l i k p : In p pts -> dcell p i k -> DP x u l i k = dpart x u l i k p.
  Proof.
    intros I C. apply lsum_single; auto. apply (pts_nodup L LO). intros p' I' N. apply dpart_zero. intros C'.
    destruct (pts_apart L LO p' p I' I N). pose proof (pt_self L LO p I). unfold apart, dcell in *. lia.
  Qed.
  Lemma FP_pp l p a b : In p pts -> (a < 3)%nat -> (b < 3)%nat -> FP l (cp_p p + a) (cp_p p + b) = 0.
  Proof.
    intros I Ha Hb. unfold FP. apply lsum_zero. intros p' I'.
    assert (Z : forall m a, (m < 3)%nat -> (a < 3)%nat -> ind (cp_f p' + m) (cp_p p + a) = 0).
    { intros m a0 Hm Ha0. apply ind_neq. intros E.
      assert (D : p' = p \/ p' <> p). { destruct p as [f1 p1 c1 v1], p' as [f2 p2 c2 v2]. destruct (Nat.eq_dec f1 f2), (Nat.eq_dec p1 p2), (Nat.eq_dec c1 c2), (Nat.eq_dec v1 v2); subst; auto; right; congruence. }
      destruct D as [->|N].
      - pose proof (pt_self L LO p I). unfold apart in *. lia.
      - destruct (pts_apart L LO p' p I' I N). unfold apart in *. lia. }
    unfold ddcross. rewrite !cross_r0; auto. ring.
  Qed.
  Lemma QP_zero T l i k : (in_range (dl_quat L) 4 i && in_range (dl_quat L) 4 k = false) -> QP T l i k = 0.
  Proof. intros H. unfold QP, rowv. destruct (in_range (dl_quat L) 4 i), (in_range (dl_quat L) 4 k); simpl in H; auto; discriminate. Qed.
  Lemma pt_not_quat p i : In p pts -> in_range (cp_f p) 3 i = true \/ in_range (cp_p p) 3 i = true -> in_range (dl_quat L) 4 i = false.
  Proof.
    intros I H. destruct (pt_fixed L LO p (dl_quat L) 4 I) as [A1 A2]; [simpl; tauto|]. unfold apart in *.
    apply in_range_no. destruct H as [H|H]; apply in_range_spec in H; lia.
  Qed.

  Definition Wj (p : contact_point) (i k : nat) (j : nat) : bool :=
    (in_range (cp_f p) 3 i && in_range (cp_p p + j) 1 k) ||
    ((in_range (cp_p p + j) 1 i && in_range (cp_f p) 3 k) ||
     ((in_range (cp_f p) 3 i && in_range (dl_com L + j) 1 k) || (in_range (dl_com L + j) 1 i && in_range (cp_f p) 3 k))).
  Lemma foot_shess_j_cell w l p i k j H : y_lam w = l -> In p pts -> (j < 3)%nat ->
    foot_shess_j c w p H j i k = if Wj p i k j then FP l i k else H i k.
  Proof.
    intros Wl I Hj. unfold foot_shess_j, Wj. rewrite Wl. fold L.
    replace (dl_mom L + 3 + 0)%nat with (dl_mom L + 3)%nat by lia.
    replace (dl_mom L + 3 + 1)%nat with (dl_mom L + 4)%nat by lia.
    replace (dl_mom L + 3 + 2)%nat with (dl_mom L + 5)%nat by lia. unfold skew_column_derivative.
    unfold set_block at 1. destruct (in_range (cp_f p) 3 i && in_range (cp_p p + j) 1 k) eqn:T1; cbn [orb].
    { apply andb_true_iff in T1. destruct T1 as [T T']. apply in_range_spec in T. apply in_range_spec in T'.
      replace k with (cp_p p + j)%nat by lia. replace i with (cp_f p + (i - cp_f p))%nat at 4 by lia.
      rewrite FP_sym, FP_p_f by (auto; lia). reflexivity. }
    unfold set_block at 1. destruct (in_range (cp_p p + j) 1 i && in_range (cp_f p) 3 k) eqn:T2; cbn [orb].
    { apply andb_true_iff in T2. destruct T2 as [T T']. apply in_range_spec in T. apply in_range_spec in T'.
      replace i with (cp_p p + j)%nat by lia. replace k with (cp_f p + (k - cp_f p))%nat at 4 by lia.
      rewrite FP_p_f by (auto; lia). reflexivity. }
    unfold set_block at 1. destruct (in_range (cp_f p) 3 i && in_range (dl_com L + j) 1 k) eqn:T3; cbn [orb].
    { apply andb_true_iff in T3. destruct T3 as [T T']. apply in_range_spec in T. apply in_range_spec in T'.
      replace k with (dl_com L + j)%nat by lia. replace i with (cp_f p + (i - cp_f p))%nat at 4 by lia.
      rewrite FP_sym, FP_com_f by (auto; lia). reflexivity. }
    unfold set_block. destruct (in_range (dl_com L + j) 1 i && in_range (cp_f p) 3 k) eqn:T4; auto.
    apply andb_true_iff in T4. destruct T4 as [T T']. apply in_range_spec in T. apply in_range_spec in T'.
    replace i with (dl_com L + j)%nat by lia. replace k with (cp_f p + (k - cp_f p))%nat at 4 by lia.
    rewrite FP_com_f by (auto; lia). reflexivity.
  Qed.
  Definition W4 (p : contact_point) (i k : nat) : bool := existsb (Wj p i k) (seq 0 3).
  Definition W3 (p : contact_point) (i k : nat) : bool := W4 p i k || (Nat.eqb i (cp_p p + 2) && Nat.eqb k (cp_p p + 2)).
  Lemma W4_pf p a b : (a < 3)%nat -> (b < 3)%nat -> W4 p (cp_p p + a) (cp_f p + b) = true.
  Proof.
    intros. apply existsb_exists. exists a. split; [apply in_seq; lia|]. unfold Wj.
    rewrite (in_range_yes (cp_p p + a) 1 (cp_p p + a)), (in_range_yes (cp_f p) 3 (cp_f p + b)) by lia. rewrite !orb_true_r. reflexivity.
  Qed.
  Lemma W4_fp p a b : (a < 3)%nat -> (b < 3)%nat -> W4 p (cp_f p + b) (cp_p p + a) = true.
  Proof.
    intros. apply existsb_exists. exists a. split; [apply in_seq; lia|]. unfold Wj.
    rewrite (in_range_yes (cp_p p + a) 1 (cp_p p + a)), (in_range_yes (cp_f p) 3 (cp_f p + b)) by lia. reflexivity.
  Qed.
  Lemma W4_cf p a b : (a < 3)%nat -> (b < 3)%nat -> W4 p (dl_com L + a) (cp_f p + b) = true.
  Proof.
    intros. apply existsb_exists. exists a. split; [apply in_seq; lia|]. unfold Wj.
    rewrite (in_range_yes (dl_com L + a) 1 (dl_com L + a)), (in_range_yes (cp_f p) 3 (cp_f p + b)) by lia. rewrite !orb_true_r. reflexivity.
  Qed.
  Lemma W4_fc p a b : (a < 3)%nat -> (b < 3)%nat -> W4 p (cp_f p + b) (dl_com L + a) = true.
  Proof.
    intros. apply existsb_exists. exists a. split; [apply in_seq; lia|]. unfold Wj.
    rewrite (in_range_yes (dl_com L + a) 1 (dl_com L + a)), (in_range_yes (cp_f p) 3 (cp_f p + b)) by lia. rewrite !orb_true_r. reflexivity.
  Qed.
  Lemma W4_inv p i k : W4 p i k = true -> exists a b, (a < 3)%nat /\ (b < 3)%nat /\
    (i = cp_f p + b /\ k = cp_p p + a \/ i = cp_p p + a /\ k = cp_f p + b \/ i = cp_f p + b /\ k = dl_com L + a \/ i = dl_com L + a /\ k = cp_f p + b)%nat.
  Proof.
    intros H. apply existsb_exists in H. destruct H as [j [Hj H]]. apply in_seq in Hj. unfold Wj in H. rewrite !orb_true_iff, !andb_true_iff, !in_range_spec in H.
    destruct H as [H|[H|[H|H]]].
    - exists j, (i - cp_f p)%nat. lia.
    - exists j, (k - cp_f p)%nat. lia.
    - exists j, (i - cp_f p)%nat. lia.
    - exists j, (k - cp_f p)%nat. lia.
  Qed.

  Lemma pt_dec (p p' : contact_point) : p = p' \/ p <> p'.
  Proof. destruct p as [f1 p1 c1 v1], p' as [f2 p2 c2 v2]. destruct (Nat.eq_dec f1 f2), (Nat.eq_dec p1 p2), (Nat.eq_dec c1 c2), (Nat.eq_dec v1 v2); subst; auto; right; congruence. Qed.

  Lemma foot_shess_cell w T x u l p i k H : y_x w = x -> y_u w = u -> y_lam w = l -> In p pts ->
    foot_shess c w H p i k = if W3 p i k then HS T x u l i k else H i k.
  Proof.
    intros Wx Wu Wl I. unfold foot_shess. rewrite Wx, Wu, Wl.
    assert (IN : forall i k, fold_left (foot_shess_j c w p) (seq 0 3) H i k = if W4 p i k then FP l i k else H i k).
    { intros i0 k0. apply (fold_read (fun M => M i0 k0) (foot_shess_j c w p) (Wj p i0 k0) (FP l i0 k0)).
      intros j M Hj. apply in_seq in Hj. apply foot_shess_j_cell; auto. lia. }
    set (H1 := fold_left _ _ _) in *. clearbody H1.
    pose proof (pt_self L LO p I) as SF. unfold apart in SF.
    destruct (pt_fixed L LO p (dl_com L) 3 I) as [PC1 PC2]; [simpl; tauto|].
    destruct (pt_fixed L LO p (dl_quat L) 4 I) as [PQ1 PQ2]; [simpl; tauto|]. unfold apart in *.
    assert (PF : HS T x u l (cp_p p + 2)%nat (cp_f p + 2)%nat = FP l (cp_p p + 2) (cp_f p + 2) + hs_deriv (dy_z c) (x (cp_p p + 2)%nat) * dy_diss c * l (cp_f p + 2)%nat).
    { unfold HS. rewrite (DP_single x u l _ _ p I) by (unfold dcell; tauto). rewrite QP_zero by (rewrite in_range_no by lia; reflexivity).
      unfold dpart. kill_ind. ring. }
    unfold mset at 1. destruct (Nat.eqb i (cp_f p + 2) && Nat.eqb k (cp_p p + 2)) eqn:T1.
    { apply andb_true_iff in T1. destruct T1 as [T1 T1']. apply Nat.eqb_eq in T1. apply Nat.eqb_eq in T1'. subst i k.
      unfold W3. rewrite W4_fp by lia. cbn [orb].
      assert (SY : HS T x u l (cp_f p + 2)%nat (cp_p p + 2)%nat = HS T x u l (cp_p p + 2)%nat (cp_f p + 2)%nat).
      { unfold HS. rewrite FP_sym, DP_sym. f_equal. rewrite !QP_zero; auto; rewrite in_range_no by lia; reflexivity. }
      rewrite SY, PF. unfold mset. rewrite !Nat.eqb_refl. cbn [andb].
      destruct (Nat.eqb_spec (cp_f p + 2) (cp_p p + 2)); [lia|]. cbn [andb]. rewrite IN, W4_pf by lia. ring. }
    unfold mset at 1. destruct (Nat.eqb i (cp_p p + 2) && Nat.eqb k (cp_f p + 2)) eqn:T2.
    { apply andb_true_iff in T2. destruct T2 as [T2 T2']. apply Nat.eqb_eq in T2. apply Nat.eqb_eq in T2'. subst i k.
      unfold W3. rewrite W4_pf by lia. cbn [orb]. rewrite PF. unfold mset.
      destruct (Nat.eqb_spec (cp_f p + 2) (cp_p p + 2)); [lia|]. rewrite andb_false_r. rewrite IN, W4_pf by lia. ring. }
    unfold mset at 1. unfold W3. destruct (Nat.eqb i (cp_p p + 2) && Nat.eqb k (cp_p p + 2)) eqn:T3.
    { apply andb_true_iff in T3. destruct T3 as [T3 T3']. apply Nat.eqb_eq in T3. apply Nat.eqb_eq in T3'. subst i k.
      rewrite orb_true_r. unfold HS. rewrite FP_pp by (auto; lia). rewrite (DP_single x u l _ _ p I) by (unfold dcell; tauto).
      rewrite QP_zero by (rewrite in_range_no by lia; reflexivity). unfold dpart. kill_ind. ring. }
    rewrite orb_false_r, IN. destruct (W4 p i k) eqn:T4; auto.
    unfold HS. rewrite DP_zero, QP_zero; [ring| |].
    - apply W4_inv in T4. destruct T4 as (a&b&Ha&Hb&[E|[E|[E|E]]]); destruct E as [-> ->];
        rewrite ?(in_range_no (dl_quat L) 4 (cp_f p + b)) by lia; rewrite ?andb_false_r; reflexivity.
    - intros p' I' C. apply W4_inv in T4. destruct T4 as (a&b&Ha&Hb&E).
      destruct (pt_dec p' p) as [->|N].
      + unfold dcell in C. apply andb_false_iff in T1. apply andb_false_iff in T2. apply andb_false_iff in T3.
        rewrite !Nat.eqb_neq in T1, T2, T3. destruct C as [C|[C|C]]; lia.
      + destruct (pts_apart L LO p' p I' I N). unfold apart, dcell in *. lia.
  Qed.

  Lemma HS_zero_outside T x u l s : fst s = c -> zero_outside (p_shess (dy_patterns s)) (HS T x u l).
  Proof.
    intros Es i k N. unfold dy_patterns, p_shess in N. rewrite Es in N. fold L pts in N. rewrite in_app_iff, in_flat_map in N.
    assert (NP : forall p a b, In p pts -> (a < 3)%nat -> (b < 3)%nat ->
       (i, k) <> (dl_com L + a, cp_f p + b)%nat /\ (i, k) <> (cp_f p + b, dl_com L + a)%nat /\
       (i, k) <> (cp_p p + a, cp_f p + b)%nat /\ (i, k) <> (cp_f p + b, cp_p p + a)%nat /\ (i, k) <> (cp_p p + 2, cp_p p + 2)%nat).
    { intros p a b I Ha Hb.
      repeat split; intros E; apply N; left; exists p; (split; [exact I|]); rewrite E, !in_app_iff, !in_dense_block.
      - left. eauto.
      - right; left. eauto 6.
      - right; right; left. eauto 6.
      - right; right; right; left. eauto 6.
      - right; right; right; right. simpl; auto. }
    unfold HS. rewrite DP_zero.
    - rewrite QP_zero.
      + unfold FP. rewrite lsum_zero; [ring|]. intros p I.
        assert (Z : forall b, (b < 3)%nat -> ddcross i k p b = 0); [|rewrite !Z by lia; ring].
        intros b Hb. unfold ddcross.
        assert (Z : forall i k, (forall a m, (a < 3)%nat -> (m < 3)%nat -> (i, k) <> (dl_com L + a, cp_f p + m)%nat /\ (i, k) <> (cp_p p + a, cp_f p + m)%nat) ->
                   cross (dd p i) (fun m => ind (cp_f p + m) k) b = 0).
        { clear. intros i k H.
          destruct (in_range (cp_f p) 3 k) eqn:E.
          - apply in_range_spec in E. assert (exists m, (m < 3)%nat /\ k = (cp_f p + m)%nat) as [m [Hm ->]] by (exists (k - cp_f p)%nat; lia).
            assert (D0 : forall a, (a < 3)%nat -> dd p i a = 0).
            { intros a Ha. destruct (H a m Ha Hm) as [A1 A2]. unfold dd. rewrite !ind_neq; [ring| |]; intros <-; congruence. }
            destruct b as [|[|b]]; cbn [cross]; rewrite !D0 by lia; ring.
          - assert (D0 : forall a, (a < 3)%nat -> ind (cp_f p + a) k = 0).
            { intros a Ha. apply ind_neq. intros <-. rewrite in_range_yes in E by lia. discriminate. }
            destruct b as [|[|b]]; cbn [cross]; rewrite !D0 by lia; ring. }
        rewrite (Z i k), (Z k i); [ring| |].
        * intros a m Ha Hm. destruct (NP p a m I Ha Hm) as (E1&E2&E3&E4&E5). split; intros E; injection E; intros; subst; congruence.
        * intros a m Ha Hm. destruct (NP p a m I Ha Hm) as (E1&E2&E3&E4&E5). split; auto.
      + destruct (in_range (dl_quat L) 4 i && in_range (dl_quat L) 4 k) eqn:E; auto. exfalso. apply N. right.
        apply andb_true_iff in E. rewrite !in_range_spec in E. apply in_dense_block. exists (i - dl_quat L)%nat, (k - dl_quat L)%nat.
        repeat split; try lia. f_equal; lia.
    - intros p I C. destruct (NP p 2%nat 2%nat I) as (E1&E2&E3&E4&E5); try lia.
      destruct C as [[-> ->]|[[-> ->]|[-> ->]]]; congruence.
  Qed.

  Lemma shess_HS hess cols w t x u l H : zero_outside (p_shess (dy_patterns (c, w))) H ->
    snd (c_shess (dy_class hess cols) (c, w) t x u l H) = HS (hess (seg x (dl_quat L)) (seg u (dl_lin L))) x u l.
  Proof.
    intros Z. set (T := hess (seg x (dl_quat L)) (seg u (dl_lin L))).
    apply functional_extensionality; intros i. apply functional_extensionality; intros k.
    cbn [dy_class c_shess]. unfold dy_shess. cbn [snd]. set (w' := dy_update c (dy_set_lambda w l) x u). fold L.
    rewrite <- fold_left_app. change (dl_left L ++ dl_right L) with pts.
    assert (Wx : y_x w' = x) by reflexivity. assert (Wu : y_u w' = u) by reflexivity. assert (Wl : y_lam w' = l) by reflexivity.
    change (y_q w') with (seg x (dl_quat L)). change (y_lin w') with (seg u (dl_lin L)). fold T. rewrite Wl.
    rewrite (fold_read (fun M => M i k) (foot_shess c w') (fun p => W3 p i k) (HS T x u l i k))
      by (intros p M I; apply foot_shess_cell; auto).
    destruct (existsb (fun p => W3 p i k) pts) eqn:T4; auto.
    rewrite (fold_read (fun M => M i k) _ (fun b => in_range (dl_quat L + b) 1 i && in_range (dl_quat L) 4 k) (HS T x u l i k)).
    - destruct (existsb _ (seq 0 4)) eqn:T5; auto.
      assert (NN : ~ In (i, k) (p_shess (dy_patterns (c, w)))).
      { unfold dy_patterns, p_shess. cbn [fst]. fold L pts. rewrite in_app_iff, in_flat_map. intros [[p [I M]]|M].
        - assert (W3 p i k = true); [|rewrite <- not_true_iff_false in T4; apply T4; apply existsb_exists; eauto].
          unfold W3. rewrite !in_app_iff, !in_dense_block in M.
          destruct M as [(a&b&Ha&Hb&E)|[(a&b&Ha&Hb&E)|[(a&b&Ha&Hb&E)|[(a&b&Ha&Hb&E)|M]]]]; try (injection E; intros; subst i k).
          + rewrite W4_cf by auto. reflexivity.
          + rewrite W4_fc by auto. reflexivity.
          + rewrite W4_pf by auto. reflexivity.
          + rewrite W4_fp by auto. reflexivity.
          + simpl in M. destruct M as [M|[]]. injection M; intros; subst i k. rewrite !Nat.eqb_refl. apply orb_true_r.
        - apply in_dense_block in M. destruct M as (a&b&Ha&Hb&E). injection E; intros; subst i k.
          rewrite <- not_true_iff_false in T5. apply T5. apply existsb_exists. exists a. split; [apply in_seq; lia|].
          rewrite !in_range_yes by lia. reflexivity. }
      rewrite (Z i k NN). symmetry. apply (HS_zero_outside T x u l (c, w)); auto.
    - intros b M Hb. apply in_seq in Hb. unfold set_block. destruct (in_range (dl_quat L + b) 1 i && in_range (dl_quat L) 4 k) eqn:E; auto.
      apply andb_true_iff in E. destruct E as [E E']. apply in_range_spec in E. apply in_range_spec in E'.
      assert (i = dl_quat L + b)%nat by lia. subst i. replace k with (dl_quat L + (k - dl_quat L))%nat by lia.
      set (b' := (k - dl_quat L)%nat) in *. replace (dl_quat L + b' - dl_quat L)%nat with b' by lia.
      assert (Hb' : (b' < 4)%nat) by (unfold b'; lia). clearbody b'.
      unfold HS, QP. rewrite !rowv_in by lia. rewrite DP_zero.
      + unfold FP. rewrite lsum_zero; [ring|]. intros p I.
        destruct (pt_fixed L LO p (dl_quat L) 4 I) as [A1 A2]; [simpl; tauto|]. unfold apart in *.
        assert (Zc : forall m, (m < 3)%nat -> ddcross (dl_quat L + b) (dl_quat L + b') p m = 0); [|rewrite !Zc by lia; ring].
        intros m Hm. unfold ddcross. rewrite !cross_r0; auto; [ring| |]; intros; apply ind_neq; lia.
      + intros p I C. destruct (pt_fixed L LO p (dl_quat L) 4 I) as [A1 A2]; [simpl; tauto|]. unfold apart, dcell in *. lia.
  Qed.

  (** ** Control Hessian: zero *)
  Lemma V_control_hessian l x u : is_hessian (fun w => weighted (dl_nx L) l (V x w)) u mzero.
  Proof.
    apply (weighted_hessian (dl_nx L) l (fun w => V x w) (fun _ => CJ c x)).
    - intros w. apply V_control_jacobian.
    - intros j k. apply partial_const.
  Qed.

  (** ** Mixed Hessian *)
  Definition mpart (x l : vec) (j k : nat) (p : contact_point) : R :=
    l (cp_f p + 2)%nat * (ind (cp_p p + 2) j * (hs_deriv (dy_z c) (x (cp_p p + 2)%nat) * ind (cp_fc p + 2) k)) +
    ind (cp_p p + 2) j * (ht_deriv (dy_xy c) (x (cp_p p + 2)%nat) *
       (l (cp_p p + 0)%nat * ind (cp_vc p + 0) k + l (cp_p p + 1)%nat * ind (cp_vc p + 1) k)).
  Definition MH (C : nat -> mat) (x l : vec) : mat := fun j k =>
    lsum (mpart x l j k) pts +
    rowv (dl_quat L) 4 j (fun b => rowv (dl_lin L) 3 k (fun i => sumn 3 (fun a => C i a b * l (dl_base L + a)%nat))).
  Definition Gc (C : nat -> mat) (v : vec) : mat := fun a b => v 0%nat * C 0%nat a b + v 1%nat * C 1%nat a b + v 2%nat * C 2%nat a b.
  Lemma Gc_ok cols q v : rotation_columns_ok cols -> quat_ok q ->
    is_jacobian_mn 3 4 (fun p => qrot (qunit p) v) q (Gc (cols q) v).
  Proof.
    intros HC Q a b Ha Hb.
    apply (partial_ext (fun p => v 0%nat * qrot (qunit p) (delta 0) a + v 1%nat * qrot (qunit p) (delta 1) a + v 2%nat * qrot (qunit p) (delta 2) a)).
    { intros p. symmetry. apply qrot_linear; auto. }
    pose proof (HC q 0%nat Q ltac:(lia) a b Ha Hb) as D0. pose proof (HC q 1%nat Q ltac:(lia) a b Ha Hb) as D1. pose proof (HC q 2%nat Q ltac:(lia) a b Ha Hb) as D2.
    unfold Gc. cbv beta in D0, D1, D2. eapply partial_eq.
    { apply partial_plus; [apply partial_plus|]; (apply partial_mult; [apply partial_const|eassumption]). }
    cbv beta. ring.
  Qed.
  Lemma V_mixed_hessian cols l x u : rotation_columns_ok cols -> quat_nonzero L x ->
    is_mixed_hessian_on (quat_nonzero L) (fun y w => weighted (dl_nx L) l (V y w)) x u (MH (cols (seg x (dl_quat L))) x l).
  Proof.
    intros HC Q.
    exists (fun y w => grad l (Gc (cols (seg y (dl_quat L))) (seg w (dl_lin L))) y w). split.
    - intros y w Qy. apply grad_ok. apply Gc_ok; auto.
    - intros j k. set (C := cols (seg x (dl_quat L))). unfold grad, block_sum. eapply partial_eq.
      { apply partial_plus.
        - apply (partial_lsum (dl_points L) (fun p w => sumn 3 (fun a => l (cp_f p + a)%nat * jf c x w j p a) + sumn 3 (fun a => l (cp_p p + a)%nat * jp c x w j p a))
                   u k (fun p => mpart x l j k p)).
          intros p I. cbn [sumn jf jp]. eapply partial_eq; [dv fail|]. cbv beta. unfold mpart. ring.
        - apply partial_plus; [apply partial_plus; [apply partial_plus; [apply partial_plus|]|]|].
          + apply (partial_const (sumn 6 (fun a => l (dl_mom L + a)%nat * jm c x j a))).
          + apply (partial_const (sumn 3 (fun a => l (dl_com L + a)%nat * jc c j a))).
          + apply (partial_sumn 3 (fun a w => l (dl_base L + a)%nat * rowv (dl_quat L) 4 j (fun b => Gc C (seg w (dl_lin L)) a b))
                   u k (fun a => l (dl_base L + a)%nat * rowv (dl_quat L) 4 j (fun b => rowv (dl_lin L) 3 k (fun i => C i a b)))).
            intros a Ha. eapply partial_eq.
            { apply partial_mult; [apply partial_const|]. apply partial_rowv. intros b Hb.
              instantiate (1 := fun b => rowv (dl_lin L) 3 k (fun i => C i a b)). cbv beta. rewrite rowv_ind3.
              unfold Gc, seg. eapply partial_eq; [dv fail|]. cbv beta. ring. }
            cbv beta. ring.
          + apply (partial_const (sumn 4 (fun a => l (dl_quat L + a)%nat * zrow a))).
          + apply (partial_const (sumn (dl_dof L) (fun a => l (dl_jnt L + a)%nat * zrow a))). }
      unfold MH. cbn [sumn]. fold pts. unfold rowv.
      change (fun p : contact_point => mpart x l j k p) with (mpart x l j k). destruct (in_range (dl_quat L) 4 j), (in_range (dl_lin L) 3 k); ring.
  Qed.

  Definition W5 (p : contact_point) (i k : nat) : bool :=
    (Nat.eqb i (cp_p p + 2) && Nat.eqb k (cp_fc p + 2)) ||
    ((Nat.eqb i (cp_p p + 2) && Nat.eqb k (cp_vc p + 1)) || (Nat.eqb i (cp_p p + 2) && Nat.eqb k (cp_vc p))).
  Lemma mpart_zero x l i k p : W5 p i k = false -> mpart x l i k p = 0.
  Proof.
    unfold W5, mpart, ind. rewrite !Nat.add_0_r. rewrite (Nat.eqb_sym i), (Nat.eqb_sym k (cp_fc p + 2)), (Nat.eqb_sym k (cp_vc p + 1)), (Nat.eqb_sym k (cp_vc p)).
    destruct (Nat.eqb (cp_p p + 2) i), (Nat.eqb (cp_fc p + 2) k), (Nat.eqb (cp_vc p + 1) k), (Nat.eqb (cp_vc p) k); simpl; intros; try discriminate; ring.
  Qed.
  Lemma foot_mhess_cell w C x l p i k H : y_x w = x -> y_lam w = l -> In p pts ->
    foot_mhess c w H p i k = if W5 p i k then MH C x l i k else H i k.
  Proof.
    intros Wx Wl I. unfold foot_mhess. rewrite Wx, Wl.
    assert (E : W5 p i k = true -> MH C x l i k = mpart x l i k p).
    { intros W. assert (Ei : (i = cp_p p + 2)%nat).
      { unfold W5 in W. rewrite !orb_true_iff, !andb_true_iff, !Nat.eqb_eq in W. lia. }
      unfold MH. rewrite (lsum_single _ pts p I (pts_nodup L LO)).
      - rewrite rowv_out; [ring|]. destruct (pt_fixed L LO p (dl_quat L) 4 I) as [A1 A2]; [simpl; tauto|]. unfold apart in *. lia.
      - intros p' I' N. apply mpart_zero. destruct (W5 p' i k) eqn:W'; auto. exfalso.
        unfold W5 in W'. rewrite !orb_true_iff, !andb_true_iff, !Nat.eqb_eq in W'.
        destruct (pts_apart L LO p' p I' I N). unfold apart in *. lia. }
    pose proof (cpt_self L LO p I) as CS. unfold apart in CS.
    unfold mset, W5 in *.
    destruct (Nat.eqb i (cp_p p + 2) && Nat.eqb k (cp_fc p + 2)) eqn:T1; cbn [orb] in *.
    { rewrite E by auto. apply andb_true_iff in T1. rewrite !Nat.eqb_eq in T1. destruct T1 as [-> ->]. unfold mpart. kill_ind. ring. }
    destruct (Nat.eqb i (cp_p p + 2) && Nat.eqb k (cp_vc p + 1)) eqn:T2; cbn [orb] in *.
    { rewrite E by auto. apply andb_true_iff in T2. rewrite !Nat.eqb_eq in T2. destruct T2 as [-> ->]. unfold mpart. kill_ind. ring. }
    destruct (Nat.eqb i (cp_p p + 2) && Nat.eqb k (cp_vc p)) eqn:T3; cbn [orb] in *; auto.
    rewrite E by auto. apply andb_true_iff in T3. rewrite !Nat.eqb_eq in T3. destruct T3 as [-> ->]. unfold mpart. kill_ind. ring.
  Qed.
  Lemma MH_zero_outside C x l s : fst s = c -> zero_outside (p_mhess (dy_patterns s)) (MH C x l).
  Proof.
    intros Es i k N. unfold dy_patterns, p_mhess in N. rewrite Es in N. fold L pts in N. rewrite in_app_iff, in_flat_map in N.
    unfold MH. rewrite lsum_zero.
    - unfold rowv. destruct (in_range (dl_quat L) 4 i) eqn:E1, (in_range (dl_lin L) 3 k) eqn:E2; try ring.
      exfalso. apply N. right. apply in_range_spec in E1. apply in_range_spec in E2. apply in_dense_block.
      exists (i - dl_quat L)%nat, (k - dl_lin L)%nat. repeat split; try lia. f_equal; lia.
    - intros p I. apply mpart_zero. destruct (W5 p i k) eqn:W; auto. exfalso. apply N. left. exists p. split; auto.
      unfold W5 in W. rewrite !orb_true_iff, !andb_true_iff, !Nat.eqb_eq in W. simpl.
      destruct W as [[-> ->]|[[-> ->]|[-> ->]]]; auto.
  Qed.
  Lemma mhess_MH hess cols w t x u l H : zero_outside (p_mhess (dy_patterns (c, w))) H ->
    snd (c_mhess (dy_class hess cols) (c, w) t x u l H) = MH (cols (seg x (dl_quat L))) x l.
  Proof.
    intros Z. set (C := cols (seg x (dl_quat L))).
    apply functional_extensionality; intros i. apply functional_extensionality; intros k.
    cbn [dy_class c_mhess]. unfold dy_mhess. cbn [snd]. set (w' := dy_update c (dy_set_lambda w l) x u). fold L.
    rewrite <- fold_left_app. change (dl_left L ++ dl_right L) with pts.
    assert (Wx : y_x w' = x) by reflexivity. assert (Wl : y_lam w' = l) by reflexivity.
    change (y_q w') with (seg x (dl_quat L)). fold C. rewrite Wl.
    rewrite (fold_read (fun M => M i k) (foot_mhess c w') (fun p => W5 p i k) (MH C x l i k))
      by (intros p M I; apply foot_mhess_cell; auto).
    destruct (existsb (fun p => W5 p i k) pts) eqn:T4; auto.
    assert (T4' : forall p, In p pts -> W5 p i k = false).
    { intros p I. destruct (W5 p i k) eqn:E; auto. rewrite <- T4. symmetry. apply existsb_exists; eauto. }
    rewrite (fold_read (fun M => M i k) _ (fun b => in_range (dl_quat L) 4 i && in_range (dl_lin L + b) 1 k) (MH C x l i k)).
    - destruct (existsb _ (seq 0 3)) eqn:T5; auto.
      assert (NN : ~ In (i, k) (p_mhess (dy_patterns (c, w)))).
      { unfold dy_patterns, p_mhess. cbn [fst]. fold L pts. rewrite in_app_iff, in_flat_map. intros [[p [I M]]|M].
        - specialize (T4' p I). unfold W5 in T4'. simpl in M.
          destruct M as [M|[M|[M|[]]]]; injection M; intros; subst i k; rewrite !Nat.eqb_refl in T4'; cbn [andb] in T4'; rewrite ?orb_true_r in T4'; discriminate.
        - apply in_dense_block in M. destruct M as (a&b&Ha&Hb&E). injection E; intros; subst i k.
          rewrite <- not_true_iff_false in T5. apply T5. apply existsb_exists. exists b. split; [apply in_seq; lia|].
          rewrite !in_range_yes by lia. reflexivity. }
      rewrite (Z i k NN). symmetry. apply (MH_zero_outside C x l (c, w)); auto.
    - intros b M Hb. apply in_seq in Hb. unfold set_block. destruct (in_range (dl_quat L) 4 i && in_range (dl_lin L + b) 1 k) eqn:E; auto.
      apply andb_true_iff in E. destruct E as [E E']. apply in_range_spec in E'.
      assert (k = dl_lin L + b)%nat by lia. subst k. 
      unfold MH. rewrite lsum_zero by (intros p I; apply mpart_zero; auto).
      unfold rowv. rewrite E. rewrite (in_range_yes (dl_lin L) 3) by lia. replace (dl_lin L + b - dl_lin L)%nat with b by lia. ring.
  Qed.
End Dyn.
