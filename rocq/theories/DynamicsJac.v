(** Proofs about DynamicsModel.v: the Jacobians. *)
From Coq Require Import Reals List Arith Lia Lra Bool FunctionalExtensionality.
From Coquelicot Require Import Coquelicot.
From Verif Require Import Spec SpecConstraints SpecQuaternion PartialLib Smoothing SmoothingProofs Quaternion QuaternionProofs.
From Verif Require Import ConstraintsModel ConstraintStatements CostsModel QuadLib SpecDynamics DynamicsModel DynamicsLib DynamicsProofs.
Import ListNotations.
Local Open Scope R_scope.

(** ** Partial derivatives through a segment *)
Lemma partial_seg (f : vec -> R) x o a d : partial f (seg x o) a d -> partial (fun y => f (seg y o)) x (o + a) d.
Proof.
  unfold partial. intros H. eapply is_derive_ext; [|exact H]. intros t. simpl. f_equal.
  apply functional_extensionality. intros i. unfold seg, vset.
  destruct (Nat.eqb_spec i a), (Nat.eqb_spec (o + i) (o + a)); auto; lia.
Qed.
Lemma partial_indep (f : vec -> R) x k : (forall t, f (vset x k t) = f x) -> partial f x k 0.
Proof.
  intros H. unfold partial. apply (is_derive_ext (fun _ => f x)); [intros; simpl; symmetry; apply H|].
  exact (is_derive_const (K:=R_AbsRing) (V:=R_NormedModule) (f x) (x k)).
Qed.
Lemma partial_seg_row (f : vec -> R) x o n k (d : nat -> R) :
  (forall q q', (forall i, (i < n)%nat -> q i = q' i) -> f q = f q') ->
  (forall a, (a < n)%nat -> partial f (seg x o) a (d a)) ->
  partial (fun y => f (seg y o)) x k (rowv o n k d).
Proof.
  intros L H. destruct (rowv_cases o n k d) as [[a [Ha [-> E]]]|[Ha E]]; rewrite E.
  - apply partial_seg. auto.
  - apply partial_indep. intros t. apply L. intros i Hi. unfold seg, vset. destruct (Nat.eqb_spec (o + i) k); auto; lia.
Qed.
Lemma norm_local j : (j < 4)%nat -> forall q q', (forall i, (i < 4)%nat -> q i = q' i) ->
  NormalizedQuaternion q j = NormalizedQuaternion q' j.
Proof. intros Hj q q' H. unfold NormalizedQuaternion, QuaternionSquaredNorm. rewrite !H by lia. reflexivity. Qed.

Lemma base_partial o v x k a : (a < 3)%nat -> 0 < qnorm2 (seg x o) ->
  partial (fun y => qrot (NormalizedQuaternion (seg y o)) v a) x k
    (rowv o 4 k (fun b => matmul44 (RotatedVectorQuaternionJacobian v (NormalizedQuaternion (seg x o)))
                                   (NormalizedQuaternionDerivative (seg x o)) a b)).
Proof.
  intros Ha P.
  assert (D : forall j, (j < 4)%nat -> partial (fun y => NormalizedQuaternion (seg y o) j) x k
                 (rowv o 4 k (fun b => NormalizedQuaternionDerivative (seg x o) j b))).
  { intros j Hj. apply (partial_seg_row (fun q => NormalizedQuaternion q j)).
    - apply norm_local; auto.
    - intros b Hb. apply (NormalizedDerivative_exact (seg x o) P); auto. }
  pose proof (D 0%nat ltac:(lia)) as D0. pose proof (D 1%nat ltac:(lia)) as D1.
  pose proof (D 2%nat ltac:(lia)) as D2. pose proof (D 3%nat ltac:(lia)) as D3. clear D.
  set (nd := NormalizedQuaternionDerivative (seg x o)) in *. clearbody nd.
  set (N := fun y => NormalizedQuaternion (seg y o)) in *.
  change (fun y => NormalizedQuaternion (seg y o) 0%nat) with (fun y => N y 0%nat) in D0.
  change (fun y => NormalizedQuaternion (seg y o) 1%nat) with (fun y => N y 1%nat) in D1.
  change (fun y => NormalizedQuaternion (seg y o) 2%nat) with (fun y => N y 2%nat) in D2.
  change (fun y => NormalizedQuaternion (seg y o) 3%nat) with (fun y => N y 3%nat) in D3.
  change (NormalizedQuaternion (seg x o)) with (N x). 
  change (partial (fun y => qrot (N y) v a) x k (rowv o 4 k (fun b => matmul44 (RotatedVectorQuaternionJacobian v (N x)) nd a b))).
  clearbody N. unfold qrot, qvec.
  idx3 a; cbn [cross]; (eapply partial_eq; [dv fail|]);
  unfold matmul44; rewrite !Rotated_eq by lia; unfold mat3mul, qvec; cbn [skew cross];
  unfold rowv; destruct (in_range o 4 k); ring.
Qed.

Lemma qrot_local q v v' a : (a < 3)%nat -> (forall i, (i < 3)%nat -> v i = v' i) -> qrot q v a = qrot q v' a.
Proof. intros Ha H. unfold qrot, qvec. idx3 a; cbn [cross]; rewrite !H by lia; reflexivity. Qed.

Section Dyn.
  Variable c : dy_cfg.
  Let L := dy_L c.
  Hypothesis LO : layout_ok L.
  Let pts := dl_points L.
  Notation V := (V c).

  (** ** State Jacobian: closed form *)
  Definition jf (x u : vec) (k : nat) (p : contact_point) (a : nat) : R :=
    match a with
    | 2%nat => ind (cp_p p + 2) k * (hs_deriv (dy_z c) (x (cp_p p + 2)%nat) * (u (cp_fc p + 2)%nat + dy_diss c * x (cp_f p + 2)%nat)) +
               ind (cp_f p + 2) k * (dy_diss c * (hs_eval (dy_z c) (x (cp_p p + 2)%nat) - 1))
    | _ => 0
    end.
  Definition jp (x u : vec) (k : nat) (p : contact_point) (a : nat) : R :=
    match a with
    | 2%nat => 0
    | _ => ind (cp_p p + 2) k * (ht_deriv (dy_xy c) (x (cp_p p + 2)%nat) * u (cp_vc p + a)%nat)
    end.
  Definition dcross (x : vec) (k : nat) (p : contact_point) (b : nat) : R :=
    cross (fun j => ind (cp_p p + j) k - ind (dl_com L + j) k) (seg x (cp_f p)) b +
    cross (dist c x p) (fun j => ind (cp_f p + j) k) b.
  Definition dmomrow (x : vec) (k : nat) (p : contact_point) (a : nat) : R :=
    match a with
    | S (S (S b)) => dcross x k p b
    | _ => ind (cp_f p + a) k
    end.
  Definition jm (x : vec) (k : nat) (a : nat) : R := lsum (fun p => dmomrow x k p a) pts.
  Definition jc (k : nat) (a : nat) : R := ind (dl_mom L + a) k / dy_mass c.
  Definition jb (x u : vec) (k : nat) (a : nat) : R :=
    rowv (dl_quat L) 4 k (fun b => matmul44 (RotatedVectorQuaternionJacobian (seg u (dl_lin L)) (NormalizedQuaternion (seg x (dl_quat L))))
                                            (NormalizedQuaternionDerivative (seg x (dl_quat L))) a b).
  Definition zrow (a : nat) : R := 0.
  Definition SJ (x u : vec) : mat := fun i k =>
    assemble L (jf x u k) (jp x u k) (jm x k) (jc k) (jb x u k) zrow zrow i.

  Lemma partial_momrow x k p a : (a < 6)%nat -> partial (fun y => momrow c y p a) x k (dmomrow x k p a).
  Proof.
    intros Ha. destruct a as [|[|[|b]]]; cbn [momrow dmomrow]; try apply partial_var.
    unfold dcross, dist, vsub, seg. fold L. destruct b as [|[|[|b]]]; try lia; cbn [cross];
      (eapply partial_eq; [deriv fail|]); ring.
  Qed.
  Lemma V_state_jacobian x u : quat_nonzero L x -> is_jacobian (dl_nx L) (fun y => V y u) x (SJ x u).
  Proof.
    intros Q i k Hi. unfold DynamicsProofs.V, SJ. fold L. apply partial_assemble.
    - intros p a I Ha. idx3 a; cbn [rf jf]; [apply partial_const|apply partial_const|].
      eapply partial_eq; [dv acts|]. cbv beta. ring.
    - intros p a I Ha. idx3 a; cbn [rp jp]; [| |apply partial_const]; (eapply partial_eq; [dv acts|]); cbv beta; ring.
    - intros a Ha. unfold rm, jm. fold L pts. eapply partial_eq.
      { apply partial_plus; [apply partial_const|].
        apply (partial_lsum pts (fun p y => momrow c y p a) x k (fun p => dmomrow x k p a)).
        intros p I. apply partial_momrow; auto. }
      ring.
    - intros a Ha. unfold rc, jc. fold L. unfold Rdiv. eapply partial_eq; [dv fail|]. ring.
    - intros a Ha. unfold rb, jb. fold L. destruct Q as [j [Hj Hq]]. apply base_partial; auto.
      apply (qnorm2_pos _ j Hj Hq).
    - intros a Ha. apply partial_const.
    - intros a Ha. apply partial_const.
  Qed.

  (** The entries the state Jacobian method writes. *)
  Definition needed_sjac : list (nat * nat) :=
    flat_map (fun p =>
         dense_block (dl_mom L) (cp_f p) 3 3 ++ dense_block (dl_mom L + 3) (cp_f p) 3 3 ++
         dense_block (dl_mom L + 3) (cp_p p) 3 3 ++ dense_block (cp_p p) (cp_p p + 2) 2 1 ++
         [(cp_f p + 2, cp_p p + 2)%nat; (cp_f p + 2, cp_f p + 2)%nat]) pts ++
       dense_block (dl_mom L + 3) (dl_com L) 3 3 ++ dense_block (dl_com L) (dl_mom L) 3 3 ++
       dense_block (dl_base L) (dl_quat L) 3 4.

  Definition W1 (p : contact_point) (i k : nat) : bool :=
    (in_range (cp_p p) 2 i && in_range (cp_p p + 2) 1 k) ||
    ((Nat.eqb i (cp_f p + 2) && Nat.eqb k (cp_f p + 2)) ||
     ((Nat.eqb i (cp_f p + 2) && Nat.eqb k (cp_p p + 2)) ||
      ((in_range (dl_mom L + 3) 3 i && in_range (cp_p p) 3 k) ||
       ((in_range (dl_mom L + 3) 3 i && in_range (cp_f p) 3 k) ||
        (in_range (dl_mom L) 3 i && in_range (cp_f p) 3 k))))).

  Lemma cross_l0 (a b : vec) i : (i < 3)%nat -> (forall j, (j < 3)%nat -> a j = 0) -> cross a b i = 0.
  Proof. intros Hi H. idx3 i; cbn [cross]; rewrite !H by lia; ring. Qed.
  Lemma cross_r0 (a b : vec) i : (i < 3)%nat -> (forall j, (j < 3)%nat -> b j = 0) -> cross a b i = 0.
  Proof. intros Hi H. idx3 i; cbn [cross]; rewrite !H by lia; ring. Qed.

  Lemma SJ_at_p x u p a : In p pts -> (a < 2)%nat ->
    SJ x u (cp_p p + a)%nat (cp_p p + 2)%nat = ht_deriv (dy_xy c) (x (cp_p p + 2)%nat) * u (cp_vc p + a)%nat.
  Proof.
    intros I Ha. unfold SJ. rewrite assemble_p by (auto; lia). destruct a as [|[|a]]; try lia; cbn [jp]; rewrite ind_refl; ring.
  Qed.
  Lemma SJ_at_ff x u p : In p pts -> SJ x u (cp_f p + 2)%nat (cp_f p + 2)%nat = dy_diss c * (hs_eval (dy_z c) (x (cp_p p + 2)%nat) - 1).
  Proof.
    intros I. unfold SJ. rewrite assemble_f by (auto; lia). cbn [jf]. pose proof (pt_self L LO p I). unfold apart in *.
    kill_ind. ring.
  Qed.
  Lemma SJ_at_fp x u p : In p pts -> SJ x u (cp_f p + 2)%nat (cp_p p + 2)%nat =
    hs_deriv (dy_z c) (x (cp_p p + 2)%nat) * (u (cp_fc p + 2)%nat + dy_diss c * x (cp_f p + 2)%nat).
  Proof.
    intros I. unfold SJ. rewrite assemble_f by (auto; lia). cbn [jf]. pose proof (pt_self L LO p I). unfold apart in *.
    kill_ind. ring.
  Qed.
  Lemma SJ_mom_p x u p a b : In p pts -> (a < 3)%nat -> (b < 3)%nat ->
    SJ x u (dl_mom L + 3 + a)%nat (cp_p p + b)%nat = - skew (seg x (cp_f p)) a b.
  Proof.
    intros I Ha Hb. replace (dl_mom L + 3 + a)%nat with (dl_mom L + (3 + a))%nat by lia.
    unfold SJ. rewrite assemble_mom by (auto; lia). unfold jm. cbn [dmomrow Nat.add].
    destruct (pt_fixed L LO p (dl_com L) 3 I) as [_ A1]; [simpl; tauto|].
    pose proof (pt_self L LO p I) as Sf. unfold apart in *.
    rewrite (lsum_single _ pts p I (pts_nodup L LO)).
    - unfold dcross. idx3 a; idx3 b; cbn [cross skew]; kill_ind; unfold seg; ring.
    - intros p' I' N. destruct (pts_apart L LO p' p I' I N) as [B1 B2 B3 B4]. unfold apart in *.
      unfold dcross. rewrite cross_l0, cross_r0; auto; [ring| |]; intros; kill_ind; ring.
  Qed.
  Lemma SJ_mom_f x u p a b : In p pts -> (a < 3)%nat -> (b < 3)%nat ->
    SJ x u (dl_mom L + 3 + a)%nat (cp_f p + b)%nat = skew (dist c x p) a b.
  Proof.
    intros I Ha Hb. replace (dl_mom L + 3 + a)%nat with (dl_mom L + (3 + a))%nat by lia.
    unfold SJ. rewrite assemble_mom by (auto; lia). unfold jm. cbn [dmomrow Nat.add].
    destruct (pt_fixed L LO p (dl_com L) 3 I) as [A1 _]; [simpl; tauto|].
    pose proof (pt_self L LO p I) as Sf. unfold apart in *.
    rewrite (lsum_single _ pts p I (pts_nodup L LO)).
    - unfold dcross. idx3 a; idx3 b; cbn [cross skew]; kill_ind; ring.
    - intros p' I' N. destruct (pts_apart L LO p' p I' I N) as [B1 B2 B3 B4]. unfold apart in *.
      unfold dcross. rewrite cross_l0, cross_r0; auto; [ring| |]; intros; kill_ind; ring.
  Qed.
  Lemma SJ_mom_lin x u p a b : In p pts -> (a < 3)%nat -> (b < 3)%nat ->
    SJ x u (dl_mom L + a)%nat (cp_f p + b)%nat = identity a b.
  Proof.
    intros I Ha Hb. unfold SJ. rewrite assemble_mom by (auto; lia). unfold jm.
    rewrite (lsum_single _ pts p I (pts_nodup L LO)).
    - unfold identity. idx3 a; idx3 b; cbn [dmomrow Nat.eqb]; kill_ind; ring.
    - intros p' I' N. destruct (pts_apart L LO p' p I' I N) as [B1 B2 B3 B4]. unfold apart in *.
      idx3 a; cbn [dmomrow]; kill_ind; ring.
  Qed.
  Lemma SJ_mom_com x u a b : (a < 3)%nat -> (b < 3)%nat ->
    SJ x u (dl_mom L + 3 + a)%nat (dl_com L + b)%nat = lsum (fun p => skew (seg x (cp_f p)) a b) pts.
  Proof.
    intros Ha Hb. replace (dl_mom L + 3 + a)%nat with (dl_mom L + (3 + a))%nat by lia.
    unfold SJ. rewrite assemble_mom by (auto; lia). unfold jm. cbn [dmomrow Nat.add].
    apply lsum_ext. intros p I.
    destruct (pt_fixed L LO p (dl_com L) 3 I) as [A1 A2]; [simpl; tauto|]. unfold apart in *.
    unfold dcross. idx3 a; idx3 b; cbn [cross skew]; kill_ind; unfold seg; ring.
  Qed.
  Lemma SJ_com_mom x u a b : (a < 3)%nat -> (b < 3)%nat ->
    SJ x u (dl_com L + a)%nat (dl_mom L + b)%nat = identity a b * (1 / dy_mass c).
  Proof.
    intros Ha Hb. unfold SJ. rewrite assemble_com by (auto; lia). unfold jc, identity.
    idx3 a; idx3 b; cbn [Nat.eqb]; kill_ind; unfold Rdiv; ring.
  Qed.
  Lemma SJ_base_quat x u a b : (a < 3)%nat -> (b < 4)%nat ->
    SJ x u (dl_base L + a)%nat (dl_quat L + b)%nat =
    matmul44 (RotatedVectorQuaternionJacobian (seg u (dl_lin L)) (NormalizedQuaternion (seg x (dl_quat L))))
             (NormalizedQuaternionDerivative (seg x (dl_quat L))) a b.
  Proof. intros Ha Hb. unfold SJ. rewrite assemble_base by (auto; lia). unfold jb. rewrite rowv_in by auto. reflexivity. Qed.

  Section Upd.
    Variables (w : dy_ws) (x u : vec).
    Hypothesis Wx : y_x w = x.
    Hypothesis Wu : y_u w = u.
    Hypothesis Wc : y_com w = seg x (dl_com L).
    Lemma foot_sjac_cell p i k J : In p pts -> in_range (dl_mom L + 3) 3 i && in_range (dl_com L) 3 k = false ->
      foot_sjac c w J p i k = if W1 p i k then SJ x u i k else J i k.
    Proof.
      intros I Hc. unfold foot_sjac. rewrite Wx, Wu, Wc. fold L. unfold W1, add_block.
      unfold set_block at 1.
      destruct (in_range (cp_p p) 2 i && in_range (cp_p p + 2) 1 k) eqn:T1; cbn [orb].
      { apply andb_true_iff in T1. destruct T1 as [T1 T1']. apply in_range_spec in T1. apply in_range_spec in T1'.
        replace i with (cp_p p + (i - cp_p p))%nat by lia. replace k with (cp_p p + 2)%nat by lia.
        rewrite SJ_at_p by (auto; lia). repeat f_equal. lia. }
      unfold mset at 1.
      destruct (Nat.eqb i (cp_f p + 2) && Nat.eqb k (cp_f p + 2)) eqn:T2; cbn [orb].
      { apply andb_true_iff in T2. destruct T2 as [T2 T2']. apply Nat.eqb_eq in T2. apply Nat.eqb_eq in T2'. subst i k.
        rewrite SJ_at_ff by auto. reflexivity. }
      unfold mset at 1.
      destruct (Nat.eqb i (cp_f p + 2) && Nat.eqb k (cp_p p + 2)) eqn:T3; cbn [orb].
      { apply andb_true_iff in T3. destruct T3 as [T3 T3']. apply Nat.eqb_eq in T3. apply Nat.eqb_eq in T3'. subst i k.
        rewrite SJ_at_fp by auto. reflexivity. }
      unfold set_block at 1. rewrite Hc. unfold set_block at 1.
      destruct (in_range (dl_mom L + 3) 3 i && in_range (cp_p p) 3 k) eqn:T4; cbn [orb].
      { apply andb_true_iff in T4. destruct T4 as [T4 T4']. apply in_range_spec in T4. apply in_range_spec in T4'.
        replace i with (dl_mom L + 3 + (i - (dl_mom L + 3)))%nat at 2 by lia. replace k with (cp_p p + (k - cp_p p))%nat at 2 by lia.
        rewrite SJ_mom_p by (auto; lia). reflexivity. }
      unfold set_block at 1.
      destruct (in_range (dl_mom L + 3) 3 i && in_range (cp_f p) 3 k) eqn:T5; cbn [orb].
      { apply andb_true_iff in T5. destruct T5 as [T5 T5']. apply in_range_spec in T5. apply in_range_spec in T5'.
        replace i with (dl_mom L + 3 + (i - (dl_mom L + 3)))%nat at 2 by lia. replace k with (cp_f p + (k - cp_f p))%nat at 2 by lia.
        rewrite SJ_mom_f by (auto; lia). reflexivity. }
      unfold set_block.
      destruct (in_range (dl_mom L) 3 i && in_range (cp_f p) 3 k) eqn:T6; cbn [orb]; auto.
      apply andb_true_iff in T6. destruct T6 as [T6 T6']. apply in_range_spec in T6. apply in_range_spec in T6'.
      replace i with (dl_mom L + (i - dl_mom L))%nat at 2 by lia. replace k with (cp_f p + (k - cp_f p))%nat at 2 by lia.
      rewrite SJ_mom_lin by (auto; lia). reflexivity.
    Qed.
    Lemma foot_sjac_com p a b J : In p pts -> (a < 3)%nat -> (b < 3)%nat ->
      foot_sjac c w J p (dl_mom L + 3 + a)%nat (dl_com L + b)%nat =
      J (dl_mom L + 3 + a)%nat (dl_com L + b)%nat + skew (seg x (cp_f p)) a b.
    Proof.
      intros I Ha Hb. unfold foot_sjac. rewrite Wx, Wu, Wc. fold L.
      destruct (pt_fixed L LO p (dl_mom L) 6 I) as [A1 A2]; [simpl; tauto|].
      destruct (pt_fixed L LO p (dl_com L) 3 I) as [A3 A4]; [simpl; tauto|]. unfold apart in *.
      unfold set_block at 1. rewrite (in_range_no (cp_p p)) by lia. cbn [andb].
      unfold mset at 1. destruct (Nat.eqb_spec (dl_mom L + 3 + a) (cp_f p + 2)); [lia|]. cbn [andb].
      unfold mset at 1. destruct (Nat.eqb_spec (dl_mom L + 3 + a) (cp_f p + 2)); [lia|]. cbn [andb].
      unfold add_block. unfold set_block at 1. rewrite !in_range_yes by lia. cbn [andb].
      replace (dl_mom L + 3 + (dl_mom L + 3 + a - (dl_mom L + 3)))%nat with (dl_mom L + 3 + a)%nat by lia.
      replace (dl_com L + (dl_com L + b - dl_com L))%nat with (dl_com L + b)%nat by lia.
      unfold set_block. rewrite (in_range_no (cp_p p) 3 (dl_com L + b)), (in_range_no (cp_f p) 3 (dl_com L + b)) by lia.
      rewrite !andb_false_r. f_equal. unfold seg. f_equal; lia.
    Qed.
  End Upd.

  Lemma SJ_zero_outside x u : zero_outside needed_sjac (SJ x u).
  Proof.
    intros i k N.
    pose proof (assemble_cases L LO (jf x u k) (jp x u k) (jm x k) (jc k) (jb x u k) zrow zrow i) as K.
    change (assemble L (jf x u k) (jp x u k) (jm x k) (jc k) (jb x u k) zrow zrow i) with (SJ x u i k) in K.
    assert (NP : forall p q, In p pts -> In q (dense_block (dl_mom L) (cp_f p) 3 3 ++ dense_block (dl_mom L + 3) (cp_f p) 3 3 ++
         dense_block (dl_mom L + 3) (cp_p p) 3 3 ++ dense_block (cp_p p) (cp_p p + 2) 2 1 ++
         [(cp_f p + 2, cp_p p + 2)%nat; (cp_f p + 2, cp_f p + 2)%nat]) -> q <> (i, k)).
    { intros p q I J ->. apply N. unfold needed_sjac. apply in_or_app. left. apply in_flat_map. eauto. }
    assert (NF : forall q, In q (dense_block (dl_mom L + 3) (dl_com L) 3 3 ++ dense_block (dl_com L) (dl_mom L) 3 3 ++
       dense_block (dl_base L) (dl_quat L) 3 4) -> q <> (i, k)).
    { intros q J ->. apply N. unfold needed_sjac. apply in_or_app. auto. }
    clear N.
    destruct K as [(p&a&I&Ha&->&E)|[(p&a&I&Ha&->&E)|[(a&Ha&->&E)|[(a&Ha&->&E)|[(a&Ha&->&E)|[(a&Ha&->&E)|[(a&Ha&->&E)|(E&Ep&Er)]]]]]]]; rewrite E; auto.
    - idx3 a; cbn [jf]; auto. rewrite !ind_neq; [ring| |]; intros <-.
      + apply (NP p (cp_f p + 2, cp_f p + 2)%nat); auto. rewrite !in_app_iff. simpl. tauto.
      + apply (NP p (cp_f p + 2, cp_p p + 2)%nat); auto. rewrite !in_app_iff. simpl. tauto.
    - assert (B : (a < 2)%nat -> (cp_p p + 2 <> k)%nat).
      { intros Ha2 <-. apply (NP p (cp_p p + a, cp_p p + 2)%nat); auto. rewrite !in_app_iff, !in_dense_block.
        right; right; right; left. exists a, 0%nat. repeat split; try lia. f_equal; lia. }
      idx3 a; cbn [jp]; auto; rewrite ind_neq by (apply B; lia); ring.
    - unfold jm. apply lsum_zero. intros p I.
      assert (B : forall b, (b < 3)%nat -> (cp_f p + b <> k)%nat).
      { intros b Hb <-. apply (NP p (dl_mom L + a, cp_f p + b)%nat); auto. rewrite !in_app_iff, !in_dense_block.
        destruct (Nat.lt_ge_cases a 3); [left; exists a, b; auto|right; left; exists (a - 3)%nat, b; repeat split; try lia; f_equal; lia]. }
      assert (B2 : forall b, (3 <= a)%nat -> (b < 3)%nat -> (cp_p p + b <> k)%nat).
      { intros b H3 Hb <-. apply (NP p (dl_mom L + a, cp_p p + b)%nat); auto. rewrite !in_app_iff, !in_dense_block.
        right; right; left. exists (a - 3)%nat, b. repeat split; try lia; f_equal; lia. }
      assert (B3 : forall b, (3 <= a)%nat -> (b < 3)%nat -> (dl_com L + b <> k)%nat).
      { intros b H3 Hb <-. apply (NF (dl_mom L + a, dl_com L + b)%nat); auto. rewrite !in_app_iff, !in_dense_block.
        left. exists (a - 3)%nat, b. repeat split; try lia; f_equal; lia. }
      destruct a as [|[|[|b]]]; cbn [dmomrow]; try (apply ind_neq, B; lia).
      unfold dcross. rewrite cross_l0, cross_r0; try lia; [ring| |]; intros; rewrite ?(ind_neq (cp_f p + j) k), ?(ind_neq (cp_p p + j) k), ?(ind_neq (dl_com L + j) k); auto; try ring; try (apply B2; lia); apply B3; lia.
    - unfold jc. rewrite ind_neq; [unfold Rdiv; ring|]. intros <-. apply (NF (dl_com L + a, dl_mom L + a)%nat); auto.
      rewrite !in_app_iff, !in_dense_block. right; left. exists a, a; auto.
    - unfold jb. destruct (rowv_cases (dl_quat L) 4 k (fun b => matmul44 (RotatedVectorQuaternionJacobian (seg u (dl_lin L)) (NormalizedQuaternion (seg x (dl_quat L))))
             (NormalizedQuaternionDerivative (seg x (dl_quat L))) a b)) as [[b [Hb [-> R]]]|[Hb R]]; auto.
      exfalso. apply (NF (dl_base L + a, dl_quat L + b)%nat); auto. rewrite !in_app_iff, !in_dense_block.
      right; right. exists a, b; auto.
  Qed.

  Lemma sjac_SJ w t x u J : zero_outside needed_sjac J -> snd (dy_sjac (c, w) t x u J) = SJ x u.
  Proof.
    intros Z. apply functional_extensionality; intros i. apply functional_extensionality; intros k.
    unfold dy_sjac. cbn [snd]. set (w' := dy_update c w x u). fold L.
    rewrite <- fold_left_app. change (dl_left L ++ dl_right L) with pts.
    assert (Wx : y_x w' = x) by reflexivity. assert (Wu : y_u w' = u) by reflexivity.
    assert (Wc : y_com w' = seg x (dl_com L)) by reflexivity.
    set (J0 := set_block J (dl_mom L + 3) (dl_com L) 3 3 (fun _ _ => 0)).
    assert (FC : forall a b, (a < 3)%nat -> (b < 3)%nat ->
      fold_left (foot_sjac c w') pts J0 (dl_mom L + 3 + a)%nat (dl_com L + b)%nat = SJ x u (dl_mom L + 3 + a)%nat (dl_com L + b)%nat).
    { intros a b Ha Hb.
      rewrite (fold_acc (fun M => M (dl_mom L + 3 + a)%nat (dl_com L + b)%nat) (foot_sjac c w') (fun p => skew (seg x (cp_f p)) a b)).
      - rewrite SJ_mom_com by auto. unfold J0, set_block. rewrite !in_range_yes by lia. cbn [andb]. ring.
      - intros p M I. apply foot_sjac_com with (u := u); auto. }
    assert (FO : in_range (dl_mom L + 3) 3 i && in_range (dl_com L) 3 k = false ->
      fold_left (foot_sjac c w') pts J0 i k = if existsb (fun p => W1 p i k) pts then SJ x u i k else J i k).
    { intros H. rewrite (fold_read (fun M => M i k) (foot_sjac c w') (fun p => W1 p i k) (SJ x u i k)).
      - unfold J0, set_block. rewrite H. reflexivity.
      - intros p M I. apply foot_sjac_cell; auto. }
    set (J1 := fold_left _ _ _) in *. clearbody J1.
    unfold set_block at 1. destruct (in_range (dl_base L) 3 i && in_range (dl_quat L) 4 k) eqn:T1.
    { apply andb_true_iff in T1. destruct T1 as [T1 T1']. apply in_range_spec in T1. apply in_range_spec in T1'.
      replace i with (dl_base L + (i - dl_base L))%nat at 2 by lia. replace k with (dl_quat L + (k - dl_quat L))%nat at 2 by lia.
      rewrite SJ_base_quat by lia. reflexivity. }
    unfold scale_block. unfold set_block at 1.
    destruct (in_range (dl_com L) 3 i && in_range (dl_mom L) 3 k) eqn:T2.
    { apply andb_true_iff in T2. destruct T2 as [T2 T2']. apply in_range_spec in T2. apply in_range_spec in T2'.
      replace i with (dl_com L + (i - dl_com L))%nat at 2 by lia. replace k with (dl_mom L + (k - dl_mom L))%nat at 2 by lia.
      rewrite SJ_com_mom by lia. unfold set_block. rewrite !in_range_yes by lia. cbn [andb]. repeat f_equal; lia. }
    unfold set_block. rewrite T2.
    destruct (in_range (dl_mom L + 3) 3 i && in_range (dl_com L) 3 k) eqn:T3.
    { apply andb_true_iff in T3. destruct T3 as [T3 T3']. apply in_range_spec in T3. apply in_range_spec in T3'.
      replace i with (dl_mom L + 3 + (i - (dl_mom L + 3)))%nat by lia. replace k with (dl_com L + (k - dl_com L))%nat by lia.
      apply FC; lia. }
    rewrite FO by auto. destruct (existsb (fun p => W1 p i k) pts) eqn:T4; auto.
    assert (NN : ~ In (i, k) needed_sjac).
    { intros M. unfold needed_sjac in M. rewrite !in_app_iff in M. rewrite in_flat_map in M.
      destruct M as [[p [I M]]|M].
      - assert (W1 p i k = true); [|rewrite <- not_true_iff_false in T4; apply T4; apply existsb_exists; eauto].
        rewrite !in_app_iff, !in_dense_block in M. unfold W1.
        destruct M as [(a&b&Ha&Hb&E)|[(a&b&Ha&Hb&E)|[(a&b&Ha&Hb&E)|[(a&b&Ha&Hb&E)|M]]]].
        + injection E; intros; subst i k. rewrite (in_range_yes (dl_mom L)), (in_range_yes (cp_f p)) by lia. rewrite !orb_true_r. reflexivity.
        + injection E; intros; subst i k. rewrite (in_range_yes (dl_mom L + 3)), (in_range_yes (cp_f p)) by lia. rewrite !orb_true_r. reflexivity.
        + injection E; intros; subst i k. rewrite (in_range_yes (dl_mom L + 3)), (in_range_yes (cp_p p) 3) by lia. cbn [andb]. rewrite !orb_true_l, !orb_true_r. reflexivity.
        + injection E; intros; subst i k. rewrite (in_range_yes (cp_p p) 2), (in_range_yes (cp_p p + 2) 1) by lia. reflexivity.
        + simpl in M. destruct M as [M|[M|[]]]; injection M; intros; subst i k; rewrite !Nat.eqb_refl; cbn [andb]; rewrite !orb_true_r; reflexivity.
      - rewrite !in_dense_block in M.
        destruct M as [(a&b&Ha&Hb&E)|[(a&b&Ha&Hb&E)|(a&b&Ha&Hb&E)]]; injection E; intros; subst i k.
        + rewrite !in_range_yes in T3 by lia. discriminate.
        + rewrite !in_range_yes in T2 by lia. discriminate.
        + rewrite !in_range_yes in T1 by lia. discriminate. }
    rewrite (Z i k NN), (SJ_zero_outside x u i k NN). reflexivity.
  Qed.

  (** ** Control Jacobian *)
  Definition cjf (x : vec) (k : nat) (p : contact_point) (a : nat) : R :=
    match a with
    | 2%nat => ind (cp_fc p + 2) k * hs_eval (dy_z c) (x (cp_p p + 2)%nat)
    | _ => ind (cp_fc p + a) k
    end.
  Definition cjp (x : vec) (k : nat) (p : contact_point) (a : nat) : R :=
    match a with
    | 2%nat => ind (cp_vc p + 2) k
    | _ => ind (cp_vc p + a) k * ht_eval (dy_xy c) (x (cp_p p + 2)%nat)
    end.
  Definition cjb (x : vec) (k : nat) (a : nat) : R :=
    rowv (dl_lin L) 3 k (fun b => rotation_of (NormalizedQuaternion (seg x (dl_quat L))) a b).
  Definition CJ (x : vec) : mat := fun i k =>
    assemble L (cjf x k) (cjp x k) zrow zrow (cjb x k) (fun a => ind (dl_qd L + a) k) (fun a => ind (dl_jv L + a) k) i.

  Lemma rowv_ind3 o k g : rowv o 3 k g = g 0%nat * ind (o + 0) k + g 1%nat * ind (o + 1) k + g 2%nat * ind (o + 2) k.
  Proof.
    destruct (rowv_cases o 3 k g) as [[a [Ha [-> E]]]|[Ha E]]; rewrite E; [idx3 a|]; kill_ind; ring.
  Qed.
  Lemma V_control_jacobian x u : is_jacobian (dl_nx L) (fun w => V x w) u (CJ x).
  Proof.
    intros i k Hi. unfold DynamicsProofs.V, CJ. fold L. apply partial_assemble.
    - intros p a I Ha. idx3 a; cbn [rf cjf]; (eapply partial_eq; [dv fail|]); ring.
    - intros p a I Ha. idx3 a; cbn [rp cjp]; (eapply partial_eq; [dv fail|]); ring.
    - intros a Ha. apply partial_const.
    - intros a Ha. apply partial_const.
    - intros a Ha. unfold rb, cjb. fold L. rewrite rowv_ind3.
      set (q := NormalizedQuaternion _). clearbody q. unfold qrot, rotation_of, qvec, seg, identity, mat3mul, tail3.
      idx3 a; cbn [cross skew Nat.eqb]; (eapply partial_eq; [dv fail|]); ring.
    - intros a Ha. unfold seg. apply partial_var.
    - intros a Ha. unfold seg. apply partial_var.
  Qed.

  Definition needed_cjac : list (nat * nat) :=
    flat_map (fun p =>
         dense_block (cp_f p) (cp_fc p) 2 2 ++ [(cp_f p + 2, cp_fc p + 2)%nat] ++ dense_block (cp_p p) (cp_vc p) 3 3) pts ++
       dense_block (dl_base L) (dl_lin L) 3 3 ++ dense_block (dl_quat L) (dl_qd L) 4 4 ++
       dense_block (dl_jnt L) (dl_jv L) (dl_dof L) (dl_dof L).

  Lemma CJ_f x p a k : In p pts -> (a < 3)%nat -> CJ x (cp_f p + a)%nat k = cjf x k p a.
  Proof. intros. unfold CJ. rewrite assemble_f by auto. reflexivity. Qed.
  Lemma CJ_p x p a k : In p pts -> (a < 3)%nat -> CJ x (cp_p p + a)%nat k = cjp x k p a.
  Proof. intros. unfold CJ. rewrite assemble_p by auto. reflexivity. Qed.

  Definition W2 (p : contact_point) (i k : nat) : bool :=
    (in_range (cp_p p) 3 i && in_range (cp_vc p) 3 k) ||
    ((Nat.eqb i (cp_f p + 2) && Nat.eqb k (cp_fc p + 2)) || (in_range (cp_f p) 2 i && in_range (cp_fc p) 2 k)).
  Lemma foot_cjac_cell w x p i k J : y_x w = x -> In p pts ->
    foot_cjac c w J p i k = if W2 p i k then CJ x i k else J i k.
  Proof.
    intros Wx I. unfold foot_cjac. rewrite Wx. unfold W2, scale_block.
    destruct (in_range (cp_p p) 3 i && in_range (cp_vc p) 3 k) eqn:T1; cbn [orb].
    - apply andb_true_iff in T1. destruct T1 as [T1 T1']. apply in_range_spec in T1. apply in_range_spec in T1'.
      assert (Ei : exists a, (a < 3)%nat /\ i = (cp_p p + a)%nat) by (exists (i - cp_p p)%nat; lia).
      assert (Ek : exists b, (b < 3)%nat /\ k = (cp_vc p + b)%nat) by (exists (k - cp_vc p)%nat; lia).
      clear T1 T1'. destruct Ei as [a [Ha ->]]. destruct Ek as [b [Hb ->]]. rewrite CJ_p by auto.
      unfold set_block at 1.
      destruct (in_range (cp_p p) 2 (cp_p p + a) && in_range (cp_vc p) 2 (cp_vc p + b)) eqn:T2.
      + apply andb_true_iff in T2. destruct T2 as [T2 T2']. apply in_range_spec in T2. apply in_range_spec in T2'.
        unfold set_block at 1. rewrite !in_range_yes by lia. cbn [andb].
        unfold identity. destruct a as [|[|a]]; try lia; destruct b as [|[|b]]; try lia; cbn [cjp]; eqbs; kill_ind; ring.
      + unfold set_block at 1. rewrite !in_range_yes by lia. cbn [andb]. unfold identity.
        replace (cp_p p + a - cp_p p)%nat with a by lia. replace (cp_vc p + b - cp_vc p)%nat with b by lia.
        idx3 a; idx3 b; try (rewrite !in_range_yes in T2 by lia; discriminate); cbn [Nat.eqb cjp]; kill_ind; ring.
    - unfold set_block at 1.
      destruct (in_range (cp_p p) 2 i && in_range (cp_vc p) 2 k) eqn:T2.
      { exfalso. apply andb_true_iff in T2. destruct T2 as [T2 T2']. apply in_range_spec in T2. apply in_range_spec in T2'.
        rewrite !in_range_yes in T1 by lia. discriminate. }
      unfold set_block at 1. rewrite T1. unfold mset.
      destruct (Nat.eqb i (cp_f p + 2) && Nat.eqb k (cp_fc p + 2)) eqn:T3; cbn [orb].
      { apply andb_true_iff in T3. destruct T3 as [T3 T3']. apply Nat.eqb_eq in T3. apply Nat.eqb_eq in T3'. subst i k.
        rewrite CJ_f by (auto; lia). cbn [cjf]. rewrite ind_refl. ring. }
      unfold set_block. destruct (in_range (cp_f p) 2 i && in_range (cp_fc p) 2 k) eqn:T4; auto.
      apply andb_true_iff in T4. destruct T4 as [T4 T4']. apply in_range_spec in T4. apply in_range_spec in T4'.
      replace i with (cp_f p + (i - cp_f p))%nat at 2 by lia. rewrite CJ_f by (auto; lia).
      set (a := (i - cp_f p)%nat) in *. assert (a < 2)%nat by (unfold a; lia). clearbody a.
      unfold identity. destruct a as [|[|a]]; try lia; cbn [cjf]; unfold ind; eqbs; auto.
  Qed.

  Lemma CJ_zero_outside x : zero_outside needed_cjac (CJ x).
  Proof.
    intros i k N.
    pose proof (assemble_cases L LO (cjf x k) (cjp x k) zrow zrow (cjb x k) (fun a => ind (dl_qd L + a) k) (fun a => ind (dl_jv L + a) k) i) as K.
    change (assemble L (cjf x k) (cjp x k) zrow zrow (cjb x k) (fun a => ind (dl_qd L + a) k) (fun a => ind (dl_jv L + a) k) i) with (CJ x i k) in K.
    assert (NP : forall p q, In p pts -> In q (dense_block (cp_f p) (cp_fc p) 2 2 ++ [(cp_f p + 2, cp_fc p + 2)%nat] ++ dense_block (cp_p p) (cp_vc p) 3 3) -> q <> (i, k)).
    { intros p q I J ->. apply N. unfold needed_cjac. apply in_or_app. left. apply in_flat_map. eauto. }
    assert (NF : forall q, In q (dense_block (dl_base L) (dl_lin L) 3 3 ++ dense_block (dl_quat L) (dl_qd L) 4 4 ++
       dense_block (dl_jnt L) (dl_jv L) (dl_dof L) (dl_dof L)) -> q <> (i, k)).
    { intros q J ->. apply N. unfold needed_cjac. apply in_or_app. auto. }
    clear N.
    destruct K as [(p&a&I&Ha&->&E)|[(p&a&I&Ha&->&E)|[(a&Ha&->&E)|[(a&Ha&->&E)|[(a&Ha&->&E)|[(a&Ha&->&E)|[(a&Ha&->&E)|(E&Ep&Er)]]]]]]]; rewrite E; auto.
    - assert (B : (cp_fc p + a <> k)%nat).
      { intros <-. apply (NP p (cp_f p + a, cp_fc p + a)%nat); auto. rewrite !in_app_iff, !in_dense_block. idx3 a.
        - left. exists 0%nat, 0%nat; auto.
        - left. exists 1%nat, 1%nat; auto.
        - right; left. simpl; auto. }
      idx3 a; cbn [cjf]; rewrite ind_neq by auto; ring.
    - assert (B : (cp_vc p + a <> k)%nat).
      { intros <-. apply (NP p (cp_p p + a, cp_vc p + a)%nat); auto. rewrite !in_app_iff, !in_dense_block. right; right. exists a, a; auto. }
      idx3 a; cbn [cjp]; rewrite ind_neq by auto; ring.
    - unfold cjb. destruct (rowv_cases (dl_lin L) 3 k (fun b => rotation_of (NormalizedQuaternion (seg x (dl_quat L))) a b)) as [[b [Hb [-> R]]]|[Hb R]]; auto.
      exfalso. apply (NF (dl_base L + a, dl_lin L + b)%nat); auto. rewrite !in_app_iff, !in_dense_block. left. exists a, b; auto.
    - apply ind_neq. intros <-. apply (NF (dl_quat L + a, dl_qd L + a)%nat); auto. rewrite !in_app_iff, !in_dense_block. right; left. exists a, a; auto.
    - apply ind_neq. intros <-. apply (NF (dl_jnt L + a, dl_jv L + a)%nat); auto. rewrite !in_app_iff, !in_dense_block. right; right. exists a, a; auto.
  Qed.

  Lemma cjac_CJ w t x u J : zero_outside needed_cjac J -> snd (dy_cjac (c, w) t x u J) = CJ x.
  Proof.
    intros Z. apply functional_extensionality; intros i. apply functional_extensionality; intros k.
    unfold dy_cjac. cbn [snd]. set (w' := dy_update c w x u). fold L.
    rewrite <- fold_left_app. change (dl_left L ++ dl_right L) with pts.
    assert (Wx : y_x w' = x) by reflexivity.
    assert (FO : fold_left (foot_cjac c w') pts J i k = if existsb (fun p => W2 p i k) pts then CJ x i k else J i k).
    { apply (fold_read (fun M => M i k) (foot_cjac c w') (fun p => W2 p i k) (CJ x i k)).
      intros p M I. apply foot_cjac_cell; auto. }
    set (J1 := fold_left _ _ _) in *. clearbody J1.
    unfold set_block at 1. destruct (in_range (dl_jnt L) (dl_dof L) i && in_range (dl_jv L) (dl_dof L) k) eqn:T1.
    { apply andb_true_iff in T1. destruct T1 as [T1 T1']. apply in_range_spec in T1. apply in_range_spec in T1'.
      replace i with (dl_jnt L + (i - dl_jnt L))%nat at 2 by lia. unfold CJ. rewrite assemble_jnt by (auto; lia).
      unfold identity, ind. eqbs; auto. }
    unfold set_block at 1. destruct (in_range (dl_quat L) 4 i && in_range (dl_qd L) 4 k) eqn:T2.
    { apply andb_true_iff in T2. destruct T2 as [T2 T2']. apply in_range_spec in T2. apply in_range_spec in T2'.
      replace i with (dl_quat L + (i - dl_quat L))%nat at 2 by lia. unfold CJ. rewrite assemble_quat by (auto; lia).
      unfold identity, ind. eqbs; auto. }
    unfold set_block at 1. destruct (in_range (dl_base L) 3 i && in_range (dl_lin L) 3 k) eqn:T3.
    { apply andb_true_iff in T3. destruct T3 as [T3 T3']. apply in_range_spec in T3. apply in_range_spec in T3'.
      replace i with (dl_base L + (i - dl_base L))%nat at 2 by lia. unfold CJ. rewrite assemble_base by (auto; lia).
      unfold cjb. replace k with (dl_lin L + (k - dl_lin L))%nat at 2 by lia. rewrite rowv_in by lia. reflexivity. }
    rewrite FO. destruct (existsb (fun p => W2 p i k) pts) eqn:T4; auto.
    assert (NN : ~ In (i, k) needed_cjac).
    { intros M. unfold needed_cjac in M. rewrite !in_app_iff in M. rewrite in_flat_map in M.
      destruct M as [[p [I M]]|M].
      - assert (W2 p i k = true); [|rewrite <- not_true_iff_false in T4; apply T4; apply existsb_exists; eauto].
        rewrite !in_app_iff, !in_dense_block in M. unfold W2.
        destruct M as [(a&b&Ha&Hb&E)|[M|(a&b&Ha&Hb&E)]].
        + injection E; intros; subst i k. rewrite (in_range_yes (cp_f p)), (in_range_yes (cp_fc p)) by lia. rewrite !orb_true_r. reflexivity.
        + simpl in M. destruct M as [M|[]]; injection M; intros; subst i k; rewrite !Nat.eqb_refl; cbn [andb]; rewrite !orb_true_r; reflexivity.
        + injection E; intros; subst i k. rewrite (in_range_yes (cp_p p)), (in_range_yes (cp_vc p)) by lia. reflexivity.
      - rewrite !in_dense_block in M.
        destruct M as [(a&b&Ha&Hb&E)|[(a&b&Ha&Hb&E)|(a&b&Ha&Hb&E)]]; injection E; intros; subst i k.
        + rewrite !in_range_yes in T3 by lia. discriminate.
        + rewrite !in_range_yes in T2 by lia. discriminate.
        + rewrite !in_range_yes in T1 by lia. discriminate. }
    rewrite (Z i k NN), (CJ_zero_outside x i k NN). reflexivity.
  Qed.
End Dyn.
