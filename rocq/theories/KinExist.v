(** The contracts of iDynTree used in KinProofs.v are satisfied: every rotation has a unit quaternion, every robot has
    Jacobians and frame velocities. *)
From Coq Require Import Reals List Arith Lia Lra Bool FunctionalExtensionality.
From Coquelicot Require Import Coquelicot.
From Verif Require Import Spec PartialLib SpecQuaternion Quaternion QuaternionProofs.
From Verif Require Import QuatCurve SpecRigid SpecDerivatives Rigid RigidCalc KinTree KinModel KinLib KinMotion KinProofs.
Import ListNotations.
Local Open Scope R_scope.

(** ** Quaternion of a rotation: 4 q q^T as a function of the rotation *)
Definition K (A : m3) (i j : nat) : R :=
  match i, j with
  | 0%nat, 0%nat => 1 + a00 A + a11 A + a22 A
  | 1%nat, 1%nat => 1 + a00 A - a11 A - a22 A
  | 2%nat, 2%nat => 1 - a00 A + a11 A - a22 A
  | 3%nat, 3%nat => 1 - a00 A - a11 A + a22 A
  | 0%nat, 1%nat | 1%nat, 0%nat => a21 A - a12 A
  | 0%nat, 2%nat | 2%nat, 0%nat => a02 A - a20 A
  | 0%nat, 3%nat | 3%nat, 0%nat => a10 A - a01 A
  | 1%nat, 2%nat | 2%nat, 1%nat => a01 A + a10 A
  | 1%nat, 3%nat | 3%nat, 1%nat => a02 A + a20 A
  | 2%nat, 3%nat | 3%nat, 2%nat => a12 A + a21 A
  | _, _ => 0
  end.
Lemma K_rank1 A : rotation A -> forall i j k, (i < 4)%nat -> (j < 4)%nat -> (k < 4)%nat -> K A i i * K A j k = K A i j * K A i k.
Proof.
  intros H i j k Hi Hj Hk. pose proof (rot_adj A H) as CF. pose proof (rot_r A H) as RR. destruct H as [CC _].
  destruct A as [a b c d e f g h l]. unfold mm, mtr, madj, m3I in *. cbn in CF, RR, CC. injection CF as F0 F1 F2 F3 F4 F5 F6 F7 F8.
  injection RR as R0 R1 R2 _ R4 R5 _ _ R8. injection CC as C0 C1 C2 _ C4 C5 _ _ C8.
  destruct i as [|[|[|[|i]]]]; [| | | |lia]; (destruct j as [|[|[|[|j]]]]; [| | | |lia]); (destruct k as [|[|[|[|k]]]]; [| | | |lia]); cbn; lra.
Qed.
Definition quat_of (A : m3) : vec :=
  let pick i := fun j => K A i j / (2 * sqrt (K A i i)) in
  if Rlt_dec 0 (K A 0 0) then pick 0%nat else if Rlt_dec 0 (K A 1 1) then pick 1%nat else if Rlt_dec 0 (K A 2 2) then pick 2%nat else pick 3%nat.
Lemma quat_of_K A : rotation A -> forall j k, (j < 4)%nat -> (k < 4)%nat -> 4 * (quat_of A j * quat_of A k) = K A j k.
Proof.
  intros H. assert (P : forall i, (i < 4)%nat -> 0 < K A i i -> forall j k, (j < 4)%nat -> (k < 4)%nat -> 4 * (K A i j / (2 * sqrt (K A i i)) * (K A i k / (2 * sqrt (K A i i)))) = K A j k).
  { intros i Hi L j k Hj Hk. pose proof (K_rank1 A H i j k Hi Hj Hk) as E. pose proof (sqrt_lt_R0 _ L) as S. pose proof (sqrt_sqrt _ (Rlt_le _ _ L)) as SS.
    transitivity ((K A i j * K A i k) / (sqrt (K A i i) * sqrt (K A i i))); [field; lra|]. rewrite SS, <- E. field. lra. }
  unfold quat_of. destruct (Rlt_dec 0 (K A 0 0)); [apply P; auto; lia|]. destruct (Rlt_dec 0 (K A 1 1)); [apply P; auto; lia|].
  destruct (Rlt_dec 0 (K A 2 2)); [apply P; auto; lia|]. apply P; [lia|]. cbn in *. lra.
Qed.
Lemma quat_of_ok A : rotation A -> represents (quat_of A) A.
Proof.
  intros H. pose proof (quat_of_K A H) as Q.
  pose proof (Q 0 0 ltac:(lia) ltac:(lia))%nat as Q00. pose proof (Q 0 1 ltac:(lia) ltac:(lia))%nat as Q01. pose proof (Q 0 2 ltac:(lia) ltac:(lia))%nat as Q02. pose proof (Q 0 3 ltac:(lia) ltac:(lia))%nat as Q03.
  pose proof (Q 1 1 ltac:(lia) ltac:(lia))%nat as Q11. pose proof (Q 1 2 ltac:(lia) ltac:(lia))%nat as Q12. pose proof (Q 1 3 ltac:(lia) ltac:(lia))%nat as Q13.
  pose proof (Q 2 2 ltac:(lia) ltac:(lia))%nat as Q22. pose proof (Q 2 3 ltac:(lia) ltac:(lia))%nat as Q23. pose proof (Q 3 3 ltac:(lia) ltac:(lia))%nat as Q33.
  clear Q. unfold K in *. generalize dependent (quat_of A). intros q Q00 Q01 Q02 Q03 Q11 Q12 Q13 Q22 Q23 Q33. split.
  - unfold qnorm2. lra.
  - intros [v0 v1 v2] i Hi. unfold qrot, qvec, mv, vent. destruct A as [a b c d e f g h l]. cbn in *.
    destruct i as [|[|[|i]]]; [| | |lia]; cbn [SpecQuaternion.cross];
    (generalize dependent (q 0%nat); intros w; generalize dependent (q 1%nat); intros x; generalize dependent (q 2%nat); intros y; generalize dependent (q 3%nat); intros z ? ? ? ? ? ? ? ? ? ?;
    assert (Ea : a = w * w + x * x - y * y - z * z) by lra;
    assert (Ee : e = w * w - x * x + y * y - z * z) by lra;
    assert (El : l = w * w - x * x - y * y + z * z) by lra;
    assert (Eb : b = 2 * (x * y) - 2 * (w * z)) by lra;
    assert (Ed : d = 2 * (x * y) + 2 * (w * z)) by lra;
    assert (Ec : c = 2 * (x * z) + 2 * (w * y)) by lra;
    assert (Eg : g = 2 * (x * z) - 2 * (w * y)) by lra;
    assert (Ef : f = 2 * (y * z) - 2 * (w * x)) by lra;
    assert (Eh : h = 2 * (y * z) + 2 * (w * x)) by lra;
    assert (N : w * w + x * x + y * y + z * z = 1) by lra;
      rewrite ?Ea, ?Eb, ?Ec, ?Ed, ?Ee, ?Ef, ?Eg, ?Eh, ?El).
    + transitivity (v0 * (w * w + x * x + y * y + z * z) + 2 * w * (y * v2 - z * v1) + 2 * (y * (x * v1 - y * v0) - z * (z * v0 - x * v2))); [rewrite N; ring|ring].
    + transitivity (v1 * (w * w + x * x + y * y + z * z) + 2 * w * (z * v0 - x * v2) + 2 * (z * (y * v2 - z * v1) - x * (x * v1 - y * v0))); [rewrite N; ring|ring].
    + transitivity (v2 * (w * w + x * x + y * y + z * z) + 2 * w * (x * v1 - y * v0) + 2 * (x * (z * v0 - x * v2) - y * (y * v2 - z * v1))); [rewrite N; ring|ring].
Qed.

(** ** Jacobians *)
Section Jac.
Variable r : robot.
Variable place : vec -> nat -> pose.
Variable dofs : nat.
Variable up : nat -> nat -> option (nat * nat).
Variable depth : nat -> nat -> nat.
Notation links := (r_links r).
Notation fl := (frame_link r).
Notation rel := (relative r place).
Hypothesis rok : robot_ok r.
Hypothesis plc : placement r place.
Hypothesis trav : forall b, (b < links)%nat -> traversal r b (up b) (depth b).
Definition jac_of (s : vec) (f g i : nat) : v6 :=
  match walk (up (fl f)) (fl f) (fun v p j acc => Some (if (j =? i)%nat then m6v (Adj (rel s g v)) (motion_axis r i v) else acc)) (fuel r) (fl g) v60 with
  | Some w => w | None => v60 end.
Lemma jac_of_ok s f g i : frame_ok r f -> frame_ok r g -> moves (fun x => rel (vset s i x) f g) (s i) (jac_of s f g i).
Proof.
  intros F G. pose proof (fl_lt r rok f F) as Hf. pose proof (fl_lt r rok g G) as Hg.
  destruct (path_exists r (fl f) (up (fl f)) (depth (fl f)) (trav _ Hf) Hf (fl g) Hg) as (l & P & _).
  pose proof (path_short r _ _ _ (trav _ Hf) Hf _ _ P Hg) as SH. pose proof (path_nodup r _ _ _ (trav _ Hf) Hf _ _ P Hg) as ND.
  assert (E : jac_of s f g i = match foldo (fun a x => Some (if (snd x =? i)%nat then m6v (Adj (rel s g (fst (fst x)))) (motion_axis r i (fst (fst x))) else a)) l v60 with Some w => w | None => v60 end).
  { unfold jac_of. rewrite (walk_path _ _ _ _ _ P) by (unfold fuel; lia). reflexivity. }
  assert (FO : forall (l : list (nat * nat * nat)) a, NoDup (map snd l) -> exists w, foldo (fun a x => Some (if (snd x =? i)%nat then m6v (Adj (rel s g (fst (fst x)))) (motion_axis r i (fst (fst x))) else a)) l a = Some w /\
     (forall v p, In (v, p, i) l -> w = m6v (Adj (rel s g v)) (motion_axis r i v)) /\ ((forall v p, ~ In (v, p, i) l) -> w = a)).
  { clear. intros l. induction l as [|[[v p] j] l IH]; intros a ND; [exists a; split; [reflexivity|]; split; [intros; contradiction|reflexivity]|].
    inversion ND as [|? ? NI ND']; subst. cbn [map snd] in NI. cbn [foldo fst snd].
    destruct (Nat.eqb_spec j i) as [->|N].
    - destruct (IH (m6v (Adj (rel s g v)) (motion_axis r i v)) ND') as (w & E & _ & O). exists w. split; [exact E|].
      rewrite O. 2:{ intros v' p' I. apply NI. apply in_map_iff. exists (v', p', i). auto. }
      split; [|intros NI'; exfalso; apply (NI' v p); left; reflexivity].
      intros v' p' [I|I]; [injection I as <- <-; reflexivity|exfalso; apply NI; apply in_map_iff; exists (v', p', i); auto].
    - destruct (IH a ND') as (w & E & II & O). exists w. split; [exact E|]. split.
      + intros v' p' [I|I]; [congruence|]. eapply II; eauto.
      + intros NI'. apply O. intros v' p' I. apply (NI' v' p'). right. auto. }
  destruct (FO l v60 ND) as (w & EF & II & O). rewrite E, EF.
  destruct (rel_moves r place rok plc (fl f) (up (fl f)) (depth (fl f)) (trav _ Hf) Hf s f g l i F G eq_refl P) as [X Y].
  destruct (path_in_dec l i) as [(c & p & I)|NI].
  - rewrite (II c p I). destruct (path_step r _ _ _ (trav _ Hf) Hf _ _ _ _ _ P Hg I) as (_ & _ & _ & _ & j & EJ & _).
    unfold motion_axis. rewrite (nth_error_nth _ _ _ EJ). eapply X; eauto.
  - rewrite (O NI). eapply moves_ext; [intros t; symmetry; apply (Y NI)|]. apply moves_const.
Qed.
End Jac.
