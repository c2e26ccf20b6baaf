(** The entries of the rotation matrix of q/|q| are rational functions of q: their derivatives exist, twice. *)
From Coq Require Import Reals List Arith Lia Lra Bool QArith FunctionalExtensionality.
From Coquelicot Require Import Coquelicot.
From Verif Require Import Spec PartialLib SpecQuaternion SpecRigid SpecBase SpecDerivatives Rigid RigidCalc KinTree KinModel KinLib KinMotion KinUsers KinProofs QuatCurve SymModel SymProofs BaseModel BaseProofs PropBase.
Import ListNotations.
Local Open Scope R_scope.

(** Polynomials in the entries of a vector. *)
Inductive pexp := PC (c : R) | PV (k : nat) | PA (a b : pexp) | PM (a b : pexp).
Fixpoint pev (e : pexp) (q : vec) : R := match e with PC c => c | PV k => q k | PA a b => pev a q + pev b q | PM a b => pev a q * pev b q end.
Fixpoint pder (e : pexp) (j : nat) : pexp :=
  match e with
  | PC _ => PC 0 | PV k => PC (ind k j) | PA a b => PA (pder a j) (pder b j) | PM a b => PA (PM (pder a j) b) (PM a (pder b j))
  end.
Lemma pder_ok e q j : partial (pev e) q j (pev (pder e j) q).
Proof.
  induction e; cbn [pev pder].
  - apply partial_const.
  - apply partial_var.
  - apply partial_plus; auto.
  - apply partial_mult; auto.
Qed.
Definition rat (N D : pexp) (q : vec) : R := pev N q / pev D q.
Definition ratn (N D : pexp) (j : nat) : pexp := PA (PM (pder N j) D) (PM (PC (-1)) (PM N (pder D j))).
Lemma rat_ok N D q j : pev D q <> 0 -> partial (rat N D) q j (rat (ratn N D j) (PM D D) q).
Proof.
  intros NZ. eapply partial_eq; [apply (partial_div _ _ _ _ _ _ NZ (pder_ok N q j) (pder_ok D q j))|].
  unfold rat, ratn. cbn [pev]. field. exact NZ.
Qed.

Definition Pq := PA (PA (PA (PM (PV 0) (PV 0)) (PM (PV 1) (PV 1))) (PM (PV 2) (PV 2))) (PM (PV 3) (PV 3)).
Lemma Pq_ok q : pev Pq q = qnorm2 q. Proof. reflexivity. Qed.
Definition P2 (a b c d : nat) (k : R) : pexp := PM (PC 2) (PA (PM (PV a) (PV b)) (PM (PC k) (PM (PV c) (PV d)))).
Definition P1 (a b : nat) : pexp := PA Pq (PM (PC (-2)) (PA (PM (PV a) (PV a)) (PM (PV b) (PV b)))).
Definition Pm (i j : nat) : pexp :=
  match i, j with
  | 0%nat, 0%nat => P1 2 3 | 1%nat, 1%nat => P1 1 3 | 2%nat, 2%nat => P1 1 2
  | 0%nat, 1%nat => P2 1 2 0 3 (-1) | 1%nat, 0%nat => P2 1 2 0 3 1
  | 0%nat, 2%nat => P2 1 3 0 2 1 | 2%nat, 0%nat => P2 1 3 0 2 (-1)
  | 1%nat, 2%nat => P2 2 3 0 1 (-1) | 2%nat, 1%nat => P2 2 3 0 1 1
  | _, _ => PC 0
  end.
Lemma Pm_ok q i j : 0 < qnorm2 q -> ment (qmat (qunit q)) i j = rat (Pm i j) Pq q.
Proof.
  intros P. unfold rat. rewrite Pq_ok. pose proof (sqrt_lt_R0 _ P) as S. pose proof (sqrt_sqrt _ (Rlt_le _ _ P)) as SS.
  assert (E : forall a b : R, a / sqrt (qnorm2 q) * (b / sqrt (qnorm2 q)) = a * b / qnorm2 q).
  { intros a b. rewrite <- SS at 3. field. lra. }
  assert (Q : forall a b, qunit q a * qunit q b = q a * q b / qnorm2 q) by (intros; unfold qunit; apply E).
  pose proof (Q 0 1)%nat as Q01. pose proof (Q 0 2)%nat as Q02. pose proof (Q 0 3)%nat as Q03. pose proof (Q 1 1)%nat as Q11. pose proof (Q 1 2)%nat as Q12.
  pose proof (Q 1 3)%nat as Q13. pose proof (Q 2 2)%nat as Q22. pose proof (Q 2 3)%nat as Q23. pose proof (Q 3 3)%nat as Q33. clear Q E SS S.
  set (u := qunit q) in *. 
  assert (Z : forall x, 0 / x = 0) by (intros; unfold Rdiv; ring).
  assert (EQ : forall (e : pexp) v, v * qnorm2 q = pev e q -> v = pev e q / qnorm2 q) by (intros e v <-; field; lra).
  destruct i as [|[|[|i]]]; destruct j as [|[|[|j]]]; cbn [ment Pm pev]; try (symmetry; apply Z); apply EQ;
    unfold qmat, qrot, SpecQuaternion.cross, qvec, delta; cbn [a00 a01 a02 a10 a11 a12 a20 a21 a22 Nat.eqb Nat.add pev P1 P2 Pq];
    apply (Rmult_eq_compat_r (qnorm2 q)) in Q01; apply (Rmult_eq_compat_r (qnorm2 q)) in Q02; apply (Rmult_eq_compat_r (qnorm2 q)) in Q03;
    apply (Rmult_eq_compat_r (qnorm2 q)) in Q11; apply (Rmult_eq_compat_r (qnorm2 q)) in Q12; apply (Rmult_eq_compat_r (qnorm2 q)) in Q13;
    apply (Rmult_eq_compat_r (qnorm2 q)) in Q22; apply (Rmult_eq_compat_r (qnorm2 q)) in Q23; apply (Rmult_eq_compat_r (qnorm2 q)) in Q33;
    unfold Rdiv in *; rewrite !Rmult_assoc, Rinv_l, !Rmult_1_r in Q01, Q02, Q03, Q11, Q12, Q13, Q22, Q23, Q33 by lra; unfold qnorm2 in *; nra.
Qed.
Lemma rm_partial q j i l : 0 < qnorm2 q -> partial (fun p => ment (qmat (qunit p)) i l) q j (rat (ratn (Pm i l) Pq j) (PM Pq Pq) q).
Proof.
  intros P. unfold partial. eapply is_derive_ext_loc; [|apply (rat_ok (Pm i l) Pq q j); rewrite Pq_ok; lra].
  apply (filter_imp (fun t => 0 < qnorm2 (vset q j t))); [|apply vset_near; exact P]. intros t Pt. cbv beta. symmetry. apply Pm_ok. exact Pt.
Qed.

Section Base.
Variable dofs : nat.
Variable ue : nat -> env -> mat.
Notation VD := (vdim dofs).
Notation FR := (frows VD urows (ucols dofs)).
Notation FC := (fcols VD urows (ucols dofs)).
Notation M := (meaning VD urows (ucols dofs) ue).
Notation WF := (well_formed VD urows (ucols dofs) ue).
Lemma base_shape : FR base_rotation = 3%nat /\ FC base_rotation = 3%nat /\ WF base_rotation.
Proof.
  destruct (rotation_den dofs ue (fun _ _ => 0) _ _ (normalized_den dofs ue (fun _ _ => 0))) as (W & A & B & _). auto.
Qed.
Lemma base_any rho i c : (i < 3)%nat -> (c < 3)%nat -> M rho base_rotation i c = ment (qmat (fun k => rho v_q k / rpow (qnorm2 (rho v_q)) (1 # 2))) i c.
Proof. intros Hi Hc. destruct (rotation_den dofs ue rho _ _ (normalized_den dofs ue rho)) as (_ & _ & _ & V). apply V; auto. Qed.
Lemma base_value rho i c : 0 < qnorm2 (rho v_q) -> (i < 3)%nat -> (c < 3)%nat -> M rho base_rotation i c = ment (qmat (qunit (rho v_q))) i c.
Proof. intros P Hi Hc. destruct (rotation_den dofs ue rho _ _ (normalized_unit dofs ue rho P)) as (_ & _ & _ & V). apply V; auto. Qed.
Lemma base_partial rho j i c : 0 < qnorm2 (rho v_q) -> (i < 3)%nat -> (c < 3)%nat ->
  is_derive (fun x => M (at_entry rho v_q j x) base_rotation i c) (rho v_q j) (rat (ratn (Pm i c) Pq j) (PM Pq Pq) (rho v_q)).
Proof.
  intros P Hi Hc. pose proof (rm_partial (rho v_q) j i c P) as D. unfold partial in D. eapply is_derive_ext_loc; [|exact D].
  apply (filter_imp (fun t => 0 < qnorm2 (vset (rho v_q) j t))); [|apply vset_near; exact P]. intros t Pt. cbv beta. symmetry.
  rewrite base_value; [rewrite at_same; reflexivity|rewrite at_same; exact Pt|exact Hi|exact Hc].
Qed.
Lemma base_const rho v j x i c : v <> v_q -> (i < 3)%nat -> (c < 3)%nat -> M (at_entry rho v j x) base_rotation i c = M rho base_rotation i c.
Proof. intros N Hi Hc. rewrite !base_any by auto. rewrite at_other by auto. reflexivity. Qed.
Lemma base_smooth rho v c : 0 < qnorm2 (rho v_q) -> (c < 3)%nat -> smooth dofs ue rho v base_rotation c.
Proof.
  intros P Hc i j Hi Hj. destruct base_shape as (R0 & _). rewrite R0 in Hi. destruct (Nat.eq_dec v v_q) as [->|N].
  - eexists. apply base_partial; auto.
  - exists 0. eapply is_derive_ext; [intros t; symmetry; apply base_const; auto|]. apply D_const.
Qed.
Lemma base_deriv rho v k i c : 0 < qnorm2 (rho v_q) -> (i < 3)%nat -> (c < 3)%nat ->
  M rho (FDeriv base_rotation c v) i k = if (v =? v_q)%nat then rat (ratn (Pm i c) Pq k) (PM Pq Pq) (rho v_q) else 0.
Proof.
  intros P Hi Hc. cbn [meaning]. destruct (Nat.eqb_spec v v_q) as [->|N].
  - apply is_derive_unique. apply base_partial; auto.
  - transitivity (Derive (fun _ : R => M rho base_rotation i c) (rho v k)); [|apply Derive_const]. apply Derive_ext. intros t. apply base_const; auto.
Qed.
Lemma base_smooth2 rho v1 v2 c k : 0 < qnorm2 (rho v_q) -> (c < 3)%nat -> smooth dofs ue rho v2 (FDeriv base_rotation c v1) k.
Proof.
  intros P Hc i j Hi Hj. destruct base_shape as (R0 & _). change (FR (FDeriv base_rotation c v1)) with (FR base_rotation) in Hi. rewrite R0 in Hi.
  destruct (Nat.eq_dec v2 v_q) as [->|N].
  - assert (L : locally (rho v_q j) (fun t => (if (v1 =? v_q)%nat then rat (ratn (Pm i c) Pq k) (PM Pq Pq) (vset (rho v_q) j t) else 0) = M (at_entry rho v_q j t) (FDeriv base_rotation c v1) i k)).
    { apply (filter_imp (fun t => 0 < qnorm2 (vset (rho v_q) j t))); [|apply vset_near; exact P]. intros t Pt. rewrite base_deriv; [rewrite at_same; reflexivity|rewrite at_same; exact Pt|exact Hi|exact Hc]. }
    destruct (v1 =? v_q)%nat.
    + eexists. eapply is_derive_ext_loc; [exact L|]. apply (rat_ok (ratn (Pm i c) Pq k) (PM Pq Pq) (rho v_q) j). cbn [pev]. rewrite Pq_ok.
      intros Z. apply Rmult_integral in Z. lra.
    + exists 0. eapply is_derive_ext_loc; [exact L|]. apply D_const.
  - exists 0. eapply is_derive_ext; [|apply D_const]. intros t. symmetry. rewrite base_deriv; [rewrite at_other by auto; reflexivity|rewrite at_other by auto; exact P|exact Hi|exact Hc].
Qed.
End Base.
