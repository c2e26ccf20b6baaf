(** The effect of the contact forces on the static torques. *)
From Coq Require Import Reals List Arith Lia Lra Bool FunctionalExtensionality.
From Coquelicot Require Import Coquelicot.
From Verif Require Import Spec PartialLib SpecQuaternion.
From Verif Require Import QuatCurve SpecRigid Rigid RigidCalc KinTree KinModel KinLib KinMotion KinUsers KinProofs KinExist.
From Verif Require Import SpecBase BaseProofs SpecFeet SpecMom MomModel MomProofs SpecStatic StaticModel StaticProofs StaticCalc SpecTorque.
Import ListNotations.
Local Open Scope R_scope.

(** * A change of the external wrench of one link *)
Section Load.
Variable r : robot.
Variable place : vec -> nat -> pose.
Variable up : nat -> option (nat * nat).
Variable depth : nat -> nat.
Variable base : nat.
Variable inertia : nat -> m6.
Notation links := (r_links r).
Hypothesis rok : robot_ok r.
Hypothesis plc : placement r place.
Hypothesis trav : traversal r base up depth.
Hypothesis Hb : (base < links)%nat.
Notation rel := (relative r place).
Notation ab := (above up base).

Lemma ab_last k l : ab k l -> l = k \/ exists c, ab k c /\ hangs base up c l = true.
Proof.
  assert (HG : forall m p i, m <> base -> up m = Some (p, i) -> hangs base up m p = true).
  { intros m p i N U. unfold hangs. rewrite U, Nat.eqb_refl. apply Nat.eqb_neq in N. rewrite N. reflexivity. }
  induction 1 as [m p i N U|m p i c N U H IH]; [left; reflexivity|]. right. destruct IH as [->|(c' & H1 & H2)].
  - exists m. split; [eapply above_here; eauto|eapply HG; eauto].
  - exists c'. split; [eapply above_up; eauto|exact H2].
Qed.
Lemma ab_up k c l : (k < links)%nat -> ab k c -> hangs base up c l = true -> l <> base -> ab k l.
Proof.
  intros Hk H G N. destruct (hangs_up up base c l G) as (Nc & i & U). destruct (ab_facts r base up depth trav Hb k c H Hk) as (Hc & _ & _).
  destruct (up_facts r base up depth trav Hb c Hc Nc) as (q & i' & U' & Hl & _). rewrite U in U'. injection U' as <- <-.
  apply (ab_trans base up k c l H). eapply above_up; [exact Nc|exact U|]. apply (ab_self r base up depth trav Hb); auto.
Qed.
Lemma one_child k c d l : (k < links)%nat -> ab k c -> ab k d -> hangs base up c l = true -> hangs base up d l = true -> c = d.
Proof.
  intros Hk.
  assert (L : forall c d, ab k c -> ab k d -> hangs base up c l = true -> hangs base up d l = true -> ab c d -> c = d).
  { clear c d. intros c d C D GC GD Q. destruct (hangs_up up base c l GC) as (Nc & i & U). destruct (hangs_up up base d l GD) as (Nd & i' & U').
    destruct (ab_facts r base up depth trav Hb k c C Hk) as (Hc & _). destruct (ab_facts r base up depth trav Hb k d D Hk) as (Hd & _).
    destruct (ab_step base up c l i d U Q) as [E|E]; [congruence|].
    destruct (up_facts r base up depth trav Hb c Hc Nc) as (q & j & U1 & Hl & _). rewrite U in U1. injection U1 as <- <-.
    destruct (ab_facts r base up depth trav Hb l d E Hl) as (_ & _ & Dl).
    destruct (up_facts r base up depth trav Hb d Hd Nd) as (q & j' & U2 & _ & Dd & _). rewrite U' in U2. injection U2 as <- <-. lia. }
  intros C D GC GD. destruct (ab_total r base up depth trav Hb k c d Hk C D) as [Q|Q]; [apply L; auto|symmetry; apply L; auto].
Qed.

Lemma load_effect A s ext ext' k d f g : (k < links)%nat ->
  (forall l, (l < links)%nat -> ext' l = if (l =? k)%nat then v6add (ext l) d else ext l) ->
  static_balance r place base up inertia A ext s f -> static_balance r place base up inertia A ext' s g ->
  forall l, (l < links)%nat -> l <> base ->
    (ab k l -> g l = v6add (f l) (v6opp (m6v (AdjW (rel s l k)) d))) /\ (~ ab k l -> g l = f l).
Proof.
  intros Hk HE F G. destruct (depth_bound r depth) as (N & BN). intros l. remember (N - depth l)%nat as n eqn:En. revert l En.
  induction n as [n IH] using lt_wf_ind. intros l En Hl Nl.
  pose proof (F l Hl) as Fl. pose proof (G l Hl) as Gl. apply v6_cancel in Fl. apply v6_cancel in Gl. rewrite v6total_sum in Fl, Gl.
  assert (KID : forall c, (c < links)%nat -> hangs base up c l = true ->
    (ab k c -> g c = v6add (f c) (v6opp (m6v (AdjW (rel s c k)) d))) /\ (~ ab k c -> g c = f c)).
  { intros c Hc H. destruct (hangs_up up base c l H) as (Nc & i & U). destruct (up_facts r base up depth trav Hb c Hc Nc) as (q & j & U1 & _ & D & _).
    rewrite U in U1. injection U1 as <- <-. pose proof (BN c Hc). apply (IH (N - depth c)%nat); [lia|reflexivity|exact Hc|exact Nc]. }
  rewrite (HE l Hl) in Gl. destruct (Nat.eqb_spec l k) as [->|NE].
  - split; [intros _|intros H; exfalso; apply H; apply (ab_self r base up depth trav Hb); auto].
    assert (SAME : v6sum links (fun c => if hangs base up c k then m6v (AdjW (rel s k c)) (g c) else v60) = v6sum links (fun c => if hangs base up c k then m6v (AdjW (rel s k c)) (f c) else v60)).
    { apply v6sum_ext. intros c Hc. destruct (hangs base up c k) eqn:H; [|reflexivity]. f_equal. apply (KID c Hc H).
      intros Q. destruct (hangs_up up base c k H) as (Nc & i & U). destruct (up_facts r base up depth trav Hb c Hc Nc) as (q & j & U1 & _ & D & _).
      rewrite U in U1. injection U1 as <- <-. destruct (ab_facts r base up depth trav Hb k c Q Hk) as (_ & _ & L). lia. }
    rewrite SAME in Gl. rewrite Gl, Fl, (rel_same r place rok plc) by (apply link_ok; exact Hk). rewrite AdjW_id, m6v_I, v6opp_add, <- v6add_assoc. reflexivity.
  - split; intros H.
    + destruct (ab_last k l H) as [E|(c & C & HC)]; [congruence|]. destruct (ab_facts r base up depth trav Hb k c C Hk) as (Hc & Nc & _).
      set (S := fun h : nat -> v6 => v6sum links (fun c => if hangs base up c l then m6v (AdjW (rel s l c)) (h c) else v60)).
      assert (SUM : S g = v6add (S f) (v6opp (m6v (AdjW (rel s l k)) d))).
      { unfold S. rewrite <- (v6sum_split' links (fun c => if hangs base up c l then m6v (AdjW (rel s l c)) (g c) else v60) c Hc).
        rewrite <- (v6sum_split' links (fun c => if hangs base up c l then m6v (AdjW (rel s l c)) (f c) else v60) c Hc). rewrite HC.
        rewrite (proj1 (KID c Hc HC) C), m6v_add, m6v_opp, <- m6v_mul.
        rewrite (AdjW_rel r place rok plc s l c k) by (apply link_ok; auto).
        rewrite (v6sum_ext links (fun i => if (i =? c)%nat then v60 else if hangs base up i l then m6v (AdjW (rel s l i)) (g i) else v60)
          (fun i => if (i =? c)%nat then v60 else if hangs base up i l then m6v (AdjW (rel s l i)) (f i) else v60)).
        - rewrite !v6add_assoc. f_equal. apply v6add_comm.
        - intros i Hi. destruct (Nat.eqb_spec i c) as [E|E]; [reflexivity|]. destruct (hangs base up i l) eqn:HI; [|reflexivity]. f_equal. apply (KID i Hi HI).
          intros Q. apply E. exact (one_child k i c l Hk Q C HI HC). }
      fold (S g) in Gl. fold (S f) in Fl. rewrite Gl, Fl, SUM. rewrite !v6add_assoc. do 2 f_equal. apply v6add_comm.
    + rewrite Gl, Fl. do 2 f_equal. apply v6sum_ext. intros c Hc. destruct (hangs base up c l) eqn:HC; [|reflexivity]. f_equal. apply (KID c Hc HC).
      intros Q. apply H. exact (ab_up k c l Hk Q HC Nl).
Qed.
End Load.

(** * Wrenches *)
Lemma vdot_tr A a b : vdot a (mv (mtr A) b) = vdot (mv A a) b.
Proof. destruct A, a, b. unfold vdot, mv, mtr. cbn. ring. Qed.
Lemma vdot_add_l a b c : vdot (vadd a b) c = vdot a c + vdot b c.
Proof. destruct a, b, c. unfold vdot, vadd. cbn. ring. Qed.
Lemma vdot_add_r a b c : vdot c (vadd a b) = vdot c a + vdot c b.
Proof. destruct a, b, c. unfold vdot, vadd. cbn. ring. Qed.
Lemma vdot_opp_r a b : vdot a (vopp b) = - vdot a b.
Proof. destruct a, b. unfold vdot, vopp. cbn. ring. Qed.
Lemma vdot_skew p a b : vdot a (mv (SpecRigid.skew p) b) = - vdot (mv (SpecRigid.skew p) a) b.
Proof. destruct p, a, b. unfold vdot, mv, SpecRigid.skew. cbn. ring. Qed.
Lemma skew_inv A p : rotation A -> mm (SpecRigid.skew (vopp (mv (mtr A) p))) (mtr A) = mneg (mm (mtr A) (SpecRigid.skew p)).
Proof. intros K. rewrite skew_opp, mm_neg_l. f_equal. symmetry. apply skew_rot. apply rotation_tr; exact K. Qed.
(** A wrench brought through the inverse of H does the work of the twist brought through H. *)
Lemma dual H a w : rigid H -> v6dot a (m6v (AdjW (pinv H)) w) = v6dot (m6v (Adj H) a) w.
Proof.
  intros RH. destruct a as [l o], w as [f n]. unfold AdjW, Adj, pinv, m6v. cbn [rot pos bll bla bal baa lin ang]. rewrite skew_inv by exact RH.
  unfold v6dot. cbn [lin ang]. rewrite !mv_m30, vadd_0_r, vadd_0_l, mv_neg, !mv_mm.
  rewrite !vdot_add_l, !vdot_add_r, vdot_opp_r, !vdot_tr, vdot_skew. ring.
Qed.
Lemma v6dot_add_r a u v : v6dot a (v6add u v) = v6dot a u + v6dot a v.
Proof. unfold v6dot, v6add. cbn [lin ang]. rewrite !vdot_add_r. ring. Qed.
Lemma v6dot_opp_r a u : v6dot a (v6opp u) = - v6dot a u.
Proof. unfold v6dot, v6opp. cbn [lin ang]. rewrite !vdot_opp_r. ring. Qed.
Lemma v6dot_scale_r a k u : v6dot a (v6scale k u) = k * v6dot a u.
Proof. destruct a as [[] []], u as [[] []]. unfold v6dot, vdot, v6scale, vscale. cbn. ring. Qed.
Lemma v6dot_zero a : v6dot a v60 = 0.
Proof. destruct a as [[] []]. unfold v6dot, vdot, v60, v30. cbn. ring. Qed.
Lemma v6dot_zero_l a : v6dot v60 a = 0.
Proof. destruct a as [[] []]. unfold v6dot, vdot, v60, v30. cbn. ring. Qed.
(** A force in the frame f. *)
Definition at_point (R : m3) (c F : v3) : v6 := m6v (AdjW (Pose m3I c)) (m6v (AdjW (Pose R v30)) (V6 F v30)).
Lemma at_point_eq R c F : at_point R c F = V6 (mv R F) (mv (SpecRigid.skew c) (mv R F)).
Proof.
  unfold at_point, AdjW, m6v. cbn [rot pos bll bla bal baa lin ang]. rewrite mm_I_r, skew_0, mm_0_l, !mv_0, !mv_m30, !vadd_0_r, mv_I. f_equal.
  rewrite mv_0. apply vadd_0_r.
Qed.
Lemma applied_eq W c F : rigid W -> m6v (AdjW (pinv W)) (applied (vadd (mv (rot W) c) (pos W)) F) = at_point (mtr (rot W)) c F.
Proof.
  intros RW. rewrite at_point_eq. unfold applied, AdjW, pinv, m6v. cbn [rot pos bll bla bal baa lin ang]. rewrite skew_inv by exact RW.
  rewrite mv_m30, vadd_0_r. f_equal. rewrite mv_neg, !mv_mm, skew_add, mv_madd, mv_add.
  rewrite (vadd_comm (mv (mtr (rot W)) (mv (SpecRigid.skew (mv (rot W) c)) F))), <- vadd_assoc, (vadd_comm (vopp _)), vadd_opp, vadd_0_l.
  rewrite <- !mv_mm. f_equal. 
  pose proof (skew_rot (mtr (rot W)) (mv (rot W) c) (rotation_tr _ RW)) as Q. rewrite Q. f_equal. f_equal. rewrite <- mv_mm, rot_l by exact RW. apply mv_I.
Qed.
Lemma vsum_m6v A l : m6v A (vsum l) = vsum (map (m6v A) l).
Proof. induction l as [|a l IH]; cbn [vsum fold_right map]; [apply m6v_0|]. change (m6v A (v6add a (vsum l)) = v6add (m6v A a) (vsum (map (m6v A) l))). rewrite m6v_add, IH. reflexivity. Qed.
Lemma fold_vsum {B} (g : B -> v6) l : forall a, fold_left (fun t c => v6add t (g c)) l a = v6add a (vsum (map g l)).
Proof. induction l as [|c l IH]; intros a; cbn [fold_left map vsum fold_right]; [symmetry; apply v6add_0_r|]. rewrite IH, v6add_assoc. reflexivity. Qed.
Lemma at_point_add R c F G : at_point R c (vadd F G) = v6add (at_point R c F) (at_point R c G).
Proof. rewrite !at_point_eq. unfold v6add. cbn [lin ang]. rewrite !mv_add. reflexivity. Qed.
Lemma at_point_scale R c k F : at_point R c (vscale k F) = v6scale k (at_point R c F).
Proof.
  rewrite !at_point_eq. unfold v6scale. cbn [lin ang].
  assert (Q : forall A v, mv A (vscale k v) = vscale k (mv A v)). { intros [] []. unfold mv, vscale. cbn. f_equal; ring. }
  rewrite !Q. reflexivity.
Qed.
Lemma vsum_add {B} (g h : B -> v6) l : vsum (map (fun c => v6add (g c) (h c)) l) = v6add (vsum (map g l)) (vsum (map h l)).
Proof.
  induction l as [|c l IH]; cbn [map vsum fold_right]; [symmetry; apply v6add_0_l|]. fold (vsum (map (fun c => v6add (g c) (h c)) l)). rewrite IH.
  fold (vsum (map g l)) (vsum (map h l)). rewrite !v6add_assoc. f_equal. rewrite <- !v6add_assoc. f_equal. apply v6add_comm.
Qed.
Lemma vsum_scale {B} k (g : B -> v6) l : vsum (map (fun c => v6scale k (g c)) l) = v6scale k (vsum (map g l)).
Proof. induction l as [|c l IH]; cbn [map vsum fold_right]; [symmetry; apply v6scale_0|]. fold (vsum (map (fun c => v6scale k (g c)) l)). rewrite IH. symmetry. apply v6scale_add. Qed.
