(** The momentum of one link: its first and second derivatives with respect to the joints. *)
From Coq Require Import Reals List Arith Lia Lra Bool FunctionalExtensionality.
From Coquelicot Require Import Coquelicot.
From Verif Require Import Spec PartialLib SpecQuaternion QuatCurve SpecRigid Rigid RigidCalc KinTree KinModel KinLib KinMotion KinUsers KinProofs KinExist PropKin.
From Verif Require Import SpecBase SpecDerivatives ComModel ComLib ComProofs ComHess.
Import ListNotations.
Local Open Scope R_scope.

Ltac v6ring := unfold v6add, v6opp, vadd, vopp, v60, v30; cbn [lin ang vx vy vz]; f_equal; f_equal; ring.
Ltac m6v_open := rewrite ?m6v_mul, ?m6v_madd, ?m6v_neg, ?m6v_add, ?m6v_opp, ?m6v_m0, ?m6v_0.

Section Mib.
Variable r : robot.
Variable place : vec -> nat -> pose.
Variable dofs : nat.
Variable up : nat -> nat -> option (nat * nat).
Variable depth : nat -> nat -> nat.
Variable base : nat.
Variable inertia : nat -> m6.
Notation links := (r_links r).
Notation rel := (relative r place).
Hypothesis rok : robot_ok r.
Hypothesis plc : placement r place.
Hypothesis trav : forall b, (b < links)%nat -> traversal r b (up b) (depth b).
Hypothesis one_dof : (length (r_joints r) <= dofs)%nat.
Hypothesis Hb : (base < links)%nat.
Hypothesis TR : tree r dofs up base.
Notation jac := (jac_of r place up).
Lemma jac_fine s f g i : frame_ok r f -> frame_ok r g -> (i < dofs)%nat -> moves (fun x => rel (vset s i x) f g) (s i) (jac s f g i).
Proof. intros F G _. exact (jac_of_ok r place up depth rok plc trav s f g i F G). Qed.
Notation WV := (W r place dofs jac base).
Definition fv0 (rho : env) (f : nat) : v6 := WV (rho v_s) (rho v_sdot) v60 f.
Definition bt0 (rho : env) : v6 := v60.
Lemma KIN : kinematics r place dofs up depth base jac fv0 bt0 quat_of.
Proof.
  split; [exact rok|]. split; [exact plc|]. split; [exact trav|]. split; [exact one_dof|]. split; [exact Hb|]. split; [|split].
  - intros s f g i F G Hi. apply jac_fine; auto.
  - intros rho f F. apply (W_velocity r place dofs up depth base jac rok plc trav one_dof jac_fine Hb); auto.
  - exact quat_of_ok.
Qed.
Notation P := (P r up base).
Notation onp := (onp r up base).
Notation ch := (ch r up base).
Notation ax := (fun k => motion_axis r k (ch k)).

Section State.
Variables (sd : vec) (b : v6).
Definition V (s : vec) (l : nat) : v6 := WV s sd b l.
Definition DV (s : vec) (l k : nat) : v6 :=
  if onp l k then v6opp (m6v (Adj (rel s l (ch k))) (m6v (adx (ax k)) (V s (ch k)))) else v60.
Lemma V_base s : V s base = b.
Proof.
  assert (F : frame_ok r base) by (apply link_ok; auto). unfold V, W. rewrite (rel_same r place rok plc s base F), Adj_id, m6v_I.
  rewrite (v6sum_ext _ _ (fun _ => v60)); [rewrite v6sum_0; apply v6add_0_r|]. intros k Hk.
  rewrite (jac_none r place dofs jac rok plc jac_fine s k base base F F Hk); [|intros s' x; rewrite !(rel_same r place rok plc) by auto; reflexivity].
  unfold v6scale, v60, vscale, v30. cbn. f_equal; f_equal; ring.
Qed.
(** A joint on the way from l. *)
Lemma on_facts l k : (l < links)%nat -> onp l k = true -> exists p j, In (ch k, p, k) (P l) /\ nth_error (r_joints r) k = Some j /\ (k < dofs)%nat /\ (ch k < links)%nat /\
  child_of r up base k = Some (ch k) /\ ax k = axis_of j (ch k).
Proof.
  intros Hl E. pose proof (on_ch _ _ _ _ _ _ _ _ _ _ KIN TR l k Hl E) as C.
  destruct (on_child _ _ _ _ _ _ _ _ _ _ KIN TR l k Hl E) as (J & p & C' & I). rewrite C in C'. injection C' as <-.
  destruct (in_step _ _ _ _ _ _ _ _ _ _ KIN l _ _ _ Hl I) as (Hc & _ & U & _ & j & EJ & _).
  exists p, j. split; [exact I|]. split; [exact EJ|]. split; [exact (joint_lt _ _ _ _ _ _ _ _ _ _ KIN k j EJ)|]. split; [exact Hc|]. split; [exact C|].
  unfold motion_axis. rewrite (nth_error_nth _ _ _ EJ). reflexivity.
Qed.
Lemma V_D s l j : (l < links)%nat -> (j < dofs)%nat -> is_derive_v6 (fun x => V (vset s j x) l) (s j) (DV s l j).
Proof.
  intros Hl Hj. unfold DV.
  destruct (W_moves r place dofs up depth jac rok plc trav one_dof jac_fine base s sd b l (P l) j (link_ok r base Hb) (link_ok r l Hl) Hj) as [A B].
  { rewrite (fl_link r base Hb), (fl_link r l Hl). apply (path_P _ _ _ _ _ _ _ _ _ _ KIN l Hl). }
  destruct (onp l j) eqn:E.
  - destruct (on_facts l j Hl E) as (p & jt & I & EJ & _ & HJ & _ & AX). specialize (A _ _ _ I EJ). rewrite m6v_opp in A. cbv beta in AX. rewrite AX. exact A.
  - apply B. apply (onp_out r up base l j E).
Qed.
Notation X := (fun s f g => AdjW (rel s f g)).
Lemma X_D s l j : (l < links)%nat -> (j < dofs)%nat -> is_derive_m6 (fun x => X (vset s j x) base l) (s j)
  (if onp l j then m6mul (m6mul (X s base (ch j)) (adw (ax j))) (X s (ch j) l) else m60).
Proof.
  intros Hl Hj. destruct (AdjW_rel_moves r place rok plc base (up base) (depth base) (trav base Hb) Hb s base l (P l) j (link_ok r base Hb) (link_ok r l Hl) (fl_link r base Hb)) as [A B].
  { rewrite (fl_link r l Hl). apply (path_P _ _ _ _ _ _ _ _ _ _ KIN l Hl). }
  destruct (onp l j) eqn:E.
  - destruct (on_facts l j Hl E) as (p & jt & I & EJ & _ & HJ & _ & AX). specialize (A _ _ _ I EJ). cbv beta in AX. rewrite AX. exact A.
  - apply B. apply (onp_out r up base l j E).
Qed.
(** The momentum of link l, seen in the base. *)
Definition ML (s : vec) (l : nat) : v6 := m6v (X s base l) (m6v (inertia l) (V s l)).
Definition T (s : vec) (l k : nat) : v6 :=
  v6add (m6v (adw (ax k)) (m6v (X s (ch k) l) (m6v (inertia l) (V s l)))) (m6v (X s (ch k) l) (m6v (inertia l) (DV s l k))).
Definition DM (s : vec) (l k : nat) : v6 := if onp l k then m6v (X s base (ch k)) (T s l k) else v60.
Lemma XX s f g h x : (f < links)%nat -> (g < links)%nat -> m6v (X s f g) (m6v (X s g h) x) = m6v (X s f h) x.
Proof. intros F G. rewrite <- m6v_mul, (AdjW_rel r place rok plc s f g h) by (apply link_ok; auto). reflexivity. Qed.
Lemma YY s f g h x : (f < links)%nat -> (g < links)%nat -> m6v (Adj (rel s f g)) (m6v (Adj (rel s g h)) x) = m6v (Adj (rel s f h)) x.
Proof. intros F G. rewrite <- m6v_mul, (Adj_rel r place rok plc s f g h) by (apply link_ok; auto). reflexivity. Qed.
Lemma ML_D s l j : (l < links)%nat -> (j < dofs)%nat -> is_derive_v6 (fun x => ML (vset s j x) l) (s j) (DM s l j).
Proof.
  intros Hl Hj. pose proof (v6_D_mv _ _ _ _ _ (X_D s l j Hl Hj) (v6_D_mv _ _ _ _ _ (m6_D_const (inertia l) (s j)) (V_D s l j Hl Hj))) as Z. cbv beta in Z. rewrite !vset_same in Z.
  unfold ML. match type of Z with is_derive_v6 _ _ ?d => replace (DM s l j) with d; [exact Z|] end. unfold DM, T. destruct (onp l j) eqn:E.
  - destruct (on_facts l j Hl E) as (p & jt & I & EJ & _ & HJ & _ & AX). m6v_open. rewrite XX by auto. rewrite v6add_0_l. reflexivity.
  - unfold DV. rewrite E. m6v_open. rewrite ?v6add_0_l, ?m6v_0, ?v6add_0_l. reflexivity.
Qed.

(** ** Second derivatives *)
Definition F (s : vec) (l k j : nat) : v6 :=
  v6add (m6v (X s base (ch j)) (m6v (adw (ax j)) (m6v (X s (ch j) (ch k)) (T s l k))))
        (m6v (X s base (ch k)) (m6v (m6add (m6mul (adw (ax k)) (m6mul (X s (ch k) l) (inertia l)))
           (m6neg (m6mul (m6mul (X s (ch k) l) (inertia l)) (m6mul (m6mul (Adj (rel s l (ch k))) (adx (ax k))) (Adj (rel s (ch k) l)))))) (DV s l j))).
Definition DD (s : vec) (l k j : nat) : v6 :=
  if onp l k && onp l j then (if onp (ch k) j then F s l k j else F s l j k) else v60.
Lemma DD_sym s l k j : (l < links)%nat -> DD s l k j = DD s l j k.
Proof.
  intros Hl. unfold DD. rewrite (andb_comm (onp l j)). destruct (onp l k && onp l j) eqn:E; [|reflexivity]. apply andb_true_iff in E. destruct E as [E E'].
  destruct (onp (ch k) j) eqn:A, (onp (ch j) k) eqn:B'; try reflexivity.
  - rewrite (on_anti _ _ _ _ _ _ _ _ _ _ KIN TR l k j Hl E E' A B'). reflexivity.
  - destruct (on_total _ _ _ _ _ _ _ _ _ _ KIN TR l k j Hl E E'); congruence.
Qed.
Lemma on_tr' l k j : (l < links)%nat -> onp l k = true -> onp (ch k) j = true -> onp l j = true.
Proof. apply (on_tr _ _ _ _ _ _ _ _ _ _ KIN TR). Qed.
(** The frame under joint k and the link do not move with respect to each other when j is above. *)
Lemma rel_above s l k j x : (l < links)%nat -> onp l k = true -> onp (ch k) j = true -> rel (vset s j x) (ch k) l = rel s (ch k) l /\ rel (vset s j x) l (ch k) = rel s l (ch k).
Proof.
  intros Hl E A. destruct (on_facts l k Hl E) as (_ & _ & _ & _ & _ & HK & _). pose proof (on_tr' l k j Hl E A) as E'.
  destruct (on_facts l j Hl E') as (p & _ & I & _ & _ & HJ & _). destruct (on_facts (ch k) j HK A) as (p' & _ & I' & _).
  assert (Z : indep r place j (ch k) l).
  { apply (indep_trans r place rok plc j (ch k) (ch j) l (link_ok r _ HJ)).
    - apply (indep_sym r place rok plc); [apply link_ok; auto|apply link_ok; auto|]. exact (in_indep _ _ _ _ _ _ _ _ _ _ KIN (ch k) _ _ _ HK I').
    - exact (in_indep _ _ _ _ _ _ _ _ _ _ KIN l _ _ _ Hl I). }
  split; [apply Z|]. apply (indep_sym r place rok plc j (ch k) l); auto using link_ok.
Qed.
Lemma DV_above s l k j : (l < links)%nat -> onp l k = true -> onp (ch k) j = true -> DV s (ch k) j = m6v (Adj (rel s (ch k) l)) (DV s l j).
Proof.
  intros Hl E A. destruct (on_facts l k Hl E) as (_ & _ & _ & _ & _ & HK & _). unfold DV. rewrite A, (on_tr' l k j Hl E A). rewrite m6v_opp, YY by auto. reflexivity.
Qed.
Lemma DD_above s l k j : (l < links)%nat -> onp l k = true -> onp (ch k) j = true -> is_derive_v6 (fun x => DM (vset s j x) l k) (s j) (F s l k j).
Proof.
  intros Hl E A. destruct (on_facts l k Hl E) as (_ & _ & _ & _ & _ & HK & _). pose proof (on_tr' l k j Hl E A) as E'. destruct (on_facts l j Hl E') as (_ & _ & _ & _ & Hj & HJ & _).
  pose proof (X_D s (ch k) j HK Hj) as XD. rewrite A in XD. pose proof (V_D s l j Hl Hj) as VD. pose proof (V_D s (ch k) j HK Hj) as VK.
  set (G := fun x => m6v (X (vset s j x) base (ch k)) (v6add (m6v (adw (ax k)) (m6v (X s (ch k) l) (m6v (inertia l) (V (vset s j x) l))))
     (m6v (X s (ch k) l) (m6v (inertia l) (v6opp (m6v (Adj (rel s l (ch k))) (m6v (adx (ax k)) (V (vset s j x) (ch k))))))))).
  apply v6_D_ext with (f := G).
  { intros x. unfold G, DM, T, DV. rewrite E. destruct (rel_above s l k j x Hl E A) as [-> ->]. reflexivity. }
  pose proof (v6_D_mv _ _ _ _ _ XD (v6_D_add _ _ _ _ _
    (v6_D_mv _ _ _ _ _ (m6_D_const (adw (ax k)) (s j)) (v6_D_mv _ _ _ _ _ (m6_D_const (X s (ch k) l) (s j)) (v6_D_mv _ _ _ _ _ (m6_D_const (inertia l) (s j)) VD)))
    (v6_D_mv _ _ _ _ _ (m6_D_const (X s (ch k) l) (s j)) (v6_D_mv _ _ _ _ _ (m6_D_const (inertia l) (s j))
       (v6_D_opp _ _ _ (v6_D_mv _ _ _ _ _ (m6_D_const (Adj (rel s l (ch k))) (s j)) (v6_D_mv _ _ _ _ _ (m6_D_const (adx (ax k)) (s j)) VK))))))) as Z.
  cbv beta in Z. rewrite !vset_same in Z.
  match type of Z with is_derive_v6 _ _ ?d => replace (F s l k j) with d; [exact Z|] end.
  rewrite (DV_above s l k j Hl E A). 
  assert (DK : DV s l k = v6opp (m6v (Adj (rel s l (ch k))) (m6v (adx (ax k)) (V s (ch k))))) by (unfold DV; rewrite E; reflexivity).
  unfold F, T. rewrite DK. generalize (DV s l j). intros dj. repeat (progress (m6v_open; rewrite ?v6add_0_r, ?v6add_0_l)).
  repeat match goal with |- context[m6v ?A ?y] => let u := fresh in set (u := m6v A y) end.
  v6ring.
Qed.
(** j below k: the frame above does not move with j. *)
Lemma DD_below s l k j : (l < links)%nat -> onp l k = true -> onp l j = true -> onp (ch k) j = false -> is_derive_v6 (fun x => DM (vset s j x) l k) (s j) (F s l j k).
Proof.
  intros Hl E E' A. destruct (on_facts l k Hl E) as (_ & _ & _ & _ & Hk & HK & _). destruct (on_facts l j Hl E') as (p & jt & I & EJ & Hj & HJ & _ & AX).
  destruct (on_total _ _ _ _ _ _ _ _ _ _ KIN TR l k j Hl E E') as [Z|B]; [congruence|].
  pose proof (out_indep _ _ _ _ _ _ _ _ _ _ KIN (ch k) j HK A) as OI.
  assert (OV : forall x, V (vset s j x) (ch k) = V s (ch k)).
  { intros x. apply (W_indep r place dofs jac rok plc jac_fine base s sd b (ch k) j x); auto using link_ok. }
  assert (FK : frame_ok r (ch k)) by auto using link_ok. assert (FB : frame_ok r base) by auto using link_ok. assert (FL : frame_ok r l) by auto using link_ok. assert (FJ : frame_ok r (ch j)) by auto using link_ok.
  pose proof (indep_sym r place rok plc j base (ch k) FB FK OI) as OI'.
  assert (XKl : forall x, X (vset s j x) (ch k) l = m6mul (X s (ch k) base) (X (vset s j x) base l)).
  { intros x. rewrite <- (AdjW_rel r place rok plc (vset s j x) (ch k) base l FK FB), (OI' s x). reflexivity. }
  pose proof (X_D s l j Hl Hj) as XD. rewrite E' in XD. pose proof (V_D s l j Hl Hj) as VD.
  set (w := m6v (Adj (rel s l (ch j))) (ax j)).
  (* the transform from the frame under k to the link *)
  assert (YD : is_derive_m6 (fun x => Adj (rel (vset s j x) l (ch k))) (s j) (m6neg (m6mul (adx w) (Adj (rel s l (ch k)))))).
  { pose proof (jac_fine s base l j FB FL Hj) as MV. rewrite (jac_on _ _ _ _ _ _ _ _ _ _ KIN s l j (ch j) p Hl I) in MV. fold w in MV.
    pose proof (Adj_inv_moves _ _ _ (fun t => rel_rigid r place rok plc (vset s j t) base l FB FL) MV) as Q. cbv beta in Q. rewrite vset_same in Q.
    pose proof (m6_D_mul _ _ _ _ _ Q (m6_D_const (Adj (rel s base (ch k))) (s j))) as Q2. cbv beta in Q2. rewrite vset_same in Q2.
    rewrite m6mul_0_r, m6add_0_r, m6mul_neg_l, m6mul_assoc in Q2. rewrite (rel_inv r place rok plc s base l FB FL), (Adj_rel r place rok plc s l base (ch k) FL FB) in Q2.
    eapply m6_D_ext; [|exact Q2]. intros x. cbv beta. rewrite (rel_inv r place rok plc (vset s j x) base l FB FL). rewrite <- (OI s x). apply (Adj_rel r place rok plc); auto. }
  set (G := fun x => m6v (X s base (ch k)) (v6add (m6v (adw (ax k)) (m6v (m6mul (X s (ch k) base) (X (vset s j x) base l)) (m6v (inertia l) (V (vset s j x) l))))
     (m6v (m6mul (X s (ch k) base) (X (vset s j x) base l)) (m6v (inertia l) (v6opp (m6v (Adj (rel (vset s j x) l (ch k))) (m6v (adx (ax k)) (V s (ch k))))))))).
  apply v6_D_ext with (f := G).
  { intros x. unfold G, DM, T, DV. rewrite E, XKl, OV, (OI s x). reflexivity. }
  pose proof (m6_D_mul _ _ _ _ _ (m6_D_const (X s (ch k) base) (s j)) XD) as XD'.
  pose proof (v6_D_mv _ _ _ _ _ (m6_D_const (X s base (ch k)) (s j)) (v6_D_add _ _ _ _ _
    (v6_D_mv _ _ _ _ _ (m6_D_const (adw (ax k)) (s j)) (v6_D_mv _ _ _ _ _ XD' (v6_D_mv _ _ _ _ _ (m6_D_const (inertia l) (s j)) VD)))
    (v6_D_mv _ _ _ _ _ XD' (v6_D_mv _ _ _ _ _ (m6_D_const (inertia l) (s j))
       (v6_D_opp _ _ _ (v6_D_mv _ _ _ _ _ YD (v6_D_const (m6v (adx (ax k)) (V s (ch k))) (s j)))))))) as Z.
  cbv beta in Z. rewrite !vset_same in Z.
  match type of Z with is_derive_v6 _ _ ?d => replace (F s l j k) with d; [exact Z|] end.
  assert (AW : forall v, m6v (Adj (rel s l (ch j))) (m6v (adx (ax j)) (m6v (Adj (rel s (ch j) l)) v)) = m6v (adx w) v).
  { intros v. rewrite <- (m6v_mul (Adj _) (adx _)), (adx_Adj _ _ (rel_rigid r place rok plc s l (ch j) FL FJ)). fold w. rewrite m6v_mul, YY by auto.
    rewrite (rel_same r place rok plc s l FL), Adj_id, m6v_I. reflexivity. }
  rewrite m6mul_0_l, m6add_0_l. unfold F, T.
  assert (DK : DV s l k = v6opp (m6v (Adj (rel s l (ch k))) (m6v (adx (ax k)) (V s (ch k))))) by (unfold DV; rewrite E; reflexivity).
  rewrite DK. generalize (DV s l j). intros dj. repeat (progress (m6v_open; rewrite ?v6add_0_r, ?v6add_0_l, ?AW, ?XX by auto)).
  repeat match goal with |- context[m6v ?A ?y] => let u := fresh in set (u := m6v A y) end.
  v6ring.
Qed.
Lemma DM_const s l k j x : (l < links)%nat -> (j < dofs)%nat -> onp l j = false -> DM (vset s j x) l k = DM s l k.
Proof.
  intros Hl Hj E. unfold DM. destruct (onp l k) eqn:Ek; [|reflexivity]. destruct (on_facts l k Hl Ek) as (_ & _ & _ & _ & Hk & HK & CK & _).
  assert (EK : onp (ch k) j = false). { destruct (onp (ch k) j) eqn:A; [|reflexivity]. rewrite (on_tr' l k j Hl Ek A) in E. discriminate. }
  pose proof (out_indep _ _ _ _ _ _ _ _ _ _ KIN l j Hl E) as IL. pose proof (out_indep _ _ _ _ _ _ _ _ _ _ KIN (ch k) j HK EK) as IK.
  assert (FK : frame_ok r (ch k)) by auto using link_ok. assert (FB : frame_ok r base) by auto using link_ok. assert (FL : frame_ok r l) by auto using link_ok.
  pose proof (indep_trans r place rok plc j (ch k) base l FB (indep_sym r place rok plc j base (ch k) FB FK IK) IL) as IKL.
  pose proof (indep_sym r place rok plc j (ch k) l FK FL IKL) as ILK.
  assert (VL : V (vset s j x) l = V s l) by (apply (W_indep r place dofs jac rok plc jac_fine base s sd b l j x); auto).
  assert (VK : V (vset s j x) (ch k) = V s (ch k)) by (apply (W_indep r place dofs jac rok plc jac_fine base s sd b (ch k) j x); auto).
  unfold T, DV. rewrite Ek, (IK s x), (IKL s x), (ILK s x), VL, VK. reflexivity.
Qed.
Lemma DM_D s l k j : (l < links)%nat -> (j < dofs)%nat -> is_derive_v6 (fun x => DM (vset s j x) l k) (s j) (DD s l k j).
Proof.
  intros Hl Hj. unfold DD. destruct (onp l k) eqn:E; cbn [andb].
  - destruct (onp l j) eqn:E'; cbn [andb].
    + destruct (onp (ch k) j) eqn:A; [apply DD_above|apply DD_below]; auto.
    + apply v6_D_ext with (f := fun _ => DM s l k); [intros t; symmetry; apply DM_const; auto|apply v6_D_const].
  - apply v6_D_ext with (f := fun _ => v60); [intros t; unfold DM; rewrite E; reflexivity|apply v6_D_const].
Qed.
End State.
End Mib.
