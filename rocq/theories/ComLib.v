(** The second derivatives of the centre of mass, and the terms of the model (ComModel.v). *)
From Coq Require Import Reals List Arith Lia Lra Bool FunctionalExtensionality.
From Coquelicot Require Import Coquelicot.
From Verif Require Import Spec PartialLib SpecRigid SpecBase SpecCom SpecDerivatives Rigid RigidCalc KinTree KinModel KinLib KinMotion KinProofs PropKin MixLib ComModel.
Import ListNotations.
Local Open Scope R_scope.

(** ** A point attached to a moving frame *)
Lemma pt_moves f x s c : moves f x s -> is_derive_v3 (fun t => papply (f t) c) x (mv (rot (f x)) (vadd (vcross (ang s) c) (lin s))).
Proof.
  intros [A D]. unfold papply. pose proof (v3_D_add _ _ _ _ _ (v3_D_mv _ _ _ _ _ A (v3_D_const c x)) D) as Q.
  assert (E : vadd (vadd (mv (mm (rot (f x)) (skew (ang s))) c) (mv (rot (f x)) v30)) (mv (rot (f x)) (lin s)) = mv (rot (f x)) (vadd (vcross (ang s) c) (lin s))).
  { rewrite mv_0, vadd_0_r, mv_mm, mv_add, skew_v. reflexivity. }
  rewrite <- E. exact Q.
Qed.
(** The velocity of the point, seen from the frame C is attached to. *)
Lemma pt_seen C S c : rigid C ->
  mv (rot C) (vadd (vcross (ang (m6v (Adj (pinv C)) S)) c) (lin (m6v (Adj (pinv C)) S))) = vadd (vcross (ang S) (papply C c)) (lin S).
Proof.
  intros RC. pose proof (rot_r _ RC) as RR. destruct C as [R p]. unfold rigid in RC. cbn [rot pos] in *.
  unfold pinv, Adj, m6v. cbn [rot pos bll bla bal baa lin ang]. rewrite mv_m30, vadd_0_l.
  set (w := ang S). set (v := lin S).
  rewrite mv_add. unfold papply. cbn [rot pos]. rewrite !mv_add.
  rewrite <- (skew_v (mv (mtr R) w) c), <- (mv_mm R (skew _)), (skew_rot R _ RC), <- (mv_mm R (mtr R) w), RR, mv_I, mv_mm, skew_v.
  rewrite <- (mv_mm R (mtr R) v), RR, mv_I.
  assert (E : mv R (mv (mm (skew (vopp (mv (mtr R) p))) (mtr R)) w) = vcross w p).
  { rewrite mv_mm, <- (mv_mm R), (skew_rot R _ RC), mv_opp, <- (mv_mm R (mtr R) p), RR, mv_I, mv_mm, <- (mv_mm R (mtr R) w), RR, mv_I.
    rewrite skew_opp, mv_neg, skew_v. unfold vcross, vopp. cbn. f_equal; ring. }
  rewrite E. set (Rc := mv R c). unfold vcross, vadd. cbn. f_equal; ring.
Qed.
(** What the code computes from c and S_k. *)
Definition part6 (C : pose) (S : v6) (c : v3) : v6 :=
  v6add (m6v (m6mul (adx S) (Adj C)) (V6 c v30)) (m6v (Adj C) (V6 (lin (m6v (Adj (pinv C)) S)) v30)).
Lemma Adj_lin C c : m6v (Adj C) (V6 c v30) = V6 (mv (rot C) c) v30.
Proof. unfold m6v, Adj. cbn [bll bla bal baa lin ang]. rewrite !mv_0, mv_m30, !vadd_0_r. reflexivity. Qed.
Lemma adx_lin S c : m6v (adx S) (V6 c v30) = V6 (vcross (ang S) c) v30.
Proof. unfold m6v, adx. cbn [bll bla bal baa lin ang]. rewrite !mv_0, mv_m30, !vadd_0_r, skew_v. reflexivity. Qed.
Lemma part6_eq C S c : rigid C -> part6 C S c = V6 (vadd (vcross (ang S) (papply C c)) (lin S)) v30.
Proof.
  intros RC. unfold part6. rewrite m6v_mul, !Adj_lin, adx_lin. unfold v6add. cbn [lin ang]. rewrite vadd_0_r. f_equal.
  rewrite <- (pt_seen C S c RC). rewrite mv_add. f_equal.
  unfold pinv, Adj, m6v. cbn [rot pos bll bla bal baa lin ang]. rewrite mv_m30, vadd_0_l.
  rewrite <- (skew_v (mv (mtr (rot C)) (ang S)) c), <- (mv_mm (rot C) (skew _)), (skew_rot _ _ RC), <- (mv_mm (rot C) (mtr (rot C))), (rot_r _ RC), mv_I, mv_mm, skew_v. reflexivity.
Qed.
Lemma turn_axis (RbK RKJ : m3) w u : rotation RKJ ->
  mv (mm RbK (skew (mv RKJ w))) u = mv (mm RbK RKJ) (vcross w (mv (mtr RKJ) u)).
Proof.
  intros RO. rewrite <- skew_v, !mv_mm. f_equal. rewrite <- (mv_mm RKJ (skew w)), (skew_rot _ _ RO), mv_mm, <- (mv_mm RKJ (mtr RKJ)), (rot_r _ RO), mv_I. reflexivity.
Qed.

Lemma two_splits {A} (pre pre' L L' : list A) y y' : pre ++ L = pre' ++ L' -> In y' pre -> ~ In y' pre' -> In y pre' -> ~ In y pre -> False.
Proof.
  revert pre'. induction pre as [|a pre IH]; intros pre' E I N I' N'; [contradiction|]. destruct pre' as [|a' pre']; [contradiction|].
  cbn in E. injection E as <- E. destruct I as [->|I]; [apply N; left; reflexivity|]. destruct I' as [->|I']; [apply N'; left; reflexivity|].
  apply (IH pre' E I); auto; intros Z; [apply N|apply N']; right; exact Z.
Qed.

Section Com.
Variable r : robot.
Variable place : vec -> nat -> pose.
Variable dofs : nat.
Variable up : nat -> nat -> option (nat * nat).
Variable depth : nat -> nat -> nat.
Variable base : nat.
Variable jac : vec -> nat -> nat -> nat -> v6.
Variable fvel : env -> nat -> v6.
Variable btw : env -> v6.
Variable quat : m3 -> vec.
Variable b : masses.
Notation rel := (relative r place).
Notation links := (r_links r).
Hypothesis K : kinematics r place dofs up depth base jac fvel btw quat.
Let rok : robot_ok r := k_robot _ _ _ _ _ _ _ _ _ _ K.
Let plc : placement r place := k_place _ _ _ _ _ _ _ _ _ _ K.
Let trav : forall b, (b < r_links r)%nat -> traversal r b (up b) (depth b) := k_trav _ _ _ _ _ _ _ _ _ _ K.
Let one_dof : (length (r_joints r) <= dofs)%nat := k_dofs _ _ _ _ _ _ _ _ _ _ K.
Let Hb : (base < links)%nat := k_base _ _ _ _ _ _ _ _ _ _ K.
Let jac_ok := k_jac _ _ _ _ _ _ _ _ _ _ K.
(** The traversal from the base has no joint above the base, and every degree of freedom is on it. *)
Definition tree : Prop := up base base = None /\ forall j, (j < dofs)%nat -> exists l p, (l < links)%nat /\ up base l = Some (p, j).
Hypothesis TR : tree.
Lemma lf l : (l < links)%nat -> frame_ok r l. Proof. apply link_ok. Qed.

(** ** Paths to the base *)
Fixpoint pathf (n l : nat) : list (nat * nat * nat) :=
  match n with
  | O => []
  | S m => if (l =? base)%nat then [] else match up base l with Some (p, i) => (l, p, i) :: pathf m p | None => [] end
  end.
Definition P (l : nat) := pathf (fuel r) l.
Lemma pathf_path t L : path (up base) base t L -> forall n, (length L < n)%nat -> pathf n t = L.
Proof.
  induction 1 as [|t p i L N U Q IH]; intros n Hn; destruct n as [|n]; cbn [length] in Hn; try lia; cbn [pathf].
  - rewrite Nat.eqb_refl. reflexivity.
  - apply Nat.eqb_neq in N. rewrite N, U, IH by lia. reflexivity.
Qed.
Lemma path_P l : (l < links)%nat -> path (up base) base l (P l).
Proof.
  intros Hl. destruct (up_path r up depth trav base l Hb Hl) as (L & Q). unfold P, fuel. rewrite (pathf_path l L Q); [exact Q|].
  pose proof (up_short r up depth trav base l L Hb Hl Q). lia.
Qed.
Lemma P_length l : (l < links)%nat -> (length (P l) < fuel r)%nat.
Proof. intros Hl. pose proof (up_short r up depth trav base l (P l) Hb Hl (path_P l Hl)). unfold fuel. lia. Qed.
Lemma P_eq t L : (t < links)%nat -> path (up base) base t L -> L = P t.
Proof. intros Ht Q. exact (path_fun _ _ _ _ Q _ (path_P t Ht)). Qed.
(** Joint k is on the way from link l to the base. *)
Definition onp (l k : nat) : bool := existsb (Nat.eqb k) (map snd (P l)).
Lemma onp_in l k : onp l k = true <-> exists c p, In (c, p, k) (P l). Proof. apply existsb_path. Qed.
Lemma onp_out l k : onp l k = false -> forall c p, ~ In (c, p, k) (P l).
Proof. intros E c p I. rewrite (proj2 (onp_in l k)) in E; [discriminate|eauto]. Qed.
Lemma in_step l c p k : (l < links)%nat -> In (c, p, k) (P l) ->
  (c < links)%nat /\ c <> base /\ up base c = Some (p, k) /\ (depth base c <= depth base l)%nat /\
  exists j, nth_error (r_joints r) k = Some j /\ connects j p c /\ (p < links)%nat /\ (depth base p < depth base c)%nat.
Proof. intros Hl I. exact (path_step r base (up base) (depth base) (trav base Hb) Hb l (P l) c p k (path_P l Hl) Hl I). Qed.
Lemma joint_lt k j : nth_error (r_joints r) k = Some j -> (k < dofs)%nat.
Proof. intros E. assert (k < length (r_joints r))%nat by (apply nth_error_Some; congruence). lia. Qed.
(** The link under a joint. *)
Lemma up_unique l l' p p' k : (l < links)%nat -> (l' < links)%nat -> up base l = Some (p, k) -> up base l' = Some (p', k) -> l = l'.
Proof.
  intros Hl Hl' U U'. destruct TR as [T0 _].
  assert (N : l <> base) by (intros ->; congruence). assert (N' : l' <> base) by (intros ->; congruence).
  destruct (trav base Hb l Hl N) as (q & i & j & U1 & E & C & _ & D). rewrite U in U1. injection U1 as <- <-.
  destruct (trav base Hb l' Hl' N') as (q' & i' & j' & U1' & E' & C' & _ & D'). rewrite U' in U1'. injection U1' as <- <-.
  rewrite E in E'. injection E' as <-. destruct C as [[? ?]|[? ?]], C' as [[? ?]|[? ?]]; subst; try congruence; lia.
Qed.
Lemma child_spec l p k : (l < links)%nat -> up base l = Some (p, k) -> child_of r up base k = Some l.
Proof.
  intros Hl U. unfold child_of. destruct (find _ (seq 0 links)) as [l'|] eqn:Fd.
  - apply find_some in Fd. destruct Fd as [I E]. apply in_seq in I. destruct (up base l') as [[p' i]|] eqn:U'; [|discriminate]. apply Nat.eqb_eq in E. subst i.
    f_equal. symmetry. apply (up_unique l l' p p' k); auto. lia.
  - pose proof (find_none _ _ Fd l ltac:(apply in_seq; lia)) as E. cbv beta in E. rewrite U, Nat.eqb_refl in E. discriminate.
Qed.
Lemma child_inv k l : child_of r up base k = Some l -> (l < links)%nat /\ exists p, up base l = Some (p, k).
Proof.
  unfold child_of. intros Fd. apply find_some in Fd. destruct Fd as [I E]. apply in_seq in I. destruct (up base l) as [[p i]|] eqn:U; [|discriminate]. apply Nat.eqb_eq in E. subst i.
  split; [lia|eauto].
Qed.
Lemma child_on k l : child_of r up base k = Some l -> onp l k = true.
Proof.
  intros E. destruct (child_inv k l E) as (Hl & p & U). apply onp_in. exists l, p. pose proof (path_P l Hl) as Q. inversion Q as [Z|t q i L N U' Q' E1 E2]; subst.
  - destruct TR as [T0 _]. congruence.
  - rewrite U in U'. injection U' as <- <-. left. reflexivity.
Qed.
Lemma on_child l k : (l < links)%nat -> onp l k = true -> exists J p, child_of r up base k = Some J /\ In (J, p, k) (P l).
Proof.
  intros Hl E. apply onp_in in E. destruct E as (c & p & I). exists c, p. split; [|exact I]. destruct (in_step l c p k Hl I) as (Hc & _ & U & _). eapply child_spec; eauto.
Qed.
(** The way from l: first the joints under K, then those of K. *)
Lemma P_split l k J : (l < links)%nat -> onp l k = true -> child_of r up base k = Some J ->
  exists pre p post, P l = pre ++ (J, p, k) :: post /\ P J = (J, p, k) :: post /\ (forall c q, ~ In (c, q, k) pre).
Proof.
  intros Hl E CJ. destruct (child_inv k J CJ) as (HJ & _).
  assert (G : forall t L, path (up base) base t L -> (t < links)%nat -> (exists c p, In (c, p, k) L) ->
    exists pre p post, L = pre ++ (J, p, k) :: post /\ path (up base) base J ((J, p, k) :: post) /\ (forall c q, ~ In (c, q, k) pre)).
  { intros t L Q. induction Q as [|t p i L N U Q IH]; intros Ht (c & q & I); [contradiction|].
    assert (HQ : path (up base) base t ((t, p, i) :: L)) by (econstructor; eauto).
    destruct (path_step r base (up base) (depth base) (trav base Hb) Hb t _ t p i HQ Ht ltac:(left; reflexivity)) as (_ & _ & _ & _ & j & _ & _ & Hp & _).
    destruct (Nat.eq_dec i k) as [->|Ni].
    - assert (EJ : child_of r up base k = Some t) by (eapply child_spec; eauto). rewrite CJ in EJ. injection EJ as <-.
      exists [], p, L. split; [reflexivity|]. split; [exact HQ|]. intros ? ? [].
    - destruct IH as (pre & q' & post & E1 & E2 & E3); [exact Hp| |].
      + destruct I as [I|I]; [congruence|eauto].
      + exists ((t, p, i) :: pre), q', post. split; [cbn; congruence|]. split; [exact E2|]. intros c' q'' [Z|Z]; [congruence|eapply E3; eauto]. }
  destruct (G l (P l) (path_P l Hl) Hl (proj1 (onp_in l k) E)) as (pre & p & post & E1 & E2 & E3).
  exists pre, p, post. split; [exact E1|]. split; [symmetry; apply P_eq; auto|exact E3].
Qed.

(** ** Derivatives *)
Definition DX (s : vec) (l k : nat) : v3 :=
  let w := jac s base l k in mv (rot (rel s base l)) (vadd (vcross (ang w) (m_com b l)) (lin w)).
Lemma fbase : frame_ok r base. Proof. apply lf, Hb. Qed.
Lemma DX_partial s l k : (l < links)%nat -> (k < dofs)%nat -> is_derive_v3 (fun x => papply (rel (vset s k x) base l) (m_com b l)) (s k) (DX s l k).
Proof.
  intros Hl Hk. pose proof (pt_moves _ _ _ (m_com b l) (jac_ok s base l k fbase (lf l Hl) Hk)) as Q. cbv beta in Q. rewrite vset_same in Q. exact Q.
Qed.
Lemma jac_on s l k c p : (l < links)%nat -> In (c, p, k) (P l) -> jac s base l k = m6v (Adj (rel s l c)) (motion_axis r k c).
Proof.
  intros Hl I. destruct (in_step l c p k Hl I) as (_ & _ & _ & _ & j & E & _).
  pose proof (jac_path r place dofs up depth jac rok plc trav one_dof jac_ok s base l (P l) k fbase (lf l Hl) (joint_lt k j E)) as J.
  rewrite (fl_link r base Hb), (fl_link r l Hl) in J. apply (proj1 (J (path_P l Hl)) c p I).
Qed.
Lemma jac_out s l k : (l < links)%nat -> (k < dofs)%nat -> onp l k = false -> jac s base l k = v60.
Proof.
  intros Hl Hk E. pose proof (jac_path r place dofs up depth jac rok plc trav one_dof jac_ok s base l (P l) k fbase (lf l Hl) Hk) as J.
  rewrite (fl_link r base Hb), (fl_link r l Hl) in J. apply (proj2 (J (path_P l Hl)) (onp_out l k E)).
Qed.
Notation indep := (indep r place).
Lemma out_indep l k : (l < links)%nat -> onp l k = false -> indep k base l.
Proof.
  intros Hl E s x. rewrite !(rel_links r place rok plc) by auto.
  apply (proj2 (path_links_moves r place rok plc base (up base) (depth base) (trav base Hb) Hb l (P l) (path_P l Hl) Hl s k) (onp_out l k E)).
Qed.
Lemma in_indep l c p k : (l < links)%nat -> In (c, p, k) (P l) -> indep k c l.
Proof.
  intros Hl I. exact (proj1 (path_indep r place dofs up depth jac rok plc trav one_dof jac_ok base l (P l) Hb (path_P l Hl) Hl c p k I)).
Qed.
(** The velocity of the point seen from the link under joint k. *)
Definition U (s : vec) (l k J : nat) : v3 := vadd (vcross (ang (motion_axis r k J)) (papply (rel s J l) (m_com b l))) (lin (motion_axis r k J)).
Lemma DX_on s l k J : (l < links)%nat -> onp l k = true -> child_of r up base k = Some J -> DX s l k = mv (rot (rel s base J)) (U s l k J).
Proof.
  intros Hl E CJ. destruct (on_child l k Hl E) as (J' & p & CJ' & I). rewrite CJ in CJ'. injection CJ' as <-. destruct (child_inv k J CJ) as (HJ & _).
  unfold DX. rewrite (jac_on s l k J p Hl I). cbv zeta. rewrite <- (rel_mul r place rok plc s base J l (lf J HJ)). unfold pmul at 1. cbn [rot]. rewrite mv_mm. f_equal.
  rewrite <- (rel_inv r place rok plc s J l (lf J HJ) (lf l Hl)). apply pt_seen. apply (rel_rigid r place rok plc s J l (lf J HJ) (lf l Hl)).
Qed.
Lemma DX_out s l k : (l < links)%nat -> (k < dofs)%nat -> onp l k = false -> DX s l k = v30.
Proof.
  intros Hl Hk E. unfold DX. rewrite jac_out by auto. cbn [v60 ang lin]. replace (vadd (vcross v30 (m_com b l)) v30) with v30; [apply mv_0|].
  unfold vcross, vadd, v30. cbn. f_equal; ring.
Qed.
(** The second derivative, for a joint j between the base and joint k. *)
Definition T (s : vec) (l k Kc j J : nat) : v3 :=
  mv (rot (rel s base J)) (vcross (ang (motion_axis r j J)) (mv (rot (rel s J Kc)) (U s l k Kc))).
Lemma on_trans l k Kc j : (l < links)%nat -> onp l k = true -> child_of r up base k = Some Kc -> onp Kc j = true -> onp l j = true.
Proof.
  intros Hl E C E'. destruct (P_split l k Kc Hl E C) as (pre & p & post & A & B' & _). apply onp_in in E'. destruct E' as (c & q & I). apply onp_in. exists c, q.
  rewrite A. apply in_or_app. right. rewrite <- B'. exact I.
Qed.
Lemma U_indep s l k Kc j J x : (l < links)%nat -> onp l k = true -> child_of r up base k = Some Kc -> onp Kc j = true -> child_of r up base j = Some J ->
  U (vset s j x) l k Kc = U s l k Kc.
Proof.
  intros Hl E C E' CJ. destruct (child_inv k Kc C) as (HK & _). destruct (child_inv j J CJ) as (HJ & _). unfold U. f_equal. f_equal. f_equal.
  destruct (on_child Kc j HK E') as (J1 & p1 & C1 & I1). rewrite CJ in C1. injection C1 as <-.
  destruct (on_child l j Hl (on_trans l k Kc j Hl E C E')) as (J2 & p2 & C2 & I2). rewrite CJ in C2. injection C2 as <-.
  apply (indep_trans r place rok plc j Kc J l (lf J HJ)).
  - apply (indep_sym r place rok plc); [apply lf; auto|apply lf; auto|]. exact (in_indep Kc J p1 j HK I1).
  - exact (in_indep l J p2 j Hl I2).
Qed.
Lemma DX_above s l k Kc j J : (l < links)%nat -> onp l k = true -> child_of r up base k = Some Kc -> onp Kc j = true -> child_of r up base j = Some J ->
  is_derive_v3 (fun x => DX (vset s j x) l k) (s j) (T s l k Kc j J).
Proof.
  intros Hl E C E' CJ. destruct (child_inv k Kc C) as (HK & _). destruct (child_inv j J CJ) as (HJ & _).
  destruct (on_child Kc j HK E') as (J1 & p1 & C1 & I1). rewrite CJ in C1. injection C1 as <-.
  destruct (in_step Kc J p1 j HK I1) as (_ & _ & _ & _ & jj & EJ & _). pose proof (joint_lt j jj EJ) as Hj.
  apply v3_D_ext with (f := fun x => mv (rot (rel (vset s j x) base Kc)) (U s l k Kc)).
  { intros t. rewrite (DX_on _ l k Kc Hl E C), (U_indep s l k Kc j J t Hl E C E' CJ). reflexivity. }
  destruct (jac_ok s base Kc j fbase (lf Kc HK) Hj) as [A _]. cbv beta in A. rewrite vset_same in A.
  pose proof (v3_D_mv _ _ _ _ _ A (v3_D_const (U s l k Kc) (s j))) as Q. cbv beta in Q. rewrite vset_same, mv_0, vadd_0_r in Q.
  replace (T s l k Kc j J) with (mv (mm (rot (rel s base Kc)) (skew (ang (jac s base Kc j)))) (U s l k Kc)); [exact Q|].
  rewrite (jac_on s Kc j J p1 HK I1). unfold m6v, Adj. cbn [ang bll bla bal baa]. rewrite mv_m30, vadd_0_l.
  rewrite turn_axis by (apply (rel_rigid r place rok plc s Kc J (lf Kc HK) (lf J HJ))). unfold T.
  rewrite <- (rel_mul r place rok plc s base Kc J (lf Kc HK)). unfold pmul at 1. cbn [rot]. f_equal. f_equal. f_equal.
  rewrite <- (rel_inv r place rok plc s Kc J (lf Kc HK) (lf J HJ)). reflexivity.
Qed.
Lemma DX_const s l k j x : (l < links)%nat -> (k < dofs)%nat -> (j < dofs)%nat -> onp l j = false -> DX (vset s j x) l k = DX s l k.
Proof.
  intros Hl Hk Hj E. pose proof (out_indep l j Hl E) as I. unfold DX.
  rewrite (jac_indep r place dofs jac rok plc jac_ok s j base l k x fbase (lf l Hl) Hj Hk I), (I s x). reflexivity.
Qed.
(** Mixed derivatives. *)
Lemma DX_swap s l k j d : (l < links)%nat -> (k < dofs)%nat -> (j < dofs)%nat ->
  is_derive_v3 (fun x => DX (vset s k x) l j) (s k) d -> is_derive_v3 (fun x => DX (vset s j x) l k) (s j) d.
Proof.
  intros Hl Hk Hj D. destruct (Nat.eq_dec k j) as [->|N]; [exact D|].
  pose proof (rel_mix (fun _ _ => True) r place up depth rok plc trav s k j base l N fbase (lf l Hl)) as [XR XP].
  assert (Y : forall i, mix (fun _ _ => True) (fun x y => vent (papply (rel (vset (vset s k x) j y) base l) (m_com b l)) i)).
  { intros i. apply (vmix_ent (fun _ _ => True) (fun x y => papply (rel (vset (vset s k x) j y) base l) (m_com b l))). unfold papply. apply vmix_add; [|exact XP]. apply vmix_mv; [exact XR|apply vmix_const]. }
  assert (G : forall i, is_derive (fun x => vent (DX (vset s j x) l k) i) (s j) (vent d i)).
  { intros i. destruct (Y i) as (D1 & D2 & M & H).
    assert (E1 : forall x y, D1 x y = vent (DX (vset (vset s k x) j y) l k) i).
    { intros x y. destruct (H x y Logic.I) as (A & _). apply (D_unique _ _ _ _ A).
      pose proof (vent_D _ _ _ (DX_partial (vset (vset s k x) j y) l k Hl Hk) i) as Q. cbv beta in Q. rewrite vset_other, vset_at in Q by auto.
      eapply is_derive_ext; [|exact Q]. intros z. cbv beta. rewrite (vset_comm _ j k), vset_vset by auto. reflexivity. }
    assert (E2 : forall x y, D2 x y = vent (DX (vset (vset s k x) j y) l j) i).
    { intros x y. destruct (H x y Logic.I) as (_ & A & _). apply (D_unique _ _ _ _ A).
      pose proof (vent_D _ _ _ (DX_partial (vset (vset s k x) j y) l j Hl Hj) i) as Q. cbv beta in Q. rewrite vset_at in Q.
      eapply is_derive_ext; [|exact Q]. intros z. cbv beta. rewrite vset_vset. reflexivity. }
    destruct (H (s k) (s j) Logic.I) as (_ & _ & A & B').
    assert (EM : M (s k) (s j) = vent d i).
    { apply (D_unique _ _ _ _ B'). eapply is_derive_ext; [|exact (vent_D _ _ _ D i)]. intros t. cbv beta. rewrite E2. f_equal. f_equal.
      rewrite <- (vset_other s k j t) by auto. symmetry. apply vset_same. }
    rewrite <- EM. eapply is_derive_ext; [|exact A]. intros t. cbv beta. rewrite E1. rewrite vset_same. reflexivity. }
  split; [exact (G 0%nat)|]. split; [exact (G 1%nat)|exact (G 2%nat)].
Qed.
(** The second derivative of the centre of mass of link l. *)
Definition ch (k : nat) : nat := match child_of r up base k with Some J => J | None => 0%nat end.
Definition H2 (s : vec) (l k j : nat) : v3 :=
  if onp l k && onp l j then (if onp (ch k) j then T s l k (ch k) j (ch j) else T s l j (ch j) k (ch k)) else v30.
Lemma on_lt l k : (l < links)%nat -> onp l k = true -> (k < dofs)%nat.
Proof. intros Hl E. apply onp_in in E. destruct E as (c & p & I). destruct (in_step l c p k Hl I) as (_ & _ & _ & _ & j & EJ & _). apply (joint_lt k j EJ). Qed.
Lemma on_ch l k : (l < links)%nat -> onp l k = true -> child_of r up base k = Some (ch k).
Proof. intros Hl E. destruct (on_child l k Hl E) as (J & p & C & _). unfold ch. rewrite C. reflexivity. Qed.
Lemma on_total l k j : (l < links)%nat -> onp l k = true -> onp l j = true -> onp (ch k) j = true \/ onp (ch j) k = true.
Proof.
  intros Hl E E'. pose proof (on_ch l k Hl E) as C. pose proof (on_ch l j Hl E') as C'.
  destruct (P_split l k (ch k) Hl E C) as (pre & p & post & A & B' & X). destruct (P_split l j (ch j) Hl E' C') as (pre' & p' & post' & A' & B'' & X').
  destruct (on_child l j Hl E') as (J & q & CJ & I). rewrite C' in CJ. injection CJ as <-. rewrite A in I. apply in_app_or in I. destruct I as [I|I].
  - right. assert (Ik : In (ch k, p, k) (P l)) by (rewrite A; apply in_or_app; right; left; reflexivity). rewrite A' in Ik. apply in_app_or in Ik. destruct Ik as [Ik|Ik].
    + exfalso. rewrite A in A'. exact (two_splits pre pre' _ _ _ _ A' I (X' _ _) Ik (X _ _)).
    + apply onp_in. exists (ch k), p. rewrite B''. exact Ik.
  - left. apply onp_in. exists (ch j), q. rewrite B'. exact I.
Qed.
Lemma on_anti l k j : (l < links)%nat -> onp l k = true -> onp l j = true -> onp (ch k) j = true -> onp (ch j) k = true -> k = j.
Proof.
  intros Hl E E' A B'. pose proof (on_ch l k Hl E) as C. pose proof (on_ch l j Hl E') as C'.
  destruct (child_inv k _ C) as (Hk & q & Uk). destruct (child_inv j _ C') as (Hj & q' & Uj).
  destruct (on_child (ch k) j Hk A) as (J & p & CJ & I). rewrite C' in CJ. injection CJ as <-. destruct (in_step _ _ _ _ Hk I) as (_ & _ & _ & D1 & _).
  destruct (on_child (ch j) k Hj B') as (J & p' & CJ & I'). rewrite C in CJ. injection CJ as <-. destruct (in_step _ _ _ _ Hj I') as (_ & _ & _ & D2 & _).
  destruct (P_split (ch k) j (ch j) Hk A C') as (pre & p2 & post & Q1 & Q2 & _).
  destruct (P_split (ch k) k (ch k) Hk (child_on k _ C) C) as (_ & p0 & post0 & _ & Q0 & _).
  pose proof (path_P (ch k) Hk) as PK. rewrite Q0 in PK. inversion PK as [|t q2 i L N U2 Q' E1 [E2 E3]]; subst.
  destruct pre as [|y pre].
  - rewrite Q0 in Q1. cbn in Q1. injection Q1 as _ _ Z _. exact Z.
  - exfalso. rewrite Q0 in Q1. cbn in Q1. injection Q1 as <- Q1.
    destruct (in_step (ch k) (ch k) p0 k Hk) as (_ & _ & _ & _ & jj & _ & _ & Hq & Dq); [rewrite Q0; left; reflexivity|].
    destruct (path_step r base (up base) (depth base) (trav base Hb) Hb p0 post0 (ch j) p2 j Q' Hq) as (_ & _ & _ & D3 & _); [rewrite Q1; apply in_or_app; right; left; reflexivity|]. lia.
Qed.
Lemma H2_sym s l k j : (l < links)%nat -> H2 s l k j = H2 s l j k.
Proof.
  intros Hl. unfold H2. rewrite (andb_comm (onp l j)). destruct (onp l k && onp l j) eqn:E; [|reflexivity]. apply andb_true_iff in E. destruct E as [E E'].
  destruct (onp (ch k) j) eqn:A, (onp (ch j) k) eqn:B'; try reflexivity.
  - rewrite (on_anti l k j Hl E E' A B'). reflexivity.
  - destruct (on_total l k j Hl E E'); congruence.
Qed.
Lemma DX_second s l k j : (l < links)%nat -> (k < dofs)%nat -> (j < dofs)%nat -> is_derive_v3 (fun x => DX (vset s j x) l k) (s j) (H2 s l k j).
Proof.
  intros Hl Hk Hj. unfold H2. destruct (onp l k) eqn:E; cbn [andb].
  - destruct (onp l j) eqn:E'; cbn [andb].
    + destruct (onp (ch k) j) eqn:A.
      * apply DX_above; auto; [apply (on_ch l)|apply (on_ch l)]; auto.
      * apply DX_swap; auto. destruct (on_total l k j Hl E E') as [Z|Z]; [congruence|]. apply DX_above; auto; [apply (on_ch l)|apply (on_ch l)]; auto.
    + apply v3_D_ext with (f := fun _ => DX s l k); [intros t; symmetry; apply DX_const; auto|apply v3_D_const].
  - apply v3_D_ext with (f := fun _ => v30); [intros t; symmetry; apply DX_out; auto|apply v3_D_const].
Qed.
End Com.
