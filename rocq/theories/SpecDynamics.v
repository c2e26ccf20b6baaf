(** Independent vocabulary for C19: the continuous-time dynamics of the planner.
    Nothing here refers to the model of the code. *)
From Coq Require Import Reals List Arith Bool.
From Verif Require Import Spec SpecQuaternion.
Import ListNotations.
Local Open Scope R_scope.

(** Where the variables of one contact point are: force and position in the state
    vector, force derivative and velocity in the control vector (3 entries each). *)
Record contact_point := { cp_f : nat; cp_p : nat; cp_fc : nat; cp_vc : nat }.
(** Where everything is.  Any number of points per foot, any number of joints. *)
Record dyn_layout := {
  dl_nx : nat; dl_nu : nat;                            (* sizes of state and control *)
  dl_left : list contact_point; dl_right : list contact_point;
  dl_mom : nat; dl_com : nat; dl_base : nat; dl_quat : nat; dl_jnt : nat;   (* state *)
  dl_lin : nat; dl_qd : nat; dl_jv : nat;              (* control *)
  dl_dof : nat }.
Definition dl_points (L : dyn_layout) := dl_left L ++ dl_right L.

(** The (offset, size) blocks of the state and of the control. *)
Definition state_blocks (L : dyn_layout) : list (nat * nat) :=
  [(dl_mom L, 6%nat); (dl_com L, 3%nat); (dl_base L, 3%nat); (dl_quat L, 4%nat); (dl_jnt L, dl_dof L)] ++
  flat_map (fun p => [(cp_f p, 3%nat); (cp_p p, 3%nat)]) (dl_points L).
Definition control_blocks (L : dyn_layout) : list (nat * nat) :=
  [(dl_lin L, 3%nat); (dl_qd L, 4%nat); (dl_jv L, dl_dof L)] ++
  flat_map (fun p => [(cp_fc p, 3%nat); (cp_vc p, 3%nat)]) (dl_points L).
Definition blocks_apart (b b' : nat * nat) : Prop :=
  (fst b + snd b <= fst b' \/ fst b' + snd b' <= fst b)%nat.
(** The blocks partition [0, n). *)
Definition partition (n : nat) (l : list (nat * nat)) : Prop :=
  ForallOrdPairs blocks_apart l /\
  (forall i, (i < n)%nat <-> exists b, In b l /\ (fst b <= i < fst b + snd b)%nat).
Definition layout_ok (L : dyn_layout) : Prop :=
  partition (dl_nx L) (state_blocks L) /\ partition (dl_nu L) (control_blocks L).

Definition seg (x : vec) (o : nat) : vec := fun a => x (o + a)%nat.
Definition gravity (a : nat) : R := match a with 2%nat => - (981 / 100) | _ => 0 end.
Definition vsub (a b : vec) : vec := fun i => a i - b i.
Definition quat_nonzero (L : dyn_layout) (x : vec) : Prop := exists i, (i < 4)%nat /\ x (dl_quat L + i)%nat <> 0.

(** [r] is the time derivative of the state [x] under control [u].
    [dxy], [dz]: the activations (functions of the height of the point). *)
Record dynamics_law (L : dyn_layout) (mass diss : R) (dxy dz : R -> R) (x u r : vec) : Prop := {
  law_force_planar : forall p a, In p (dl_points L) -> (a < 2)%nat -> r (cp_f p + a)%nat = u (cp_fc p + a)%nat;
  law_force_normal : forall p, In p (dl_points L) ->
    r (cp_f p + 2)%nat = dz (x (cp_p p + 2)%nat) * u (cp_fc p + 2)%nat
                         + diss * (dz (x (cp_p p + 2)%nat) - 1) * x (cp_f p + 2)%nat;
  law_point_planar : forall p a, In p (dl_points L) -> (a < 2)%nat ->
    r (cp_p p + a)%nat = dxy (x (cp_p p + 2)%nat) * u (cp_vc p + a)%nat;
  law_point_normal : forall p, In p (dl_points L) -> r (cp_p p + 2)%nat = u (cp_vc p + 2)%nat;
  law_linear_momentum : forall a, (a < 3)%nat ->
    r (dl_mom L + a)%nat = mass * gravity a + lsum (fun p => x (cp_f p + a)%nat) (dl_points L);
  law_angular_momentum : forall a, (a < 3)%nat ->
    r (dl_mom L + 3 + a)%nat =
      lsum (fun p => cross (vsub (seg x (cp_p p)) (seg x (dl_com L))) (seg x (cp_f p)) a) (dl_points L);
  law_com : forall a, (a < 3)%nat -> r (dl_com L + a)%nat = x (dl_mom L + a)%nat / mass;
  law_base : forall a, (a < 3)%nat ->
    r (dl_base L + a)%nat = qrot (qunit (seg x (dl_quat L))) (seg u (dl_lin L)) a;
  law_quaternion : forall a, (a < 4)%nat -> r (dl_quat L + a)%nat = u (dl_qd L + a)%nat;
  law_joints : forall a, (a < dl_dof L)%nat -> r (dl_jnt L + a)%nat = u (dl_jv L + a)%nat
}.

(** Second derivatives of a function that is differentiable on a set [D] only (the
    states with a non-zero quaternion; it is open along every coordinate). *)
Definition is_hessian_on (D : vec -> Prop) (f : vec -> R) (x : vec) (H : mat) : Prop :=
  exists g : vec -> vec,
    (forall y, D y -> is_gradient f y (g y)) /\ (forall j k, partial (fun y => g y j) x k (H j k)).
Definition is_mixed_hessian_on (D : vec -> Prop) (f : vec -> vec -> R) (x u : vec) (H : mat) : Prop :=
  exists g : vec -> vec -> vec,
    (forall y w, D y -> is_gradient (fun z => f z w) y (g y w)) /\
    (forall j k, partial (fun w => g x w j) u k (H j k)).

(** What is required of the symbolic derivatives handed over by the expression
    library: [cols q i] is the Jacobian (3x4) with respect to the quaternion of
    column [i] of the rotation matrix of q/|q|; [hess q v i] is the Jacobian of column [i] of
    the Jacobian of R(q/|q|) v. *)
Definition quat_ok (q : vec) : Prop := exists i, (i < 4)%nat /\ q i <> 0.
Definition rotation_columns_ok (cols : vec -> nat -> mat) : Prop :=
  forall q i, quat_ok q -> (i < 3)%nat ->
    is_jacobian_mn 3 4 (fun p => qrot (qunit p) (delta i)) q (cols q i).
Definition rotation_hessian_ok (hess : vec -> vec -> nat -> mat) : Prop :=
  forall v, exists G : vec -> mat,
    (forall q, quat_ok q -> is_jacobian_mn 3 4 (fun p => qrot (qunit p) v) q (G q)) /\
    (forall q i, quat_ok q -> (i < 4)%nat -> is_jacobian_mn 3 4 (fun p a => G p a i) q (hess q v i)).
