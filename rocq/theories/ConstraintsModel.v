(** Model of the contact constraints of the planner (src/private/*Constraint*.cpp).

    Conventions.
    - A class is a pair (immutable configuration, workspace).  The workspace holds
      the mutable members of the Implementation structs: the last state/control
      copied in, the per-point vectors extracted from it, and the Jacobian
      buffers.  Methods update exactly the members the C++ updates.
    - [offset + 2] etc. index the optimisation vector, ranges are given by their
      offset (they come from the VariablesLabeller, see Labeller.v / Layout.v).
    - the [constraintValues] buffers are rewritten completely by every evaluation
      before being copied out, so they are not kept in the workspace.
    - asserts, the unchecked dimension of the input vectors and the [return true]
      of every method are not represented. *)
From Coq Require Import Reals List Arith.
From Verif Require Import Spec Smoothing.
Import ListNotations.
Local Open Scope R_scope.

(** Mutable members shared by the Implementation structs
    (e.g. DynamicalComplementarityConstraint.cpp:16-32). *)
Record ws := {
  w_x : vec;    (* stateVariables *)
  w_u : vec;    (* controlVariables *)
  w_pos : vec;  (* pointPosition *)
  w_frc : vec;  (* pointForce / baseQuaternion *)
  w_vel : vec;  (* pointVelocityControl / pointVelocity *)
  w_fct : vec;  (* pointForceControl *)
  w_sj : mat;   (* stateJacobianBuffer *)
  w_cj : mat    (* controlJacobianBuffer *)
}.

(** Buffers are resized and zeroed by the constructors
    (e.g. ContactForceControlConstraints.cpp:61-65); the copied variables start at
    whatever the labellers hold, taken as arguments. *)
Definition ws_init (x u : vec) : ws :=
  {| w_x := x; w_u := u; w_pos := vzero; w_frc := vzero; w_vel := vzero; w_fct := vzero;
     w_sj := mzero; w_cj := mzero |}.

Definition set_x (w : ws) (v : vec) := {| w_x := v; w_u := w_u w; w_pos := w_pos w; w_frc := w_frc w; w_vel := w_vel w; w_fct := w_fct w; w_sj := w_sj w; w_cj := w_cj w |}.
Definition set_u (w : ws) (v : vec) := {| w_x := w_x w; w_u := v; w_pos := w_pos w; w_frc := w_frc w; w_vel := w_vel w; w_fct := w_fct w; w_sj := w_sj w; w_cj := w_cj w |}.
Definition set_pos (w : ws) (v : vec) := {| w_x := w_x w; w_u := w_u w; w_pos := v; w_frc := w_frc w; w_vel := w_vel w; w_fct := w_fct w; w_sj := w_sj w; w_cj := w_cj w |}.
Definition set_frc (w : ws) (v : vec) := {| w_x := w_x w; w_u := w_u w; w_pos := w_pos w; w_frc := v; w_vel := w_vel w; w_fct := w_fct w; w_sj := w_sj w; w_cj := w_cj w |}.
Definition set_vel (w : ws) (v : vec) := {| w_x := w_x w; w_u := w_u w; w_pos := w_pos w; w_frc := w_frc w; w_vel := v; w_fct := w_fct w; w_sj := w_sj w; w_cj := w_cj w |}.
Definition set_fct (w : ws) (v : vec) := {| w_x := w_x w; w_u := w_u w; w_pos := w_pos w; w_frc := w_frc w; w_vel := w_vel w; w_fct := v; w_sj := w_sj w; w_cj := w_cj w |}.
Definition set_sj (w : ws) (M : mat) := {| w_x := w_x w; w_u := w_u w; w_pos := w_pos w; w_frc := w_frc w; w_vel := w_vel w; w_fct := w_fct w; w_sj := M; w_cj := w_cj w |}.
Definition set_cj (w : ws) (M : mat) := {| w_x := w_x w; w_u := w_u w; w_pos := w_pos w; w_frc := w_frc w; w_vel := w_vel w; w_fct := w_fct w; w_sj := w_sj w; w_cj := M |}.

(** [variables(range)]: VariablesLabeller::operator()(IndexRange), the segment of
    the vector starting at [offset] (VariablesLabeller.cpp:80-90). *)
Definition seg (v : vec) (offset : nat) : vec := fun j => v (offset + j)%nat.

(** SparsityStructure::add / addDenseBlock / addIdentityBlock (iDynTree), as the
    set of declared (row, column) pairs. *)
Definition dense_block (r c nr nc : nat) : list (nat * nat) :=
  flat_map (fun i => map (fun j => (r + i, c + j)%nat) (seq 0 nc)) (seq 0 nr).
Definition identity_block (r c n : nat) : list (nat * nat) :=
  map (fun i => (r + i, c + i)%nat) (seq 0 n).

(** A method with an empty body: [return true]. *)
Definition noop_hess {S} : S -> R -> vec -> vec -> vec -> mat -> S * mat :=
  fun s _ _ _ _ H => (s, H).

(** * ContactForceControlConstraints *)

(** ContactForceControlConstraints.cpp:14-32 (configuration part) *)
Record cfc_cfg := {
  cfc_act : smoothing; cfc_max : R; cfc_diss : R;
  cfc_pos : nat; cfc_force : nat; cfc_ctrl : nat (* offsets of the three ranges *)
}.
Definition cfc := (cfc_cfg * ws)%type.

Definition cfc_pz (c : cfc_cfg) := (cfc_pos c + 2)%nat.
Definition cfc_fz (c : cfc_cfg) := (cfc_force c + 2)%nat.
Definition cfc_uz (c : cfc_cfg) := (cfc_ctrl c + 2)%nat.

(** evaluateConstraint, ContactForceControlConstraints.cpp:97-114 *)
Definition cfc_eval (s : cfc) (t : R) (x u : vec) : cfc * vec :=
  let '(c, w) := s in
  let w := set_u (set_x w x) u in
  let w := set_pos w (seg (w_x w) (cfc_pos c)) in
  let w := set_frc w (seg (w_x w) (cfc_force c)) in
  let w := set_fct w (seg (w_u w) (cfc_ctrl c)) in
  let delta := hs_eval (cfc_act c) (w_pos w 2%nat) in
  let fz := w_frc w 2%nat in
  let uz := w_fct w 2%nat in
  ((c, w), vset vzero 0 (uz - delta * cfc_max c + (1 - delta) * cfc_diss c * fz)).

(** constraintJacobianWRTState, ContactForceControlConstraints.cpp:116-138 *)
Definition cfc_sjac (s : cfc) (t : R) (x u : vec) (J : mat) : cfc * mat :=
  let '(c, w) := s in
  let w := set_u (set_x w x) u in
  let w := set_pos w (seg (w_x w) (cfc_pos c)) in
  let w := set_frc w (seg (w_x w) (cfc_force c)) in
  let w := set_fct w (seg (w_u w) (cfc_ctrl c)) in
  let delta := hs_eval (cfc_act c) (w_pos w 2%nat) in
  let ddelta := hs_deriv (cfc_act c) (w_pos w 2%nat) in
  let fz := w_frc w 2%nat in
  let w := set_sj w (mset (w_sj w) 0 (cfc_pz c) (- ddelta * cfc_max c - ddelta * cfc_diss c * fz)) in
  let w := set_sj w (mset (w_sj w) 0 (cfc_fz c) ((1 - delta) * cfc_diss c)) in
  ((c, w), w_sj w).

(** constraintJacobianWRTControl, ContactForceControlConstraints.cpp:140-149 *)
Definition cfc_cjac (s : cfc) (t : R) (x u : vec) (J : mat) : cfc * mat :=
  let '(c, w) := s in
  let w := set_u (set_x w x) u in
  let w := set_cj w (mset (w_cj w) 0 (cfc_uz c) 1) in
  ((c, w), w_cj w).

(** constraintSecondPartialDerivativeWRTState, ContactForceControlConstraints.cpp:173-197 *)
Definition cfc_shess (s : cfc) (t : R) (x u l : vec) (H : mat) : cfc * mat :=
  let '(c, w) := s in
  let w := set_x w x in
  let w := set_pos w (seg (w_x w) (cfc_pos c)) in
  let w := set_frc w (seg (w_x w) (cfc_force c)) in
  let fz := w_frc w 2%nat in
  let ddelta := hs_deriv (cfc_act c) (w_pos w 2%nat) in
  let dddelta := hs_dderiv (cfc_act c) (w_pos w 2%nat) in
  let H := mset H (cfc_pz c) (cfc_pz c)
                (- l 0%nat * (dddelta * cfc_max c + dddelta * cfc_diss c * fz)) in
  let H := mset H (cfc_pz c) (cfc_fz c) (- l 0%nat * ddelta * cfc_diss c) in
  let H := mset H (cfc_fz c) (cfc_pz c) (H (cfc_pz c) (cfc_fz c)) in
  ((c, w), H).

(** Control and mixed Hessians are no-ops, ContactForceControlConstraints.cpp:199-213 *)
Definition cfc_class : constraint_class cfc :=
  {| c_eval := cfc_eval; c_sjac := cfc_sjac; c_cjac := cfc_cjac;
     c_shess := cfc_shess; c_chess := noop_hess; c_mhess := noop_hess |}.

(** Sparsity, ContactForceControlConstraints.cpp:73-90 *)
Definition cfc_patterns (s : cfc) : patterns :=
  let c := fst s in
  {| p_sjac := [(0%nat, cfc_pz c); (0%nat, cfc_fz c)];
     p_cjac := [(0%nat, cfc_uz c)];
     p_shess := [(cfc_pz c, cfc_pz c); (cfc_pz c, cfc_fz c); (cfc_fz c, cfc_pz c)];
     p_chess := []; p_mhess := [] |}.

(** Constructor, ContactForceControlConstraints.cpp:37-92 *)
Definition cfc_ctor (c : cfc_cfg) (x u : vec) : cfc := (c, ws_init x u).

(** Bounds, ContactForceControlConstraints.cpp:69-71: only an upper bound, 0. *)
Definition cfc_lower (s : cfc) : option vec := None.
Definition cfc_upper (s : cfc) : option vec := Some vzero.

(** * ContactFrictionConstraint *)

(** ContactFrictionConstraint.cpp:13-27 *)
Record fr_cfg := { fr_mu : R; fr_force : nat }.
Definition fr := (fr_cfg * ws)%type.

(** Constructor, ContactFrictionConstraint.cpp:31-61: default coefficient 0.3 *)
Definition fr_ctor (force : nat) (x u : vec) : fr := ({| fr_mu := 3 / 10; fr_force := force |}, ws_init x u).

(** setFrictionCoefficient, ContactFrictionConstraint.cpp:66-73 *)
Definition fr_setFrictionCoefficient (s : fr) (mu : R) : fr * bool :=
  if Rle_dec mu 0 then (s, false)
  else (({| fr_mu := mu; fr_force := fr_force (fst s) |}, snd s), true).

(** evaluateConstraint, ContactFrictionConstraint.cpp:75-86.  [constraint] is
    written in place (row 0 only); the rest of the vector is not observed. *)
Definition fr_eval (s : fr) (t : R) (x u : vec) : fr * vec :=
  let '(c, w) := s in
  let w := set_x w x in
  let w := set_frc w (seg (w_x w) (fr_force c)) in
  let f := w_frc w in
  ((c, w), vset vzero 0 (f 0%nat * f 0%nat + f 1%nat * f 1%nat - fr_mu c * fr_mu c * f 2%nat * f 2%nat)).

(** constraintJacobianWRTState, ContactFrictionConstraint.cpp:88-101 *)
Definition fr_sjac (s : fr) (t : R) (x u : vec) (J : mat) : fr * mat :=
  let '(c, w) := s in
  let w := set_x w x in
  let w := set_frc w (seg (w_x w) (fr_force c)) in
  let f := w_frc w in
  let col := fr_force c in
  let J := mset J 0 col (2 * f 0%nat) in
  let J := mset J 0 (col + 1) (2 * f 1%nat) in
  let J := mset J 0 (col + 2) (-2 * fr_mu c * fr_mu c * f 2%nat) in
  ((c, w), J).

(** constraintJacobianWRTControl, ContactFrictionConstraint.cpp:103-108 *)
Definition fr_cjac (s : fr) (t : R) (x u : vec) (J : mat) : fr * mat := (s, J).

(** constraintSecondPartialDerivativeWRTState, ContactFrictionConstraint.cpp:132-143 *)
Definition fr_shess (s : fr) (t : R) (x u l : vec) (H : mat) : fr * mat :=
  let '(c, w) := s in
  let col := fr_force c in
  let H := mset H col col (2 * l 0%nat) in
  let H := mset H (col + 1) (col + 1) (2 * l 0%nat) in
  let H := mset H (col + 2) (col + 2) (-2 * fr_mu c * fr_mu c * l 0%nat) in
  ((c, w), H).

(** ContactFrictionConstraint.cpp:145-159 are no-ops. *)
Definition fr_class : constraint_class fr :=
  {| c_eval := fr_eval; c_sjac := fr_sjac; c_cjac := fr_cjac;
     c_shess := fr_shess; c_chess := noop_hess; c_mhess := noop_hess |}.

(** Sparsity, ContactFrictionConstraint.cpp:51-60 *)
Definition fr_patterns (s : fr) : patterns :=
  let c := fst s in
  {| p_sjac := dense_block 0 (fr_force c) 1 3; p_cjac := [];
     p_shess := identity_block (fr_force c) (fr_force c) 3; p_chess := []; p_mhess := [] |}.

(** The setter as "other operation" of the class. *)
Definition fr_other (s s' : fr) : Prop := exists mu, s' = fst (fr_setFrictionCoefficient s mu).

(** Bounds, ContactFrictionConstraint.cpp:47-49 *)
Definition fr_upper (s : fr) : option vec := Some vzero.

(** * NormalVelocityControlConstraints *)

(** NormalVelocityControlConstraints.cpp:15-33 *)
Record nv_cfg := { nv_act : smoothing; nv_max : R; nv_pos : nat; nv_vel : nat }.
Definition nv := (nv_cfg * ws)%type.
Definition nv_pz (c : nv_cfg) := (nv_pos c + 2)%nat.
Definition nv_vz (c : nv_cfg) := (nv_vel c + 2)%nat.

(** evaluateConstraint, NormalVelocityControlConstraints.cpp:83-101 *)
Definition nv_eval (s : nv) (t : R) (x u : vec) : nv * vec :=
  let '(c, w) := s in
  let w := set_u (set_x w x) u in
  let w := set_pos w (seg (w_x w) (nv_pos c)) in
  let w := set_vel w (seg (w_u w) (nv_vel c)) in
  let deltaZ := ht_eval (nv_act c) (w_pos w 2%nat) in
  let r := vset vzero 0 (nv_max c - w_vel w 2%nat) in
  let r := vset r 1 (w_vel w 2%nat + deltaZ * nv_max c) in
  ((c, w), r).

(** constraintJacobianWRTState, NormalVelocityControlConstraints.cpp:103-120 *)
Definition nv_sjac (s : nv) (t : R) (x u : vec) (J : mat) : nv * mat :=
  let '(c, w) := s in
  let w := set_u (set_x w x) u in
  let w := set_pos w (seg (w_x w) (nv_pos c)) in
  let w := set_vel w (seg (w_u w) (nv_vel c)) in
  let d := ht_deriv (nv_act c) (w_pos w 2%nat) in
  let w := set_sj w (mset (w_sj w) 1 (nv_pz c) (d * nv_max c)) in
  ((c, w), w_sj w).

(** constraintJacobianWRTControl, NormalVelocityControlConstraints.cpp:122-135 *)
Definition nv_cjac (s : nv) (t : R) (x u : vec) (J : mat) : nv * mat :=
  let '(c, w) := s in
  let w := set_u (set_x w x) u in
  let w := set_cj w (mset (w_cj w) 0 (nv_vz c) (-1)) in
  let w := set_cj w (mset (w_cj w) 1 (nv_vz c) 1) in
  ((c, w), w_cj w).

(** constraintSecondPartialDerivativeWRTState, NormalVelocityControlConstraints.cpp:159-173 *)
Definition nv_shess (s : nv) (t : R) (x u l : vec) (H : mat) : nv * mat :=
  let '(c, w) := s in
  let w := set_x w x in
  let w := set_pos w (seg (w_x w) (nv_pos c)) in
  let dd := ht_dderiv (nv_act c) (w_pos w 2%nat) in
  ((c, w), mset H (nv_pz c) (nv_pz c) (l 1%nat * dd * nv_max c)).

(** NormalVelocityControlConstraints.cpp:175-189 are no-ops. *)
Definition nv_class : constraint_class nv :=
  {| c_eval := nv_eval; c_sjac := nv_sjac; c_cjac := nv_cjac;
     c_shess := nv_shess; c_chess := noop_hess; c_mhess := noop_hess |}.

(** Sparsity, NormalVelocityControlConstraints.cpp:67-77 *)
Definition nv_patterns (s : nv) : patterns :=
  let c := fst s in
  {| p_sjac := dense_block 0 (nv_pz c) 2 1; p_cjac := dense_block 0 (nv_vz c) 2 1;
     p_shess := [(nv_pz c, nv_pz c)]; p_chess := []; p_mhess := [] |}.

(** Constructor, NormalVelocityControlConstraints.cpp:36-78; lower bound zero. *)
Definition nv_ctor (c : nv_cfg) (x u : vec) : nv := (c, ws_init x u).
Definition nv_lower (s : nv) : option vec := Some vzero.

(** * PlanarVelocityControlConstraints *)

(** PlanarVelocityControlConstraints.cpp:15-33 *)
Record pv_cfg := { pv_act : smoothing; pv_mx : R; pv_my : R; pv_pos : nat; pv_force : nat; pv_vel : nat }.
Definition pv := (pv_cfg * ws)%type.
Definition pv_pz (c : pv_cfg) := (pv_pos c + 2)%nat.

(** evaluateConstraint, PlanarVelocityControlConstraints.cpp:90-109 *)
Definition pv_eval (s : pv) (t : R) (x u : vec) : pv * vec :=
  let '(c, w) := s in
  let w := set_u (set_x w x) u in
  let w := set_pos w (seg (w_x w) (pv_pos c)) in
  let w := set_frc w (seg (w_x w) (pv_force c)) in
  let w := set_vel w (seg (w_u w) (pv_vel c)) in
  let d := ht_eval (pv_act c) (w_pos w 2%nat) in
  let r := vset vzero 0 (d * pv_mx c - w_vel w 0%nat) in
  let r := vset r 1 (d * pv_my c - w_vel w 1%nat) in
  let r := vset r 2 (w_vel w 0%nat + d * pv_mx c) in
  let r := vset r 3 (w_vel w 1%nat + d * pv_my c) in
  ((c, w), r).

(** constraintJacobianWRTState, PlanarVelocityControlConstraints.cpp:111-131 *)
Definition pv_sjac (s : pv) (t : R) (x u : vec) (J : mat) : pv * mat :=
  let '(c, w) := s in
  let w := set_u (set_x w x) u in
  let w := set_pos w (seg (w_x w) (pv_pos c)) in
  let w := set_frc w (seg (w_x w) (pv_force c)) in
  let w := set_vel w (seg (w_u w) (pv_vel c)) in
  let d := ht_deriv (pv_act c) (w_pos w 2%nat) in
  let B := mset (w_sj w) 0 (pv_pz c) (d * pv_mx c) in
  let B := mset B 1 (pv_pz c) (d * pv_my c) in
  let B := mset B 2 (pv_pz c) (d * pv_mx c) in
  let B := mset B 3 (pv_pz c) (d * pv_my c) in
  let w := set_sj w B in
  ((c, w), w_sj w).

(** constraintJacobianWRTControl, PlanarVelocityControlConstraints.cpp:133-145:
    the two 2x2 blocks are set to -I and I (all four entries of each). *)
Definition pv_cjac (s : pv) (t : R) (x u : vec) (J : mat) : pv * mat :=
  let '(c, w) := s in
  let w := set_u (set_x w x) u in
  let v := pv_vel c in
  let B := mset (mset (mset (mset (w_cj w) 0 v (-1)) 0 (v + 1) 0) 1 v 0) 1 (v + 1) (-1) in
  let B := mset (mset (mset (mset B 2 v 1) 2 (v + 1) 0) 3 v 0) 3 (v + 1) 1 in
  let w := set_cj w B in
  ((c, w), w_cj w).

(** constraintSecondPartialDerivativeWRTState, PlanarVelocityControlConstraints.cpp:169-183.
    Note: pointPosition is not refreshed from [state] here. *)
Definition pv_shess (s : pv) (t : R) (x u l : vec) (H : mat) : pv * mat :=
  let '(c, w) := s in
  let w := set_x w x in
  let dd := ht_dderiv (pv_act c) (w_pos w 2%nat) in
  ((c, w), mset H (pv_pz c) (pv_pz c)
                (((l 0%nat + l 1%nat) * pv_mx c + (l 2%nat + l 3%nat) * pv_my c) * dd)).

(** PlanarVelocityControlConstraints.cpp:185-199 are no-ops. *)
Definition pv_class : constraint_class pv :=
  {| c_eval := pv_eval; c_sjac := pv_sjac; c_cjac := pv_cjac;
     c_shess := pv_shess; c_chess := noop_hess; c_mhess := noop_hess |}.

(** Sparsity, PlanarVelocityControlConstraints.cpp:72-84 *)
Definition pv_patterns (s : pv) : patterns :=
  let c := fst s in
  {| p_sjac := dense_block 0 (pv_pz c) 4 1;
     p_cjac := identity_block 0 (pv_vel c) 2 ++ identity_block 2 (pv_vel c) 2;
     p_shess := [(pv_pz c, pv_pz c)]; p_chess := []; p_mhess := [] |}.

(** Constructor, PlanarVelocityControlConstraints.cpp:36-85; lower bound zero.
    [pos0] is the initial content of pointPosition (iDynTree zero-initialises
    fixed size vectors; kept as zero by ws_init). *)
Definition pv_ctor (c : pv_cfg) (x u : vec) : pv := (c, ws_init x u).
Definition pv_lower (s : pv) : option vec := Some vzero.

(** * ClassicalComplementarityConstraint *)

(** ClassicalComplementarityConstraint.cpp:14-33 *)
Record cc_cfg := { cc_pos : nat; cc_force : nat; cc_tol : R }.
Definition cc := (cc_cfg * ws)%type.
Definition cc_pz (c : cc_cfg) := (cc_pos c + 2)%nat.
Definition cc_fz (c : cc_cfg) := (cc_force c + 2)%nat.

(** evaluateConstraint, ClassicalComplementarityConstraint.cpp:84-98 *)
Definition cc_eval (s : cc) (t : R) (x u : vec) : cc * vec :=
  let '(c, w) := s in
  let w := set_u (set_x w x) u in
  let w := set_pos w (seg (w_x w) (cc_pos c)) in
  let w := set_frc w (seg (w_x w) (cc_force c)) in
  ((c, w), vset vzero 0 (w_pos w 2%nat * w_frc w 2%nat)).

(** constraintJacobianWRTState, ClassicalComplementarityConstraint.cpp:100-116 *)
Definition cc_sjac (s : cc) (t : R) (x u : vec) (J : mat) : cc * mat :=
  let '(c, w) := s in
  let w := set_u (set_x w x) u in
  let w := set_pos w (seg (w_x w) (cc_pos c)) in
  let w := set_frc w (seg (w_x w) (cc_force c)) in
  let w := set_sj w (mset (w_sj w) 0 (cc_pz c) (w_frc w 2%nat)) in
  let w := set_sj w (mset (w_sj w) 0 (cc_fz c) (w_pos w 2%nat)) in
  ((c, w), w_sj w).

(** constraintJacobianWRTControl, ClassicalComplementarityConstraint.cpp:118-122 *)
Definition cc_cjac (s : cc) (t : R) (x u : vec) (J : mat) : cc * mat := (s, w_cj (snd s)).

(** constraintSecondPartialDerivativeWRTState, ClassicalComplementarityConstraint.cpp:146-157 *)
Definition cc_shess (s : cc) (t : R) (x u l : vec) (H : mat) : cc * mat :=
  let c := fst s in
  (s, mset (mset H (cc_fz c) (cc_pz c) (l 0%nat)) (cc_pz c) (cc_fz c) (l 0%nat)).

(** ClassicalComplementarityConstraint.cpp:159-175 are no-ops. *)
Definition cc_class : constraint_class cc :=
  {| c_eval := cc_eval; c_sjac := cc_sjac; c_cjac := cc_cjac;
     c_shess := cc_shess; c_chess := noop_hess; c_mhess := noop_hess |}.

(** Sparsity, ClassicalComplementarityConstraint.cpp:65-78 *)
Definition cc_patterns (s : cc) : patterns :=
  let c := fst s in
  {| p_sjac := [(0%nat, cc_fz c); (0%nat, cc_pz c)]; p_cjac := [];
     p_shess := [(cc_fz c, cc_pz c); (cc_pz c, cc_fz c)]; p_chess := []; p_mhess := [] |}.

(** Constructor, ClassicalComplementarityConstraint.cpp:35-79; upper bound = tolerance. *)
Definition cc_ctor (c : cc_cfg) (x u : vec) : cc := (c, ws_init x u).
Definition cc_upper (s : cc) : option vec := Some (vset vzero 0 (cc_tol (fst s))).

(** * ClassicalPlanarComplementarityConstraint *)

(** ClassicalPlanarComplementarityConstraint.cpp:14-33 *)
Record cp_cfg := { cp_force : nat; cp_vel : nat; cp_tol : R }.
Definition cp := (cp_cfg * ws)%type.
Definition cp_fz (c : cp_cfg) := (cp_force c + 2)%nat.
Definition cp_vx (c : cp_cfg) := cp_vel c.
Definition cp_vy (c : cp_cfg) := (cp_vel c + 1)%nat.

(** evaluateConstraint, ClassicalPlanarComplementarityConstraint.cpp:90-104 *)
Definition cp_eval (s : cp) (t : R) (x u : vec) : cp * vec :=
  let '(c, w) := s in
  let w := set_u (set_x w x) u in
  let w := set_frc w (seg (w_x w) (cp_force c)) in
  let w := set_vel w (seg (w_u w) (cp_vel c)) in
  let r := vset vzero 0 (w_vel w 0%nat * w_frc w 2%nat) in
  let r := vset r 1 (w_vel w 1%nat * w_frc w 2%nat) in
  ((c, w), r).

(** constraintJacobianWRTState, ClassicalPlanarComplementarityConstraint.cpp:106-121 *)
Definition cp_sjac (s : cp) (t : R) (x u : vec) (J : mat) : cp * mat :=
  let '(c, w) := s in
  let w := set_u (set_x w x) u in
  let w := set_frc w (seg (w_x w) (cp_force c)) in
  let w := set_vel w (seg (w_u w) (cp_vel c)) in
  let w := set_sj w (mset (w_sj w) 0 (cp_fz c) (w_vel w 0%nat)) in
  let w := set_sj w (mset (w_sj w) 1 (cp_fz c) (w_vel w 1%nat)) in
  ((c, w), w_sj w).

(** constraintJacobianWRTControl, ClassicalPlanarComplementarityConstraint.cpp:123-139 *)
Definition cp_cjac (s : cp) (t : R) (x u : vec) (J : mat) : cp * mat :=
  let '(c, w) := s in
  let w := set_u (set_x w x) u in
  let w := set_frc w (seg (w_x w) (cp_force c)) in
  let w := set_vel w (seg (w_u w) (cp_vel c)) in
  let w := set_cj w (mset (w_cj w) 0 (cp_vx c) (w_frc w 2%nat)) in
  let w := set_cj w (mset (w_cj w) 1 (cp_vy c) (w_frc w 2%nat)) in
  ((c, w), w_cj w).

(** constraintSecondPartialDerivativeWRTStateControl,
    ClassicalPlanarComplementarityConstraint.cpp:179-195 *)
Definition cp_mhess (s : cp) (t : R) (x u l : vec) (H : mat) : cp * mat :=
  let c := fst s in
  (s, mset (mset H (cp_fz c) (cp_vx c) (l 0%nat)) (cp_fz c) (cp_vy c) (l 1%nat)).

(** ClassicalPlanarComplementarityConstraint.cpp:163-177 are no-ops. *)
Definition cp_class : constraint_class cp :=
  {| c_eval := cp_eval; c_sjac := cp_sjac; c_cjac := cp_cjac;
     c_shess := noop_hess; c_chess := noop_hess; c_mhess := cp_mhess |}.

(** Sparsity, ClassicalPlanarComplementarityConstraint.cpp:67-84 *)
Definition cp_patterns (s : cp) : patterns :=
  let c := fst s in
  {| p_sjac := [(0%nat, cp_fz c); (1%nat, cp_fz c)];
     p_cjac := [(0%nat, cp_vx c); (1%nat, cp_vy c)];
     p_shess := []; p_chess := [];
     p_mhess := [(cp_fz c, cp_vx c); (cp_fz c, cp_vy c)] |}.

(** Constructor and bounds, ClassicalPlanarComplementarityConstraint.cpp:35-85 *)
Definition cp_ctor (c : cp_cfg) (x u : vec) : cp := (c, ws_init x u).
Definition cp_upper (s : cp) : option vec :=
  Some (vset (vset vzero 0 (cp_tol (fst s))) 1 (cp_tol (fst s))).
Definition cp_lower (s : cp) : option vec :=
  Some (vset (vset vzero 0 (- cp_tol (fst s))) 1 (- cp_tol (fst s))).

(** * DynamicalComplementarityConstraint *)

(** DynamicalComplementarityConstraint.cpp:14-32 *)
Record dc_cfg := { dc_gain : R; dc_ub : R; dc_pos : nat; dc_force : nat; dc_vel : nat; dc_fctl : nat }.
Definition dc := (dc_cfg * ws)%type.
Definition dc_pz (c : dc_cfg) := (dc_pos c + 2)%nat.
Definition dc_fz (c : dc_cfg) := (dc_force c + 2)%nat.
Definition dc_vz (c : dc_cfg) := (dc_vel c + 2)%nat.
Definition dc_fzdot (c : dc_cfg) := (dc_fctl c + 2)%nat.

(** The four assignments at the head of every method, e.g.
    DynamicalComplementarityConstraint.cpp:102-108. *)
Definition dc_load (c : dc_cfg) (w : ws) (x u : vec) : ws :=
  let w := set_u (set_x w x) u in
  let w := set_pos w (seg (w_x w) (dc_pos c)) in
  let w := set_frc w (seg (w_x w) (dc_force c)) in
  let w := set_vel w (seg (w_u w) (dc_vel c)) in
  set_fct w (seg (w_u w) (dc_fctl c)).

(** evaluateConstraint, DynamicalComplementarityConstraint.cpp:100-116 *)
Definition dc_eval (s : dc) (t : R) (x u : vec) : dc * vec :=
  let '(c, w) := s in
  let w := dc_load c w x u in
  ((c, w), vset vzero 0 (w_fct w 2%nat * w_pos w 2%nat + w_frc w 2%nat * w_vel w 2%nat
                         + dc_gain c * w_pos w 2%nat * w_frc w 2%nat)).

(** constraintJacobianWRTState, DynamicalComplementarityConstraint.cpp:118-136 *)
Definition dc_sjac (s : dc) (t : R) (x u : vec) (J : mat) : dc * mat :=
  let '(c, w) := s in
  let w := dc_load c w x u in
  let w := set_sj w (mset (w_sj w) 0 (dc_pz c) (w_fct w 2%nat + dc_gain c * w_frc w 2%nat)) in
  let w := set_sj w (mset (w_sj w) 0 (dc_fz c) (w_vel w 2%nat + dc_gain c * w_pos w 2%nat)) in
  ((c, w), w_sj w).

(** constraintJacobianWRTControl, DynamicalComplementarityConstraint.cpp:138-156 *)
Definition dc_cjac (s : dc) (t : R) (x u : vec) (J : mat) : dc * mat :=
  let '(c, w) := s in
  let w := dc_load c w x u in
  let w := set_cj w (mset (w_cj w) 0 (dc_vz c) (w_frc w 2%nat)) in
  let w := set_cj w (mset (w_cj w) 0 (dc_fzdot c) (w_pos w 2%nat)) in
  ((c, w), w_cj w).

(** constraintSecondPartialDerivativeWRTState, DynamicalComplementarityConstraint.cpp:180-191 *)
Definition dc_shess (s : dc) (t : R) (x u l : vec) (H : mat) : dc * mat :=
  let c := fst s in
  (s, mset (mset H (dc_fz c) (dc_pz c) (l 0%nat * dc_gain c)) (dc_pz c) (dc_fz c) (l 0%nat * dc_gain c)).

(** constraintSecondPartialDerivativeWRTStateControl, DynamicalComplementarityConstraint.cpp:201-216 *)
Definition dc_mhess (s : dc) (t : R) (x u l : vec) (H : mat) : dc * mat :=
  let c := fst s in
  (s, mset (mset H (dc_fz c) (dc_vz c) (l 0%nat)) (dc_pz c) (dc_fzdot c) (l 0%nat)).

(** DynamicalComplementarityConstraint.cpp:193-199 is a no-op. *)
Definition dc_class : constraint_class dc :=
  {| c_eval := dc_eval; c_sjac := dc_sjac; c_cjac := dc_cjac;
     c_shess := dc_shess; c_chess := noop_hess; c_mhess := dc_mhess |}.

(** Sparsity, DynamicalComplementarityConstraint.cpp:70-91 *)
Definition dc_patterns (s : dc) : patterns :=
  let c := fst s in
  {| p_sjac := [(0%nat, dc_fz c); (0%nat, dc_pz c)];
     p_cjac := [(0%nat, dc_vz c); (0%nat, dc_fzdot c)];
     p_shess := [(dc_fz c, dc_pz c); (dc_pz c, dc_fz c)]; p_chess := [];
     p_mhess := [(dc_fz c, dc_vz c); (dc_pz c, dc_fzdot c)] |}.

(** Constructor and bound, DynamicalComplementarityConstraint.cpp:34-95 *)
Definition dc_ctor (c : dc_cfg) (x u : vec) : dc := (c, ws_init x u).
Definition dc_upper (s : dc) : option vec := Some (vset vzero 0 (dc_ub (fst s))).

(** * QuaternionNormConstraint *)

(** QuaternionNormConstraint.cpp:17-28; the two bounds are the base class members. *)
Record qn_cfg := { qn_off : nat; qn_lb : R; qn_ub : R }.
Definition qn := (qn_cfg * ws)%type.

(** Constructor, QuaternionNormConstraint.cpp:31-60 *)
Definition qn_ctor (off : nat) (x u : vec) : qn := ({| qn_off := off; qn_lb := 0; qn_ub := 0 |}, ws_init x u).

(** setEqualityTolerance, QuaternionNormConstraint.cpp:65-71 *)
Definition qn_setEqualityTolerance (s : qn) (tol : R) : qn :=
  ({| qn_off := qn_off (fst s); qn_lb := - tol / 2; qn_ub := tol / 2 |}, snd s).

(** QuaternionSquaredNorm, QuaternionUtils.cpp:50-53 *)
Definition quat_sqnorm (q : vec) : R := q 0%nat ^ 2 + q 1%nat ^ 2 + q 2%nat ^ 2 + q 3%nat ^ 2.

(** evaluateConstraint, QuaternionNormConstraint.cpp:73-79 *)
Definition qn_eval (s : qn) (t : R) (x u : vec) : qn * vec :=
  let '(c, w) := s in
  let w := set_x w x in
  let w := set_frc w (seg (w_x w) (qn_off c)) in
  ((c, w), vset vzero 0 (quat_sqnorm (w_frc w) - 1)).

(** constraintJacobianWRTState, QuaternionNormConstraint.cpp:81-88 *)
Definition qn_sjac (s : qn) (t : R) (x u : vec) (J : mat) : qn * mat :=
  let '(c, w) := s in
  let w := set_x w x in
  let w := set_frc w (seg (w_x w) (qn_off c)) in
  let o := qn_off c in
  let B := mset (w_sj w) 0 o (2 * w_frc w 0%nat) in
  let B := mset B 0 (o + 1) (2 * w_frc w 1%nat) in
  let B := mset B 0 (o + 2) (2 * w_frc w 2%nat) in
  let B := mset B 0 (o + 3) (2 * w_frc w 3%nat) in
  let w := set_sj w B in
  ((c, w), w_sj w).

(** constraintJacobianWRTControl, QuaternionNormConstraint.cpp:90-94 *)
Definition qn_cjac (s : qn) (t : R) (x u : vec) (J : mat) : qn * mat := (s, w_cj (snd s)).

(** constraintSecondPartialDerivativeWRTState, QuaternionNormConstraint.cpp:119-131 *)
Definition qn_shess (s : qn) (t : R) (x u l : vec) (H : mat) : qn * mat :=
  let o := qn_off (fst s) in
  let H := mset H o o (2 * l 0%nat) in
  let H := mset H (o + 1) (o + 1) (2 * l 0%nat) in
  let H := mset H (o + 2) (o + 2) (2 * l 0%nat) in
  let H := mset H (o + 3) (o + 3) (2 * l 0%nat) in
  (s, H).

(** QuaternionNormConstraint.cpp:133-147 are no-ops. *)
Definition qn_class : constraint_class qn :=
  {| c_eval := qn_eval; c_sjac := qn_sjac; c_cjac := qn_cjac;
     c_shess := qn_shess; c_chess := noop_hess; c_mhess := noop_hess |}.

(** Sparsity, QuaternionNormConstraint.cpp:50-59 (range size 4) *)
Definition qn_patterns (s : qn) : patterns :=
  let o := qn_off (fst s) in
  {| p_sjac := dense_block 0 o 1 4; p_cjac := [];
     p_shess := identity_block o o 4; p_chess := []; p_mhess := [] |}.

Definition qn_other (s s' : qn) : Prop := exists tol, s' = qn_setEqualityTolerance s tol.
Definition qn_lower (s : qn) : option vec := Some (fun _ => qn_lb (fst s)).
Definition qn_upper (s : qn) : option vec := Some (fun _ => qn_ub (fst s)).
