(** Independent vocabulary for C62, C64: the functions of the state that the kinematic constraints are about. *)
From Coq Require Import Reals List Arith.
From Coquelicot Require Import Coquelicot.
From Verif Require Import Spec SpecQuaternion SpecDynamics SpecRigid SpecBase.
Local Open Scope R_scope.

(** The n entries of x from o on. *)
Definition part (x : vec) (o n : nat) : vec := fun i => if (i <? n)%nat then x (o + i)%nat else 0.
Definition part3 (x : vec) (o : nat) : v3 := V3 (x o) (x (o + 1)%nat) (x (o + 2)%nat).

(** C62: coordinate [index] of the position of the frame [other] seen from the frame [ref], the joints being at the
    [n] entries of the state from [o] on. *)
Definition lateral_distance (r : robot) (place : vec -> nat -> pose) (ref other index o n : nat) (x : vec) : R :=
  vent (pos (relative r place (part x o n) ref other)) index.

(** The offset of the frame g does not turn the axes of the joints of its link. *)
Definition keeps_axes (r : robot) (g : nat) : Prop :=
  forall i j p, nth_error (r_joints r) i = Some j -> connects j p (frame_link r g) ->
    mv (rot (frame_offset r g)) (ang (axis_of j (frame_link r g))) = ang (axis_of j (frame_link r g)).
(** The same, only for the joint next to the link of g on the way to f. *)
Definition keeps_axis (r : robot) (up : nat -> nat -> option (nat * nat)) (f g : nat) : Prop :=
  forall p i j, frame_link r f <> frame_link r g -> up (frame_link r f) (frame_link r g) = Some (p, i) -> nth_error (r_joints r) i = Some j ->
    mv (rot (frame_offset r g)) (ang (axis_of j (frame_link r g))) = ang (axis_of j (frame_link r g)).

(** C64: the point [point] of the frame [foot], in the world, for the base position, the base quaternion and the joints found
    in the state at the offsets op, oq and os; minus the three entries from ot on. *)
Definition contact_error (r : robot) (place : vec -> nat -> pose) (base foot : nat) (point : v3) (op oq os ot n : nat) (x : vec) : vec :=
  fun i => vent (papply (pmul (base_pose (part x oq 4) (part3 x op)) (relative r place (part x os n) base foot)) point) i - x (ot + i)%nat.
(** Two ranges of indices do not overlap. *)
Definition apart (o n o' n' : nat) : Prop := (o + n <= o' \/ o' + n' <= o)%nat.
Definition ranges_apart (op oq os ot n : nat) : Prop :=
  apart op 3 oq 4 /\ apart op 3 os n /\ apart op 3 ot 3 /\ apart oq 4 os n /\ apart oq 4 ot 3 /\ apart os n ot 3.

(** A constraint whose value is differentiable on the open set D only: for every state in D, the value, the Jacobians, the
    Hessians and their patterns are right. *)
Definition constraint_exact_on {S} (D : vec -> Prop) (C : constraint_class S) (ok : S -> Prop) (rows : nat)
           (value : S -> R -> vec -> vec -> vec) (pat : S -> patterns) : Prop :=
  (forall s, ok s -> forall t x u, D x ->
    (forall i, (i < rows)%nat -> snd (c_eval C s t x u) i = value s t x u i) /\
    (forall J, zero_outside (p_sjac (pat s)) J -> let J' := snd (c_sjac C s t x u J) in
       zero_outside (p_sjac (pat s)) J' /\ is_jacobian rows (fun y => value s t y u) x J') /\
    (forall J, zero_outside (p_cjac (pat s)) J -> let J' := snd (c_cjac C s t x u J) in
       zero_outside (p_cjac (pat s)) J' /\ is_jacobian rows (fun w => value s t x w) u J') /\
    (forall l H, zero_outside (p_shess (pat s)) H -> let H' := snd (c_shess C s t x u l H) in
       zero_outside (p_shess (pat s)) H' /\ is_hessian_on D (fun y => weighted rows l (value s t y u)) x H') /\
    (forall l H, zero_outside (p_chess (pat s)) H -> let H' := snd (c_chess C s t x u l H) in
       zero_outside (p_chess (pat s)) H' /\ is_hessian (fun w => weighted rows l (value s t x w)) u H') /\
    (forall l H, zero_outside (p_mhess (pat s)) H -> let H' := snd (c_mhess C s t x u l H) in
       zero_outside (p_mhess (pat s)) H' /\ is_mixed_hessian_on D (fun y w => weighted rows l (value s t y w)) x u H')) /\
  methods_keep_value C ok value.
