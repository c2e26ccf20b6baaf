(** Independent specification vocabulary.

    Nothing in this file depends on the model of the code.  It says what it
    means for a matrix to be a Jacobian / Hessian / mixed Hessian of a function
    and for an object with mutable buffers to be "exact" whatever the history of
    calls made on it.

    Optimisation vectors are functions [nat -> R] (entry index to value),
    matrices are functions [nat -> nat -> R] (row, column).  The dimension is
    kept separately. *)
From Coq Require Import Reals List Arith Lia Lra Bool.
From Coquelicot Require Import Coquelicot.
Import ListNotations.
Local Open Scope R_scope.

Definition vec := nat -> R.
Definition mat := nat -> nat -> R.

Definition vzero : vec := fun _ => 0.
Definition mzero : mat := fun _ _ => 0.

(** [vset x k t]: the vector [x] with entry [k] replaced by [t]. *)
Definition vset (x : vec) (k : nat) (t : R) : vec :=
  fun i => if Nat.eqb i k then t else x i.

(** [mset M i k t]: the matrix [M] with entry [(i,k)] replaced by [t]. *)
Definition mset (M : mat) (i k : nat) (t : R) : mat :=
  fun a b => if Nat.eqb a i && Nat.eqb b k then t else M a b.

(** The partial derivative of [f] with respect to entry [k] at [x] is [d]. *)
Definition partial (f : vec -> R) (x : vec) (k : nat) (d : R) : Prop :=
  is_derive (fun t => f (vset x k t)) (x k) d.

(** [g] is the gradient of [f] at [x]. *)
Definition is_gradient (f : vec -> R) (x : vec) (g : vec) : Prop :=
  forall k, partial f x k (g k).

(** [J] is the Jacobian of the [m]-row function [f] at [x]. *)
Definition is_jacobian (m : nat) (f : vec -> vec) (x : vec) (J : mat) : Prop :=
  forall i k, (i < m)%nat -> partial (fun y => f y i) x k (J i k).

(** [H] is the Hessian of [f] at [x]: there is a gradient field and row [j] of
    [H] is the gradient of its entry [j]. *)
Definition is_hessian (f : vec -> R) (x : vec) (H : mat) : Prop :=
  exists g : vec -> vec,
    (forall y, is_gradient f y (g y)) /\
    (forall j k, partial (fun y => g y j) x k (H j k)).

(** [H] is the mixed Hessian of [f x u]: row [j] (entry of [x]), column [k]
    (entry of [u]) is d2 f / dx_j du_k. *)
Definition is_mixed_hessian (f : vec -> vec -> R) (x u : vec) (H : mat) : Prop :=
  exists g : vec -> vec -> vec,
    (forall y w, is_gradient (fun z => f z w) y (g y w)) /\
    (forall j k, partial (fun w => g x w j) u k (H j k)).

(** Finite sums. *)
Fixpoint sumn (n : nat) (f : nat -> R) : R :=
  match n with O => 0 | S n' => sumn n' f + f n' end.

(** The multiplier-weighted sum of the rows of a constraint. *)
Definition weighted (m : nat) (lambda : vec) (c : vec) : R :=
  sumn m (fun i => lambda i * c i).

(** Entries outside a declared sparsity pattern are zero. *)
Definition zero_outside (pat : list (nat * nat)) (M : mat) : Prop :=
  forall i k, ~ In (i, k) pat -> M i k = 0.

(** Every declared entry lies in a [rows] x [cols] matrix. *)
Definition pattern_fits (rows cols : nat) (pat : list (nat * nat)) : Prop :=
  forall i k, In (i, k) pat -> (i < rows)%nat /\ (k < cols)%nat.

(** * Constraint objects

    A constraint object has an internal state [S] (configuration, buffers).
    Each method may modify it.  Matrix methods receive the matrix the caller
    supplies and return the one the caller sees afterwards. *)
Record constraint_class (S : Type) := {
  c_eval  : S -> R -> vec -> vec -> S * vec;
  c_sjac  : S -> R -> vec -> vec -> mat -> S * mat;
  c_cjac  : S -> R -> vec -> vec -> mat -> S * mat;
  c_shess : S -> R -> vec -> vec -> vec -> mat -> S * mat;
  c_chess : S -> R -> vec -> vec -> vec -> mat -> S * mat;
  c_mhess : S -> R -> vec -> vec -> vec -> mat -> S * mat
}.
Arguments c_eval {S} _. Arguments c_sjac {S} _. Arguments c_cjac {S} _.
Arguments c_shess {S} _. Arguments c_chess {S} _. Arguments c_mhess {S} _.

(** States reachable from [s0] by any sequence of method calls and of the other
    operations of the class (setters), given by the relation [other]. *)
Inductive reach {S} (C : constraint_class S) (other : S -> S -> Prop) (s0 : S) : S -> Prop :=
| reach_init : reach C other s0 s0
| reach_eval s t x u : reach C other s0 s -> reach C other s0 (fst (c_eval C s t x u))
| reach_sjac s t x u J : reach C other s0 s -> reach C other s0 (fst (c_sjac C s t x u J))
| reach_cjac s t x u J : reach C other s0 s -> reach C other s0 (fst (c_cjac C s t x u J))
| reach_shess s t x u l H : reach C other s0 s -> reach C other s0 (fst (c_shess C s t x u l H))
| reach_chess s t x u l H : reach C other s0 s -> reach C other s0 (fst (c_chess C s t x u l H))
| reach_mhess s t x u l H : reach C other s0 s -> reach C other s0 (fst (c_mhess C s t x u l H))
| reach_other s s' : reach C other s0 s -> other s s' -> reach C other s0 s'.

Definition no_other {S} : S -> S -> Prop := fun _ _ => False.

Section ConstraintSpec.
  Context {S : Type} (C : constraint_class S) (ok : S -> Prop).
  (** [ok]: the states considered (usually the reachable ones). *)
  Variable rows : nat.
  Variable value : S -> R -> vec -> vec -> vec.
  (** [value s t x u]: the documented constraint value for the configuration
      stored in [s]. *)

  Definition eval_correct : Prop :=
    forall s, ok s -> forall t x u i, (i < rows)%nat ->
      snd (c_eval C s t x u) i = value s t x u i.

  Definition state_jacobian_exact (pat : S -> list (nat * nat)) : Prop :=
    forall s, ok s -> forall t x u J, zero_outside (pat s) J ->
      let J' := snd (c_sjac C s t x u J) in
      zero_outside (pat s) J' /\ is_jacobian rows (fun y => value s t y u) x J'.

  Definition control_jacobian_exact (pat : S -> list (nat * nat)) : Prop :=
    forall s, ok s -> forall t x u J, zero_outside (pat s) J ->
      let J' := snd (c_cjac C s t x u J) in
      zero_outside (pat s) J' /\ is_jacobian rows (fun w => value s t x w) u J'.

  Definition state_hessian_exact (pat : S -> list (nat * nat)) : Prop :=
    forall s, ok s -> forall t x u l H, zero_outside (pat s) H ->
      let H' := snd (c_shess C s t x u l H) in
      zero_outside (pat s) H' /\
      is_hessian (fun y => weighted rows l (value s t y u)) x H'.

  Definition control_hessian_exact (pat : S -> list (nat * nat)) : Prop :=
    forall s, ok s -> forall t x u l H, zero_outside (pat s) H ->
      let H' := snd (c_chess C s t x u l H) in
      zero_outside (pat s) H' /\
      is_hessian (fun w => weighted rows l (value s t x w)) u H'.

  Definition mixed_hessian_exact (pat : S -> list (nat * nat)) : Prop :=
    forall s, ok s -> forall t x u l H, zero_outside (pat s) H ->
      let H' := snd (c_mhess C s t x u l H) in
      zero_outside (pat s) H' /\
      is_mixed_hessian (fun y w => weighted rows l (value s t y w)) x u H'.

  (** No method call changes the function the object represents. *)
  Definition methods_keep_value : Prop :=
    forall s, ok s -> forall t x u l M,
      value (fst (c_eval C s t x u)) = value s /\
      value (fst (c_sjac C s t x u M)) = value s /\
      value (fst (c_cjac C s t x u M)) = value s /\
      value (fst (c_shess C s t x u l M)) = value s /\
      value (fst (c_chess C s t x u l M)) = value s /\
      value (fst (c_mhess C s t x u l M)) = value s.
End ConstraintSpec.

(** The sparsity patterns declared by a constraint object. *)
Record patterns := {
  p_sjac : list (nat * nat); p_cjac : list (nat * nat);
  p_shess : list (nat * nat); p_chess : list (nat * nat); p_mhess : list (nat * nat)
}.

(** Everything together: value, both Jacobians, the three Hessians, with the
    declared patterns, after any history. *)
Definition constraint_exact {S} (C : constraint_class S) (ok : S -> Prop) (rows : nat)
           (value : S -> R -> vec -> vec -> vec) (pat : S -> patterns) : Prop :=
  eval_correct C ok rows value /\
  state_jacobian_exact C ok rows value (fun s => p_sjac (pat s)) /\
  control_jacobian_exact C ok rows value (fun s => p_cjac (pat s)) /\
  state_hessian_exact C ok rows value (fun s => p_shess (pat s)) /\
  control_hessian_exact C ok rows value (fun s => p_chess (pat s)) /\
  mixed_hessian_exact C ok rows value (fun s => p_mhess (pat s)) /\
  methods_keep_value C ok value.

(** * Cost objects: one scalar value, gradients, Hessians.

    A method returns [None] when the C++ method returns false (no value is then
    available to the caller). *)
Record cost_class (S : Type) := {
  k_eval  : S -> R -> vec -> vec -> S * option R;
  k_sgrad : S -> R -> vec -> vec -> vec -> S * option vec;
  k_cgrad : S -> R -> vec -> vec -> vec -> S * option vec;
  k_shess : S -> R -> vec -> vec -> mat -> S * option mat;
  k_chess : S -> R -> vec -> vec -> mat -> S * option mat;
  k_mhess : S -> R -> vec -> vec -> mat -> S * option mat
}.
Arguments k_eval {S} _. Arguments k_sgrad {S} _. Arguments k_cgrad {S} _.
Arguments k_shess {S} _. Arguments k_chess {S} _. Arguments k_mhess {S} _.

Inductive kreach {S} (C : cost_class S) (other : S -> S -> Prop) (s0 : S) : S -> Prop :=
| kreach_init : kreach C other s0 s0
| kreach_eval s t x u : kreach C other s0 s -> kreach C other s0 (fst (k_eval C s t x u))
| kreach_sgrad s t x u g : kreach C other s0 s -> kreach C other s0 (fst (k_sgrad C s t x u g))
| kreach_cgrad s t x u g : kreach C other s0 s -> kreach C other s0 (fst (k_cgrad C s t x u g))
| kreach_shess s t x u H : kreach C other s0 s -> kreach C other s0 (fst (k_shess C s t x u H))
| kreach_chess s t x u H : kreach C other s0 s -> kreach C other s0 (fst (k_chess C s t x u H))
| kreach_mhess s t x u H : kreach C other s0 s -> kreach C other s0 (fst (k_mhess C s t x u H))
| kreach_other s s' : kreach C other s0 s -> other s s' -> kreach C other s0 s'.

(** Entries of a gradient vector outside a support are zero. *)
Definition vzero_outside (sup : list nat) (g : vec) : Prop := forall k, ~ In k sup -> g k = 0.

(** [q_sgrad]/[q_cgrad]: the entries a gradient may fill (all the others are zero,
    provided the caller hands over a vector that is zero there);
    [q_shess] ...: the declared Hessian sparsity patterns. *)
Record supports := {
  q_sgrad : list nat; q_cgrad : list nat;
  q_shess : list (nat * nat); q_chess : list (nat * nat); q_mhess : list (nat * nat)
}.

Section CostSpec.
  Context {S : Type} (C : cost_class S) (ok : S -> Prop).
  Variable valid : S -> R -> Prop.
  (** [valid s t]: the references the object holds are available at time [t]. *)
  Variable value : S -> R -> vec -> vec -> R.

  Definition cost_value_correct : Prop :=
    forall s, ok s -> forall t x u, valid s t -> snd (k_eval C s t x u) = Some (value s t x u).

  Definition state_gradient_exact (sup : S -> list nat) : Prop :=
    forall s, ok s -> forall t x u g, valid s t -> vzero_outside (sup s) g ->
      exists g', snd (k_sgrad C s t x u g) = Some g' /\
      vzero_outside (sup s) g' /\ is_gradient (fun y => value s t y u) x g'.

  Definition control_gradient_exact (sup : S -> list nat) : Prop :=
    forall s, ok s -> forall t x u g, valid s t -> vzero_outside (sup s) g ->
      exists g', snd (k_cgrad C s t x u g) = Some g' /\
      vzero_outside (sup s) g' /\ is_gradient (fun w => value s t x w) u g'.

  Definition cost_state_hessian_exact (pat : S -> list (nat * nat)) : Prop :=
    forall s, ok s -> forall t x u H, valid s t -> zero_outside (pat s) H ->
      exists H', snd (k_shess C s t x u H) = Some H' /\
      zero_outside (pat s) H' /\ is_hessian (fun y => value s t y u) x H'.

  Definition cost_control_hessian_exact (pat : S -> list (nat * nat)) : Prop :=
    forall s, ok s -> forall t x u H, valid s t -> zero_outside (pat s) H ->
      exists H', snd (k_chess C s t x u H) = Some H' /\
      zero_outside (pat s) H' /\ is_hessian (fun w => value s t x w) u H'.

  Definition cost_mixed_hessian_exact (pat : S -> list (nat * nat)) : Prop :=
    forall s, ok s -> forall t x u H, valid s t -> zero_outside (pat s) H ->
      exists H', snd (k_mhess C s t x u H) = Some H' /\
      zero_outside (pat s) H' /\ is_mixed_hessian (fun y w => value s t y w) x u H'.

  Definition cost_methods_keep_value : Prop :=
    forall s, ok s -> forall t x u g M,
      value (fst (k_eval C s t x u)) = value s /\
      value (fst (k_sgrad C s t x u g)) = value s /\
      value (fst (k_cgrad C s t x u g)) = value s /\
      value (fst (k_shess C s t x u M)) = value s /\
      value (fst (k_chess C s t x u M)) = value s /\
      value (fst (k_mhess C s t x u M)) = value s.
End CostSpec.

Definition always_valid {S} : S -> R -> Prop := fun _ _ => True.

Definition cost_exact {S} (C : cost_class S) (ok : S -> Prop) (valid : S -> R -> Prop)
           (value : S -> R -> vec -> vec -> R) (sup : S -> supports) : Prop :=
  cost_value_correct C ok valid value /\
  state_gradient_exact C ok valid value (fun s => q_sgrad (sup s)) /\
  control_gradient_exact C ok valid value (fun s => q_cgrad (sup s)) /\
  cost_state_hessian_exact C ok valid value (fun s => q_shess (sup s)) /\
  cost_control_hessian_exact C ok valid value (fun s => q_chess (sup s)) /\
  cost_mixed_hessian_exact C ok valid value (fun s => q_mhess (sup s)) /\
  cost_methods_keep_value C ok value.

(** Sums over lists, arithmetic mean of a list of entries. *)
Definition lsum {A} (f : A -> R) (l : list A) : R := fold_right (fun a s => f a + s) 0 l.
Definition lmean {A} (f : A -> R) (l : list A) : R := lsum f l / INR (length l).

(** Ranges of [n] entries starting at the given offsets do not overlap. *)
Fixpoint disjoint_ranges (n : nat) (l : list nat) : Prop :=
  match l with
  | [] => True
  | a :: r => (forall b, In b r -> (a + n <= b)%nat \/ (b + n <= a)%nat) /\ disjoint_ranges n r
  end.
