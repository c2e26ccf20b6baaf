(** Model of the costs of the planner (src/private/*Cost.cpp) and of
    FeetRelativeHeightConstraint.cpp.

    Conventions: as in ConstraintsModel.v (configuration, mutable members).  The
    ranges are given by their offset; the lists of ranges collected by looping over
    the labels are given as lists of offsets, in label order (Layout.v shows which
    they are for the solver's own labels).  References ([TimeVarying*::get]) are
    functions of time only; [None] is [isValid = false]. *)
From Coq Require Import Reals List Arith Bool.
From Verif Require Import Spec SpecCosts Smoothing ConstraintsModel.
Import ListNotations.
Local Open Scope R_scope.

(** Mutable members of the cost Implementation structs
    (e.g. SwingCost.cpp:12-25): copied variables and gradient buffers. *)
Record kws := { k_x : vec; k_u : vec; k_sg : vec; k_cg : vec }.
Definition kws_init (x u : vec) : kws := {| k_x := x; k_u := u; k_sg := vzero; k_cg := vzero |}.
Definition kset_x (w : kws) v := {| k_x := v; k_u := k_u w; k_sg := k_sg w; k_cg := k_cg w |}.
Definition kset_u (w : kws) v := {| k_x := k_x w; k_u := v; k_sg := k_sg w; k_cg := k_cg w |}.
Definition kset_sg (w : kws) v := {| k_x := k_x w; k_u := k_u w; k_sg := v; k_cg := k_cg w |}.
Definition kset_cg (w : kws) v := {| k_x := k_x w; k_u := k_u w; k_sg := k_sg w; k_cg := v |}.

(** Eigen [block(r,c,nr,nc) = f] and [segment(o,n) = f] assignments. *)
Definition in_range (o n i : nat) : bool := Nat.leb o i && Nat.ltb i (o + n).
Definition set_block (H : mat) (r c nr nc : nat) (f : nat -> nat -> R) : mat :=
  fun i j => if in_range r nr i && in_range c nc j then f (i - r)%nat (j - c)%nat else H i j.
Definition set_seg (g : vec) (o n : nat) (f : nat -> R) : vec :=
  fun i => if in_range o n i then f (i - o)%nat else g i.
(** [setIdentity()] followed by [*= v]. *)
Definition scaled_identity (v : R) : nat -> nat -> R := fun a b => if Nat.eqb a b then v else 0.
(** The copy of an [n] x [n] block of the matrix being written. *)
Definition block_of (H : mat) (r c : nat) : nat -> nat -> R := fun a b => H (r + a)%nat (c + b)%nat.

(** [for i, for j = i .. : body i j; if (i != j) body' i j] *)
Fixpoint pair_loop {A} (diag : A -> mat -> mat) (off : A -> A -> mat -> mat) (l : list A) (H : mat) : mat :=
  match l with
  | [] => H
  | a :: r => pair_loop diag off r (fold_left (fun H b => off a b H) r (diag a H))
  end.
(** The same loop collecting sparsity pairs. *)
Fixpoint pair_list {A B} (diag : A -> list B) (off : A -> A -> list B) (l : list A) : list B :=
  match l with
  | [] => []
  | a :: r => diag a ++ flat_map (off a) r ++ pair_list diag off r
  end.

(** Methods with an empty body: [return true]. *)
Definition noop_khess {S} : S -> R -> vec -> vec -> mat -> S * option mat := fun s _ _ _ H => (s, Some H).
Definition noop_grad {S} : S -> R -> vec -> vec -> vec -> S * option vec := fun s _ _ _ g => (s, Some g).
(** [partialDerivative = controlGradientBuffer] *)
Definition buffer_cgrad {C} : C * kws -> R -> vec -> vec -> vec -> (C * kws) * option vec :=
  fun s _ _ _ _ => (s, Some (k_cg (snd s))).

(** * SwingCost *)
(** SwingCost.cpp:12-25 *)
Record sw_cfg := { sw_vel : nat; sw_pos : nat; sw_h : R; sw_w : vec }.
Definition sw := (sw_cfg * kws)%type.
(** Constructor, SwingCost.cpp:27-60 *)
Definition sw_ctor (c : sw_cfg) (x u : vec) : sw := (c, kws_init x u).

(** costEvaluation, SwingCost.cpp:65-80 *)
Definition sw_eval (s : sw) (t : R) (x u : vec) : sw * option R :=
  let '(c, w) := s in
  let w := kset_u (kset_x w x) u in
  let zError := seg (k_x w) (sw_pos c) 2%nat - sw_h c in
  let costX := seg (k_u w) (sw_vel c) 0%nat * zError in
  let costY := seg (k_u w) (sw_vel c) 1%nat * zError in
  let costZ := seg (k_u w) (sw_vel c) 2%nat * zError in
  ((c, w), Some (/ 2 * (sw_w c 0%nat * costX * costX + sw_w c 1%nat * costY * costY + sw_w c 2%nat * costZ * costZ))).

(** costFirstPartialDerivativeWRTState, SwingCost.cpp:82-102 *)
Definition sw_sgrad (s : sw) (t : R) (x u g : vec) : sw * option vec :=
  let '(c, w) := s in
  let w := kset_u (kset_x w x) u in
  let zError := seg (k_x w) (sw_pos c) 2%nat - sw_h c in
  let v := seg (k_u w) (sw_vel c) in
  let costX := v 0%nat * zError in
  let costY := v 1%nat * zError in
  let costZ := v 2%nat * zError in
  let w := kset_sg w (vset (k_sg w) (sw_pos c + 2)
             (sw_w c 0%nat * costX * v 0%nat + sw_w c 1%nat * costY * v 1%nat + sw_w c 2%nat * costZ * v 2%nat)) in
  ((c, w), Some (k_sg w)).

(** costFirstPartialDerivativeWRTControl, SwingCost.cpp:104-127 *)
Definition sw_cgrad (s : sw) (t : R) (x u g : vec) : sw * option vec :=
  let '(c, w) := s in
  let w := kset_u (kset_x w x) u in
  let zError := seg (k_x w) (sw_pos c) 2%nat - sw_h c in
  let v := seg (k_u w) (sw_vel c) in
  let costX := v 0%nat * zError in
  let costY := v 1%nat * zError in
  let costZ := v 2%nat * zError in
  let w := kset_cg w (vset (k_cg w) (sw_vel c) (sw_w c 0%nat * costX * zError)) in
  let w := kset_cg w (vset (k_cg w) (sw_vel c + 1) (sw_w c 1%nat * costY * zError)) in
  let w := kset_cg w (vset (k_cg w) (sw_vel c + 2) (sw_w c 2%nat * costZ * zError)) in
  ((c, w), Some (k_cg w)).

(** costSecondPartialDerivativeWRTState, SwingCost.cpp:129-143 *)
Definition sw_shess (s : sw) (t : R) (x u : vec) (H : mat) : sw * option mat :=
  let '(c, w) := s in
  let w := kset_u (kset_x w x) u in
  let v := seg (k_u w) (sw_vel c) in
  let pz := (sw_pos c + 2)%nat in
  ((c, w), Some (mset H pz pz (sw_w c 0%nat * v 0%nat * v 0%nat + sw_w c 1%nat * v 1%nat * v 1%nat
                               + sw_w c 2%nat * v 2%nat * v 2%nat))).

(** costSecondPartialDerivativeWRTControl, SwingCost.cpp:145-159 *)
Definition sw_chess (s : sw) (t : R) (x u : vec) (H : mat) : sw * option mat :=
  let '(c, w) := s in
  let w := kset_x w x in
  let d := seg (k_x w) (sw_pos c) 2%nat - sw_h c in
  let d2 := d * d in
  let o := sw_vel c in
  let H := mset H o o (sw_w c 0%nat * d2) in
  let H := mset H (o + 1) (o + 1) (sw_w c 1%nat * d2) in
  let H := mset H (o + 2) (o + 2) (sw_w c 2%nat * d2) in
  ((c, w), Some H).

(** costSecondPartialDerivativeWRTStateControl, SwingCost.cpp:161-182 *)
Definition sw_mhess (s : sw) (t : R) (x u : vec) (H : mat) : sw * option mat :=
  let '(c, w) := s in
  let w := kset_u (kset_x w x) u in
  let v := seg (k_u w) (sw_vel c) in
  let d := seg (k_x w) (sw_pos c) 2%nat - sw_h c in
  let pz := (sw_pos c + 2)%nat in
  let o := sw_vel c in
  let H := mset H pz o (2 * sw_w c 0%nat * v 0%nat * d) in
  let H := mset H pz (o + 1) (2 * sw_w c 1%nat * v 1%nat * d) in
  let H := mset H pz (o + 2) (2 * sw_w c 2%nat * v 2%nat * d) in
  ((c, w), Some H).

Definition sw_class : cost_class sw :=
  {| k_eval := sw_eval; k_sgrad := sw_sgrad; k_cgrad := sw_cgrad;
     k_shess := sw_shess; k_chess := sw_chess; k_mhess := sw_mhess |}.
(** Sparsity, SwingCost.cpp:54-59 (Hessians); gradients have no declared sparsity:
    the support is the set of entries written. *)
Definition sw_sup (s : sw) : supports :=
  let c := fst s in
  {| q_sgrad := [(sw_pos c + 2)%nat]; q_cgrad := [sw_vel c; (sw_vel c + 1)%nat; (sw_vel c + 2)%nat];
     q_shess := [((sw_pos c + 2)%nat, (sw_pos c + 2)%nat)];
     q_chess := identity_block (sw_vel c) (sw_vel c) 3;
     q_mhess := dense_block (sw_pos c + 2) (sw_vel c) 1 3 |}.

(** * ComplementarityCost *)
(** ComplementarityCost.cpp:15-27 *)
Record kc_cfg := { kc_vel : nat; kc_force : nat }.
Definition kc := (kc_cfg * kws)%type.
(** Constructor, ComplementarityCost.cpp:31-54 (vzCol, fzCol: lines 48-49) *)
Definition kc_ctor (c : kc_cfg) (x u : vec) : kc := (c, kws_init x u).
Definition kc_vz (c : kc_cfg) := (kc_vel c + 2)%nat.
Definition kc_fz (c : kc_cfg) := (kc_force c + 2)%nat.

(** costEvaluation, ComplementarityCost.cpp:59-71 *)
Definition kc_eval (s : kc) (t : R) (x u : vec) : kc * option R :=
  let '(c, w) := s in
  let w := kset_u (kset_x w x) u in
  let vz := seg (k_u w) (kc_vel c) 2%nat in
  let fz := seg (k_x w) (kc_force c) 2%nat in
  ((c, w), Some (/ 2 * vz * vz * fz * fz)).

(** costFirstPartialDerivativeWRTState, ComplementarityCost.cpp:73-86 *)
Definition kc_sgrad (s : kc) (t : R) (x u g : vec) : kc * option vec :=
  let '(c, w) := s in
  let w := kset_u (kset_x w x) u in
  let vz := seg (k_u w) (kc_vel c) 2%nat in
  let fz := seg (k_x w) (kc_force c) 2%nat in
  ((c, w), Some (vset g (kc_fz c) (vz * vz * fz))).

(** costFirstPartialDerivativeWRTControl, ComplementarityCost.cpp:88-101 *)
Definition kc_cgrad (s : kc) (t : R) (x u g : vec) : kc * option vec :=
  let '(c, w) := s in
  let w := kset_u (kset_x w x) u in
  let vz := seg (k_u w) (kc_vel c) 2%nat in
  let fz := seg (k_x w) (kc_force c) 2%nat in
  ((c, w), Some (vset g (kc_vz c) (vz * fz * fz))).

(** costSecondPartialDerivativeWRTState, ComplementarityCost.cpp:103-114 *)
Definition kc_shess (s : kc) (t : R) (x u : vec) (H : mat) : kc * option mat :=
  let '(c, w) := s in
  let w := kset_u w u in
  let vz := seg (k_u w) (kc_vel c) 2%nat in
  ((c, w), Some (mset H (kc_fz c) (kc_fz c) (vz * vz))).

(** costSecondPartialDerivativeWRTControl, ComplementarityCost.cpp:116-127 *)
Definition kc_chess (s : kc) (t : R) (x u : vec) (H : mat) : kc * option mat :=
  let '(c, w) := s in
  let w := kset_x w x in
  let fz := seg (k_x w) (kc_force c) 2%nat in
  ((c, w), Some (mset H (kc_vz c) (kc_vz c) (fz * fz))).

(** costSecondPartialDerivativeWRTStateControl, ComplementarityCost.cpp:129-142 *)
Definition kc_mhess (s : kc) (t : R) (x u : vec) (H : mat) : kc * option mat :=
  let '(c, w) := s in
  let w := kset_u (kset_x w x) u in
  let vz := seg (k_u w) (kc_vel c) 2%nat in
  let fz := seg (k_x w) (kc_force c) 2%nat in
  ((c, w), Some (mset H (kc_fz c) (kc_vz c) (2 * fz * vz))).

Definition kc_class : cost_class kc :=
  {| k_eval := kc_eval; k_sgrad := kc_sgrad; k_cgrad := kc_cgrad;
     k_shess := kc_shess; k_chess := kc_chess; k_mhess := kc_mhess |}.
(** Sparsity, ComplementarityCost.cpp:51-53 *)
Definition kc_sup (s : kc) : supports :=
  let c := fst s in
  {| q_sgrad := [kc_fz c]; q_cgrad := [kc_vz c];
     q_shess := [(kc_fz c, kc_fz c)]; q_chess := [(kc_vz c, kc_vz c)]; q_mhess := [(kc_fz c, kc_vz c)] |}.

(** * PhantomForcesCost *)
(** PhantomForcesCost.cpp:15-29 *)
Record ph_cfg := { ph_act : smoothing; ph_pos : nat; ph_force : nat }.
Definition ph := (ph_cfg * kws)%type.
(** Constructor, PhantomForcesCost.cpp:33-67 *)
Definition ph_ctor (c : ph_cfg) (x u : vec) : ph := (c, kws_init x u).

(** costEvaluation, PhantomForcesCost.cpp:72-87 *)
Definition ph_eval (s : ph) (t : R) (x u : vec) : ph * option R :=
  let '(c, w) := s in
  let w := kset_u (kset_x w x) u in
  let delta := hs_eval (ph_act c) (seg (k_x w) (ph_pos c) 2%nat) in
  let fz := seg (k_x w) (ph_force c) 2%nat in
  let phantomForce := (1 - delta) * fz in
  ((c, w), Some (/ 2 * phantomForce * phantomForce)).

(** costFirstPartialDerivativeWRTState, PhantomForcesCost.cpp:89-112 *)
Definition ph_sgrad (s : ph) (t : R) (x u g : vec) : ph * option vec :=
  let '(c, w) := s in
  let w := kset_u (kset_x w x) u in
  let pz := seg (k_x w) (ph_pos c) 2%nat in
  let delta := hs_eval (ph_act c) pz in
  let ddelta := hs_deriv (ph_act c) pz in
  let fz := seg (k_x w) (ph_force c) 2%nat in
  let phantomForce := (1 - delta) * fz in
  let w := kset_sg w (vset (k_sg w) (ph_pos c + 2) (- phantomForce * ddelta * fz)) in
  let w := kset_sg w (vset (k_sg w) (ph_force c + 2) (phantomForce * (1 - delta))) in
  ((c, w), Some (k_sg w)).

(** costSecondPartialDerivativeWRTState, PhantomForcesCost.cpp:120-143
    (line 138: the second term is not multiplied by fz) *)
Definition ph_shess (s : ph) (t : R) (x u : vec) (H : mat) : ph * option mat :=
  let '(c, w) := s in
  let w := kset_u (kset_x w x) u in
  let pz := seg (k_x w) (ph_pos c) 2%nat in
  let delta := hs_eval (ph_act c) pz in
  let ddelta := hs_deriv (ph_act c) pz in
  let dddelta := hs_dderiv (ph_act c) pz in
  let fz := seg (k_x w) (ph_force c) 2%nat in
  let phantomForce := (1 - delta) * fz in
  let pzc := (ph_pos c + 2)%nat in
  let fzc := (ph_force c + 2)%nat in
  let H := mset H pzc pzc ((ddelta * fz) * (ddelta * fz) - phantomForce * dddelta) in
  let H := mset H fzc fzc ((1 - delta) * (1 - delta)) in
  let H := mset H fzc pzc (- 2 * phantomForce * ddelta) in
  let H := mset H pzc fzc (H fzc pzc) in
  ((c, w), Some H).

(** Control gradient buffer 114-118; no-ops 145-153 *)
Definition ph_class : cost_class ph :=
  {| k_eval := ph_eval; k_sgrad := ph_sgrad; k_cgrad := buffer_cgrad;
     k_shess := ph_shess; k_chess := noop_khess; k_mhess := noop_khess |}.
(** Sparsity, PhantomForcesCost.cpp:57-66 *)
Definition ph_sup (s : ph) : supports :=
  let p := (ph_pos (fst s) + 2)%nat in let f := (ph_force (fst s) + 2)%nat in
  {| q_sgrad := [p; f]; q_cgrad := [];
     q_shess := [(p, p); (f, f); (f, p); (p, f)]; q_chess := []; q_mhess := [] |}.

(** * ForceMeanCost *)
(** ForceMeanCost.cpp:16-31: own force range and the other ones of the same foot *)
Record fm_cfg := { fm_own : nat; fm_others : list nat }.
Definition fm := (fm_cfg * kws)%type.
(** Constructor, ForceMeanCost.cpp:33-83 *)
Definition fm_ctor (c : fm_cfg) (x u : vec) : fm := (c, kws_init x u).

(** ForceMeanCost.cpp:93-101: sumOfForces and differenceFromMean *)
Definition fm_diff (c : fm_cfg) (x : vec) : vec := fun a =>
  let sum := fold_left (fun acc o => acc + seg x o a) (fm_others c) (seg x (fm_own c) a) in
  seg x (fm_own c) a - 1 / (INR (length (fm_others c)) + 1) * sum.

(** costEvaluation, ForceMeanCost.cpp:88-106 *)
Definition fm_eval (s : fm) (t : R) (x u : vec) : fm * option R :=
  let '(c, w) := s in
  let w := kset_x w x in
  let d := fm_diff c (k_x w) in
  ((c, w), Some (/ 2 * (d 0%nat * d 0%nat + d 1%nat * d 1%nat))).

(** costFirstPartialDerivativeWRTState, ForceMeanCost.cpp:108-135 *)
Definition fm_sgrad (s : fm) (t : R) (x u g : vec) : fm * option vec :=
  let '(c, w) := s in
  let w := kset_x w x in
  let inv := 1 / (INR (length (fm_others c)) + 1) in
  let d := fm_diff c (k_x w) in
  let g := set_seg (k_sg w) (fm_own c) 2 (fun a => (1 - inv) * d a) in
  let g := fold_left (fun g o => set_seg g o 2 (fun a => - inv * d a)) (fm_others c) g in
  let w := kset_sg w g in
  ((c, w), Some (k_sg w)).

(** costSecondPartialDerivativeWRTState, ForceMeanCost.cpp:143-176 *)
Definition fm_shess (s : fm) (t : R) (x u : vec) (H : mat) : fm * option mat :=
  let '(c, w) := s in
  let inv := 1 / (INR (length (fm_others c)) + 1) in
  let own := fm_own c in
  let H := set_block H own own 2 2 (scaled_identity ((1 - inv) * (1 - inv))) in
  let H := fold_left (fun H o =>
             let H := set_block H own o 2 2 (scaled_identity (- inv * (1 - inv))) in
             set_block H o own 2 2 (block_of H own o)) (fm_others c) H in
  let H := pair_loop
             (fun a H => set_block H a a 2 2 (scaled_identity (inv * inv)))
             (fun a b H => let H := set_block H a b 2 2 (scaled_identity (inv * inv)) in
                           set_block H b a 2 2 (block_of H a b)) (fm_others c) H in
  ((c, w), Some H).

(** Control gradient 137-141; no-ops 178-190 *)
Definition fm_class : cost_class fm :=
  {| k_eval := fm_eval; k_sgrad := fm_sgrad; k_cgrad := buffer_cgrad;
     k_shess := fm_shess; k_chess := noop_khess; k_mhess := noop_khess |}.
(** Sparsity, ForceMeanCost.cpp:57-82 *)
Definition fm_sup (s : fm) : supports :=
  let c := fst s in let own := fm_own c in
  {| q_sgrad := flat_map (fun o => seq o 2) (own :: fm_others c); q_cgrad := [];
     q_shess := identity_block own own 2
                ++ flat_map (fun o => identity_block own o 2 ++ identity_block o own 2) (fm_others c)
                ++ pair_list (fun a => identity_block a a 2)
                             (fun a b => identity_block a b 2 ++ identity_block b a 2) (fm_others c);
     q_chess := []; q_mhess := [] |}.

(** * ForceRatioCost *)
(** ForceRatioCost.cpp:16-32 *)
Record frt_cfg := { frt_own : nat; frt_others : list nat; frt_ratio : R }.
Definition frt := (frt_cfg * kws)%type.
(** Constructor, ForceRatioCost.cpp:34-86 (desiredRatio: line 82) *)
Definition frt_ctor (own : nat) (others : list nat) (x u : vec) : frt :=
  ({| frt_own := own; frt_others := others; frt_ratio := 1 / (INR (length others) + 1) |}, kws_init x u).
(** setDesiredRatio, ForceRatioCost.cpp:91-94 *)
Definition frt_setDesiredRatio (s : frt) (r : R) : frt :=
  ({| frt_own := frt_own (fst s); frt_others := frt_others (fst s); frt_ratio := r |}, snd s).
Definition frt_other (s s' : frt) : Prop := exists r, s' = frt_setDesiredRatio s r.

(** ForceRatioCost.cpp:101-106 *)
Definition frt_diff (c : frt_cfg) (x : vec) : R :=
  let sum := fold_left (fun acc o => acc + seg x o 2%nat) (frt_others c) (seg x (frt_own c) 2%nat) in
  seg x (frt_own c) 2%nat - frt_ratio c * sum.

(** costEvaluation, ForceRatioCost.cpp:96-111 *)
Definition frt_eval (s : frt) (t : R) (x u : vec) : frt * option R :=
  let '(c, w) := s in
  let w := kset_x w x in
  let d := frt_diff c (k_x w) in
  ((c, w), Some (/ 2 * d * d)).

(** costFirstPartialDerivativeWRTState, ForceRatioCost.cpp:113-136 *)
Definition frt_sgrad (s : frt) (t : R) (x u g : vec) : frt * option vec :=
  let '(c, w) := s in
  let w := kset_x w x in
  let d := frt_diff c (k_x w) in
  let g := vset (k_sg w) (frt_own c + 2) ((1 - frt_ratio c) * d) in
  let g := fold_left (fun g o => vset g (o + 2) (- frt_ratio c * d)) (frt_others c) g in
  let w := kset_sg w g in
  ((c, w), Some (k_sg w)).

(** costSecondPartialDerivativeWRTState, ForceRatioCost.cpp:144-167 *)
Definition frt_shess (s : frt) (t : R) (x u : vec) (H : mat) : frt * option mat :=
  let '(c, w) := s in
  let r := frt_ratio c in
  let own := (frt_own c + 2)%nat in
  let H := mset H own own ((1 - r) * (1 - r)) in
  let H := fold_left (fun H o =>
             let H := mset H own (o + 2) (- r * (1 - r)) in
             mset H (o + 2) own (H own (o + 2)%nat)) (frt_others c) H in
  let H := pair_loop
             (fun a H => mset H (a + 2) (a + 2) (r * r))
             (fun a b H => let H := mset H (a + 2) (b + 2) (r * r) in
                           mset H (b + 2) (a + 2) (H (a + 2)%nat (b + 2)%nat)) (frt_others c) H in
  ((c, w), Some H).

(** Control gradient 138-142; no-ops 169-181 *)
Definition frt_class : cost_class frt :=
  {| k_eval := frt_eval; k_sgrad := frt_sgrad; k_cgrad := buffer_cgrad;
     k_shess := frt_shess; k_chess := noop_khess; k_mhess := noop_khess |}.
(** Sparsity, ForceRatioCost.cpp:58-85 *)
Definition frt_sup (s : frt) : supports :=
  let c := fst s in let own := (frt_own c + 2)%nat in
  {| q_sgrad := map (fun o => (o + 2)%nat) (frt_own c :: frt_others c); q_cgrad := [];
     q_shess := [(own, own)]
                ++ flat_map (fun o => [(own, o + 2); (o + 2, own)]%nat) (frt_others c)
                ++ pair_list (fun a => [(a + 2, a + 2)]%nat)
                             (fun a b => [(a + 2, b + 2); (b + 2, a + 2)]%nat) (frt_others c);
     q_chess := []; q_mhess := [] |}.

(** * MeanPointPositionCost *)
(** MeanPointPositionCost.cpp:17-29 *)
Record mp_cfg := { mp_pts : list nat; mp_ref : reference vec; mp_weight : reference vec }.
Definition mp := (mp_cfg * kws)%type.
(** Constructor, MeanPointPositionCost.cpp:32-74: zero reference, unit weight *)
Definition mp_ctor (pts : list nat) (x u : vec) : mp :=
  ({| mp_pts := pts; mp_ref := fun _ => Some vzero; mp_weight := fun _ => Some (fun _ => 1) |}, kws_init x u).
(** setDesiredPositionTrajectory, MeanPointPositionCost.cpp:81-88 ([None] = null pointer) *)
Definition mp_setReference (s : mp) (r : option (reference vec)) : mp * bool :=
  match r with
  | None => (s, false)
  | Some r => (({| mp_pts := mp_pts (fst s); mp_ref := r; mp_weight := mp_weight (fst s) |}, snd s), true)
  end.
(** setTimeVaryingWeight, MeanPointPositionCost.cpp:90-95 *)
Definition mp_setWeight (s : mp) (r : reference vec) : mp :=
  ({| mp_pts := mp_pts (fst s); mp_ref := mp_ref (fst s); mp_weight := r |}, snd s).
Definition mp_other (s s' : mp) : Prop :=
  (exists r, s' = fst (mp_setReference s r)) \/ (exists r, s' = mp_setWeight s r).

(** Sum of the points, MeanPointPositionCost.cpp:102-105 (pointRanges[0] exists by
    the assert of line 48; 0 is returned here for an empty list). *)
Definition mp_sum (pts : list nat) (x : vec) (a : nat) : R :=
  match pts with
  | [] => 0
  | p :: r => fold_left (fun acc o => acc + seg x o a) r (seg x p a)
  end.

(** costEvaluation, MeanPointPositionCost.cpp:97-132 *)
Definition mp_eval (s : mp) (t : R) (x u : vec) : mp * option R :=
  let '(c, w) := s in
  let w := kset_x w x in
  let mean := fun a => mp_sum (mp_pts c) (k_x w) a / INR (length (mp_pts c)) in
  match mp_ref c t with
  | None => ((c, w), None)
  | Some desired =>
    match mp_weight c t with
    | None => ((c, w), None)
    | Some weight =>
      let d := fun a => mean a - desired a in
      ((c, w), Some (/ 2 * (d 0%nat * weight 0%nat * d 0%nat + d 1%nat * weight 1%nat * d 1%nat
                            + d 2%nat * weight 2%nat * d 2%nat)))
    end
  end.

(** costFirstPartialDerivativeWRTState, MeanPointPositionCost.cpp:134-177 *)
Definition mp_sgrad (s : mp) (t : R) (x u g : vec) : mp * option vec :=
  let '(c, w) := s in
  let w := kset_x w x in
  let inv := 1 / INR (length (mp_pts c)) in
  let mean := fun a => mp_sum (mp_pts c) (k_x w) a * inv in
  match mp_ref c t with
  | None => ((c, w), None)
  | Some desired =>
    match mp_weight c t with
    | None => ((c, w), None)
    | Some weight =>
      let d := fun a => mean a - desired a in
      let g := fold_left (fun g o => set_seg g o 3 (fun a => weight a * inv * d a)) (mp_pts c) (k_sg w) in
      let w := kset_sg w g in
      ((c, w), Some (k_sg w))
    end
  end.

(** costSecondPartialDerivativeWRTState, MeanPointPositionCost.cpp:186-216 *)
Definition mp_shess (s : mp) (t : R) (x u : vec) (H : mat) : mp * option mat :=
  let '(c, w) := s in
  let inv := 1 / INR (length (mp_pts c)) in
  match mp_weight c t with
  | None => ((c, w), None)
  | Some weight =>
    let blk := fun a b => if Nat.eqb a b then weight a * inv * inv else 0 in
    let H := pair_loop
               (fun a H => set_block H a a 3 3 blk)
               (fun a b H => let H := set_block H a b 3 3 blk in
                             set_block H b a 3 3 (block_of H a b)) (mp_pts c) H in
    ((c, w), Some H)
  end.

(** Control gradient 179-184; no-ops 218-229 *)
Definition mp_class : cost_class mp :=
  {| k_eval := mp_eval; k_sgrad := mp_sgrad; k_cgrad := buffer_cgrad;
     k_shess := mp_shess; k_chess := noop_khess; k_mhess := noop_khess |}.
(** Sparsity, MeanPointPositionCost.cpp:59-72 *)
Definition mp_sup (s : mp) : supports :=
  let pts := mp_pts (fst s) in
  {| q_sgrad := flat_map (fun o => seq o 3) pts; q_cgrad := [];
     q_shess := pair_list (fun a => identity_block a a 3)
                          (fun a b => identity_block a b 3 ++ identity_block b a 3) pts;
     q_chess := []; q_mhess := [] |}.

(** * FeetDistanceCost *)
(** FeetDistanceCost.cpp:17-29.  [fd_all]: the points of both feet in label order,
    with [true] for the left foot (local vector allPoints, lines 39-52). *)
Record fd_cfg := { fd_left : list nat; fd_right : list nat; fd_hess : mat }.
Definition fd := (fd_cfg * kws)%type.

(** diagonalValue, FeetDistanceCost.cpp:66-83 *)
Definition fd_diagonal (nL nR : R) (i j : nat * bool) : R :=
  if snd i then if snd j then nL * nL else - nL * nR
  else if snd j then - nL * nR else nR * nR.

(** Constructor, FeetDistanceCost.cpp:31-109, from the list of all the points in
    label order. *)
Definition fd_points (all : list (nat * bool)) (b : bool) : list nat :=
  map fst (filter (fun p => Bool.eqb (snd p) b) all).
Definition fd_ctor_hess (all : list (nat * bool)) : mat :=
  let nL := INR (length (fd_points all true)) in
  let nR := INR (length (fd_points all false)) in
  pair_loop
    (fun a H => set_block H (fst a) (fst a) 3 3 (scaled_identity (1 / fd_diagonal nL nR a a)))
    (fun a b H => let H := set_block H (fst a) (fst b) 3 3 (scaled_identity (1 / fd_diagonal nL nR a b)) in
                  set_block H (fst b) (fst a) 3 3 (block_of H (fst a) (fst b))) all mzero.
Definition fd_ctor (all : list (nat * bool)) (x u : vec) : fd :=
  ({| fd_left := fd_points all true; fd_right := fd_points all false; fd_hess := fd_ctor_hess all |}, kws_init x u).
(** Sparsity pairs collected by the constructor, FeetDistanceCost.cpp:91-101 *)
Definition fd_sparsity (all : list (nat * bool)) : list (nat * nat) :=
  pair_list (fun a => identity_block (fst a) (fst a) 3)
            (fun a b => identity_block (fst a) (fst b) 3 ++ identity_block (fst b) (fst a) 3) all.

(** FeetDistanceCost.cpp:120-132 ([front()] as in [mp_sum]; assert of line 53) *)
Definition fd_distance (c : fd_cfg) (x : vec) (a : nat) : R :=
  mp_sum (fd_left c) x a / INR (length (fd_left c)) - mp_sum (fd_right c) x a / INR (length (fd_right c)).

(** costEvaluation, FeetDistanceCost.cpp:116-137 *)
Definition fd_eval (s : fd) (t : R) (x u : vec) : fd * option R :=
  let '(c, w) := s in
  let w := kset_x w x in
  let d := fd_distance c (k_x w) in
  ((c, w), Some (/ 2 * (d 0%nat * d 0%nat + d 1%nat * d 1%nat + d 2%nat * d 2%nat))).

(** costFirstPartialDerivativeWRTState, FeetDistanceCost.cpp:139-172 *)
Definition fd_sgrad (s : fd) (t : R) (x u g : vec) : fd * option vec :=
  let '(c, w) := s in
  let w := kset_x w x in
  let d := fd_distance c (k_x w) in
  let g := fold_left (fun g o => set_seg g o 3 (fun a => d a / INR (length (fd_left c)))) (fd_left c) g in
  let g := fold_left (fun g o => set_seg g o 3 (fun a => - d a / INR (length (fd_right c)))) (fd_right c) g in
  ((c, w), Some g).

(** costSecondPartialDerivativeWRTState, FeetDistanceCost.cpp:179-184 *)
Definition fd_shess (s : fd) (t : R) (x u : vec) (H : mat) : fd * option mat :=
  (s, Some (fd_hess (fst s))).

(** No-ops 174-177 and 186-197 *)
Definition fd_class : cost_class fd :=
  {| k_eval := fd_eval; k_sgrad := fd_sgrad; k_cgrad := noop_grad;
     k_shess := fd_shess; k_chess := noop_khess; k_mhess := noop_khess |}.
Definition fd_sup (all : list (nat * bool)) (s : fd) : supports :=
  {| q_sgrad := flat_map (fun o => seq o 3) (fd_left (fst s) ++ fd_right (fst s)); q_cgrad := [];
     q_shess := fd_sparsity all; q_chess := []; q_mhess := [] |}.

(** * FootYawCost *)
(** FootYawCost.cpp:18-31 *)
Record fy_cfg := { fy_ref : reference R; fy_init : R; fy_br : nat; fy_tr : nat; fy_tl : nat }.
Definition fy := (fy_cfg * kws)%type.

(** The running choice of the three corners, FootYawCost.cpp:54-82: each is the
    index chosen so far (None = pointsPosition.size()) with its value. *)
Record fy_sel := { sel_br : option nat; sel_brv : R; sel_tr : option nat; sel_trv : R; sel_tl : option nat; sel_tlv : R }.
Definition fy_better (cur : option nat) (v best : R) : bool :=
  match cur with None => true | Some _ => if Rlt_dec best v then true else false end.
Definition fy_select_step (cx cy : R) (s : fy_sel) (ip : nat * (R * R)) : fy_sel :=
  let '(i, p) := ip in
  let rx := fst p - cx in let ry := snd p - cy in
  if Rlt_dec ry 0 then
    if Rlt_dec rx 0 then
      if fy_better (sel_br s) (rx * ry) (sel_brv s)
      then {| sel_br := Some i; sel_brv := rx * ry; sel_tr := sel_tr s; sel_trv := sel_trv s; sel_tl := sel_tl s; sel_tlv := sel_tlv s |}
      else s
    else if Rlt_dec 0 rx then
      if fy_better (sel_tr s) (- rx * ry) (sel_trv s)
      then {| sel_br := sel_br s; sel_brv := sel_brv s; sel_tr := Some i; sel_trv := - rx * ry; sel_tl := sel_tl s; sel_tlv := sel_tlv s |}
      else s
    else s
  else if Rlt_dec 0 rx then
    if fy_better (sel_tl s) (rx * ry) (sel_tlv s)
    then {| sel_br := sel_br s; sel_brv := sel_brv s; sel_tr := sel_tr s; sel_trv := sel_trv s; sel_tl := Some i; sel_tlv := rx * ry |}
    else s
  else s.
(** Centroid and loop, FootYawCost.cpp:42-82 *)
Definition fy_select (pts : list (R * R)) : fy_sel :=
  let n := INR (length pts) in
  let cx := fold_left (fun a p => a + fst p) pts 0 / n in
  let cy := fold_left (fun a p => a + snd p) pts 0 / n in
  fold_left (fy_select_step cx cy) (combine (seq 0 (length pts)) pts)
    {| sel_br := None; sel_brv := 0; sel_tr := None; sel_trv := 0; sel_tl := None; sel_tlv := 0 |}.

(** Constructor, FootYawCost.cpp:33-122.  [std::atan2] is the mathematical function of
    SpecCosts.v.  [off i] is the offset of the range of the foot's point [i].  The asserts of
    lines 83-88 are the [None] outcome. *)
Definition fy_ctor (off : nat -> nat) (pts : list (R * R)) (x u : vec) : option fy :=
  let sel := fy_select pts in
  match sel_br sel, sel_tr sel, sel_tl sel with
  | Some b, Some r, Some l =>
      let pb := nth b pts (0, 0) in let pr := nth r pts (0, 0) in
      Some ({| fy_ref := fun _ => Some 0; fy_init := atan2 (snd pr - snd pb) (fst pr - fst pb);
               fy_br := off b; fy_tr := off r; fy_tl := off l |}, kws_init x u)
  | _, _, _ => None
  end.
(** setDesiredYawTrajectory, FootYawCost.cpp:127-132 *)
Definition fy_setReference (s : fy) (r : reference R) : fy :=
  let c := fst s in
  ({| fy_ref := r; fy_init := fy_init c; fy_br := fy_br c; fy_tr := fy_tr c; fy_tl := fy_tl c |}, snd s).
Definition fy_other (s s' : fy) : Prop := exists r, s' = fy_setReference s r.

(** The two errors, FootYawCost.cpp:145-151 and 167-176 *)
Definition fy_topBottom (c : fy_cfg) (x : vec) (yaw : R) : R :=
  (seg x (fy_tr c) 1%nat - seg x (fy_br c) 1%nat) * cos yaw - (seg x (fy_tr c) 0%nat - seg x (fy_br c) 0%nat) * sin yaw.
Definition fy_left (c : fy_cfg) (x : vec) (yaw : R) : R :=
  (seg x (fy_tl c) 0%nat - seg x (fy_tr c) 0%nat) * cos yaw + (seg x (fy_tl c) 1%nat - seg x (fy_tr c) 1%nat) * sin yaw.

(** costEvaluation, FootYawCost.cpp:134-156; an invalid reference trips the assert of
    line 140, represented as [None]. *)
Definition fy_eval (s : fy) (t : R) (x u : vec) : fy * option R :=
  let '(c, w) := s in
  let w := kset_x w x in
  match fy_ref c t with
  | None => ((c, w), None)
  | Some r =>
    let yaw := r - fy_init c in
    let e1 := fy_topBottom c (k_x w) yaw in
    let e2 := fy_left c (k_x w) yaw in
    ((c, w), Some (/ 2 * e1 * e1 + / 2 * e2 * e2))
  end.

(** costFirstPartialDerivativeWRTState, FootYawCost.cpp:158-187 *)
Definition fy_sgrad (s : fy) (t : R) (x u g : vec) : fy * option vec :=
  let '(c, w) := s in
  let w := kset_x w x in
  match fy_ref c t with
  | None => ((c, w), None)
  | Some r =>
    let yaw := r - fy_init c in
    let e1 := fy_topBottom c (k_x w) yaw in
    let e2 := fy_left c (k_x w) yaw in
    let sy := sin yaw in let cy := cos yaw in
    let g := vset g (fy_tr c) (- e1 * sy - e2 * cy) in
    let g := vset g (fy_tr c + 1) (e1 * cy - e2 * sy) in
    let g := vset g (fy_br c) (e1 * sy) in
    let g := vset g (fy_br c + 1) (- e1 * cy) in
    let g := vset g (fy_tl c) (e2 * cy) in
    let g := vset g (fy_tl c + 1) (e2 * sy) in
    ((c, w), Some g)
  end.

(** The 2x2 blocks, FootYawCost.cpp:208-218 *)
Definition fy_tb_block (sy cy : R) (a b : nat) : R :=
  match a, b with O, O => sy * sy | S _, S _ => cy * cy | _, _ => - sy * cy end.
Definition fy_lr_block (sy cy : R) (a b : nat) : R :=
  match a, b with O, O => cy * cy | S _, S _ => sy * sy | _, _ => sy * cy end.

(** costSecondPartialDerivativeWRTState, FootYawCost.cpp:194-231 *)
Definition fy_shess (s : fy) (t : R) (x u : vec) (H : mat) : fy * option mat :=
  let '(c, w) := s in
  let w := kset_x w x in
  match fy_ref c t with
  | None => ((c, w), None)
  | Some r =>
    let yaw := r - fy_init c in
    let sy := sin yaw in let cy := cos yaw in
    let tr := fy_tr c in let br := fy_br c in let tl := fy_tl c in
    let tb := fy_tb_block sy cy in let lr := fy_lr_block sy cy in
    let H := set_block H tr tr 2 2 (fun a b => tb a b + lr a b) in
    let H := set_block H br br 2 2 tb in
    let H := set_block H tr br 2 2 (fun a b => - tb a b) in
    let H := set_block H br tr 2 2 (fun a b => - tb a b) in
    let H := set_block H tl tl 2 2 lr in
    let H := set_block H tr tl 2 2 (fun a b => - lr a b) in
    let H := set_block H tl tr 2 2 (fun a b => - lr a b) in
    ((c, w), Some H)
  end.

(** No-ops 189-192 and 233-243 *)
Definition fy_class : cost_class fy :=
  {| k_eval := fy_eval; k_sgrad := fy_sgrad; k_cgrad := noop_grad;
     k_shess := fy_shess; k_chess := noop_khess; k_mhess := noop_khess |}.
(** Sparsity, FootYawCost.cpp:99-121 *)
Definition fy_sup (s : fy) : supports :=
  let tr := fy_tr (fst s) in let br := fy_br (fst s) in let tl := fy_tl (fst s) in
  {| q_sgrad := [tr; tr + 1; br; br + 1; tl; tl + 1]%nat; q_cgrad := [];
     q_shess := dense_block tr tr 2 2 ++ dense_block br br 2 2 ++ dense_block tr br 2 2 ++ dense_block br tr 2 2
                ++ dense_block tl tl 2 2 ++ dense_block tr tl 2 2 ++ dense_block tl tr 2 2;
     q_chess := []; q_mhess := [] |}.

(** * JointsVelocityForPosturalCost *)
(** JointsVelocityForPosturalCost.cpp:14-23 *)
Record jp_cfg := {
  jp_joints : nat; jp_vel : nat; jp_n : nat;
  jp_w : vec;      (* jointsWeights *)
  jp_wg : vec;     (* posturalGains, already multiplied by the weights *)
  jp_wg2 : vec; jp_w2 : vec; jp_wgw : vec; (* squared vectors and product *)
  jp_ref : reference vec
}.
Definition jp := (jp_cfg * kws)%type.
(** Constructor, JointsVelocityForPosturalCost.cpp:25-78 *)
Definition jp_ctor (joints vel n : nat) (weights gains : vec) (ref : reference vec) (x u : vec) : jp :=
  let wg := fun i => weights i * gains i in
  ({| jp_joints := joints; jp_vel := vel; jp_n := n; jp_w := weights; jp_wg := wg;
      jp_wg2 := fun i => wg i * wg i; jp_w2 := fun i => weights i * weights i;
      jp_wgw := fun i => wg i * weights i; jp_ref := ref |}, kws_init x u).

(** jointsBuffer, JointsVelocityForPosturalCost.cpp:94-99 *)
Definition jp_buffer (c : jp_cfg) (x u desired : vec) : vec := fun i =>
  jp_w c i * seg u (jp_vel c) i + jp_wg c i * (seg x (jp_joints c) i - desired i).

(** costEvaluation, JointsVelocityForPosturalCost.cpp:85-104; the assert of line 92 on
    the validity of the reference is the [None] outcome. *)
Definition jp_eval (s : jp) (t : R) (x u : vec) : jp * option R :=
  let '(c, w) := s in
  let w := kset_u (kset_x w x) u in
  match jp_ref c t with
  | None => ((c, w), None)
  | Some d => let b := jp_buffer c (k_x w) (k_u w) d in
              ((c, w), Some (/ 2 * sumn (jp_n c) (fun i => b i * b i)))
  end.
(** costFirstPartialDerivativeWRTState, JointsVelocityForPosturalCost.cpp:106-126 *)
Definition jp_sgrad (s : jp) (t : R) (x u g : vec) : jp * option vec :=
  let '(c, w) := s in
  let w := kset_u (kset_x w x) u in
  match jp_ref c t with
  | None => ((c, w), None)
  | Some d => let b := jp_buffer c (k_x w) (k_u w) d in
              ((c, w), Some (set_seg g (jp_joints c) (jp_n c) (fun i => jp_wg c i * b i)))
  end.
(** costFirstPartialDerivativeWRTControl, JointsVelocityForPosturalCost.cpp:128-148 *)
Definition jp_cgrad (s : jp) (t : R) (x u g : vec) : jp * option vec :=
  let '(c, w) := s in
  let w := kset_u (kset_x w x) u in
  match jp_ref c t with
  | None => ((c, w), None)
  | Some d => let b := jp_buffer c (k_x w) (k_u w) d in
              ((c, w), Some (set_seg g (jp_vel c) (jp_n c) (fun i => jp_w c i * b i)))
  end.
Definition diagonal (d : vec) : nat -> nat -> R := fun a b => if Nat.eqb a b then d a else 0.
(** costSecondPartialDerivativeWRTState, JointsVelocityForPosturalCost.cpp:150-157 *)
Definition jp_shess (s : jp) (t : R) (x u : vec) (H : mat) : jp * option mat :=
  let c := fst s in
  (s, Some (set_block H (jp_joints c) (jp_joints c) (jp_n c) (jp_n c) (diagonal (jp_wg2 c)))).
(** costSecondPartialDerivativeWRTControl, JointsVelocityForPosturalCost.cpp:159-165 *)
Definition jp_chess (s : jp) (t : R) (x u : vec) (H : mat) : jp * option mat :=
  let c := fst s in
  (s, Some (set_block H (jp_vel c) (jp_vel c) (jp_n c) (jp_n c) (diagonal (jp_w2 c)))).
(** costSecondPartialDerivativeWRTStateControl, JointsVelocityForPosturalCost.cpp:167-174 *)
Definition jp_mhess (s : jp) (t : R) (x u : vec) (H : mat) : jp * option mat :=
  let c := fst s in
  (s, Some (set_block H (jp_joints c) (jp_vel c) (jp_n c) (jp_n c) (diagonal (jp_wgw c)))).
Definition jp_class : cost_class jp :=
  {| k_eval := jp_eval; k_sgrad := jp_sgrad; k_cgrad := jp_cgrad;
     k_shess := jp_shess; k_chess := jp_chess; k_mhess := jp_mhess |}.
(** Sparsity, JointsVelocityForPosturalCost.cpp:67-77 *)
Definition jp_sup (s : jp) : supports :=
  let c := fst s in
  {| q_sgrad := seq (jp_joints c) (jp_n c); q_cgrad := seq (jp_vel c) (jp_n c);
     q_shess := identity_block (jp_joints c) (jp_joints c) (jp_n c);
     q_chess := identity_block (jp_vel c) (jp_vel c) (jp_n c);
     q_mhess := identity_block (jp_joints c) (jp_vel c) (jp_n c) |}.

(** * LinearMomentumReference (CoMVelocityCost.cpp:16-57) *)
(** A vector of arbitrary size as returned by a TimeVaryingVector. *)
Record lm := { lm_mass : R; lm_ref : reference (list R); lm_buf : list R }.
(** Constructor, CoMVelocityCost.cpp:22-27 *)
Definition lm_ctor (mass : R) : lm :=
  {| lm_mass := mass; lm_ref := fun _ => Some [0; 0; 0]; lm_buf := [0; 0; 0] |}.
(** setLinearVelocityReference, CoMVelocityCost.cpp:31-33 *)
Definition lm_setReference (s : lm) (r : reference (list R)) : lm :=
  {| lm_mass := lm_mass s; lm_ref := r; lm_buf := lm_buf s |}.
(** get, CoMVelocityCost.cpp:36-56: the returned vector and isValid *)
Definition lm_get (s : lm) (t : R) : lm * (list R * bool) :=
  match lm_ref s t with
  | None => let b := [0; 0; 0] in ({| lm_mass := lm_mass s; lm_ref := lm_ref s; lm_buf := b |}, (b, false))
  | Some v =>
    if Nat.eqb (length v) 3 then
      let b := map (fun a => lm_mass s * a) v in
      ({| lm_mass := lm_mass s; lm_ref := lm_ref s; lm_buf := b |}, (b, true))
    else let b := [0; 0; 0] in ({| lm_mass := lm_mass s; lm_ref := lm_ref s; lm_buf := b |}, (b, false))
  end.
(** Total mass, CoMVelocityCost.cpp:73-80, from the masses of the links. *)
Definition lm_totalMass (links : list R) : R := fold_left (fun m l => m + l) links 0.

(** * FeetRelativeHeightConstraint *)
(** FeetRelativeHeightConstraint.cpp:14-26 *)
Record fh_cfg := { fh_left : list nat; fh_right : list nat; fh_max : R }.
Definition fh := (fh_cfg * ws)%type.
(** Constructor, FeetRelativeHeightConstraint.cpp:30-84 (buffer: 57-66) *)
Definition fh_ctor (c : fh_cfg) (x u : vec) : fh :=
  let w := ws_init x u in
  let J := fold_left (fun J o => mset J 0 (o + 2) (1 / INR (length (fh_left c)))) (fh_left c) mzero in
  let J := fold_left (fun J o => mset J 0 (o + 2) (- 1 / INR (length (fh_right c)))) (fh_right c) J in
  (c, set_sj w J).
(** evaluateConstraint, FeetRelativeHeightConstraint.cpp:89-108 *)
Definition fh_eval (s : fh) (t : R) (x u : vec) : fh * vec :=
  let '(c, w) := s in
  let w := set_x w x in
  let l := fold_left (fun acc o => acc + w_x w (o + 2)%nat) (fh_left c) 0 / INR (length (fh_left c)) in
  let r := fold_left (fun acc o => acc + w_x w (o + 2)%nat) (fh_right c) 0 / INR (length (fh_right c)) in
  ((c, w), vset vzero 0 (l - r)).
(** constraintJacobianWRTState 110-117, WRTControl 119-123 *)
Definition fh_sjac (s : fh) (t : R) (x u : vec) (J : mat) : fh * mat := (s, w_sj (snd s)).
Definition fh_cjac (s : fh) (t : R) (x u : vec) (J : mat) : fh * mat := (s, w_cj (snd s)).
(** Hessians 147-169: no-ops *)
Definition fh_class : constraint_class fh :=
  {| c_eval := fh_eval; c_sjac := fh_sjac; c_cjac := fh_cjac;
     c_shess := noop_hess; c_chess := noop_hess; c_mhess := noop_hess |}.
(** Sparsity, FeetRelativeHeightConstraint.cpp:38-54, 77-80 *)
Definition fh_patterns (s : fh) : patterns :=
  {| p_sjac := map (fun o => (0, o + 2)%nat) (fh_left (fst s)) ++ map (fun o => (0, o + 2)%nat) (fh_right (fst s));
     p_cjac := []; p_shess := []; p_chess := []; p_mhess := [] |}.
(** Bounds, FeetRelativeHeightConstraint.cpp:71-75 *)
Definition fh_lower (s : fh) : option vec := Some (fun _ => - fh_max (fst s)).
Definition fh_upper (s : fh) : option vec := Some (fun _ => fh_max (fst s)).
