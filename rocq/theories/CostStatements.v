(** Link between the cost objects of the model and the documented values. *)
From Coq Require Import Reals List Arith.
From Verif Require Import Spec SpecConstraints SpecCosts Smoothing ConstraintsModel ConstraintStatements CostsModel.
Import ListNotations.
Local Open Scope R_scope.

Definition sw_value (s : sw) (t : R) (x u : vec) : R :=
  let c := fst s in
  swing_value (sw_w c) (sw_h c) (sw_pos c + 2) (sw_vel c) (sw_vel c + 1) (sw_vel c + 2) x u.
Definition kc_value (s : kc) (t : R) (x u : vec) : R :=
  complementarity_cost_value (kc_force (fst s) + 2) (kc_vel (fst s) + 2) x u.
Definition ph_value (s : ph) (t : R) (x u : vec) : R :=
  let c := fst s in
  phantom_value (smooth_bump (sm_K (ph_act c)) (disabled_of (ph_act c))) (ph_pos c + 2) (ph_force c + 2) x.
Definition fm_value (s : fm) (t : R) (x u : vec) : R :=
  force_mean_value (fm_own (fst s)) (fm_own (fst s) :: fm_others (fst s)) x.
Definition frt_value (s : frt) (t : R) (x u : vec) : R :=
  force_ratio_value (frt_ratio (fst s)) (frt_own (fst s)) (frt_own (fst s) :: frt_others (fst s)) x.
Definition vor (o : option vec) : vec := match o with Some v => v | None => vzero end.
Definition mp_value (s : mp) (t : R) (x u : vec) : R :=
  let c := fst s in mean_point_value (mp_pts c) (vor (mp_ref c t)) (vor (mp_weight c t)) x.
Definition mp_valid (s : mp) (t : R) : Prop := mp_ref (fst s) t <> None /\ mp_weight (fst s) t <> None.
Definition fd_value (s : fd) (t : R) (x u : vec) : R :=
  feet_distance_value (fd_left (fst s)) (fd_right (fst s)) x.
(** The yaw the object aims at is the reference minus the yaw stored at construction. *)
Definition fy_yaw (s : fy) (t : R) : R :=
  match fy_ref (fst s) t with Some r => r - fy_init (fst s) | None => 0 end.
Definition fy_value (s : fy) (t : R) (x u : vec) : R :=
  foot_yaw_value (fy_yaw s t) (fy_br (fst s)) (fy_tr (fst s)) (fy_tl (fst s)) x.
Definition fy_valid (s : fy) (t : R) : Prop := fy_ref (fst s) t <> None.
(** The configuration stores the weights, the gains multiplied by the weights and their
    products; the documented value is in terms of weights and gains, so it is stated
    relative to the constructor arguments. *)
Definition jp_value (joints vel n : nat) (weights gains : vec) (ref : reference vec) (s : jp) (t : R) (x u : vec) : R :=
  postural_value n weights gains (vor (ref t)) joints vel x u.
Definition jp_valid (s : jp) (t : R) : Prop := jp_ref (fst s) t <> None.
Definition fh_value (s : fh) (t : R) (x u : vec) : vec :=
  feet_height_value (fh_left (fst s)) (fh_right (fst s)) x.

(** Offsets of the left / right points of a labelled list. *)
Definition side (all : list (nat * bool)) (b : bool) : list nat :=
  map fst (filter (fun p => Bool.eqb (snd p) b) all).
