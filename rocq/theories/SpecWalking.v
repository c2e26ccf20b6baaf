(** Independent vocabulary for C43. *)
From Coq Require Import Reals List Arith Bool Lra Lia.
From Verif Require Import SpecState SpecGeometry SpecReference SpecContainers.
Import ListNotations.
Local Open Scope R_scope.

(** Both feet have points. *)
Definition has_feet {Rot} (s : state Rot) : Prop := leftContactPointsState s <> [] /\ rightContactPointsState s <> [].
(** [foot] is the foot whose mean position is further in the direction [d] (the
    right one in case of a tie). *)
Definition forward_foot {Rot} (d : V3) (s : state Rot) (foot : list point_state) : Prop :=
  exists ml mr, is_mean ml (map pointPosition (leftContactPointsState s)) /\
    is_mean mr (map pointPosition (rightContactPointsState s)) /\
    (dot3 mr d < dot3 ml d -> foot = leftContactPointsState s) /\
    (dot3 ml d <= dot3 mr d -> foot = rightContactPointsState s).
(** Total time of a list of (current, future) inputs. *)
Definition total_time {Rot} (l : list (state Rot * state Rot)) : R := fold_right (fun cf a => stateTime (fst cf) + a) 0 l.
Definition distance3 (a b : V3) : R := sqrt (dist2 a b).
Definition well_formed (r : timerange) : Prop := anyTime r = false /\ initTime r <= endTime r.
