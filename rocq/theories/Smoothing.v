(** Model of the smoothing (activation) functions.
    src/private/SmoothingFunction.cpp, HyperbolicTangent.cpp, HyperbolicSecant.cpp *)
From Coq Require Import Reals.
Local Open Scope R_scope.

(** SmoothingFunction.h members, defaults of SmoothingFunction.cpp:13-18. *)
Record smoothing := { sm_K : R; sm_disabled : bool; sm_value : R }.

(** SmoothingFunction::SmoothingFunction, SmoothingFunction.cpp:13-18 *)
Definition smoothing_ctor : smoothing := {| sm_K := 1; sm_disabled := false; sm_value := 1 |}.

(** SmoothingFunction::setScaling, SmoothingFunction.cpp:22-25 *)
Definition smoothing_setScaling (s : smoothing) (K : R) : smoothing :=
  {| sm_K := K; sm_disabled := sm_disabled s; sm_value := sm_value s |}.

(** SmoothingFunction::disable, SmoothingFunction.cpp:27-31 *)
Definition smoothing_disable (s : smoothing) (v : R) : smoothing :=
  {| sm_K := sm_K s; sm_disabled := true; sm_value := v |}.

(** HyperbolicTangent::eval, HyperbolicTangent.cpp:19-25 *)
Definition ht_eval (s : smoothing) (x : R) : R :=
  if sm_disabled s then sm_value s else tanh (sm_K s * x).

(** HyperbolicTangent::evalDerivative, HyperbolicTangent.cpp:27-34 *)
Definition ht_deriv (s : smoothing) (x : R) : R :=
  if sm_disabled s then 0
  else let sech := 1 / cosh (sm_K s * x) in sm_K s * (sech * sech).

(** HyperbolicTangent::evalDoubleDerivative, HyperbolicTangent.cpp:36-43 *)
Definition ht_dderiv (s : smoothing) (x : R) : R :=
  if sm_disabled s then 0
  else let sech := 1 / cosh (sm_K s * x) in
       - 2 * (sm_K s * sm_K s) * ht_eval s x * (sech * sech).

(** HyperbolicSecant::eval, HyperbolicSecant.cpp:19-25 *)
Definition hs_eval (s : smoothing) (x : R) : R :=
  if sm_disabled s then sm_value s else 1 / cosh (sm_K s * x).

(** HyperbolicSecant::evalDerivative, HyperbolicSecant.cpp:27-33 *)
Definition hs_deriv (s : smoothing) (x : R) : R :=
  if sm_disabled s then 0 else - hs_eval s x * tanh (sm_K s * x) * sm_K s.

(** HyperbolicSecant::evalDoubleDerivative, HyperbolicSecant.cpp:35-42 *)
Definition hs_dderiv (s : smoothing) (x : R) : R :=
  if sm_disabled s then 0
  else - hs_deriv s x * tanh (sm_K s * x) * sm_K s
       - hs_eval s x * (1 - tanh (sm_K s * x) * tanh (sm_K s * x)) * (sm_K s * sm_K s).
