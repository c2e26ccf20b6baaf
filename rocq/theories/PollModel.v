(** Model of the two loops of CentroidalMomentumConstraint.cpp that wait for the evaluations started with std::async.

    What an evaluation returns is a value fixed when it is started: that the evaluations run in several threads over shared
    expressions is not modelled, nor are exceptions.  Time is the index of the iteration of the loop. *)
From Coq Require Import Reals List Arith Bool.
From Verif Require Import Spec SpecCmm CostsModel SpecBase KinModel SymModel BaseModel MomModel CmmModel.
Import ListNotations.
Local Open Scope R_scope.

(** One of the evaluations: the block of the matrix its result is written to, whether the future still has its state
    (std::future::valid: get gives it up), and the flag of the loop. *)
Record async := Async { a_write : mat -> mat; a_valid : bool; a_done : bool }.
(** std::async: the future is valid; bool xxxDone = false. *)
Definition launch (write : mat -> mat) : async := Async write true false.

Inductive outcome := Running | Undefined | Ended (H : mat) (taken : list nat).

(** The body of the loop (CentroidalMomentumConstraint.cpp:503-530, 571-631): ready k is what wait_for answers for the k-th
    future in this iteration.  The results taken so far are listed, the last one first.  None: wait_for or get on a future
    without state, which is undefined. *)
Fixpoint poll_round (ready : nat -> bool) (k : nat) (fs : list async) (H : mat) (taken : list nat) : option (list async * mat * list nat) :=
  match fs with
  | [] => Some ([], H, taken)
  | f :: rest =>
      let continue f H taken := match poll_round ready (S k) rest H taken with Some (fs', H', t') => Some (f :: fs', H', t') | None => None end in
      if negb (a_done f)
      then if a_valid f
           then if ready k then continue (Async (a_write f) false true) (a_write f H) (k :: taken) else continue f H taken
           else None
      else continue f H taken
  end.
(** while (!done || ...) { ... }: n is the index of the iteration, fuel the number of iterations looked at. *)
Fixpoint poll (ready : nat -> nat -> bool) (fuel n : nat) (fs : list async) (H : mat) (taken : list nat) : outcome :=
  if existsb (fun f => negb (a_done f)) fs
  then match fuel with
       | O => Running
       | S fuel' => match poll_round (ready n) 0 fs H taken with
                    | Some (fs', H', t') => poll ready fuel' (S n) fs' H' t'
                    | None => Undefined
                    end
       end
  else Ended H taken.

Section Hessians.
Variable dofs : nat.
Variable second : nat -> nat -> rstate -> vec -> mat.
(** CentroidalMomentumConstraint.cpp:492-494, 507-528. *)
Definition state_jobs (c : layout) (st : rstate) (lambda : vec) : list async :=
  let q := at_quaternion c in
  let j := at_joints c in
  [ launch (fun H => set_block H q q 4 4 (second v_q v_q st lambda));
    launch (fun H => let m := second v_q v_s st lambda in set_block (set_block H j q dofs 4 (fun a b => m b a)) q j 4 dofs m);
    launch (fun H => set_block H j j dofs dofs (second v_s v_s st lambda)) ].
(** CentroidalMomentumConstraint.cpp:550-555, 580-629. *)
Definition mixed_jobs (c : layout) (st : rstate) (lambda : vec) : list async :=
  let q := at_quaternion c in
  let j := at_joints c in
  [ launch (fun H => set_block H q (at_linear c) 4 3 (second v_q v_lin st lambda));
    launch (fun H => set_block H q (at_quaternion_rate c) 4 4 (second v_q v_qdot st lambda));
    launch (fun H => set_block H q (at_joint_rates c) 4 dofs (second v_q v_sdot st lambda));
    launch (fun H => set_block H j (at_linear c) dofs 3 (second v_s v_lin st lambda));
    launch (fun H => set_block H j (at_quaternion_rate c) dofs 4 (second v_s v_qdot st lambda));
    launch (fun H => set_block H j (at_joint_rates c) dofs dofs (second v_s v_sdot st lambda)) ].
(** constraintSecondPartialDerivativeWRTState, WRTStateControl: the matrix left after at most fuel iterations. *)
Definition state_hessian_loop (ready : nat -> nat -> bool) (fuel : nat) (s : cmm) (t : R) (x u lambda : vec) (H : mat) : outcome :=
  poll ready fuel 0 (state_jobs (cm_cfg s) (cm_shared (cmm_update dofs s t x u) t) lambda) H [].
Definition mixed_hessian_loop (ready : nat -> nat -> bool) (fuel : nat) (s : cmm) (t : R) (x u lambda : vec) (H : mat) : outcome :=
  poll ready fuel 0 (mixed_jobs (cm_cfg s) (cm_shared (cmm_update dofs s t x u) t) lambda) H [].
End Hessians.
