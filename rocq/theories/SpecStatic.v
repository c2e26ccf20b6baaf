(** When a set of wrenches keeps a robot still (C73).  Nothing here mentions the model of the code. *)
From Coq Require Import Reals List Arith Bool.
From Coquelicot Require Import Coquelicot.
From Verif Require Import Spec SpecRigid SpecMom.
Import ListNotations.
Local Open Scope R_scope.

(** Link [c] hangs from link [l] in the tree of [base]. *)
Definition hangs (base : nat) (up : nat -> option (nat * nat)) (c l : nat) : bool :=
  negb (c =? base)%nat && match up c with Some (p, _) => (p =? l)%nat | None => false end.

(** The robot is still at [s] in a field of gravity: seen from the base the links accelerate with [A] (minus the gravity).
    [ext l] is the external wrench on link l and [f l] the wrench that link l receives from the link it hangs from, both seen
    in l: the wrenches on l balance inertia l times its acceleration. *)
Definition static_balance (r : robot) (place : vec -> nat -> pose) (base : nat) (up : nat -> option (nat * nat))
  (inertia : nat -> m6) (A : v6) (ext : nat -> v6) (s : vec) (f : nat -> v6) : Prop :=
  forall l, (l < r_links r)%nat ->
    v6add (v6add (f l) (ext l)) (v6opp (v6total (r_links r) (fun c => if hangs base up c l then m6v (AdjW (relative r place s l c)) (f c) else v60)))
    = m6v (inertia l) (m6v (Adj (relative r place s l base)) A).

(** [order] lists the links of the tree, every link after the one it hangs from, the base first. *)
Definition ordered (r : robot) (base : nat) (up : nat -> option (nat * nat)) (order : list nat) : Prop :=
  NoDup order /\ (forall l, In l order <-> (l < r_links r)%nat) /\ hd_error order = Some base /\
  forall before c after, order = before ++ c :: after -> c <> base -> exists p j, up c = Some (p, j) /\ In p before.
