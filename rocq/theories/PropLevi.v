(** C44: the cached evaluation of expressions.  The calls and their meaning (trees and
    variables, no caches) are in SpecExpressions.v; the caches, caller ids, recycling bins
    and dependency lists of the code in LeviCache.v. *)
From Coq Require Import List Arith ZArith.
From Verif Require Import SpecExpressions LeviCache LeviCacheProofs LeviCacheEval LeviCacheUser LeviCacheRefine.
Import ListNotations.

(** Whatever the calls, in whatever order (creation of expressions, also with shared
    subexpressions, copies and destructions of handles, assignments, queries, evaluations):
    nothing undefined happens and each Evaluate returns the value of its tree at the
    values assigned last. *)
Theorem C44_history_values : forall (V : Type) (garbage dflt : V) (cs : list (call V)),
  exists s, runC garbage start cs = Some (s, snd (means dflt (mkMeaning [] []) cs)).
Proof.
  intros V garbage dflt cs. destruct (run_refines garbage dflt cs start _ (related_start garbage)) as (s & E & _). exists s. exact E.
Qed.
(** In particular an evaluation appended to any history returns the current meaning. *)
Theorem C44_next_evaluation : forall (V : Type) (garbage dflt : V) (cs : list (call V)) (k : nat) (t : tree V),
  let ms := fst (means dflt (mkMeaning [] []) cs) in
  tree_of ms k = Some t ->
  exists s os s', runC garbage start cs = Some (s, os) /\ step garbage s (Evaluate k) = Some (s', Some (meaning (variables ms) dflt t)).
Proof.
  intros V garbage dflt cs k t ms T. destruct (run_refines garbage dflt cs start _ (related_start garbage)) as (s & E & R).
  destruct (step_refines garbage dflt s _ (Evaluate k) R) as (s' & E' & _). cbn [mean] in E'. fold ms in E'. rewrite T in E'. cbn [snd fst] in E'.
  eexists s, _, s'. split; [exact E | exact E'].
Qed.
(** Asking a handle whether it has news, moving dependency lists or evaluating another
    handle never changes what any later evaluation returns. *)
Theorem C44_evaluations_do_not_interfere : forall (V : Type) (garbage dflt : V) (before mid : list (call V)) (k : nat),
  (forall c, In c mid -> match c with Evaluate _ | AskNew _ | Relocate _ => True | _ => False end) ->
  exists s1 s2 o1 o2 r, runC garbage start (before ++ [Evaluate k]) = Some (s1, o1 ++ [r]) /\
    runC garbage start (before ++ mid ++ [Evaluate k]) = Some (s2, o1 ++ o2 ++ [r]) /\ length o2 = length mid.
Proof.
  intros V garbage dflt before mid k H.
  assert (A : forall l1 l2 (m : meaning_state V), means dflt m (l1 ++ l2) = (fst (means dflt (fst (means dflt m l1)) l2), snd (means dflt m l1) ++ snd (means dflt (fst (means dflt m l1)) l2))).
  { induction l1 as [|c l1 IH]; intros l2 m; cbn [means app].
    - cbn [fst snd app]. destruct (means dflt m l2); reflexivity.
    - destruct (mean dflt m c) as (m1, o). rewrite IH. destruct (means dflt m1 l1); reflexivity. }
  assert (L : forall l (m : meaning_state V), length (snd (means dflt m l)) = length l).
  { induction l as [|c l IH]; intros m; cbn [means length]; [reflexivity|]. destruct (mean dflt m c) as (m1, o). specialize (IH m1). destruct (means dflt m1 l). cbn in *. congruence. }
  assert (M : forall (m : meaning_state V), fst (means dflt m mid) = m).
  { clear -H. induction mid as [|c l IH]; intros m; cbn [means]; [reflexivity|].
    assert (Q : fst (mean dflt m c) = m). { specialize (H c (or_introl eq_refl)). destruct c; try contradiction; cbn [mean]; auto. destruct (tree_of m k); auto. }
    destruct (mean dflt m c) as (m1, o). cbn [fst] in Q. subst m1. specialize (IH (fun c Hc => H c (or_intror Hc)) m). destruct (means dflt m l). cbn in *. auto. }
  set (m0 := mkMeaning (V := V) [] []). set (mb := fst (means dflt m0 before)).
  destruct (C44_history_values V garbage dflt (before ++ [Evaluate k])) as (s1 & E1).
  destruct (C44_history_values V garbage dflt (before ++ mid ++ [Evaluate k])) as (s2 & E2).
  fold m0 in E1, E2. rewrite A in E1. rewrite A, (A mid) in E2. cbn [fst snd] in E1, E2. fold mb in E1, E2. rewrite (M mb) in E2.
  exists s1, s2, (snd (means dflt m0 before)), (snd (means dflt mb mid)), (snd (mean dflt mb (Evaluate k))).
  cbn [means] in E1, E2. destruct (mean dflt mb (Evaluate k)) as (mx, o). cbn [fst snd] in *. rewrite L. auto.
Qed.
(** Found while modelling: another part of the code breaks the claim.  Assigning an empty
    expression of another type gives the caller id back while the handle keeps it; two
    handles then share an id and an evaluation is stale. *)
Definition first_of (l : list nat) : nat := nth 0 l 0.
Definition product_of (l : list nat) : nat := nth 0 l 0 * nth 1 l 0.
Definition sharing_calls : list (call nat) :=
  [Drop 1; Drop 2; NewOperator first_of [0]; NewOperator first_of [0]; Assign 0 5; Evaluate 3; Assign 0 7; Evaluate 4; Evaluate 3].
Theorem C44_empty_assignment_refuted : exists (s s1 s2 : ustate nat) o os,
  runC 0 start [NewVariable 1; Copy 0; Copy 0] = Some (s, o) /\
  assign_empty s 1 = Some s1 /\
  runC 0 s1 sharing_calls = Some (s2, os) /\
  (* operator 3 is the identity of the variable, whose value is 7 *)
  nth 7 os None = Some 7 /\ nth 8 os None = Some 5.
Proof.
  destruct (runC 0 start [NewVariable 1; Copy 0; Copy 0]) as [(s, o)|] eqn:E; [|vm_compute in E; discriminate].
  destruct (assign_empty s 1) as [s1|] eqn:E1; [|vm_compute in E; injection E as <- <-; vm_compute in E1; discriminate].
  vm_compute in E; injection E as <- <-; vm_compute in E1; injection E1 as <-.
  do 5 eexists. split; [reflexivity|]. split; [reflexivity|].
  split; [vm_compute; reflexivity|]. split; reflexivity.
Qed.

(** A shared subexpression, a copy, drops, an expression used as a variable. *)
Example C44_nonvacuous : option_map snd (runC 0 start
    [NewVariable 2; NewMutable 3; NewOperator list_sum [0; 1]; NewOperator product_of [2; 2];
     Evaluate 3; Assign 0 4; Copy 3; Evaluate 2; Drop 3; Evaluate 4; AsVariable true 2; Assign 1 1; Evaluate 5; Evaluate 4; Drop 2; Drop 0; Evaluate 4]) =
  Some [None; None; None; None; Some 25; None; None; Some 7; None; Some 49; None; None; Some 5; Some 25; None; None; Some 25].
Proof. vm_compute. reflexivity. Qed.

Print Assumptions C44_history_values.
Print Assumptions C44_next_evaluation.
Print Assumptions C44_evaluations_do_not_interfere.
Print Assumptions C44_empty_assignment_refuted.
