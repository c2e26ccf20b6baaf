(** Independent vocabulary for C44: what a history of uses of expression handles means.
    A handle stands for a tree; a variable for its last assigned value.  No caches. *)
From Coq Require Import List Arith.
Import ListNotations.

Section S.
Context {V : Type}.
Inductive tree :=
| TVar (x : nat)                              (* x-th variable created *)
| TConst (v : V)
| TOp (f : list V -> V) (args : list tree)
| TFrom (t : tree).                           (* an expression used as a variable *)
Fixpoint meaning (env : list V) (dflt : V) (t : tree) : V :=
  match t with
  | TVar x => nth x env dflt
  | TConst v => v
  | TOp f args => f (map (meaning env dflt) args)
  | TFrom t => meaning env dflt t
  end.

(** The calls a user can make; handles are numbered in the order of creation, a call
    on a handle that does not exist any more does nothing. *)
Inductive call :=
| NewVariable (x : V)                (* EvaluableVariable *)
| NewMutable (x : V)                 (* MutableEvaluable *)
| NewConstant (x : V)
| NewOperator (f : list V -> V) (args : list nat)
| AsVariable (dependent : bool) (arg : nat)   (* asVariable / asIndependentVariable *)
| Copy (k : nat)
| Drop (k : nat)
| Assign (k : nat) (x : V)
| AskNew (k : nat)
| Evaluate (k : nat)
| Relocate (n : nat).                (* the vector of dependencies of the n-th object moves in memory *)

Record meaning_state := mkMeaning { trees : list (option tree); variables : list V }.
Definition tree_of (s : meaning_state) (k : nat) : option tree := match nth_error (trees s) k with Some (Some t) => Some t | _ => None end.
Fixpoint trees_of (s : meaning_state) (l : list nat) : option (list tree) :=
  match l with
  | [] => Some []
  | k :: r => match tree_of s k, trees_of s r with Some t, Some ts => Some (t :: ts) | _, _ => None end
  end.
Fixpoint set_at {A} (l : list A) (i : nat) (a : A) : list A :=
  match l, i with
  | [], _ => []
  | _ :: r, O => a :: r
  | x :: r, S i => x :: set_at r i a
  end.
Definition add (s : meaning_state) (t : tree) : meaning_state := mkMeaning (trees s ++ [Some t]) (variables s).
(** New state and, for Evaluate, the value it must return. *)
Definition mean (dflt : V) (s : meaning_state) (c : call) : meaning_state * option V :=
  match c with
  | NewVariable x | NewMutable x => (mkMeaning (trees s ++ [Some (TVar (length (variables s)))]) (variables s ++ [x]), None)
  | NewConstant x => (add s (TConst x), None)
  | NewOperator f args => match trees_of s args with Some ts => (add s (TOp f ts), None) | None => (s, None) end
  | AsVariable _ k => match tree_of s k with Some t => (add s (TFrom t), None) | None => (s, None) end
  | Copy k => match tree_of s k with Some t => (add s t, None) | None => (s, None) end
  | Drop k => (mkMeaning (set_at (trees s) k None) (variables s), None)
  | Assign k x => match tree_of s k with Some (TVar y) => (mkMeaning (trees s) (set_at (variables s) y x), None) | _ => (s, None) end
  | AskNew _ | Relocate _ => (s, None)
  | Evaluate k => match tree_of s k with Some t => (s, Some (meaning (variables s) dflt t)) | None => (s, None) end
  end.
Fixpoint means (dflt : V) (s : meaning_state) (cs : list call) : meaning_state * list (option V) :=
  match cs with
  | [] => (s, [])
  | c :: r => let (s1, o) := mean dflt s c in let (s2, os) := means dflt s1 r in (s2, o :: os)
  end.
End S.
Arguments tree : clear implicits. Arguments call : clear implicits. Arguments meaning_state : clear implicits.
