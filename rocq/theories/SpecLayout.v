(** Independent specification vocabulary for labelled vectors (C01-C05).
    Nothing here depends on the model of the code. *)
From Coq Require Import Reals String List Arith Bool Lia.
From Coq Require Import Decimal DecimalString DecimalNat.
Import ListNotations.

(** What a user of a labelled vector can do. *)
Inductive label_call :=
| CAdd (name : string) (dim : nat)          (* addLabel *)
| CAddRange (name : string) (dim : nat)     (* addLabelAndGetIndexRange *)
| CClear
| CZero
| CSetEntry (i : nat) (v : R)               (* labeller(i) = v *)
| CWriteLabel (name : string) (vs : list R) (* copy vs in labeller(name) *)
| CAssign (vs : list R).                    (* labeller = vs *)

(** The declarations in force after a history: those made since the last
    [clear], the first one wins when a name is declared twice. *)
Definition declare (A : list (string * nat)) (n : string) (d : nat) :=
  if existsb (String.eqb n) (map fst A) then A else A ++ [(n, d)].

Definition declared_step (A : list (string * nat)) (c : label_call) :=
  match c with
  | CAdd n d | CAddRange n d => declare A n d
  | CClear => []
  | _ => A
  end.

Definition declared (h : list label_call) : list (string * nat) :=
  fold_left declared_step h [].

(** Sum of the dimensions of a list of declarations. *)
Definition total (A : list (string * nat)) : nat := list_sum (map snd A).

(** [i] lies in the half open range [(offset, size)]. *)
Definition in_label_range (i : nat) (r : nat * nat) : Prop := fst r <= i < fst r + snd r.

(** Decimal representation of a natural number (what std::to_string prints). *)
Definition decimal (i : nat) : string := NilEmpty.string_of_uint (Nat.to_uint i).

Lemma decimal_inj i j : decimal i = decimal j -> i = j.
Proof.
  unfold decimal. intros H.
  apply Unsigned.to_uint_inj.
  pose proof (f_equal NilEmpty.uint_of_string H) as H1.
  rewrite !NilEmpty.usu in H1. congruence.
Qed.

(** [p] occurs in [s]. *)
Definition occurs_in (p s : string) : Prop := exists a b, s = (a ++ p ++ b)%string.
