(** Model of Evaluable::getColumnDerivative and clearDerivativesCache (extern/levi/include/levi/Evaluable.h:275-312):
    the cache of derivatives of one evaluable. *)
From Coq Require Import String List Arith Lia.
From Verif Require Import LeviExpr.
Import ListNotations.
Set Implicit Arguments.

Section Cache.
Variable vname : nat -> string.
Variable ncols : nat.                               (* cols() of the evaluable *)
Variable fresh : nat -> nat -> nat -> option expr.  (* what the n-th computation from scratch gives: column, variable *)

(** m_derivativeBuffer: for each name one slot per column; an empty slot is an invalid expression. *)
Definition dcache := list (string * list (option expr)).
Fixpoint lookup (s : string) (c : dcache) : option (list (option expr)) :=
  match c with [] => None | (s', l) :: r => if String.eqb s s' then Some l else lookup s r end.
Definition store (s : string) (l : list (option expr)) (c : dcache) : dcache := (s, l) :: c.
Fixpoint set_nth (l : list (option expr)) (k : nat) (e : expr) : list (option expr) :=
  match l, k with [], _ => [] | _ :: r, 0 => Some e :: r | x :: r, S k' => x :: set_nth r k' e end.

Inductive answer := Answer (e : expr) | OutOfRange | Aborted.
(** getColumnDerivative, Evaluable.h:275-305.  [at] throws when the column is out of range; the new row of empty
    slots stays. *)
Definition get (t : nat) (c : dcache) (k v : nat) : answer * dcache :=
  let '(row, c1) := match lookup (vname v) c with
                    | Some l => (l, c)
                    | None => (repeat None ncols, store (vname v) (repeat None ncols) c)
                    end in
  match nth_error row k with
  | None => (OutOfRange, c1)
  | Some (Some e) => (Answer e, c1)
  | Some None => match fresh t k v with
                 | None => (Aborted, c1)
                 | Some e => (Answer e, store (vname v) (set_nth row k e) c1)
                 end
  end.

Inductive event := Ask (k v : nat) | Clear.
(** Every answer given during a history of calls. *)
Fixpoint answers (t : nat) (c : dcache) (h : list event) : list (nat * nat * answer) :=
  match h with
  | [] => []
  | Clear :: r => answers t [] r                    (* Evaluable.h:310-312 *)
  | Ask k v :: r => let '(a, c1) := get t c k v in (k, v, a) :: match a with Aborted => [] | _ => answers (S t) c1 r end
  end.

(** ** Every answer was computed from scratch for a variable of that name *)
Definition sane (c : dcache) : Prop :=
  forall s l, lookup s c = Some l -> forall k e, nth_error l k = Some (Some e) -> exists t u, vname u = s /\ fresh t k u = Some e.

Lemma set_nth_at l k e k' x : nth_error (set_nth l k e) k' = Some x -> (k' = k /\ x = Some e) \/ nth_error l k' = Some x.
Proof.
  revert k k'; induction l as [|y l IH]; intros [|k] [|k']; cbn; try discriminate; auto.
  - intros H. injection H as <-. auto.
  - intros H. apply IH in H. destruct H as [[-> ->]|H]; auto.
Qed.
Lemma get_sane t c k v a c1 : sane c -> get t c k v = (a, c1) ->
  sane c1 /\ forall e, a = Answer e -> exists t' u, vname u = vname v /\ fresh t' k u = Some e.
Proof.
  intros S. unfold get. destruct (lookup (vname v) c) as [l|] eqn:L.
  - destruct (nth_error l k) as [[e|]|] eqn:N; [| |intros H; injection H as <- <-; split; [exact S|discriminate]].
    + intros H. injection H as <- <-. split; auto. intros e' H. injection H as <-. destruct (S _ _ L _ _ N) as (t' & u & Hu). eauto.
    + destruct (fresh t k v) as [e|] eqn:Fr; intros H; injection H as <- <-; (split; [|try discriminate]).
      * intros s l' Hl k' e' Hk. unfold store in Hl. cbn in Hl. destruct (String.eqb_spec s (vname v)) as [->|].
        -- injection Hl as <-. apply set_nth_at in Hk. destruct Hk as [[-> Hk]|Hk]; [injection Hk as <-; eauto|eapply S; eauto].
        -- eapply S; eauto.
      * intros e' H. injection H as <-. eauto.
      * exact S.
  - set (row := repeat None ncols). assert (E : forall k' e, nth_error row k' <> Some (Some e)).
    { intros k' e H. apply nth_error_In in H. apply repeat_spec in H. discriminate. }
    assert (S1 : sane (store (vname v) row c)).
    { intros s l' Hl k' e' Hk. unfold store in Hl. cbn in Hl. destruct (String.eqb_spec s (vname v)) as [->|].
      - injection Hl as <-. exfalso; eapply E; eauto.
      - eapply S; eauto. }
    destruct (nth_error row k) as [[e|]|] eqn:N; [exfalso; eapply E; eauto| |intros H; injection H as <- <-; split; [exact S1|discriminate]].
    destruct (fresh t k v) as [e|] eqn:Fr; intros H; injection H as <- <-; (split; [|try discriminate]).
    + intros s l' Hl k' e' Hk. unfold store in Hl. cbn in Hl. destruct (String.eqb_spec s (vname v)) as [->|].
      * injection Hl as <-. apply set_nth_at in Hk. destruct Hk as [[-> Hk]|Hk]; [injection Hk as <-; eauto|exfalso; eapply E; eauto].
      * eapply S; eauto.
    + intros e' H. injection H as <-. eauto.
    + exact S1.
Qed.
Lemma answers_sane h : forall t c, sane c -> forall k v e, In (k, v, Answer e) (answers t c h) ->
  exists t' u, vname u = vname v /\ fresh t' k u = Some e.
Proof.
  induction h as [|[k0 v0|] h IH]; intros t c S k v e; cbn [answers]; [intros []| |].
  - destruct (get t c k0 v0) as [a c1] eqn:G. destruct (get_sane _ _ _ S G) as [S1 A]. intros [H|H].
    + injection H as -> -> ->. auto.
    + destruct a; [eapply IH; eauto|eapply IH; eauto|destruct H].
  - apply IH. intros s l H. discriminate H.
Qed.
(** The answers of a history that starts with an empty cache (a new evaluable). *)
Theorem answers_computed h k v e : In (k, v, Answer e) (answers 0 [] h) -> exists t u, vname u = vname v /\ fresh t k u = Some e.
Proof. apply answers_sane. intros s l H. discriminate H. Qed.
End Cache.
