(** Model of VariablesLabeller (src/private/VariablesLabeller.cpp and its
    header DynamicalPlannerPrivate/Utilities/VariablesLabeller.h).

    Simplifications: entries are reals; sizes are natural numbers (the casts to
    unsigned int / long, and a size above 2^31, are not modelled); the unordered
    map is an association list (only insert / find / size / clear are used, so
    the order is not observable).  The two asserts and the out of range accesses
    are the outcome [None] of a call. *)
From Coq Require Import Reals String List Arith Bool Lia.
From Verif Require Import SpecLayout.
Import ListNotations.
Local Open Scope nat_scope.

(** VariablesLabeller.h: m_fullVector, m_labelMap, m_labelsList. *)
Record labeller := mkLab {
  fullVector : list R;
  labelMap : list (string * (nat * nat));
  labelsList : list string
}.

(** Default constructor (VariablesLabeller.cpp:13-16): everything empty. *)
Definition lab_init : labeller := mkLab [] [] [].

(** unordered_map::find. *)
Fixpoint map_find (m : list (string * (nat * nat))) (n : string) : option (nat * nat) :=
  match m with
  | [] => None
  | (k, r) :: m' => if String.eqb k n then Some r else map_find m' n
  end.

(** unordered_map::insert: (new map, inserted?). *)
Definition map_insert (m : list (string * (nat * nat))) (n : string) (r : nat * nat) :=
  match map_find m n with
  | Some _ => (m, false)
  | None => ((n, r) :: m, true)
  end.

(** The common body of VariablesLabeller.cpp:22-39 and 41-58: the vector is
    resized (old entries kept), the last [dim] entries are zeroed. *)
Definition add_body (L : labeller) (name : string) (dim : nat) : labeller * bool * (nat * nat) :=
  let newRange := (length (fullVector L), dim) in
  let (m, ok) := map_insert (labelMap L) name newRange in
  if ok then
    (mkLab (fullVector L ++ repeat 0%R dim) m (labelsList L ++ [name]), true, newRange)
  else (L, false, newRange).

(** VariablesLabeller.cpp:22-39. *)
Definition addLabel (L : labeller) (name : string) (dim : nat) : labeller * bool :=
  let '(L', ok, _) := add_body L name dim in (L', ok).

(** VariablesLabeller.cpp:41-58; [None] is IndexRange::InvalidRange(). *)
Definition addLabelAndGetIndexRange (L : labeller) (name : string) (dim : nat)
  : labeller * option (nat * nat) :=
  let '(L', ok, r) := add_body L name dim in (L', if ok then Some r else None).

(** VariablesLabeller.cpp:60-63. *)
Definition lab_size (L : labeller) : nat := length (fullVector L).
(** VariablesLabeller.cpp:65-73. *)
Definition lab_values (L : labeller) : list R := fullVector L.
(** VariablesLabeller.cpp:75-78. *)
Definition lab_zero (L : labeller) : labeller :=
  mkLab (map (fun _ => 0%R) (fullVector L)) (labelMap L) (labelsList L).
(** VariablesLabeller.cpp:141-150. *)
Definition getIndexRange (L : labeller) (name : string) : option (nat * nat) :=
  map_find (labelMap L) name.
(** VariablesLabeller.cpp:152-155. *)
Definition numberOfLabels (L : labeller) : nat := length (labelMap L).
(** VariablesLabeller.cpp:157-160. *)
Definition listOfLabels (L : labeller) : list string := labelsList L.
(** VariablesLabeller.cpp:162-167. *)
Definition lab_clear (L : labeller) : labeller := mkLab [] [] [].

(** subspan(offset, size) of the vector, read. *)
Definition segment (v : list R) (r : nat * nat) : list R := firstn (snd r) (skipn (fst r) v).

(** Copying [vs] in the subspan starting at [off] (Span element assignments /
    Eigen segment assignment). *)
Definition write_at (v : list R) (off : nat) (vs : list R) : list R :=
  firstn off v ++ vs ++ skipn (off + length vs) v.

(** VariablesLabeller.cpp:80-90, range based access (assert: valid range). *)
Definition read_range (L : labeller) (r : option (nat * nat)) : option (list R) :=
  match r with
  | None => None
  | Some r => if fst r + snd r <=? lab_size L then Some (segment (fullVector L) r) else None
  end.

(** VariablesLabeller.cpp:92-120: name based access; an unknown name is the
    empty span. *)
Definition label_span (L : labeller) (name : string) : nat * nat :=
  match map_find (labelMap L) name with Some r => r | None => (0, 0) end.
Definition read_label (L : labeller) (name : string) : list R :=
  segment (fullVector L) (label_span L name).
(** Writing [vs] through the span (its length must be the one of the span). *)
Definition write_label (L : labeller) (name : string) (vs : list R) : option labeller :=
  let r := label_span L name in
  if length vs =? snd r
  then Some (mkLab (write_at (fullVector L) (fst r) vs) (labelMap L) (labelsList L))
  else None.

(** VariablesLabeller.cpp:122-130. *)
Definition read_index (L : labeller) (i : nat) : option R := nth_error (fullVector L) i.
Definition write_index (L : labeller) (i : nat) (v : R) : option labeller :=
  if i <? lab_size L
  then Some (mkLab (write_at (fullVector L) i [v]) (labelMap L) (labelsList L)) else None.

(** VariablesLabeller.cpp:132-139 (assert: same size). *)
Definition lab_assign (L : labeller) (vs : list R) : option labeller :=
  if length vs =? lab_size L then Some (mkLab vs (labelMap L) (labelsList L)) else None.

(** One call of the public interface; [None] is undefined behaviour. *)
Definition lab_step (L : labeller) (c : label_call) : option labeller :=
  match c with
  | CAdd n d => Some (fst (addLabel L n d))
  | CAddRange n d => Some (fst (addLabelAndGetIndexRange L n d))
  | CClear => Some (lab_clear L)
  | CZero => Some (lab_zero L)
  | CSetEntry i v => write_index L i v
  | CWriteLabel n vs => write_label L n vs
  | CAssign vs => lab_assign L vs
  end.

Fixpoint lab_run (L : labeller) (h : list label_call) : option labeller :=
  match h with
  | [] => Some L
  | c :: h' => match lab_step L c with Some L' => lab_run L' h' | None => None end
  end.
