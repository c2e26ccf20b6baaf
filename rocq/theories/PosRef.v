(** Model of src/PositionReferenceGenerator.cpp. *)
From Coq Require Import Reals List Arith Bool Lra Lia.
From Verif Require Import SpecState SpecGeometry SpecReference.
Import ListNotations.
Local Open Scope R_scope.

(** TimeRange::isInRange (iDynTree, external). *)
Definition isInRange (r : timerange) (t : R) : bool :=
  anyTime r || ((if Rle_dec (initTime r) t then true else false) && (if Rle_dec t (endTime r) then true else false)).
(** The default constructed TimeRange (iDynTree, external): an empty interval. *)
Definition defaultRange : timerange := mkRange (-1) (-2) false.
(** PositionReferenceGenerator.cpp:53-61 and 181-185. *)
Definition zeroElement : timed := mkTimed zero3 defaultRange.

(** std::find_if over reverse iterators, PositionReferenceGenerator.cpp:82-86, 110-114. *)
Definition find_last (l : list timed) (t : R) : option timed :=
  find (fun e => isInRange (activeRange e) t) (rev l).

(** PositionReferenceGenerator.cpp:104-121, PositionReference::get; isValid is
    always set to true.  [dp] is the member m_zeroPosition, which the class never
    assigns: it has the value of a default constructed iDynTree::Position. *)
Definition reference_get (dp : V3) (l : list timed) (t : R) : V3 * bool :=
  (match l with
   | [] => dp
   | _ => match find_last l t with None => dp | Some e => desiredPosition e end
   end, true).

(** PositionReferenceGenerator.cpp:78-98, TimeVaryingWeight::get for the increase
    factors [f].  [None]: the division by a zero length range (not a number). *)
Definition weight_get (f : V3) (l : list timed) (t : R) : option V3 * bool :=
  (match find_last l t with
   | None => Some zero3
   | Some e =>
     let den := endTime (activeRange e) - initTime (activeRange e) in
     if Req_EM_T den 0 then None else
     let a := (t - initTime (activeRange e)) / den in
     let w := fun k => (k * a + 1) * (k * a + 1) in
     Some (w (px f), w (py f), w (pz f))
   end, true).

(** PositionReferenceGenerator.cpp:125-131: a heap of shared data objects; a
    reference or weight object holds the identifier of its data (shared_ptr). *)
Definition heap := list (list timed).
Definition heap_get (h : heap) (d : nat) : list timed := nth d h [].
Record weight_obj := mkWeight { w_data : nat; w_factors : V3 }.
Record reference_obj := mkReference { p_data : nat }.
Record generator := mkGen {
  g_data : nat; g_weight : option weight_obj; g_position : option reference_obj }.
Definition world := (heap * generator)%type.

(** PositionReferenceGenerator.cpp:147-152. *)
Definition init (w : world) (n : nat) (f : V3) : world :=
  let (h, g) := w in
  let d := length h in
  (h ++ [repeat zeroElement n], mkGen d (Some (mkWeight d f)) (Some (mkReference d))).
(** PositionReferenceGenerator.cpp:133-137, 139-143: the two constructors. *)
Definition newDefault : world := ([[]], mkGen 0 None None).
Definition newInit (n : nat) (f : V3) : world := init ([], mkGen 0 None None) n f.
(** PositionReferenceGenerator.cpp:162-179: at / operator[] give a reference to an
    element, through which the caller writes.  [None]: out of bounds (undefined). *)
Definition write_at (w : world) (i : nat) (e : timed) : option world :=
  let (h, g) := w in
  if Nat.ltb i (length (heap_get h (g_data g)))
  then Some (replace_nth (g_data g) (replace_nth i e (heap_get h (g_data g))) h, g) else None.
Definition read_at (w : world) (i : nat) : option timed :=
  nth_error (heap_get (fst w) (g_data (snd w))) i.
(** PositionReferenceGenerator.cpp:181-185. *)
Definition resize (w : world) (n : nat) : world :=
  let (h, g) := w in
  (replace_nth (g_data g) (resized n zeroElement (heap_get h (g_data g))) h, g).

(** Queries through objects obtained from the generator. *)
Definition query_reference (dp : V3) (w : world) (o : reference_obj) (t : R) := reference_get dp (heap_get (fst w) (p_data o)) t.
Definition query_weight (w : world) (o : weight_obj) (t : R) := weight_get (w_factors o) (heap_get (fst w) (w_data o)) t.

Inductive op := Init (n : nat) (f : V3) | Write (i : nat) (e : timed) | Resize (n : nat).
Definition step (w : world) (o : op) : option world :=
  match o with Init n f => Some (init w n f) | Write i e => write_at w i e | Resize n => Some (resize w n) end.
Fixpoint run (w : world) (ops : list op) : option world :=
  match ops with [] => Some w | o :: r => match step w o with None => None | Some w' => run w' r end end.
