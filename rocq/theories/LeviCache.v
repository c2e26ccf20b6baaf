(** Model of the evaluation cache of the expression library (C44):
    extern/levi/include/levi/Registrar.h, Evaluable.h (evaluateID), Variable.h, Assignable.h,
    OperatorsBase.h, AdvancedConstructors.h (VariableFromExpressionEvaluable) and the
    constructors/assignments/destructor of ExpressionComponent (ExpressionImplementation.h).
    Simplifications: one thread (the mutex of Evaluable.h is not modelled); the counters are
    unbounded integers (the code uses int); the address of a destroyed object is not used
    again; evaluate() of an operator is an arbitrary function of the values of its operands. *)
From Coq Require Import List Arith ZArith Bool.
From Verif Require Import SpecExpressions.
Import ListNotations.

Notation "'do' x <- a ; b" := (match a with Some x => b | None => None end) (at level 200, x pattern, a at level 100, b at level 200).

Section Cache.
Context {V : Type} (garbage : V).

(** (object, caller id): an ExpressionComponent's m_evaluable and m_callerID
    (Expression.h), or a Dependency's m_ptr and m_id (Registrar.h:46-49). *)
Definition handle := (nat * nat)%type.
Inductive kind :=
| KVar                              (* Variable.h:22-100 *)
| KMutable                          (* Assignable.h, BasicEvaluables.h: MutableEvaluable *)
| KConst                            (* BasicEvaluables.h: ConstantEvaluable, Null, Identity, ... *)
| KOp (f : list V -> V)             (* OperatorsBase.h: UnaryOperator, BinaryOperator; ConstructorByRows/Cols *)
| KFrom (dependent : bool).         (* AdvancedConstructors.h:196-262 *)

(** One evaluable: the fields of Registrar (Registrar.h:15-126) and Evaluable. *)
Record node := mkNode {
  nkind : kind;
  children : list handle;           (* m_lhs, m_rhs, m_expression, m_rows... *)
  deps : list handle;               (* m_dependencies *)
  counter : Z;                      (* m_isNewCounter *)
  computed : bool;                  (* m_alreadyComputed *)
  register : list Z;                (* m_evaluationRegister *)
  bin : list nat;                   (* m_IDRecycleBin, top of the stack first *)
  buffer : V;                       (* m_evaluationBuffer *)
  alive : bool                      (* m_thisIsValid still owned *)
}.
Definition heap := list node.
Fixpoint upd (h : heap) (n : nat) (f : node -> node) : heap :=
  match h, n with
  | [], _ => []
  | x :: r, O => f x :: r
  | x :: r, S n => x :: upd r n f
  end.
(** Reading a destroyed object is undefined behaviour. *)
Definition live (h : heap) (n : nat) : option node :=
  match nth_error h n with Some x => if alive x then Some x else None | None => None end.

Definition set_register (x : node) (r : list Z) : node :=
  mkNode (nkind x) (children x) (deps x) (counter x) (computed x) r (bin x) (buffer x) (alive x).
Definition set_bin (x : node) (b : list nat) : node :=
  mkNode (nkind x) (children x) (deps x) (counter x) (computed x) (register x) b (buffer x) (alive x).
Definition set_deps (x : node) (d : list handle) : node :=
  mkNode (nkind x) (children x) d (counter x) (computed x) (register x) (bin x) (buffer x) (alive x).
Definition set_buffer (v : V) (x : node) : node :=
  mkNode (nkind x) (children x) (deps x) (counter x) (computed x) (register x) (bin x) v (alive x).
Definition set_computed (x : node) : node :=
  mkNode (nkind x) (children x) (deps x) (counter x) true (register x) (bin x) (buffer x) (alive x).
Definition kill (x : node) : node :=
  mkNode (nkind x) (children x) (deps x) (counter x) (computed x) (register x) (bin x) (buffer x) false.

(** Registrar.h:32-35 *)
Definition reset (x : node) : node :=
  mkNode (nkind x) (children x) (deps x) (counter x + 1) false (register x) (bin x) (buffer x) (alive x).
(** m_evaluationRegister[id] = z *)
Definition put (id : nat) (z : Z) (x : node) : node := set_register x (set_at (register x) id z).

(** Registrar.h:246-255 getNewCallerID *)
Definition fresh_id (x : node) : node * nat :=
  match bin x with
  | i :: r => (set_bin (put i (counter x - 1)%Z x) r, i)
  | [] => (set_register x (register x ++ [counter x - 1]%Z), length (register x))
  end.
Definition getNewCallerID (h : heap) (n : nat) : option (heap * handle) :=
  do x <- live h n;
  let (x', i) := fresh_id x in Some (upd h n (fun _ => x'), (n, i)).

(** Registrar.h:268-271 deleteID *)
Definition deleteID (h : heap) (c : handle) : option heap :=
  do x <- live h (fst c);
  if snd c <? length (register x) then Some (upd h (fst c) (fun x => set_bin (put (snd c) (counter x - 1)%Z x) (snd c :: bin x))) else None.

(** Registrar.h:190-205 isNew; the loop stops at the first new dependency and skips the
    object itself. *)
Fixpoint any_new (rec : heap -> handle -> option (heap * bool)) (n : nat) (h : heap) (l : list handle) : option (heap * bool) :=
  match l with
  | [] => Some (h, false)
  | c :: r =>
    if fst c =? n then any_new rec n h r else
    do (h1, b) <- rec h c;
    if b : bool then Some (h1, true) else any_new rec n h1 r
  end.
Fixpoint isNew (fuel : nat) (h : heap) (c : handle) : option (heap * bool) :=
  match fuel with
  | O => None
  | S fuel =>
    do x <- live h (fst c);
    do (h1, b) <- any_new (isNew fuel) (fst c) h (deps x);
    let h2 := if b : bool then upd h1 (fst c) reset else h1 in
    do y <- live h2 (fst c);
    do r <- nth_error (register y) (snd c);
    Some (h2, negb (r =? counter y)%Z)
  end.

(** Registrar.h:238-240 checkID *)
Definition checkID (h : heap) (c : handle) : option heap :=
  do x <- live h (fst c);
  if snd c <? length (register x) then Some (upd h (fst c) (fun x => put (snd c) (counter x) x)) else None.
(** Registrar.h:232-236 dependenciesChecked *)
Fixpoint checkAll (h : heap) (l : list handle) : option heap :=
  match l with
  | [] => Some h
  | c :: r => do h1 <- checkID h c; checkAll h1 r
  end.

(** The operands, in order. *)
Fixpoint evalList (rec : heap -> handle -> option (heap * V)) (h : heap) (l : list handle) : option (heap * list V) :=
  match l with
  | [] => Some (h, [])
  | c :: r => do (h1, v) <- rec h c; do (h2, vs) <- evalList rec h1 r; Some (h2, v :: vs)
  end.
(** evaluate(): Variable.h:79-81, Assignable / Constant: the buffer; operators: computed
    from the operands and stored (e.g. OperatorsEvaluables.h:185-190, 255-259);
    VariableFromExpressionEvaluable: AdvancedConstructors.h:219-222. *)
Definition evaluate (rec : heap -> handle -> option (heap * V)) (h : heap) (n : nat) (x : node) : option (heap * V) :=
  match nkind x with
  | KVar | KMutable | KConst => Some (h, buffer x)
  | KOp f => do (h1, vs) <- evalList rec h (children x); Some (upd h1 n (set_buffer (f vs)), f vs)
  | KFrom _ => do (h1, vs) <- evalList rec h (children x); let v := nth 0 vs garbage in Some (upd h1 n (set_buffer v), v)
  end.
(** Evaluable.h:226-247, 533-555 (evaluateID, matrix and scalar versions) *)
Fixpoint evaluateID (fuel : nat) (h : heap) (c : handle) : option (heap * V) :=
  match fuel with
  | O => None
  | S fuel =>
    let n := fst c in
    do x <- live h n;
    if snd c <? length (register x) then
      do (h1, b) <- isNew (S n) h c;
      do y <- live h1 n;
      if b : bool then
        if computed y then
          let h2 := upd h1 n (fun z => put (snd c) (counter z) z) in
          do h3 <- checkAll h2 (deps y);
          Some (h3, buffer y)
        else
          do (h2, v) <- evaluate (evaluateID fuel) h1 n y;
          let h3 := upd h2 n (fun z => set_computed (put (snd c) (counter z) z)) in
          do h4 <- checkAll h3 (deps y);
          Some (h4, v)
      else Some (h1, buffer y)
    else evaluate (evaluateID fuel) h n x
  end.

(** getDependencies(): Registrar.h:224-230 (the registrars of m_dependencies), Variable.h:99-101
    (itself), AdvancedConstructors.h:228-237. *)
Definition exports (n : nat) (x : node) : list nat :=
  match nkind x with
  | KVar => [n]
  | KMutable => map fst (deps x)
  | KConst => map fst (deps x)
  | KOp _ => map fst (deps x)
  | KFrom b => (if b then map fst (deps x) else []) ++ [n]
  end.
(** Registrar.h:128-143, 151-167 addDependencies: one Dependency per new registrar. *)
Fixpoint addDependencies (h : heap) (acc : list handle) (l : list nat) : option (heap * list handle) :=
  match l with
  | [] => Some (h, acc)
  | d :: r =>
    if existsb (fun c => fst c =? d) acc then addDependencies h acc r else
    do (h1, c) <- getNewCallerID h d; addDependencies h1 (acc ++ [c]) r
  end.
(** Copies of the handles of the operands (ExpressionComponent's copy constructor). *)
Fixpoint copyAll (h : heap) (l : list nat) : option (heap * list handle) :=
  match l with
  | [] => Some (h, [])
  | n :: r => do (h1, c) <- getNewCallerID h n; do (h2, cs) <- copyAll h1 r; Some (h2, c :: cs)
  end.
Fixpoint addAll (h : heap) (acc : list handle) (l : list nat) : option (heap * list handle) :=
  match l with
  | [] => Some (h, acc)
  | n :: r => do x <- live h n; do (h1, acc1) <- addDependencies h acc (exports n x); addAll h1 acc1 r
  end.
(** OperatorsBase.h:24-43, 65-83; AdvancedConstructors.h:49-69, 207-215 *)
Definition construct (h : heap) (k : kind) (args : list nat) : option (heap * nat) :=
  do (h1, cs) <- copyAll h args;
  do (h2, ds) <- addAll h1 [] args;
  Some (h2 ++ [mkNode k cs ds 0 false [] [] garbage true], length h2).
(** Variable.h:49-58; BasicEvaluables.h; Assignable.h:27-43 (depends on itself). *)
Definition construct_leaf (h : heap) (k : kind) (v : V) : heap * nat :=
  (h ++ [match k with
         | KMutable => mkNode k [] [(length h, 0)] 0 false [(-1)%Z] [] v true
         | _ => mkNode k [] [] 0 false [] [] v true
         end], length h).

(** ** The user *)
Record ustate := mkU { mem : heap; handles : list (option handle) }.
Definition handle_of (s : ustate) (k : nat) : option handle := match nth_error (handles s) k with Some (Some c) => Some c | _ => None end.
Fixpoint nodes_of (s : ustate) (l : list nat) : option (list nat) :=
  match l with
  | [] => Some []
  | k :: r => match handle_of s k, nodes_of s r with Some c, Some cs => Some (fst c :: cs) | _, _ => None end
  end.
(** ExpressionComponent(Args&&...): make_shared, then getNewCallerID
    (ExpressionImplementation.h:199-209); copies: 89-104, 165-198. *)
Definition hand (s : ustate) (h : heap) (n : nat) : option ustate :=
  do (h1, c) <- getNewCallerID h n; Some (mkU h1 (handles s ++ [Some c])).

(** Release of handles and dependencies.  [true] marks a handle (it shares the ownership
    of the object); the top of the list is released first.  When the last handle of an
    object goes, the object is destroyed: its own handles, then its dependencies. *)
Definition strong (work : list (bool * handle)) : list handle := map snd (filter fst work).
Definition owned (h : heap) (m : nat) : bool :=
  existsb (fun x => alive x && existsb (fun c => fst c =? m) (children x)) h.
Definition referenced (us : list (option handle)) (h : heap) (work : list (bool * handle)) (m : nat) : bool :=
  existsb (fun o => match o with Some c => fst c =? m | None => false end) us || owned h m ||
  existsb (fun c => fst c =? m) (strong work).
Fixpoint release (fuel : nat) (us : list (option handle)) (h : heap) (work : list (bool * handle)) : option heap :=
  match work with
  | [] => Some h
  | (b, c) :: r =>
    match fuel with
    | O => None
    | S fuel =>
      if b : bool then
        (* ExpressionImplementation.h:211-217 ~ExpressionComponent *)
        do h1 <- deleteID h c;
        if referenced us h1 r (fst c) then release fuel us h1 r
        else do x <- live h1 (fst c);
             release fuel us (upd h1 (fst c) kill) (map (pair true) (children x) ++ map (pair false) (deps x) ++ r)
      else
        (* Registrar.h:88-92 ~Dependency *)
        match live h (fst c) with
        | Some _ => do h1 <- deleteID h c; release fuel us h1 r
        | None => release fuel us h r
        end
    end
  end.
Definition size_of (h : heap) : nat := list_sum (map (fun x => length (children x) + length (deps x)) h).

(** Growth of the vector m_dependencies: each element is copied (Registrar.h:55-78: new
    id), then the old ones are destroyed. *)
Fixpoint deleteAll (h : heap) (l : list handle) : option heap :=
  match l with [] => Some h | c :: r => do h1 <- deleteID h c; deleteAll h1 r end.
Definition relocate (h : heap) (n : nat) : option heap :=
  match live h n with
  | None => Some h
  | Some x =>
    do (h1, ds) <- copyAll h (map fst (deps x));
    do h2 <- deleteAll h1 (deps x);
    Some (upd h2 n (fun y => set_deps y ds))
  end.

(** New state, and the value returned by Evaluate.  None: undefined behaviour. *)
Definition step (s : ustate) (c : call V) : option (ustate * option V) :=
  match c with
  | NewVariable x => let (h, n) := construct_leaf (mem s) KVar x in do s1 <- hand s h n; Some (s1, None)
  | NewMutable x => let (h, n) := construct_leaf (mem s) KMutable x in do s1 <- hand s h n; Some (s1, None)
  | NewConstant x => let (h, n) := construct_leaf (mem s) KConst x in do s1 <- hand s h n; Some (s1, None)
  | NewOperator f args =>
    match nodes_of s args with
    | None => Some (s, None)
    | Some ns => do (h, n) <- construct (mem s) (KOp f) ns; do s1 <- hand s h n; Some (s1, None)
    end
  | AsVariable b k =>
    match handle_of s k with
    | None => Some (s, None)
    | Some c => do (h, n) <- construct (mem s) (KFrom b) [fst c]; do s1 <- hand s h n; Some (s1, None)
    end
  | Copy k =>
    match handle_of s k with
    | None => Some (s, None)
    | Some c => do s1 <- hand s (mem s) (fst c); Some (s1, None)
    end
  | Drop k =>
    match handle_of s k with
    | None => Some (s, None)
    | Some c =>
      let us := set_at (handles s) k None in
      do h <- release (S (size_of (mem s))) us (mem s) [(true, c)];
      Some (mkU h us, None)
    end
  | Assign k v =>
    match handle_of s k with
    | None => Some (s, None)
    | Some c =>
      do x <- live (mem s) (fst c);
      match nkind x with
      | KVar | KMutable | KFrom _ => (* Variable.h:73-77, Assignable.h:47-51 *)
        Some (mkU (upd (mem s) (fst c) (fun y => reset (set_buffer v y))) (handles s), None)
      | _ => Some (s, None)          (* does not compile (static_assert) *)
      end
    end
  | AskNew k =>
    match handle_of s k with
    | None => Some (s, None)
    | Some c => do (h, _) <- isNew (S (fst c)) (mem s) c; Some (mkU h (handles s), None)
    end
  | Evaluate k =>
    match handle_of s k with
    | None => Some (s, None)
    | Some c => do (h, v) <- evaluateID (S (fst c)) (mem s) c; Some (mkU h (handles s), Some v)
    end
  | Relocate n => do h <- relocate (mem s) n; Some (mkU h (handles s), None)
  end.
Fixpoint runC (s : ustate) (cs : list (call V)) : option (ustate * list (option V)) :=
  match cs with
  | [] => Some (s, [])
  | c :: r => do (s1, o) <- step s c; do (s2, os) <- runC s1 r; Some (s2, o :: os)
  end.
Definition start : ustate := mkU [] [].

(** ExpressionImplementation.h:692-706, 722-735: operator= with an empty right hand side of
    another type gives the caller id back, but keeps m_evaluable and m_callerID. *)
Definition assign_empty (s : ustate) (k : nat) : option ustate :=
  match handle_of s k with
  | None => Some s
  | Some c => do h <- deleteID (mem s) c; Some (mkU h (handles s))
  end.
End Cache.
Arguments node : clear implicits. Arguments heap : clear implicits. Arguments kind : clear implicits. Arguments ustate : clear implicits.
