(** Model of the expression trees of levi (extern/levi/include/levi) and of the operations that
    build them: operator+, operator-, operator*, operator/, operator==, row, col, operator(),
    block, transpose, AddendsExpander, and getColumnDerivative of every evaluable.

    Simplifications (all of them listed again in DESIGN.md):
    - a node is an element of [expr]; CastEvaluable (AccessorEvaluables.h:468-527) copies the
      information, rows, columns, elements, value and derivative of what it casts and is not a node;
    - numbers are real, exponents are rational and [exponent - 1] is exact;
    - a failed assertion, an access out of range and an exhausted fuel are all [None];
    - the cache of derivatives (Evaluable.h:275-305) of one node is modelled in LeviDerivCache.v; [computed]
      below lets every nested call be answered by a cache;
    - squeeze/compile and the static (compile time) dimensions are not modelled, apart from the
      question whether an operand of a product has an arithmetic type (the two booleans of [EProd]). *)
From Coq Require Import String Reals List Arith Lia Bool QArith Qabs ZArith.
From Verif Require Import Spec SpecDerivatives.
Import ListNotations.
Local Open Scope R_scope.
Set Implicit Arguments.

(** Evaluables.  Citations: BasicEvaluables.h (constants, 29-522), Variable.h, OperatorsEvaluables.h,
    AccessorEvaluables.h, AdvancedConstructors.h. *)
Inductive expr :=
| EConst (r c : nat) (m : mat)        (* ConstantEvaluable, MutableEvaluable: BasicEvaluables.h:29-172 *)
| ENull (r c : nat)                   (* NullEvaluable: BasicEvaluables.h:174-263 *)
| EIdent (r c : nat)                  (* IdentityEvaluable: BasicEvaluables.h:265-364 *)
| ESingle (r c i j : nat) (neg : bool)  (* SingleElementMatrix with element 1 or -1: BasicEvaluables.h:366-429 *)
| ETwo (r c i1 j1 : nat) (neg1 : bool) (i2 j2 : nat) (neg2 : bool) (* TwoElementsMatrix: BasicEvaluables.h:431-522 *)
| EVar (u : nat)                      (* EvaluableVariable: Variable.h:20-181 *)
| EAsVar (u : nat) (a : expr)         (* VariableFromExpressionEvaluable, dependent: AdvancedConstructors.h:199-267 *)
| EUser (k : nat)                     (* an evaluable written by the user *)
| ESum (a b : expr) | ESub (a b : expr) | ENeg (a : expr)
| EProd (ls rs : bool) (a b : expr)   (* ProductEvaluable; ls/rs: the operand has an arithmetic type *)
| EPow (a : expr) (q : Q)
| EDiv (a b : expr)
| ESkew (a : expr) | EVee (a : expr) | ETransp (a : expr)
| ERow (a : expr) (i : nat) | ECol (a : expr) (j : nat) | EElem (a : expr) (i j : nat)
| EBlock (a : expr) (i j r c : nat)
| EByRows (l : list expr) | EByCols (l : list expr)
| EHorz (a b : expr) | EVert (a b : expr)
| EMpd (r d : nat) (ds svs : list expr) (b : expr). (* MatrixProductDerivative: OperatorsEvaluables.h:353-455 *)

(** Dimensions: the arguments given to the constructor of each class. *)
Section Sizes.
Variable vdim : nat -> nat.               (* VariableBase::dimension *)
Variables urows ucols : nat -> nat.

Fixpoint rows (e : expr) : nat :=
  match e with
  | EConst r _ _ | ENull r _ | EIdent r _ | ESingle r _ _ _ _ | ETwo r _ _ _ _ _ _ _ => r
  | EVar u => vdim u                                     (* Variable.h:46-49 *)
  | EAsVar _ a => rows a                                 (* AdvancedConstructors.h:206-207 *)
  | EUser k => urows k
  | ESum a _ | ESub a _ | ENeg a => rows a               (* OperatorsEvaluables.h:163,241,312 *)
  | EProd _ _ a b => if (rows a =? 1) && (cols a =? 1) && negb (rows b =? 1) then rows b else rows a  (* 702-704 *)
  | EPow _ _ => 1
  | EDiv a _ => rows a                                   (* 824-825 *)
  | ESkew _ => 3 | EVee _ => 3
  | ETransp a => cols a
  | ERow _ _ => 1 | ECol a _ => rows a | EElem _ _ _ => 1
  | EBlock _ _ _ r _ => r
  | EByRows l => length l
  | EByCols l => match l with [] => 0 | a :: _ => rows a end
  | EHorz a _ => rows a
  | EVert a b => rows a + rows b
  | EMpd r _ _ _ _ => r
  end%nat
with cols (e : expr) : nat :=
  match e with
  | EConst _ c _ | ENull _ c | EIdent _ c | ESingle _ c _ _ _ | ETwo _ c _ _ _ _ _ _ => c
  | EVar _ => 1
  | EAsVar _ _ => 1
  | EUser k => ucols k
  | ESum a _ | ESub a _ | ENeg a => cols a
  | EProd _ _ a b => if (rows b =? 1) && (cols b =? 1) && negb (cols a =? 1) then cols a else cols b
  | EPow _ _ => 1
  | EDiv _ b => cols b                                   (* 825: the columns of the denominator *)
  | ESkew _ => 3 | EVee _ => 1
  | ETransp a => rows a
  | ERow a _ => cols a | ECol _ _ => 1 | EElem _ _ _ => 1
  | EBlock _ _ _ _ c => c
  | EByRows l => match l with [] => 0 | a :: _ => cols a end
  | EByCols l => length l
  | EHorz a b => cols a + cols b
  | EVert a _ => cols a
  | EMpd _ d _ _ _ => d
  end%nat.
End Sizes.

Definition sgn (neg : bool) : R := if neg then -1 else 1.

Section Eval.
Variable vdim : nat -> nat.
Variables urows ucols : nat -> nat.
Variable ueval : nat -> env -> mat.
Notation rows := (rows vdim urows ucols).
Notation cols := (cols vdim urows ucols).

(** evaluate() of each class; the entries out of range are arbitrary.  The value of a dependent
    variable made from an expression is the value of the expression plus a perturbation (zero at run
    time), so that "derivative with respect to that variable" has a meaning. *)
Fixpoint eval (rho : env) (e : expr) (i j : nat) : R :=
  match e with
  | EConst _ _ m => m i j
  | ENull _ _ => 0
  | EIdent _ _ => if (i =? j)%nat then 1 else 0
  | ESingle _ _ i0 j0 neg => if ((i =? i0) && (j =? j0))%nat then sgn neg else 0
  | ETwo _ _ i1 j1 n1 i2 j2 n2 =>
      if ((i =? i2) && (j =? j2))%nat then sgn n2 else if ((i =? i1) && (j =? j1))%nat then sgn n1 else 0
  | EVar u => rho u i
  | EAsVar u a => eval rho a i j + rho u i
  | EUser k => if ((i <? urows k) && (j <? ucols k))%nat then ueval k rho i j else 0
  | ESum a b => eval rho a i j + eval rho b i j                 (* OperatorsEvaluables.h:151-157 *)
  | ESub a b => eval rho a i j - eval rho b i j                 (* 229-235 *)
  | ENeg a => - eval rho a i j                                  (* 300-306 *)
  | EProd ls rs a b =>                                          (* 632-641, 727-734 *)
      if ls then eval rho a 0 0 * eval rho b i j
      else if rs then eval rho a i j * eval rho b 0 0
      else sumn (cols a) (fun k => eval rho a i k * eval rho b k j)
  | EPow a q => rpow (eval rho a 0 0) q                         (* 772-777: std::pow *)
  | EDiv a b => eval rho a i j / eval rho b 0 0                 (* 846-851 *)
  | ESkew a =>                                                  (* 907-921 *)
      match i, j with
      | 0%nat, 1%nat => - eval rho a 2 0 | 0%nat, 2%nat => eval rho a 1 0
      | 1%nat, 0%nat => eval rho a 2 0 | 1%nat, 2%nat => - eval rho a 0 0
      | 2%nat, 0%nat => - eval rho a 1 0 | 2%nat, 1%nat => eval rho a 0 0
      | _, _ => 0
      end
  | EVee a =>                                                   (* 1029-1035 *)
      match i with 0%nat => eval rho a 2 1 | 1%nat => eval rho a 0 2 | _ => eval rho a 1 0 end
  | ETransp a => eval rho a j i                                 (* 983-987 *)
  | ERow a i0 => eval rho a i0 j                                (* AccessorEvaluables.h:99-103 *)
  | ECol a j0 => eval rho a i j0                                (* 190-194 *)
  | EElem a i0 j0 => eval rho a i0 j0                           (* 274-278 *)
  | EBlock a i0 j0 _ _ => eval rho a (i0 + i)%nat (j0 + j)%nat          (* 350-356, 397-402 *)
  | EByRows l => nth i (map (fun a => eval rho a 0 j) l) 0      (* AdvancedConstructors.h:39-45,84-89 *)
  | EByCols l => nth j (map (fun a => eval rho a i 0) l) 0      (* 128-134,172-177 *)
  | EHorz a b => if (j <? cols a)%nat then eval rho a i j else eval rho b i (j - cols a)%nat   (* 305-309 *)
  | EVert a b => if (i <? rows a)%nat then eval rho a i j else eval rho b (i - rows a)%nat j   (* 360-364 *)
  | EMpd _ _ ds _ b =>                                          (* OperatorsEvaluables.h:420-431 *)
      sumn (length ds) (fun k => eval rho b k 0 * nth k (map (fun d => eval rho d i j) ds) 0)
  end.
End Eval.

(** isDependentFrom (Registrar.h:173-183, Variable.h:100, AdvancedConstructors.h:222-224): an evaluable
    depends on a variable when one of the variables it was made from has the same name and dimension. *)
Section Exec.
Variable vname : nat -> string.
Variable vdim : nat -> nat.
Variables urows ucols : nat -> nat.
Variable udep : nat -> nat -> bool.               (* isDependentFrom of the user's evaluables *)
Variable uderiv : nat -> nat -> nat -> expr.      (* their getNewColumnDerivative: column, variable *)
(** Two handles point to the same object (info().hash, Evaluable.h:137): whether two equal trees are the
    same object depends on the moment. *)
Variable same : nat -> expr -> expr -> bool.
Notation rows := (rows vdim urows ucols).
Notation cols := (cols vdim urows ucols).

Definition same_var (u v : nat) : bool := String.eqb (vname u) (vname v) && Nat.eqb (vdim u) (vdim v).

Fixpoint depends (e : expr) (v : nat) : bool :=
  match e with
  | EConst _ _ _ | ENull _ _ | EIdent _ _ | ESingle _ _ _ _ _ | ETwo _ _ _ _ _ _ _ _ => false
  | EVar u => same_var u v
  | EAsVar u a => same_var u v || depends a v
  | EUser k => udep k v
  | ESum a b | ESub a b | EProd _ _ a b | EDiv a b | EHorz a b | EVert a b => depends a v || depends b v
  | ENeg a | EPow a _ | ESkew a | EVee a | ETransp a | ERow a _ | ECol a _ | EElem a _ _ | EBlock a _ _ _ _ => depends a v
  | EByRows l | EByCols l => existsb (fun a => depends a v) l
  | EMpd _ _ ds _ b => depends b v || existsb (fun a => depends a v) ds     (* OperatorsEvaluables.h:396-401 *)
  end.

(** operator== (ExpressionImplementation.h:637-673). *)
Fixpoint eqv (t : nat) (a b : expr) : bool :=
  same t a b ||
  match a, b with
  | ESum a1 a2, ESum b1 b2 => (eqv t a1 b1 && eqv t a2 b2) || (eqv t a1 b2 && eqv t a2 b1)
  | ESub a1 a2, ESub b1 b2 => eqv t a1 b1 && eqv t a2 b2
  | EProd _ _ a1 a2, EProd _ _ b1 b2 => eqv t a1 b1 && eqv t a2 b2
  | EDiv a1 a2, EDiv b1 b2 => eqv t a1 b1 && eqv t a2 b2
  | EHorz a1 a2, EHorz b1 b2 => eqv t a1 b1 && eqv t a2 b2
  | EVert a1 a2, EVert b1 b2 => eqv t a1 b1 && eqv t a2 b2
  | ENeg a1, ENeg b1 => eqv t a1 b1
  | ETransp a1, ETransp b1 => eqv t a1 b1
  | EPow a1 p, EPow b1 q => eqv t a1 b1 && Qeq_bool p q
  | ERow a1 i, ERow b1 i' => eqv t a1 b1 && (i =? i')
  | ECol a1 j, ECol b1 j' => eqv t a1 b1 && (j =? j')
  | EElem a1 i j, EElem b1 i' j' => eqv t a1 b1 && (i =? i') && (j =? j')
  | EBlock a1 i j r c, EBlock b1 i' j' r' c' => eqv t a1 b1 && ((i =? i') && (j =? j') && (r =? r') && (c =? c'))
  | EIdent r c, EIdent r' c' => (r =? r') && (c =? c')
  | ENull r c, ENull r' c' => (r =? r') && (c =? c')
  | _, _ => false
  end%nat.

Definition is_null (e : expr) : bool := match e with ENull _ _ => true | _ => false end.
(** m_isIdentity (ExpressionImplementation.h:213-216). *)
Definition is_ident (e : expr) : bool := match e with EIdent r c => r =? c | _ => false end%nat.
Definition is_scalar (e : expr) : bool := (rows e =? 1) && (cols e =? 1).
Definition one (neg : bool) : expr := if neg then ENeg (EIdent 1 1) else EIdent 1 1.
Definition number (x : R) : expr := EConst 1 1 (fun _ _ => x).

Definition bind {A B} (o : option A) (f : A -> option B) : option B := match o with Some a => f a | None => None end.
Notation "x <- o ;; k" := (bind o (fun x => k)) (at level 61, o at next level, right associativity).
Definition guard {A} (b : bool) (o : option A) : option A := if b then o else None.
Definition traverse {A B} (f : A -> option B) : list A -> option (list B) :=
  fix go l := match l with [] => Some [] | a :: r => b <- f a ;; rest <- go r ;; Some (b :: rest) end.

(** AddendsExpander.h *)
Record addend := mkAddend { ad_neg : bool; ad_lhs : expr; ad_rhs : expr; ad_initial : expr }.
(** AddendsExpander.h:60-65: move the leading factors to the left, keep the rightmost one. *)
Fixpoint strip (mul : expr -> expr -> option expr) (lhs rhs : expr) : option (expr * expr) :=
  match rhs with
  | EProd _ _ a b => l <- mul lhs a ;; strip mul l b
  | _ => Some (lhs, rhs)
  end.
(** AddendsExpander.h:34-79 *)
Fixpoint expand (mul : expr -> expr -> option expr) (e : expr) (neg : bool) : option (list addend) :=
  match e with
  | ESum a b => la <- expand mul a neg ;; lb <- expand mul b neg ;; Some (la ++ lb)
  | ESub a b => la <- expand mul a neg ;; lb <- expand mul b (negb neg) ;; Some (la ++ lb)
  | ENeg a => expand mul a (negb neg)
  | EProd _ _ a b => p <- strip mul a b ;; Some [mkAddend neg (fst p) (snd p) e]
  | _ => Some [mkAddend neg (EIdent 1 1) e e]
  end.
(** AddendsExpander.h:81-99 *)
Definition max_size (first : addend) (similar : list addend) : nat * nat :=
  fold_left (fun m a => (Nat.max (fst m) (rows (ad_lhs a)), Nat.max (snd m) (cols (ad_lhs a)))) similar
            (rows (ad_lhs first), cols (ad_lhs first)).
(** AddendsExpander.h:101-115 *)
Definition get_lhs (mul : expr -> expr -> option expr) (a : addend) (size : nat * nat) : option expr :=
  let l := ad_lhs a in
  if (rows l =? fst size) && (cols l =? snd size) then Some l
  else guard ((rows l =? 1) && (cols l =? 1) && (fst size =? snd size)) (mul l (EIdent (fst size) (snd size))).
(** AddendsExpander.h:135-150 *)
Definition accumulate (add sub : expr -> expr -> option expr) (get : addend -> option expr)
    (acc : option expr) (a : addend) : option expr :=
  s <- acc ;; x <- get a ;; if ad_neg a then sub s x else add s x.
(** AddendsExpander.h:119-153; [Some None]: no addend is similar to the first one. *)
Definition expander (t : nat) (add sub mul : expr -> expr -> option expr) (neg : expr -> option expr)
    (lhs rhs : expr) (rhs_neg : bool) : option (option (expr * option expr)) :=
  la <- expand mul lhs false ;; lb <- expand mul rhs rhs_neg ;;
  match la ++ lb with
  | [] => None
  | first :: others =>
      let similar := filter (fun a => eqv t (ad_rhs a) (ad_rhs first)) others in
      let different := filter (fun a => negb (eqv t (ad_rhs a) (ad_rhs first))) others in
      match similar with
      | [] => Some None
      | _ :: _ =>
          let size := max_size first similar in
          l0 <- get_lhs mul first size ;;
          s0 <- (if ad_neg first then neg l0 else Some l0) ;;
          s <- fold_left (accumulate add sub (fun a => get_lhs mul a size)) similar (Some s0) ;;
          newLhs <- mul s (ad_rhs first) ;;
          match different with
          | [] => Some (Some (newLhs, None))
          | d0 :: ds =>
              r0 <- (if ad_neg d0 then neg (ad_initial d0) else Some (ad_initial d0)) ;;
              newRhs <- fold_left (accumulate add sub (fun a => Some (ad_initial a))) ds (Some r0) ;;
              Some (Some (newLhs, Some newRhs))
          end
      end
  end.

(** ExpressionImplementation.h:472-482 *)
Definition cost (a b c : nat) : nat := (a * c * (3 * b - 1))%nat.
Definition cost3 (lr lc rr rc : nat) : nat * nat :=
  (cost lr lc rr + cost lr rr rc, cost lc rr rc + cost lr lc rc)%nat.

Inductive cmd :=
| CAdd (a b : expr) | CSub (a b : expr) | CNeg (a : expr) | CMul (a b : expr)
| CRow (a : expr) (i : nat) | CCol (a : expr) (j : nat) | CElem (a : expr) (i j : nat)
| CBlock (a : expr) (i j r c : nat) | CTransp (a : expr)
| CDeriv (a : expr) (col v : nat).


(** Constants of SkewEvaluable (OperatorsEvaluables.h:884-886). *)
Definition levi_civita (k : nat) : expr :=
  match k with
  | 0 => ETwo 3 3 1 2 false 2 1 true
  | 1 => ETwo 3 3 0 2 true 2 0 false
  | _ => ETwo 3 3 0 1 false 1 0 true
  end%nat.

(** ComposeByRows and ComposeByCols with their assertions (AdvancedConstructors.h:49-70,137-158): at least one
    component, all of the same size. *)
Definition by_rows (l : list expr) : option expr :=
  match l with [] => None | a :: _ => guard (forallb (fun b => cols b =? cols a) l)%nat (Some (EByRows l)) end.
Definition by_cols (l : list expr) : option expr :=
  match l with [] => None | a :: _ => guard (forallb (fun b => rows b =? rows a) l)%nat (Some (EByCols l)) end.

(** What the library remembers of the node an expression was made with (info().type, lhs, rhs). *)
Definition neg_of (e : expr) : option expr := match e with ENeg a => Some a | _ => None end.
Definition prod_of (e : expr) : option (expr * expr) := match e with EProd _ _ a b => Some (a, b) | _ => None end.

(** One call of an operation, given what the calls it makes return.  [t]: the moment, for [same]. *)
Section Step.
Variable rec : cmd -> option expr.
Variable t : nat.
Let add a b := rec (CAdd a b).
Let sub a b := rec (CSub a b).
Let neg a := rec (CNeg a).
Let mul a b := rec (CMul a b).
Let row a i := rec (CRow a i).
Let col a j := rec (CCol a j).
Let elem a i j := rec (CElem a i j).
Let block a i j r c := rec (CBlock a i j r c).
Let transp a := rec (CTransp a).
Let deriv a k v := rec (CDeriv a k v).

(** operator+ : ExpressionImplementation.h:273-311 *)
Definition do_add (a b : expr) : option expr :=
  (guard ((rows a =? rows b) && (cols a =? cols b))
     (if is_null a then Some b
      else if is_null b then Some a
      else if (is_ident a && is_ident b) || eqv t a b then mul (number 2%R) b
      else match neg_of a with
      | Some a1 => sub b a1
      | None => match neg_of b with
        | Some b1 => sub a b1
        | None => o <- expander t add sub mul neg a b false ;;
               match o with
               | Some (l, Some r) => Some (ESum l r)
               | Some (l, None) => Some l
               | None => Some (ESum a b)
               end
        end
      end))%nat.
(** operator- : ExpressionImplementation.h:330-369 *)
Definition do_sub (a b : expr) : option expr :=
  (guard ((rows a =? rows b) && (cols a =? cols b))
     (if is_null a then neg b
      else if is_null b then Some a
      else if (is_ident a && is_ident b) || eqv t a b then Some (ENull (rows a) (cols a))
      else match neg_of a with
      | Some a1 => s <- add a1 b ;; neg s
      | None => match neg_of b with
        | Some b1 => add a b1
        | None => o <- expander t add sub mul neg a b true ;;
               match o with
               | Some (l, Some r) => Some (ESum l r)
               | Some (l, None) => Some l
               | None => Some (ESub a b)
               end
        end
      end))%nat.
(** unary - : ExpressionImplementation.h:379-397 *)
Definition do_neg (a : expr) : option expr :=
  (if is_null a then Some a
      else match a with ENeg a1 => Some a1 | _ => Some (ENeg a) end)%nat.
(** operator* : ExpressionImplementation.h:399-600 *)
Definition do_mul (a b : expr) : option expr :=
  (guard (is_scalar a || is_scalar b || (cols a =? rows b))
     (if is_null a || is_null b then
        Some (ENull (if (rows a =? 1) && (cols a =? 1) && negb (rows b =? 1) then rows b else rows a)
                    (if (rows b =? 1) && (cols b =? 1) && negb (cols a =? 1) then cols a else cols b))
      else if is_ident b && ((rows b =? 1) || (cols a =? rows b)) then Some a
      else if is_ident a && ((rows a =? 1) || (cols a =? rows b)) then Some b
      else match neg_of a with
      | Some a1 => p <- mul a1 b ;; neg p
      | None => match neg_of b with
        | Some b1 => p <- mul a b1 ;; neg p
        | None =>
          if is_scalar a then
            if is_scalar b then Some (EProd true true a b)
            else match prod_of b with
                 | Some (b1, b2) =>
                     if is_scalar b1 then s <- mul a b1 ;; Some (EProd true false s b2)
                     else l <- mul a b1 ;; Some (EProd false false l b2)
                 | None => Some (EProd true false a b)
                 end
          else match prod_of a with
          | Some (a1, a2) =>
              if is_scalar b then
                if is_scalar a1 then s <- mul a1 b ;; Some (EProd true false s a2)
                else l <- mul b a1 ;; Some (EProd false false l a2)
              else match prod_of b with
              | Some (b1, b2) =>
                  if is_scalar a1 then
                    if is_scalar b1 then s <- mul a1 b1 ;; p <- mul a2 b2 ;; Some (EProd true false s p)
                    else p <- mul a2 b ;; Some (EProd true false a1 p)
                  else
                    if is_scalar b1 then p <- mul a b2 ;; Some (EProd true false b1 p)
                    else
                      let lc := cost3 (rows a1) (cols a1) (rows b1) (cols b1) in
                      let costLeft := (Nat.min (fst lc) (snd lc) + cost (rows a1) (rows b2) (cols b2))%nat in
                      let costMiddle := (cost (rows a1) (cols a1) (cols a2) + cost (rows b1) (cols b1) (cols b2))%nat in
                      let rc := cost3 (rows a2) (cols a2) (rows b2) (cols b2) in
                      let costRight := (Nat.min (fst rc) (snd rc) + cost (rows a1) (cols a1) (rows a2))%nat in
                      if (costLeft <? Nat.min costMiddle costRight)%nat then l <- mul a b1 ;; Some (EProd false false l b2)
                      else if (costRight <? Nat.min costMiddle costLeft)%nat then r <- mul a2 b ;; Some (EProd false false a1 r)
                      else Some (EProd false false a b)
              | None =>
                  if is_scalar a1 then p <- mul a2 b ;; Some (EProd true false a1 p)
                  else
                    let cc := cost3 (rows a1) (cols a1) (rows b) (cols b) in
                    if (snd cc <? fst cc)%nat then r <- mul a2 b ;; Some (EProd false false a1 r)
                    else Some (EProd false false a b)
              end
          | None =>
              if is_scalar b then Some (EProd true false b a)
              else match prod_of b with
              | Some (b1, b2) =>
                  if is_scalar b1 then p <- mul a b2 ;; Some (EProd true false b1 p)
                  else
                    let cc := cost3 (rows a) (cols a) (rows b2) (cols b2) in
                    if (fst cc <? snd cc)%nat then l <- mul a b1 ;; Some (EProd false false l b2)
                    else Some (EProd false false a b)
              | None => Some (EProd false false a b)
              end
          end
        end
      end))%nat.
(** row : ExpressionImplementation.h:764-782 and the member row of each class *)
Definition do_row (a : expr) (i : nat) : option expr :=
  (guard (i <? rows a)
     (if rows a =? 1 then Some a else
      match a with
      | ENull _ c => Some (ENull 1 c)                                       (* BasicEvaluables.h:203-206 *)
      | EIdent _ c => guard (i <? c) (Some (ESingle 1 c 0 i false))         (* 294-298 *)
      | ESingle _ c i0 j0 n0 => Some (if i =? i0 then ESingle 1 c 0 j0 n0 else ENull 1 c)     (* 390-399 *)
      | ETwo _ c i1 j1 n1 i2 j2 n2 =>                                       (* 456-476 *)
          Some (if (i =? i1) && (i =? i2) then ETwo 1 c 0 j1 n1 0 j2 n2
                else if i =? i1 then ESingle 1 c 0 j1 n1
                else if i =? i2 then ESingle 1 c 0 j2 n2
                else ENull 1 c)
      | ESum x y => r1 <- row x i ;; r2 <- row y i ;; add r1 r2             (* OperatorsEvaluables.h:173-175 *)
      | ESub x y => r1 <- row x i ;; r2 <- row y i ;; sub r1 r2             (* 256-258 *)
      | ENeg x => r <- row x i ;; neg r                                     (* 320-322 *)
      | EProd ls rs x y =>                                                  (* 643-649, 712-714 *)
          if ls then r <- row y i ;; mul x r else r <- row x i ;; mul r y
      | EDiv x y => r <- row x i ;; guard (is_scalar y) (Some (EDiv r y))   (* 834-836 *)
      | ESkew x =>                                                          (* 893-895 *)
          r0 <- row (levi_civita 0) i ;; m0 <- neg r0 ;; e0 <- elem x 0 0 ;; p0 <- mul m0 e0 ;;
          r1 <- row (levi_civita 1) i ;; e1 <- elem x 1 0 ;; p1 <- mul r1 e1 ;;
          r2 <- row (levi_civita 2) i ;; e2 <- elem x 2 0 ;; p2 <- mul r2 e2 ;;
          s <- sub p0 p1 ;; sub s p2
      | ETransp x => cc <- col x i ;; transp cc                             (* 971-973 *)
      | ECol x j => elem x i j                                              (* AccessorEvaluables.h:181-183 *)
      | EBlock x i0 j0 _ c => r <- row x (i0 + i) ;; block r 0 j0 1 c       (* 381-383 *)
      | EByRows l => nth_error l i                                          (* AdvancedConstructors.h:76-78 *)
      | EHorz x y => r1 <- row x i ;; r2 <- row y i ;; guard (rows r1 =? rows r2) (Some (EHorz r1 r2))  (* 283-289 *)
      | EVert x y => if i <? rows x then row x i else row y (i - rows x)    (* 332-339 *)
      | _ => Some (ERow a i)
      end))%nat.
(** col : ExpressionImplementation.h:784-802 and the member col of each class *)
Definition do_col (a : expr) (j : nat) : option expr :=
  (guard (j <? cols a)
     (if cols a =? 1 then Some a else
      match a with
      | ENull r _ => Some (ENull r 1)                                       (* BasicEvaluables.h:208-211 *)
      | EIdent r _ => guard (j <? r) (Some (ESingle r 1 j 0 false))         (* 300-305 *)
      | ESingle r _ i0 j0 n0 => Some (if j =? j0 then ESingle r 1 i0 0 n0 else ENull r 1)     (* 401-410 *)
      | ETwo r _ i1 j1 n1 i2 j2 n2 =>                                       (* 478-498 *)
          Some (if (j =? j1) && (j =? j2) then ETwo r 1 i1 0 n1 i2 0 n2
                else if j =? j1 then ESingle r 1 i1 0 n1
                else if j =? j2 then ESingle r 1 i2 0 n2
                else ENull r 1)
      | ESum x y => r1 <- col x j ;; r2 <- col y j ;; add r1 r2
      | ESub x y => r1 <- col x j ;; r2 <- col y j ;; sub r1 r2
      | ENeg x => r <- col x j ;; neg r
      | EProd ls rs x y =>                                                  (* 651-657, 716-718 *)
          if rs then r <- col x j ;; mul r y else r <- col y j ;; mul x r
      | EDiv x y => r <- col x j ;; guard (is_scalar y) (Some (EDiv r y))   (* 838-840 *)
      | ESkew x =>                                                          (* 897-899 *)
          r0 <- col (levi_civita 0) j ;; m0 <- neg r0 ;; e0 <- elem x 0 0 ;; p0 <- mul m0 e0 ;;
          r1 <- col (levi_civita 1) j ;; e1 <- elem x 1 0 ;; p1 <- mul r1 e1 ;;
          r2 <- col (levi_civita 2) j ;; e2 <- elem x 2 0 ;; p2 <- mul r2 e2 ;;
          s <- sub p0 p1 ;; sub s p2
      | ETransp x => r <- row x j ;; transp r                               (* 975-977 *)
      | ERow x i => elem x i j                                              (* AccessorEvaluables.h:90-92 *)
      | EBlock x i0 j0 r _ => cc <- col x (j0 + j) ;; block cc i0 0 r 1     (* 385-387 *)
      | EByCols l => nth_error l j                                          (* AdvancedConstructors.h:164-166 *)
      | EHorz x y => if j <? cols x then col x j else col y (j - cols x)    (* 291-297 *)
      | EVert x y => r1 <- col x j ;; r2 <- col y j ;; guard (cols r1 =? cols r2) (Some (EVert r1 r2))  (* 343-348 *)
      | EMpd _ _ _ svs b => sv <- nth_error svs j ;; mul sv b               (* OperatorsEvaluables.h:416-418 *)
      | _ => Some (ECol a j)
      end))%nat.
(** operator() : ExpressionImplementation.h:804-824 and the member element of each class *)
Definition do_elem (a : expr) (i j : nat) : option expr :=
  (guard ((i <? rows a) && (j <? cols a))
     (if is_scalar a then Some a else
      match a with
      | ENull _ _ => Some (ENull 1 1)                                       (* BasicEvaluables.h:213-216 *)
      | EIdent _ _ => Some (if i =? j then EIdent 1 1 else ENull 1 1)       (* 307-313 *)
      | ESingle _ _ i0 j0 n0 => Some (if (i =? i0) && (j =? j0) then one n0 else ENull 1 1)  (* 412-418 *)
      | ETwo _ _ i1 j1 n1 i2 j2 n2 =>                                       (* 500-508 *)
          Some (if (i =? i1) && (j =? j1) then one n1
                else if (i =? i2) && (j =? j2) then one n2 else ENull 1 1)
      | ESum x y => r1 <- elem x i j ;; r2 <- elem y i j ;; add r1 r2
      | ESub x y => r1 <- elem x i j ;; r2 <- elem y i j ;; sub r1 r2
      | ENeg x => r <- elem x i j ;; neg r
      | EProd ls rs x y =>                                                  (* 659-691, 720-724 *)
          match ls, rs with
          | false, false => r <- row x i ;; cc <- col y j ;; mul r cc
          | true, false => e <- elem y i j ;; mul x e
          | false, true => e <- elem x i j ;; mul e y
          | true, true => mul x y
          end
      | EDiv x y => r <- elem x i j ;; guard (is_scalar y) (Some (EDiv r y))  (* 842-844 *)
      | ESkew x =>                                                          (* 901-903 *)
          r0 <- elem (levi_civita 0) i j ;; m0 <- neg r0 ;; e0 <- elem x 0 0 ;; p0 <- mul m0 e0 ;;
          r1 <- elem (levi_civita 1) i j ;; e1 <- elem x 1 0 ;; p1 <- mul r1 e1 ;;
          r2 <- elem (levi_civita 2) i j ;; e2 <- elem x 2 0 ;; p2 <- mul r2 e2 ;;
          s <- sub p0 p1 ;; sub s p2
      | EVee x => match i with 0 => elem x 2 1 | 1 => elem x 0 2 | _ => elem x 1 0 end   (* 1013-1015,1024-1027 *)
      | ETransp x => elem x j i                                             (* 979-981 *)
      | ERow x i0 => elem x i0 j                                            (* AccessorEvaluables.h:94-97 *)
      | ECol x j0 => elem x i j0                                            (* 185-188 *)
      | EBlock x i0 j0 _ _ => elem x (i0 + i) (j0 + j)                      (* 389-391 *)
      | EByRows l => r <- nth_error l i ;; elem r 0 j                       (* AdvancedConstructors.h:80-82 *)
      | EByCols l => cc <- nth_error l j ;; elem cc i 0                     (* 168-170 *)
      | EHorz x y => if j <? cols x then elem x i j else elem y i (j - cols x)  (* 299-305 *)
      | EVert x y => if i <? rows x then elem x i j else elem y (i - rows x) j  (* 350-356 *)
      | _ => Some (EElem a i j)
      end))%nat.
(** block : ExpressionImplementation.h:826-856 *)
Definition do_block (a : expr) (i j r c : nat) : option expr :=
  (guard ((i + r <=? rows a) && (j + c <=? cols a))
     (Some (if is_null a then ENull r c else EBlock a i j r c)))%nat.
(** transpose : ExpressionImplementation.h:880-890 *)
Definition do_transp (a : expr) : option expr :=
  (Some (if is_scalar a then a else ETransp a))%nat.
(** getColumnDerivative : Evaluable.h:275-305 (without its cache), and getNewColumnDerivative of each class *)
Definition do_deriv (a : expr) (k v : nat) : option expr :=
  (guard (k <? cols a)
      match a with
      | EConst r _ _ | ENull r _ | EIdent r _ | ESingle r _ _ _ _ | ETwo r _ _ _ _ _ _ _ => Some (ENull r (vdim v))
      | _ =>
        if negb (depends a v) then Some (ENull (rows a) (vdim v))
        else match a with
        | EVar u => Some (if same_var u v then EIdent (vdim u) (vdim u) else ENull (vdim u) (vdim v))  (* Variable.h:85-94 *)
        | EAsVar u x =>                                                     (* AdvancedConstructors.h:237-250 *)
            if same_var u v then Some (EIdent (vdim u) (vdim u))
            else if depends x v then deriv x k v else Some (ENull (vdim u) (vdim v))
        | EUser u => Some (uderiv u k v)
        | ESum x y =>                                                       (* OperatorsEvaluables.h:192-219 *)
            match depends x v, depends y v with
            | true, true => dx <- deriv x k v ;; dy <- deriv y k v ;; add dx dy
            | true, false => deriv x k v
            | false, true => deriv y k v
            | false, false => Some (ENull (rows a) (vdim v))
            end
        | ESub x y =>                                                       (* 268-295 *)
            match depends x v, depends y v with
            | true, true => dx <- deriv x k v ;; dy <- deriv y k v ;; sub dx dy
            | true, false => deriv x k v
            | false, true => dy <- deriv y k v ;; neg dy
            | false, false => Some (ENull (rows a) (vdim v))
            end
        | ENeg x => d <- deriv x k v ;; neg d                               (* 338-345 *)
        | EProd ls rs x y =>
            let mpd :=                                                      (* 384-413: MatrixProductDerivative *)
              yc <- col y k ;;
              guard (cols x =? rows yc)
             (ds <- traverse (fun c => deriv x c v) (seq 0 (cols x)) ;;
              svs <- traverse (fun j => cs <- traverse (fun d => col d j) ds ;; by_cols cs)
                              (seq 0 (vdim v)) ;;
              Some (EMpd (rows x) (vdim v) ds svs yc)) in
            match ls, rs with
            | true, true =>                                                 (* 497-522 *)
                match depends x v, depends y v with
                | true, true => dx <- deriv x k v ;; p <- mul y dx ;; dy <- deriv y k v ;; q <- mul x dy ;; add p q
                | true, false => dx <- deriv x k v ;; mul y dx
                | false, true => dy <- deriv y k v ;; mul x dy
                | false, false => Some (ENull (rows a) (vdim v))
                end
            | true, false =>                                                (* 527-553 *)
                match depends x v, depends y v with
                | true, true => dy <- deriv y k v ;; p <- mul x dy ;; yc <- col y k ;; dx <- deriv x 0 v ;; q <- mul yc dx ;; add p q
                | true, false => yc <- col y k ;; dx <- deriv x 0 v ;; mul yc dx
                | false, true => dy <- deriv y k v ;; mul x dy
                | false, false => Some (ENull (rows a) (vdim v))
                end
            | false, true =>                                                (* 569-595 *)
                match depends x v, depends y v with
                | true, true => dx <- deriv x k v ;; p <- mul y dx ;; xc <- col x k ;; dy <- deriv y 0 v ;; q <- mul xc dy ;; add p q
                | true, false => dx <- deriv x k v ;; mul y dx
                | false, true => xc <- col x k ;; dy <- deriv y 0 v ;; mul xc dy
                | false, false => Some (ENull (rows a) (vdim v))
                end
            | false, false =>                                               (* 600-630 *)
                match depends x v, depends y v with
                | true, true => dy <- deriv y k v ;; p <- mul x dy ;; q <- mpd ;; add p q
                | true, false => mpd
                | false, true => dy <- deriv y k v ;; mul x dy
                | false, false => Some (ENull (rows a) (vdim v))
                end
            end
        | EPow x q =>                                                       (* 779-794 *)
            if negb (Qle_bool (1 # 1000000000000000)%Q (Qabs (q - 1)%Q)) then deriv x k v
            else p <- mul (EPow x (q - 1)%Q) (number (Q2R q)) ;; d <- deriv x k v ;; mul p d
        | EDiv x y => guard (is_scalar y) (p <- mul x (EPow y (-1 # 1)%Q) ;; deriv p k v)   (* 853-860 *)
        | ESkew x =>                                                        (* 923-946 *)
            if negb (depends x v) then Some (ENull 3 3)
            else d <- deriv x 0 v ;; mul (levi_civita k) d
        | ETransp x =>                                                      (* 989-998 *)
            l <- traverse (fun j => e <- elem x k j ;; deriv e 0 v) (seq 0 (cols x)) ;; by_rows l
        | EVee x =>                                                         (* 1037-1047 *)
            e0 <- elem x 2 1 ;; d0 <- deriv e0 0 v ;; e1 <- elem x 0 2 ;; d1 <- deriv e1 0 v ;;
            e2 <- elem x 1 0 ;; d2 <- deriv e2 0 v ;; by_rows [d0; d1; d2]
        | ERow x i => d <- deriv x k v ;; Some (ERow d i)                   (* AccessorEvaluables.h:105-112 *)
        | ECol x j => deriv x j v                                           (* 196-205 *)
        | EElem x i j => d <- deriv x j v ;; Some (ERow d i)                (* 280-289 *)
        | EBlock x i j r _ => d <- deriv x (j + k) v ;; block d i 0 r (vdim v)   (* 404-410 *)
        | EByRows l => ds <- traverse (fun x => e <- elem x 0 k ;; deriv e 0 v) l ;; by_rows ds (* AdvancedConstructors.h:91-102 *)
        | EByCols l => x <- nth_error l k ;; deriv x 0 v                    (* 179-186 *)
        | EHorz x y => if k <? cols x then deriv x k v else deriv y (k - cols x) v   (* 313-320 *)
        | EVert x y => dx <- deriv x k v ;; dy <- deriv y k v ;;            (* 366-374 *)
                       guard (cols dx =? cols dy) (Some (EVert dx dy))
        | EMpd _ _ _ svs b => sv <- nth_error svs k ;; p <- mul sv b ;; deriv p 0 v   (* OperatorsEvaluables.h:433-438 *)
        | _ => None
        end
      end)%nat.
End Step.

(** One call of any operation. *)
Definition call (rec : cmd -> option expr) (t : nat) (c : cmd) : option expr :=
  match c with
  | CAdd a b => do_add rec t a b
  | CSub a b => do_sub rec t a b
  | CNeg a => do_neg a
  | CMul a b => do_mul rec a b
  | CRow a i => do_row rec a i
  | CCol a j => do_col rec a j
  | CElem a i j => do_elem rec a i j
  | CBlock a i j r c => do_block a i j r c
  | CTransp a => do_transp a
  | CDeriv a k v => do_deriv rec a k v
  end.

(** A run that never finds a derivative in a cache. *)
Fixpoint exec (n : nat) (c : cmd) {struct n} : option expr :=
  match n with O => None | S t => call (exec t) t c end.

(** Everything an operation may return, caches included (Evaluable.h:275-305): the calls made by an operation
    return, each, something computed now or before, and a derivative may be the one an earlier call computed for
    the same node, the same column and a variable with the same name. *)
Inductive computed : cmd -> expr -> Prop :=
| computed_call : forall rec t c e, (forall c' e', rec c' = Some e' -> computed c' e') -> call rec t c = Some e -> computed c e
| computed_hit : forall a k u v e, computed (CDeriv a k u) e -> vname u = vname v -> computed (CDeriv a k v) e.
End Exec.
