(** Proof side of C45: what every operation of the library guarantees, and the simple operations. *)
From Coq Require Import String Reals List Arith Lia Lra Bool QArith Qabs Qreals ZArith FunctionalExtensionality.
From Coquelicot Require Import Coquelicot.
From Verif Require Import Spec PartialLib SpecDerivatives LeviExpr LeviWf LeviMat.
Import ListNotations.
Local Open Scope R_scope.
Set Implicit Arguments.

Lemma all_map {A} (P : A -> Prop) l : all_of (map P l) <-> List.Forall P l.
Proof.
  induction l; cbn; split; auto; intros H.
  - constructor; [apply H|apply IHl, H].
  - inversion H; subst. split; [auto|apply IHl; auto].
Qed.

Section Sound.
Variable vname : nat -> string.
Variable vdim : nat -> nat.
Variables urows ucols : nat -> nat.
Variable udep : nat -> nat -> bool.
Variable uderiv : nat -> nat -> nat -> expr.
Variable same : nat -> expr -> expr -> bool.
Variable ueval : nat -> env -> mat.
Variable udom : nat -> env -> Prop.
Notation rows := (rows vdim urows ucols).
Notation cols := (cols vdim urows ucols).
Notation eval := (eval vdim urows ucols ueval).
Notation depends := (depends vname vdim udep).
Notation eqv := (eqv same).
Notation is_scalar := (is_scalar vdim urows ucols).
Notation exec := (exec vname vdim urows ucols udep uderiv same).

Fixpoint wf (e : expr) : Prop :=
  match e with
  | EConst _ _ _ | ENull _ _ | EIdent _ _ | ESingle _ _ _ _ _ | EVar _ | EUser _ => True
  | ETwo _ _ i1 j1 _ i2 j2 _ => (i1, j1) <> (i2, j2)
  | EAsVar u a => wf a /\ cols a = 1%nat /\ rows a = vdim u /\
                  (forall rho x i, (i < rows a)%nat -> eval (env_set rho u x) a i 0 = eval rho a i 0)
  | ESum a b | ESub a b => wf a /\ wf b /\ rows a = rows b /\ cols a = cols b
  | ENeg a | ETransp a => wf a
  | EProd ls rs a b => wf a /\ wf b /\
      if ls then rows a = 1%nat /\ cols a = 1%nat /\ (rs = true -> rows b = 1%nat /\ cols b = 1%nat)
      else rs = false /\ cols a = rows b
  | EPow a q => wf a /\ rows a = 1%nat /\ cols a = 1%nat /\ good_exponent q
  | EDiv a b => wf a /\ wf b /\ cols a = 1%nat /\ rows b = 1%nat /\ cols b = 1%nat
  | ESkew a => wf a /\ rows a = 3%nat /\ cols a = 1%nat
  | EVee a => wf a /\ rows a = 3%nat /\ cols a = 3%nat
  | ERow a i => wf a /\ (i < rows a)%nat
  | ECol a j => wf a /\ (j < cols a)%nat
  | EElem a i j => wf a /\ (i < rows a)%nat /\ (j < cols a)%nat
  | EBlock a i j r c => wf a /\ (i + r <= rows a)%nat /\ (j + c <= cols a)%nat
  | EByRows l => l <> [] /\ all_of (map wf l) /\ List.Forall (fun a => rows a = 1%nat /\ cols a = cols (EByRows l)) l
  | EByCols l => l <> [] /\ all_of (map wf l) /\ List.Forall (fun a => cols a = 1%nat /\ rows a = rows (EByCols l)) l
  | EHorz a b => wf a /\ wf b /\ rows a = rows b
  | EVert a b => wf a /\ wf b /\ cols a = cols b
  | EMpd r d ds svs b =>
      all_of (map wf ds) /\ all_of (map wf svs) /\ wf b /\ rows b = length ds /\ cols b = 1%nat /\
      List.Forall (fun a => rows a = r /\ cols a = d) ds /\
      length svs = d /\ List.Forall (fun a => rows a = r /\ cols a = length ds) svs /\
      (forall rho i j k, (i < r)%nat -> (j < d)%nat -> (k < length ds)%nat ->
         nth j (map (fun a => eval rho a i k) svs) 0 = nth k (map (fun a => eval rho a i j) ds) 0)
  end.

Fixpoint dom (rho : env) (e : expr) : Prop :=
  match e with
  | EConst _ _ _ | ENull _ _ | EIdent _ _ | ESingle _ _ _ _ _ | ETwo _ _ _ _ _ _ _ _ | EVar _ => True
  | EUser k => udom k rho
  | ESum a b | ESub a b | EProd _ _ a b | EHorz a b | EVert a b => dom rho a /\ dom rho b
  | EDiv a b => dom rho a /\ dom rho b /\ eval rho b 0 0 <> 0
  | EPow a q => dom rho a /\ pow_dom (eval rho a 0 0) q
  | EAsVar _ a | ENeg a | ETransp a | ESkew a | EVee a | ERow a _ | ECol a _ | EElem a _ _ | EBlock a _ _ _ _ => dom rho a
  | EByRows l | EByCols l => all_of (map (dom rho) l)
  | EMpd _ _ ds svs b => all_of (map (dom rho) ds) /\ all_of (map (dom rho) svs) /\ dom rho b
  end.

(** The matrix a tree stands for. *)
Definition tr (rho : env) (e : expr) : smat := mkM (rows e) (cols e) (eval rho e).

(** The result [e] of an operation: what it evaluates to, and where it is defined. *)
Record spec (e : expr) (F : env -> smat) (D : env -> Prop) : Prop := mkSpec {
  sp_wf : wf e; sp_val : forall rho, meq (tr rho e) (F rho); sp_dom : forall rho, D rho -> dom rho e }.

Definition deriv_ok (a : expr) (k v : nat) (d : expr) : Prop :=
  wf d /\ rows d = rows a /\ cols d = vdim v /\
  forall rho, dom rho a -> dom rho d /\
    forall i j, (i < rows a)%nat -> (j < vdim v)%nat -> dpart rho v (fun r => eval r a i k) j (eval rho d i j).

Definition post (c : cmd) (e : expr) : Prop :=
  match c with
  | CAdd a b => wf a -> wf b -> rows a = rows b /\ cols a = cols b /\
                spec e (fun rho => mplus (tr rho a) (tr rho b)) (fun rho => dom rho a /\ dom rho b)
  | CSub a b => wf a -> wf b -> rows a = rows b /\ cols a = cols b /\
                spec e (fun rho => mminus (tr rho a) (tr rho b)) (fun rho => dom rho a /\ dom rho b)
  | CNeg a => wf a -> spec e (fun rho => mopp (tr rho a)) (fun rho => dom rho a)
  | CMul a b => wf a -> wf b -> (forall rho, mfits (tr rho a) (tr rho b)) /\
                spec e (fun rho => mtimes (tr rho a) (tr rho b)) (fun rho => dom rho a /\ dom rho b)
  | CRow a i => wf a -> (i < rows a)%nat /\ spec e (fun rho => mkM 1 (cols a) (fun _ j => eval rho a i j)) (fun rho => dom rho a)
  | CCol a j => wf a -> (j < cols a)%nat /\ spec e (fun rho => mkM (rows a) 1 (fun i _ => eval rho a i j)) (fun rho => dom rho a)
  | CElem a i j => wf a -> (i < rows a)%nat /\ (j < cols a)%nat /\ spec e (fun rho => mkM 1 1 (fun _ _ => eval rho a i j)) (fun rho => dom rho a)
  | CBlock a i j r c => wf a -> (i + r <= rows a)%nat /\ (j + c <= cols a)%nat /\
                spec e (fun rho => mkM r c (fun i' j' => eval rho a (i + i') (j + j'))) (fun rho => dom rho a)
  | CTransp a => wf a -> spec e (fun rho => mkM (cols a) (rows a) (fun i j => eval rho a j i)) (fun rho => dom rho a)
  | CDeriv a k v => wf a -> (k < cols a)%nat /\ deriv_ok a k v e
  end.

(** ** Sizes *)
Lemma rows_prod ls rs a b : rows (EProd ls rs a b) = if (is_scalar a && negb (rows b =? 1))%nat then rows b else rows a.
Proof. reflexivity. Qed.
Lemma cols_prod ls rs a b : cols (EProd ls rs a b) = if (is_scalar b && negb (cols a =? 1))%nat then cols a else cols b.
Proof. reflexivity. Qed.
Lemma rows_transp a : rows (ETransp a) = cols a. Proof. reflexivity. Qed.
Lemma cols_transp a : cols (ETransp a) = rows a. Proof. reflexivity. Qed.
Lemma scalar_true a : is_scalar a = true <-> rows a = 1%nat /\ cols a = 1%nat.
Proof. unfold LeviExpr.is_scalar. rewrite andb_true_iff, !Nat.eqb_eq. tauto. Qed.
Lemma scalar_false a : is_scalar a = false <-> ~ (rows a = 1%nat /\ cols a = 1%nat).
Proof. rewrite <- scalar_true. destruct (is_scalar a); split; congruence. Qed.
Lemma sc_tr rho a : sc (tr rho a) = is_scalar a.
Proof. reflexivity. Qed.

Lemma prod_val ls rs a b rho : wf (EProd ls rs a b) -> meq (tr rho (EProd ls rs a b)) (mtimes (tr rho a) (tr rho b)).
Proof.
  intros (Wa & Wb & H). destruct ls.
  - destruct H as (R1 & C1 & H). assert (S : is_scalar a = true) by (apply scalar_true; auto).
    rewrite mtimes_scal by exact S. unfold meq, tr; cbn [mr mc mf]. rewrite rows_prod, cols_prod, S, R1, C1. cbn [negb andb Nat.eqb].
    rewrite andb_false_r.
    split; [destruct (Nat.eqb_spec (rows b) 1); cbn; lia|split; auto].
  - destruct H as (-> & E). rewrite mtimes_mat by exact E. unfold meq, tr; cbn [mr mc mf]. rewrite rows_prod, cols_prod.
    split; [|split; auto].
    + destruct (is_scalar a) eqn:S; auto. apply scalar_true in S. destruct (Nat.eqb_spec (rows b) 1); cbn; auto. lia.
    + destruct (is_scalar b) eqn:S; auto. apply scalar_true in S. destruct (Nat.eqb_spec (cols a) 1); cbn; auto. lia.
Qed.
Lemma prod_fits ls rs a b rho : wf (EProd ls rs a b) -> mfits (tr rho a) (tr rho b).
Proof.
  intros (_ & _ & H). unfold mfits. rewrite !sc_tr. destruct ls; [left; apply scalar_true; tauto|right; right; tauto].
Qed.
(** A product node made of well shaped operands. *)
Lemma prod_spec ls rs a b : wf (EProd ls rs a b) ->
  spec (EProd ls rs a b) (fun rho => mtimes (tr rho a) (tr rho b)) (fun rho => dom rho a /\ dom rho b).
Proof. intros W. constructor; auto. intros. apply prod_val; auto. Qed.
Lemma prod_wf_mat a b : wf a -> wf b -> cols a = rows b -> wf (EProd false false a b).
Proof. intros. cbn. auto. Qed.
Lemma prod_wf_scal a b : wf a -> wf b -> is_scalar a = true -> wf (EProd true false a b).
Proof. intros ? ? S. apply scalar_true in S. cbn. intuition discriminate. Qed.
Lemma prod_wf_scal2 a b : wf a -> wf b -> is_scalar a = true -> is_scalar b = true -> wf (EProd true true a b).
Proof. intros ? ? S S'. apply scalar_true in S. apply scalar_true in S'. cbn. intuition discriminate. Qed.

Lemma spec_weaken e F D F' (D' : env -> Prop) : spec e F D ->
  (forall rho, meq (F rho) (F' rho)) -> (forall rho, D' rho -> D rho) -> spec e F' D'.
Proof. intros [W V Dm] E ED. constructor; auto. intros. rewrite V. apply E. Qed.
Lemma spec_self e : wf e -> spec e (fun rho => tr rho e) (fun rho => dom rho e).
Proof. intros. constructor; auto. intros; reflexivity. Qed.
Definition rho0 : env := fun _ _ => 0.
Lemma spec_rows e F D : spec e F D -> forall rho, rows e = mr (F rho).
Proof. intros S rho. exact (proj1 (sp_val S rho)). Qed.
Lemma spec_cols e F D : spec e F D -> forall rho, cols e = mc (F rho).
Proof. intros S rho. exact (proj1 (proj2 (sp_val S rho))). Qed.
Lemma spec_at e F D : spec e F D -> forall rho i j, (i < mr (F rho))%nat -> (j < mc (F rho))%nat -> eval rho e i j = mf (F rho) i j.
Proof. intros S rho i j Hi Hj. apply (proj2 (proj2 (sp_val S rho))); cbn; [rewrite (spec_rows S rho)|rewrite (spec_cols S rho)]; auto. Qed.

(** ** operator== *)
Lemma eqv_shape (same_sound : forall t a b, same t a b = true -> a = b) t a : forall b, eqv t a b = true ->
  wf a -> wf b -> forall rho, meq (tr rho a) (tr rho b).
Proof.
  enough (G : forall b, eqv t a b = true -> wf a -> wf b -> 
    rows a = rows b /\ cols a = cols b /\ forall rho i j, (i < rows a)%nat -> (j < cols a)%nat -> eval rho a i j = eval rho b i j)
    by (intros b E Wa Wb rho; destruct (G b E Wa Wb) as (R & C & V); repeat split; auto; intros; apply V; auto).
  induction a using expr_ind'; intros b' E Wa Wb;
  cbn [LeviExpr.eqv] in E; apply orb_true_iff in E;
  (destruct E as [E|E]; [apply same_sound in E; subst b'; solve [auto]|]); destruct b'; try discriminate E;
  rewrite ?orb_true_iff, ?andb_true_iff, ?Nat.eqb_eq in E;
  try (match goal with |- LeviExpr.rows _ _ _ (EProd _ _ _ _) = _ /\ _ => fail 1 | |- LeviExpr.rows _ _ _ (ESum _ _) = _ /\ _ => fail 1 | |- _ => idtac end;
    repeat match goal with H : _ /\ _ |- _ => destruct H end; subst; cbn [wf] in Wa, Wb; rewrite ?rows_transp, ?cols_transp; cbn [LeviExpr.rows LeviExpr.cols];
    repeat match goal with H : _ /\ _ |- _ => destruct H end;
    repeat match goal with IH : forall b, LeviExpr.eqv _ _ ?a b = true -> _ , E : LeviExpr.eqv _ _ ?a ?b = true |- _ => specialize (IH b E); 
      let A := fresh in let B := fresh in let C := fresh in destruct IH as (A & B & C); [assumption|assumption|] end;
    repeat split; try lia; try congruence; intros; cbn [LeviExpr.eval]; try solve [auto]).
  - destruct Wa as (W1 & W2 & R1 & C1), Wb as (W3 & W4 & R2 & C2). destruct E as [[E1 E2]|[E1 E2]].
    + destruct (IHa1 _ E1 W1 W3) as (? & ? & V1), (IHa2 _ E2 W2 W4) as (? & ? & V2). cbn [LeviExpr.rows LeviExpr.cols].
      repeat split; auto. intros. cbn [LeviExpr.eval]. rewrite V1, V2 by lia. reflexivity.
    + destruct (IHa1 _ E1 W1 W4) as (? & ? & V1), (IHa2 _ E2 W2 W3) as (? & ? & V2). cbn [LeviExpr.rows LeviExpr.cols].
      repeat split; try lia. intros. cbn [LeviExpr.eval]. rewrite V1, V2 by lia. ring.
  - repeat match goal with V : forall rho i j, _ -> _ -> eval rho _ i j = _ |- _ => rewrite V by lia; clear V end. reflexivity.
  - match goal with V : forall rho i j, _ -> _ -> eval rho _ i j = _ |- _ => rewrite V by lia; clear V end. reflexivity.
  - destruct E as [E1 E2]. destruct (IHa1 _ E1 (proj1 Wa) (proj1 Wb)) as (R1 & C1 & V1).
    destruct (IHa2 _ E2 (proj1 (proj2 Wa)) (proj1 (proj2 Wb))) as (R2 & C2 & V2).
    assert (M : forall rho, meq (tr rho (EProd ls rs a1 a2)) (tr rho (EProd ls0 rs0 b'1 b'2))).
    { intros rho. rewrite !prod_val by auto.
      assert (M1 : meq (tr rho a1) (tr rho b'1)) by (repeat split; auto; intros; apply V1; auto).
      assert (M2 : meq (tr rho a2) (tr rho b'2)) by (repeat split; auto; intros; apply V2; auto).
      rewrite M1, M2. reflexivity. }
    split; [exact (proj1 (M rho0))|split; [exact (proj1 (proj2 (M rho0)))|]]. intros rho. exact (proj2 (proj2 (M rho))).
  - apply Qeq_bool_eq in H0. match goal with V : forall rho i j, _ -> _ -> eval rho a i j = _ |- _ => rewrite V by lia end. apply rpow_eq; auto.
  - repeat match goal with V : forall rho i j, _ -> _ -> eval rho _ i j = _ |- _ => rewrite V by lia; clear V end. reflexivity.
  - match goal with V : forall rho i j, _ -> _ -> eval rho _ i j = _ |- _ => rewrite V by lia; clear V end. reflexivity.
  - replace (cols b'1) with (cols a1). destruct (Nat.ltb_spec j (cols a1)); 
      match goal with V : forall rho i j, _ -> _ -> eval rho ?a i j = _ |- eval _ ?a _ _ = _ => apply V; lia end.
  - replace (rows b'1) with (rows a1). destruct (Nat.ltb_spec i (rows a1)); 
      match goal with V : forall rho i j, _ -> _ -> eval rho ?a i j = _ |- eval _ ?a _ _ = _ => apply V; lia end.
Qed.
End Sound.
