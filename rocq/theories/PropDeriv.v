(** C45: the expression returned by getColumnDerivative evaluates to the true derivative of that column, derivatives
    of derivatives included.

    [formula], [meaning], [well_formed], [defined] and [at_entry] are in SpecDerivatives.v and do not mention the
    model.  [build] runs what the user writes on the model of levi; [run] is what the operations return. *)
From Coq Require Import Ascii String Reals List Arith Lia Lra Bool QArith Qabs Qreals ZArith FunctionalExtensionality.
From Coquelicot Require Import Coquelicot.
From Verif Require Import Spec PartialLib SpecDerivatives LeviExpr LeviWf LeviMat LeviPost LeviMul LeviDeriv LeviBuild LeviBuildProofs LeviDerivCache.
Import ListNotations.
Local Open Scope R_scope.

Section C45.
Variable vname : nat -> string.                   (* names and dimensions of the variables *)
Variable vdim : nat -> nat.
Variables urows ucols : nat -> nat.               (* the evaluables written by the user: sizes, value, where it is smooth, *)
Variable ueval : nat -> env -> mat.
Variable udom : nat -> env -> Prop.
Variable udep : nat -> nat -> bool.               (* isDependentFrom, getNewColumnDerivative *)
Variable uderiv : nat -> nat -> nat -> expr.
Variable same : nat -> expr -> expr -> bool.      (* which handles are the same object at each moment *)

(** What is asked of the evaluables written by the user. *)
Definition user_contract : Prop :=
  (* one that says it does not depend on a variable does not *)
  (forall k v, udep k v = false -> forall rho x i j, (i < urows k)%nat -> (j < ucols k)%nat -> ueval k (env_set rho v x) i j = ueval k rho i j) /\
  (* the others return a tree of the right size that evaluates to the derivative *)
  (forall k c v, udep k v = true -> (c < ucols k)%nat ->
     let d := uderiv k c v in
     wf vdim urows ucols ueval d /\ rows vdim urows ucols d = urows k /\ cols vdim urows ucols d = vdim v /\
     forall rho, udom k rho -> dom vdim urows ucols ueval udom rho d /\
       forall i j, (i < urows k)%nat -> (j < vdim v)%nat ->
         is_derive (fun x => ueval k (at_entry rho v j x) i c) (rho v j) (eval vdim urows ucols ueval rho d i j)) /\
  (* the set where it is smooth is open *)
  (forall k rho v j, udom k rho -> (j < vdim v)%nat -> locally (rho v j) (fun x => udom k (at_entry rho v j x))).
(** The same object is the same tree. *)
Definition identity_sound : Prop := forall t a b, same t a b = true -> a = b.

Notation F_rows := (frows vdim urows ucols).
Notation F_cols := (fcols vdim urows ucols).
Notation value := (eval vdim urows ucols ueval).
Notation Meaning := (meaning vdim urows ucols ueval).
Notation Well_formed := (well_formed vdim urows ucols ueval).
Notation Defined := (defined vdim urows ucols ueval udom).
Notation Rows := (rows vdim urows ucols).
Notation Cols := (cols vdim urows ucols).
Notation Post := (post vdim urows ucols ueval udom).
Notation Computed := (computed vname vdim urows ucols udep uderiv same).
Notation Exec := (exec vname vdim urows ucols udep uderiv same).
Notation Build := (build vdim urows ucols).

(** What the operations return: either they never look into a cache and the variables are told apart by name and
    dimension, or they may find any derivative in a cache and the variables are told apart by name. *)
Definition library (run : cmd -> option expr) : Prop :=
  (exists n, run = Exec n) /\ (forall u v, vname u = vname v -> vdim u = vdim v -> u = v)
  \/ (forall c e, run c = Some e -> Computed c e) /\ (forall u v, vname u = vname v -> u = v).

Hypothesis user : user_contract.
Hypothesis same_sound : identity_sound.
Variable run : cmd -> option expr.
Hypothesis lib : library run.

Lemma user_dok k c v : udep k v = true -> (c < ucols k)%nat -> deriv_ok vdim urows ucols ueval udom (EUser k) c v (uderiv k c v).
Proof.
  intros U Hc. destruct user as (_ & D & _). destruct (D k c v U Hc) as (W & R & C & S). apply dok_intro; auto.
  - intros rho D0. apply S; auto.
  - intros rho D0 i j Hi Hj. cbn [LeviExpr.rows] in Hi. destruct (S rho D0) as [_ P]. specialize (P i j Hi Hj).
    eapply is_derive_ext; [|exact P]. intros x. cbv beta. cbn [eval].
    destruct (Nat.ltb_spec i (urows k)), (Nat.ltb_spec c (ucols k)); try lia. reflexivity.
Qed.
Lemma lib_post c e : run c = Some e -> Post c e.
Proof.
  intros H. destruct user as (UI & _ & _). destruct lib as [[[n ->] N]|[L N]].
  - exact (@exec_sound vname vdim urows ucols udep uderiv same ueval udom N UI user_dok same_sound n c e H).
  - refine (@computed_sound vname vdim urows ucols udep uderiv same ueval udom _ UI user_dok same_sound N c e (L c e H)).
    intros u v E _. auto.
Qed.
Lemma build_good f e : Well_formed f -> Build run f = Some e -> ok vdim urows ucols ueval udom f e.
Proof.
  intros W B. destruct user as (UI & _ & UO).
  exact (@build_ok vname vdim urows ucols udep uderiv same ueval udom UI user_dok UO run f lib_post W e B).
Qed.

(** The derivative of any column of anything the user can write is an expression of the right size that evaluates
    to the partial derivatives of the meaning of what was written. *)
Theorem C45_derivative_true f col v d : Well_formed f -> (col < F_cols f)%nat -> Build run (FDeriv f col v) = Some d ->
  Rows d = F_rows f /\ Cols d = vdim v /\
  forall rho, Defined rho f -> forall i j, (i < F_rows f)%nat -> (j < vdim v)%nat ->
    is_derive (fun x => Meaning (at_entry rho v j x) f i col) (rho v j) (value rho d i j).
Proof.
  intros W Hc B. cbn [build] in B. step B a Qa. pose proof (build_good _ _ W Qa) as O. apply lib_post in B.
  destruct (B (ok_wf O)) as (_ & WD & RD & CD & SD). split; [rewrite RD; apply O|]. split; [exact CD|].
  intros rho D i j Hi Hj. destruct (SD rho (@ok_dom _ _ _ _ _ _ _ O rho D)) as [_ P]. rewrite (ok_rows O) in P. specialize (P i j Hi Hj).
  eapply is_derive_ext_loc; [|exact P]. generalize (@ok_open _ _ _ _ _ _ _ O rho v j D Hj). apply filter_imp. intros x Dx.
  apply (ok_val O); auto.
Qed.

(** Anything the user can write, derivatives of derivatives included, evaluates to its meaning. *)
Theorem C45_value_true f e : Well_formed f -> Build run f = Some e ->
  Rows e = F_rows f /\ Cols e = F_cols f /\
  forall rho, Defined rho f \/ deriv_free f = true -> forall i j, (i < F_rows f)%nat -> (j < F_cols f)%nat -> value rho e i j = Meaning rho f i j.
Proof.
  intros W B. pose proof (build_good _ _ W B) as O. split; [apply O|]. split; [apply O|]. intros rho H i j Hi Hj. apply (ok_val O); tauto.
Qed.

(** Second derivatives, spelled out. *)
Theorem C45_second_derivative_true f c1 v1 c2 v2 d : Well_formed f -> (c1 < F_cols f)%nat -> (c2 < vdim v1)%nat ->
  Build run (FDeriv (FDeriv f c1 v1) c2 v2) = Some d ->
  forall rho, Defined rho f -> forall i j, (i < F_rows f)%nat -> (j < vdim v2)%nat ->
    is_derive (fun x => Derive (fun y => Meaning (at_entry (at_entry rho v2 j x) v1 c2 y) f i c1) (at_entry rho v2 j x v1 c2))
              (rho v2 j) (value rho d i j).
Proof.
  intros W H1 H2 B rho D i j Hi Hj.
  apply (@C45_derivative_true (FDeriv f c1 v1) c2 v2 d (conj W H1) H2 B); auto.
Qed.

(** isDependentFrom: an expression that says it does not depend on a variable does not. *)
Theorem C45_dependence_true f e v : Well_formed f -> deriv_free f = true -> Build run f = Some e -> depends vname vdim udep e v = false ->
  forall rho x i j, (i < F_rows f)%nat -> (j < F_cols f)%nat -> Meaning (env_set rho v x) f i j = Meaning rho f i j.
Proof.
  intros W DF B Dp rho x i j Hi Hj. pose proof (build_good _ _ W B) as O. rewrite <- !(ok_val O) by auto.
  destruct user as (UI & _). exact (@indep vname vdim urows ucols udep ueval UI e v Dp rho x i j).
Qed.
End C45.

(** The cache of one evaluable: whatever the history of calls, every derivative it returns is one the library may
    return for that column and variable, hence a true derivative by the theorems above. *)
Theorem C45_cache_transparent vname vdim urows ucols udep uderiv same a ncols fresh h :
  (forall t k v e, fresh t k v = Some e -> computed vname vdim urows ucols udep uderiv same (CDeriv a k v) e) ->
  forall k v e, List.In (k, v, Answer e) (answers vname ncols fresh 0 [] h) -> computed vname vdim urows ucols udep uderiv same (CDeriv a k v) e.
Proof.
  intros H k v e I. destruct (answers_computed vname ncols fresh h k v e I) as (t & u & N & E). apply computed_hit with u; eauto.
Qed.

(** ** A case that meets the hypotheses: three variables (3, 1 and 2 entries), two evaluables written by the user
    (the sine and the cosine of variable 1, each the derivative of the other up to sign), and
    (skew(x) (sin(s) x + e1)) / (x' x)^(1/2), derived twice. *)
Module Example45.
Fixpoint xs (n : nat) : string := match n with O => EmptyString | S m => String "x"%char (xs m) end.
Definition vdim (u : nat) : nat := match u with 0 => 3 | 1 => 1 | _ => 2 end%nat.
Definition one1 (_ : nat) : nat := 1%nat.
Definition ueval (k : nat) (rho : env) : mat := fun _ _ => match k with 0%nat => sin (rho 1%nat 0%nat) | 1%nat => cos (rho 1%nat 0%nat) | _ => 0 end.
Definition udep (k v : nat) : bool := ((k <? 2) && (v =? 1))%nat.
Definition uderiv (k c v : nat) : expr := match k with 0 => EUser 1 | _ => ENeg (EUser 0) end%nat.
Definition udom (_ : nat) (_ : env) : Prop := True.
Definition same (_ : nat) (_ _ : expr) : bool := false.
Definition X := FVar 0.
Definition f : formula :=
  FDiv (FMul (FSkew X) (FAdd (FMul (FUser 0) X) (FTransp (FRow (FIdent 3) 0)))) (FPow (FMul (FTransp X) X) (1 # 2)).
Definition run := exec xs vdim one1 one1 udep uderiv same 40.
Definition rho : env := fun _ i => match i with 0%nat => 3 | 1%nat => 4 | _ => 0 end.

Lemma xs_inj u v : xs u = xs v -> u = v.
Proof. revert v; induction u; intros [|v] H; cbn in H; try discriminate; auto. injection H as H. f_equal; auto. Qed.
Example contract : user_contract vdim one1 one1 ueval udom udep uderiv.
Proof.
  assert (U1 : forall k v, udep k v = true -> v = 1%nat /\ (k = 0%nat \/ k = 1%nat)).
  { intros k v U. unfold udep in U. apply andb_prop in U. destruct U as [U V]. apply Nat.eqb_eq in V. apply Nat.ltb_lt in U. lia. }
  split; [|split].
  - intros k v U rho0 x i j _ _. unfold ueval, env_set.
    destruct (Nat.eqb_spec 1 v) as [<-|]; [|reflexivity]. destruct k as [|[|k]]; [discriminate U|discriminate U|reflexivity].
  - intros k c v U _. destruct (U1 k v U) as [-> K]. cbv zeta. unfold vdim.
    destruct K as [-> | ->]; (split; [exact Logic.I|]); (split; [reflexivity|]); (split; [reflexivity|]); intros r _; (split; [exact Logic.I|]);
      intros i j Hi Hj; unfold one1 in Hi; assert (i = 0)%nat by lia; assert (j = 0)%nat by lia; subst i j;
      unfold ueval, at_entry, env_set, vset; cbn.
    + apply is_derive_sin.
    + apply is_derive_cos.
  - intros k r v j _ _. apply filter_forall. intros; exact Logic.I.
Qed.
Example identities : identity_sound same.
Proof. intros t a b H. discriminate H. Qed.
Example is_library : library xs vdim one1 one1 udep uderiv same run.
Proof. left. split; [exists 40%nat; reflexivity|]. intros u v H _. apply xs_inj; auto. Qed.
Example is_library_with_caches : library xs vdim one1 one1 udep uderiv same run.
Proof. right. split; [intros c e; apply exec_computed|exact xs_inj]. Qed.
Example formed : well_formed vdim one1 one1 ueval f.
Proof.
  cbn. repeat split; try lia; try exact (or_introl (conj eq_refl eq_refl)). intros n Hn H. exfalso. revert H. apply Qle_not_lt.
  assert (N : (1 <= inject_Z (Z.of_nat n))%Q) by (unfold Qle, inject_Z; cbn [Qnum Qden]; lia).
  rewrite <- Qabs_opp. eapply Qle_trans; [|apply Qle_Qabs].
  apply Qle_trans with (1 # 2)%Q; [unfold Qle; cbn; lia|].
  assert (E : (- ((1 # 2) - inject_Z (Z.of_nat n)) == inject_Z (Z.of_nat n) - (1 # 2))%Q) by ring. rewrite E.
  apply (Qplus_le_l _ _ (1 # 2)). setoid_replace (inject_Z (Z.of_nat n) - (1 # 2) + (1 # 2))%Q with (inject_Z (Z.of_nat n)) by ring.
  setoid_replace ((1 # 2) + (1 # 2))%Q with 1%Q by reflexivity. exact N.
Qed.
Example smooth : defined vdim one1 one1 ueval udom rho f.
Proof.
  assert (P : 3 * 3 + 4 * 4 + 0 * 0 = 25) by ring.
  cbn. unfold udom, rho, pow_dom. change (qint (1 # 2)) with (@None Z). rewrite Rplus_0_l, P. repeat split; try lra.
  unfold rpow. change (qint (1 # 2)) with (@None Z). unfold Rpower. apply Rgt_not_eq, exp_pos.
Qed.
Example built : exists d, build vdim one1 one1 run (FDeriv (FDeriv f 0 0) 1 0) = Some d.
Proof. eexists. vm_compute. reflexivity. Qed.
End Example45.

(** ** Where the claim fails *)
(** A numerator with two columns divided by a scalar: the quotient is given the columns of the denominator
    (OperatorsEvaluables.h:824-825), and the derivative of its second column cannot be asked for. *)
Theorem C45_division_columns_refuted : exists vdim urows ucols (f : formula) e,
  fcols vdim urows ucols f = 2%nat /\ frows vdim urows ucols f = 1%nat /\
  (forall n vname udep uderiv same, build vdim urows ucols (exec vname vdim urows ucols udep uderiv same n) f = Some e /\
     build vdim urows ucols (exec vname vdim urows ucols udep uderiv same n) (FDeriv f 1 0) = None) /\
  cols vdim urows ucols e = 1%nat.
Proof.
  exists (fun _ => 2%nat), (fun _ => 1%nat), (fun _ => 1%nat), (FDiv (FConst 1 2 (fun _ _ => 1)) (FConst 1 1 (fun _ _ => 2))), (EDiv (EConst 1 2 (fun _ _ => 1)) (EConst 1 1 (fun _ _ => 2))).
  split; [reflexivity|]. split; [reflexivity|]. split; [|reflexivity].
  intros n vname udep uderiv same. split; [reflexivity|]. destruct n; reflexivity.
Qed.

(** x^q with q closer to 1 than 1e-15 but different from it (OperatorsEvaluables.h:783-784): the derivative
    returned is 1, the true one at 1 is q. *)
Theorem C45_exponent_near_one_refuted : exists vdim urows ucols ueval (q : Q) d (rho : env),
  (forall n vname udep uderiv same, (3 <= n)%nat -> build vdim urows ucols (exec vname vdim urows ucols udep uderiv same n) (FDeriv (FPow (FVar 0) q) 0 0) = Some d) /\
  eval vdim urows ucols ueval rho d 0 0 = 1 /\
  is_derive (fun x => meaning vdim urows ucols ueval (at_entry rho 0 0 x) (FPow (FVar 0) q) 0 0) (rho 0%nat 0%nat) (Q2R q) /\
  Q2R q <> 1.
Proof.
  pose (q := (1125899906842625 # 1125899906842624)%Q).
  exists (fun _ => 1%nat), (fun _ => 1%nat), (fun _ => 1%nat), (fun _ _ _ _ => 0), q, (EIdent 1 1), (fun _ _ => 1).
  split; [|split; [reflexivity|split]].
  - intros n vname udep uderiv same Hn. destruct n as [|[|[|n]]]; try lia.
    cbn [build bind guard is_scalar LeviExpr.rows LeviExpr.cols Nat.eqb andb].
    cbn [exec call]. unfold do_deriv. cbn [LeviExpr.rows LeviExpr.cols Nat.ltb Nat.leb guard depends].
    assert (S : same_var vname (fun _ => 1%nat) 0 0 = true) by (unfold same_var; rewrite String.eqb_refl, Nat.eqb_refl; reflexivity).
    rewrite S. cbn [negb]. replace (Qle_bool (1 # 1000000000000000) (Qabs (q - 1))) with false by reflexivity. cbn [negb].
    unfold exec, call, do_deriv. cbn [LeviExpr.rows LeviExpr.cols Nat.ltb Nat.leb guard depends]. rewrite S. reflexivity.
  - assert (N : qint q = None) by reflexivity.
    cbn [meaning]. unfold rpow. rewrite N. unfold at_entry, env_set, vset. cbn [Nat.eqb].
    unfold Rpower. auto_derive; [lra|]. rewrite ln_1. replace (Q2R q * 0) with 0 by ring. rewrite exp_0. field.
  - unfold Q2R, q. cbn [Qnum Qden]. intros H. apply (f_equal (fun x => x * IZR 1125899906842624)) in H.
    rewrite Rmult_assoc, Rinv_l in H by (apply not_0_IZR; lia). rewrite Rmult_1_r, Rmult_1_l in H. apply eq_IZR in H. lia.
Qed.

(** Two variables with the same name and dimension (nothing forbids it, Variable.h:46-49): the derivative of one with
    respect to the other is the identity. *)
Theorem C45_same_name_refuted : exists (vname : nat -> string) vdim urows ucols ueval d (rho : env),
  (forall n udep uderiv same, (1 <= n)%nat -> build vdim urows ucols (exec vname vdim urows ucols udep uderiv same n) (FDeriv (FVar 0) 0 1) = Some d) /\
  eval vdim urows ucols ueval rho d 0 0 = 1 /\
  is_derive (fun x => meaning vdim urows ucols ueval (at_entry rho 1 0 x) (FVar 0) 0 0) (rho 1%nat 0%nat) 0.
Proof.
  exists (fun _ => EmptyString), (fun _ => 1%nat), (fun _ => 1%nat), (fun _ => 1%nat), (fun _ _ _ _ => 0), (EIdent 1 1), (fun _ _ => 1).
  split; [|split; [reflexivity|]].
  - intros n udep uderiv same Hn. destruct n; [lia|]. reflexivity.
  - cbn. apply is_derive_ext with (fun _ : R => 1); [reflexivity|]. exact (is_derive_const (K:=R_AbsRing) (V:=R_NormedModule) 1 1).
Qed.

(** Two variables with the same name and different dimensions: the cache (Evaluable.h:279-303, the key is the name)
    answers the second question with the derivative computed for the first, whose number of columns is wrong. *)
Theorem C45_cache_same_name_refuted : exists (vname : nat -> string) vdim urows ucols udep uderiv same a e,
  (forall n, (3 <= n)%nat ->
     answers vname (cols vdim urows ucols a) (fun _ k v => exec vname vdim urows ucols udep uderiv same n (CDeriv a k v)) 0 [] [Ask 0 0; Ask 0 1]
     = [(0%nat, 0%nat, Answer e); (0%nat, 1%nat, Answer e)]) /\
  cols vdim urows ucols e <> vdim 1%nat /\
  (forall n, (3 <= n)%nat -> exists e', exec vname vdim urows ucols udep uderiv same n (CDeriv a 0 1) = Some e' /\ cols vdim urows ucols e' = vdim 1%nat).
Proof.
  exists (fun _ => EmptyString), (fun v => if (v =? 0)%nat then 1%nat else 2%nat), (fun _ => 1%nat), (fun _ => 1%nat),
    (fun _ _ => false), (fun _ _ _ => EVar 0), (fun _ _ _ => false), (EVert (EVar 0) (EVar 1)), (EVert (EIdent 1 1) (ENull 2 1)).
  split; [|split].
  - intros n Hn. destruct n as [|[|[|n]]]; try lia. reflexivity.
  - cbn. lia.
  - intros n Hn. destruct n as [|[|[|n]]]; try lia. exists (EVert (ENull 1 2) (EIdent 2 2)). split; reflexivity.
Qed.

Print Assumptions C45_derivative_true.
Print Assumptions C45_value_true.
Print Assumptions C45_second_derivative_true.
Print Assumptions C45_dependence_true.
Print Assumptions C45_cache_transparent.
Print Assumptions C45_division_columns_refuted.
Print Assumptions C45_exponent_near_one_refuted.
Print Assumptions C45_same_name_refuted.
Print Assumptions C45_cache_same_name_refuted.
