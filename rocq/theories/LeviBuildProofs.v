(** Proof side of C45: what a user writes evaluates to its meaning, derivatives included. *)
From Coq Require Import String Reals List Arith Lia Lra Bool QArith Qabs Qreals ZArith FunctionalExtensionality.
From Coquelicot Require Import Coquelicot.
From Verif Require Import Spec PartialLib SpecDerivatives LeviExpr LeviWf LeviMat LeviPost LeviMul LeviAdd LeviAccess LeviDeriv LeviBuild.
Import ListNotations.
Local Open Scope R_scope.
Set Implicit Arguments.


Lemma formula_ind' (P : formula -> Prop) :
  (forall r c m, P (FConst r c m)) -> (forall r c, P (FNull r c)) -> (forall n, P (FIdent n)) -> (forall u, P (FVar u)) ->
  (forall u f, P f -> P (FAsVar u f)) -> (forall k, P (FUser k)) ->
  (forall f g, P f -> P g -> P (FAdd f g)) -> (forall f g, P f -> P g -> P (FSub f g)) -> (forall f, P f -> P (FNeg f)) ->
  (forall f g, P f -> P g -> P (FMul f g)) -> (forall f g, P f -> P g -> P (FDiv f g)) -> (forall f q, P f -> P (FPow f q)) ->
  (forall f, P f -> P (FSkew f)) -> (forall f, P f -> P (FVee f)) -> (forall f, P f -> P (FTransp f)) ->
  (forall f i, P f -> P (FRow f i)) -> (forall f j, P f -> P (FCol f j)) -> (forall f i j, P f -> P (FElem f i j)) ->
  (forall f i j r c, P f -> P (FBlock f i j r c)) ->
  (forall l, List.Forall P l -> P (FByRows l)) -> (forall l, List.Forall P l -> P (FByCols l)) ->
  (forall f g, P f -> P g -> P (FHorz f g)) -> (forall f g, P f -> P g -> P (FVert f g)) ->
  (forall f k v, P f -> P (FDeriv f k v)) -> forall f, P f.
Proof.
  intros. revert f. fix IH 1.
  intros [ ]; [apply H|apply H0|apply H1|apply H2|apply H3|apply H4|apply H5|apply H6|apply H7|apply H8|apply H9|apply H10|apply H11
    |apply H12|apply H13|apply H14|apply H15|apply H16|apply H17|apply H18|apply H19|apply H20|apply H21|apply H22]; try apply IH.
  all: match goal with |- List.Forall _ ?l => induction l as [|x l' Hl]; constructor; [apply IH|exact Hl] end.
Qed.

Lemma at_entry_id rho v j : at_entry rho v j (rho v j) = rho.
Proof.
  unfold at_entry. replace (vset (rho v) j (rho v j)) with (rho v); [apply env_set_id|].
  apply functional_extensionality; intros i. unfold vset. destruct (Nat.eqb_spec i j); subst; auto.
Qed.

Section Sound.
Variable vname : nat -> string.
Variable vdim : nat -> nat.
Variables urows ucols : nat -> nat.
Variable udep : nat -> nat -> bool.
Variable uderiv : nat -> nat -> nat -> expr.
Variable same : nat -> expr -> expr -> bool.
Variable ueval : nat -> env -> mat.
Variable udom : nat -> env -> Prop.
Notation rows := (rows vdim urows ucols).
Notation cols := (cols vdim urows ucols).
Notation eval := (eval vdim urows ucols ueval).
Notation depends := (depends vname vdim udep).
Notation eqv := (eqv same).
Notation is_scalar := (is_scalar vdim urows ucols).
Notation exec := (exec vname vdim urows ucols udep uderiv same).
Notation wf := (wf vdim urows ucols ueval).
Notation dom := (dom vdim urows ucols ueval udom).
Notation tr := (tr vdim urows ucols ueval).
Notation spec := (spec vdim urows ucols ueval udom).
Notation post := (post vdim urows ucols ueval udom).
Notation deriv_ok := (deriv_ok vdim urows ucols ueval udom).
Notation build := (build vdim urows ucols).
Notation computed := (computed vname vdim urows ucols udep uderiv same).
Notation frows := (frows vdim urows ucols).
Notation fcols := (fcols vdim urows ucols).
Notation meaning := (meaning vdim urows ucols ueval).
Notation well_formed := (well_formed vdim urows ucols ueval).
Notation defined := (defined vdim urows ucols ueval udom).

Hypothesis user_indep : forall k v, udep k v = false ->
  forall rho x i j, (i < urows k)%nat -> (j < ucols k)%nat -> ueval k (env_set rho v x) i j = ueval k rho i j.
Hypothesis user_deriv : forall k c v, udep k v = true -> (c < ucols k)%nat -> deriv_ok (EUser k) c v (uderiv k c v).
Hypothesis user_open : forall k rho v j, udom k rho -> (j < vdim v)%nat -> locally (rho v j) (fun x => udom k (at_entry rho v j x)).

(** ** A tree is differentiable where it is defined *)
Lemma ex_sumn rho v j n (F : nat -> env -> R) : (forall k, (k < n)%nat -> exists d, dpart rho v (F k) j d) ->
  exists d, dpart rho v (fun r => sumn n (fun k => F k r)) j d.
Proof.
  induction n as [|n IHn]; intros H.
  - exists 0. apply (@dpart_const rho v j (fun _ => 0)). reflexivity.
  - destruct (IHn ltac:(auto)) as [d Hd]. destruct (H n ltac:(lia)) as [d' Hd']. exists (d + d'). cbn [sumn]. apply dpart_plus; auto.
Qed.
Lemma ex_zero rho v j : exists d, dpart rho v (fun _ => 0) j d.
Proof. exists 0. apply (@dpart_const rho v j (fun _ => 0)). reflexivity. Qed.
Lemma ex_mult rho v j F G : (exists d, dpart rho v F j d) -> (exists d, dpart rho v G j d) -> exists d, dpart rho v (fun r => F r * G r) j d.
Proof. intros [d Hd] [d' Hd']. eexists. apply dpart_mult; eauto. Qed.

Lemma ex_dpart e : wf e -> forall rho v j, (j < vdim v)%nat -> dom rho e ->
  forall i k, (i < rows e)%nat -> (k < cols e)%nat -> exists d, dpart rho v (fun r => eval r e i k) j d.
Proof.
  assert (LR : forall l, List.Forall (fun e => wf e -> forall rho v j, (j < vdim v)%nat -> dom rho e ->
     forall i k, (i < rows e)%nat -> (k < cols e)%nat -> exists d, dpart rho v (fun r => eval r e i k) j d) l ->
     all_of (map wf l) -> forall rho v j, (j < vdim v)%nat -> all_of (map (dom rho) l) -> forall m a, nth_error l m = Some a ->
     forall i k, (i < rows a)%nat -> (k < cols a)%nat -> exists d, dpart rho v (fun r => eval r a i k) j d).
  { intros l F W rho v j Hj D m a Q i k Hi Hk. apply nth_error_In in Q. apply all_map in W. apply all_map in D.
    rewrite List.Forall_forall in F, W, D. apply F; auto. }
  induction e using expr_ind'; intros W rho v jj Hjj D i' k' Hi Hk.
  - exists 0. apply dpart_const. reflexivity.
  - exists 0. apply dpart_const. reflexivity.
  - exists 0. apply dpart_const. reflexivity.
  - exists 0. apply dpart_const. reflexivity.
  - exists 0. apply dpart_const. reflexivity.
  - cbn [LeviExpr.eval]. destruct (Nat.eq_dec u v) as [->|N]; [eexists; apply dpart_var|].
    exists 0. apply dpart_const. intros x. unfold env_set. destruct (Nat.eqb_spec u v); congruence.
  - destruct W as (W & Cx & Rx & _). cbn [LeviExpr.rows LeviExpr.cols LeviExpr.eval] in *. destruct (IHe W rho v jj Hjj D i' k' Hi ltac:(lia)) as [d Hd].
    destruct (Nat.eq_dec u v) as [->|N]; [eexists; exact (dpart_plus Hd (dpart_var rho v jj i'))|].
    exists (d + 0). apply (dpart_plus Hd (G := fun r => r u i')). apply dpart_const. intros x. unfold env_set. destruct (Nat.eqb_spec u v); congruence.
  - destruct (udep k v) eqn:U.
    + destruct (@user_deriv k k' v U Hk) as (_ & _ & _ & S). eexists. apply S; auto.
    + exists 0. apply dpart_const. intros x. apply (@indep vname vdim urows ucols udep ueval); auto.
  - destruct W as (W1 & W2 & R & C), D as (D1 & D2). cbn [LeviExpr.rows LeviExpr.cols LeviExpr.eval] in *.
    destruct (IHe1 W1 rho v jj Hjj D1 i' k' Hi Hk) as [d Hd]. destruct (IHe2 W2 rho v jj Hjj D2 i' k' ltac:(lia) ltac:(lia)) as [d' Hd'].
    eexists. apply dpart_plus; eauto.
  - destruct W as (W1 & W2 & R & C), D as (D1 & D2). cbn [LeviExpr.rows LeviExpr.cols LeviExpr.eval] in *.
    destruct (IHe1 W1 rho v jj Hjj D1 i' k' Hi Hk) as [d Hd]. destruct (IHe2 W2 rho v jj Hjj D2 i' k' ltac:(lia) ltac:(lia)) as [d' Hd'].
    eexists. apply dpart_minus; eauto.
  - cbn [LeviExpr.rows LeviExpr.cols LeviExpr.eval] in *. destruct (IHe W rho v jj Hjj D i' k' Hi Hk) as [d Hd]. eexists. apply dpart_opp; eauto.
  - destruct (prod_inv W) as (Wx & Wy & [(-> & Rx & Cx & RP & CP & RS)|(-> & -> & F & RP & CP)]); rewrite RP in Hi; rewrite CP in Hk; destruct D as (D1 & D2);
    cbn [LeviExpr.eval].
    + apply ex_mult; [apply IHe1; auto; lia|apply IHe2; auto].
    + apply ex_sumn. intros l Hl. apply ex_mult; [apply IHe1; auto|apply IHe2; auto; lia].
  - destruct W as (W & R & C & G), D as (D & P). destruct (IHe W rho v jj Hjj D 0%nat 0%nat ltac:(lia) ltac:(lia)) as [d Hd].
    eexists. cbn [LeviExpr.eval]. apply (@dpart_comp rho v jj (fun y => rpow y q) (fun y => Q2R q * rpow y (q - 1)) (fun r => eval r e 0 0)); eauto.
    apply is_derive_rpow. exact P.
  - destruct W as (W1 & W2 & C & R2 & C2), D as (D1 & D2 & N). cbn [LeviExpr.rows LeviExpr.cols LeviExpr.eval] in *.
    destruct (IHe2 W2 rho v jj Hjj D2 0%nat 0%nat ltac:(lia) ltac:(lia)) as [d' Hd'].
    destruct (@ex_mult rho v jj (fun r => eval r e1 i' k') (fun r => rpow (eval r e2 0 0) (-1 # 1))) as [d Hd].
    + apply IHe1; auto; lia.
    + eexists. apply (@dpart_comp rho v jj (fun y => rpow y (-1 # 1)) (fun y => Q2R (-1 # 1) * rpow y ((-1 # 1) - 1)) (fun r => eval r e2 0 0)); eauto.
      apply is_derive_rpow. right. exact N.
    + exists d. eapply dpart_ext; [|exact Hd]. intros r. cbv beta. symmetry. apply div_rpow.
  - destruct W as (W & R & C). cbn [LeviExpr.rows LeviExpr.cols] in *.
    assert (P : forall l, (l < 3)%nat -> exists d, dpart rho v (fun r => eval r e l 0) jj d) by (intros; apply IHe; auto; lia).
    assert (N : forall l, (l < 3)%nat -> exists d, dpart rho v (fun r => - eval r e l 0) jj d).
    { intros l Hl. destruct (P l Hl) as [d Hd]. eexists. apply (dpart_opp Hd). }
    pose proof (ex_zero rho v jj) as Z0.
    destruct i' as [|[|[|]]]; try lia; destruct k' as [|[|[|]]]; try lia.
    exact Z0. exact (N 2%nat ltac:(lia)). exact (P 1%nat ltac:(lia)). exact (P 2%nat ltac:(lia)). exact Z0. exact (N 0%nat ltac:(lia)).
    exact (N 1%nat ltac:(lia)). exact (P 0%nat ltac:(lia)). exact Z0.
  - destruct W as (W & R & C). cbn [LeviExpr.rows LeviExpr.cols LeviExpr.eval] in *.
    destruct i' as [|[|[|]]]; try lia; apply IHe; auto; lia.
  - rewrite rows_transp in Hi. rewrite cols_transp in Hk. cbn [LeviExpr.eval]. apply IHe; auto.
  - destruct W as (W & H). cbn [LeviExpr.rows LeviExpr.cols LeviExpr.eval] in *. apply IHe; auto.
  - destruct W as (W & H). cbn [LeviExpr.rows LeviExpr.cols LeviExpr.eval] in *. apply IHe; auto.
  - destruct W as (W & H & H'). cbn [LeviExpr.rows LeviExpr.cols LeviExpr.eval] in *. apply IHe; auto.
  - destruct W as (W & H & H'). cbn [LeviExpr.rows LeviExpr.cols LeviExpr.eval] in *. apply IHe; auto; lia.
  - destruct W as (Ne & W & F). cbn [LeviExpr.eval]. destruct (@nth_error_ex _ l i') as [a Qa]; [exact Hi|].
    pose proof (nth_error_In _ _ Qa) as Ia. rewrite List.Forall_forall in F. destruct (F a Ia) as [R C].
    destruct (LR l H W rho v jj Hjj D i' a Qa 0%nat k' ltac:(lia) ltac:(rewrite C; exact Hk)) as [d Hd].
    exists d. eapply dpart_ext; [|exact Hd]. intros r. cbv beta. symmetry. apply (nth_error_map_d (fun b => eval r b 0 k') _ _ Qa).
  - destruct W as (Ne & W & F). cbn [LeviExpr.eval]. destruct (@nth_error_ex _ l k') as [a Qa]; [exact Hk|].
    pose proof (nth_error_In _ _ Qa) as Ia. rewrite List.Forall_forall in F. destruct (F a Ia) as [C R].
    destruct (LR l H W rho v jj Hjj D k' a Qa i' 0%nat ltac:(rewrite R; exact Hi) ltac:(lia)) as [d Hd].
    exists d. eapply dpart_ext; [|exact Hd]. intros r. cbv beta. symmetry. apply (nth_error_map_d (fun b => eval r b i' 0) _ _ Qa).
  - destruct W as (W1 & W2 & R), D as (D1 & D2). cbn [LeviExpr.rows LeviExpr.cols LeviExpr.eval] in *.
    destruct (Nat.ltb_spec k' (cols e1)); [apply IHe1|apply IHe2]; auto; lia.
  - destruct W as (W1 & W2 & R), D as (D1 & D2). cbn [LeviExpr.rows LeviExpr.cols LeviExpr.eval] in *.
    destruct (Nat.ltb_spec i' (rows e1)); [apply IHe1|apply IHe2]; auto; lia.
  - destruct W as (Wd & Ws & Wb & Rb & Cb & Fd & Ls & Fs & E). destruct D as (D1 & D2 & D3). cbn [LeviExpr.rows LeviExpr.cols LeviExpr.eval] in *.
    apply ex_sumn. intros l Hl. apply ex_mult; [apply IHe; auto; lia|].
    destruct (@nth_error_ex _ ds l Hl) as [a Qa]. pose proof (nth_error_In _ _ Qa) as Ia. rewrite List.Forall_forall in Fd. destruct (Fd a Ia) as [R C].
    destruct (LR ds H Wd rho v jj Hjj D1 l a Qa i' k' ltac:(lia) ltac:(lia)) as [dd Hd].
    exists dd. eapply dpart_ext; [|exact Hd]. intros r0. cbv beta. symmetry. apply (nth_error_map_d (fun b => eval r0 b i' k') _ _ Qa).
Qed.

(** ** What [build] gives *)
Record ok (f : formula) (e : expr) : Prop := mkOk {
  ok_wf : wf e; ok_rows : rows e = frows f; ok_cols : cols e = fcols f;
  ok_val : forall rho, deriv_free f = true \/ defined rho f ->
    forall i j, (i < frows f)%nat -> (j < fcols f)%nat -> eval rho e i j = meaning rho f i j;
  ok_dom : forall rho, defined rho f -> dom rho e;
  ok_open : forall rho v j, defined rho f -> (j < vdim v)%nat -> locally (rho v j) (fun x => defined (at_entry rho v j x) f) }.

Lemma ok_cont f e rho v j i k : ok f e -> defined rho f -> (j < vdim v)%nat -> (i < frows f)%nat -> (k < fcols f)%nat ->
  forall U : R -> Prop, locally (meaning rho f i k) U -> locally (rho v j) (fun x => U (meaning (at_entry rho v j x) f i k)).
Proof.
  intros O D Hj Hi Hk U HU. destruct (@ex_dpart e (ok_wf O) rho v j Hj (@ok_dom _ _ O rho D) i k) as [d Hd].
  { rewrite (ok_rows O); auto. } { rewrite (ok_cols O); auto. }
  assert (C : continuous (fun x => eval (at_entry rho v j x) e i k) (rho v j)).
  { apply (ex_derive_continuous (K:=R_AbsRing) (V:=R_NormedModule)). exists d. exact Hd. }
  assert (L : locally (rho v j) (fun x => U (eval (at_entry rho v j x) e i k))).
  { apply C. rewrite at_entry_id, (ok_val O) by auto. exact HU. }
  pose proof (@ok_open _ _ O rho v j D Hj) as L'. generalize (filter_and _ _ L L'). apply filter_imp. intros x [A B].
  rewrite (ok_val O) in A by auto. exact A.
Qed.
Lemma loc_neq0 y : y <> 0 -> locally y (fun x => x <> 0).
Proof. intros N. apply (open_neq 0). auto. Qed.
Lemma loc_pos y : 0 < y -> locally y (fun x => 0 < x).
Proof. intros N. apply (open_gt 0). auto. Qed.
Lemma loc_pow y q : pow_dom y q -> locally y (fun x => pow_dom x q).
Proof.
  unfold pow_dom. destruct (qint q) as [z|]; [|apply loc_pos]. intros [A|A].
  - apply filter_forall. auto.
  - generalize (loc_neq0 A). apply filter_imp. auto.
Qed.
Lemma or2 (f g : formula) b (rho : env) : b = deriv_free f && deriv_free g -> b = true \/ (defined rho f /\ defined rho g) ->
  (deriv_free f = true \/ defined rho f) /\ (deriv_free g = true \/ defined rho g).
Proof. intros -> [H|H]; [apply andb_true_iff in H|]; tauto. Qed.
Lemma locally_and2 (x : R) (P Q : R -> Prop) : locally x P -> locally x Q -> locally x (fun t => P t /\ Q t).
Proof. apply filter_and. Qed.
Lemma locally_all A (x : R) (P : R -> A -> Prop) l : List.Forall (fun a => locally x (fun t => P t a)) l -> locally x (fun t => all_of (map (P t) l)).
Proof.
  induction 1; cbn [map all_of fold_right]; [apply filter_forall; auto|]. apply filter_and; auto.
Qed.

Lemma ok_add f g a b e (OA : ok f a) (OB : ok g b) : frows f = frows g -> fcols f = fcols g ->
  spec e (fun rho => mplus (tr rho a) (tr rho b)) (fun rho => dom rho a /\ dom rho b) -> ok (FAdd f g) e.
Proof.
  intros R C S. destruct (add_at S) as (A & B & V). constructor; cbn [SpecDerivatives.frows SpecDerivatives.fcols].
  - exact (sp_wf S).
  - rewrite A. apply OA.
  - rewrite B. apply OA.
  - intros rho H i j Hi Hj. apply or2 in H; [|reflexivity]. rewrite V by (rewrite ?(ok_rows OA), ?(ok_cols OA); auto).
    rewrite (ok_val OA), (ok_val OB) by (tauto || lia). reflexivity.
  - intros rho (D1 & D2). apply (sp_dom S). split; [apply OA|apply OB]; auto.
  - intros rho v j (D1 & D2) Hj. apply locally_and2; [apply OA|apply OB]; auto.
Qed.
Lemma ok_sub f g a b e (OA : ok f a) (OB : ok g b) : frows f = frows g -> fcols f = fcols g ->
  spec e (fun rho => mminus (tr rho a) (tr rho b)) (fun rho => dom rho a /\ dom rho b) -> ok (FSub f g) e.
Proof.
  intros R C S. destruct (sub_at S) as (A & B & V). constructor; cbn [SpecDerivatives.frows SpecDerivatives.fcols].
  - exact (sp_wf S).
  - rewrite A. apply OA.
  - rewrite B. apply OA.
  - intros rho H i j Hi Hj. apply or2 in H; [|reflexivity]. rewrite V by (rewrite ?(ok_rows OA), ?(ok_cols OA); auto).
    rewrite (ok_val OA), (ok_val OB) by (tauto || lia). reflexivity.
  - intros rho (D1 & D2). apply (sp_dom S). split; [apply OA|apply OB]; auto.
  - intros rho v j (D1 & D2) Hj. apply locally_and2; [apply OA|apply OB]; auto.
Qed.
Lemma frows_mul f g : frows (FMul f g) = if ((frows f =? 1) && (fcols f =? 1))%nat then frows g else frows f.
Proof. reflexivity. Qed.
Lemma fcols_mul f g : fcols (FMul f g) = if ((frows f =? 1) && (fcols f =? 1))%nat then fcols g
   else if ((frows g =? 1) && (fcols g =? 1))%nat then fcols f else fcols g.
Proof. reflexivity. Qed.
Lemma sc_ok f a rho : ok f a -> sc (tr rho a) = ((frows f =? 1) && (fcols f =? 1))%nat.
Proof. intros O. unfold sc, LeviPost.tr; cbn [mr mc]. rewrite (ok_rows O), (ok_cols O). reflexivity. Qed.
Lemma ok_mul f g a b e (OA : ok f a) (OB : ok g b) : 
  ((frows f = 1%nat /\ fcols f = 1%nat) \/ (frows g = 1%nat /\ fcols g = 1%nat) \/ fcols f = frows g) ->
  spec e (fun rho => mtimes (tr rho a) (tr rho b)) (fun rho => dom rho a /\ dom rho b) -> ok (FMul f g) e.
Proof.
  intros F S.
  assert (M : forall rho, mr (mtimes (tr rho a) (tr rho b)) = frows (FMul f g) /\ mc (mtimes (tr rho a) (tr rho b)) = fcols (FMul f g)).
  { intros rho. rewrite frows_mul, fcols_mul. unfold mtimes. rewrite (sc_ok rho OA), (sc_ok rho OB).
    destruct ((frows f =? 1) && (fcols f =? 1))%nat; [split; apply OB|]. destruct ((frows g =? 1) && (fcols g =? 1))%nat; (split; [apply OA|]); [apply OA|apply OB]. }
  constructor.
  - exact (sp_wf S).
  - rewrite (spec_rows S rho0). apply M.
  - rewrite (spec_cols S rho0). apply M.
  - intros rho H i j Hi Hj. apply or2 in H; [|reflexivity]. destruct H as [HA HB]. destruct (M rho) as [MR MC].
    rewrite (spec_at S) by (rewrite ?MR, ?MC; auto). rewrite frows_mul in Hi. rewrite fcols_mul in Hj. clear MR MC.
    unfold mtimes. rewrite (sc_ok rho OA), (sc_ok rho OB). cbn [SpecDerivatives.meaning].
    destruct ((frows f =? 1) && (fcols f =? 1))%nat eqn:Sf; [|destruct ((frows g =? 1) && (fcols g =? 1))%nat eqn:Sg];
      rewrite ?andb_true_iff, ?Nat.eqb_eq in *; cbn [mf mr mc LeviPost.tr].
    + rewrite (ok_val OA), (ok_val OB) by (auto || lia). reflexivity.
    + rewrite (ok_val OA), (ok_val OB) by (auto || lia). reflexivity.
    + apply andb_false_iff in Sf. apply andb_false_iff in Sg. rewrite !Nat.eqb_neq in Sf, Sg.
      assert (E : fcols f = frows g) by lia.
      rewrite (ok_cols OA), (ok_rows OB), <- E, Nat.min_id. apply sumn_ext. intros l Hl. rewrite (ok_val OA), (ok_val OB) by (auto || lia). reflexivity.
  - intros rho (D1 & D2). apply (sp_dom S). split; [apply OA|apply OB]; auto.
  - intros rho v j (D1 & D2) Hj. apply locally_and2; [apply OA|apply OB]; auto.
Qed.
(** Nodes and commands with one operand. *)
Lemma ok_one f F e D r c (h : env -> nat -> nat -> R) (O : spec e (fun rho => mkM r c (h rho)) D) : frows F = r -> fcols F = c ->
  deriv_free F = deriv_free f -> (forall rho, defined rho F <-> defined rho f) ->
  (forall rho, defined rho f -> D rho) ->
  (forall rho v j, defined rho f -> (j < vdim v)%nat -> locally (rho v j) (fun x => defined (at_entry rho v j x) f)) ->
  (forall rho, deriv_free f = true \/ defined rho f -> forall i j, (i < r)%nat -> (j < c)%nat -> h rho i j = meaning rho F i j) -> ok F e.
Proof.
  intros R C Df De Dd Op V. constructor.
  - exact (sp_wf O).
  - rewrite R. exact (spec_rows O rho0).
  - rewrite C. exact (spec_cols O rho0).
  - intros rho H i j Hi Hj. rewrite R in Hi. rewrite C in Hj. rewrite (spec_at O) by (cbn; auto). cbn [mf]. apply V; auto. rewrite <- Df, <- De. exact H.
  - intros rho H. apply (sp_dom O). apply Dd, De. exact H.
  - intros rho v j H Hj. apply De in H. generalize (Op rho v j H Hj). apply filter_imp. intros x. apply De.
Qed.

Lemma spec_node e : wf e -> forall r c, rows e = r -> cols e = c -> spec e (fun rho => mkM r c (eval rho e)) (fun rho => dom rho e).
Proof. intros W r c <- <-. apply spec_self; auto. Qed.

Lemma build_list run l l' : List.Forall (fun f => well_formed f -> forall e, build run f = Some e -> ok f e) l -> all_of (map well_formed l) ->
  traverse (build run) l = Some l' -> length l' = length l /\ List.Forall2 ok l l'.
Proof.
  intros F W T. apply all_map in W. revert l' T. induction l as [|f l IHl]; intros l' T; cbn in T.
  - injection T as <-. split; auto.
  - step T a Qa. step T rest Qr. injection T as <-. inversion F; subst. inversion W; subst. destruct (IHl ltac:(auto) ltac:(auto) rest Qr) as [L O].
    split; [cbn; congruence|]. constructor; auto.
Qed.
Lemma F2_nth (l : list formula) l' : List.Forall2 ok l l' -> forall i a, nth_error l' i = Some a -> exists f, nth_error l i = Some f /\ ok f a.
Proof. induction 1; intros [|i] b Hb; cbn in *; try discriminate; [injection Hb as <-; eauto|auto]. Qed.
Lemma F2_nth' (l : list formula) l' : List.Forall2 ok l l' -> forall i f, nth_error l i = Some f -> exists a, nth_error l' i = Some a /\ ok f a.
Proof. induction 1; intros [|i] b Hb; cbn in *; try discriminate; [injection Hb as <-; eauto|auto]. Qed.
Lemma or_list l (rho : env) i f : forallb deriv_free l = true \/ all_of (map (defined rho) l) -> nth_error l i = Some f -> deriv_free f = true \/ defined rho f.
Proof.
  intros H Q. apply nth_error_In in Q. destruct H as [H|H]; [rewrite forallb_forall in H; auto|].
  apply all_map in H. rewrite List.Forall_forall in H. auto.
Qed.
Lemma nth_map_F (h : formula -> R) l i f : nth_error l i = Some f -> nth i (map h l) 0 = h f.
Proof. intros H. apply nth_error_nth. rewrite nth_error_map, H. reflexivity. Qed.

Theorem build_ok run f (X : forall c e, run c = Some e -> post c e) : well_formed f -> forall e, build run f = Some e -> ok f e.
Proof.
  induction f using formula_ind'; intros W e B; cbn [LeviBuild.build] in B.
  - injection B as <-. constructor; try reflexivity; try (intros; exact Logic.I). intros. apply filter_forall. intros; exact Logic.I.
  - injection B as <-. constructor; try reflexivity; try (intros; exact Logic.I). intros. apply filter_forall. intros; exact Logic.I.
  - injection B as <-. constructor; try reflexivity; try (intros; exact Logic.I). intros. apply filter_forall. intros; exact Logic.I.
  - injection B as <-. constructor; try reflexivity; try (intros; exact Logic.I). intros. apply filter_forall. intros; exact Logic.I.
  - step B a Qa. apply guard_some in B. destruct B as [_ B]. injection B as <-. destruct W as (W & C & R & DF & Ind).
    pose proof (IHf W a Qa) as O. constructor.
    + cbn [LeviPost.wf]. split; [apply O|]. split; [rewrite (ok_cols O); auto|]. split; [rewrite (ok_rows O); auto|].
      intros rho x i Hi. rewrite (ok_rows O) in Hi. rewrite !(ok_val O) by (auto || lia). apply Ind; auto.
    + cbn. apply O.
    + reflexivity.
    + intros rho H i j Hi Hj. cbn [SpecDerivatives.frows SpecDerivatives.fcols] in *. cbn [LeviExpr.eval SpecDerivatives.meaning].
      rewrite (ok_val O) by (auto || lia). reflexivity.
    + intros rho D. apply (@ok_dom _ _ O). exact D.
    + intros rho v j D Hj. apply (@ok_open _ _ O rho v j D Hj).
  - injection B as <-. constructor; try reflexivity.
    + intros rho _ i j Hi Hj. cbn [SpecDerivatives.frows SpecDerivatives.fcols] in *. cbn [LeviExpr.eval SpecDerivatives.meaning].
      destruct (Nat.ltb_spec i (urows k)), (Nat.ltb_spec j (ucols k)); try lia. reflexivity.
    + intros rho D. exact D.
    + intros rho v j D Hj. apply user_open; auto.
  - step B a Qa. step B b Qb. destruct W as (W1 & W2 & R & C). pose proof (IHf1 W1 a Qa) as O1. pose proof (IHf2 W2 b Qb) as O2.
    apply X in B. destruct (B (ok_wf O1) (ok_wf O2)) as (_ & _ & S). apply (@ok_add f1 f2 a b); auto.
  - step B a Qa. step B b Qb. destruct W as (W1 & W2 & R & C). pose proof (IHf1 W1 a Qa) as O1. pose proof (IHf2 W2 b Qb) as O2.
    apply X in B. destruct (B (ok_wf O1) (ok_wf O2)) as (_ & _ & S). apply (@ok_sub f1 f2 a b); auto.
  - step B a Qa. pose proof (IHf W a Qa) as O. apply X in B. specialize (B (ok_wf O)). cbn [LeviPost.post] in B. unfold mopp in B; cbn [mr mc LeviPost.tr] in B.
    apply (@ok_one f (FNeg f) e _ _ _ _ B); try reflexivity; try apply O; [cbn; symmetry; apply O|cbn; symmetry; apply O|].
    intros rho H i j Hi Hj. rewrite (ok_rows O) in Hi. rewrite (ok_cols O) in Hj. cbn [mf LeviPost.tr SpecDerivatives.meaning]. rewrite (ok_val O) by auto. reflexivity.
  - step B a Qa. step B b Qb. destruct W as (W1 & W2 & R). pose proof (IHf1 W1 a Qa) as O1. pose proof (IHf2 W2 b Qb) as O2.
    apply X in B. destruct (B (ok_wf O1) (ok_wf O2)) as (_ & S). apply (@ok_mul f1 f2 a b); auto.
  - step B a Qa. step B b Qb. apply guard_some in B. destruct B as [_ B]. injection B as <-. destruct W as (W1 & W2 & C & R2 & C2).
    pose proof (IHf1 W1 a Qa) as O1. pose proof (IHf2 W2 b Qb) as O2. constructor.
    + cbn [LeviPost.wf]. rewrite (ok_cols O1), (ok_rows O2), (ok_cols O2). repeat split; auto; [apply O1|apply O2].
    + cbn. apply O1.
    + cbn. rewrite (ok_cols O2). congruence.
    + intros rho H i j Hi Hj. cbn [SpecDerivatives.frows SpecDerivatives.fcols] in *. cbn [LeviExpr.eval SpecDerivatives.meaning].
      assert (H' : deriv_free (FDiv f1 f2) = true \/ (defined rho f1 /\ defined rho f2)) by (cbn [SpecDerivatives.defined] in H; tauto).
      apply or2 in H'; [|reflexivity]. rewrite (ok_val O1), (ok_val O2) by (tauto || lia). reflexivity.
    + intros rho (D1 & D2 & N). cbn [LeviPost.dom]. split; [apply O1; auto|]. split; [apply O2; auto|]. rewrite (ok_val O2) by (auto || lia). exact N.
    + intros rho v j (D1 & D2 & N) Hj. cbn [SpecDerivatives.defined]. apply locally_and2; [apply O1; auto|]. apply locally_and2; [apply O2; auto|].
      apply (@ok_cont f2 b rho v j 0%nat 0%nat O2 D2 Hj ltac:(lia) ltac:(lia) (fun y => y <> 0)). apply loc_neq0; auto.
  - step B a Qa. apply guard_some in B. destruct B as [_ B]. injection B as <-. destruct W as (W & R & C & G).
    pose proof (IHf W a Qa) as O. constructor.
    + cbn [LeviPost.wf]. rewrite (ok_rows O), (ok_cols O). repeat split; auto. apply O.
    + reflexivity.
    + reflexivity.
    + intros rho H i j Hi Hj. cbn [LeviExpr.eval SpecDerivatives.meaning].
      rewrite (ok_val O) by (cbn [SpecDerivatives.defined deriv_free] in H; tauto || lia). reflexivity.
    + intros rho (D & P). cbn [LeviPost.dom]. split; [apply O; auto|]. rewrite (ok_val O) by (auto || lia). exact P.
    + intros rho v j (D & P) Hj. cbn [SpecDerivatives.defined]. apply locally_and2; [apply O; auto|].
      apply (@ok_cont f a rho v j 0%nat 0%nat O D Hj ltac:(lia) ltac:(lia) (fun y => pow_dom y q)). apply loc_pow; auto.
  - step B a Qa. apply guard_some in B. destruct B as [_ B]. injection B as <-. destruct W as (W & R & C). pose proof (IHf W a Qa) as O.
    assert (WA : wf (ESkew a)) by (cbn [LeviPost.wf]; rewrite (ok_rows O), (ok_cols O); repeat split; auto; apply O).
    apply (@ok_one f (FSkew f) _ _ _ _ _ (spec_node _ WA eq_refl eq_refl)); try reflexivity; try apply O.
    intros rho H i j Hi Hj. cbn [LeviExpr.rows LeviExpr.cols] in *.
    assert (V : forall l, (l < 3)%nat -> eval rho a l 0 = meaning rho f l 0) by (intros; apply (ok_val O); auto; lia).
    cbn [LeviExpr.eval SpecDerivatives.meaning]. rewrite !V by lia. reflexivity.
  - step B a Qa. apply guard_some in B. destruct B as [_ B]. injection B as <-. destruct W as (W & R & C). pose proof (IHf W a Qa) as O.
    assert (WA : wf (EVee a)) by (cbn [LeviPost.wf]; rewrite (ok_rows O), (ok_cols O); repeat split; auto; apply O).
    apply (@ok_one f (FVee f) _ _ _ _ _ (spec_node _ WA eq_refl eq_refl)); try reflexivity; try apply O.
    intros rho H i j Hi Hj. cbn [LeviExpr.eval SpecDerivatives.meaning]. rewrite !(ok_val O) by (auto || lia). reflexivity.
  - step B a Qa. pose proof (IHf W a Qa) as O. apply X in B. specialize (B (ok_wf O)). cbn [LeviPost.post] in B.
    apply (@ok_one f (FTransp f) e _ _ _ _ B); try reflexivity; try apply O; [change (frows (FTransp f)) with (fcols f); symmetry; apply O|change (fcols (FTransp f)) with (frows f); symmetry; apply O|].
    intros rho H i j Hi Hj. rewrite (ok_cols O) in Hi. rewrite (ok_rows O) in Hj. cbn [SpecDerivatives.meaning]. rewrite (ok_val O) by auto. reflexivity.
  - step B a Qa. destruct W as (W & Hi0). pose proof (IHf W a Qa) as O. apply X in B. destruct (B (ok_wf O)) as (_ & S).
    apply (@ok_one f (FRow f i) e _ _ _ _ S); try reflexivity; try apply O; [cbn; symmetry; apply O|].
    intros rho H i' j Hi Hj. rewrite (ok_cols O) in Hj. cbn [SpecDerivatives.meaning]. rewrite (ok_val O) by auto. reflexivity.
  - step B a Qa. destruct W as (W & Hi0). pose proof (IHf W a Qa) as O. apply X in B. destruct (B (ok_wf O)) as (_ & S).
    apply (@ok_one f (FCol f j) e _ _ _ _ S); try reflexivity; try apply O; [cbn; symmetry; apply O|].
    intros rho H i' j' Hi Hj. rewrite (ok_rows O) in Hi. cbn [SpecDerivatives.meaning]. rewrite (ok_val O) by auto. reflexivity.
  - step B a Qa. destruct W as (W & Hi0 & Hj0). pose proof (IHf W a Qa) as O. apply X in B. destruct (B (ok_wf O)) as (_ & _ & S).
    apply (@ok_one f (FElem f i j) e _ _ _ _ S); try reflexivity; try apply O.
    intros rho H i' j' Hi Hj. cbn [SpecDerivatives.meaning]. rewrite (ok_val O) by auto. reflexivity.
  - step B a Qa. destruct W as (W & Hi0 & Hj0). pose proof (IHf W a Qa) as O. apply X in B. destruct (B (ok_wf O)) as (_ & _ & S). cbn [LeviPost.post] in S.
    apply (@ok_one f (FBlock f i j r c) e _ _ _ _ S); try reflexivity; try apply O.
    intros rho H i' j' Hi Hj. cbn [SpecDerivatives.meaning]. rewrite (ok_val O) by (auto || lia). reflexivity.
  - step B l' Ql. apply by_rows_some in B. destruct B as [-> Ne']. destruct W as (Ne & W & F). destruct (@build_list run l l' H W Ql) as [L O].
    assert (CH : cols (EByRows l') = fcols (FByRows l)).
    { inversion O; subst; [congruence|]. cbn. match goal with K : ok _ _ |- _ => apply K end. }
    rewrite List.Forall_forall in F. constructor.
    + cbn [LeviPost.wf]. split; auto. split.
      * apply all_map, Forall_nth_error. intros i a Q. destruct (F2_nth O i Q) as (f & _ & K). apply K.
      * apply Forall_nth_error. intros i a Q. destruct (F2_nth O i Q) as (f & Qf & K). rewrite CH, (ok_rows K), (ok_cols K). apply F. eapply nth_error_In; eauto.
    + cbn. auto.
    + exact CH.
    + intros rho Hd i j Hi Hj. cbn [SpecDerivatives.frows] in Hi. destruct (@nth_error_ex _ l i Hi) as [f Qf]. destruct (F2_nth' O i Qf) as (a & Qa & K).
      cbn [LeviExpr.eval SpecDerivatives.meaning]. rewrite (nth_error_map_d (fun b => eval rho b 0 j) _ _ Qa), (nth_map_F (fun b => meaning rho b 0 j) _ _ Qf).
      destruct (F f (nth_error_In _ _ Qf)) as [R C]. apply (ok_val K); [exact (or_list _ _ _ Hd Qf)|lia|rewrite C; exact Hj].
    + intros rho D. cbn [LeviPost.dom SpecDerivatives.defined] in *. apply all_map, Forall_nth_error. intros i a Q. destruct (F2_nth O i Q) as (f & Qf & K).
      apply K. apply all_map in D. rewrite List.Forall_forall in D. apply D. eapply nth_error_In; eauto.
    + intros rho v j D Hj. cbn [SpecDerivatives.defined] in *. apply locally_all. apply Forall_nth_error. intros i f Q. destruct (F2_nth' O i Q) as (a & Qa & K).
      apply K; auto. apply all_map in D. rewrite List.Forall_forall in D. apply D. eapply nth_error_In; eauto.
  - step B l' Ql. apply by_cols_some in B. destruct B as [-> Ne']. destruct W as (Ne & W & F). destruct (@build_list run l l' H W Ql) as [L O].
    assert (CH : rows (EByCols l') = frows (FByCols l)).
    { inversion O; subst; [congruence|]. cbn. match goal with K : ok _ _ |- _ => apply K end. }
    rewrite List.Forall_forall in F. constructor.
    + cbn [LeviPost.wf]. split; auto. split.
      * apply all_map, Forall_nth_error. intros i a Q. destruct (F2_nth O i Q) as (f & _ & K). apply K.
      * apply Forall_nth_error. intros i a Q. destruct (F2_nth O i Q) as (f & Qf & K). rewrite CH, (ok_rows K), (ok_cols K). apply F. eapply nth_error_In; eauto.
    + exact CH.
    + cbn. auto.
    + intros rho Hd i j Hi Hj. cbn [SpecDerivatives.fcols] in Hj. destruct (@nth_error_ex _ l j Hj) as [f Qf]. destruct (F2_nth' O j Qf) as (a & Qa & K).
      cbn [LeviExpr.eval SpecDerivatives.meaning]. rewrite (nth_error_map_d (fun b => eval rho b i 0) _ _ Qa), (nth_map_F (fun b => meaning rho b i 0) _ _ Qf).
      destruct (F f (nth_error_In _ _ Qf)) as [C R]. apply (ok_val K); [exact (or_list _ _ _ Hd Qf)|rewrite R; exact Hi|lia].
    + intros rho D. cbn [LeviPost.dom SpecDerivatives.defined] in *. apply all_map, Forall_nth_error. intros i a Q. destruct (F2_nth O i Q) as (f & Qf & K).
      apply K. apply all_map in D. rewrite List.Forall_forall in D. apply D. eapply nth_error_In; eauto.
    + intros rho v j D Hj. cbn [SpecDerivatives.defined] in *. apply locally_all. apply Forall_nth_error. intros i f Q. destruct (F2_nth' O i Q) as (a & Qa & K).
      apply K; auto. apply all_map in D. rewrite List.Forall_forall in D. apply D. eapply nth_error_In; eauto.
  - step B a Qa. step B b Qb. apply guard_some in B. destruct B as [_ B]. injection B as <-. destruct W as (W1 & W2 & R).
    pose proof (IHf1 W1 a Qa) as O1. pose proof (IHf2 W2 b Qb) as O2. constructor.
    + cbn [LeviPost.wf]. rewrite (ok_rows O1), (ok_rows O2). repeat split; auto; [apply O1|apply O2].
    + cbn. apply O1.
    + cbn. rewrite (ok_cols O1), (ok_cols O2). reflexivity.
    + intros rho H i j Hi Hj. apply or2 in H; [|reflexivity]. destruct H as [H1 H2]. cbn [SpecDerivatives.frows SpecDerivatives.fcols] in *. cbn [LeviExpr.eval SpecDerivatives.meaning].
      rewrite (ok_cols O1). destruct (Nat.ltb_spec j (fcols f1)); [apply O1|apply O2]; auto; lia.
    + intros rho (D1 & D2). split; [apply O1|apply O2]; auto.
    + intros rho v j (D1 & D2) Hj. apply locally_and2; [apply O1|apply O2]; auto.
  - step B a Qa. step B b Qb. apply guard_some in B. destruct B as [_ B]. injection B as <-. destruct W as (W1 & W2 & R).
    pose proof (IHf1 W1 a Qa) as O1. pose proof (IHf2 W2 b Qb) as O2. constructor.
    + cbn [LeviPost.wf]. rewrite (ok_cols O1), (ok_cols O2). repeat split; auto; [apply O1|apply O2].
    + cbn. rewrite (ok_rows O1), (ok_rows O2). reflexivity.
    + cbn. apply O1.
    + intros rho H i j Hi Hj. apply or2 in H; [|reflexivity]. destruct H as [H1 H2]. cbn [SpecDerivatives.frows SpecDerivatives.fcols] in *. cbn [LeviExpr.eval SpecDerivatives.meaning].
      rewrite (ok_rows O1). destruct (Nat.ltb_spec i (frows f1)); [apply O1|apply O2]; auto; lia.
    + intros rho (D1 & D2). split; [apply O1|apply O2]; auto.
    + intros rho v j (D1 & D2) Hj. apply locally_and2; [apply O1|apply O2]; auto.
  - step B a Qa. destruct W as (W & Hk). pose proof (IHf W a Qa) as O. apply X in B. destruct (B (ok_wf O)) as (_ & WD & RD & CD & SD). constructor.
    + exact WD.
    + cbn. rewrite RD. apply O.
    + exact CD.
    + intros rho [H|D] i j Hi Hj; [discriminate H|]. cbn [SpecDerivatives.frows SpecDerivatives.fcols SpecDerivatives.defined] in *. cbn [SpecDerivatives.meaning].
      symmetry. apply is_derive_unique. destruct (SD rho (@ok_dom _ _ O rho D)) as [_ P]. rewrite (ok_rows O) in P. specialize (P i j Hi Hj).
      eapply is_derive_ext_loc; [|exact P]. generalize (@ok_open _ _ O rho v j D Hj). apply filter_imp. intros x Dx.
      apply (ok_val O); auto.
    + intros rho D. apply SD. apply O. exact D.
    + intros rho v' j D Hj. apply (@ok_open _ _ O rho v' j D Hj).
Qed.
End Sound.
