(** Proof side of C45: operator+ and operator-, with the collection of similar addends. *)
From Coq Require Import String Reals List Arith Lia Lra Bool QArith Qabs Qreals ZArith FunctionalExtensionality.
From Coquelicot Require Import Coquelicot.
From Verif Require Import Spec PartialLib SpecDerivatives LeviExpr LeviWf LeviMat LeviPost LeviMul.
Import ListNotations.
Local Open Scope R_scope.
Set Implicit Arguments.

Section Sound.
Variable vname : nat -> string.
Variable vdim : nat -> nat.
Variables urows ucols : nat -> nat.
Variable udep : nat -> nat -> bool.
Variable uderiv : nat -> nat -> nat -> expr.
Variable same : nat -> expr -> expr -> bool.
Variable ueval : nat -> env -> mat.
Variable udom : nat -> env -> Prop.
Notation rows := (rows vdim urows ucols).
Notation cols := (cols vdim urows ucols).
Notation eval := (eval vdim urows ucols ueval).
Notation depends := (depends vname vdim udep).
Notation eqv := (eqv same).
Notation is_scalar := (is_scalar vdim urows ucols).
Notation exec := (exec vname vdim urows ucols udep uderiv same).
Notation call := (call vname vdim urows ucols udep uderiv same).
Notation computed := (computed vname vdim urows ucols udep uderiv same).
Notation wf := (wf vdim urows ucols ueval).
Notation dom := (dom vdim urows ucols ueval udom).
Notation tr := (tr vdim urows ucols ueval).
Notation spec := (spec vdim urows ucols ueval udom).
Notation post := (post vdim urows ucols ueval udom).
Notation deriv_ok := (deriv_ok vdim urows ucols ueval udom).
Hypothesis same_sound : forall t a b, same t a b = true -> a = b.

Definition asgn (b : bool) : R := if b then -1 else 1.
Definition total (rho : env) (l : list addend) (i j : nat) : R :=
  fold_right (fun a s => asgn (ad_neg a) * eval rho (ad_initial a) i j + s) 0 l.
Lemma total_cons rho a l i j : total rho (a :: l) i j = asgn (ad_neg a) * eval rho (ad_initial a) i j + total rho l i j.
Proof. reflexivity. Qed.
Lemma total_nil rho i j : total rho [] i j = 0.
Proof. reflexivity. Qed.
Lemma total_app rho l l' i j : total rho (l ++ l') i j = total rho l i j + total rho l' i j.
Proof. induction l; cbn [app]; rewrite ?total_nil, ?total_cons, ?IHl; ring. Qed.
Lemma total_filter rho (p : addend -> bool) l i j :
  total rho l i j = total rho (filter p l) i j + total rho (filter (fun a => negb (p a)) l) i j.
Proof. induction l as [|x l IHl]; cbn [filter]; rewrite ?total_nil, ?total_cons, ?IHl; [ring|]. destruct (p x); cbn [negb]; rewrite ?total_cons; ring. Qed.

Record addend_ok (r c : nat) (D : env -> Prop) (a : addend) : Prop := mkAok {
  ao_l : wf (ad_lhs a); ao_r : wf (ad_rhs a); ao_i : wf (ad_initial a);
  ao_rows : rows (ad_initial a) = r; ao_cols : cols (ad_initial a) = c;
  ao_shape : is_scalar (ad_lhs a) = true \/ cols (ad_lhs a) = rows (ad_rhs a);
  ao_val : forall rho, meq (tr rho (ad_initial a)) (mtimes (tr rho (ad_lhs a)) (tr rho (ad_rhs a)));
  ao_dom : forall rho, D rho -> dom rho (ad_lhs a) /\ dom rho (ad_rhs a) /\ dom rho (ad_initial a) }.

Section Step.
Variable rec : cmd -> option expr.
Variable t : nat.
Hypothesis IH : forall c e, rec c = Some e -> post c e.
Arguments IH c {e} _ : assert.
Let add a b := rec (CAdd a b).
Let sub a b := rec (CSub a b).
Let neg a := rec (CNeg a).
Let mul a b := rec (CMul a b).

Lemma strip_sound rhs : forall lhs L R, strip mul lhs rhs = Some (L, R) -> wf lhs -> wf rhs ->
  (is_scalar lhs = true \/ cols lhs = rows rhs) ->
  wf L /\ wf R /\ (is_scalar L = true \/ cols L = rows R) /\
  (forall rho, meq (mtimes (tr rho lhs) (tr rho rhs)) (mtimes (tr rho L) (tr rho R))) /\
  (forall rho, dom rho lhs -> dom rho rhs -> dom rho L /\ dom rho R).
Proof.
  induction rhs using expr_ind'; intros lhs L R HH Wl Wr Sh;
  try (cbn in HH; injection HH as <- <-; exact (conj Wl (conj Wr (conj Sh (conj (fun rho => meq_refl _) (fun rho a b => conj a b)))));  fail).
  cbn [strip] in HH. step HH l E. destruct Wr as (W1 & W2 & W3). assert (Wr : wf (EProd ls rs rhs1 rhs2)) by (cbn; auto).
  destruct (IH _ E Wl W1) as [F S].
  destruct (IHrhs2 l L R HH (sp_wf S) W2) as (A & B & C & V & Dm).
  - destruct (is_scalar rhs1) eqn:S1.
    + destruct (is_scalar lhs) eqn:S0.
      * left. rewrite (spec_scalar S rho0), sc_scal; auto.
      * destruct Sh as [Sh|Sh]; [discriminate|]. right. rewrite (spec_cols S rho0), <- (mtimes_scal_comm (tr rho0 rhs1)), mtimes_scal by auto.
        cbn [mc LeviPost.tr]. rewrite Sh. change (rows (EProd ls rs rhs1 rhs2)) with (mr (tr rho0 (EProd ls rs rhs1 rhs2))).
        rewrite (prod_val rho0 Wr), mtimes_scal by auto. reflexivity.
    + right. pose proof (prod_mat Wr S1) as M. rewrite (spec_cols S rho0).
      destruct (is_scalar lhs) eqn:S0; [rewrite mtimes_scal by auto; exact M|].
      destruct Sh as [Sh|Sh]; [discriminate|].
      rewrite mc_mat; [exact M|]. cbn [mr mc LeviPost.tr]. rewrite Sh. change (rows (EProd ls rs rhs1 rhs2)) with (mr (tr rho0 (EProd ls rs rhs1 rhs2))).
      rewrite (prod_val rho0 Wr), mr_mat by exact M. reflexivity.
  - split; [auto|split; [auto|split; [auto|split]]].
    + intros rho. rewrite <- V, (sp_val S rho), (prod_val rho Wr). symmetry.
      destruct (is_scalar lhs) eqn:S0; [apply massoc_s1; auto; apply (prod_fits rho Wr)|].
      destruct Sh as [Sh|Sh]; [discriminate|].
      assert (Sh' : mc (tr rho lhs) = mr (tr rho (EProd ls rs rhs1 rhs2))) by exact Sh.
      destruct (is_scalar rhs1) eqn:S1.
      * rewrite (prod_val rho Wr), mtimes_scal in Sh' by auto. cbn in Sh'. apply massoc_s2; auto. right. right. exact Sh'.
      * pose proof (prod_mat Wr S1) as M. rewrite (prod_val rho Wr), mr_mat in Sh' by exact M. apply massoc_mat; auto.
    + intros rho D1 [D2 D3]. apply Dm; auto. apply (sp_dom S); auto.
Qed.

Lemma expand_sound e : forall ng l, expand mul e ng = Some l -> wf e ->
  List.Forall (addend_ok (rows e) (cols e) (fun rho => dom rho e)) l /\
  forall rho i j, (i < rows e)%nat -> (j < cols e)%nat -> total rho l i j = asgn ng * eval rho e i j.
Proof.
  assert (One : forall e ng, wf e -> List.Forall (addend_ok (rows e) (cols e) (fun rho => dom rho e)) [mkAddend ng (EIdent 1 1) e e] /\
     forall rho i j, (i < rows e)%nat -> (j < cols e)%nat -> total rho [mkAddend ng (EIdent 1 1) e e] i j = asgn ng * eval rho e i j).
  { intros x ng W. split; [|intros; unfold total; cbn; ring].
    constructor; [|constructor]. constructor; cbn [ad_lhs ad_rhs ad_initial]; auto; try exact I.
    - intros. symmetry. apply (mtimes_ident_l (tr rho x) 1). auto. 
    - intros; repeat split; auto. }
  assert (Mono : forall r c (D D' : env -> Prop) l, (forall rho, D' rho -> D rho) -> List.Forall (addend_ok r c D) l -> List.Forall (addend_ok r c D') l).
  { intros r c D D' l HD. apply Forall_impl. intros a [ ]. constructor; auto. }
  induction e using expr_ind'; intros ng l0 HH W; try (cbn in HH; injection HH as <-; apply One; exact W).
  - cbn [expand] in HH. step HH la Ea. step HH lb Eb. inv HH. destruct W as (W1 & W2 & R & C).
    destruct (IHe1 _ _ Ea W1) as [F1 V1], (IHe2 _ _ Eb W2) as [F2 V2]. cbn [LeviExpr.rows LeviExpr.cols LeviPost.dom]. split.
    + apply Forall_app. split; [eapply Mono; [|exact F1]; cbn; tauto|]. rewrite R, C. eapply Mono; [|exact F2]. cbn; tauto.
    + intros rho i j Hi Hj. rewrite total_app, V1, V2 by lia. cbn [LeviExpr.eval]. ring.
  - cbn [expand] in HH. step HH la Ea. step HH lb Eb. inv HH. destruct W as (W1 & W2 & R & C).
    destruct (IHe1 _ _ Ea W1) as [F1 V1], (IHe2 _ _ Eb W2) as [F2 V2]. cbn [LeviExpr.rows LeviExpr.cols LeviPost.dom]. split.
    + apply Forall_app. split; [eapply Mono; [|exact F1]; cbn; tauto|]. rewrite R, C. eapply Mono; [|exact F2]. cbn; tauto.
    + intros rho i j Hi Hj. rewrite total_app, V1, V2 by lia. cbn [LeviExpr.eval]. destruct ng; cbn; ring.
  - cbn [expand] in HH. destruct (IHe _ _ HH W) as [F V]. cbn [LeviExpr.rows LeviExpr.cols LeviPost.dom]. split; auto.
    intros rho i j Hi Hj. rewrite V by auto. cbn [LeviExpr.eval]. destruct ng; cbn; ring.
  - cbn [expand] in HH. step HH p E. inv HH. destruct p as [L R]. cbn [fst snd].
    destruct (strip_sound _ _ E (proj1 W) (proj1 (proj2 W))) as (A & B & C & V & Dm).
    { destruct W as (_ & _ & W). destruct ls; [left; apply scalar_true; tauto|right; tauto]. }
    split; [|intros; unfold total; cbn [fold_right ad_neg ad_initial]; ring].
    constructor; [|constructor]. constructor; cbn [ad_lhs ad_rhs ad_initial]; auto.
    + intros rho. rewrite (prod_val rho W). apply V.
    + intros rho D. destruct D as [D1 D2]. destruct (Dm rho D1 D2). repeat split; auto.
Qed.

(** A fold over addends: [Phi] is the multiplication by the common right factor, or the identity. *)
Lemma accumulate_sound (Phi : env -> smat -> smat) (get : addend -> option expr) (p q r c : nat) (D : env -> Prop)
  (Pm : forall rho A B, meq A B -> meq (Phi rho A) (Phi rho B))
  (Pp : forall rho A B, mr A = mr B -> mc A = mc B -> meq (Phi rho (mplus A B)) (mplus (Phi rho A) (Phi rho B)))
  (Pn : forall rho A B, mr A = mr B -> mc A = mc B -> meq (Phi rho (mminus A B)) (mminus (Phi rho A) (Phi rho B))) l :
  (forall a x, In a l -> get a = Some x -> wf x /\ rows x = p /\ cols x = q /\
     (forall rho, meq (Phi rho (tr rho x)) (mkM r c (eval rho (ad_initial a)))) /\ forall rho, D rho -> dom rho x) ->
  forall s0 e (T : env -> nat -> nat -> R), wf s0 -> rows s0 = p -> cols s0 = q ->
  (forall rho, meq (Phi rho (tr rho s0)) (mkM r c (T rho))) -> (forall rho, D rho -> dom rho s0) ->
  fold_left (accumulate add sub get) l (Some s0) = Some e ->
  wf e /\ rows e = p /\ cols e = q /\
  (forall rho, meq (Phi rho (tr rho e)) (mkM r c (fun i j => T rho i j + total rho l i j))) /\ (forall rho, D rho -> dom rho e).
Proof.
  induction l as [|a l IHl]; intros G s0 e T W0 R0 C0 V0 D0 H; cbn [fold_left] in H.
  - inv H. split; [auto|split; [auto|split; [auto|split; [|auto]]]]. intros. rewrite V0. unfold meq; cbn. repeat split; auto. intros; unfold total; cbn; ring.
  - destruct (accumulate add sub get (Some s0) a) as [s1|] eqn:E.
    2:{ exfalso. clear - H. induction l; cbn in H; [discriminate|auto]. }
    unfold accumulate in E. cbn [bind] in E. step E x Ex.
    destruct (G a x (or_introl eq_refl) Ex) as (Wx & Rx & Cx & Vx & Dx).
    assert (S : wf s1 /\ rows s1 = p /\ cols s1 = q /\
       (forall rho, meq (Phi rho (tr rho s1)) (mkM r c (fun i j => T rho i j + asgn (ad_neg a) * eval rho (ad_initial a) i j))) /\ (forall rho, D rho -> dom rho s1)).
    { destruct (ad_neg a); destruct (IH _ E W0 Wx) as (_ & _ & S).
      - split; [apply (sp_wf S)|]. split; [rewrite (spec_rows S rho0); exact R0|]. split; [rewrite (spec_cols S rho0); exact C0|]. split.
        + intros rho. etransitivity; [apply Pm, (sp_val S rho)|].
          etransitivity; [apply Pn; cbn; congruence|].
          destruct (V0 rho) as (A1 & A2 & A3), (Vx rho) as (B1 & B2 & B3). cbn in A1, A2, A3, B1, B2, B3.
          unfold meq; cbn. repeat split; auto. intros. rewrite A3, B3 by lia. ring.
        + intros rho Dr. apply (sp_dom S). auto.
      - split; [apply (sp_wf S)|]. split; [rewrite (spec_rows S rho0); exact R0|]. split; [rewrite (spec_cols S rho0); exact C0|]. split.
        + intros rho. etransitivity; [apply Pm, (sp_val S rho)|].
          etransitivity; [apply Pp; cbn; congruence|].
          destruct (V0 rho) as (A1 & A2 & A3), (Vx rho) as (B1 & B2 & B3). cbn in A1, A2, A3, B1, B2, B3.
          unfold meq; cbn. repeat split; auto. intros. rewrite A3, B3 by lia. ring.
        + intros rho Dr. apply (sp_dom S). auto. }
    destruct S as (W1 & R1 & C1 & V1 & D1).
    destruct (IHl (fun a' x' I' => G a' x' (or_intror I')) s1 e _ W1 R1 C1 V1 D1 H) as (We & Re & Ce & Ve & De).
    split; [auto|split; [auto|split; [auto|split; [|auto]]]]. intros rho. rewrite (Ve rho). unfold meq; cbn [mr mc mf]. repeat split; auto.
    intros. rewrite total_cons. ring.
Qed.

Lemma max_size_cols first similar : exists b, In b (first :: similar) /\ cols (ad_lhs b) = snd (max_size vdim urows ucols first similar).
Proof.
  unfold max_size. 
  assert (G : forall l m, (exists b, In b (first :: similar) /\ cols (ad_lhs b) = snd m) -> incl l (first :: similar) ->
     exists b, In b (first :: similar) /\ cols (ad_lhs b) =
       snd (fold_left (fun m a => (Nat.max (fst m) (rows (ad_lhs a)), Nat.max (snd m) (cols (ad_lhs a)))) l m)).
  { induction l as [|x l IHl]; intros m Hm Hi; cbn [fold_left]; auto.
    apply IHl; [|intros y Y; apply Hi; right; auto]. cbn [snd].
    destruct (Nat.max_spec (snd m) (cols (ad_lhs x))) as [[_ ->]|[_ ->]]; auto.
    exists x. split; auto. apply Hi; left; auto. }
  apply G; [|intros y Y; right; auto]. exists first. split; [left|]; auto.
Qed.

Lemma expander_sound lhs rhs ng o : wf lhs -> wf rhs -> rows lhs = rows rhs -> cols lhs = cols rhs ->
  expander vdim urows ucols same t add sub mul neg lhs rhs ng = Some (Some o) ->
  let e := match o with (l, Some r) => ESum l r | (l, None) => l end in
  spec e (fun rho => mkM (rows lhs) (cols lhs) (fun i j => eval rho lhs i j + asgn ng * eval rho rhs i j)) (fun rho => dom rho lhs /\ dom rho rhs).
Proof.
  intros Wl Wr R C H. unfold expander in H. step H la Ea. step H lb Eb.
  destruct (expand_sound _ _ Ea Wl) as [Fa Va], (expand_sound _ _ Eb Wr) as [Fb Vb].
  set (D := fun rho => dom rho lhs /\ dom rho rhs).
  assert (FA : List.Forall (addend_ok (rows lhs) (cols lhs) D) (la ++ lb)).
  { apply Forall_app. split; [|rewrite R, C]; (eapply Forall_impl; [|eassumption]); intros a [X1 X2 X3 X4 X5 X6 X7 X8]; constructor; auto; intros rho [Y1 Y2]; apply X8; assumption. }
  assert (VA : forall rho i j, (i < rows lhs)%nat -> (j < cols lhs)%nat -> total rho (la ++ lb) i j = eval rho lhs i j + asgn ng * eval rho rhs i j).
  { intros. rewrite total_app, Va, Vb by lia. cbn [asgn]. ring. }
  destruct (la ++ lb) as [|first others]; [discriminate|]. cbv zeta in H.
  set (similar := filter (fun a => eqv t (ad_rhs a) (ad_rhs first)) others) in *.
  set (different := filter (fun a => negb (eqv t (ad_rhs a) (ad_rhs first))) others) in *.
  inversion FA as [|? ? F0 FO]; subst. destruct F0 as [Wl0 Wr0 Wi0 Ri0 Ci0 Sh0 Vi0 Di0].
  assert (Sim : forall a, In a (first :: similar) -> addend_ok (rows lhs) (cols lhs) D a /\ forall rho, meq (tr rho (ad_rhs a)) (tr rho (ad_rhs first))).
  { rewrite Forall_forall in FA. intros a [<-|I]; [split; [apply FA; left; auto|reflexivity]|].
    apply filter_In in I. destruct I as [I E]. assert (A : addend_ok (rows lhs) (cols lhs) D a) by (apply FA; right; auto). split; auto.
    apply (eqv_shape vdim urows ucols same ueval same_sound _ _ _ E); auto. apply (ao_r A). }
  destruct similar as [|sm0 sms] eqn:SM; [discriminate|]. rewrite <- SM in *. clear sm0 sms SM.
  set (size := max_size vdim urows ucols first similar) in *.
  assert (GL : forall a x, In a (first :: similar) -> get_lhs vdim urows ucols mul a size = Some x -> wf x /\ rows x = fst size /\ cols x = snd size /\
     (forall rho, meq (mtimes (tr rho x) (tr rho (ad_rhs first))) (mkM (rows lhs) (cols lhs) (eval rho (ad_initial a)))) /\ forall rho, D rho -> dom rho x).
  { intros a x I G. destruct (Sim a I) as [A ER]. unfold get_lhs in G.
    assert (VI : forall rho, meq (mtimes (tr rho (ad_lhs a)) (tr rho (ad_rhs first))) (mkM (rows lhs) (cols lhs) (eval rho (ad_initial a)))).
    { intros rho. rewrite <- (ER rho), <- (ao_val A rho). unfold meq; cbn. rewrite (ao_rows A), (ao_cols A). repeat split; auto. }
    destruct (_ && _) eqn:Q in G.
    - apply andb_true_iff in Q. rewrite !Nat.eqb_eq in Q. inv G. repeat split; try tauto; try apply (ao_l A).
      + apply (VI rho). + apply (VI rho). + apply (VI rho). + intros rho Dr. apply (ao_dom A rho Dr).
    - apply guard_some in G. destruct G as [G G2]. rewrite !andb_true_iff, !Nat.eqb_eq in G. destruct G as [[G0 G1] SQ].
      destruct (IH _ G2 (ao_l A) Logic.I) as [_ S].
      assert (SL : is_scalar (ad_lhs a) = true) by (apply scalar_true; auto).
      assert (WX : rows x = fst size /\ cols x = snd size) by (rewrite (spec_rows S rho0), (spec_cols S rho0), mtimes_scal by auto; auto).
      split; [apply (sp_wf S)|]. split; [apply WX|]. split; [apply WX|]. split.
      + intros rho. rewrite (sp_val S rho), <- (VI rho).
        assert (FI : fst size = 1%nat \/ fst size = rows (ad_rhs first)).
        { destruct (max_size_cols first similar) as (b & Ib & Cb). fold size in Cb. destruct (Sim b Ib) as [B EB].
          destruct (ao_shape B) as [SB|SB]; [apply scalar_true in SB; left; lia|]. right. rewrite SQ, <- Cb, SB.
          exact (proj1 (EB rho)). }
        change (tr rho (EIdent (fst size) (snd size))) with (mkM (fst size) (snd size) (fun i j => if (i =? j)%nat then 1 else 0)).
        rewrite <- SQ. fold (mident (fst size)).
        rewrite massoc_s1; auto.
        * rewrite mtimes_ident_l; [reflexivity|]. destruct FI; [right|left]; auto.
        * destruct FI as [FI|FI]; [left; rewrite FI; reflexivity|right; right; exact FI].
      + intros rho Dr. apply (sp_dom S). split; [apply (ao_dom A rho Dr)|exact Logic.I]. }
  step H l0 E0. step H s0 Es0. step H s Es. step H nl Enl.
  destruct (GL _ _ (or_introl eq_refl) E0) as (W0 & R0 & C0 & V0 & D0).
  assert (S0 : wf s0 /\ rows s0 = fst size /\ cols s0 = snd size /\
     (forall rho, meq (mtimes (tr rho s0) (tr rho (ad_rhs first))) (mkM (rows lhs) (cols lhs) (fun i j => asgn (ad_neg first) * eval rho (ad_initial first) i j))) /\
     (forall rho, D rho -> dom rho s0)).
  { destruct (ad_neg first).
    - pose proof (IH _ Es0 W0) as S. split; [apply (sp_wf S)|]. split; [rewrite (spec_rows S rho0); auto|]. split; [rewrite (spec_cols S rho0); auto|].
      split; [|intros rho Dr; apply (sp_dom S); auto].
      intros rho. rewrite (sp_val S rho), mopp_mtimes_l, (V0 rho). unfold meq; cbn. repeat split; auto. intros; ring.
    - inv Es0. split; auto. split; auto. split; auto. split; auto. intros rho. rewrite (V0 rho). unfold meq; cbn. repeat split; auto. intros; ring. }
  destruct S0 as (Ws0 & Rs0 & Cs0 & Vs0 & Ds0).
  destruct (@accumulate_sound (fun rho A => mtimes A (tr rho (ad_rhs first))) (fun a => get_lhs vdim urows ucols mul a size) (fst size) (snd size) (rows lhs) (cols lhs) D
    (fun rho A B E => mtimes_meq _ _ E _ _ (meq_refl (tr rho (ad_rhs first)))) (fun rho A B R C => mtimes_plus_l A B (tr rho (ad_rhs first)) R C)
    (fun rho A B R C => mtimes_minus_l A B (tr rho (ad_rhs first)) R C) similar (fun a x Ia G => GL a x (or_intror Ia) G)
    s0 s (fun rho i j => asgn (ad_neg first) * eval rho (ad_initial first) i j) Ws0 Rs0 Cs0 Vs0 Ds0 Es) as (Ws & Rs & Cs & Vs & Ds).
  destruct (IH _ Enl Ws Wr0) as [_ Snl].
  assert (Vnl : forall rho, meq (tr rho nl) (mkM (rows lhs) (cols lhs) (fun i j => asgn (ad_neg first) * eval rho (ad_initial first) i j + total rho similar i j))).
  { intros rho. rewrite (sp_val Snl rho). apply Vs. }
  assert (Dnl : forall rho, D rho -> dom rho nl) by (intros rho Dr; apply (sp_dom Snl); split; [apply Ds; auto|apply (Di0 rho Dr)]).
  assert (TT : forall rho i j, total rho (first :: others) i j = asgn (ad_neg first) * eval rho (ad_initial first) i j + total rho similar i j + total rho different i j).
  { intros. rewrite total_cons, (total_filter rho (fun a => eqv t (ad_rhs a) (ad_rhs first)) others). unfold similar, different. ring. }
  destruct different as [|d0 ds] eqn:DF.
  - inv H. cbv zeta. constructor; [apply (sp_wf Snl)| |exact Dnl].
    intros rho. rewrite (Vnl rho). unfold meq; cbn [mr mc mf]. repeat split; auto. intros. rewrite <- VA, TT by auto. rewrite total_nil. ring.
  - step H r0 Er0. step H nr Enr. inv H. cbv zeta.
    assert (DD : forall a, In a (d0 :: ds) -> addend_ok (rows lhs) (cols lhs) D a).
    { rewrite Forall_forall in FO. intros a I. apply FO. rewrite <- DF in I. apply filter_In in I. tauto. }
    destruct (DD d0 (or_introl eq_refl)) as [Wd1 Wd2 Wd3 Rd Cd _ _ Dd].
    assert (S0 : wf r0 /\ rows r0 = rows lhs /\ cols r0 = cols lhs /\
       (forall rho, meq (tr rho r0) (mkM (rows lhs) (cols lhs) (fun i j => asgn (ad_neg d0) * eval rho (ad_initial d0) i j))) /\ (forall rho, D rho -> dom rho r0)).
    { destruct (ad_neg d0).
      - pose proof (IH _ Er0 Wd3) as S. split; [apply (sp_wf S)|]. split; [rewrite (spec_rows S rho0); auto|]. split; [rewrite (spec_cols S rho0); auto|].
        split; [|intros rho Dr; apply (sp_dom S), (Dd rho Dr)].
        intros rho. rewrite (sp_val S rho). unfold meq; cbn. repeat split; auto. intros; ring.
      - inv Er0. split; auto. split; auto. split; auto. split; [|intros rho Dr; apply (Dd rho Dr)]. intros rho. unfold meq; cbn. repeat split; auto. intros; ring. }
    destruct S0 as (Wr0' & Rr0 & Cr0 & Vr0 & Dr0).
    assert (GI : forall a x, In a ds -> Some (ad_initial a) = Some x -> wf x /\ rows x = rows lhs /\ cols x = cols lhs /\
       (forall rho, meq (tr rho x) (mkM (rows lhs) (cols lhs) (eval rho (ad_initial a)))) /\ forall rho, D rho -> dom rho x).
    { intros a x Ia Ex. inv Ex. destruct (DD a (or_intror Ia)) as [_ _ W3 Ra Ca _ _ Da]. split; auto. split; auto. split; auto.
      split; [|intros rho Dr; apply (Da rho Dr)]. intros rho. unfold meq; cbn. repeat split; auto. }
    destruct (@accumulate_sound (fun rho A => A) (fun a => Some (ad_initial a)) (rows lhs) (cols lhs) (rows lhs) (cols lhs) D
      (fun rho A B E => E) (fun rho A B _ _ => meq_refl _) (fun rho A B _ _ => meq_refl _) ds GI
      r0 nr (fun rho i j => asgn (ad_neg d0) * eval rho (ad_initial d0) i j) Wr0' Rr0 Cr0 Vr0 Dr0 Enr) as (Wn & Rn & Cn & Vn & Dn).
    assert (Rnl : rows nl = rows lhs) by exact (proj1 (Vnl rho0)).
    assert (Cnl : cols nl = cols lhs) by exact (proj1 (proj2 (Vnl rho0))).
    constructor.
    + cbn. split; [apply (sp_wf Snl)|]. split; auto. split; congruence.
    + intros rho. unfold meq, LeviPost.tr; cbn [mr mc mf LeviExpr.rows LeviExpr.cols LeviExpr.eval]. split; auto. split; auto.
      intros i j Hi Hj. rewrite Rnl in Hi. rewrite Cnl in Hj.
      assert (A1 := proj2 (proj2 (Vnl rho)) i j). assert (A2 := proj2 (proj2 (Vn rho)) i j). cbn [mr mc mf LeviPost.tr] in A1, A2.
      rewrite A1, A2 by lia. rewrite <- VA, TT by auto. rewrite total_cons. ring.
    + intros rho Dr. cbn. split; auto.
Qed.

Lemma ident_pair a b rho : is_ident a = true -> is_ident b = true -> rows a = rows b -> meq (tr rho a) (tr rho b).
Proof.
  destruct a; try discriminate. destruct b; try discriminate. cbn [is_ident]. rewrite !Nat.eqb_eq. intros -> -> R. cbn in R. subst.
  reflexivity.
Qed.
Lemma neg_of_some a a1 : neg_of a = Some a1 -> a = ENeg a1.
Proof. destruct a; try discriminate. intros H; inv H; auto. Qed.
Lemma null_zero a rho i j : is_null a = true -> eval rho a i j = 0.
Proof. destruct a; try discriminate; auto. Qed.

Lemma sound_add a b e : call rec t (CAdd a b) = Some e -> post (CAdd a b) e.
Proof.
  change (call rec t (CAdd a b)) with (do_add vdim urows ucols same rec t a b). cbn [LeviPost.post]. unfold do_add; cbv zeta. intros H Wa Wb.
  apply guard_some in H. destruct H as [G H]. rewrite andb_true_iff, !Nat.eqb_eq in G. destruct G as [R C]. split; auto. split; auto.
  destruct (is_null a) eqn:Na.
  { inv H. constructor; [auto| |tauto]. intros. unfold meq; cbn. repeat split; auto. intros. rewrite (null_zero _ _ _ _ Na). ring. }
  destruct (is_null b) eqn:Nb.
  { inv H. constructor; [auto| |tauto]. intros. unfold meq; cbn. repeat split; auto. intros. rewrite (null_zero _ _ _ _ Nb). ring. }
  destruct (_ || _) eqn:Q.
  { assert (M : forall rho, meq (tr rho a) (tr rho b)).
    { intros. apply orb_true_iff in Q. destruct Q as [Q|Q].
      - apply andb_true_iff in Q. apply ident_pair; tauto.
      - apply (eqv_shape vdim urows ucols same ueval same_sound _ _ _ Q Wa Wb). }
    destruct (IH _ H Logic.I Wb) as [_ S]. eapply spec_weaken; [exact S| |].
    - intros rho. cbv beta. rewrite mtimes_scal by reflexivity. destruct (M rho) as (M1 & M2 & M3). cbn in M1, M2, M3.
      unfold meq; cbn. repeat split; auto. intros. rewrite M3 by lia. ring.
    - intros rho [? ?]. split; [exact Logic.I|auto]. }
  destruct (neg_of a) as [a1|] eqn:NA.
  { apply neg_of_some in NA. subst a. cbn [LeviExpr.rows LeviExpr.cols] in R, C. destruct (IH _ H Wb Wa) as (_ & _ & S).
    eapply spec_weaken; [exact S| |]; [|cbn; tauto]. intros rho. unfold meq; cbn. repeat split; auto; intros; ring. }
  destruct (neg_of b) as [b1|] eqn:NB.
  { apply neg_of_some in NB. subst b. cbn [LeviExpr.rows LeviExpr.cols] in R, C. destruct (IH _ H Wa Wb) as (_ & _ & S).
    eapply spec_weaken; [exact S| |]; [|cbn; tauto]. intros rho. unfold meq; cbn. repeat split; auto; intros; ring. }
  step H o E. destruct o as [[l o]|].
  - pose proof (expander_sound _ _ _ Wa Wb R C E) as S. cbv zeta in S.
    assert (He : e = match o with Some r => ESum l r | None => l end) by (destruct o; inv H; reflexivity). rewrite He.
    assert (X : spec (match o with Some r => ESum l r | None => l end) (fun rho => mkM (rows a) (cols a) (fun i j => eval rho a i j + asgn false * eval rho b i j)) (fun rho => dom rho a /\ dom rho b)) by (destruct o; exact S).
    eapply spec_weaken; [exact X| |auto]. intros rho. unfold meq; cbn. repeat split; auto. intros; ring.
  - inv H. constructor; [cbn; auto| |auto]. intros. unfold meq; cbn. repeat split; auto.
Qed.
Lemma sound_sub a b e : call rec t (CSub a b) = Some e -> post (CSub a b) e.
Proof.
  change (call rec t (CSub a b)) with (do_sub vdim urows ucols same rec t a b). cbn [LeviPost.post]. unfold do_sub; cbv zeta. intros H Wa Wb.
  apply guard_some in H. destruct H as [G H]. rewrite andb_true_iff, !Nat.eqb_eq in G. destruct G as [R C]. split; auto. split; auto.
  destruct (is_null a) eqn:Na.
  { pose proof (IH _ H Wb) as S. eapply spec_weaken; [exact S| |tauto]. intros rho. unfold meq; cbn. repeat split; auto.
    intros. rewrite (null_zero _ _ _ _ Na). ring. }
  destruct (is_null b) eqn:Nb.
  { inv H. constructor; [auto| |tauto]. intros. unfold meq; cbn. repeat split; auto. intros. rewrite (null_zero _ _ _ _ Nb). ring. }
  destruct (_ || _) eqn:Q.
  { assert (M : forall rho, meq (tr rho a) (tr rho b)).
    { intros. apply orb_true_iff in Q. destruct Q as [Q|Q].
      - apply andb_true_iff in Q. apply ident_pair; tauto.
      - apply (eqv_shape vdim urows ucols same ueval same_sound _ _ _ Q Wa Wb). }
    inv H. constructor; [exact Logic.I| |intros; exact Logic.I].
    intros rho. destruct (M rho) as (M1 & M2 & M3). cbn in M1, M2, M3. unfold meq; cbn. repeat split; auto. intros. rewrite M3 by lia. ring. }
  destruct (neg_of a) as [a1|] eqn:NA.
  { apply neg_of_some in NA. subst a. cbn [LeviExpr.rows LeviExpr.cols] in R, C. step H s E. destruct (IH _ E Wa Wb) as (_ & _ & S).
    pose proof (IH _ H (sp_wf S)) as Sn. eapply spec_weaken; [exact Sn| |].
    - intros rho. cbv beta. rewrite (sp_val S rho). unfold meq; cbn. repeat split; auto. intros; ring.
    - intros rho [? ?]. apply (sp_dom S). auto. }
  destruct (neg_of b) as [b1|] eqn:NB.
  { apply neg_of_some in NB. subst b. cbn [LeviExpr.rows LeviExpr.cols] in R, C. destruct (IH _ H Wa Wb) as (_ & _ & S).
    eapply spec_weaken; [exact S| |]; [|cbn; tauto]. intros rho. unfold meq; cbn. repeat split; auto; intros; ring. }
  step H o E. destruct o as [[l o]|].
  - pose proof (expander_sound _ _ _ Wa Wb R C E) as S. cbv zeta in S.
    assert (He : e = match o with Some r => ESum l r | None => l end) by (destruct o; inv H; reflexivity). rewrite He.
    assert (X : spec (match o with Some r => ESum l r | None => l end) (fun rho => mkM (rows a) (cols a) (fun i j => eval rho a i j + asgn true * eval rho b i j)) (fun rho => dom rho a /\ dom rho b)) by (destruct o; exact S).
    eapply spec_weaken; [exact X| |auto]. intros rho. unfold meq; cbn. repeat split; auto. intros; ring.
  - inv H. constructor; [cbn; auto| |auto]. intros. unfold meq; cbn. repeat split; auto.
Qed.
End Step.
End Sound.
