(** Proof side of C45: the derivative of every node is the derivative of its value. *)
From Coq Require Import String Reals List Arith Lia Lra Bool QArith Qabs Qreals ZArith FunctionalExtensionality.
From Coquelicot Require Import Coquelicot.
From Verif Require Import Spec PartialLib SpecDerivatives LeviExpr LeviWf LeviMat LeviPost LeviMul LeviAdd LeviAccess.
Import ListNotations.
Local Open Scope R_scope.
Set Implicit Arguments.

Section Sound.
Variable vname : nat -> string.
Variable vdim : nat -> nat.
Variables urows ucols : nat -> nat.
Variable udep : nat -> nat -> bool.
Variable uderiv : nat -> nat -> nat -> expr.
Variable same : nat -> expr -> expr -> bool.
Variable ueval : nat -> env -> mat.
Variable udom : nat -> env -> Prop.
Notation rows := (rows vdim urows ucols).
Notation cols := (cols vdim urows ucols).
Notation eval := (eval vdim urows ucols ueval).
Notation depends := (depends vname vdim udep).
Notation eqv := (eqv same).
Notation is_scalar := (is_scalar vdim urows ucols).
Notation exec := (exec vname vdim urows ucols udep uderiv same).
Notation call := (call vname vdim urows ucols udep uderiv same).
Notation computed := (computed vname vdim urows ucols udep uderiv same).
Notation wf := (wf vdim urows ucols ueval).
Notation dom := (dom vdim urows ucols ueval udom).
Notation tr := (tr vdim urows ucols ueval).
Notation spec := (spec vdim urows ucols ueval udom).
Notation post := (post vdim urows ucols ueval udom).
Notation deriv_ok := (deriv_ok vdim urows ucols ueval udom).
Notation do_deriv := (do_deriv vname vdim urows ucols udep uderiv).
Notation by_rows := (by_rows vdim urows ucols).
Notation by_cols := (by_cols vdim urows ucols).

Hypothesis names_unique : forall u v, vname u = vname v -> vdim u = vdim v -> u = v.
Hypothesis user_indep : forall k v, udep k v = false ->
  forall rho x i j, (i < urows k)%nat -> (j < ucols k)%nat -> ueval k (env_set rho v x) i j = ueval k rho i j.
Hypothesis user_deriv : forall k c v, udep k v = true -> (c < ucols k)%nat -> deriv_ok (EUser k) c v (uderiv k c v).

Lemma same_var_eq u v : same_var vname vdim u v = true -> u = v.
Proof. unfold same_var. rewrite andb_true_iff, String.eqb_eq, Nat.eqb_eq. intros [A B]. auto. Qed.
Lemma same_var_neq u v : same_var vname vdim u v = false -> u <> v.
Proof. intros H ->. unfold same_var in H. rewrite String.eqb_refl, Nat.eqb_refl in H. discriminate. Qed.

Lemma map_cong (f g : expr -> R) l : List.Forall (fun a => f a = g a) l -> map f l = map g l.
Proof. induction 1; cbn; congruence. Qed.
Lemma existsb_false (f : expr -> bool) l : existsb f l = false -> List.Forall (fun a => f a = false) l.
Proof. induction l; cbn; intros H; constructor; apply orb_false_iff in H; tauto. Qed.

Lemma indep e v : depends e v = false -> forall rho x i j, eval (env_set rho v x) e i j = eval rho e i j.
Proof.
  assert (L : forall l, List.Forall (fun a => depends a v = false -> forall rho x i j, eval (env_set rho v x) a i j = eval rho a i j) l ->
    existsb (fun a => depends a v) l = false -> List.Forall (fun a => forall rho x i j, eval (env_set rho v x) a i j = eval rho a i j) l).
  { intros l F H. apply existsb_false in H. induction F; constructor; inversion H; subst; auto. }
  induction e using expr_ind'; cbn [LeviExpr.depends]; intros D rho x i' j';
    repeat match goal with H : _ || _ = false |- _ => apply orb_false_iff in H; destruct H end; cbn [LeviExpr.eval]; try reflexivity;
    repeat match goal with IH : depends ?a v = false -> _, D : depends ?a v = false |- _ => specialize (IH D) end.
  - apply same_var_neq in D. unfold env_set. destruct (Nat.eqb_spec u v); congruence.
  - rewrite IHe. match goal with H : same_var _ _ _ _ = false |- _ => apply same_var_neq in H end. unfold env_set. destruct (Nat.eqb_spec u v); congruence.
  - destruct (Nat.ltb_spec i' (urows k)), (Nat.ltb_spec j' (ucols k)); cbn; auto.
  - rewrite IHe1, IHe2; auto.
  - rewrite IHe1, IHe2; auto.
  - rewrite IHe; auto.
  - destruct ls; [|destruct rs]; rewrite ?IHe1, ?IHe2; auto. f_equal. apply functional_extensionality; intros. rewrite IHe1, IHe2. auto.
  - rewrite IHe; auto.
  - rewrite IHe1, IHe2; auto.
  - rewrite !IHe; auto.
  - rewrite !IHe; auto.
  - auto.
  - auto.
  - auto.
  - auto.
  - auto.
  - f_equal. apply map_cong. eapply Forall_impl; [|apply L; [exact H|exact D]]. cbn; auto.
  - f_equal. apply map_cong. eapply Forall_impl; [|apply L; [exact H|exact D]]. cbn; auto.
  - rewrite IHe1, IHe2; auto.
  - rewrite IHe1, IHe2; auto.
  - f_equal. apply functional_extensionality; intros n. rewrite IHe. f_equal. f_equal. apply map_cong. 
    eapply Forall_impl; [|apply L; [exact H|assumption]]. cbn; auto.
Qed.

Lemma deriv_null a k v : depends a v = false -> deriv_ok a k v (ENull (rows a) (vdim v)).
Proof.
  intros D. split; [exact Logic.I|]. do 2 (split; [reflexivity|]). intros rho _. split; [exact Logic.I|]. intros. cbn [LeviExpr.eval].
  apply dpart_const. intros. apply indep; auto.
Qed.
Lemma deriv_transfer {a} a' k k' v d : deriv_ok a' k' v d -> rows a = rows a' -> (forall rho, dom rho a -> dom rho a') ->
  (forall r i, (i < rows a)%nat -> eval r a i k = eval r a' i k') -> deriv_ok a k v d.
Proof.
  intros (W & R & C & S) ER ED EV. split; auto. split; [congruence|]. split; auto. intros rho D.
  destruct (S rho (ED _ D)) as [D' P]. split; auto. intros i j Hi Hj. eapply dpart_ext; [|apply P; [rewrite <- ER|]; eauto].
  intros r. symmetry. apply EV; auto.
Qed.
Lemma deriv_spec a k v e f D : spec e (fun rho => mkM (rows a) (vdim v) (f rho)) D ->
  (forall rho, dom rho a -> D rho /\ forall i j, (i < rows a)%nat -> (j < vdim v)%nat -> dpart rho v (fun r => eval r a i k) j (f rho i j)) ->
  deriv_ok a k v e.
Proof.
  intros S H. split; [exact (sp_wf S)|]. split; [exact (spec_rows S rho0)|]. split; [exact (spec_cols S rho0)|].
  intros rho Da. destruct (H rho Da) as [Dr P]. split; [apply (sp_dom S); auto|]. intros i j Hi Hj.
  rewrite (spec_at S) by (cbn; auto). apply P; auto.
Qed.
Lemma dok_spec a k v d : deriv_ok a k v d -> spec d (fun rho => mkM (rows a) (vdim v) (eval rho d)) (fun rho => dom rho a).
Proof.
  intros (W & R & C & S). constructor; auto.
  - intros rho. unfold meq, LeviPost.tr; cbn [mr mc mf]. auto.
  - intros rho D. apply S; auto.
Qed.

(** ** traverse *)
Lemma traverse_some A B (f : A -> option B) l r : traverse f l = Some r ->
  length r = length l /\ (forall i b, nth_error r i = Some b -> exists a, nth_error l i = Some a /\ f a = Some b).
Proof.
  revert r. induction l as [|x l IH]; intros r H; cbn in H.
  - injection H as <-. split; auto. intros [] b; discriminate.
  - step H y Q1. step H rest Q2. injection H as <-. destruct (IH _ Q2) as [IL IN]. split; [cbn; congruence|].
    intros [|i] b; cbn [nth_error]; intros Q; [injection Q as <-; eauto|apply IN; auto].
Qed.
Lemma traverse_seq B (f : nat -> option B) n r : traverse f (seq 0 n) = Some r ->
  length r = n /\ (forall i b, nth_error r i = Some b -> (i < n)%nat /\ f i = Some b).
Proof.
  intros H. apply traverse_some in H. destruct H as [HL H]. rewrite seq_length in HL. split; auto.
  intros i b Q. destruct (H i b Q) as (a & Qa & Qf). assert (Hi : (i < n)%nat) by (rewrite <- HL; apply nth_error_Some; congruence).
  split; auto. apply (nth_error_nth _ _ 0%nat) in Qa. rewrite seq_nth in Qa by auto. subst a. exact Qf.
Qed.
Lemma Forall_nth_error A (P : A -> Prop) l : (forall i a, nth_error l i = Some a -> P a) -> List.Forall P l.
Proof. intros H. apply Forall_forall. intros a Ha. apply In_nth_error in Ha. destruct Ha as [i Hi]. eauto. Qed.
Lemma nth_error_ex A (l : list A) i : (i < length l)%nat -> exists a, nth_error l i = Some a.
Proof. intros H. destruct (nth_error l i) eqn:Q; eauto. apply nth_error_None in Q. lia. Qed.
Lemma by_rows_some l e : by_rows l = Some e -> e = EByRows l /\ l <> [].
Proof. destruct l; cbn [LeviExpr.by_rows]; intros H; [discriminate|]. apply guard_some in H. destruct H as [_ H]. injection H as <-. split; [auto|discriminate]. Qed.
Lemma by_cols_some l e : by_cols l = Some e -> e = EByCols l /\ l <> [].
Proof. destruct l; cbn [LeviExpr.by_cols]; intros H; [discriminate|]. apply guard_some in H. destruct H as [_ H]. injection H as <-. split; [auto|discriminate]. Qed.

Lemma deriv_byrows a k v l : l <> [] -> rows a = length l ->
  (forall i d, nth_error l i = Some d -> exists a' k', deriv_ok a' k' v d /\ rows a' = 1%nat /\
     (forall rho, dom rho a -> dom rho a') /\ (forall r, eval r a i k = eval r a' 0 k')) ->
  deriv_ok a k v (EByRows l).
Proof.
  intros N R H.
  assert (C : List.Forall (fun d => wf d /\ rows d = 1%nat /\ cols d = vdim v /\ forall rho, dom rho a -> dom rho d) l).
  { apply Forall_nth_error. intros i d Q. destruct (H i d Q) as (a' & k' & (W & R' & C' & S) & R1 & Dm & V).
    split; auto. split; [congruence|]. split; auto. intros rho D. apply S; auto. }
  assert (CL : cols (EByRows l) = vdim v).
  { destruct l as [|d l]; [congruence|]. inversion C; subst. cbn. tauto. }
  split; [|split; [|split; [exact CL|]]].
  - cbn [LeviPost.wf]. split; auto. split; [apply all_map; eapply Forall_impl; [|exact C]; intros d (X & _); exact X|].
    eapply Forall_impl; [|exact C]. intros d (_ & ? & ? & _). rewrite CL. auto.
  - cbn. auto.
  - intros rho D. split.
    + cbn [LeviPost.dom]. apply all_map. eapply Forall_impl; [|exact C]. intros d (_ & _ & _ & X). auto.
    + intros i j Hi Hj. destruct (@nth_error_ex _ l i) as [d Q]; [lia|].
      destruct (H i d Q) as (a' & k' & (W & R' & C' & S) & R1 & Dm & V).
      cbn [LeviExpr.eval]. rewrite (nth_error_map_d (fun b => eval rho b 0 j) _ _ Q).
      eapply dpart_ext; [|apply (proj2 (S rho (Dm _ D))); [lia|auto]]. intros r. cbv beta. symmetry. apply V.
Qed.

(** ** Products *)
Lemma dok_intro a k v d : wf d -> rows d = rows a -> cols d = vdim v -> (forall rho, dom rho a -> dom rho d) ->
  (forall rho, dom rho a -> forall i j, (i < rows a)%nat -> (j < vdim v)%nat -> dpart rho v (fun r => eval r a i k) j (eval rho d i j)) ->
  deriv_ok a k v d.
Proof. intros. repeat (split; auto). Qed.
Lemma mul_sl a b p D : is_scalar a = true -> spec p (fun rho => mtimes (tr rho a) (tr rho b)) D ->
  rows p = rows b /\ cols p = cols b /\ forall rho i j, (i < rows b)%nat -> (j < cols b)%nat -> eval rho p i j = eval rho a 0 0 * eval rho b i j.
Proof.
  intros Sa S. assert (E : forall rho, mtimes (tr rho a) (tr rho b) = mkM (rows b) (cols b) (fun i j => eval rho a 0 0 * eval rho b i j))
    by (intros; rewrite mtimes_scal by exact Sa; reflexivity).
  split; [rewrite (spec_rows S rho0), E; reflexivity|]. split; [rewrite (spec_cols S rho0), E; reflexivity|].
  intros rho i j Hi Hj. rewrite (spec_at S rho); rewrite E; cbn; auto.
Qed.
Lemma mul_mm a b p D : cols a = rows b -> spec p (fun rho => mtimes (tr rho a) (tr rho b)) D ->
  rows p = rows a /\ cols p = cols b /\ forall rho i j, (i < rows a)%nat -> (j < cols b)%nat ->
    eval rho p i j = sumn (cols a) (fun l => eval rho a i l * eval rho b l j).
Proof.
  intros F S.
  assert (E : forall rho, meq (tr rho p) (mkM (rows a) (cols b) (fun i j => sumn (cols a) (fun l => eval rho a i l * eval rho b l j)))).
  { intros rho. rewrite (sp_val S rho), mtimes_mat by exact F. reflexivity. }
  split; [exact (proj1 (E rho0))|]. split; [exact (proj1 (proj2 (E rho0)))|].
  intros rho i j Hi Hj. destruct (E rho) as (R & C & V). cbn [mr mc mf LeviPost.tr] in R, C, V. apply V; lia.
Qed.
Lemma add_at a b s D : spec s (fun rho => mplus (tr rho a) (tr rho b)) D ->
  rows s = rows a /\ cols s = cols a /\ forall rho i j, (i < rows a)%nat -> (j < cols a)%nat -> eval rho s i j = eval rho a i j + eval rho b i j.
Proof. intros S. split; [exact (spec_rows S rho0)|]. split; [exact (spec_cols S rho0)|]. intros. apply (spec_at S); auto. Qed.
Lemma sub_at a b s D : spec s (fun rho => mminus (tr rho a) (tr rho b)) D ->
  rows s = rows a /\ cols s = cols a /\ forall rho i j, (i < rows a)%nat -> (j < cols a)%nat -> eval rho s i j = eval rho a i j - eval rho b i j.
Proof. intros S. split; [exact (spec_rows S rho0)|]. split; [exact (spec_cols S rho0)|]. intros. apply (spec_at S); auto. Qed.
Lemma col_at a k c D : spec c (fun rho => mkM (rows a) 1 (fun i _ => eval rho a i k)) D ->
  rows c = rows a /\ cols c = 1%nat /\ forall rho i, (i < rows a)%nat -> eval rho c i 0 = eval rho a i k.
Proof. intros S. split; [exact (spec_rows S rho0)|]. split; [exact (spec_cols S rho0)|]. intros. rewrite (spec_at S); cbn; auto. Qed.
Lemma elem_at a i j c D : spec c (fun rho => mkM 1 1 (fun _ _ => eval rho a i j)) D ->
  rows c = 1%nat /\ cols c = 1%nat /\ forall rho, eval rho c 0 0 = eval rho a i j.
Proof. intros S. split; [exact (spec_rows S rho0)|]. split; [exact (spec_cols S rho0)|]. intros. rewrite (spec_at S); cbn; auto. Qed.
Lemma dpart_indep rho v j a i k : depends a v = false -> dpart rho v (fun r => eval r a i k) j 0.
Proof. intros D. apply dpart_const. intros. apply indep; auto. Qed.

Section Step.
Variable rec : cmd -> option expr.
Variable t : nat.
Hypothesis IH : forall c e, rec c = Some e -> post c e.
Arguments IH c {e} _ : assert.

(** Node by node; [H]: the derivative is the result [e] of these operations. *)
Lemma d_sum x y k v dx dy e : wf (ESum x y) -> rec (CDeriv x k v) = Some dx -> rec (CDeriv y k v) = Some dy ->
  rec (CAdd dx dy) = Some e -> deriv_ok (ESum x y) k v e.
Proof.
  intros (Wx & Wy & Rw & Cl) Qx Qy Q. apply IH in Qx; specialize (Qx Wx). apply IH in Qy; specialize (Qy Wy).
  destruct Qx as (_ & WX & RX & CX & SX), Qy as (_ & WY & RY & CY & SY).
  apply IH in Q; specialize (Q WX WY). destruct Q as (_ & _ & S). destruct (add_at S) as (A & B & V).
  apply dok_intro; [exact (sp_wf S)|cbn; congruence|congruence| |].
  - intros rho (D1 & D2). apply (sp_dom S). split; [apply SX|apply SY]; auto.
  - intros rho (D1 & D2) i j Hi Hj. cbn [LeviExpr.rows] in Hi. rewrite V by lia. apply dpart_plus; [apply SX|apply SY]; auto; lia.
Qed.
Lemma d_sub x y k v dx dy e : wf (ESub x y) -> rec (CDeriv x k v) = Some dx -> rec (CDeriv y k v) = Some dy ->
  rec (CSub dx dy) = Some e -> deriv_ok (ESub x y) k v e.
Proof.
  intros (Wx & Wy & Rw & Cl) Qx Qy Q. apply IH in Qx; specialize (Qx Wx). apply IH in Qy; specialize (Qy Wy).
  destruct Qx as (_ & WX & RX & CX & SX), Qy as (_ & WY & RY & CY & SY).
  apply IH in Q; specialize (Q WX WY). destruct Q as (_ & _ & S). destruct (sub_at S) as (A & B & V).
  apply dok_intro; [exact (sp_wf S)|cbn; congruence|congruence| |].
  - intros rho (D1 & D2). apply (sp_dom S). split; [apply SX|apply SY]; auto.
  - intros rho (D1 & D2) i j Hi Hj. cbn [LeviExpr.rows] in Hi. rewrite V by lia. apply dpart_minus; [apply SX|apply SY]; auto; lia.
Qed.
Lemma d_neg x k v dx e : wf x -> rec (CDeriv x k v) = Some dx -> rec (CNeg dx) = Some e -> deriv_ok (ENeg x) k v e.
Proof.
  intros Wx Qx Q. apply IH in Qx; specialize (Qx Wx). destruct Qx as (_ & WX & RX & CX & SX).
  apply IH in Q; specialize (Q WX). cbn [LeviPost.post] in Q.
  apply dok_intro; [exact (sp_wf Q)|rewrite (spec_rows Q rho0); cbn; congruence|rewrite (spec_cols Q rho0); cbn; congruence| |].
  - intros rho D. apply (sp_dom Q). apply SX; auto.
  - intros rho D i j Hi Hj. cbn [LeviExpr.rows] in Hi. rewrite (spec_at Q) by (cbn; lia). cbn [mf mopp LeviPost.tr]. apply dpart_opp. apply SX; auto.
Qed.
(** One operand does not depend on v. *)
Lemma d_sum_l x y k v dx : wf (ESum x y) -> depends y v = false -> rec (CDeriv x k v) = Some dx -> deriv_ok (ESum x y) k v dx.
Proof.
  intros (Wx & Wy & Rw & Cl) N Qx. apply IH in Qx; specialize (Qx Wx). destruct Qx as (_ & WX & RX & CX & SX).
  apply dok_intro; auto. 
  - intros rho (D1 & D2). apply SX; auto.
  - intros rho (D1 & D2) i j Hi Hj. eapply dpart_eq; [apply (dpart_plus (proj2 (SX rho D1) i j Hi Hj) (@dpart_indep rho v j _ i k N))|ring].
Qed.
Lemma d_sum_r x y k v dy : wf (ESum x y) -> depends x v = false -> rec (CDeriv y k v) = Some dy -> deriv_ok (ESum x y) k v dy.
Proof.
  intros (Wx & Wy & Rw & Cl) N Qx. apply IH in Qx; specialize (Qx Wy). destruct Qx as (_ & WX & RX & CX & SX).
  apply dok_intro; auto. 
  - cbn. congruence.
  - intros rho (D1 & D2). apply SX; auto.
  - intros rho (D1 & D2) i j Hi Hj. cbn [LeviExpr.rows] in Hi. rewrite Rw in Hi. eapply dpart_eq; [apply (dpart_plus (@dpart_indep rho v j _ i k N) (proj2 (SX rho D2) i j Hi Hj))|ring].
Qed.
Lemma d_sub_l x y k v dx : wf (ESub x y) -> depends y v = false -> rec (CDeriv x k v) = Some dx -> deriv_ok (ESub x y) k v dx.
Proof.
  intros (Wx & Wy & Rw & Cl) N Qx. apply IH in Qx; specialize (Qx Wx). destruct Qx as (_ & WX & RX & CX & SX).
  apply dok_intro; auto. 
  - intros rho (D1 & D2). apply SX; auto.
  - intros rho (D1 & D2) i j Hi Hj. eapply dpart_eq; [apply (dpart_minus (proj2 (SX rho D1) i j Hi Hj) (@dpart_indep rho v j _ i k N))|ring].
Qed.
Lemma d_sub_r x y k v dy e : wf (ESub x y) -> depends x v = false -> rec (CDeriv y k v) = Some dy -> rec (CNeg dy) = Some e ->
  deriv_ok (ESub x y) k v e.
Proof.
  intros (Wx & Wy & Rw & Cl) N Qx Q. destruct (@d_neg y k v _ _ Wy Qx Q) as (WX & RX & CX & SX).
  apply dok_intro; auto. 
  - cbn in *. congruence.
  - intros rho (D1 & D2). apply SX; auto.
  - intros rho (D1 & D2) i j Hi Hj. cbn [LeviExpr.rows] in Hi. rewrite Rw in Hi.
    eapply dpart_ext; [|eapply dpart_eq; [apply (dpart_plus (@dpart_indep rho v j _ i k N) (proj2 (SX rho D2) i j Hi Hj))|ring]].
    intros r. cbv beta. cbn [LeviExpr.eval]. ring.
Qed.

(** scalar times matrix: the factor with the scalar underived *)
Lemma scal_part x y k v dy p : wf x -> wf y -> is_scalar x = true -> deriv_ok y k v dy -> rec (CMul x dy) = Some p ->
  wf p /\ rows p = rows y /\ cols p = vdim v /\ (forall rho, dom rho x -> dom rho y -> dom rho p) /\
  forall rho i j, (i < rows y)%nat -> (j < vdim v)%nat -> eval rho p i j = eval rho x 0 0 * eval rho dy i j.
Proof.
  intros Wx Wy Sx (WY & RY & CY & SY) Q. apply IH in Q. destruct (Q Wx WY) as (_ & S). destruct (mul_sl _ _ Sx S) as (A & B & V).
  split; [exact (sp_wf S)|]. split; [congruence|]. split; [congruence|]. split.
  - intros rho D1 D2. apply (sp_dom S). split; auto. apply SY; auto.
  - intros. apply V; lia.
Qed.
(** column of the matrix times derivative of the scalar *)
Lemma outer_part x y k v yc dx p : wf x -> wf y -> is_scalar x = true -> rec (CCol y k) = Some yc -> deriv_ok x 0 v dx ->
  rec (CMul yc dx) = Some p ->
  wf p /\ rows p = rows y /\ cols p = vdim v /\ (forall rho, dom rho x -> dom rho y -> dom rho p) /\
  forall rho i j, (i < rows y)%nat -> (j < vdim v)%nat -> eval rho p i j = eval rho y i k * eval rho dx 0 j.
Proof.
  intros Wx Wy Sx Qc (WX & RX & CX & SX) Q. apply scalar_true in Sx. destruct Sx as [Sr Sc].
  apply IH in Qc. destruct (Qc Wy) as (Hk & S1). destruct (@col_at _ _ _ _ S1) as (R1 & C1 & V1).
  apply IH in Q. destruct (Q (sp_wf S1) WX) as (_ & S). 
  assert (F : cols yc = rows dx) by congruence. destruct (mul_mm _ _ F S) as (A & B & V).
  split; [exact (sp_wf S)|]. split; [congruence|]. split; [congruence|]. split.
  - intros rho D1 D2. apply (sp_dom S). split; [apply (sp_dom S1); auto|]. apply SX; auto.
  - intros rho i j Hi Hj. rewrite V by lia. rewrite C1, sumn_1, V1 by lia. reflexivity.
Qed.
Lemma matmul_part x y k v dy p : wf x -> wf y -> cols x = rows y -> deriv_ok y k v dy -> rec (CMul x dy) = Some p ->
  wf p /\ rows p = rows x /\ cols p = vdim v /\ (forall rho, dom rho x -> dom rho y -> dom rho p) /\
  forall rho i j, (i < rows x)%nat -> (j < vdim v)%nat -> eval rho p i j = sumn (cols x) (fun l => eval rho x i l * eval rho dy l j).
Proof.
  intros Wx Wy F (WY & RY & CY & SY) Q. apply IH in Q. destruct (Q Wx WY) as (_ & S).
  assert (F' : cols x = rows dy) by congruence. destruct (mul_mm _ _ F' S) as (A & B & V).
  split; [exact (sp_wf S)|]. split; [congruence|]. split; [congruence|]. split.
  - intros rho D1 D2. apply (sp_dom S). split; auto. apply SY; auto.
  - intros. apply V; lia.
Qed.
(** MatrixProductDerivative *)
Lemma mpd_part x y k v yc ds svs : wf x -> wf y -> cols x = rows y -> rec (CCol y k) = Some yc ->
  traverse (fun c => rec (CDeriv x c v)) (seq 0 (cols x)) = Some ds ->
  traverse (fun j => bind (traverse (fun d => rec (CCol d j)) ds) by_cols) (seq 0 (vdim v)) = Some svs ->
  let p := EMpd (rows x) (vdim v) ds svs yc in
  wf p /\ rows p = rows x /\ cols p = vdim v /\ (forall rho, dom rho x -> dom rho y -> dom rho p) /\
  forall rho, dom rho x -> exists D, 
    (forall i l j, (i < rows x)%nat -> (l < cols x)%nat -> (j < vdim v)%nat -> dpart rho v (fun r => eval r x i l) j (D i l j)) /\
    forall i j, (i < rows x)%nat -> (j < vdim v)%nat -> eval rho p i j = sumn (cols x) (fun l => D i l j * eval rho y l k).
Proof.
  intros Wx Wy F Qc Qd Qs p. apply IH in Qc. destruct (Qc Wy) as (Hk & S1). destruct (@col_at _ _ _ _ S1) as (R1 & C1 & V1).
  apply traverse_seq in Qd. destruct Qd as [Ld Nd]. apply traverse_seq in Qs. destruct Qs as [Ls Ns].
  assert (Dd : forall c d, nth_error ds c = Some d -> deriv_ok x c v d).
  { intros c d Q. destruct (Nd c d Q) as [_ Q']. apply IH in Q'. exact (proj2 (Q' Wx)). }
  assert (Ss : forall j sv, nth_error svs j = Some sv -> wf sv /\ rows sv = rows x /\ cols sv = cols x /\ (forall rho, dom rho x -> dom rho sv) /\
     forall rho i l d, (i < rows x)%nat -> nth_error ds l = Some d -> eval rho sv i l = eval rho d i j).
  { intros j sv Q. destruct (Ns j sv Q) as [Hj Q']. step Q' cs Qcs. apply traverse_some in Qcs. destruct Qcs as [Lc Nc].
    apply by_cols_some in Q'. destruct Q' as [-> Ne].
    assert (G : forall l c, nth_error cs l = Some c -> exists d, nth_error ds l = Some d /\ wf c /\ rows c = rows x /\ cols c = 1%nat /\
       (forall rho, dom rho x -> dom rho c) /\ forall rho i, (i < rows x)%nat -> eval rho c i 0 = eval rho d i j).
    { intros l c Qc'. destruct (Nc l c Qc') as (d & Qd & Qe). exists d. split; auto. destruct (Dd l d Qd) as (WD & RD & CD & SD).
      apply IH in Qe. destruct (Qe WD) as (_ & S2). destruct (@col_at _ _ _ _ S2) as (R2 & C2 & V2).
      split; [exact (sp_wf S2)|]. split; [congruence|]. split; auto. split.
      - intros rho D. apply (sp_dom S2). apply SD; auto.
      - intros. apply V2. lia. }
    assert (RW : rows (EByCols cs) = rows x).
    { destruct cs as [|c cs]; [congruence|]. destruct (G 0%nat c eq_refl) as (d & _ & _ & Rc & _). exact Rc. }
    split; [|split; [exact RW|split; [cbn; lia|split]]].
    - cbn [LeviPost.wf]. split; auto. split.
      + apply all_map, Forall_nth_error. intros l c Qlc. destruct (G l c Qlc) as (d & _ & Wc & _). exact Wc.
      + apply Forall_nth_error. intros l c Qlc. destruct (G l c Qlc) as (d & _ & _ & Rc & Cc & _). rewrite RW. auto.
    - intros rho D. cbn [LeviPost.dom]. apply all_map, Forall_nth_error. intros l c Qlc. destruct (G l c Qlc) as (d & _ & _ & _ & _ & Dc & _). auto.
    - intros rho i l d Hi Qd. cbn [LeviExpr.eval].
      destruct (@nth_error_ex _ cs l) as [c Qc']. { rewrite Lc. apply nth_error_Some. congruence. }
      rewrite (nth_error_map_d (fun b => eval rho b i 0) _ _ Qc').
      destruct (G l c Qc') as (d' & Qd' & _ & _ & _ & _ & V). rewrite Qd in Qd'. injection Qd' as <-. apply V; auto. }
  assert (WP : wf p).
  { unfold p. cbn [LeviPost.wf]. split; [|split; [|split; [exact (sp_wf S1)|split; [congruence|split; [exact C1|split; [|split; [exact Ls|split]]]]]]].
    - apply all_map, Forall_nth_error. intros c d Q. destruct (Dd c d Q) as (WD & _). exact WD.
    - apply all_map, Forall_nth_error. intros c d Q. destruct (Ss c d Q) as (WD & _). exact WD.
    - apply Forall_nth_error. intros c d Q. destruct (Dd c d Q) as (_ & RD & CD & _). auto.
    - apply Forall_nth_error. intros c d Q. destruct (Ss c d Q) as (_ & RD & CD & _). split; [auto|congruence].
    - intros rho i j l Hi Hj Hl. destruct (@nth_error_ex _ ds l Hl) as [d Qd]. destruct (@nth_error_ex _ svs j) as [sv Qsv]; [lia|].
      rewrite (nth_error_map_d (fun a => eval rho a i j) _ _ Qd), (nth_error_map_d (fun a => eval rho a i l) _ _ Qsv).
      destruct (Ss j sv Qsv) as (_ & _ & _ & _ & V). apply V; auto. }
  split; [exact WP|]. split; [reflexivity|]. split; [reflexivity|]. split.
  - intros rho D1 D2. unfold p. cbn [LeviPost.dom]. split; [|split].
    + apply all_map, Forall_nth_error. intros c d Q. destruct (Dd c d Q) as (_ & _ & _ & SD). apply SD; auto.
    + apply all_map, Forall_nth_error. intros c d Q. destruct (Ss c d Q) as (_ & _ & _ & SD & _). auto.
    + apply (sp_dom S1); auto.
  - intros rho D1. exists (fun i l j => nth l (map (fun d => eval rho d i j) ds) 0). split.
    + intros i l j Hi Hl Hj. destruct (@nth_error_ex _ ds l) as [d Qd]; [lia|]. rewrite (nth_error_map_d (fun a => eval rho a i j) _ _ Qd).
      destruct (Dd l d Qd) as (_ & _ & _ & SD). apply SD; auto.
    + intros i j Hi Hj. unfold p. cbn [LeviExpr.eval]. rewrite Ld. apply sumn_ext. intros l Hl. rewrite V1 by lia. ring.
Qed.

Lemma ih_deriv x k v d : wf x -> rec (CDeriv x k v) = Some d -> (k < cols x)%nat /\ deriv_ok x k v d.
Proof. intros W Q. apply IH in Q. exact (Q W). Qed.

(** scalar times anything: both parts, either part *)
Lemma d_scal rs x y k v : wf (EProd true rs x y) -> (k < cols y)%nat ->
  (forall dx dy q p e, deriv_ok x 0 v dx -> deriv_ok y k v dy ->
     wf p -> rows p = rows y -> cols p = vdim v -> (forall rho, dom rho x -> dom rho y -> dom rho p) ->
     (forall rho i j, (i < rows y)%nat -> (j < vdim v)%nat -> eval rho p i j = eval rho x 0 0 * eval rho dy i j) ->
     wf q -> rows q = rows y -> cols q = vdim v -> (forall rho, dom rho x -> dom rho y -> dom rho q) ->
     (forall rho i j, (i < rows y)%nat -> (j < vdim v)%nat -> eval rho q i j = eval rho y i k * eval rho dx 0 j) ->
     (rec (CAdd p q) = Some e \/ rec (CAdd q p) = Some e) -> deriv_ok (EProd true rs x y) k v e) /\
  (forall dx q, depends y v = false -> deriv_ok x 0 v dx ->
     wf q -> rows q = rows y -> cols q = vdim v -> (forall rho, dom rho x -> dom rho y -> dom rho q) ->
     (forall rho i j, (i < rows y)%nat -> (j < vdim v)%nat -> eval rho q i j = eval rho y i k * eval rho dx 0 j) ->
     deriv_ok (EProd true rs x y) k v q) /\
  (forall dy p, depends x v = false -> deriv_ok y k v dy ->
     wf p -> rows p = rows y -> cols p = vdim v -> (forall rho, dom rho x -> dom rho y -> dom rho p) ->
     (forall rho i j, (i < rows y)%nat -> (j < vdim v)%nat -> eval rho p i j = eval rho x 0 0 * eval rho dy i j) ->
     deriv_ok (EProd true rs x y) k v p).
Proof.
  intros W Hk. destruct (prod_inv W) as (Wx & Wy & [(_ & Rx & Cx & RP & CP & _)|(? & _)]); [|discriminate].
  split; [|split].
  - intros dx dy q p e (WX & RX & CX & SX) (WY & RY & CY & SY) Wp Rp Cp Dp Vp Wq Rq Cq Dq Vq Q.
    assert (G : wf e /\ rows e = rows y /\ cols e = vdim v /\ (forall rho, dom rho x -> dom rho y -> dom rho e) /\
      forall rho i j, (i < rows y)%nat -> (j < vdim v)%nat -> eval rho e i j = eval rho dx 0 j * eval rho y i k + eval rho x 0 0 * eval rho dy i j).
    { destruct Q as [Q|Q]; apply IH in Q; [specialize (Q Wp Wq)|specialize (Q Wq Wp)]; destruct Q as (_ & _ & S);
      destruct (add_at S) as (A & B & V); (split; [exact (sp_wf S)|]); (split; [congruence|]); (split; [congruence|]); split;
      try (intros; apply (sp_dom S); auto); intros; rewrite V, Vp, Vq by lia; ring. }
    destruct G as (We & Re & Ce & De & Ve). apply dok_intro; auto; [congruence| |].
    + intros rho (D1 & D2). auto.
    + intros rho (D1 & D2) i j Hi Hj. rewrite RP in Hi. rewrite Ve by auto. cbn [LeviExpr.eval].
      apply (@dpart_mult rho v j (fun r => eval r x 0 0) (fun r => eval r y i k)); [apply SX|apply SY]; auto. lia.
  - intros dx q N (WX & RX & CX & SX) Wq Rq Cq Dq Vq. apply dok_intro; auto; [congruence| |].
    + intros rho (D1 & D2). auto.
    + intros rho (D1 & D2) i j Hi Hj. rewrite RP in Hi. rewrite Vq by auto. cbn [LeviExpr.eval]. eapply dpart_eq.
      * apply (@dpart_mult rho v j (fun r => eval r x 0 0) (fun r => eval r y i k)); [apply SX; auto; lia|apply dpart_indep; auto].
      * ring.
  - intros dy p N (WY & RY & CY & SY) Wp Rp Cp Dp Vp. apply dok_intro; auto; [congruence| |].
    + intros rho (D1 & D2). auto.
    + intros rho (D1 & D2) i j Hi Hj. rewrite RP in Hi. rewrite Vp by auto. cbn [LeviExpr.eval]. eapply dpart_eq.
      * apply (@dpart_mult rho v j (fun r => eval r x 0 0) (fun r => eval r y i k)); [apply dpart_indep; auto|apply SY; auto].
      * ring.
Qed.

Lemma d_prod ls rs x y k v e : wf (EProd ls rs x y) -> (k < cols (EProd ls rs x y))%nat -> depends (EProd ls rs x y) v = true ->
  do_deriv rec (EProd ls rs x y) k v = Some e -> deriv_ok (EProd ls rs x y) k v e.
Proof.
  intros W Hk Dep H. unfold LeviExpr.do_deriv in H. apply guard_some in H. destruct H as [_ H]. rewrite Dep in H. cbn [negb] in H.
  destruct (prod_inv W) as (Wx & Wy & [(-> & Rx & Cx & RP & CP & RS)|(-> & -> & F & RP & CP)]); rewrite CP in Hk.
  - assert (Sx : is_scalar x = true) by (apply scalar_true; auto). destruct (@d_scal rs x y k v W Hk) as (L1 & L2 & L3). destruct rs.
    + destruct (RS eq_refl) as [Ry Cy]. assert (Sy : is_scalar y = true) by (apply scalar_true; auto).
      assert (k = 0)%nat by lia. subst k.
      destruct (depends x v) eqn:Nx, (depends y v) eqn:Ny.
      * step H dx Q1. step H p Q2. step H dy Q3. step H q Q4. destruct (@ih_deriv _ _ _ _ Wx Q1) as [_ K1]. destruct (@ih_deriv _ _ _ _ Wy Q3) as [_ K2].
        destruct (@scal_part y x 0%nat v dx p Wy Wx Sy K1 Q2) as (A1 & A2 & A3 & A4 & A5).
        destruct (@scal_part x y 0%nat v dy q Wx Wy Sx K2 Q4) as (B1 & B2 & B3 & B4 & B5).
        apply (L1 dx dy p q e); auto; try congruence. intros rho i j Hi Hj. rewrite A5 by lia. assert (i = 0)%nat by lia. subst i. reflexivity.
      * step H dx Q1. destruct (@ih_deriv _ _ _ _ Wx Q1) as [_ K1].
        destruct (@scal_part y x 0%nat v dx e Wy Wx Sy K1 H) as (A1 & A2 & A3 & A4 & A5).
        apply (L2 dx e); auto; try congruence. intros rho i j Hi Hj. rewrite A5 by lia. assert (i = 0)%nat by lia. subst i. reflexivity.
      * step H dy Q3. destruct (@ih_deriv _ _ _ _ Wy Q3) as [_ K2].
        destruct (@scal_part x y 0%nat v dy e Wx Wy Sx K2 H) as (B1 & B2 & B3 & B4 & B5).
        apply (L3 dy e); auto; congruence.
      * cbn [LeviExpr.depends] in Dep. rewrite Nx, Ny in Dep. discriminate.
    + destruct (depends x v) eqn:Nx, (depends y v) eqn:Ny.
      * step H dy Q3. step H p Q4. step H yc Q5. step H dx Q1. step H q Q2. destruct (@ih_deriv _ _ _ _ Wx Q1) as [_ K1]. destruct (@ih_deriv _ _ _ _ Wy Q3) as [_ K2].
        destruct (@scal_part x y k v dy p Wx Wy Sx K2 Q4) as (B1 & B2 & B3 & B4 & B5).
        destruct (@outer_part x y k v yc dx q Wx Wy Sx Q5 K1 Q2) as (A1 & A2 & A3 & A4 & A5).
        apply (L1 dx dy q p e); auto.
      * step H yc Q5. step H dx Q1. destruct (@ih_deriv _ _ _ _ Wx Q1) as [_ K1].
        destruct (@outer_part x y k v yc dx e Wx Wy Sx Q5 K1 H) as (A1 & A2 & A3 & A4 & A5).
        apply (L2 dx e); auto.
      * step H dy Q3. destruct (@ih_deriv _ _ _ _ Wy Q3) as [_ K2].
        destruct (@scal_part x y k v dy e Wx Wy Sx K2 H) as (B1 & B2 & B3 & B4 & B5).
        apply (L3 dy e); auto.
      * cbn [LeviExpr.depends] in Dep. rewrite Nx, Ny in Dep. discriminate.
  - assert (VAL : forall r i, eval r (EProd false false x y) i k = sumn (cols x) (fun l => eval r x i l * eval r y l k)) by reflexivity.
    destruct (depends x v) eqn:Nx, (depends y v) eqn:Ny.
    + step H dy Q3. step H p Q4. step H q Qm. step Qm yc Q5. apply guard_some in Qm. destruct Qm as [_ Qm]. step Qm ds Q6. step Qm svs Q7. injection Qm as <-.
      destruct (@ih_deriv _ _ _ _ Wy Q3) as [_ K2]. destruct (@matmul_part x y k v dy p Wx Wy F K2 Q4) as (B1 & B2 & B3 & B4 & B5).
      destruct (@mpd_part x y k v yc ds svs Wx Wy F Q5 Q6 Q7) as (A1 & A2 & A3 & A4 & A5).
      apply IH in H. specialize (H B1 A1). destruct H as (_ & _ & S). destruct (add_at S) as (SR & SC & V).
      apply dok_intro; [exact (sp_wf S)|congruence|congruence| |].
      * intros rho (D1 & D2). apply (sp_dom S). auto.
      * intros rho (D1 & D2) i j Hi Hj. rewrite RP in Hi. destruct (A5 rho D1) as (D & Dx & Dv). rewrite V, B5, Dv by lia.
        rewrite <- sumn_plus.
        apply (@dpart_sumn rho v j (cols x) (fun l r => eval r x i l * eval r y l k) (fun l => eval rho x i l * eval rho dy l j + D i l j * eval rho y l k)).
        intros l Hl. eapply dpart_eq.
        { apply (@dpart_mult rho v j (fun r => eval r x i l) (fun r => eval r y l k)); [apply Dx; auto|]. destruct K2 as (_ & _ & _ & SY). apply SY; auto; lia. }
        { cbv beta. ring. }
    + step H yc Q5. apply guard_some in H. destruct H as [_ H]. step H ds Q6. step H svs Q7. injection H as <-.
      destruct (@mpd_part x y k v yc ds svs Wx Wy F Q5 Q6 Q7) as (A1 & A2 & A3 & A4 & A5).
      apply dok_intro; [exact A1|congruence|congruence| |].
      * intros rho (D1 & D2). auto.
      * intros rho (D1 & D2) i j Hi Hj. rewrite RP in Hi. destruct (A5 rho D1) as (D & Dx & Dv). rewrite Dv by lia.
        apply (@dpart_sumn rho v j (cols x) (fun l r => eval r x i l * eval r y l k) (fun l => D i l j * eval rho y l k)).
        intros l Hl. eapply dpart_eq.
        { apply (@dpart_mult rho v j (fun r => eval r x i l) (fun r => eval r y l k)); [apply Dx; auto|]. apply dpart_indep; auto. }
        { cbv beta. ring. }
    + step H dy Q3. destruct (@ih_deriv _ _ _ _ Wy Q3) as [_ K2]. destruct (@matmul_part x y k v dy e Wx Wy F K2 H) as (B1 & B2 & B3 & B4 & B5).
      apply dok_intro; [exact B1|congruence|congruence| |].
      * intros rho (D1 & D2). auto.
      * intros rho (D1 & D2) i j Hi Hj. rewrite RP in Hi. rewrite B5 by lia.
        apply (@dpart_sumn rho v j (cols x) (fun l r => eval r x i l * eval r y l k) (fun l => eval rho x i l * eval rho dy l j)).
        intros l Hl. eapply dpart_eq.
        { apply (@dpart_mult rho v j (fun r => eval r x i l) (fun r => eval r y l k)); [apply dpart_indep; auto|]. destruct K2 as (_ & _ & _ & SY). apply SY; auto; lia. }
        { cbv beta. ring. }
    + cbn [LeviExpr.depends] in Dep. rewrite Nx, Ny in Dep. discriminate.
Qed.

Lemma pow_dom_pred x q : ~ (q == 1)%Q -> pow_dom x q -> pow_dom x (q - 1).
Proof.
  intros N. unfold pow_dom. rewrite qint_pred. pose proof (qint_spec q) as S. destruct (qint q) as [z|]; auto.
  intros [A|A]; auto. destruct (Z.eq_dec z 1) as [->|]; [exfalso; apply N; rewrite S; reflexivity|]. left. lia.
Qed.
Lemma near_one q : good_exponent q -> negb (Qle_bool (1 # 1000000000000000)%Q (Qabs (q - 1)%Q)) = true -> (q == 1)%Q.
Proof.
  intros G H. apply negb_true_iff in H. apply (G 1%nat); auto.
  apply Qnot_le_lt. intros L. apply Qle_bool_iff in L. change (inject_Z (Z.of_nat 1)) with 1%Q in L. congruence.
Qed.
Lemma not_one q : negb (Qle_bool (1 # 1000000000000000)%Q (Qabs (q - 1)%Q)) = false -> ~ (q == 1)%Q.
Proof.
  intros H E. apply negb_false_iff, Qle_bool_iff in H.
  assert (Z0 : (Qabs (q - 1) == 0)%Q) by (rewrite E; reflexivity). rewrite Z0 in H. revert H. apply Qlt_not_le. reflexivity.
Qed.
Lemma rpow_one x q : (q == 1)%Q -> rpow x q = x.
Proof. intros E. rewrite (rpow_eq x E). unfold rpow. change (qint 1) with (Some 1%Z). cbn [powerRZ]. rewrite Pos2Nat.inj_1, pow_1. reflexivity. Qed.
Lemma good_minus_one : good_exponent (-1 # 1).
Proof.
  intros n Hn H. exfalso. revert H. apply Qle_not_lt.
  apply Qle_trans with (1 # 1)%Q; [unfold Qle; cbn; lia|].
  setoid_replace ((-1 # 1) - inject_Z (Z.of_nat n))%Q with (- (1 + inject_Z (Z.of_nat n)))%Q by (change (-1 # 1)%Q with (- (1))%Q; ring).
  rewrite Qabs_opp. eapply Qle_trans; [|apply Qle_Qabs]. unfold Qle, Qplus, inject_Z; cbn [Qnum Qden]. rewrite ?Pos.mul_1_l, ?Z.mul_1_r. lia.
Qed.

Lemma d_pow x q k v e : wf (EPow x q) -> (k < 1)%nat -> (if negb (Qle_bool (1 # 1000000000000000)%Q (Qabs (q - 1)%Q)) then rec (CDeriv x k v)
            else bind (rec (CMul (EPow x (q - 1)%Q) (number (Q2R q)))) (fun p => bind (rec (CDeriv x k v)) (fun d => rec (CMul p d)))) = Some e ->
  deriv_ok (EPow x q) k v e.
Proof.
  intros (Wx & Rx & Cx & G) Hk H. assert (k = 0)%nat by lia. subst k.
  destruct (negb _) eqn:N.
  - apply near_one in N; auto. destruct (@ih_deriv _ _ _ _ Wx H) as [_ K].
    apply (@deriv_transfer (EPow x q) _ (0%nat) _ _ _ K); auto.
    + intros rho (D & _); auto.
    + intros r i Hi. cbn [LeviExpr.rows] in Hi. assert (i = 0)%nat by lia. subst i. cbn [LeviExpr.eval]. apply rpow_one; auto.
  - apply not_one in N. step H p Q1. step H d Q2. destruct (@ih_deriv _ _ _ _ Wx Q2) as [_ (WX & RX & CX & SX)].
    assert (WP : wf (EPow x (q - 1)%Q)) by (cbn [LeviPost.wf]; repeat split; auto; apply good_exponent_pred; auto).
    assert (WN : wf (number (Q2R q))) by exact Logic.I.
    apply IH in Q1. destruct (Q1 WP WN) as (_ & S1). destruct (@mul_sl _ _ _ _ (eq_refl : is_scalar (EPow x (q - 1)) = true) S1) as (A1 & A2 & A3).
    apply IH in H. destruct (H (sp_wf S1) WX) as (_ & S2).
    assert (Sp : is_scalar p = true) by (apply scalar_true; split; [exact A1|exact A2]).
    destruct (@mul_sl _ _ _ _ Sp S2) as (B1 & B2 & B3).
    apply dok_intro; [exact (sp_wf S2)|cbn; congruence|congruence| |].
    + intros rho (D & P). apply (sp_dom S2). split; [apply (sp_dom S1); split; [split; [auto|apply pow_dom_pred; auto]|exact Logic.I]|apply SX; auto].
    + intros rho (D & P) i j Hi Hj. cbn [LeviExpr.rows] in Hi. assert (i = 0)%nat by lia. subst i.
      rewrite B3 by lia. rewrite A3 by (cbn; lia). eapply dpart_eq.
      * apply (@dpart_comp rho v j (fun y => rpow y q) (fun y => Q2R q * rpow y (q - 1)) (fun r => eval r x 0 0)); [apply is_derive_rpow; exact P|].
        apply SX; auto. lia.
      * cbv beta. cbn [number LeviExpr.eval]. ring.
Qed.
Lemma d_div x y k v p e : wf (EDiv x y) -> (k < cols (EDiv x y))%nat -> rec (CMul x (EPow y (-1 # 1)%Q)) = Some p ->
  rec (CDeriv p k v) = Some e -> deriv_ok (EDiv x y) k v e.
Proof.
  intros (Wx & Wy & Cx & Ry & Cy) Hk Q1 Q2. cbn [LeviExpr.cols] in Hk. assert (k = 0)%nat by lia. subst k.
  assert (WP : wf (EPow y (-1 # 1)%Q)) by (cbn [LeviPost.wf]; repeat split; auto; apply good_minus_one).
  apply IH in Q1. destruct (Q1 Wx WP) as (_ & S1).
  assert (Sq : is_scalar (EPow y (-1 # 1)) = true) by reflexivity. destruct (mul_sr _ _ Sq S1) as (A1 & A2 & A3).
  destruct (@ih_deriv _ _ _ _ (sp_wf S1) Q2) as [_ K].
  apply (@deriv_transfer (EDiv x y) _ (0%nat) _ _ _ K); [cbn; auto| |].
  - intros rho (D1 & D2 & N). apply (sp_dom S1). split; auto. split; auto. right. exact N.
  - intros r i Hi. cbn [LeviExpr.rows] in Hi. rewrite A3 by lia. cbn [LeviExpr.eval]. apply div_rpow.
Qed.
Lemma d_skew x k v d e : wf (ESkew x) -> (k < 3)%nat -> rec (CDeriv x 0 v) = Some d -> rec (CMul (levi_civita k) d) = Some e ->
  deriv_ok (ESkew x) k v e.
Proof.
  intros (Wx & Rx & Cx) Hk Q1 Q2. destruct (@ih_deriv _ _ _ _ Wx Q1) as [_ (WX & RX & CX & SX)].
  assert (WL : wf (levi_civita k)) by (destruct k as [|[|]]; cbn; discriminate).
  assert (RL : rows (levi_civita k) = 3%nat /\ cols (levi_civita k) = 3%nat) by (destruct k as [|[|]]; cbn; auto). destruct RL as [RL CL].
  apply IH in Q2. destruct (Q2 WL WX) as (_ & S). assert (F : cols (levi_civita k) = rows d) by congruence. destruct (@mul_mm _ _ _ _ F S) as (A & B & V).
  apply dok_intro; [exact (sp_wf S)|cbn; congruence|congruence| |].
  - intros rho D. apply (sp_dom S). split; [destruct k as [|[|]]; exact Logic.I|apply SX; auto].
  - intros rho D i j Hi Hj. cbn [LeviExpr.rows] in Hi. rewrite V by lia. rewrite CL. clear V.
    assert (P : forall l, (l < 3)%nat -> dpart rho v (fun r => eval r x l 0) j (eval rho d l j)) by (intros; apply SX; auto; lia).
    destruct (SX rho D) as [_ _]. clear SX.
    pose proof (P 0%nat ltac:(lia)) as P0. pose proof (P 1%nat ltac:(lia)) as P1. pose proof (P 2%nat ltac:(lia)) as P2.
    assert (PZ : dpart rho v (fun _ => 0) j 0) by (apply (@dpart_const rho v j (fun _ => 0)); intros; reflexivity).
    destruct k as [|[|[|]]]; [| | |lia]; (destruct i as [|[|[|]]]; [| | |lia]); cbn [levi_civita].
    - refine (dpart_eq PZ _). cbn. ring.
    - refine (dpart_eq P2 _). cbn. ring.
    - refine (dpart_eq (dpart_opp P1) _). cbn. ring.
    - refine (dpart_eq (dpart_opp P2) _). cbn. ring.
    - refine (dpart_eq PZ _). cbn. ring.
    - refine (dpart_eq P0 _). cbn. ring.
    - refine (dpart_eq P1 _). cbn. ring.
    - refine (dpart_eq (dpart_opp P0) _). cbn. ring.
    - refine (dpart_eq PZ _). cbn. ring.
Qed.
Lemma d_transp x k v l e : wf x -> (k < rows x)%nat ->
  traverse (fun j => bind (rec (CElem x k j)) (fun e => rec (CDeriv e 0 v))) (seq 0 (cols x)) = Some l -> by_rows l = Some e ->
  deriv_ok (ETransp x) k v e.
Proof.
  intros Wx Hk Q1 Q2. apply traverse_seq in Q1. destruct Q1 as [L N]. apply by_rows_some in Q2. destruct Q2 as [-> Ne].
  apply deriv_byrows; auto. intros i d Q. destruct (N i d Q) as [Hi Qi]. step Qi c Qc. apply IH in Qc. destruct (Qc Wx) as (_ & _ & S).
  destruct (@elem_at _ _ _ _ _ S) as (R & C & V). destruct (@ih_deriv _ _ _ _ (sp_wf S) Qi) as [_ K].
  exists c, 0%nat. split; auto. split; auto. split; [intros rho D; apply (sp_dom S); exact D|]. intros r. rewrite V. reflexivity.
Qed.
Lemma d_vee x v d0 d1 d2 e0 e1 e2 e : wf (EVee x) ->
  rec (CElem x 2 1) = Some e0 -> rec (CDeriv e0 0 v) = Some d0 -> rec (CElem x 0 2) = Some e1 -> rec (CDeriv e1 0 v) = Some d1 ->
  rec (CElem x 1 0) = Some e2 -> rec (CDeriv e2 0 v) = Some d2 -> by_rows [d0; d1; d2] = Some e ->
  deriv_ok (EVee x) 0 v e.
Proof.
  intros (Wx & Rx & Cx) Q0 K0 Qa K1 Qb K2 Q3. apply by_rows_some in Q3. destruct Q3 as [-> Ne].
  apply IH in Q0. destruct (Q0 Wx) as (_ & _ & S0). apply IH in Qa. destruct (Qa Wx) as (_ & _ & S1). apply IH in Qb. destruct (Qb Wx) as (_ & _ & S2).
  destruct (@elem_at _ _ _ _ _ S0) as (R0 & C0 & V0). destruct (@elem_at _ _ _ _ _ S1) as (Ra & Ca & V1). destruct (@elem_at _ _ _ _ _ S2) as (Rb & Cb & V2).
  apply deriv_byrows; auto. intros i d Q. destruct i as [|[|[|]]]; cbn [nth_error] in Q; [| | |destruct n; discriminate]; injection Q as <-.
  - exists e0, 0%nat. split; [exact (proj2 (@ih_deriv _ _ _ _ (sp_wf S0) K0))|]. split; auto. split; [intros rho D; apply (sp_dom S0); exact D|]. intros r; rewrite V0; reflexivity.
  - exists e1, 0%nat. split; [exact (proj2 (@ih_deriv _ _ _ _ (sp_wf S1) K1))|]. split; auto. split; [intros rho D; apply (sp_dom S1); exact D|]. intros r; rewrite V1; reflexivity.
  - exists e2, 0%nat. split; [exact (proj2 (@ih_deriv _ _ _ _ (sp_wf S2) K2))|]. split; auto. split; [intros rho D; apply (sp_dom S2); exact D|]. intros r; rewrite V2; reflexivity.
Qed.
Lemma d_byrows l k v ds e : wf (EByRows l) -> traverse (fun x => bind (rec (CElem x 0 k)) (fun e => rec (CDeriv e 0 v))) l = Some ds ->
  by_rows ds = Some e -> deriv_ok (EByRows l) k v e.
Proof.
  intros (Ne & Wl & Fl) Q1 Q2. apply traverse_some in Q1. destruct Q1 as [L N]. apply by_rows_some in Q2. destruct Q2 as [-> Ne'].
  apply deriv_byrows; auto. intros i d Q. destruct (N i d Q) as (a & Qa & Qi). step Qi c Qc.
  apply all_map in Wl. rewrite List.Forall_forall in Wl. assert (Ia : List.In a l) by (eapply nth_error_In; eauto).
  apply IH in Qc. destruct (Qc (Wl a Ia)) as (_ & _ & S). destruct (@elem_at _ _ _ _ _ S) as (R & C & V).
  destruct (@ih_deriv _ _ _ _ (sp_wf S) Qi) as [_ K]. exists c, 0%nat. split; auto. split; auto. split.
  - intros rho D. apply (sp_dom S). cbn [LeviPost.dom] in D. apply all_map in D. rewrite List.Forall_forall in D. auto.
  - intros r. cbn [LeviExpr.eval]. rewrite (nth_error_map_d (fun b => eval r b 0 k) _ _ Qa), V. reflexivity.
Qed.
Lemma d_rowpick a x i kx k v d : wf x -> (i < rows x)%nat -> deriv_ok x kx v d -> rows a = 1%nat -> (forall rho, dom rho a -> dom rho x) ->
  (forall r, eval r a 0 k = eval r x i kx) -> deriv_ok a k v (ERow d i).
Proof.
  intros Wx Hi (WX & RX & CX & SX) Ra Da Va. apply dok_intro; [split; [auto|lia]|cbn; lia|exact CX| |].
  - intros rho D. apply SX. auto.
  - intros rho D i' j Hi' Hj. assert (i' = 0)%nat by lia. subst i'. cbn [LeviExpr.eval].
    eapply dpart_ext; [|apply SX; eauto]. intros r. cbv beta. symmetry; apply Va.
Qed.
Lemma d_block x i j r c k v d e : wf (EBlock x i j r c) -> (k < c)%nat -> rec (CDeriv x (j + k) v) = Some d ->
  rec (CBlock d i 0 r (vdim v)) = Some e -> deriv_ok (EBlock x i j r c) k v e.
Proof.
  intros (Wx & Hr & Hc) Hk Q1 Q2. destruct (@ih_deriv _ _ _ _ Wx Q1) as [_ (WX & RX & CX & SX)].
  apply IH in Q2. destruct (Q2 WX) as (_ & _ & S). cbn [LeviPost.post] in S.
  apply dok_intro; [exact (sp_wf S)|exact (spec_rows S rho0)|exact (spec_cols S rho0)| |].
  - intros rho D. apply (sp_dom S). apply SX; auto.
  - intros rho D i' j' Hi Hj. cbn [LeviExpr.rows] in Hi. rewrite (spec_at S) by (cbn; auto). cbn [mf Nat.add LeviExpr.eval]. apply SX; auto. lia.
Qed.
Lemma d_vert x y k v dx dy : wf (EVert x y) -> rec (CDeriv x k v) = Some dx -> rec (CDeriv y k v) = Some dy ->
  deriv_ok (EVert x y) k v (EVert dx dy).
Proof.
  intros (Wx & Wy & C) Q1 Q2. destruct (@ih_deriv _ _ _ _ Wx Q1) as [_ (WX & RX & CX & SX)]. destruct (@ih_deriv _ _ _ _ Wy Q2) as [_ (WY & RY & CY & SY)].
  apply dok_intro; [split; [auto|split; [auto|congruence]]|cbn; congruence|exact CX| |].
  - intros rho (D1 & D2). split; [apply SX|apply SY]; auto.
  - intros rho (D1 & D2) i j Hi Hj. cbn [LeviExpr.rows LeviExpr.eval] in *. rewrite RX.
    destruct (Nat.ltb_spec i (rows x)); [apply SX|apply SY]; auto; lia.
Qed.
Lemma d_asvar_same u x k : wf (EAsVar u x) -> (k < 1)%nat -> deriv_ok (EAsVar u x) k u (EIdent (vdim u) (vdim u)).
Proof.
  intros (Wx & Cx & Rx & Ind) Hk. assert (k = 0)%nat by lia. subst k.
  apply dok_intro; [exact Logic.I|cbn; auto|reflexivity|intros; exact Logic.I|].
  intros rho D i j Hi Hj. cbn [LeviExpr.eval LeviExpr.rows] in *. eapply dpart_eq.
  - apply (@dpart_plus rho u j (fun r => eval r x i 0) (fun r => r u i)); [apply dpart_const; intros; apply Ind; auto|apply dpart_var].
  - ring.
Qed.
Lemma d_asvar_other u x k v d : wf (EAsVar u x) -> (k < 1)%nat -> u <> v -> rec (CDeriv x k v) = Some d -> deriv_ok (EAsVar u x) k v d.
Proof.
  intros (Wx & Cx & Rx & Ind) Hk N Q1. destruct (@ih_deriv _ _ _ _ Wx Q1) as [_ (WX & RX & CX & SX)].
  apply dok_intro; auto; [intros rho D; apply SX; auto|].
  intros rho D i j Hi Hj. cbn [LeviExpr.eval LeviExpr.rows] in *. eapply dpart_eq.
  - apply (@dpart_plus rho v j (fun r => eval r x i k) (fun r => r u i)); [apply SX; auto|apply dpart_const].
    intros y. unfold env_set. destruct (Nat.eqb_spec u v); congruence.
  - ring.
Qed.
Lemma d_mpd r d ds svs b k v sv p e : wf (EMpd r d ds svs b) -> (k < d)%nat -> nth_error svs k = Some sv ->
  rec (CMul sv b) = Some p -> rec (CDeriv p 0 v) = Some e -> deriv_ok (EMpd r d ds svs b) k v e.
Proof.
  intros (Wd & Ws & Wb & Rb & Cb & Fd & Ls & Fs & E) Hk Qs Q1 Q2.
  apply all_map in Ws. rewrite List.Forall_forall in Ws, Fs. assert (Is : List.In sv svs) by (eapply nth_error_In; eauto).
  destruct (Fs _ Is) as [Rs Cs]. specialize (Ws _ Is). apply IH in Q1. destruct (Q1 Ws Wb) as (_ & S).
  assert (F : cols sv = rows b) by congruence. destruct (@mul_mm _ _ _ _ F S) as (A & B & V).
  destruct (@ih_deriv _ _ _ _ (sp_wf S) Q2) as [_ K].
  apply (@deriv_transfer (EMpd r d ds svs b) _ (k) _ _ _ K); [cbn; congruence| |].
  - intros rho (D1 & D2 & D3). apply (sp_dom S). split; auto. apply all_map in D2. rewrite List.Forall_forall in D2. auto.
  - intros rho i Hi. cbn [LeviExpr.rows LeviExpr.eval] in *. rewrite V by lia. rewrite Cs. apply sumn_ext. intros l Hl.
    rewrite <- E by auto. rewrite (nth_error_map_d (fun a => eval rho a i l) _ _ Qs). ring.
Qed.

Lemma sound_deriv a k v e : call rec t (CDeriv a k v) = Some e -> post (CDeriv a k v) e.
Proof.
  change (call rec t (CDeriv a k v)) with (do_deriv rec a k v). cbn [LeviPost.post]. intros H W.
  pose proof H as H0. unfold LeviExpr.do_deriv in H; cbv zeta in H. apply guard_some in H. destruct H as [G H]. apply Nat.ltb_lt in G. split; auto.
  destruct (depends a v) eqn:D.
  2: { assert (e = ENull (rows a) (vdim v)) by (destruct a; cbn [negb] in H; injection H as <-; reflexivity). subst e. apply deriv_null; auto. }
  cbn [negb] in H. destruct a; try discriminate D.
  - injection H as <-. destruct (same_var vname vdim u v) eqn:Sv; [|cbn [LeviExpr.depends] in D; congruence].
    apply same_var_eq in Sv. subst u. apply dok_intro; [exact Logic.I|reflexivity|reflexivity|intros; exact Logic.I|].
    intros rho _ i j Hi Hj. cbn [LeviExpr.eval]. apply dpart_var.
  - destruct (same_var vname vdim u v) eqn:Sv.
    + apply same_var_eq in Sv. subst u. injection H as <-. apply d_asvar_same; auto.
    + cbn [LeviExpr.depends] in D. rewrite Sv in D. cbn [orb] in D. rewrite D in H. apply same_var_neq in Sv. apply d_asvar_other; auto.
  - injection H as <-. apply user_deriv; auto.
  - destruct (depends a1 v) eqn:N1, (depends a2 v) eqn:N2.
    + step H dx Q1. step H dy Q2. eapply d_sum; eauto.
    + eapply d_sum_l; eauto.
    + eapply d_sum_r; eauto.
    + cbn [LeviExpr.depends] in D. rewrite N1, N2 in D. discriminate.
  - destruct (depends a1 v) eqn:N1, (depends a2 v) eqn:N2.
    + step H dx Q1. step H dy Q2. eapply d_sub; eauto.
    + eapply d_sub_l; eauto.
    + step H dy Q2. eapply d_sub_r; eauto.
    + cbn [LeviExpr.depends] in D. rewrite N1, N2 in D. discriminate.
  - step H dx Q1. eapply d_neg; eauto.
  - apply d_prod; auto.
  - apply d_pow; auto.
  - apply guard_some in H. destruct H as [_ H]. step H p Q1. eapply d_div; eauto.
  - destruct (negb (depends a v)) eqn:N; [cbn [LeviExpr.depends] in D; rewrite D in N; discriminate|].
    step H d Q1. eapply d_skew; eauto.
  - step H f0 Q0. step H g0 Q1. step H f1 Q2. step H g1 Q3. step H f2 Q4. step H g2 Q5. cbn [LeviExpr.cols] in G. assert (k = 0)%nat by lia. subst k. 
    eapply (@d_vee a v g0 g1 g2 f0 f1 f2); eauto.
  - step H l Q1. rewrite cols_transp in G. eapply d_transp; eauto.
  - step H d Q1. injection H as <-. destruct W as [Wa Hi]. destruct (@ih_deriv _ _ _ _ Wa Q1) as [_ K].
    apply (@d_rowpick (ERow a i) a i k k v d); auto.
  - destruct W as [Wa Hj]. destruct (@ih_deriv _ _ _ _ Wa H) as [_ K]. apply (@deriv_transfer (ECol a j) _ (k) _ _ _ K); auto.
  - step H d Q1. injection H as <-. destruct W as (Wa & Hi & Hj). destruct (@ih_deriv _ _ _ _ Wa Q1) as [_ K].
    apply (@d_rowpick (EElem a i j) a i j k v d); auto.
  - step H d Q1. eapply d_block; eauto.
  - step H ds Q1. eapply d_byrows; eauto.
  - step H x Q1. destruct W as (Ne & Wl & Fl). apply all_map in Wl. rewrite List.Forall_forall in Wl, Fl.
    assert (Ix : List.In x l) by (eapply nth_error_In; eauto). destruct (@ih_deriv _ _ _ _ (Wl _ Ix) H) as [_ K].
    apply (@deriv_transfer (EByCols l) _ (k) _ _ _ K).
    + symmetry. apply Fl; auto.
    + intros rho Dl. cbn [LeviPost.dom] in Dl. apply all_map in Dl. rewrite List.Forall_forall in Dl. auto.
    + intros r i Hi. cbn [LeviExpr.eval]. rewrite (nth_error_map_d (fun b => eval r b i 0) _ _ Q1). reflexivity.
  - destruct W as (W1 & W2 & R). destruct (Nat.ltb_spec k (cols a1)).
    + destruct (@ih_deriv _ _ _ _ W1 H) as [_ K]. apply (@deriv_transfer (EHorz a1 a2) _ (k) _ _ _ K); auto.
      * intros rho (D1 & D2); auto.
      * intros r i Hi. cbn [LeviExpr.eval]. destruct (Nat.ltb_spec k (cols a1)); [auto|lia].
    + destruct (@ih_deriv _ _ _ _ W2 H) as [_ K]. apply (@deriv_transfer (EHorz a1 a2) _ (k) _ _ _ K); auto.
      * intros rho (D1 & D2); auto.
      * intros r i Hi. cbn [LeviExpr.eval]. destruct (Nat.ltb_spec k (cols a1)); [lia|auto].
  - step H dx Q1. step H dy Q2. apply guard_some in H. destruct H as [_ H]. injection H as <-. apply d_vert; auto.
  - step H sv Q1. step H p Q2. eapply d_mpd; eauto.
Qed.
End Step.

Hypothesis same_sound : forall t a b, same t a b = true -> a = b.
Lemma call_sound rec t : (forall c e, rec c = Some e -> post c e) -> forall c e, call rec t c = Some e -> post c e.
Proof.
  intros IH c e H. destruct c.
  - apply (@sound_add vname vdim urows ucols udep uderiv same ueval udom same_sound rec t); auto.
  - apply (@sound_sub vname vdim urows ucols udep uderiv same ueval udom same_sound rec t); auto.
  - apply (@sound_neg vname vdim urows ucols udep uderiv same ueval udom rec t); auto.
  - apply (@sound_mul vname vdim urows ucols udep uderiv same ueval udom rec t); auto.
  - apply (@sound_row vname vdim urows ucols udep uderiv same ueval udom rec t); auto.
  - apply (@sound_col vname vdim urows ucols udep uderiv same ueval udom rec t); auto.
  - apply (@sound_elem vname vdim urows ucols udep uderiv same ueval udom rec t); auto.
  - apply (@sound_block vname vdim urows ucols udep uderiv same ueval udom rec t); auto.
  - apply (@sound_transp vname vdim urows ucols udep uderiv same ueval udom rec t); auto.
  - apply (@sound_deriv rec t); auto.
Qed.
Theorem exec_sound n : forall c e, exec n c = Some e -> post c e.
Proof. induction n as [|t IH]; intros c e H; [discriminate H|]. exact (@call_sound (exec t) t IH c e H). Qed.
Theorem computed_sound (names_differ : forall u v, vname u = vname v -> u = v) c e : computed c e -> post c e.
Proof.
  induction 1 as [rec t c e _ IH H|a k u v e H IH E].
  - exact (@call_sound rec t IH c e H).
  - apply names_differ in E. subst v. exact IH.
Qed.
Lemma exec_computed n : forall c e, exec n c = Some e -> computed c e.
Proof. induction n as [|t IH]; intros c e H; [discriminate H|]. exact (computed_call (exec t) t c IH H). Qed.
End Sound.
