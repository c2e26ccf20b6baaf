(** Proof side of C45: row, col, operator(), block and transpose. *)
From Coq Require Import String Reals List Arith Lia Lra Bool QArith Qabs Qreals ZArith FunctionalExtensionality.
From Coquelicot Require Import Coquelicot.
From Verif Require Import Spec PartialLib SpecDerivatives LeviExpr LeviWf LeviMat LeviPost LeviMul.
Import ListNotations.
Local Open Scope R_scope.
Set Implicit Arguments.

Section Sound.
Variable vname : nat -> string.
Variable vdim : nat -> nat.
Variables urows ucols : nat -> nat.
Variable udep : nat -> nat -> bool.
Variable uderiv : nat -> nat -> nat -> expr.
Variable same : nat -> expr -> expr -> bool.
Variable ueval : nat -> env -> mat.
Variable udom : nat -> env -> Prop.
Notation rows := (rows vdim urows ucols).
Notation cols := (cols vdim urows ucols).
Notation eval := (eval vdim urows ucols ueval).
Notation depends := (depends vname vdim udep).
Notation eqv := (eqv same).
Notation is_scalar := (is_scalar vdim urows ucols).
Notation exec := (exec vname vdim urows ucols udep uderiv same).
Notation call := (call vname vdim urows ucols udep uderiv same).
Notation computed := (computed vname vdim urows ucols udep uderiv same).
Notation wf := (wf vdim urows ucols ueval).
Notation dom := (dom vdim urows ucols ueval udom).
Notation tr := (tr vdim urows ucols ueval).
Notation spec := (spec vdim urows ucols ueval udom).
Notation post := (post vdim urows ucols ueval udom).
Notation deriv_ok := (deriv_ok vdim urows ucols ueval udom).
Lemma spec_pt e F D r c f (D' : env -> Prop) : spec e F D -> (forall rho, mr (F rho) = r) -> (forall rho, mc (F rho) = c) ->
  (forall rho i j, (i < r)%nat -> (j < c)%nat -> mf (F rho) i j = f rho i j) -> (forall rho, D' rho -> D rho) ->
  spec e (fun rho => mkM r c (f rho)) D'.
Proof.
  intros S R C V DD. eapply spec_weaken; [exact S| |exact DD]. intros rho. unfold meq; cbn [mr mc mf].
  split; [apply R|split; [apply C|]]. intros i j Hi Hj. rewrite R in Hi. rewrite C in Hj. apply V; auto.
Qed.
Lemma mtimes_at_sl A B i j : sc A = true -> mf (mtimes A B) i j = mf A 0 0 * mf B i j.
Proof. intros S. rewrite mtimes_scal by auto. reflexivity. Qed.
Lemma mtimes_at_sr A B i j : sc B = true -> (i < mr A)%nat -> (j < mc A)%nat -> mf (mtimes A B) i j = mf A i j * mf B 0 0.
Proof.
  intros S Hi Hj. destruct (mtimes_scal_r A B S) as (R & C & V). cbn in R, C, V. rewrite V by lia. ring.
Qed.
Lemma mtimes_dim_sr A B : sc B = true -> mr (mtimes A B) = mr A /\ mc (mtimes A B) = mc A.
Proof. intros S. destruct (mtimes_scal_r A B S) as (R & C & V). auto. Qed.
Lemma mtimes_at A B i j : mc A = mr B -> (i < mr A)%nat -> (j < mc B)%nat -> mf (mtimes A B) i j = sumn (mc A) (fun k => mf A i k * mf B k j).
Proof. intros F Hi Hj. destruct (mtimes_mat A B F) as (R & C & V). cbn in R, C, V. apply V; lia. Qed.

(** Facts read off a well formed product node. *)
Lemma prod_inv ls rs x y : wf (EProd ls rs x y) -> wf x /\ wf y /\
  ((ls = true /\ rows x = 1%nat /\ cols x = 1%nat /\ rows (EProd ls rs x y) = rows y /\ cols (EProd ls rs x y) = cols y /\ (rs = true -> rows y = 1%nat /\ cols y = 1%nat)) \/
   (ls = false /\ rs = false /\ cols x = rows y /\ rows (EProd ls rs x y) = rows x /\ cols (EProd ls rs x y) = cols y)).
Proof.
  intros W. pose proof (prod_val rho0 W) as (R & C & _). cbn [mr mc LeviPost.tr] in R, C. destruct W as (W1 & W2 & W3). split; auto. split; auto.
  destruct ls.
  - left. assert (S : is_scalar x = true) by (apply scalar_true; tauto). rewrite mtimes_scal in R, C by auto. cbn in R, C. intuition auto.
  - right. destruct W3 as [-> E]. rewrite mr_mat in R by exact E. rewrite mc_mat in C by exact E. cbn in R, C. auto.
Qed.
Lemma nth_error_map_d A (f : A -> R) l i x : nth_error l i = Some x -> nth i (map f l) 0 = f x.
Proof. intros H. apply nth_error_nth. rewrite nth_error_map, H. reflexivity. Qed.

Section Step.
Variable rec : cmd -> option expr.
Variable t : nat.
Hypothesis IH : forall c e, rec c = Some e -> post c e.
Arguments IH c {e} _ : assert.

Lemma sound_block a i j r c e : call rec t (CBlock a i j r c) = Some e -> post (CBlock a i j r c) e.
Proof.
  change (call rec t (CBlock a i j r c)) with (do_block vdim urows ucols a i j r c). cbn [LeviPost.post]. unfold do_block. intros H W.
  apply guard_some in H. destruct H as [G H]. rewrite andb_true_iff, !Nat.leb_le in G. split; [tauto|]. split; [tauto|]. inv H.
  destruct (is_null a) eqn:N.
  - destruct a; try discriminate N. constructor; [exact I| |auto]. intros. unfold meq; cbn. repeat split; auto.
  - constructor; [cbn; tauto| |auto]. intros. unfold meq; cbn. repeat split; auto.
Qed.
Lemma sound_transp a e : call rec t (CTransp a) = Some e -> post (CTransp a) e.
Proof.
  change (call rec t (CTransp a)) with (do_transp vdim urows ucols a). cbn [LeviPost.post]. unfold do_transp. intros H W. inv H.
  destruct (is_scalar a) eqn:S.
  - apply scalar_true in S. constructor; auto. intros. unfold meq; cbn. repeat split; try lia. intros i j Hi Hj.
    replace i with 0%nat by lia. replace j with 0%nat by lia. reflexivity.
  - constructor; auto. intros. unfold meq, LeviPost.tr; cbn [mr mc mf]. rewrite rows_transp, cols_transp. repeat split; auto.
Qed.

Ltac rc := cbn [mr mc mf mplus mminus mopp LeviPost.tr] in *;
  repeat match goal with S : LeviPost.spec _ _ _ _ _ ?e ?F _ |- _ =>
    lazymatch goal with H : LeviExpr.rows _ _ _ e = _ |- _ => fail | _ => idtac end;
    let A := fresh "Rw" in let B := fresh "Cl" in
    pose proof (spec_rows S rho0) as A; pose proof (spec_cols S rho0) as B; cbn [mr mc mf mplus mminus mopp LeviPost.tr] in A, B end.
Ltac dim := intros; cbn [mr mc mplus mminus mopp LeviPost.tr LeviExpr.rows LeviExpr.cols]; try reflexivity; try assumption; congruence.
Ltac at_ S := rewrite (spec_at S) by (cbn [mr mc mf mplus mminus mopp LeviPost.tr]; lia); cbn [mr mc mf mplus mminus mopp LeviPost.tr].

Lemma mul_sr m x p D : is_scalar x = true -> spec p (fun rho => mtimes (tr rho m) (tr rho x)) D ->
  rows p = rows m /\ cols p = cols m /\ forall rho i j, (i < rows m)%nat -> (j < cols m)%nat -> eval rho p i j = eval rho m i j * eval rho x 0 0.
Proof.
  intros Sx S. assert (E : forall rho, meq (tr rho p) (mkM (rows m) (cols m) (fun i j => eval rho x 0 0 * eval rho m i j))).
  { intros rho. rewrite (sp_val S rho). apply (mtimes_scal_r (tr rho m) (tr rho x) Sx). }
  split; [exact (proj1 (E rho0))|]. split; [exact (proj1 (proj2 (E rho0)))|].
  intros rho i j Hi Hj. destruct (E rho) as (A & B & C). cbn in A, B, C. rewrite C by lia. ring.
Qed.
(** The entry of a skew matrix from the constants (OperatorsEvaluables.h:893-903). *)
Lemma skew_chain {x r0 r1 r2 m0 e0 p0 e1 p1 e2 p2 s e p q f0 f1 f2 D0 D1 D2} : wf x ->
  spec r0 (fun rho => mkM p q (f0 rho)) D0 -> spec r1 (fun rho => mkM p q (f1 rho)) D1 -> spec r2 (fun rho => mkM p q (f2 rho)) D2 ->
  rec (CNeg r0) = Some m0 -> rec (CElem x 0 0) = Some e0 -> rec (CMul m0 e0) = Some p0 ->
  rec (CElem x 1 0) = Some e1 -> rec (CMul r1 e1) = Some p1 ->
  rec (CElem x 2 0) = Some e2 -> rec (CMul r2 e2) = Some p2 ->
  rec (CSub p0 p1) = Some s -> rec (CSub s p2) = Some e ->
  spec e (fun rho => mkM p q (fun i j => - f0 rho i j * eval rho x 0 0 - f1 rho i j * eval rho x 1 0 - f2 rho i j * eval rho x 2 0))
    (fun rho => D0 rho /\ D1 rho /\ D2 rho /\ dom rho x).
Proof.
  intros W1 S0 S1 S2 Em0 Ee0 Ep0 Ee1 Ep1 Ee2 Ep2 Es H.
  pose proof (IH _ Em0 (sp_wf S0)) as Sm0.
  destruct (IH _ Ee0 W1) as (_ & _ & Se0). destruct (IH _ Ee1 W1) as (_ & _ & Se1). destruct (IH _ Ee2 W1) as (_ & _ & Se2).
  destruct (IH _ Ep0 (sp_wf Sm0) (sp_wf Se0)) as [_ Sp0]. destruct (IH _ Ep1 (sp_wf S1) (sp_wf Se1)) as [_ Sp1]. destruct (IH _ Ep2 (sp_wf S2) (sp_wf Se2)) as [_ Sp2].
  destruct (IH _ Es (sp_wf Sp0) (sp_wf Sp1)) as (_ & _ & Ss). destruct (IH _ H (sp_wf Ss) (sp_wf Sp2)) as (_ & _ & Sr).
  destruct (mul_sr m0 e0 (spec_scalar Se0 rho0) Sp0) as (A0 & B0 & V0).
  destruct (mul_sr r1 e1 (spec_scalar Se1 rho0) Sp1) as (A1 & B1 & V1).
  destruct (mul_sr r2 e2 (spec_scalar Se2 rho0) Sp2) as (A2 & B2 & V2).
  pose proof (spec_rows S0 rho0) as R0. pose proof (spec_rows S1 rho0) as R1. pose proof (spec_rows S2 rho0) as R2. pose proof (spec_rows Sm0 rho0) as Rm.
  pose proof (spec_cols S0 rho0) as C0. pose proof (spec_cols S1 rho0) as C1. pose proof (spec_cols S2 rho0) as C2. pose proof (spec_cols Sm0 rho0) as Cm.
  pose proof (spec_rows Ss rho0) as Rs. pose proof (spec_cols Ss rho0) as Cs.
  cbn [mr mc mf mplus mminus mopp LeviPost.tr] in *.
  eapply spec_pt; [exact Sr|dim|dim| |].
  - intros rho i j Hi Hj. cbn [mr mc mf mplus mminus mopp LeviPost.tr]. at_ Ss. rewrite V0, V1, V2 by lia.
    at_ Sm0. at_ S0. at_ S1. at_ S2. at_ Se0. at_ Se1. at_ Se2. ring.
  - intros rho (X0 & X1 & X2 & X3). 
    split; [apply (sp_dom Ss); split|]; [apply (sp_dom Sp0)|apply (sp_dom Sp1)|apply (sp_dom Sp2)]; split;
      [apply (sp_dom Sm0), (sp_dom S0)|apply (sp_dom Se0)|apply (sp_dom S1)|apply (sp_dom Se1)|apply (sp_dom S2)|apply (sp_dom Se2)]; auto.
Qed.

Lemma sound_row a i e : call rec t (CRow a i) = Some e -> post (CRow a i) e.
Proof.
  change (call rec t (CRow a i)) with (do_row vdim urows ucols rec a i). cbn [LeviPost.post]. unfold do_row; cbv zeta. intros H W.
  apply guard_some in H. destruct H as [G H]. apply Nat.ltb_lt in G. split; auto.
  destruct (Nat.eqb_spec (rows a) 1) as [R1|R1].
  { inv H. constructor; auto. intros rho. unfold meq; cbn. repeat split; auto. intros i' j Hi Hj. replace i' with i by lia. reflexivity. }
  assert (Default : wf (ERow a i) -> spec (ERow a i) (fun rho => mkM 1 (cols a) (fun _ j => eval rho a i j)) (fun rho => dom rho a)).
  { intros W'. constructor; auto. intros. unfold meq; cbn. repeat split; auto. }
  destruct a; try (inv H; apply Default; cbn; auto; fail).
  - inv H. constructor; [exact I| |auto]. intros. unfold meq; cbn. repeat split; auto.
  - apply guard_some in H. destruct H as [G2 H]. inv H. apply Nat.ltb_lt in G2. constructor; [exact I| |auto]. intros. unfold meq; cbn. repeat split; auto.
    intros i' j Hi Hj. replace i' with 0%nat by lia. cbn. rewrite (Nat.eqb_sym i j). reflexivity.
  - inv H. cbn [LeviExpr.rows LeviExpr.cols] in *. destruct (Nat.eqb_spec i i0) as [->|N]; constructor; try exact I; auto; intros; unfold meq; cbn; repeat split; auto; intros i' j' Hi Hj.
    + rewrite Nat.eqb_refl. replace i' with 0%nat by lia. reflexivity.
    + apply Nat.eqb_neq in N. rewrite N. reflexivity.
  - inv H. cbn [LeviExpr.rows LeviExpr.cols LeviPost.wf] in *.
    destruct (Nat.eqb_spec i i1) as [Q1|N1]; destruct (Nat.eqb_spec i i2) as [Q2|N2]; cbn [andb]; constructor; try exact I; auto; try (intros rho; unfold meq; cbn; repeat split; auto; intros i' j' Hi Hj; replace i' with 0%nat by lia).
    + cbn. subst i1 i2. intros Q. apply W. congruence.
    + subst i1 i2. rewrite !Nat.eqb_refl. reflexivity.
    + apply Nat.eqb_neq in N2. rewrite N2. subst i1. rewrite !Nat.eqb_refl. reflexivity.
    + apply Nat.eqb_neq in N1. rewrite N1. subst i2. rewrite !Nat.eqb_refl. cbn. destruct (j' =? j2)%nat; reflexivity.
    + apply Nat.eqb_neq in N1. apply Nat.eqb_neq in N2. rewrite N1, N2. reflexivity.
  - step H r1 Q1. step H r2 Q2. destruct W as (W1 & W2 & R & C).
    destruct (IH _ Q1 W1) as [G1 S1], (IH _ Q2 W2) as [G2 S2]. destruct (IH _ H (sp_wf S1) (sp_wf S2)) as (Rr & Cc & S). rc.
    eapply spec_pt; [exact S|dim|dim| |].
    + intros rho i' j' Hi Hj. cbn [LeviExpr.rows LeviExpr.cols LeviExpr.eval] in Hj |- *. rc. at_ S1. at_ S2. reflexivity.
    + intros rho [D1 D2]. split; [apply (sp_dom S1)|apply (sp_dom S2)]; auto.
  - step H r1 Q1. step H r2 Q2. destruct W as (W1 & W2 & R & C).
    destruct (IH _ Q1 W1) as [G1 S1], (IH _ Q2 W2) as [G2 S2]. destruct (IH _ H (sp_wf S1) (sp_wf S2)) as (Rr & Cc & S). rc.
    eapply spec_pt; [exact S|dim|dim| |].
    + intros rho i' j' Hi Hj. cbn [LeviExpr.rows LeviExpr.cols LeviExpr.eval] in Hj |- *. rc. at_ S1. at_ S2. reflexivity.
    + intros rho [D1 D2]. split; [apply (sp_dom S1)|apply (sp_dom S2)]; auto.
  - step H r1 Q1. destruct (IH _ Q1 W) as [G1 S1]. pose proof (IH _ H (sp_wf S1)) as S. rc.
    eapply spec_pt; [exact S|dim|dim| |].
    + intros rho i' j' Hi Hj. cbn [LeviExpr.rows LeviExpr.cols LeviExpr.eval] in Hj |- *. rc. at_ S1. reflexivity.
    + intros rho D1. apply (sp_dom S1); auto.
  - destruct (prod_inv W) as (W1 & W2 & [(-> & Rx & Cx & RR & CC & SY)|(-> & -> & E & RR & CC)]); rewrite RR, CC in *.
    + step H r Q1. destruct (IH _ Q1 W2) as [_ S1]. destruct (IH _ H W1 (sp_wf S1)) as [_ S].
      assert (SX : forall rho, sc (tr rho a1) = true) by (intros; apply scalar_true; auto). rc.
      eapply spec_pt; [exact S| | | |].
      * intros rho. cbv beta. rewrite mtimes_scal by auto. cbn. auto.
      * intros rho. cbv beta. rewrite mtimes_scal by auto. cbn. auto.
      * intros rho i' j' Hi Hj. cbv beta. rewrite mtimes_at_sl by auto. rc. at_ S1. reflexivity.
      * intros rho [D1 D2]. split; auto. apply (sp_dom S1); auto.
    + step H r Q1. destruct (IH _ Q1 W1) as [_ S1]. destruct (IH _ H (sp_wf S1) W2) as [_ S]. rc.
      assert (F : forall rho, mc (tr rho r) = mr (tr rho a2)) by (intros; cbn; congruence).
      eapply spec_pt; [exact S| | | |].
      * intros rho. cbv beta. rewrite mr_mat by apply F. cbn. auto.
      * intros rho. cbv beta. rewrite mc_mat by apply F. cbn. auto.
      * intros rho i' j' Hi Hj. cbv beta. rewrite mtimes_at; [|apply F|cbn; lia|cbn; lia]. rc. cbn [LeviExpr.eval]. rewrite (spec_cols S1 rho0). cbn [mc].
        apply sumn_ext. intros k K. at_ S1. reflexivity.
      * intros rho [D1 D2]. split; auto. apply (sp_dom S1); auto.
  - step H r Q1. apply guard_some in H. destruct H as [SY H]. inv H. destruct W as (W1 & W2 & C1 & R2 & C2).
    destruct (IH _ Q1 W1) as [_ S1]. rc. constructor.
    + cbn. repeat (split; [try assumption; try apply (sp_wf S1); try congruence|]). congruence.
    + intros rho. unfold meq; cbn. repeat split; auto. intros i' j' Hi Hj. at_ S1. reflexivity.
    + intros rho (D1 & D2 & D3). cbn. split; [apply (sp_dom S1); auto|auto].
  - destruct W as (W1 & R & C). cbn [LeviExpr.rows LeviExpr.cols] in *.
    assert (WL : forall k, wf (levi_civita k)) by (intros [|[|k]]; cbn; congruence).
    assert (DL : forall rho k, dom rho (levi_civita k)) by (intros rho [|[|k]]; exact I).
    step H r0 Q0. step H m0 Em0. step H e0 Ee0. step H p0 Ep0. step H r1 Q1. step H e1 Ee1. step H p1 Ep1. step H r2 Q2. step H e2 Ee2. step H p2 Ep2. step H s Es.
    destruct (IH _ Q0 (WL _)) as [_ S0]. destruct (IH _ Q1 (WL _)) as [_ S1]. destruct (IH _ Q2 (WL _)) as [_ S2].
    pose proof (skew_chain W1 S0 S1 S2 Em0 Ee0 Ep0 Ee1 Ep1 Ee2 Ep2 Es H) as Sr.
    eapply spec_pt; [exact Sr|dim|dim| |].
    + intros rho i' j' Hi Hj. cbn [mf mr mc LeviExpr.rows LeviExpr.cols] in *.
      destruct i as [|[|[|i]]]; [| | |lia]; (destruct j' as [|[|[|j']]]; [| | |lia]); cbn; ring.
    + intros rho D. cbn in D. repeat split; auto.
  - step H cc Q1. rewrite rows_transp, cols_transp in *. destruct (IH _ Q1 W) as [_ S1]. pose proof (IH _ H (sp_wf S1)) as S. rc.
    eapply spec_pt; [exact S|dim|dim| |].
    + intros rho i' j' Hi Hj. cbn [LeviExpr.rows LeviExpr.cols LeviExpr.eval] in Hj |- *. rc. at_ S1. reflexivity.
    + intros rho D1. apply (sp_dom S1); auto.
  - destruct W as [W1 W2]. destruct (IH _ H W1) as (_ & _ & S). eapply spec_pt; [exact S|dim|dim| |auto].
    intros rho i' j' Hi Hj. cbn in Hj |- *. reflexivity.
  - destruct W as (W1 & B1 & B2). step H r' Q1. destruct (IH _ Q1 W1) as [_ S1]. destruct (IH _ H (sp_wf S1)) as (_ & _ & S). rc.
    eapply spec_pt; [exact S|dim|dim| |].
    + intros rho i' j' Hi Hj. cbn [LeviExpr.rows LeviExpr.cols LeviExpr.eval] in Hj |- *. rc. at_ S1. reflexivity.
    + intros rho D1. apply (sp_dom S1); auto.
  - destruct W as (W0 & W1 & W2). apply all_map in W1. rewrite Forall_forall in W1, W2. pose proof (nth_error_In _ _ H) as I1.
    destruct (W2 _ I1) as [RR CC]. constructor; auto.
    + intros rho. unfold meq, LeviPost.tr; cbn [mr mc mf]. repeat split; auto. intros i' j' Hi Hj. cbn [LeviExpr.eval].
      rewrite (nth_error_map_d (fun a => eval rho a 0 j') l i H). replace i' with 0%nat by lia. reflexivity.
    + intros rho D. cbn in D. apply all_map in D. rewrite Forall_forall in D. auto.
  - step H r1 Q1. step H r2 Q2. apply guard_some in H. destruct H as [_ H]. inv H. destruct W as (W1 & W2 & R).
    destruct (IH _ Q1 W1) as [_ S1], (IH _ Q2 W2) as [_ S2]. rc. constructor.
    + cbn. split; [apply (sp_wf S1)|]. split; [apply (sp_wf S2)|]. congruence.
    + intros rho. unfold meq, LeviPost.tr; cbn [mr mc mf LeviExpr.rows LeviExpr.cols LeviExpr.eval]. split; auto. split; [congruence|]. intros i' j' Hi Hj. rewrite (spec_cols S1 rho0). cbn [mc]. destruct (Nat.ltb_spec j' (cols a1)).
      * at_ S1. reflexivity.
      * at_ S2. reflexivity.
    + intros rho [D1 D2]. split; [apply (sp_dom S1)|apply (sp_dom S2)]; auto.
  - destruct W as (W1 & W2 & C). cbn [LeviExpr.rows LeviExpr.cols LeviExpr.eval LeviPost.dom] in *. destruct (Nat.ltb_spec i (rows a1)).
    + destruct (IH _ H W1) as [_ S]. eapply spec_pt; [exact S|dim|dim| |tauto]. auto.
    + destruct (IH _ H W2) as [_ S]. eapply spec_pt; [exact S|dim|dim| |tauto]. auto.
Qed.

Lemma sound_col a j e : call rec t (CCol a j) = Some e -> post (CCol a j) e.
Proof.
  change (call rec t (CCol a j)) with (do_col vdim urows ucols rec a j). cbn [LeviPost.post]. unfold do_col; cbv zeta. intros H W.
  apply guard_some in H. destruct H as [G H]. apply Nat.ltb_lt in G. split; auto.
  destruct (Nat.eqb_spec (cols a) 1) as [R1|R1].
  { inv H. constructor; auto. intros rho. unfold meq; cbn. repeat split; auto. intros i' j' Hi Hj. replace j' with j by lia. reflexivity. }
  assert (Default : wf (ECol a j) -> spec (ECol a j) (fun rho => mkM (rows a) 1 (fun i _ => eval rho a i j)) (fun rho => dom rho a)).
  { intros W'. constructor; auto. intros. unfold meq; cbn. repeat split; auto. }
  destruct a; try (inv H; apply Default; cbn; auto; fail).
  - inv H. constructor; [exact I| |auto]. intros. unfold meq; cbn. repeat split; auto.
  - apply guard_some in H. destruct H as [G2 H]. inv H. apply Nat.ltb_lt in G2. constructor; [exact I| |auto]. intros. unfold meq; cbn. repeat split; auto.
    intros i' j' Hi Hj. replace j' with 0%nat by lia. cbn. rewrite andb_true_r. reflexivity.
  - inv H. cbn [LeviExpr.rows LeviExpr.cols] in *. destruct (Nat.eqb_spec j j0) as [->|N]; constructor; try exact I; auto; intros; unfold meq; cbn; repeat split; auto; intros i' j' Hi Hj.
    + rewrite Nat.eqb_refl. replace j' with 0%nat by lia. reflexivity.
    + apply Nat.eqb_neq in N. rewrite N, andb_false_r. reflexivity.
  - inv H. cbn [LeviExpr.rows LeviExpr.cols LeviPost.wf] in *.
    destruct (Nat.eqb_spec j j1) as [Q1|N1]; destruct (Nat.eqb_spec j j2) as [Q2|N2]; cbn [andb]; constructor; try exact I; auto; try (intros rho; unfold meq; cbn; repeat split; auto; intros i' j' Hi Hj; replace j' with 0%nat by lia).
    + cbn. subst j1 j2. intros Q. apply W. congruence.
    + subst j1 j2. rewrite !Nat.eqb_refl. reflexivity.
    + apply Nat.eqb_neq in N2. rewrite N2. subst j1. rewrite !Nat.eqb_refl, andb_false_r. reflexivity.
    + apply Nat.eqb_neq in N1. rewrite N1. subst j2. rewrite !Nat.eqb_refl, andb_false_r, andb_true_r. reflexivity.
    + apply Nat.eqb_neq in N1. apply Nat.eqb_neq in N2. rewrite N1, N2, !andb_false_r. reflexivity.
  - step H r1 Q1. step H r2 Q2. destruct W as (W1 & W2 & R & C).
    destruct (IH _ Q1 W1) as [G1 S1], (IH _ Q2 W2) as [G2 S2]. destruct (IH _ H (sp_wf S1) (sp_wf S2)) as (Rr & Cc & S). rc.
    eapply spec_pt; [exact S|dim|dim| |].
    + intros rho i' j' Hi Hj. cbn [LeviExpr.rows LeviExpr.cols LeviExpr.eval] in Hi |- *. rc. at_ S1. at_ S2. reflexivity.
    + intros rho [D1 D2]. split; [apply (sp_dom S1)|apply (sp_dom S2)]; auto.
  - step H r1 Q1. step H r2 Q2. destruct W as (W1 & W2 & R & C).
    destruct (IH _ Q1 W1) as [G1 S1], (IH _ Q2 W2) as [G2 S2]. destruct (IH _ H (sp_wf S1) (sp_wf S2)) as (Rr & Cc & S). rc.
    eapply spec_pt; [exact S|dim|dim| |].
    + intros rho i' j' Hi Hj. cbn [LeviExpr.rows LeviExpr.cols LeviExpr.eval] in Hi |- *. rc. at_ S1. at_ S2. reflexivity.
    + intros rho [D1 D2]. split; [apply (sp_dom S1)|apply (sp_dom S2)]; auto.
  - step H r1 Q1. destruct (IH _ Q1 W) as [G1 S1]. pose proof (IH _ H (sp_wf S1)) as S. rc.
    eapply spec_pt; [exact S|dim|dim| |].
    + intros rho i' j' Hi Hj. cbn [LeviExpr.rows LeviExpr.cols LeviExpr.eval] in Hi |- *. rc. at_ S1. reflexivity.
    + intros rho D1. apply (sp_dom S1); auto.
  - destruct (prod_inv W) as (W1 & W2 & [(-> & Rx & Cx & RR & CC & SY)|(-> & -> & E & RR & CC)]); rewrite RR, CC in *.
    + destruct rs; [destruct (SY eq_refl); lia|].
      step H r Q1. destruct (IH _ Q1 W2) as [_ S1]. destruct (IH _ H W1 (sp_wf S1)) as [_ S].
      assert (SX : forall rho, sc (tr rho a1) = true) by (intros; apply scalar_true; auto). rc.
      eapply spec_pt; [exact S| | | |].
      * intros rho. cbv beta. rewrite mtimes_scal by auto. cbn. auto.
      * intros rho. cbv beta. rewrite mtimes_scal by auto. cbn. auto.
      * intros rho i' j' Hi Hj. cbv beta. rewrite mtimes_at_sl by auto. rc. at_ S1. reflexivity.
      * intros rho [D1 D2]. split; auto. apply (sp_dom S1); auto.
    + step H r Q1. destruct (IH _ Q1 W2) as [_ S1]. destruct (IH _ H W1 (sp_wf S1)) as [_ S]. rc.
      assert (F : forall rho, mc (tr rho a1) = mr (tr rho r)) by (intros; cbn; congruence).
      eapply spec_pt; [exact S| | | |].
      * intros rho. cbv beta. rewrite mr_mat by apply F. cbn. auto.
      * intros rho. cbv beta. rewrite mc_mat by apply F. cbn. auto.
      * intros rho i' j' Hi Hj. cbv beta. rewrite mtimes_at; [|apply F|cbn; lia|cbn; lia]. rc. cbn [LeviExpr.eval].
        apply sumn_ext. intros k K. at_ S1. reflexivity.
      * intros rho [D1 D2]. split; auto. apply (sp_dom S1); auto.
  - exfalso. destruct W as (W1 & W2 & C1 & R2 & C2). apply R1. exact C2.
  - destruct W as (W1 & R & C). cbn [LeviExpr.rows LeviExpr.cols] in *.
    assert (WL : forall k, wf (levi_civita k)) by (intros [|[|k]]; cbn; congruence).
    assert (DL : forall rho k, dom rho (levi_civita k)) by (intros rho [|[|k]]; exact I).
    step H r0 Q0. step H m0 Em0. step H e0 Ee0. step H p0 Ep0. step H r1 Q1. step H e1 Ee1. step H p1 Ep1. step H r2 Q2. step H e2 Ee2. step H p2 Ep2. step H s Es.
    destruct (IH _ Q0 (WL _)) as [_ S0]. destruct (IH _ Q1 (WL _)) as [_ S1]. destruct (IH _ Q2 (WL _)) as [_ S2].
    pose proof (skew_chain W1 S0 S1 S2 Em0 Ee0 Ep0 Ee1 Ep1 Ee2 Ep2 Es H) as Sr.
    eapply spec_pt; [exact Sr|dim|dim| |].
    + intros rho i' j' Hi Hj. cbn [mf mr mc LeviExpr.rows LeviExpr.cols] in *.
      destruct j as [|[|[|j]]]; [| | |lia]; (destruct i' as [|[|[|i']]]; [| | |lia]); cbn; ring.
    + intros rho D. cbn in D. repeat split; auto.
  - step H cc Q1. rewrite rows_transp, cols_transp in *. destruct (IH _ Q1 W) as [_ S1]. pose proof (IH _ H (sp_wf S1)) as S. rc.
    eapply spec_pt; [exact S|dim|dim| |].
    + intros rho i' j' Hi Hj. cbn [LeviExpr.eval]. rc. at_ S1. reflexivity.
    + intros rho D1. apply (sp_dom S1); auto.
  - destruct W as [W1 W2]. destruct (IH _ H W1) as (_ & _ & S). eapply spec_pt; [exact S|dim|dim| |auto].
    intros rho i' j' Hi Hj. cbn in Hj |- *. reflexivity.
  - destruct W as (W1 & B1 & B2). step H r' Q1. destruct (IH _ Q1 W1) as [_ S1]. destruct (IH _ H (sp_wf S1)) as (_ & _ & S). rc.
    eapply spec_pt; [exact S|dim|dim| |].
    + intros rho i' j' Hi Hj. cbn [LeviExpr.rows LeviExpr.cols LeviExpr.eval] in Hi |- *. rc. at_ S1. reflexivity.
    + intros rho D1. apply (sp_dom S1); auto.
  - destruct W as (W0 & W1 & W2). apply all_map in W1. rewrite Forall_forall in W1, W2. pose proof (nth_error_In _ _ H) as I1.
    destruct (W2 _ I1) as [RR CC]. constructor; auto.
    + intros rho. unfold meq, LeviPost.tr; cbn [mr mc mf]. repeat split; auto. intros i' j' Hi Hj. cbn [LeviExpr.eval].
      rewrite (nth_error_map_d (fun a => eval rho a i' 0) l j H). replace j' with 0%nat by lia. reflexivity.
    + intros rho D. cbn in D. apply all_map in D. rewrite Forall_forall in D. auto.
  - destruct W as (W1 & W2 & C). cbn [LeviExpr.rows LeviExpr.cols LeviExpr.eval LeviPost.dom] in *. destruct (Nat.ltb_spec j (cols a1)).
    + destruct (IH _ H W1) as [_ S]. eapply spec_pt; [exact S|dim|dim| |tauto]. auto.
    + destruct (IH _ H W2) as [_ S]. eapply spec_pt; [exact S|dim|dim| |tauto]. auto.
  - step H r1 Q1. step H r2 Q2. apply guard_some in H. destruct H as [_ H]. inv H. destruct W as (W1 & W2 & R).
    destruct (IH _ Q1 W1) as [_ S1], (IH _ Q2 W2) as [_ S2]. rc. constructor.
    + cbn. split; [apply (sp_wf S1)|]. split; [apply (sp_wf S2)|]. congruence.
    + intros rho. unfold meq, LeviPost.tr; cbn [mr mc mf LeviExpr.rows LeviExpr.cols LeviExpr.eval]. split; [congruence|]. split; auto. intros i' j' Hi Hj. rewrite (spec_rows S1 rho0). cbn [mr]. destruct (Nat.ltb_spec i' (rows a1)).
      * at_ S1. reflexivity.
      * at_ S2. reflexivity.
    + intros rho [D1 D2]. split; [apply (sp_dom S1)|apply (sp_dom S2)]; auto.
  - step H sv Q1. destruct W as (Wd & Ws & Wb & Rb & Cb & Fd & Ls & Fs & V). pose proof (nth_error_In _ _ Q1) as I1.
    assert (Dim : rows sv = r /\ cols sv = length ds) by (rewrite Forall_forall in Fs; apply Fs; auto).
    assert (Wsv : wf sv) by (apply all_map in Ws; rewrite Forall_forall in Ws; apply Ws; auto).
    destruct (IH _ H Wsv Wb) as [_ S]. cbn [LeviExpr.rows LeviExpr.cols] in G, R1 |- *.
    assert (F : forall rho, mc (tr rho sv) = mr (tr rho a)) by (intros; cbn; rewrite Rb; tauto).
    eapply spec_pt; [exact S| | | |].
    + intros rho. cbv beta. rewrite mr_mat by apply F. cbn. tauto.
    + intros rho. cbv beta. rewrite mc_mat by apply F. cbn. auto.
    + intros rho i' j' Hi Hj. cbv beta. rewrite mtimes_at; [|apply F|cbn; lia|cbn; lia]. cbn [mf mc LeviPost.tr LeviExpr.eval].
      rewrite (proj2 Dim). apply sumn_ext. intros k K. replace j' with 0%nat by lia.
      rewrite <- (V rho i' j k) by auto. rewrite (nth_error_map_d (fun a => eval rho a i' k) svs j Q1). ring.
    + intros rho (D1 & D2 & D3). split; auto. apply all_map in D2. rewrite Forall_forall in D2. auto.
Qed.

Lemma sound_elem a i j e : call rec t (CElem a i j) = Some e -> post (CElem a i j) e.
Proof.
  change (call rec t (CElem a i j)) with (do_elem vdim urows ucols rec a i j). cbn [LeviPost.post]. unfold do_elem; cbv zeta. intros H W.
  apply guard_some in H. destruct H as [G H]. rewrite andb_true_iff, !Nat.ltb_lt in G. destruct G as [Gi Gj]. split; auto. split; auto.
  destruct (is_scalar a) eqn:SA.
  { inv H. apply scalar_true in SA. constructor; auto. intros rho. unfold meq; cbn. repeat split; try tauto. intros i' j' Hi Hj. replace j' with j by lia. replace i' with i by lia. reflexivity. }
  assert (Default : wf (EElem a i j) -> spec (EElem a i j) (fun rho => mkM 1 1 (fun _ _ => eval rho a i j)) (fun rho => dom rho a)).
  { intros W'. constructor; auto. intros. unfold meq; cbn. repeat split; auto. }
  assert (One : forall b (f : env -> R) (D : env -> Prop), (forall rho, f rho = sgn b) -> spec (one b) (fun rho => mkM 1 1 (fun _ _ => f rho)) D).
  { intros b f D E. destruct b; (constructor; [exact I| |intros; exact I]); intros rho; unfold meq; cbn; repeat split; auto; intros i' j' Hi Hj;
    replace i' with 0%nat by lia; replace j' with 0%nat by lia; rewrite E; reflexivity. }
  assert (Zero : forall (f : env -> R) (D : env -> Prop), (forall rho, f rho = 0) -> spec (ENull 1 1) (fun rho => mkM 1 1 (fun _ _ => f rho)) D).
  { intros f D E. constructor; [exact I| |intros; exact I]. intros; unfold meq; cbn; repeat split; auto. }
  destruct a; try (inv H; apply Default; cbn; auto; fail).
  - inv H. apply Zero. reflexivity.
  - inv H. cbn. destruct (i =? j)%nat; [apply (One false)|apply Zero]; auto.
  - inv H. cbn. destruct ((i =? i0) && (j =? j0))%nat; [apply One|apply Zero]; auto.
  - inv H. cbn. cbn [LeviPost.wf] in W.
    destruct ((i =? i1) && (j =? j1))%nat eqn:Q1.
    + apply One. intros _. rewrite andb_true_iff, !Nat.eqb_eq in Q1. destruct Q1; subst i1 j1.
      destruct ((i =? i2) && (j =? j2))%nat eqn:Q2; auto. rewrite andb_true_iff, !Nat.eqb_eq in Q2. destruct Q2; subst. congruence.
    + destruct ((i =? i2) && (j =? j2))%nat; [apply One|apply Zero]; auto.
  - step H r1 Q1. step H r2 Q2. destruct W as (W1 & W2 & R & C).
    destruct (IH _ Q1 W1) as (_ & _ & S1), (IH _ Q2 W2) as (_ & _ & S2). destruct (IH _ H (sp_wf S1) (sp_wf S2)) as (Rr & Cc & S). rc.
    eapply spec_pt; [exact S|dim|dim| |].
    + intros rho i' j' Hi Hj. cbn [LeviExpr.eval]. rc. at_ S1. at_ S2. reflexivity.
    + intros rho [D1 D2]. split; [apply (sp_dom S1)|apply (sp_dom S2)]; auto.
  - step H r1 Q1. step H r2 Q2. destruct W as (W1 & W2 & R & C).
    destruct (IH _ Q1 W1) as (_ & _ & S1), (IH _ Q2 W2) as (_ & _ & S2). destruct (IH _ H (sp_wf S1) (sp_wf S2)) as (Rr & Cc & S). rc.
    eapply spec_pt; [exact S|dim|dim| |].
    + intros rho i' j' Hi Hj. cbn [LeviExpr.eval]. rc. at_ S1. at_ S2. reflexivity.
    + intros rho [D1 D2]. split; [apply (sp_dom S1)|apply (sp_dom S2)]; auto.
  - step H r1 Q1. destruct (IH _ Q1 W) as (_ & _ & S1). pose proof (IH _ H (sp_wf S1)) as S. rc.
    eapply spec_pt; [exact S|dim|dim| |].
    + intros rho i' j' Hi Hj. cbn [LeviExpr.eval]. rc. at_ S1. reflexivity.
    + intros rho D1. apply (sp_dom S1); auto.
  - apply scalar_false in SA. destruct (prod_inv W) as (W1 & W2 & [(-> & Rx & Cx & RR & CC & SY)|(-> & -> & E & RR & CC)]); rewrite RR, CC in *.
    + destruct rs; [exfalso; apply SA; apply SY; auto|].
      step H r Q1. destruct (IH _ Q1 W2) as (_ & _ & S1). destruct (IH _ H W1 (sp_wf S1)) as [_ S].
      assert (SX : forall rho, sc (tr rho a1) = true) by (intros; apply scalar_true; auto). rc.
      eapply spec_pt; [exact S| | | |].
      * intros rho. cbv beta. rewrite mtimes_scal by auto. cbn. auto.
      * intros rho. cbv beta. rewrite mtimes_scal by auto. cbn. auto.
      * intros rho i' j' Hi Hj. cbv beta. rewrite mtimes_at_sl by auto. rc. at_ S1. reflexivity.
      * intros rho [D1 D2]. split; auto. apply (sp_dom S1); auto.
    + step H r Q1. step H cc Q2. destruct (IH _ Q1 W1) as [_ S1], (IH _ Q2 W2) as [_ S2]. destruct (IH _ H (sp_wf S1) (sp_wf S2)) as [_ S]. rc.
      assert (F : forall rho, mc (tr rho r) = mr (tr rho cc)) by (intros; cbn; congruence).
      eapply spec_pt; [exact S| | | |].
      * intros rho. cbv beta. rewrite mr_mat by apply F. cbn. auto.
      * intros rho. cbv beta. rewrite mc_mat by apply F. cbn. auto.
      * intros rho i' j' Hi Hj. cbv beta. rewrite mtimes_at; [|apply F|cbn; lia|cbn; lia]. rc. cbn [LeviExpr.eval].
        rewrite (spec_cols S1 rho0). cbn [mc]. apply sumn_ext. intros k K. at_ S1. at_ S2. reflexivity.
      * intros rho [D1 D2]. split; [apply (sp_dom S1)|apply (sp_dom S2)]; auto.
  - step H r Q1. apply guard_some in H. destruct H as [SY H]. inv H. destruct W as (W1 & W2 & C1 & R2 & C2).
    destruct (IH _ Q1 W1) as (_ & _ & S1). rc. constructor.
    + cbn. repeat (split; [try assumption; try apply (sp_wf S1); try congruence|]). congruence.
    + intros rho. unfold meq; cbn. repeat split; auto. intros i' j' Hi Hj. at_ S1. reflexivity.
    + intros rho (D1 & D2 & D3). cbn. split; [apply (sp_dom S1); auto|auto].
  - destruct W as (W1 & R & C). cbn [LeviExpr.rows LeviExpr.cols] in *.
    assert (WL : forall k, wf (levi_civita k)) by (intros [|[|k]]; cbn; congruence).
    assert (DL : forall rho k, dom rho (levi_civita k)) by (intros rho [|[|k]]; exact I).
    step H r0 Q0. step H m0 Em0. step H e0 Ee0. step H p0 Ep0. step H r1 Q1. step H e1 Ee1. step H p1 Ep1. step H r2 Q2. step H e2 Ee2. step H p2 Ep2. step H s Es.
    destruct (IH _ Q0 (WL _)) as (_ & _ & S0). destruct (IH _ Q1 (WL _)) as (_ & _ & S1). destruct (IH _ Q2 (WL _)) as (_ & _ & S2).
    pose proof (skew_chain W1 S0 S1 S2 Em0 Ee0 Ep0 Ee1 Ep1 Ee2 Ep2 Es H) as Sr.
    eapply spec_pt; [exact Sr|dim|dim| |].
    + intros rho i' j' Hi Hj. cbn [mf mr mc LeviExpr.rows LeviExpr.cols] in *.
      destruct j as [|[|[|j]]]; [| | |lia]; (destruct i as [|[|[|i]]]; [| | |lia]); cbn; ring.
    + intros rho D. cbn in D. repeat split; auto.
  - destruct W as (W1 & R & C). cbn [LeviExpr.rows LeviExpr.cols] in *. destruct i as [|[|i]]; destruct (IH _ H W1) as (_ & _ & S); (eapply spec_pt; [exact S|dim|dim| |auto]); auto.
  - rewrite rows_transp, cols_transp in *. destruct (IH _ H W) as (_ & _ & S). (eapply spec_pt; [exact S|dim|dim| |auto]); auto.
  - destruct (IH _ H (proj1 W)) as (_ & _ & S). (eapply spec_pt; [exact S|dim|dim| |auto]); auto.
  - destruct (IH _ H (proj1 W)) as (_ & _ & S). (eapply spec_pt; [exact S|dim|dim| |auto]); auto.
  - destruct (IH _ H (proj1 W)) as (_ & _ & S). (eapply spec_pt; [exact S|dim|dim| |auto]); auto.
  - step H x Q1. destruct W as (W0 & W1 & W2). apply all_map in W1. rewrite Forall_forall in W1, W2. pose proof (nth_error_In _ _ Q1) as I1.
    destruct (IH _ H (W1 _ I1)) as (_ & _ & S). eapply spec_pt; [exact S|dim|dim| |].
    + intros rho i' j' Hi Hj. cbn [LeviExpr.eval mf]. rewrite (nth_error_map_d (fun a => eval rho a 0 j) l i Q1). reflexivity.
    + intros rho D. cbn in D. apply all_map in D. rewrite Forall_forall in D. auto.
  - step H x Q1. destruct W as (W0 & W1 & W2). apply all_map in W1. rewrite Forall_forall in W1, W2. pose proof (nth_error_In _ _ Q1) as I1.
    destruct (IH _ H (W1 _ I1)) as (_ & _ & S). eapply spec_pt; [exact S|dim|dim| |].
    + intros rho i' j' Hi Hj. cbn [LeviExpr.eval mf]. rewrite (nth_error_map_d (fun a => eval rho a i 0) l j Q1). reflexivity.
    + intros rho D. cbn in D. apply all_map in D. rewrite Forall_forall in D. auto.
  - destruct W as (W1 & W2 & C). cbn [LeviExpr.rows LeviExpr.cols LeviExpr.eval LeviPost.dom] in *. destruct (Nat.ltb_spec j (cols a1)).
    + destruct (IH _ H W1) as (_ & _ & S). eapply spec_pt; [exact S|dim|dim| |tauto]. auto.
    + destruct (IH _ H W2) as (_ & _ & S). eapply spec_pt; [exact S|dim|dim| |tauto]. auto.
  - destruct W as (W1 & W2 & C). cbn [LeviExpr.rows LeviExpr.cols LeviExpr.eval LeviPost.dom] in *. destruct (Nat.ltb_spec i (rows a1)).
    + destruct (IH _ H W1) as (_ & _ & S). eapply spec_pt; [exact S|dim|dim| |tauto]. auto.
    + destruct (IH _ H W2) as (_ & _ & S). eapply spec_pt; [exact S|dim|dim| |tauto]. auto.
Qed.
End Step.
End Sound.
