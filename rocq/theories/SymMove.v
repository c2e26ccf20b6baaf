(** The derivatives of SymModel.v do not depend on the values of the kinematic expressions that do not occur: what is known
    of the adjoint transforms and of the relative Jacobians (SymKin.v) holds whatever the other expressions are. *)
From Coq Require Import Reals List Arith Lia Lra Bool FunctionalExtensionality.
From Coquelicot Require Import Coquelicot.
From Verif Require Import Spec PartialLib SpecRigid SpecDerivatives LeviBuildProofs KinModel KinLib SymModel SymProofs.
Import ListNotations.
Local Open Scope R_scope.

Section Values.
Variable vdim urows ucols : nat -> nat.
Variable P : nat -> bool.
Variable ue ue' : nat -> env -> mat.
Hypothesis same : forall n, P n = true -> forall rho i j, ue n rho i j = ue' n rho i j.
Lemma meaning_move f : users P f = true -> forall rho i j, meaning vdim urows ucols ue rho f i j = meaning vdim urows ucols ue' rho f i j.
Proof.
  induction f using formula_ind'; cbn [users]; intros U rho i0 j0; try (apply andb_prop in U; destruct U as [U1 U2]);
    cbn [meaning]; rewrite ?IHf by auto; rewrite ?IHf1, ?IHf2 by auto; try reflexivity.
  - apply same. exact U.
  - destruct (_ && _)%bool; [reflexivity|]. destruct (_ && _)%bool; [reflexivity|]. apply sumn_ext. intros k Hk. rewrite IHf1, IHf2 by auto. reflexivity.
  - f_equal. apply map_ext_in. intros f I. rewrite Forall_forall in H. rewrite forallb_forall in U. apply H; auto.
  - f_equal. apply map_ext_in. intros f I. rewrite Forall_forall in H. rewrite forallb_forall in U. apply H; auto.
  - apply Derive_ext. intros t. apply IHf; auto.
Qed.
Lemma wf_move f : users P f = true -> well_formed vdim urows ucols ue f -> well_formed vdim urows ucols ue' f.
Proof.
  induction f using formula_ind'; cbn [users]; intros U; try (apply andb_prop in U; destruct U as [U1 U2]);
    cbn [well_formed]; try tauto.
  - intros (W & C & R0 & D & I). repeat (split; [auto|]). intros rho x i Hi. rewrite <- !(meaning_move f U). apply I; auto.
  - intros (N & W & F). split; [exact N|]. split; [|exact F]. clear N F. induction l as [|f l IH]; [exact Logic.I|]. cbn [map all_of fold_right forallb] in *.
    apply andb_prop in U. destruct U. inversion H; subst. destruct W. split; [auto|apply IH; auto].
  - intros (N & W & F). split; [exact N|]. split; [|exact F]. clear N F. induction l as [|f l IH]; [exact Logic.I|]. cbn [map all_of fold_right forallb] in *.
    apply andb_prop in U. destruct U. inversion H; subst. destruct W. split; [auto|apply IH; auto].
Qed.
End Values.

Section Move.
Variable dofs : nat.
Variable P : nat -> bool.
Variable du du' : kin -> nat -> nat -> option formula.
Variable ue ue' : nat -> env -> mat.
Hypothesis same : forall n, P n = true -> forall rho i j, ue n rho i j = ue' n rho i j.
Hypothesis closed : forall n c v X, P n = true -> du (decode n) c v = Some X -> users P X = true.
Hypothesis agree : forall n c v, P n = true -> du (decode n) c v = du' (decode n) c v.
Notation VD := (vdim dofs).
Notation FC := (fcols VD urows (ucols dofs)).

Lemma dcol_users F : forall c v X, users P F = true -> dcol dofs du F c v = Some X -> users P X = true.
Proof.
  induction F; intros cc vv X U E;
    (match goal with _ : context [dcol _ _ ?G] |- _ => destruct (users (fun _ => false) G) eqn:NU end;
     [cbn [dcol] in E; rewrite NU in E; injection E as <-; exact U|]);
    cbn [dcol] in E; rewrite NU in E; try discriminate E; cbn [users] in U; try (apply andb_prop in U as UU; destruct UU as [U1 U2]).
  - apply (closed _ _ _ _ U E).
  - destruct (dcol dofs du F1 cc vv) eqn:E1, (dcol dofs du F2 cc vv) eqn:E2; cbn [both] in E; try discriminate E. injection E as <-. cbn [users]. rewrite (IHF1 _ _ _ U1 E1), (IHF2 _ _ _ U2 E2). reflexivity.
  - destruct (dcol dofs du F1 cc vv) eqn:E1, (dcol dofs du F2 cc vv) eqn:E2; cbn [both] in E; try discriminate E. injection E as <-. cbn [users]. rewrite (IHF1 _ _ _ U1 E1), (IHF2 _ _ _ U2 E2). reflexivity.
  - destruct (dcol dofs du F cc vv) eqn:E1; cbn [option_map] in E; try discriminate E. injection E as <-. cbn [users]. eauto.
  - destruct (scalar_size dofs F1); [|destruct (scalar_size dofs F2)].
    + destruct (dcol dofs du F2 cc vv) eqn:E1, (dcol dofs du F1 0 vv) eqn:E2; cbn [both option_map] in E; try discriminate E. injection E as <-. cbn [users]. rewrite (IHF2 _ _ _ U2 E1), (IHF1 _ _ _ U1 E2), U1, U2. reflexivity.
    + destruct (dcol dofs du F1 cc vv) eqn:E1, (dcol dofs du F2 0 vv) eqn:E2; cbn [both option_map] in E; try discriminate E. injection E as <-. cbn [users]. rewrite (IHF2 _ _ _ U2 E2), (IHF1 _ _ _ U1 E1), U1, U2. reflexivity.
    + assert (H0 : forall S, option_map (FMul F1) (dcol dofs du F2 cc vv) = Some S -> users P S = true).
      { intros S ES. destruct (dcol dofs du F2 cc vv) eqn:E2; cbn in ES; [|discriminate]. injection ES as <-. cbn [users]. rewrite U1, (IHF2 _ _ _ U2 E2). reflexivity. }
      revert E H0. generalize (option_map (FMul F1) (dcol dofs du F2 cc vv)). induction (seq 0 (FC F1)) as [|l ls IH]; intros a E H0; [cbn in E; auto|]. cbn [fold_left] in E.
      apply (IH _ E). intros S ES. destruct a as [a|]; [|discriminate ES]. destruct (dcol dofs du F1 l vv) eqn:E1; cbn [both option_map] in ES; [|discriminate]. injection ES as <-. cbn [users]. rewrite (H0 a eq_refl), U2, (IHF1 _ _ _ U1 E1). reflexivity.
  - destruct (dcol dofs du F 0 vv) eqn:E1; cbn [option_map] in E; try discriminate E. injection E as <-. cbn [users]. rewrite (IHF _ _ _ U E1). reflexivity.
  - cbn [map all_some fst snd] in E. destruct (dcol dofs du F 1 vv) eqn:E1; cbn [option_map] in E; [|discriminate E]. destruct (dcol dofs du F 2 vv) eqn:E2; cbn [option_map] in E; [|discriminate E].
    destruct (dcol dofs du F 0 vv) eqn:E0; cbn [option_map] in E; [|discriminate E]. injection E as <-. cbn [users forallb]. rewrite (IHF _ _ _ U E0), (IHF _ _ _ U E1), (IHF _ _ _ U E2). reflexivity.
  - destruct (all_some _) as [Y|] eqn:EY; cbn [option_map] in E; [|discriminate]. injection E as <-. cbn [users]. revert Y EY. induction (seq 0 (FC F)) as [|l ls IH]; intros Y EY; cbn [map all_some] in EY; [injection EY as <-; reflexivity|].
    destruct (dcol dofs du F l vv) eqn:E1; cbn [option_map] in EY; [|discriminate]. destruct (all_some _) as [Z|] eqn:EZ; [|discriminate]. injection EY as <-. cbn [forallb users]. rewrite (IHF _ _ _ U E1), (IH Z eq_refl). reflexivity.
  - destruct (dcol dofs du F cc vv) eqn:E1; cbn [option_map] in E; try discriminate E. injection E as <-. cbn [users]. eauto.
  - eauto.
  - destruct (dcol dofs du F j vv) eqn:E1; cbn [option_map] in E; try discriminate E. injection E as <-. cbn [users]. eauto.
  - destruct (dcol dofs du F (j + cc) vv) eqn:E1; cbn [option_map] in E; try discriminate E. injection E as <-. cbn [users]. eauto.
  - destruct (cc <? FC F1)%nat; eauto.
Qed.
Lemma dcol_same F : forall c v, users P F = true -> dcol dofs du F c v = dcol dofs du' F c v.
Proof.
  induction F; intros cc vv U;
    (match goal with |- context [dcol _ _ ?G] => destruct (users (fun _ => false) G) eqn:NU end; [cbn [dcol]; rewrite NU; reflexivity|]);
    cbn [dcol]; rewrite NU; try reflexivity; cbn [users] in U; try (apply andb_prop in U as UU; destruct UU as [U1 U2]).
  - apply agree. exact U.
  - rewrite IHF1, IHF2 by auto. reflexivity.
  - rewrite IHF1, IHF2 by auto. reflexivity.
  - rewrite IHF by auto. reflexivity.
  - rewrite (IHF1 0%nat), (IHF1 cc), (IHF2 cc), (IHF2 0%nat) by auto. destruct (scalar_size dofs F1); [reflexivity|]. destruct (scalar_size dofs F2); [reflexivity|].
    generalize (option_map (FMul F1) (dcol dofs du' F2 cc vv)). induction (seq 0 (FC F1)) as [|l ls IH]; intros a; [reflexivity|]. cbn [fold_left]. rewrite IHF1 by auto. apply IH.
  - rewrite IHF by auto. reflexivity.
  - do 2 f_equal. apply map_ext. intros l. rewrite IHF by auto. reflexivity.
  - do 2 f_equal. apply map_ext. intros l. rewrite IHF by auto. reflexivity.
  - rewrite IHF by auto. reflexivity.
  - apply IHF; auto.
  - rewrite IHF by auto. reflexivity.
  - rewrite IHF by auto. reflexivity.
  - destruct (cc <? FC F1)%nat; auto.
Qed.
Lemma smooth_move rho v F c : users P F = true -> smooth dofs ue rho v F c -> smooth dofs ue' rho v F c.
Proof.
  intros U S i j Hi Hj. eapply ex_derive_ext; [intros t; apply (meaning_move VD urows (ucols dofs) P ue ue' same F U)|]. apply S; auto.
Qed.
Lemma ready_move rho v F : forall c, users P F = true -> ready dofs du ue rho v F c -> ready dofs du' ue' rho v F c.
Proof.
  induction F; intros cc U RD;
    (match goal with |- ready _ _ _ _ _ ?G _ => destruct (users (fun _ => false) G) eqn:NU end;
     [cbn [ready] in *; rewrite NU in *; apply smooth_move; [exact U|exact RD]|]);
    cbn [ready] in *; rewrite NU in *; try contradiction; cbn [users] in U; try (apply andb_prop in U as UU; destruct UU as [U1 U2]).
  - destruct RD as (X & E & RX & CX & WX & DX). exists X. rewrite <- agree by exact U. split; [exact E|]. pose proof (closed _ _ _ _ U E) as UX.
    split; [exact RX|]. split; [exact CX|]. split; [apply (wf_move VD urows (ucols dofs) P ue ue' same X UX WX)|].
    intros i j Hi Hj. rewrite <- (meaning_move VD urows (ucols dofs) P ue ue' same X UX).
    eapply is_derive_ext; [intros t; apply (meaning_move VD urows (ucols dofs) P ue ue' same (FUser k)); exact U|]. apply DX; auto.
  - destruct RD. split; auto.
  - destruct RD. split; auto.
  - auto.
  - destruct (scalar_size dofs F1); [|destruct (scalar_size dofs F2)]; [destruct RD; split; auto|destruct RD; split; auto|]. destruct RD as [RB RA]. split; [auto|].
    intros l Hl. destruct (RA l Hl) as [R1|(Z & D & ED & RD & CD & WD)]; [left; auto|right]. split.
    + intros j x. rewrite <- (meaning_move VD urows (ucols dofs) P ue ue' same F2 U2). apply Z.
    + exists D. rewrite <- dcol_same by auto. split; [exact ED|]. split; [exact RD|]. split; [exact CD|]. apply (wf_move VD urows (ucols dofs) P ue ue' same); [|exact WD]. apply (dcol_users F1 l v); auto.
  - auto.
  - destruct RD as (Q0 & Q1 & Q2). auto.
  - destruct RD as [Q RA]. split; auto.
  - auto.
  - auto.
  - auto.
  - auto.
  - destruct (cc <? FC F1)%nat; auto.
Qed.
End Move.

(** ** The adjoint transforms, their derivatives and the relative Jacobians refer to nothing else. *)
Definition rigid_leaf (n : nat) : bool := match decode n with KAdj _ _ _ | KAdjD _ _ _ _ | KJac _ _ => true | _ => false end.
Notation rigid := (users rigid_leaf).
Lemma walk_inv {A} (I : A -> Prop) up b step : (forall v p j a a', step v p j a = Some a' -> I a -> I a') ->
  forall fuel v a a', walk up b step fuel v a = Some a' -> I a -> I a'.
Proof.
  intros H. induction fuel as [|n IH]; intros v a a' E Ia; [discriminate|]. cbn [walk] in E. destruct (v =? b)%nat; [injection E as <-; exact Ia|].
  destruct (up v) as [[p j]|]; [|discriminate]. destruct (step v p j a) as [a1|] eqn:E1; [|discriminate]. apply (IH _ _ _ E). apply (H _ _ _ _ _ E1 Ia).
Qed.
Lemma put_inv {A} (Q : A -> Prop) (x : A) : Q x -> forall l i l', put l i x = Some l' -> List.Forall Q l -> List.Forall Q l'.
Proof.
  intros Hx. induction l as [|y l IH]; intros i l' E F; [destruct i; discriminate|]. inversion F; subst. destruct i as [|i]; cbn [put] in E.
  - injection E as <-. constructor; auto.
  - destruct (put l i x) as [l1|] eqn:E1; [|discriminate]. injection E as <-. constructor; [auto|]. apply (IH _ _ E1). auto.
Qed.
Lemma forall_repeat {A} (Q : A -> Prop) (x : A) n : Q x -> List.Forall Q (repeat x n).
Proof. intros H. induction n; cbn [repeat]; constructor; auto. Qed.
Lemma leaf_rigid k : rigid_leaf (code k) = match k with KAdj _ _ _ | KAdjD _ _ _ _ | KJac _ _ => true | _ => false end.
Proof. unfold rigid_leaf. rewrite decode_code. reflexivity. Qed.
Lemma adj_rigid w f g : rigid (adj w f g) = true.
Proof. unfold adj. destruct (f =? g)%nat; [reflexivity|]. apply leaf_rigid. Qed.
Lemma relrot_rigid f g : rigid (relrot f g) = true.
Proof. unfold relrot. destruct (f =? g)%nat; [reflexivity|]. apply adj_rigid. Qed.
Lemma reljac_rigid dofs f g : rigid (reljac dofs f g) = true.
Proof. unfold reljac. destruct (f =? g)%nat; [reflexivity|]. apply leaf_rigid. Qed.
Section Closed.
Variable r : robot.
Variable dofs : nat.
Variable up : nat -> nat -> option (nat * nat).
Variable base : nat.
Variable bt : formula.
Variable bt_dep : nat -> bool.
Lemma hand_closed n c v X : rigid_leaf n = true -> hand r dofs up base bt bt_dep (decode n) c v = Some X -> rigid X = true.
Proof.
  unfold rigid_leaf. destruct (decode n); try discriminate; intros _ E; try discriminate E. cbn [hand derivative] in E. injection E as <-.
  destruct (_ && _)%bool; [|reflexivity]. unfold adjD. destruct (_ =? _)%nat; [reflexivity|]. apply leaf_rigid.
Qed.
Lemma adjD_cols_rigid w f g c A nz : adjD_cols r dofs up w f g c = Some (A, nz) -> List.Forall (fun X => rigid X = true) A.
Proof.
  unfold adjD_cols. destruct (_ =? _)%nat; [intros E; injection E as <- _; apply forall_repeat; reflexivity|].
  destruct (adjD_blocks _ _ _ _ _ _) as [[B nb]|] eqn:EB; [|discriminate]. intros E. injection E as <- _.
  assert (H : List.Forall (fun X => rigid X = true) B).
  { revert EB. unfold adjD_blocks. destruct (up _ _) as [[p j]|]; [|discriminate]. destruct (put _ _ _) as [A0|] eqn:E0; [|discriminate]. intros EB.
    pose proof (walk_inv (fun a : list formula * list nat => List.Forall (fun X => rigid X = true) (fst a))) as WI.
    eapply WI in EB; [exact EB| |].
    - intros v q k a a' Es Ia. cbv beta in Es. destruct (put (fst a) k _) as [A'|] eqn:EP; [|discriminate]. injection Es as <-. cbn [fst].
      eapply (put_inv (fun X => rigid X = true)); [|exact EP|exact Ia]. cbn [users]. rewrite !adj_rigid. reflexivity.
    - cbn [fst]. eapply (put_inv (fun X => rigid X = true)); [|exact E0|apply forall_repeat; reflexivity]. cbn [users]. rewrite !adj_rigid. reflexivity. }
  apply List.Forall_forall. intros X I. apply in_map_iff in I. destruct I as (Y & <- & I). cbn [users]. rewrite List.Forall_forall in H. apply H. exact I.
Qed.
Lemma jac_cols_rigid f g A : jac_cols r dofs up f g = Some A -> List.Forall (fun X => rigid X = true) A.
Proof.
  unfold jac_cols. intros E. pose proof (walk_inv (fun a : list formula => List.Forall (fun X => rigid X = true) a)) as WI. eapply WI in E; [exact E| |apply forall_repeat; reflexivity].
  intros v q k a a' Es Ia. cbv beta in Es. eapply (put_inv (fun X => rigid X = true)); [|exact Es|exact Ia]. cbn [users]. rewrite !adj_rigid. reflexivity.
Qed.
Lemma deep_closed n c v X : rigid_leaf n = true -> deep r dofs up base bt bt_dep (decode n) c v = Some X -> rigid X = true.
Proof.
  intros R0. pose proof (hand_closed n c v X R0) as HH. unfold rigid_leaf in R0. destruct (decode n) eqn:DN; try discriminate R0; intros E.
  - apply HH. exact E.
  - cbn [deep] in E. destruct (adjD_cols _ _ _ _ _ _ _) as [[A nz]|] eqn:EA; [|discriminate]. destruct (_ && _)%bool; [|injection E as <-; reflexivity].
    destruct (nth_error A c) as [Y|] eqn:EN; [|discriminate]. eapply dcol_users; [apply hand_closed| |exact E].
    pose proof (adjD_cols_rigid _ _ _ _ _ _ EA) as H. rewrite List.Forall_forall in H. apply H. eapply nth_error_In, EN.
  - cbn [deep] in E. destruct (_ =? _)%nat; [|injection E as <-; reflexivity]. destruct (nth_col _ c) as [Y|] eqn:EN; [|discriminate].
    eapply dcol_users; [apply hand_closed| |exact E]. unfold nth_col in EN. destruct (jac_cols _ _ _ _ _) as [A|] eqn:EA; [|discriminate].
    pose proof (jac_cols_rigid _ _ _ EA) as H. rewrite List.Forall_forall in H. apply H. eapply nth_error_In, EN.
Qed.
End Closed.
