(** The kinematic expressions as parts of larger expressions: which columns of their derivatives are right (SymProofs.v). *)
From Coq Require Import Reals List Arith Lia Lra Bool FunctionalExtensionality.
From Coquelicot Require Import Coquelicot.
From Verif Require Import Spec PartialLib SpecRigid SpecDerivatives Rigid RigidCalc KinTree KinModel KinLib KinMotion KinProofs PropKin SymModel SymProofs.
Import ListNotations.
Local Open Scope R_scope.

Section SymKin.
Variable r : robot.
Variable place : vec -> nat -> pose.
Variable dofs : nat.
Variable up : nat -> nat -> option (nat * nat).
Variable depth : nat -> nat -> nat.
Variable base : nat.
Variable bt : formula.
Variable bt_dep : nat -> bool.
Variable jac : vec -> nat -> nat -> nat -> v6.
Variable fvel : env -> nat -> v6.
Variable btw : env -> v6.
Variable quat : m3 -> vec.
Notation rel := (relative r place).
Notation fl := (frame_link r).
Notation links := (r_links r).
Notation VD := (vdim dofs).
Notation UE := (ueval r dofs up base bt rel jac fvel quat).
Notation FR := (frows VD urows (ucols dofs)).
Notation FC := (fcols VD urows (ucols dofs)).
Notation M := (meaning VD urows (ucols dofs) UE).
Notation WF := (well_formed VD urows (ucols dofs) UE).
Notation V := (val r dofs up base bt rel jac fvel quat).
Notation HAND := (hand r dofs up base bt bt_dep).
Notation DEEP := (deep r dofs up base bt bt_dep).
Notation DEN := (den VD urows (ucols dofs) UE).
Hypothesis K : kinematics r place dofs up depth base jac fvel btw quat.
Let rok : robot_ok r := k_robot _ _ _ _ _ _ _ _ _ _ K.
Let plc : placement r place := k_place _ _ _ _ _ _ _ _ _ _ K.
Let trav : forall b, (b < links)%nat -> traversal r b (up b) (depth b) := k_trav _ _ _ _ _ _ _ _ _ _ K.
Let hd : (length (r_joints r) <= dofs)%nat := k_dofs _ _ _ _ _ _ _ _ _ _ K.

(** The offset of frame g does not turn the axis of the joint next to its link on the way to f. *)
Definition unturned (f g : nat) : Prop :=
  forall p j, fl f <> fl g -> up (fl f) (fl g) = Some (p, j) ->
    mv (rot (frame_offset r g)) (ang (motion_axis r j (fl g))) = ang (motion_axis r j (fl g)).
Lemma unturned_link f g : (g < links)%nat -> unturned f g.
Proof. intros H p j _ _. rewrite (fo_link r) by auto. apply mv_I. Qed.

Lemma users_leaf k : users (fun _ => false) (leaf k) = false. Proof. reflexivity. Qed.
Lemma leaf_rows k : FR (leaf k) = krows k.
Proof. unfold leaf. cbn [frows]. unfold urows. rewrite decode_code. reflexivity. Qed.
Lemma leaf_cols k : FC (leaf k) = kcols dofs k.
Proof. unfold leaf. cbn [fcols]. unfold ucols. rewrite decode_code. reflexivity. Qed.
Lemma leaf_value rho k i j : M rho (leaf k) i j = V k rho i j.
Proof. apply M_leaf. Qed.
(** A derivative that is right makes the leaf ready. *)
Lemma leaf_ready du rho v k c X : du k c v = Some X -> FR X = krows k -> FC X = VD v -> WF X ->
  (forall i j, (i < krows k)%nat -> (j < VD v)%nat -> is_derive (fun x => V k (at_entry rho v j x) i c) (rho v j) (M rho X i j)) ->
  ready dofs du UE rho v (leaf k) c.
Proof.
  intros E R0 C0 W D. unfold leaf. cbn [ready users]. exists X. rewrite decode_code. split; [exact E|].
  split; [change (FR X = FR (leaf k)); rewrite leaf_rows; exact R0|]. split; [exact C0|]. split; [exact W|].
  intros i j Hi Hj. change (FR (FUser (code k))) with (FR (leaf k)) in Hi. rewrite leaf_rows in Hi.
  eapply is_derive_ext; [intros t; symmetry; apply (leaf_value _ k)|]. apply D; auto.
Qed.

(** ** Adjoint transforms *)
Lemma off_turn R w : rotation R -> mv R w = w -> mm R (skew w) = mm (skew w) R.
Proof. intros RR H. rewrite skew_rot by exact RR. rewrite H. reflexivity. Qed.
Lemma unturned_code s f g p j i c : is_frame r f -> is_frame r g -> fl f <> fl g -> up (fl f) (fl g) = Some (p, j) -> unturned f g -> (c < 3)%nat ->
  m6ent (adjD_code r place false s f g (fl g) j) i c = m6ent (adjD_true r place false s f g (fl g) j) i c.
Proof.
  intros F G N U H Hc. specialize (H p j N U). unfold adjD_code, adjD_true. rewrite Nat.eqb_refl.
  assert (T : is_frame r (fl g)) by (apply link_ok, (fl_lt r rok); auto).
  rewrite <- (AdjOf_rel r place rok plc false s f (fl g) g) by auto. rewrite !m6mul_assoc, (rel_own r place rok plc) by auto.
  pose proof (fo_rigid r rok g G) as RO. pose proof (off_turn _ _ RO H) as E.
  assert (Q : forall H, bll (m6mul (Adj (frame_offset r g)) (adx (motion_axis r j (fl g)))) = H -> bll (m6mul (adx (motion_axis r j (fl g))) (Adj (frame_offset r g))) = H).
  { intros X <-. unfold m6mul, Adj, adx. cbn [bll bla bal baa]. rewrite E, !mm_0_r. reflexivity. }
  specialize (Q _ eq_refl). unfold AdjOf, adOf.
  assert (Q2 : bal (m6mul (Adj (frame_offset r g)) (adx (motion_axis r j (fl g)))) = m30 /\ bal (m6mul (adx (motion_axis r j (fl g))) (Adj (frame_offset r g))) = m30).
  { unfold m6mul, Adj, adx. cbn [bll bla bal baa]. rewrite !mm_0_r, !mm_0_l. split; unfold madd, m30; cbn; f_equal; ring. }
  destruct Q2 as [Z1 Z2]. set (A := Adj (rel s f (fl g))) in *.
  set (B := m6mul (Adj (frame_offset r g)) (adx (motion_axis r j (fl g)))) in *. set (C := m6mul (adx (motion_axis r j (fl g))) (Adj (frame_offset r g))) in *.
  unfold m6ent. apply Nat.ltb_lt in Hc. rewrite Hc. unfold m6mul. cbn [bll bal]. rewrite Q, Z1, Z2. reflexivity.
Qed.
Definition right_col (w : bool) (f g c : nat) : Prop := neutral r up f g \/ (w = false /\ (c < 3)%nat /\ unturned f g).
Lemma hand_adj w f g c rho v : is_frame r f -> is_frame r g -> (c < 6)%nat -> right_col w f g c ->
  exists X, HAND (KAdj w f g) c v = Some X /\ FR X = 6%nat /\ FC X = VD v /\ WF X /\
    forall i j, (i < 6)%nat -> (j < VD v)%nat -> is_derive (fun x => V (KAdj w f g) (at_entry rho v j x) i c) (rho v j) (M rho X i j).
Proof.
  intros F G Hc H. destruct (Nat.eq_dec v v_s) as [->|N].
  - destruct H as [H|(-> & H3 & H)].
    + destruct (adj_derivative r place dofs up depth base bt bt_dep jac fvel quat rok plc trav hd w f g c F G Hc H) as (X & E & R0 & C0 & Wf & D).
      exists X. split; [exact E|]. split; [exact R0|]. split; [exact C0|]. split; [exact Wf|]. intros. apply D; auto.
    + cbn [hand derivative]. rewrite Nat.eqb_refl, andb_true_r.
      assert (Q : forall j x i, V (KAdj false f g) (at_entry rho v_s j x) i c = m6ent (AdjOf false (rel (vset (rho v_s) j x) f g)) i c).
      { intros j x i. cbn [val val1]. rewrite (adj_value r place jac fvel quat rok plc) by auto. rewrite at_same. reflexivity. }
      destruct (Nat.eqb_spec (fl f) (fl g)) as [E|NE]; cbn [negb].
      * exists (FNull 6 (VD v_s)). split; [reflexivity|]. split; [reflexivity|]. split; [reflexivity|]. split; [exact Logic.I|]. intros i j Hi Hj. cbn [meaning].
        apply is_derive_ext with (f := fun _ : R => m6ent (AdjOf false (pmul (pinv (frame_offset r f)) (frame_offset r g))) i c); [|apply D_const].
        intros x. cbn [val val1 val0]. rewrite E, Nat.eqb_refl. reflexivity.
      * assert (NFG : f <> g) by congruence. unfold adjD. destruct (Nat.eqb_spec f g) as [|_]; [congruence|].
        exists (leaf (KAdjD false f g c)). split; [reflexivity|]. split; [apply leaf_rows|]. split; [apply leaf_cols|]. split; [exact Logic.I|].
        intros i j Hi Hj. rewrite leaf_value. apply is_derive_ext with (f := fun x => m6ent (AdjOf false (rel (vset (rho v_s) j x) f g)) i c); [intros t; symmetry; apply Q|].
        destruct (adjD_value r place dofs up depth base bt jac fvel quat rok plc trav hd false f g c F G Hc) as (l & P & VAL).
        destruct (VAL rho i j Hi Hj) as [VI VO]. destruct (AdjOf_moves r place dofs up depth rok plc trav hd false (rho v_s) f g l j F G P) as [DI DO].
        pose proof (fl_lt r rok f F) as Hf. pose proof (fl_lt r rok g G) as Hg.
        destruct (path_in_dec l j) as [(u & p & I)|NI].
        -- rewrite (VI u p I). specialize (DI u p I). apply (m6ent_D _ _ _) with (i := i) (j := c) in DI.
           eapply D_eq; [exact DI|]. destruct (Nat.eq_dec u (fl g)) as [->|Nu].
           ++ destruct (up_step r dofs up depth trav hd _ _ _ _ _ _ Hf Hg P I) as (_ & _ & _ & _ & _ & _ & U). symmetry. apply (unturned_code _ f g p); auto.
           ++ unfold adjD_code. apply Nat.eqb_neq in Nu. rewrite Nu. reflexivity.
        -- rewrite (VO NI). specialize (DO NI). apply (m6ent_D _ _ _) with (i := i) (j := c) in DO. rewrite m6ent_0 in DO. exact DO.
  - exists (FNull 6 (VD v)). split; [cbn [hand derivative]; apply Nat.eqb_neq in N; rewrite N, andb_false_r; reflexivity|].
    split; [reflexivity|]. split; [reflexivity|]. split; [exact Logic.I|]. intros i j Hi Hj. cbn [meaning].
    apply is_derive_ext with (f := fun _ : R => V (KAdj w f g) rho i c); [|apply D_const].
    intros x. cbn [val val1 val0]. rewrite at_other by auto. reflexivity.
Qed.
(** [du] treats the adjoint transforms by hand. *)
Definition uses_hand (du : kin -> nat -> nat -> option formula) : Prop := forall k c v, match k with KAdj _ _ _ | KPos _ _ => du k c v = HAND k c v | _ => True end.
Lemma hand_hand : uses_hand HAND. Proof. intros k c v. destruct k; auto. Qed.
Lemma deep_hand : uses_hand DEEP. Proof. intros k c v. destruct k; auto. Qed.
Lemma smooth_ident du rho v n c : ready dofs du UE rho v (FIdent n) c.
Proof. apply ready_const; [reflexivity|]. reflexivity. Qed.
Lemma smooth_null du rho v n m c : ready dofs du UE rho v (FNull n m) c.
Proof. apply ready_const; [reflexivity|]. reflexivity. Qed.
Lemma smooth_constant du rho v n m A c : ready dofs du UE rho v (FConst n m A) c.
Proof. apply ready_const; [reflexivity|]. reflexivity. Qed.
Lemma adj_ready du w f g c rho v : uses_hand du -> is_frame r f -> is_frame r g -> (c < 6)%nat -> right_col w f g c -> ready dofs du UE rho v (adj w f g) c.
Proof.
  intros HU F G Hc H. unfold adj. destruct (f =? g)%nat; [apply smooth_ident|].
  destruct (hand_adj w f g c rho v F G Hc H) as (X & E & R0 & C0 & W & D). apply (leaf_ready du rho v (KAdj w f g) c X); auto. rewrite (HU (KAdj w f g)). exact E.
Qed.
Lemma adj_shape w f g : FR (adj w f g) = 6%nat /\ FC (adj w f g) = 6%nat /\ WF (adj w f g).
Proof. unfold adj. destruct (f =? g)%nat; [cbn; auto|]. split; [apply leaf_rows|]. split; [apply leaf_cols|exact Logic.I]. Qed.
Lemma relrot_shape f g : FR (relrot f g) = 3%nat /\ FC (relrot f g) = 3%nat /\ WF (relrot f g).
Proof.
  unfold relrot. destruct (f =? g)%nat; [cbn; auto|]. split; [reflexivity|]. split; [reflexivity|]. destruct (adj_shape false f g) as (A & B & C).
  split; [exact C|]. rewrite A, B. lia.
Qed.
Lemma relrot_ready du f g c rho v : uses_hand du -> is_frame r f -> is_frame r g -> (c < 3)%nat -> unturned f g -> ready dofs du UE rho v (relrot f g) c.
Proof.
  intros HU F G Hc H. unfold relrot. destruct (f =? g)%nat eqn:E; [apply smooth_ident|]. destruct (adj_shape false f g) as (R0 & C0 & W0).
  apply ready_block; [split; [exact W0|]; rewrite R0, C0; lia|exact Hc|]. apply adj_ready; [exact HU|exact F|exact G|cbn; lia|]. right. cbn. auto.
Qed.

Lemma none_ready2 du rho v1 v2 F c : users (fun _ => false) F = true -> (forall k, (k < VD v1)%nat -> smooth dofs UE rho v2 (FDeriv F c v1) k) -> ready2 dofs du UE rho v1 v2 F c.
Proof. intros N S. destruct F; cbn [ready2]; rewrite N; exact S. Qed.
(** The derivative of a constant. *)
Lemma const_ready2 du rho v1 v2 F c : users (fun _ => false) F = true -> (forall rho' i, (i < FR F)%nat -> M rho' F i c = M rho F i c) -> ready2 dofs du UE rho v1 v2 F c.
Proof.
  intros N H. apply none_ready2; [exact N|]. intros k Hk i j Hi Hj. exists 0. apply is_derive_ext with (f := fun _ : R => 0); [|apply D_const].
  intros t. cbn [meaning]. symmetry. transitivity (Derive (fun _ : R => M rho F i c) (at_entry rho v2 j t v1 k)); [|apply Derive_const].
  apply Derive_ext. intros x. apply H. exact Hi.
Qed.
(** ** Derivatives of the adjoint transforms *)
Lemma adjD_cols_form w f g c : is_frame r f -> is_frame r g -> (c < 6)%nat -> exists A l,
  path (up (fl f)) (fl f) (fl g) l /\ adjD_cols r dofs up w f g c = Some (A, map snd l) /\ length A = dofs /\
  (forall v p j, In (v, p, j) l -> nth_error A j = Some (FCol (if (v =? fl g)%nat then FMul (adj w f g) (cross r w j (fl g)) else FMul (FMul (adj w f v) (cross r w j v)) (adj w v g)) c)) /\
  (forall j, (j < dofs)%nat -> (forall v p, ~ In (v, p, j) l) -> exists X, nth_error A j = Some X /\ (X = FNull 6 1 \/ X = FCol (FNull 6 6) c)).
Proof.
  intros F G Hc. pose proof (fl_lt r rok f F) as Hf. pose proof (fl_lt r rok g G) as Hg.
  destruct (up_path r up depth trav (fl f) (fl g) Hf Hg) as (l & P). unfold adjD_cols.
  destruct (Nat.eqb_spec (fl f) (fl g)) as [E|N].
  { exists (repeat (FNull 6 1) dofs), []. rewrite <- E. split; [constructor|]. split; [reflexivity|]. split; [apply repeat_length|].
    split; [intros; contradiction|]. intros j Hj _. exists (FNull 6 1). split; [|auto].
    rewrite (nth_error_nth' _ (FNull 6 1)) by (rewrite repeat_length; auto). rewrite nth_repeat. reflexivity. }
  pose proof (up_short r up depth trav _ _ _ Hf Hg P) as SH. pose proof (up_nodup r up depth trav _ _ _ Hf Hg P) as ND.
  assert (ST : forall v p j, In (v, p, j) l -> (v < links)%nat /\ (j < dofs)%nat).
  { intros v p j I. destruct (up_step r dofs up depth trav hd _ _ _ _ _ _ Hf Hg P I) as (_ & _ & A1 & A2 & _). auto. }
  inversion P as [|t p j l' N' U P' E1]; subst; [congruence|].
  assert (PF : forall v q, ~ In (v, q, j) l'). { intros v q I. inversion ND as [|? ? NI]; subst. apply NI. apply in_map_iff. exists (v, q, j). auto. }
  unfold adjD_blocks. rewrite U.
  destruct (put_some (repeat (FNull 6 6) dofs) j (FMul (adj w f g) (cross r w j (fl g)))) as (A1 & -> & L1 & N1).
  { rewrite repeat_length. apply (ST (fl g) p j). left; reflexivity. }
  rewrite repeat_length in L1.
  rewrite (walk_path _ _ _ _ _ P') by (unfold fuel; cbn in SH; lia).
  rewrite (fold_put_nz (fun v j => FMul (FMul (adj w f v) (cross r w j v)) (adj w v g))).
  destruct (fold_put (fun v j => FMul (FMul (adj w f v) (cross r w j v)) (adj w v g)) l' ltac:(inversion ND; auto) A1) as (A' & -> & L & I & O).
  { intros v q k Ik. rewrite L1. apply (ST v q k). right; auto. }
  exists (map (fun X => FCol X c) A'), ((fl g, p, j) :: l'). split; [exact P|]. split; [reflexivity|]. split; [rewrite map_length; lia|]. split.
  - intros v q k [Ik|Ik].
    + injection Ik as <- <- <-. rewrite Nat.eqb_refl. rewrite nth_error_map, O by (exact PF). rewrite N1, Nat.eqb_refl. reflexivity.
    + destruct (Nat.eqb_spec v (fl g)) as [->|_].
      { exfalso. pose proof (path_nodup_children r _ _ _ (trav _ Hf) Hf _ _ P Hg) as NC. cbn [map fst] in NC. inversion NC as [|? ? NI]; subst. apply NI.
        apply in_map_iff. exists (fl g, q, k). auto. }
      rewrite nth_error_map, (I _ _ _ Ik). reflexivity.
  - intros k Hk NI. exists (FCol (FNull 6 6) c). split; [|auto].
    rewrite nth_error_map, O by (intros v q Ik; apply (NI v q); right; auto). rewrite N1.
    destruct (Nat.eqb_spec k j) as [->|]; [exfalso; apply (NI (fl g) p); left; auto|].
    rewrite (nth_error_nth' _ (FNull 6 6)) by (rewrite repeat_length; auto). rewrite nth_repeat. reflexivity.
Qed.
Lemma cross_shape w j c : FR (cross r w j c) = 6%nat /\ FC (cross r w j c) = 6%nat /\ WF (cross r w j c). Proof. cbn. auto. Qed.
Lemma adj_cross_shape w f g j c : FR (FMul (adj w f g) (cross r w j c)) = 6%nat /\ FC (FMul (adj w f g) (cross r w j c)) = 6%nat /\ WF (FMul (adj w f g) (cross r w j c)).
Proof.
  destruct (adj_shape w f g) as (R0 & C0 & W0). destruct (wf_mul_intro dofs UE (adj w f g) (cross r w j c) W0 Logic.I ltac:(rewrite C0; reflexivity)) as (W & R1 & C1 & _).
  split; [congruence|]. split; [exact C1|exact W].
Qed.
Lemma not_scalar F n m : FR F = n -> FC F = m -> (n <> 1 \/ m <> 1)%nat -> scalar_size dofs F = false.
Proof. intros R0 C0 H. unfold scalar_size. rewrite R0, C0. destruct (Nat.eqb_spec n 1), (Nat.eqb_spec m 1); cbn; try reflexivity; lia. Qed.
Lemma adj_shaped w f g c v : (c < 6)%nat -> shaped dofs HAND UE (adj w f g) c v.
Proof.
  intros Hc. unfold adj, shaped. destruct (Nat.eqb_spec f g) as [|N]; cbn [dcol users].
  - exists (FDeriv (FIdent 6) c v). cbn. auto.
  - unfold leaf. cbn [dcol users]. rewrite decode_code. cbn [hand derivative]. eexists. split; [reflexivity|].
    change (FUser (code (KAdj w f g))) with (leaf (KAdj w f g)). rewrite leaf_rows. cbn [krows].
    destruct (negb (fl f =? fl g)%nat && (v =? v_s)%nat)%bool eqn:C; [|cbn; auto]. apply andb_prop in C. destruct C as [_ C]. apply Nat.eqb_eq in C. subst v.
    unfold adjD. destruct (Nat.eqb_spec f g) as [|_]; [congruence|]. split; [apply leaf_rows|]. split; [apply leaf_cols|exact Logic.I].
Qed.
Lemma adjD_ready w f g c0 c rho v : is_frame r f -> is_frame r g -> (c0 < 6)%nat -> (c < dofs)%nat -> (forall b, is_frame r b -> right_col w b g c0) ->
  ready dofs DEEP UE rho v (leaf (KAdjD w f g c0)) c.
Proof.
  intros F G Hc0 Hc RC. destruct (C57_second_derivative r place dofs up depth base bt bt_dep jac fvel btw quat K w f g c0 c v F G Hc0 Hc) as (X0 & E0 & R0 & C0 & W0 & D0).
  destruct (adjD_cols_form w f g c0 F G Hc0) as (A & l & P & E & L & I & O). cbn [derivative] in E0. rewrite E in E0.
  destruct (negb (length (map snd l) =? 0)%nat && (v =? v_s)%nat)%bool eqn:CD.
  2:{ injection E0 as <-. apply (leaf_ready DEEP rho v (KAdjD w f g c0) c (FNull 6 (VD v))); auto. cbn [deep]. rewrite E, CD. reflexivity. }
  assert (EY : exists Y, nth_error A c = Some Y) by (destruct (nth_error A c) as [Y|] eqn:Q; [eauto|apply nth_error_None in Q; lia]). destruct EY as (Y & EY). rewrite EY in E0. cbn [option_map] in E0. injection E0 as <-.
  pose proof (fl_lt r rok f F) as Hf. pose proof (fl_lt r rok g G) as Hg. destruct W0 as [W0 _].
  assert (RD : ready dofs HAND UE rho v Y 0 /\ FR Y = 6%nat /\ FC Y = 1%nat).
  { destruct (path_in_dec l c) as [(u & p & Iu)|NI].
    - rewrite (I _ _ _ Iu) in EY. injection EY as <-. destruct (up_step r dofs up depth trav hd _ _ _ _ _ _ Hf Hg P Iu) as (_ & _ & Hu & _).
      destruct (Nat.eqb_spec u (fl g)) as [Eu|Nu].
      + subst u. destruct (adj_cross_shape w f g c (fl g)) as (R1 & C1 & W1). split; [|split; [exact R1|reflexivity]].
        apply ready_col; [split; [exact W1|lia]|]. destruct (adj_shape w f g) as (R2 & C2 & W2).
        destruct (RC f F) as [RF|(-> & H3 & RF)].
        * apply ready_mul; [exact W2|exact Logic.I|rewrite C2; reflexivity|exact Hc0| |apply smooth_constant].
          intros q Hq. apply adj_ready; auto using hand_hand; [lia|left; exact RF].
        * unfold adj in *. destruct (Nat.eqb_spec f g) as [EF|NF].
          { apply ready_mul; [exact W2|exact Logic.I|reflexivity|exact Hc0|intros; apply smooth_ident|apply smooth_constant]. }
          cbn [ready]. change (users (fun _ => false) (FMul (leaf (KAdj false f g)) (cross r false c (fl g)))) with false. cbv iota. rewrite (not_scalar _ 6 6 R2 C2) by lia. rewrite (not_scalar (cross r false c (fl g)) 6 6 eq_refl eq_refl) by lia.
          split; [apply smooth_constant|]. intros q Hq. rewrite C2 in Hq. destruct (Nat.lt_ge_cases q 3) as [Q|Q].
          -- left. destruct (hand_adj false f g q rho v F G Hq ltac:(right; auto)) as (X & EX & RX & CX & WX & DX). apply (leaf_ready HAND rho v (KAdj false f g) q X); auto.
          -- right. split.
             ++ intros j x. cbn [cross meaning]. unfold m6ent. apply Nat.ltb_ge in Q. apply Nat.ltb_lt in H3. rewrite Q, H3. cbn [adx bal]. unfold m30. apply Nat.ltb_ge in Q.
                destruct (q - 3)%nat as [|[|[|]]]; destruct c0 as [|[|[|]]]; reflexivity.
             ++ pose proof (adj_shaped false f g q v Hq) as S. unfold adj in S. destruct (Nat.eqb_spec f g) as [|_]; [congruence|]. exact S.
      + destruct (adj_cross_shape w f u c u) as (R1 & C1 & W1). destruct (adj_shape w u g) as (R2 & C2 & W2). destruct (adj_shape w f u) as (R3 & C3 & W3).
        destruct (wf_mul_intro dofs UE _ (adj w u g) W1 W2 ltac:(congruence)) as (W4 & R4 & C4 & _).
        assert (U : is_frame r u) by (apply link_ok; auto).
        split; [|split; [change (FR (FMul (FMul (adj w f u) (cross r w c u)) (adj w u g)) = 6%nat); congruence|reflexivity]].
        apply ready_col; [split; [exact W4|lia]|]. apply ready_mul; [exact W1|exact W2|congruence|lia| |].
        * intros q Hq. rewrite C1 in Hq. apply ready_mul; [exact W3|exact Logic.I|rewrite C3; reflexivity|exact Hq| |apply smooth_constant].
          intros z Hz. apply adj_ready; auto using hand_hand; [lia|left; apply neutral_link; auto].
        * apply adj_ready; auto using hand_hand.
    - destruct (O c Hc NI) as (Y2 & EY2 & [-> | ->]); rewrite EY2 in EY; injection EY as <-.
      + split; [apply smooth_null|cbn; auto].
      + split; [|cbn; auto]. apply ready_col; [cbn; auto|apply smooth_null]. }
  destruct RD as (RD & RY & CY). destruct (dcol_sound dofs HAND UE rho v Y 0 W0 ltac:(lia) RD) as (X & EX & RX & CX & WX & DX).
  apply (leaf_ready DEEP rho v (KAdjD w f g c0) c X).
  - cbn [deep]. rewrite E, CD, EY. exact EX.
  - rewrite RX. exact RY.
  - exact CX.
  - exact WX.
  - intros i j Hi Hj. assert (Hi' : (i < FR Y)%nat) by (rewrite RY; exact Hi). eapply D_eq; [apply D0; auto|]. cbn [meaning]. apply is_derive_unique. apply DX; auto.
Qed.
Lemma relrot_ready2 f g c rho v1 v2 : is_frame r f -> is_frame r g -> (c < 3)%nat -> (forall b, is_frame r b -> unturned b g) -> ready2 dofs DEEP UE rho v1 v2 (relrot f g) c.
Proof.
  intros F G Hc H. unfold relrot. destruct (f =? g)%nat eqn:E; [apply const_ready2; [reflexivity|intros; reflexivity]|]. unfold adj. rewrite E. unfold leaf. cbn [ready2 users Nat.add]. rewrite decode_code.
  intros X EX k Hk. cbn [deep hand derivative] in EX. injection EX as <-.
  destruct (negb (fl f =? fl g)%nat && (v1 =? v_s)%nat)%bool eqn:C; [|apply smooth_null]. apply andb_prop in C. destruct C as [_ C]. apply Nat.eqb_eq in C. subst v1.
  unfold adjD. rewrite E. apply adjD_ready; [exact F|exact G|lia|exact Hk|]. intros b B. right. auto.
Qed.
(** ** Jacobians *)
Lemma jac_cols_form f g : is_frame r f -> is_frame r g -> exists A l,
  path (up (fl f)) (fl f) (fl g) l /\ jac_cols r dofs up f g = Some A /\ length A = dofs /\
  (forall v p j, In (v, p, j) l -> nth_error A j = Some (FMul (adj false g v) (subspace r j v))) /\
  (forall j, (j < dofs)%nat -> (forall v p, ~ In (v, p, j) l) -> nth_error A j = Some (FNull 6 1)).
Proof.
  intros F G. pose proof (fl_lt r rok f F) as Hf. pose proof (fl_lt r rok g G) as Hg.
  destruct (up_path r up depth trav (fl f) (fl g) Hf Hg) as (l & P). unfold jac_cols.
  rewrite (walk_path _ _ _ _ _ P) by (unfold fuel; generalize (up_short r up depth trav _ _ _ Hf Hg P); lia).
  destruct (fold_put (fun v j => FMul (adj false g v) (subspace r j v)) l (up_nodup r up depth trav _ _ _ Hf Hg P) (repeat (FNull 6 1) dofs)) as (A & E & L & I & O).
  { intros v p j Ij. rewrite repeat_length. destruct (up_step r dofs up depth trav hd _ _ _ _ _ _ Hf Hg P Ij) as (_ & _ & _ & A1 & _). auto. }
  exists A, l. split; [exact P|]. split; [exact E|]. rewrite repeat_length in L. split; [exact L|]. split; [exact I|].
  intros j Hj NI. rewrite (O j NI). rewrite (nth_error_nth' _ (FNull 6 1)) by (rewrite repeat_length; auto). rewrite nth_repeat. reflexivity.
Qed.
Lemma jac_ready f g c rho v : is_frame r f -> is_frame r g -> (c < dofs)%nat -> ready dofs DEEP UE rho v (leaf (KJac f g)) c.
Proof.
  intros F G Hc. destruct (C58_jacobian_derivative r place dofs up depth base bt bt_dep jac fvel btw quat K f g c v F G Hc) as (X0 & E0 & _ & _ & _ & D0).
  destruct (Nat.eq_dec v v_s) as [->|N].
  2:{ cbn [derivative] in E0. apply Nat.eqb_neq in N. rewrite N in E0. injection E0 as <-. apply (leaf_ready DEEP rho v (KJac f g) c (FNull 6 (VD v))); auto.
      - cbn [deep]. rewrite N. reflexivity.
      - exact Logic.I. }
  destruct (jac_cols_form f g F G) as (A & l & P & E & L & I & O).
  destruct (C58_jacobian_columns r place dofs up depth base bt jac fvel btw quat K f g F G) as (A' & E' & _ & COL). rewrite E in E'. injection E' as <-.
  destruct (COL c Hc) as (Y & EY & RY & CY & VY).
  assert (RD : WF Y /\ ready dofs HAND UE rho v_s Y 0).
  { destruct (path_in_dec l c) as [(u & p & Iu)|NI].
    - rewrite (I _ _ _ Iu) in EY. injection EY as <-. destruct (adj_shape false g u) as (R1 & C1 & W1).
      pose proof (fl_lt r rok f F) as Hf. pose proof (fl_lt r rok g G) as Hg.
      destruct (up_step r dofs up depth trav hd _ _ _ _ _ _ Hf Hg P Iu) as (_ & _ & Hu & _).
      split; [apply wf_mul_intro; [exact W1|exact Logic.I|rewrite C1; reflexivity]|].
      apply ready_mul; [exact W1|exact Logic.I|rewrite C1; reflexivity|cbn; lia| |apply smooth_constant].
      intros q Hq. rewrite C1 in Hq. apply adj_ready; [apply hand_hand|exact G|apply link_ok; auto|exact Hq|]. left. apply neutral_link; auto.
    - rewrite (O c Hc NI) in EY. injection EY as <-. split; [exact Logic.I|apply smooth_null]. }
  destruct RD as [WY RD]. destruct (dcol_sound dofs HAND UE rho v_s Y 0 WY ltac:(lia) RD) as (X & EX & RX & CX & WX & DX).
  apply (leaf_ready DEEP rho v_s (KJac f g) c X).
  - cbn [deep]. rewrite Nat.eqb_refl, E. cbn [nth_col]. rewrite EY. exact EX.
  - rewrite RX. exact RY.
  - exact CX.
  - exact WX.
  - intros i j Hi Hj. cbn [krows] in Hi. eapply is_derive_ext; [|apply DX; auto; lia]. intros t. apply VY; auto.
Qed.
Lemma reljac_shape f g : FR (reljac dofs f g) = 6%nat /\ FC (reljac dofs f g) = dofs /\ WF (reljac dofs f g).
Proof. unfold reljac. destruct (f =? g)%nat; [cbn; auto|]. split; [apply leaf_rows|]. split; [apply leaf_cols|exact Logic.I]. Qed.
Lemma reljac_ready f g c rho v : is_frame r f -> is_frame r g -> (c < dofs)%nat -> ready dofs DEEP UE rho v (reljac dofs f g) c.
Proof. intros F G Hc. unfold reljac. destruct (f =? g)%nat; [apply smooth_null|apply jac_ready; auto]. Qed.

(** ** Positions *)
Lemma relpos_shape f g : FR (relpos f g) = 3%nat /\ FC (relpos f g) = 1%nat /\ WF (relpos f g).
Proof. unfold relpos. destruct (f =? g)%nat; [cbn; auto|]. split; [apply leaf_rows|]. split; [apply leaf_cols|exact Logic.I]. Qed.
Lemma relpos_ready f g rho v : is_frame r f -> is_frame r g -> ready dofs DEEP UE rho v (relpos f g) 0.
Proof.
  intros F G. unfold relpos. destruct (f =? g)%nat; [apply smooth_null|].
  destruct (C58_position_derivative r place dofs up depth base bt bt_dep jac fvel btw quat K f g v F G) as (X & E & R0 & C0 & W & D).
  apply (leaf_ready DEEP rho v (KPos f g) 0 X); auto.
Qed.
Lemma pos_derivative_shape f g : FR (pos_derivative dofs f g) = 3%nat /\ FC (pos_derivative dofs f g) = dofs /\ WF (pos_derivative dofs f g).
Proof.
  unfold pos_derivative. destruct (relrot_shape f g) as (R0 & C0 & W0). destruct (reljac_shape f g) as (R1 & C1 & W1).
  destruct (wf_mul_intro dofs UE (relrot f g) (FBlock (reljac dofs f g) 0 0 3 dofs) W0 ltac:(split; [exact W1|]; lia) ltac:(rewrite C0; reflexivity)) as (W & R2 & C2 & _).
  split; [congruence|]. split; [exact C2|exact W].
Qed.
Lemma pos_derivative_ready f g c rho v : is_frame r f -> is_frame r g -> unturned f g -> (c < dofs)%nat -> ready dofs DEEP UE rho v (pos_derivative dofs f g) c.
Proof.
  intros F G H Hc. unfold pos_derivative. destruct (relrot_shape f g) as (R0 & C0 & W0). destruct (reljac_shape f g) as (R1 & C1 & W1).
  assert (WB : WF (FBlock (reljac dofs f g) 0 0 3 dofs)) by (split; [exact W1|]; lia).
  apply ready_mul; [exact W0|exact WB|rewrite C0; reflexivity|exact Hc| |].
  - intros l Hl. apply relrot_ready; auto using deep_hand. lia.
  - apply ready_block; [exact WB|exact Hc|]. apply reljac_ready; auto.
Qed.
Lemma relpos_ready2 f g rho v1 v2 : is_frame r f -> is_frame r g -> unturned f g -> ready2 dofs DEEP UE rho v1 v2 (relpos f g) 0.
Proof.
  intros F G H. unfold relpos. destruct (f =? g)%nat; [apply const_ready2; reflexivity|].
  unfold leaf. cbn [ready2 users]. rewrite decode_code. intros X E k Hk. cbn [deep hand derivative] in E. injection E as <-.
  destruct (v1 =? v_s)%nat eqn:EV; [|apply smooth_null]. apply pos_derivative_ready; auto. apply Nat.eqb_eq in EV. subst v1. exact Hk.
Qed.
End SymKin.
