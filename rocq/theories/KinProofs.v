(** The kinematic expressions: the loops terminate inside the bounds, and the formulas have the expected values. *)
From Coq Require Import Reals List Arith Lia Lra Bool FunctionalExtensionality.
From Coquelicot Require Import Coquelicot.
From Verif Require Import Spec PartialLib SpecQuaternion Quaternion QuaternionProofs.
From Verif Require Import QuatCurve SpecRigid SpecDerivatives Rigid RigidCalc KinTree KinModel KinLib KinMotion KinUsers.
Import ListNotations.
Local Open Scope R_scope.

Section Kin.
Variable r : robot.
Variable place : vec -> nat -> pose.
Variable dofs : nat.
Variable up : nat -> nat -> option (nat * nat).
Variable depth : nat -> nat -> nat.
Variable base : nat.
Variable bt : formula.
Variable bt_dep : nat -> bool.
Variable jac : vec -> nat -> nat -> nat -> v6.
Variable fvel : env -> nat -> v6.
Variable quat : m3 -> vec.
Notation links := (r_links r).
Notation fl := (frame_link r).
Notation rel := (relative r place).
Hypothesis rok : robot_ok r.
Hypothesis plc : placement r place.
Hypothesis trav : forall b, (b < links)%nat -> traversal r b (up b) (depth b).
Hypothesis one_dof : (length (r_joints r) <= dofs)%nat.

Notation VD := (vdim dofs).
Notation UR := urows.
Notation UC := (ucols dofs).
Notation V0 := (val0 r rel jac fvel quat).
Notation V1 := (val1 r dofs up base bt rel jac fvel quat).
Notation V := (val r dofs up base bt rel jac fvel quat).

Lemma AdjOf_rel w s f g h : frame_ok r f -> frame_ok r g -> m6mul (AdjOf w (rel s f g)) (AdjOf w (rel s g h)) = AdjOf w (rel s f h).
Proof. intros F G. destruct w; [eapply AdjW_rel|eapply Adj_rel]; eauto. Qed.
Lemma AdjOf_same w s f : frame_ok r f -> AdjOf w (rel s f f) = m6I.
Proof. intros F. rewrite (rel_same r place rok plc) by auto. destruct w; [apply AdjW_id|apply Adj_id]. Qed.
Definition adOf (w : bool) (s : v6) : m6 := if w then adw s else adx s.

Lemma up_path b t : (b < links)%nat -> (t < links)%nat -> exists l, path (up b) b t l.
Proof. intros Hb Ht. destruct (path_exists r b (up b) (depth b) (trav b Hb) Hb t Ht) as (l & P & _). eauto. Qed.
Lemma up_step b t l c p i : (b < links)%nat -> (t < links)%nat -> path (up b) b t l -> In (c, p, i) l ->
  exists j, nth_error (r_joints r) i = Some j /\ (c < links)%nat /\ (i < dofs)%nat /\ motion_axis r i c = axis_of j c /\ (p < links)%nat /\ up b c = Some (p, i).
Proof.
  intros Hb Ht P I. destruct (path_step r b (up b) (depth b) (trav b Hb) Hb _ _ _ _ _ P Ht I) as (Hc & _ & U & _ & j & E & _ & Hp & _).
  exists j. split; [auto|]. split; [auto|]. split.
  { assert (i < length (r_joints r))%nat by (apply nth_error_Some; congruence). lia. }
  unfold motion_axis. split; [rewrite (nth_error_nth _ _ _ E); reflexivity|auto].
Qed.
Lemma up_short b t l : (b < links)%nat -> (t < links)%nat -> path (up b) b t l -> (length l <= links)%nat.
Proof. intros Hb Ht P. exact (path_short r b (up b) (depth b) (trav b Hb) Hb t l P Ht). Qed.
Lemma up_nodup b t l : (b < links)%nat -> (t < links)%nat -> path (up b) b t l -> NoDup (map snd l).
Proof. intros Hb Ht P. exact (path_nodup r b (up b) (depth b) (trav b Hb) Hb t l P Ht). Qed.

(** ** The formulas, whatever the other leaves are *)
Section Values.
Variable ue : nat -> env -> mat.
Hypothesis ue_adj : forall w f g, ue (code (KAdj w f g)) = V0 (KAdj w f g).
Notation den := (den VD UR UC ue).
Lemma leaf_den rho k : den rho (leaf k) (krows k) (kcols dofs k) (ue (code k) rho).
Proof. unfold leaf. generalize (den_user VD UR UC ue rho (code k)). unfold UR at 2, ucols at 2. rewrite decode_code. auto. Qed.
Lemma adj_value w f g rho : frame_ok r f -> frame_ok r g -> V0 (KAdj w f g) rho = m6ent (AdjOf w (rel (rho v_s) f g)).
Proof.
  intros F G. cbn [val0]. destruct (Nat.eqb_spec (fl f) (fl g)) as [E|]; [|reflexivity].
  rewrite (rel_rl r place rok plc) by auto. rewrite E, (rl_same r place plc), pmul_id_l by (eapply fl_lt; eauto). reflexivity.
Qed.
Lemma adj_den w f g rho : frame_ok r f -> frame_ok r g -> den rho (adj w f g) 6 6 (m6ent (AdjOf w (rel (rho v_s) f g))).
Proof.
  intros F G. unfold adj. destruct (Nat.eqb_spec f g) as [->|N].
  - rewrite AdjOf_same by auto. eapply den_ext; [apply den_ident|]. intros i j Hi Hj. symmetry. apply m6ent_I; auto.
  - rewrite <- adj_value by auto. rewrite <- ue_adj. apply (leaf_den rho (KAdj w f g)).
Qed.
Lemma den_mul6 rho F G A B : den rho F 6 6 (m6ent A) -> den rho G 6 6 (m6ent B) -> den rho (FMul F G) 6 6 (m6ent (m6mul A B)).
Proof. intros HF HG. eapply den_ext; [eapply den_mul; eauto|]. intros i j Hi Hj. cbv beta. symmetry. apply m6ent_mul; auto. Qed.
Lemma den_mulv rho F G A x : den rho F 6 6 (m6ent A) -> den rho G 6 1 (fun i _ => v6ent x i) -> den rho (FMul F G) 6 1 (fun i _ => v6ent (m6v A x) i).
Proof. intros HF HG. eapply den_ext; [eapply den_mul; eauto|]. intros i j Hi Hj. cbv beta. symmetry. apply v6ent_mul; auto. Qed.
Lemma cross_den w j c rho : den rho (cross r w j c) 6 6 (m6ent (adOf w (motion_axis r j c))).
Proof. unfold cross, adOf. destruct w; apply den_const. Qed.
Lemma subspace_den j c rho : den rho (subspace r j c) 6 1 (fun i _ => v6ent (motion_axis r j c) i).
Proof. apply den_const. Qed.

(** The columns of the derivative of the adjoint: the joints on the path.  The joint next to the target is treated
    as if the target were a link. *)
Definition adjD_true (w : bool) (s : vec) (f g c j : nat) : m6 :=
  m6mul (m6mul (AdjOf w (rel s f c)) (adOf w (motion_axis r j c))) (AdjOf w (rel s c g)).
Definition adjD_code (w : bool) (s : vec) (f g c j : nat) : m6 :=
  if (c =? fl g)%nat then m6mul (AdjOf w (rel s f g)) (adOf w (motion_axis r j c)) else adjD_true w s f g c j.
Lemma adjD_cols_spec w f g c : frame_ok r f -> frame_ok r g -> (c < 6)%nat -> exists A l, 
  path (up (fl f)) (fl f) (fl g) l /\ adjD_cols r dofs up w f g c = Some (A, map snd l) /\ length A = dofs /\
  (forall v p j, In (v, p, j) l -> exists X, nth_error A j = Some X /\ forall rho, den rho X 6 1 (fun i _ => m6ent (adjD_code w (rho v_s) f g v j) i c)) /\
  (forall j, (j < dofs)%nat -> (forall v p, ~ In (v, p, j) l) -> exists X, nth_error A j = Some X /\ forall rho, den rho X 6 1 (fun _ _ => 0)).
Proof.
  intros F G Hc. pose proof (fl_lt r rok f F) as Hf. pose proof (fl_lt r rok g G) as Hg.
  destruct (up_path (fl f) (fl g) Hf Hg) as (l & P). unfold adjD_cols.
  destruct (Nat.eqb_spec (fl f) (fl g)) as [E|N].
  { exists (repeat (FNull 6 1) dofs), []. rewrite <- E. split; [constructor|]. split; [reflexivity|]. split; [apply repeat_length|].
    split; [intros; contradiction|]. intros j Hj _. exists (FNull 6 1). split; [|intros; apply den_null].
    rewrite (nth_error_nth' _ (FNull 6 1)) by (rewrite repeat_length; auto). rewrite nth_repeat. reflexivity. }
  pose proof (up_short _ _ _ Hf Hg P) as SH. pose proof (up_nodup _ _ _ Hf Hg P) as ND.
  assert (ST : forall v p j, In (v, p, j) l -> (v < links)%nat /\ (j < dofs)%nat).
  { intros v p j I. destruct (up_step _ _ _ _ _ _ Hf Hg P I) as (_ & _ & A1 & A2 & _). auto. }
  inversion P as [|t p j l' N' U P' E1]; subst; [congruence|].
  assert (PF : forall v q, ~ In (v, q, j) l'). { intros v q I. inversion ND as [|? ? NI]; subst. apply NI. apply in_map_iff. exists (v, q, j). auto. }
  unfold adjD_blocks. rewrite U.
  destruct (put_some (repeat (FNull 6 6) dofs) j (FMul (adj w f g) (cross r w j (fl g)))) as (A1 & -> & L1 & N1).
  { rewrite repeat_length. apply (ST (fl g) p j). left; reflexivity. }
  rewrite repeat_length in L1.
  rewrite (walk_path _ _ _ _ _ P') by (unfold fuel; cbn in SH; lia).
  rewrite (fold_put_nz (fun v j => FMul (FMul (adj w f v) (cross r w j v)) (adj w v g))).
  destruct (fold_put (fun v j => FMul (FMul (adj w f v) (cross r w j v)) (adj w v g)) l' ltac:(inversion ND; auto) A1) as (A' & -> & L & I & O).
  { intros v q k Ik. rewrite L1. apply (ST v q k). right; auto. }
  exists (map (fun X => FCol X c) A'), ((fl g, p, j) :: l'). split; [exact P|]. split; [reflexivity|]. split; [rewrite map_length; lia|]. split.
  - intros v q k [Ik|Ik].
    + injection Ik as <- <- <-. exists (FCol (FMul (adj w f g) (cross r w j (fl g))) c). split.
      * rewrite nth_error_map, O by (exact PF). rewrite N1, Nat.eqb_refl. reflexivity.
      * intros rho. apply (den_col VD UR UC ue rho _ 6 6 (m6ent (adjD_code w (rho v_s) f g (fl g) j))); [|auto].
        unfold adjD_code. rewrite Nat.eqb_refl. apply den_mul6; [apply adj_den; auto|apply cross_den].
    + exists (FCol (FMul (FMul (adj w f v) (cross r w k v)) (adj w v g)) c). split.
      * rewrite nth_error_map, (I _ _ _ Ik). reflexivity.
      * intros rho. destruct (ST v q k) as (Hv & _); [right; auto|].
        apply (den_col VD UR UC ue rho _ 6 6 (m6ent (adjD_code w (rho v_s) f g v k))); [|auto].
        unfold adjD_code. destruct (Nat.eqb_spec v (fl g)) as [->|_].
        { exfalso. pose proof (path_nodup_children r _ _ _ (trav _ Hf) Hf _ _ P Hg) as NC. cbn [map fst] in NC. inversion NC as [|? ? NI]; subst. apply NI.
          apply in_map_iff. exists (fl g, q, k). auto. }
        apply (link_ok r) in Hv. apply den_mul6; [apply den_mul6|]; try apply adj_den; auto. apply cross_den.
  - intros k Hk NI. exists (FCol (FNull 6 6) c). split.
    + rewrite nth_error_map, O by (intros v q Ik; apply (NI v q); right; auto). rewrite N1.
      destruct (Nat.eqb_spec k j) as [->|]; [exfalso; apply (NI (fl g) p); left; auto|].
      rewrite (nth_error_nth' _ (FNull 6 6)) by (rewrite repeat_length; auto). rewrite nth_repeat. reflexivity.
    + intros rho. apply (den_col VD UR UC ue rho _ 6 6 (fun _ _ => 0)); [apply den_null|auto].
Qed.

(** The columns of the relative Jacobian. *)
Lemma jac_cols_spec f g : frame_ok r f -> frame_ok r g -> exists A l,
  path (up (fl f)) (fl f) (fl g) l /\ jac_cols r dofs up f g = Some A /\ length A = dofs /\
  (forall v p j, In (v, p, j) l -> exists X, nth_error A j = Some X /\ forall rho, den rho X 6 1 (fun i _ => v6ent (m6v (Adj (rel (rho v_s) g v)) (motion_axis r j v)) i)) /\
  (forall j, (j < dofs)%nat -> (forall v p, ~ In (v, p, j) l) -> nth_error A j = Some (FNull 6 1)).
Proof.
  intros F G. pose proof (fl_lt r rok f F) as Hf. pose proof (fl_lt r rok g G) as Hg.
  destruct (up_path (fl f) (fl g) Hf Hg) as (l & P). unfold jac_cols.
  rewrite (walk_path _ _ _ _ _ P) by (unfold fuel; generalize (up_short _ _ _ Hf Hg P); lia).
  destruct (fold_put (fun v j => FMul (adj false g v) (subspace r j v)) l (up_nodup _ _ _ Hf Hg P) (repeat (FNull 6 1) dofs)) as (A & E & L & I & O).
  { intros v p j Ij. rewrite repeat_length. destruct (up_step _ _ _ _ _ _ Hf Hg P Ij) as (_ & _ & _ & A1 & _). auto. }
  exists A, l. split; [exact P|]. split; [exact E|]. rewrite repeat_length in L. split; [exact L|]. split.
  - intros v p j Ij. exists (FMul (adj false g v) (subspace r j v)). split; [apply (I _ _ _ Ij)|]. intros rho.
    destruct (up_step _ _ _ _ _ _ Hf Hg P Ij) as (_ & _ & Hv & _). apply (link_ok r) in Hv.
    apply den_mulv; [apply (adj_den false); auto|apply subspace_den].
  - intros j Hj NI. rewrite (O j NI). rewrite (nth_error_nth' _ (FNull 6 1)) by (rewrite repeat_length; auto). rewrite nth_repeat. reflexivity.
Qed.
End Values.

(** ** The values of all the leaves *)
Notation UE0 := (ueval0 r rel jac fvel quat).
Notation UE1 := (ueval1 r dofs up base bt rel jac fvel quat).
Notation UE := (ueval r dofs up base bt rel jac fvel quat).
Notation M := (meaning VD UR UC UE).
Lemma ue0_adj w f g : UE0 (code (KAdj w f g)) = V0 (KAdj w f g).
Proof. unfold ueval0. rewrite decode_code. reflexivity. Qed.
Lemma ue1_adj w f g : UE1 (code (KAdj w f g)) = V0 (KAdj w f g).
Proof. unfold ueval1. rewrite decode_code. reflexivity. Qed.
Lemma ue_adj w f g : UE (code (KAdj w f g)) = V0 (KAdj w f g).
Proof. unfold ueval. rewrite decode_code. reflexivity. Qed.
Lemma ue_code k : UE (code k) = V k.
Proof. unfold ueval. rewrite decode_code. reflexivity. Qed.
Lemma M_leaf rho k i j : M rho (leaf k) i j = V k rho i j.
Proof. unfold leaf. cbn [meaning]. rewrite ue_code. reflexivity. Qed.
Lemma at_same rho v j x : at_entry rho v j x v = vset (rho v) j x.
Proof. unfold at_entry, env_set. rewrite Nat.eqb_refl. reflexivity. Qed.
Lemma at_other rho v j x u : u <> v -> at_entry rho v j x u = rho u.
Proof. intros H. unfold at_entry, env_set. apply Nat.eqb_neq in H. rewrite H. reflexivity. Qed.

Lemma nth_error_default (A : list formula) j X d : nth_error A j = Some X -> nth j A d = X.
Proof. intros H. apply nth_error_nth; auto. Qed.

(** ** Adjoints *)
Lemma adjD_value w f g c : frame_ok r f -> frame_ok r g -> (c < 6)%nat -> exists l, path (up (fl f)) (fl f) (fl g) l /\
  forall rho i j, (i < 6)%nat -> (j < dofs)%nat ->
    (forall v p, In (v, p, j) l -> V (KAdjD w f g c) rho i j = m6ent (adjD_code w (rho v_s) f g v j) i c) /\
    ((forall v p, ~ In (v, p, j) l) -> V (KAdjD w f g c) rho i j = 0).
Proof.
  intros F G Hc. destruct (adjD_cols_spec UE0 ue0_adj w f g c F G Hc) as (A & l & P & E & L & I & O). exists l. split; [exact P|].
  intros rho i j Hi Hj. cbn [val val1]. unfold filled. rewrite E, fill_spec. split.
  - intros v p Ij. replace (existsb (Nat.eqb j) (map snd l)) with true by (symmetry; apply existsb_path; eauto).
    destruct (I _ _ _ Ij) as (X & EX & D). rewrite (nth_error_default _ _ _ _ EX). apply (D rho); auto.
  - intros NI. destruct (existsb (Nat.eqb j) (map snd l)) eqn:Q; [|reflexivity]. apply existsb_path in Q. destruct Q as (v & p & Q). exfalso. eapply NI; eauto.
Qed.
Lemma AdjOf_moves w s f g l i : frame_ok r f -> frame_ok r g -> path (up (fl f)) (fl f) (fl g) l ->
  (forall c p, In (c, p, i) l -> is_derive_m6 (fun x => AdjOf w (rel (vset s i x) f g)) (s i) (adjD_true w s f g c i)) /\
  ((forall c p, ~ In (c, p, i) l) -> is_derive_m6 (fun x => AdjOf w (rel (vset s i x) f g)) (s i) m60).
Proof.
  intros F G P. pose proof (fl_lt r rok f F) as Hf. pose proof (fl_lt r rok g G) as Hg.
  assert (ST : forall c p, In (c, p, i) l -> exists j, nth_error (r_joints r) i = Some j /\ motion_axis r i c = axis_of j c).
  { intros c p I. destruct (up_step _ _ _ _ _ _ Hf Hg P I) as (j & E & _ & _ & Q & _). eauto. }
  unfold adjD_true, AdjOf, adOf. destruct w.
  - destruct (AdjW_rel_moves r place rok plc (fl f) (up (fl f)) (depth (fl f)) (trav _ Hf) Hf s f g l i F G eq_refl P) as [X Y]. split; [|exact Y].
    intros c p I. destruct (ST c p I) as (j & E & ->). eapply X; eauto.
  - destruct (Adj_rel_moves r place rok plc (fl f) (up (fl f)) (depth (fl f)) (trav _ Hf) Hf s f g l i F G eq_refl P) as [X Y]. split; [|exact Y].
    intros c p I. destruct (ST c p I) as (j & E & ->). eapply X; eauto.
Qed.
(** The offset of the target frame does not change the axis of the joint next to it. *)
Definition neutral (f g : nat) : Prop :=
  forall p j, fl f <> fl g -> up (fl f) (fl g) = Some (p, j) -> m6v (Adj (frame_offset r g)) (motion_axis r j (fl g)) = motion_axis r j (fl g).
Lemma neutral_link f g : (g < links)%nat -> neutral f g.
Proof. intros H p j _ _. rewrite (fo_link r) by auto. rewrite Adj_id, m6v_I. reflexivity. Qed.
Lemma rel_own s g : frame_ok r g -> rel s (fl g) g = frame_offset r g.
Proof.
  intros G. pose proof (fl_lt r rok g G) as Hg. rewrite (rel_rl r place rok plc) by (apply link_ok; auto).
  rewrite (fo_link r), (fl_link r), (rl_same r place plc), pmul_id_l by auto. 
  replace (pinv pid) with pid; [apply pmul_id_l|]. unfold pinv, pid. cbn. f_equal; r3.
Qed.
Lemma neutral_code w s f g p j : frame_ok r f -> frame_ok r g -> fl f <> fl g -> up (fl f) (fl g) = Some (p, j) -> neutral f g ->
  adjD_code w s f g (fl g) j = adjD_true w s f g (fl g) j.
Proof.
  intros F G N U H. specialize (H p j N U). unfold adjD_code, adjD_true. rewrite Nat.eqb_refl.
  assert (T : frame_ok r (fl g)) by (apply link_ok, fl_lt; auto).
  rewrite <- (AdjOf_rel w s f (fl g) g) by auto. rewrite !m6mul_assoc. f_equal. rewrite rel_own by auto.
  pose proof (fo_rigid r rok g G) as RO. unfold AdjOf, adOf. destruct w.
  - rewrite adw_AdjW by auto. rewrite H. reflexivity.
  - rewrite adx_Adj by auto. rewrite H. reflexivity.
Qed.
(** The derivative of the adjoint with respect to the joints, as the code computes it and as it is. *)
Lemma adj_derivative w f g c : frame_ok r f -> frame_ok r g -> (c < 6)%nat -> neutral f g ->
  exists X, derivative r dofs up base bt bt_dep (KAdj w f g) c v_s = Some X /\
    frows VD UR UC X = 6%nat /\ fcols VD UR UC X = dofs /\ well_formed VD UR UC UE X /\
    forall rho i j, (i < 6)%nat -> (j < dofs)%nat -> is_derive (fun x => V (KAdj w f g) (at_entry rho v_s j x) i c) (rho v_s j) (M rho X i j).
Proof.
  intros F G Hc NE. cbn [derivative]. rewrite Nat.eqb_refl, andb_true_r.
  assert (Q : forall rho j x i, V (KAdj w f g) (at_entry rho v_s j x) i c = m6ent (AdjOf w (rel (vset (rho v_s) j x) f g)) i c).
  { intros rho j x i. cbn [val val1]. rewrite adj_value, at_same by auto. reflexivity. }
  pose proof (fl_lt r rok f F) as Hf. pose proof (fl_lt r rok g G) as Hg.
  destruct (Nat.eqb_spec (fl f) (fl g)) as [E|N]; cbn [negb].
  - exists (FNull 6 dofs). split; [reflexivity|]. split; [reflexivity|]. split; [reflexivity|]. split; [exact Logic.I|].
    intros rho i j Hi Hj. cbn [meaning].
    assert (P : path (up (fl f)) (fl f) (fl g) []) by (rewrite <- E; constructor).
    destruct (AdjOf_moves w (rho v_s) f g [] j F G P) as [_ Y]. specialize (Y ltac:(intros ? ? HI; exact HI)).
    apply (m6ent_D _ _ _) with (i := i) (j := c) in Y. rewrite m6ent_0 in Y. eapply is_derive_ext; [|exact Y]. intros x. symmetry. apply Q.
  - assert (NFG : f <> g) by congruence. unfold adjD. apply Nat.eqb_neq in NFG. rewrite NFG.
    exists (leaf (KAdjD w f g c)). split; [reflexivity|]. 
    destruct (leaf_den UE (fun _ _ => 0) (KAdjD w f g c)) as (W & R0 & C0 & _). split; [exact R0|]. split; [exact C0|]. split; [exact W|].
    intros rho i j Hi Hj. rewrite M_leaf. destruct (adjD_value w f g c F G Hc) as (l & P & VAL). specialize (VAL rho i j Hi Hj). destruct VAL as [VI VO].
    destruct (AdjOf_moves w (rho v_s) f g l j F G P) as [DI DO]. apply is_derive_ext with (f := fun x => m6ent (AdjOf w (rel (vset (rho v_s) j x) f g)) i c); [intros x; symmetry; apply Q|].
    destruct (path_in_dec l j) as [(v & p & I)|NI].
    + rewrite (VI v p I). specialize (DI v p I). apply (m6ent_D _ _ _) with (i := i) (j := c) in DI.
      replace (adjD_code w (rho v_s) f g v j) with (adjD_true w (rho v_s) f g v j); [exact DI|].
      destruct (up_step _ _ _ _ _ _ Hf Hg P I) as (jt & _ & _ & _ & _ & _ & U).
      destruct (Nat.eq_dec v (fl g)) as [->|Nv]; [symmetry; eapply neutral_code; eauto|].
      unfold adjD_code. apply Nat.eqb_neq in Nv. rewrite Nv. reflexivity.
    + rewrite (VO NI). specialize (DO NI). apply (m6ent_D _ _ _) with (i := i) (j := c) in DO. rewrite m6ent_0 in DO. exact DO.
Qed.

Lemma adOf_inj w a b : adOf w a = adOf w b -> a = b.
Proof.
  destruct a as [[] []], b as [[] []], w; unfold adOf, adx, adw, skew; cbn; intros H; injection H as; f_equal; f_equal; lra.
Qed.
(** Conversely, when the offset changes the axis of the joint next to the target, some entry of the column of that
    joint is not the derivative. *)
Lemma adj_derivative_only w f g rho p j : frame_ok r f -> frame_ok r g -> fl f <> fl g -> up (fl f) (fl g) = Some (p, j) ->
  (forall c i X, (c < 6)%nat -> (i < 6)%nat -> derivative r dofs up base bt bt_dep (KAdj w f g) c v_s = Some X ->
     is_derive (fun x => V (KAdj w f g) (at_entry rho v_s j x) i c) (rho v_s j) (M rho X i j)) ->
  m6v (Adj (frame_offset r g)) (motion_axis r j (fl g)) = motion_axis r j (fl g).
Proof.
  intros F G N U H. pose proof (fl_lt r rok f F) as Hf. pose proof (fl_lt r rok g G) as Hg.
  assert (T : frame_ok r (fl g)) by (apply link_ok; auto).
  assert (Q : adjD_code w (rho v_s) f g (fl g) j = adjD_true w (rho v_s) f g (fl g) j).
  { apply m6ent_inj. intros i c Hi Hc. destruct (adjD_value w f g c F G Hc) as (l & P & VAL).
    assert (I : In (fl g, p, j) l). { inversion P; subst; [congruence|]. left. congruence. }
    destruct (up_step _ _ _ _ _ _ Hf Hg P I) as (_ & _ & _ & Hj & _).
    destruct (VAL rho i j Hi Hj) as [VI _]. destruct (AdjOf_moves w (rho v_s) f g l j F G P) as [DI _]. specialize (DI _ _ I).
    apply (m6ent_D _ _ _) with (i := i) (j := c) in DI.
    specialize (H c i (leaf (KAdjD w f g c)) Hc Hi). rewrite M_leaf, (VI _ _ I) in H. cbn [derivative] in H.
    rewrite Nat.eqb_refl, andb_true_r in H. unfold adjD in H.
    destruct (Nat.eqb_spec (fl f) (fl g)) as [|_]; [congruence|]. destruct (Nat.eqb_spec f g) as [->|_]; [congruence|].
    specialize (H eq_refl). eapply D_unique; [|exact DI]. eapply is_derive_ext; [|exact H]. intros x. cbv beta. cbn [val val1].
    rewrite adj_value, at_same by auto. reflexivity. }
  unfold adjD_code, adjD_true in Q. rewrite Nat.eqb_refl in Q. rewrite <- (AdjOf_rel w _ f (fl g) g), !m6mul_assoc in Q by auto.
  apply (f_equal (m6mul (AdjOf w (rel (rho v_s) (fl g) f)))) in Q.
  rewrite <- !(m6mul_assoc (AdjOf w (rel (rho v_s) (fl g) f))), !AdjOf_rel, AdjOf_same, !m6mul_I_l, rel_own in Q by auto.
  pose proof (fo_rigid r rok g G) as RO.
  assert (CI : m6mul (AdjOf w (frame_offset r g)) (AdjOf w (pinv (frame_offset r g))) = m6I).
  { unfold AdjOf. destruct w; [rewrite <- AdjW_mul|rewrite <- Adj_mul]; rewrite ?pinv_r; auto using AdjW_id, Adj_id. }
  assert (Q2 : m6mul (adOf w (m6v (Adj (frame_offset r g)) (motion_axis r j (fl g)))) (AdjOf w (frame_offset r g)) = m6mul (adOf w (motion_axis r j (fl g))) (AdjOf w (frame_offset r g))).
  { rewrite <- Q. unfold AdjOf, adOf. destruct w; [rewrite adw_AdjW|rewrite adx_Adj]; auto. }
  apply (f_equal (fun A => m6mul A (AdjOf w (pinv (frame_offset r g))))) in Q2. rewrite !m6mul_assoc, CI, !m6mul_I_r in Q2. 
  eapply adOf_inj; eauto.
Qed.

(** The second derivatives: a column of the derivative of the adjoint, as a formula, has the value of the column, which
    is differentiable. *)
Lemma AdjOf_ex w s f g k : frame_ok r f -> frame_ok r g -> exists d, is_derive_m6 (fun x => AdjOf w (rel (vset s k x) f g)) (s k) d.
Proof.
  intros F G. destruct (up_path _ _ (fl_lt r rok f F) (fl_lt r rok g G)) as (l & P). destruct (AdjOf_moves w s f g l k F G P) as [X Y].
  destruct (path_in_dec l k) as [(c & p & I)|NI]; eauto.
Qed.
Lemma adjD_code_ex w s f g v j k : frame_ok r f -> frame_ok r g -> (v < links)%nat -> exists d, is_derive_m6 (fun x => adjD_code w (vset s k x) f g v j) (s k) d.
Proof.
  intros F G Hv. apply (link_ok r) in Hv. unfold adjD_code, adjD_true.
  destruct (AdjOf_ex w s f g k F G) as (d1 & D1). destruct (AdjOf_ex w s f v k F Hv) as (d2 & D2). destruct (AdjOf_ex w s v g k Hv G) as (d3 & D3).
  destruct (v =? fl g)%nat; eexists.
  - apply (m6_D_mul _ (fun _ => adOf w (motion_axis r j v)) _ _ _ D1 (m6_D_const _ _)).
  - apply (m6_D_mul _ _ _ _ _ (m6_D_mul _ (fun _ => adOf w (motion_axis r j v)) _ _ _ D2 (m6_D_const _ _)) D3).
Qed.
Lemma adjD_derivative_true w f g c0 c v : frame_ok r f -> frame_ok r g -> (c0 < 6)%nat -> (c < dofs)%nat ->
  exists X, derivative r dofs up base bt bt_dep (KAdjD w f g c0) c v = Some X /\
    frows VD UR UC X = 6%nat /\ fcols VD UR UC X = VD v /\ well_formed VD UR UC UE X /\
    forall rho i j, (i < 6)%nat -> (j < VD v)%nat -> is_derive (fun x => V (KAdjD w f g c0) (at_entry rho v j x) i c) (rho v j) (M rho X i j).
Proof.
  intros F G Hc0 Hc. cbn [derivative]. destruct (adjD_cols_spec UE ue_adj w f g c0 F G Hc0) as (A & l & P & E & L & I & O).
  destruct (adjD_value w f g c0 F G Hc0) as (l' & P' & VAL). assert (l' = l) by (eapply path_fun; eauto). subst l'. rewrite E.
  pose proof (fl_lt r rok f F) as Hf. pose proof (fl_lt r rok g G) as Hg.
  assert (Z : (forall v p, ~ In (v, p, c) l) -> forall rho i, (i < 6)%nat -> V (KAdjD w f g c0) rho i c = 0) by (intros NI rho i Hi; apply (proj2 (VAL rho i c Hi Hc)); auto).
  assert (Q : forall v p, In (v, p, c) l -> forall rho i, (i < 6)%nat -> V (KAdjD w f g c0) rho i c = m6ent (adjD_code w (rho v_s) f g v c) i c0) by (intros u p Iu rho i Hi; exact (proj1 (VAL rho i c Hi Hc) u p Iu)).
  destruct (negb (length (map snd l) =? 0) && (v =? v_s))%nat%bool eqn:CD.
  - apply andb_prop in CD. destruct CD as [_ CV]. apply Nat.eqb_eq in CV. subst v.
    assert (EX : exists Y, nth_error A c = Some Y /\ forall rho, den VD UR UC UE rho Y 6 1 (fun i _ => V (KAdjD w f g c0) rho i c)).
    { destruct (path_in_dec l c) as [(u & p & Iu)|NI].
      - destruct (I _ _ _ Iu) as (Y & EY & D). exists Y. split; [exact EY|]. intros rho. eapply den_ext; [apply D|]. intros i k Hi Hk. cbv beta. symmetry. eapply Q; eauto.
      - destruct (O c Hc NI) as (Y & EY & D). exists Y. split; [exact EY|]. intros rho. eapply den_ext; [apply D|]. intros i k Hi Hk. cbv beta. symmetry. apply Z; auto. }
    destruct EX as (Y & EY & D). rewrite EY. cbn [option_map]. exists (FDeriv Y 0 v_s). split; [reflexivity|]. destruct (D (fun _ _ => 0)) as (Wf & R0 & C0 & _).
    split; [exact R0|]. split; [reflexivity|]. split; [split; [exact Wf|rewrite C0; lia]|].
    intros rho i j Hi Hj. cbn [meaning]. rewrite (Derive_ext _ (fun x => V (KAdjD w f g c0) (at_entry rho v_s j x) i c)).
    2:{ intros t. destruct (D (at_entry rho v_s j t)) as (_ & _ & _ & DE). apply DE; auto. }
    apply Derive_correct. destruct (path_in_dec l c) as [(u & p & Iu)|NI].
    + destruct (up_step _ _ _ _ _ _ Hf Hg P Iu) as (_ & _ & Hu & _).
      destruct (adjD_code_ex w (rho v_s) f g u c j F G Hu) as (d & DD). apply (m6ent_D _ _ _) with (i := i) (j := c0) in DD. exists (m6ent d i c0).
      eapply is_derive_ext; [|exact DD]. intros x. cbv beta. rewrite (Q u p Iu) by auto. rewrite at_same. reflexivity.
    + exists 0. eapply is_derive_ext; [|apply D_const]. intros x. cbv beta. symmetry. apply Z; auto.
  - exists (FNull 6 (VD v)). split; [reflexivity|]. split; [reflexivity|]. split; [reflexivity|]. split; [exact Logic.I|].
    intros rho i j Hi Hj. cbn [meaning]. apply andb_false_iff in CD. destruct CD as [CD|CD].
    + destruct l as [|x l]; [|discriminate CD]. eapply is_derive_ext; [|apply D_const]. intros x. cbv beta. symmetry. apply Z; auto.
    + apply Nat.eqb_neq in CD. destruct (path_in_dec l c) as [(u & p & Iu)|NI].
      * eapply is_derive_ext; [|apply D_const]. intros x. cbv beta. symmetry. rewrite (Q u p Iu) by auto. rewrite at_other by auto. reflexivity.
      * eapply is_derive_ext; [|apply D_const]. intros x. cbv beta. symmetry. apply Z; auto.
Qed.

(** ** Jacobians *)
(** What iDynTree returns: the velocity of the second frame with respect to the first, seen in the second. *)
Hypothesis jac_ok : forall s f g i, frame_ok r f -> frame_ok r g -> (i < dofs)%nat -> moves (fun x => rel (vset s i x) f g) (s i) (jac s f g i).
Lemma jac_path s f g l i : frame_ok r f -> frame_ok r g -> (i < dofs)%nat -> path (up (fl f)) (fl f) (fl g) l ->
  (forall c p, In (c, p, i) l -> jac s f g i = m6v (Adj (rel s g c)) (motion_axis r i c)) /\
  ((forall c p, ~ In (c, p, i) l) -> jac s f g i = v60).
Proof.
  intros F G Hi P. pose proof (fl_lt r rok f F) as Hf. pose proof (fl_lt r rok g G) as Hg.
  destruct (rel_moves r place rok plc (fl f) (up (fl f)) (depth (fl f)) (trav _ Hf) Hf s f g l i F G eq_refl P) as [X Y].
  pose proof (jac_ok s f g i F G Hi) as J. split.
  - intros c p I. destruct (up_step _ _ _ _ _ _ Hf Hg P I) as (j & E & _ & _ & -> & _).
    refine (moves_unique _ _ _ _ _ J (X c p j I E)). cbv beta. rewrite vset_same. apply rel_rigid; auto.
  - intros NI. refine (moves_unique _ _ _ _ _ J _).
    + cbv beta. rewrite vset_same. apply rel_rigid; auto.
    + eapply moves_ext; [intros x; symmetry; apply (Y NI)|]. apply moves_const.
Qed.
Lemma jac_same s f g i : frame_ok r f -> frame_ok r g -> (i < dofs)%nat -> fl f = fl g -> jac s f g i = v60.
Proof. intros F G Hi E. apply (jac_path s f g [] i F G Hi); [rewrite <- E; constructor|]. intros ? ? HI. exact HI. Qed.
(** col(j) of the Jacobian is column j of its value. *)
Lemma jac_columns f g : frame_ok r f -> frame_ok r g -> exists A, jac_cols r dofs up f g = Some A /\ length A = dofs /\
  forall j, (j < dofs)%nat -> exists X, nth_error A j = Some X /\ forall rho, den VD UR UC UE rho X 6 1 (fun i _ => V (KJac f g) rho i j).
Proof.
  intros F G. destruct (jac_cols_spec UE ue_adj f g F G) as (A & l & P & E & L & I & O). exists A. split; [exact E|]. split; [exact L|].
  intros j Hj. destruct (path_in_dec l j) as [(v & p & IJ)|NI].
  - destruct (I _ _ _ IJ) as (X & EX & D). exists X. split; [exact EX|]. intros rho. eapply den_ext; [apply D|]. intros i k Hi Hk. cbv beta.
    cbn [val val1 val0]. destruct (jac_path (rho v_s) f g l j F G Hj P) as [JJ _]. rewrite (JJ v p IJ). reflexivity.
  - exists (FNull 6 1). split; [apply O; auto|]. intros rho. eapply den_ext; [apply den_null|]. intros i k Hi Hk. cbv beta.
    cbn [val val1 val0]. destruct (jac_path (rho v_s) f g l j F G Hj P) as [_ JJ]. rewrite (JJ NI). symmetry. apply v6ent_0.
Qed.
Lemma reljac_den rho f g : frame_ok r f -> frame_ok r g -> den VD UR UC UE rho (reljac dofs f g) 6 dofs (fun i j => v6ent (jac (rho v_s) f g j) i).
Proof.
  intros F G. unfold reljac. destruct (Nat.eqb_spec f g) as [->|N].
  - eapply den_ext; [apply den_null|]. intros i j Hi Hj. cbv beta. rewrite jac_same by auto. symmetry. apply v6ent_0.
  - eapply den_ext; [apply (leaf_den UE rho (KJac f g))|]. intros i j Hi Hj. rewrite ue_code. reflexivity.
Qed.
Lemma relrot_den rho f g : frame_ok r f -> frame_ok r g -> den VD UR UC UE rho (relrot f g) 3 3 (ment (rot (rel (rho v_s) f g))).
Proof.
  intros F G. unfold relrot. destruct (Nat.eqb_spec f g) as [->|N].
  - rewrite (rel_same r place rok plc) by auto. eapply den_ext; [apply den_ident|]. intros i j Hi Hj. cbv beta. split3 i; split3 j; reflexivity.
  - eapply den_ext; [apply (den_block VD UR UC UE rho _ 6 6 (m6ent (Adj (rel (rho v_s) f g)))); [apply (adj_den UE ue_adj false); auto|lia|lia]|].
    intros i j Hi Hj. cbv beta. split3 i; split3 j; reflexivity.
Qed.
(** ** Positions *)
Lemma pos_value f g rho : frame_ok r f -> frame_ok r g -> den VD UR UC UE rho (relpos f g) 3 1 (fun i _ => vent (pos (rel (rho v_s) f g)) i).
Proof.
  intros F G. unfold relpos. destruct (Nat.eqb_spec f g) as [->|N].
  - rewrite (rel_same r place rok plc) by auto. eapply den_ext; [apply den_null|]. intros i j Hi Hj. cbv beta. split3 i; reflexivity.
  - eapply den_ext; [apply (leaf_den UE rho (KPos f g))|]. intros i j Hi Hj. rewrite ue_code. reflexivity.
Qed.
Lemma pos_derivative_true f g : frame_ok r f -> frame_ok r g -> exists X, derivative r dofs up base bt bt_dep (KPos f g) 0 v_s = Some X /\
  frows VD UR UC X = 3%nat /\ fcols VD UR UC X = dofs /\ well_formed VD UR UC UE X /\
  forall rho i j, (i < 3)%nat -> (j < dofs)%nat -> is_derive (fun x => V (KPos f g) (at_entry rho v_s j x) i 0%nat) (rho v_s j) (M rho X i j).
Proof.
  intros F G. exists (pos_derivative dofs f g). split; [reflexivity|].
  assert (D : forall rho, den VD UR UC UE rho (pos_derivative dofs f g) 3 dofs (fun i j => vent (mv (rot (rel (rho v_s) f g)) (lin (jac (rho v_s) f g j))) i)).
  { intros rho. unfold pos_derivative. eapply den_ext; [eapply den_mul; [apply relrot_den; auto|
      apply (den_block VD UR UC UE rho _ 6 dofs); [apply reljac_den; auto|lia|lia]]|].
    intros i j Hi Hj. cbv beta. rewrite vent_mul by auto. apply sumn_ext. intros k Hk. f_equal. unfold v6ent. cbn [Nat.add].
    apply Nat.ltb_lt in Hk. rewrite Hk. reflexivity. }
  destruct (D (fun _ _ => 0)) as (W & R0 & C0 & _). split; [exact R0|]. split; [exact C0|]. split; [exact W|].
  intros rho i j Hi Hj. destruct (D rho) as (_ & _ & _ & E). rewrite E by auto.
  destruct (jac_ok (rho v_s) f g j F G Hj) as [_ P]. cbv beta in P. rewrite vset_same in P. apply vent_D with (i := i) in P.
  eapply is_derive_ext; [|exact P]. intros x. cbv beta. cbn [val val1 val0]. rewrite at_same. reflexivity.
Qed.

(** ** Quaternions *)
(** What asQuaternion returns: a unit quaternion of the rotation. *)
Hypothesis quat_ok : forall A, rotation A -> represents (quat A) A.
Lemma den_skew ue rho F a : den VD UR UC ue rho F 3 1 (fun i _ => a i) -> den VD UR UC ue rho (FSkew F) 3 3 (Quaternion.skew a).
Proof.
  intros (W & R0 & C0 & E). split; [exact (conj W (conj R0 C0))|]. split; [reflexivity|]. split; [reflexivity|].
  intros i j Hi Hj. pose proof (E 0%nat 0%nat ltac:(lia) ltac:(lia)) as E0. pose proof (E 1%nat 0%nat ltac:(lia) ltac:(lia)) as E1. pose proof (E 2%nat 0%nat ltac:(lia) ltac:(lia)) as E2.
  split3 i; split3 j; cbn [meaning Quaternion.skew]; rewrite ?E0, ?E1, ?E2; reflexivity.
Qed.
Lemma G_den ue rho F q : den VD UR UC ue rho F 4 1 (fun i _ => q i) ->
  den VD UR UC ue rho (G_formula F) 3 4 (fun k i => 2 * QuaternionLeftTrivializedDerivative q i k).
Proof.
  intros D. unfold G_formula.
  assert (DI : den VD UR UC ue rho (FBlock F 1 0 3 1) 3 1 (fun i _ => q (S i))) by (apply (den_block VD UR UC ue rho F 4 1 (fun i _ => q i)); [exact D|lia|lia]).
  pose proof (den_neg VD UR UC ue rho _ 3 1 _ DI) as DN.
  pose proof (den_elem VD UR UC ue rho F 4 1 _ 0 0 D ltac:(lia) ltac:(lia)) as D0.
  pose proof (den_scal_r VD UR UC ue rho _ _ 3 3 _ _ (den_ident VD UR UC ue rho 3) D0 ltac:(lia)) as D1.
  pose proof (den_add VD UR UC ue rho _ _ 3 3 _ _ D1 (den_skew ue rho _ (fun i => - q (S i)) DN)) as D2.
  eapply den_ext; [apply (den_horz VD UR UC ue rho _ _ 3 1 3 _ _ DN D2)|].
  intros k i Hk Hi. cbv beta. unfold QuaternionLeftTrivializedDerivative, tail3, identity.
  split3 k; (destruct i as [|[|[|[|i]]]]; try lia); cbn; lra.
Qed.
Lemma quat_value f g rho : frame_ok r f -> frame_ok r g -> f <> g -> den VD UR UC UE rho (relquat f g) 4 1 (fun i _ => quat (rot (rel (rho v_s) f g)) i).
Proof.
  intros F G N. unfold relquat. destruct (Nat.eqb_spec f g) as [|_]; [congruence|].
  eapply den_ext; [apply (leaf_den UE rho (KQuat f g))|]. intros i j Hi Hj. rewrite ue_code. reflexivity.
Qed.
Lemma quat_derivative_true f g : frame_ok r f -> frame_ok r g -> exists X, derivative r dofs up base bt bt_dep (KQuat f g) 0 v_s = Some X /\
  frows VD UR UC X = 4%nat /\ fcols VD UR UC X = dofs /\ well_formed VD UR UC UE X /\
  forall rho j, (j < dofs)%nat ->
    (exists d, forall k, (k < 4)%nat -> is_derive (fun x => V (KQuat f g) (at_entry rho v_s j x) k 0%nat) (rho v_s j) (d k)) ->
    forall i, (i < 4)%nat -> is_derive (fun x => V (KQuat f g) (at_entry rho v_s j x) i 0%nat) (rho v_s j) (M rho X i j).
Proof.
  intros F G. exists (quat_derivative dofs f g). split; [reflexivity|].
  assert (D : forall rho, den VD UR UC UE rho (quat_derivative dofs f g) 4 dofs
     (fun i j => mulv 3 (QuaternionLeftTrivializedDerivative (quat (rot (rel (rho v_s) f g)))) (vent (ang (jac (rho v_s) f g j))) i)).
  { intros rho. unfold quat_derivative.
    assert (DQ : den VD UR UC UE rho (leaf (KQuat f g)) 4 1 (fun i _ => quat (rot (rel (rho v_s) f g)) i)).
    { eapply den_ext; [apply (leaf_den UE rho (KQuat f g))|]. intros i j Hi Hj. rewrite ue_code. reflexivity. }
    pose proof (den_transp VD UR UC UE rho _ _ _ _ (G_den UE rho _ _ DQ)) as DG.
    pose proof (den_scal VD UR UC UE rho (scalar (1 / 2)) _ 4 3 (1 / 2) _ (den_const VD UR UC UE rho 1 1 _) DG) as DH.
    eapply den_ext; [eapply den_mul; [exact DH|apply (den_block VD UR UC UE rho _ 6 dofs _ 3 0 3 dofs (reljac_den rho f g F G)); lia]|].
    intros i j Hi Hj. cbv beta. unfold mulv. apply sumn_ext. intros k Hk.
    replace (v6ent (jac (rho v_s) f g (0 + j)%nat) (3 + k)%nat) with (vent (ang (jac (rho v_s) f g j)) k); [lra|].
    unfold v6ent. cbn [Nat.add]. split3 k; reflexivity. }
  destruct (D (fun _ _ => 0)) as (W & R0 & C0 & _). split; [exact R0|]. split; [exact C0|]. split; [exact W|].
  intros rho j Hj (d & Hd) i Hi. destruct (D rho) as (_ & _ & _ & E). rewrite E by auto.
  assert (Q : forall k x, V (KQuat f g) (at_entry rho v_s j x) k 0%nat = quat (rot (rel (vset (rho v_s) j x) f g)) k).
  { intros k x. cbn [val val1 val0]. rewrite at_same. reflexivity. }
  eapply D_eq; [apply Hd; auto|].
  pose proof (jac_ok (rho v_s) f g j F G Hj) as [DR _].
  assert (RR : forall s, rotation (rot (rel s f g))) by (intros s; apply (rel_rigid r place rok plc s f g F G)).
  pose proof (quat_curve (fun x => quat (rot (rel (vset (rho v_s) j x) f g))) (fun x => rot (rel (vset (rho v_s) j x) f g)) (rho v_s j) d (ang (jac (rho v_s) f g j))) as C.
  cbv beta in C, DR. rewrite vset_same in C, DR.
  apply C; auto.
Qed.

(** ** Velocities *)
Variable btw : env -> v6.
Hypothesis base_ok : (base < links)%nat.
(** What getFrameVel returns in the state rho, the base moving with btw. *)
Hypothesis fvel_ok : forall rho f, frame_ok r f -> frame_velocity r place base (rho v_s) (rho v_sdot) (btw rho) f (fvel rho f).
Notation WV := (W r place dofs jac).
Notation JVel := (JV dofs jac).
Lemma base_frame : frame_ok r base.
Proof. apply link_ok, base_ok. Qed.

(** There is a motion with any given velocities. *)
Definition line (b : v6) (t : R) : pose := Pose (madd m3I (mscale t (skew (ang b)))) (vscale t (lin b)).
Lemma line_moves b : moves (line b) 0 b.
Proof.
  destruct b as [[] []]. unfold moves, is_derive_m3, is_derive_v3, line, mm, mv, madd, m3I, mscale, skew, vscale. cbn.
  split; [split; [split; [|split]|split; [split; [|split]|split; [|split]]]|split; [|split]]; (auto_derive; [exact Logic.I|ring]).
Qed.
Lemma velocity_unique s sd b f w w' : frame_ok r f -> frame_velocity r place base s sd b f w -> frame_velocity r place base s sd b f w' -> w = w'.
Proof.
  intros F H H'. set (sc := fun t i => s i + t * sd i).
  assert (S0 : sc 0 = s) by (apply functional_extensionality; intros i; unfold sc; ring).
  assert (SD : forall i, is_derive (fun t => sc t i) 0 (sd i)) by (intros i; unfold sc; auto_derive; [exact Logic.I|ring]).
  refine (moves_unique _ _ _ _ _ (H (line b) sc 0 (line_moves b) S0 SD) (H' (line b) sc 0 (line_moves b) S0 SD)).
  apply rigid_mul; [|apply rel_rigid; auto; apply base_frame].
  replace (line b 0) with pid; [apply rotation_I|]. destruct b as [[] []]. unfold line, pid, madd, mscale, m3I, skew, vscale, v30. cbn. f_equal; f_equal; ring.
Qed.
Lemma W_velocity s sd b f : frame_ok r f -> frame_velocity r place base s sd b f (WV base s sd b f).
Proof.
  intros F H sc x M <- D. apply (W_curve r place dofs up depth jac rok plc trav one_dof jac_ok); auto. apply base_frame.
Qed.
Lemma fvel_W rho f : frame_ok r f -> fvel rho f = WV base (rho v_s) (rho v_sdot) (btw rho) f.
Proof. intros F. eapply velocity_unique; [exact F|apply fvel_ok; auto|apply W_velocity; auto]. Qed.

Lemma vel_value_all f g rho : frame_ok r f -> frame_ok r g -> forall i, V0 (KVel f g) rho i 0%nat = v6ent (JVel (rho v_s) (rho v_sdot) f g) i.
Proof.
  intros F G i. cbn [val0]. rewrite !fvel_W by auto. f_equal.
  rewrite (W_chain r place dofs jac rok plc jac_ok base _ _ _ f g) by (auto; apply base_frame).
  rewrite v6add_assoc, (v6add_comm (JVel _ _ _ _)), <- v6add_assoc, v6add_opp. apply v6add_0_l.
Qed.
Lemma jv_same s sd f : frame_ok r f -> JVel s sd f f = v60.
Proof. intros F. unfold JV. rewrite <- (v6sum_0 dofs). apply v6sum_ext. intros k Hk. rewrite jac_same, v6scale_0; auto. Qed.
Section Vel.
Variable ue : nat -> env -> mat.
Hypothesis ue_adj : forall w f g, ue (code (KAdj w f g)) = V0 (KAdj w f g).
Hypothesis ue_jac : forall f g, ue (code (KJac f g)) = V0 (KJac f g).
Hypothesis ue_vel : forall f g, ue (code (KVel f g)) = V0 (KVel f g).
Lemma relvel_den rho f g : frame_ok r f -> frame_ok r g -> den VD UR UC ue rho (relvel f g) 6 1 (fun i _ => v6ent (JVel (rho v_s) (rho v_sdot) f g) i).
Proof.
  intros F G. unfold relvel. destruct (Nat.eqb_spec f g) as [->|N].
  - rewrite jv_same by auto. eapply den_ext; [apply den_null|]. intros i j Hi Hj. symmetry. apply v6ent_0.
  - eapply den_ext; [apply (leaf_den ue rho (KVel f g))|]. intros i j Hi Hj. cbn in Hj. assert (j = 0%nat) by lia. subst j. rewrite ue_vel. apply vel_value_all; auto.
Qed.
End Vel.
Lemma vel_this_den rho f g : frame_ok r f -> frame_ok r g -> den VD UR UC UE rho (vel_this dofs f g) 6 1 (fun i _ => v6ent (JVel (rho v_s) (rho v_sdot) f g) i).
Proof.
  intros F G. unfold vel_this. eapply den_ext; [eapply den_mul; [apply reljac_den; auto|apply den_var]|].
  intros i j Hi Hj. cbv beta. unfold JV. rewrite v6ent_sum. apply sumn_ext. intros k Hk. rewrite v6ent_scale. ring.
Qed.
Lemma vel_value f g rho i : frame_ok r f -> frame_ok r g -> V (KVel f g) rho i 0%nat = v6ent (JVel (rho v_s) (rho v_sdot) f g) i.
Proof. intros F G. cbn [val val1]. apply vel_value_all; auto. Qed.

(** The derivatives of the relative velocity. *)
Lemma JV_W s sd f g : frame_ok r f -> frame_ok r g -> JVel s sd f g = WV f s sd v60 g.
Proof. intros F G. unfold W. rewrite m6v_0, v6add_0_l. reflexivity. Qed.
Lemma W_linear a s sd b f j : (j < dofs)%nat -> is_derive_v6 (fun x => WV a s (vset sd j x) b f) (sd j) (jac s a f j).
Proof.
  intros Hj. unfold W. replace (jac s a f j) with (v6add v60 (v6sum dofs (fun k => if (k =? j)%nat then jac s a f j else v60))).
  - apply v6_D_add; [apply v6_D_const|]. apply v6_D_sum. intros k Hk. destruct (Nat.eqb_spec k j) as [->|N].
    + eapply v6_D_ext; [intros x; rewrite vset_at; reflexivity|].
      destruct (jac s a f j) as [[] []]. unfold is_derive_v6, is_derive_v3, v6scale, vscale. cbn.
      split; (split; [|split]); (auto_derive; [exact Logic.I|ring]).
    + eapply v6_D_ext; [intros x; rewrite vset_other by auto; reflexivity|]. apply v6_D_const.
  - rewrite v6add_0_l. apply v6sum_one; auto.
Qed.
Lemma W_ex a s sd b f j : frame_ok r a -> frame_ok r f -> (j < dofs)%nat -> exists d, is_derive_v6 (fun x => WV a (vset s j x) sd b f) (s j) d.
Proof.
  intros A F Hj. destruct (up_path _ _ (fl_lt r rok a A) (fl_lt r rok f F)) as (l & P).
  destruct (W_moves r place dofs up depth jac rok plc trav one_dof jac_ok a s sd b f l j A F Hj P) as [X Y].
  destruct (path_in_dec l j) as [(c & p & I)|NI]; [|eauto].
  destruct (up_step _ _ _ _ _ _ (fl_lt r rok a A) (fl_lt r rok f F) P I) as (jt & E & _). eauto.
Qed.
Lemma vel_derivative_true f g v : frame_ok r f -> frame_ok r g -> exists X, derivative r dofs up base bt bt_dep (KVel f g) 0 v = Some X /\
  frows VD UR UC X = 6%nat /\ fcols VD UR UC X = VD v /\ well_formed VD UR UC UE X /\
  (forall rho i j, (i < 6)%nat -> (j < VD v)%nat -> is_derive (fun x => V (KVel f g) (at_entry rho v j x) i 0%nat) (rho v j) (M rho X i j)) /\
  (v = v_sdot -> forall rho i j, (i < 6)%nat -> (j < dofs)%nat -> M rho X i j = V (KJac f g) rho i j) /\
  (v <> v_s -> v <> v_sdot -> forall rho i j, (i < 6)%nat -> M rho X i j = 0).
Proof.
  intros F G. exists (FDeriv (vel_this dofs f g) 0 v). split; [reflexivity|].
  destruct (vel_this_den (fun _ _ => 0) f g F G) as (Wf & R0 & C0 & _).
  split; [exact R0|]. split; [reflexivity|]. split; [split; [exact Wf|rewrite C0; lia]|].
  assert (Q : forall rho j x i, (i < 6)%nat -> M (at_entry rho v j x) (vel_this dofs f g) i 0%nat = V (KVel f g) (at_entry rho v j x) i 0%nat).
  { intros rho j x i Hi. rewrite vel_value by auto. destruct (vel_this_den (at_entry rho v j x) f g F G) as (_ & _ & _ & E). apply E; auto. }
  assert (S : forall rho i j, (i < 6)%nat -> (v = v_s \/ v = v_sdot -> (j < dofs)%nat) -> exists d, is_derive (fun x => V (KVel f g) (at_entry rho v j x) i 0%nat) (rho v j) d /\
     (v = v_sdot -> d = V (KJac f g) rho i j) /\ (v <> v_s -> v <> v_sdot -> d = 0)).
  { intros rho i j Hi Hj. destruct (Nat.eq_dec v v_s) as [->|Ns]; [|destruct (Nat.eq_dec v v_sdot) as [->|Nd]].
    - destruct (W_ex f (rho v_s) (rho v_sdot) v60 g j F G ltac:(auto)) as (d & D). apply v6ent_D with (i := i) in D. exists (v6ent d i). split; [|split; [discriminate|congruence]].
      eapply is_derive_ext; [|exact D]. intros x. cbv beta. rewrite vel_value by auto. rewrite at_same, at_other by discriminate. rewrite JV_W by auto. reflexivity.
    - pose proof (W_linear f (rho v_s) (rho v_sdot) v60 g j ltac:(auto)) as D. apply v6ent_D with (i := i) in D. eexists. split; [|split; [|congruence]].
      + eapply is_derive_ext; [|exact D]. intros x. cbv beta. rewrite vel_value by auto. rewrite at_same, at_other by discriminate. rewrite JV_W by auto. reflexivity.
      + intros _. reflexivity.
    - exists 0. split; [|split; [congruence|reflexivity]]. eapply is_derive_ext; [|apply D_const]. intros x. cbv beta. symmetry. rewrite vel_value by auto. rewrite !at_other by auto. reflexivity. }
  assert (T : forall rho i j, (i < 6)%nat -> (v = v_s \/ v = v_sdot -> (j < dofs)%nat) -> is_derive (fun x => V (KVel f g) (at_entry rho v j x) i 0%nat) (rho v j) (M rho (FDeriv (vel_this dofs f g) 0 v) i j)).
  { intros rho i j Hi Hj. destruct (S rho i j Hi Hj) as (d & D & _). cbn [meaning].
    rewrite (Derive_ext _ (fun x => V (KVel f g) (at_entry rho v j x) i 0%nat)) by (intros t; apply Q; auto). apply Derive_correct. exists d. exact D. }
  split; [|split].
  - intros rho i j Hi Hj. apply T; auto. intros [-> | ->]; exact Hj.
  - intros E rho i j Hi Hj. destruct (S rho i j Hi ltac:(auto)) as (d & D & Z & _). rewrite <- (Z E). eapply D_unique; [apply T; auto|exact D].
  - intros N1 N2 rho i j Hi. destruct (S rho i j Hi ltac:(intros [? | ?]; contradiction)) as (d & D & _ & Z). rewrite <- (Z N1 N2). eapply D_unique; [apply T; auto|exact D].
    intros [? | ?]; contradiction.
Qed.
(** The columns of the Jacobian: their derivative. *)
Lemma jac_derivative_true f g c v : frame_ok r f -> frame_ok r g -> (c < dofs)%nat -> exists X, derivative r dofs up base bt bt_dep (KJac f g) c v = Some X /\
  frows VD UR UC X = 6%nat /\ fcols VD UR UC X = VD v /\ well_formed VD UR UC UE X /\
  (forall rho i j, (i < 6)%nat -> (j < VD v)%nat -> is_derive (fun x => V (KJac f g) (at_entry rho v j x) i c) (rho v j) (M rho X i j)).
Proof.
  intros F G Hc. cbn [derivative]. destruct (Nat.eqb_spec v v_s) as [->|N].
  - destruct (jac_columns f g F G) as (A & E & L & C). rewrite E. cbn [nth_col]. destruct (C c Hc) as (Y & -> & D). cbn [option_map].
    exists (FDeriv Y 0 v_s). split; [reflexivity|]. destruct (D (fun _ _ => 0)) as (Wf & R0 & C0 & _).
    split; [exact R0|]. split; [reflexivity|]. split; [split; [exact Wf|rewrite C0; lia]|].
    intros rho i j Hi Hj. cbn [meaning].
    rewrite (Derive_ext _ (fun x => V (KJac f g) (at_entry rho v_s j x) i c)).
    2:{ intros t. destruct (D (at_entry rho v_s j t)) as (_ & _ & _ & DE). apply DE; auto. }
    apply Derive_correct.
    set (sd := fun k : nat => if (k =? c)%nat then 1 else 0).
    destruct (W_ex f (rho v_s) sd v60 g j F G Hj) as (d & DD). apply v6ent_D with (i := i) in DD. exists (v6ent d i).
    eapply is_derive_ext; [|exact DD]. intros x. cbv beta. rewrite <- JV_W by auto. cbn [val val1 val0]. rewrite at_same. f_equal.
    unfold JV. rewrite <- (v6sum_one dofs c (jac (vset (rho v_s) j x) f g c) Hc) at 1. apply v6sum_ext. intros k Hk. unfold sd.
    destruct (Nat.eqb_spec k c) as [->|]; [|rewrite v6scale_z; reflexivity].
    destruct (jac (vset (rho v_s) j x) f g c) as [[] []]. unfold v6scale, vscale. cbn. f_equal; f_equal; ring.
  - exists (FNull 6 (VD v)). split; [reflexivity|]. split; [reflexivity|]. split; [reflexivity|]. split; [exact Logic.I|].
    intros rho i j Hi Hj. cbn [meaning]. eapply is_derive_ext; [|apply D_const]. intros x. cbv beta. cbn [val val1 val0].
    rewrite at_other by auto. reflexivity.
Qed.

(** ** Absolute velocities *)
Hypothesis bt_pure : users (fun _ => false) bt = true.
Hypothesis bt_wf : well_formed VD UR UC UE bt.
Hypothesis bt_rows : frows VD UR UC bt = 6%nat.
Hypothesis bt_cols : fcols VD UR UC bt = 1%nat.
Hypothesis bt_false : forall v, bt_dep v = false -> forall rho x i, (i < 6)%nat -> M (env_set rho v x) bt i 0%nat = M rho bt i 0%nat.
Hypothesis bt_s : bt_dep v_s = false.
Hypothesis bt_sdot : bt_dep v_sdot = false.
(** The value of the twist of the base. *)
Definition B (rho : env) : v6 :=
  V6 (V3 (M rho bt 0 0) (M rho bt 1 0) (M rho bt 2 0)) (V3 (M rho bt 3 0) (M rho bt 4 0) (M rho bt 5 0)).
Lemma B_ent rho i : (i < 6)%nat -> v6ent (B rho) i = M rho bt i 0%nat.
Proof. intros H. do 6 (destruct i as [|i]; [reflexivity|]). lia. Qed.
Lemma bt_den ue rho : den VD UR UC ue rho bt 6 1 (fun i _ => v6ent (B rho) i).
Proof.
  split; [eapply users_wf; eauto|]. split; [exact bt_rows|]. split; [exact bt_cols|]. intros i j Hi Hj. assert (j = 0%nat) by lia. subst j.
  rewrite B_ent by auto. apply users_meaning; auto.
Qed.
Lemma B_indep rho v j x : bt_dep v = false -> B (at_entry rho v j x) = B rho.
Proof. intros H. unfold B. unfold at_entry. rewrite !(bt_false v H) by lia. reflexivity. Qed.
Section AbsV.
Variable ue : nat -> env -> mat.
Hypothesis ue_adj : forall w f g, ue (code (KAdj w f g)) = V0 (KAdj w f g).
Hypothesis ue_vel : forall f g, ue (code (KVel f g)) = V0 (KVel f g).
Lemma abs_this_den rho f : frame_ok r f -> den VD UR UC ue rho (abs_this base bt f) 6 1 (fun i _ => v6ent (WV base (rho v_s) (rho v_sdot) (B rho) f) i).
Proof.
  intros F. pose proof base_frame as OB. unfold abs_this. eapply den_ext; [eapply den_add; [apply (relvel_den ue ue_vel); auto|
    apply (den_mulv ue); [apply (adj_den ue ue_adj false); auto|apply bt_den]]|].
  intros i j Hi Hj. cbv beta. unfold W. rewrite v6ent_add. cbn [AdjOf]. change (v6sum dofs _) with (JVel (rho v_s) (rho v_sdot) base f). ring.
Qed.
End AbsV.
Lemma ue0_vel f g : UE0 (code (KVel f g)) = V0 (KVel f g).
Proof. unfold ueval0. rewrite decode_code. reflexivity. Qed.
Lemma ue1_vel f g : UE1 (code (KVel f g)) = V0 (KVel f g).
Proof. unfold ueval1. rewrite decode_code. reflexivity. Qed.
Lemma abs_value1 f rho i : frame_ok r f -> (i < 6)%nat -> V1 (KAbs f) rho i 0%nat = v6ent (WV base (rho v_s) (rho v_sdot) (B rho) f) i.
Proof. intros F Hi. cbn [val1]. destruct (abs_this_den UE0 ue0_adj ue0_vel rho f F) as (_ & _ & _ & E). apply E; auto. Qed.
Lemma abs_value f rho i : frame_ok r f -> (i < 6)%nat -> V (KAbs f) rho i 0%nat = v6ent (WV base (rho v_s) (rho v_sdot) (B rho) f) i.
Proof. intros F Hi. apply abs_value1; auto. Qed.
Lemma W_base s sd b : WV base s sd b base = b.
Proof.
  pose proof base_frame as OB. unfold W. change (v6sum dofs _) with (JVel s sd base base). rewrite jv_same by auto.
  rewrite (rel_same r place rok plc), Adj_id, m6v_I by auto. apply v6add_0_r.
Qed.
Lemma absvel_den1 rho f : frame_ok r f -> den VD UR UC UE1 rho (absvel base bt f) 6 1 (fun i _ => v6ent (WV base (rho v_s) (rho v_sdot) (B rho) f) i).
Proof.
  intros F. unfold absvel. destruct (Nat.eqb_spec f base) as [->|N].
  - rewrite W_base. apply bt_den.
  - eapply den_ext; [apply (leaf_den UE1 rho (KAbs f))|]. intros i j Hi Hj. cbn in Hj. assert (j = 0%nat) by lia. subst j.
    unfold ueval1. rewrite decode_code. apply abs_value1; auto.
Qed.
Lemma absvel_den rho f : frame_ok r f -> den VD UR UC UE rho (absvel base bt f) 6 1 (fun i _ => v6ent (WV base (rho v_s) (rho v_sdot) (B rho) f) i).
Proof.
  intros F. unfold absvel. destruct (Nat.eqb_spec f base) as [->|N].
  - rewrite W_base. apply bt_den.
  - eapply den_ext; [apply (leaf_den UE rho (KAbs f))|]. intros i j Hi Hj. cbn in Hj. assert (j = 0%nat) by lia. subst j.
    rewrite ue_code. apply abs_value; auto.
Qed.
Lemma absD_cols_spec f : frame_ok r f -> exists A l,
  path (up (fl base)) (fl base) (fl f) l /\ absD_cols r dofs up base bt f = Some (A, map snd l) /\ length A = dofs /\
  (forall v p j, In (v, p, j) l -> exists X, nth_error A j = Some X /\
     forall ue, (forall w f g, ue (code (KAdj w f g)) = V0 (KAdj w f g)) -> 
     (forall rho f, frame_ok r f -> den VD UR UC ue rho (absvel base bt f) 6 1 (fun i _ => v6ent (WV base (rho v_s) (rho v_sdot) (B rho) f) i)) ->
     forall rho, den VD UR UC ue rho X 6 1
     (fun i _ => v6ent (m6v (Adj (rel (rho v_s) f v)) (v6opp (m6v (adx (motion_axis r j v)) (WV base (rho v_s) (rho v_sdot) (B rho) v)))) i)) /\
  (forall j, (j < dofs)%nat -> (forall v p, ~ In (v, p, j) l) -> nth_error A j = Some (FNull 6 1)).
Proof.
  intros F. pose proof base_frame as OB. pose proof (fl_lt r rok base OB) as Hb. pose proof (fl_lt r rok f F) as Hf.
  destruct (up_path _ _ Hb Hf) as (l & P). unfold absD_cols.
  rewrite (walk_path _ _ _ _ _ P) by (unfold fuel; generalize (up_short _ _ _ Hb Hf P); lia).
  rewrite (fold_put_nz (fun v j => FMul (FMul (adj false f v) (FNeg (cross r false j v))) (absvel base bt v))).
  destruct (fold_put (fun v j => FMul (FMul (adj false f v) (FNeg (cross r false j v))) (absvel base bt v)) l (up_nodup _ _ _ Hb Hf P) (repeat (FNull 6 1) dofs)) as (A & -> & L & I & O).
  { intros v p j Ij. rewrite repeat_length. destruct (up_step _ _ _ _ _ _ Hb Hf P Ij) as (_ & _ & _ & A1 & _). auto. }
  exists A, l. split; [exact P|]. split; [reflexivity|]. rewrite repeat_length in L. split; [exact L|]. split.
  - intros v p j Ij. exists (FMul (FMul (adj false f v) (FNeg (cross r false j v))) (absvel base bt v)). split; [apply (I _ _ _ Ij)|].
    intros ue UA UV rho. destruct (up_step _ _ _ _ _ _ Hb Hf P Ij) as (_ & _ & Hv & _). apply (link_ok r) in Hv.
    rewrite <- m6v_neg, <- m6v_mul. apply (den_mulv ue); [|apply UV; auto]. apply (den_mul6 ue); [apply (adj_den ue UA false); auto|].
    eapply den_ext; [apply den_neg; apply (cross_den ue false)|]. intros i k Hi Hk. cbv beta. cbn [adOf].
    generalize (adx (motion_axis r j v)). intros D. unfold m6ent, m6neg. cbn [bll bla bal baa].
    assert (MN : forall X a b, ment (mneg X) a b = - ment X a b). { intros X a b. destruct a as [|[|[|a]]], b as [|[|[|b]]]; cbn; ring. }
    destruct (i <? 3)%nat, (k <? 3)%nat; rewrite MN; reflexivity.
  - intros j Hj NI. rewrite (O j NI). rewrite (nth_error_nth' _ (FNull 6 1)) by (rewrite repeat_length; auto). rewrite nth_repeat. reflexivity.
Qed.
(** The value of the derivative of the absolute velocity with respect to the joints is that derivative. *)
Lemma absD_value f rho j i : frame_ok r f -> (i < 6)%nat -> (j < dofs)%nat ->
  is_derive (fun x => V (KAbs f) (at_entry rho v_s j x) i 0%nat) (rho v_s j) (V (KAbsD f) rho i j).
Proof.
  intros F Hi Hj. pose proof base_frame as OB. destruct (absD_cols_spec f F) as (A & l & P & E & L & I & O).
  destruct (W_moves r place dofs up depth jac rok plc trav one_dof jac_ok base (rho v_s) (rho v_sdot) (B rho) f l j OB F Hj P) as [X Y].
  cbn [val]. unfold filled. rewrite E, fill_spec.
  apply is_derive_ext with (f := fun x => v6ent (WV base (vset (rho v_s) j x) (rho v_sdot) (B rho) f) i).
  { intros x. change (val1 r dofs up base bt rel jac fvel quat (KAbs f) (at_entry rho v_s j x) i 0%nat) with (V1 (KAbs f) (at_entry rho v_s j x) i 0%nat).
    rewrite abs_value1 by auto. rewrite at_same, (at_other rho v_s j x v_sdot) by discriminate. rewrite B_indep by auto. reflexivity. }
  destruct (path_in_dec l j) as [(v & p & IJ)|NI].
  - replace (existsb (Nat.eqb j) (map snd l)) with true by (symmetry; apply existsb_path; eauto).
    destruct (I _ _ _ IJ) as (Z & EZ & D). rewrite (nth_error_default _ _ _ _ EZ).
    destruct (D UE1 ue1_adj absvel_den1 rho) as (_ & _ & _ & DE). rewrite DE by auto.
    destruct (up_step _ _ _ _ _ _ (fl_lt r rok base OB) (fl_lt r rok f F) P IJ) as (jt & EJ & _ & _ & -> & _).
    apply (v6ent_D (fun x => WV base (vset (rho v_s) j x) (rho v_sdot) (B rho) f)). eapply X; eauto.
  - destruct (existsb (Nat.eqb j) (map snd l)) eqn:Q; [apply existsb_path in Q; destruct Q as (v & p & Q); exfalso; eapply NI; eauto|].
    specialize (Y NI). apply v6ent_D with (i := i) in Y. rewrite v6ent_0 in Y. exact Y.
Qed.
(** col(j) of that derivative is column j of its value. *)
Lemma absD_columns f : frame_ok r f -> exists A, option_map fst (absD_cols r dofs up base bt f) = Some A /\ length A = dofs /\
  forall j, (j < dofs)%nat -> exists X, nth_error A j = Some X /\ forall rho, den VD UR UC UE rho X 6 1 (fun i _ => V (KAbsD f) rho i j).
Proof.
  intros F. destruct (absD_cols_spec f F) as (A & l & P & E & L & I & O). exists A. rewrite E. split; [reflexivity|]. split; [exact L|].
  intros j Hj. destruct (path_in_dec l j) as [(v & p & IJ)|NI].
  - destruct (I _ _ _ IJ) as (X & EX & D). exists X. split; [exact EX|]. intros rho. eapply den_ext; [apply (D UE ue_adj absvel_den)|].
    intros i k Hi Hk. cbv beta. cbn [val]. unfold filled. rewrite E, fill_spec.
    replace (existsb (Nat.eqb j) (map snd l)) with true by (symmetry; apply existsb_path; eauto).
    rewrite (nth_error_default _ _ _ _ EX). destruct (D UE1 ue1_adj absvel_den1 rho) as (_ & _ & _ & DE). symmetry. apply DE; auto.
  - exists (FNull 6 1). split; [apply O; auto|]. intros rho. eapply den_ext; [apply den_null|].
    intros i k Hi Hk. cbv beta. cbn [val]. unfold filled. rewrite E, fill_spec.
    destruct (existsb (Nat.eqb j) (map snd l)) eqn:Q; [apply existsb_path in Q; destruct Q as (v & p & Q); exfalso; eapply NI; eauto|reflexivity].
Qed.
Lemma abs_derivative_true f v : frame_ok r f -> exists X, derivative r dofs up base bt bt_dep (KAbs f) 0 v = Some X /\
  frows VD UR UC X = 6%nat /\ fcols VD UR UC X = VD v /\ well_formed VD UR UC UE X /\
  (forall rho i j, (i < 6)%nat -> (j < VD v)%nat -> (bt_dep v = true -> forall k, (k < 6)%nat -> ex_derive (fun x => M (at_entry rho v j x) bt k 0%nat) (rho v j)) ->
     is_derive (fun x => V (KAbs f) (at_entry rho v j x) i 0%nat) (rho v j) (M rho X i j)).
Proof.
  intros F. pose proof base_frame as OB. cbn [derivative]. 
  destruct (Nat.eqb_spec v v_s) as [->|Ns]; [|destruct (Nat.eqb_spec v v_sdot) as [->|Nd]; [|destruct (bt_dep v) eqn:BD]].
  - exists (absvelD dofs base f). split; [reflexivity|]. unfold absvelD. destruct (Nat.eqb_spec f base) as [->|N].
    + split; [reflexivity|]. split; [reflexivity|]. split; [exact Logic.I|]. intros rho i j Hi Hj HB. cbn [meaning].
      eapply is_derive_ext; [|apply D_const]. intros x. cbv beta. symmetry. rewrite abs_value by auto. rewrite W_base, B_indep by auto. reflexivity.
    + destruct (leaf_den UE (fun _ _ => 0) (KAbsD f)) as (Wf & R0 & C0 & _). split; [exact R0|]. split; [exact C0|]. split; [exact Wf|].
      intros rho i j Hi Hj HB. rewrite M_leaf. apply absD_value; auto.
  - exists (reljac dofs base f). split; [reflexivity|]. destruct (reljac_den (fun _ _ => 0) base f OB F) as (Wf & R0 & C0 & _).
    split; [exact R0|]. split; [exact C0|]. split; [exact Wf|]. intros rho i j Hi Hj HB.
    destruct (reljac_den rho base f OB F) as (_ & _ & _ & E). rewrite E by auto.
    pose proof (W_linear base (rho v_s) (rho v_sdot) (B rho) f j Hj) as D. apply v6ent_D with (i := i) in D.
    eapply is_derive_ext; [|exact D]. intros x. cbv beta. rewrite abs_value by auto. rewrite at_same, (at_other rho v_sdot j x v_s) by discriminate. rewrite B_indep by auto. reflexivity.
  - exists (FMul (adj false f base) (FDeriv bt 0 v)). split; [reflexivity|].
    assert (DD : forall rho, den VD UR UC UE rho (FDeriv bt 0 v) 6 (VD v) (fun i j => M rho (FDeriv bt 0 v) i j)).
    { intros rho. split; [split; [exact bt_wf|rewrite bt_cols; lia]|]. split; [exact bt_rows|]. split; [reflexivity|]. reflexivity. }
    assert (DM : forall rho, den VD UR UC UE rho (FMul (adj false f base) (FDeriv bt 0 v)) 6 (VD v) (fun i j => sumn 6 (fun k => m6ent (Adj (rel (rho v_s) f base)) i k * M rho (FDeriv bt 0 v) k j))).
    { intros rho. eapply den_mul; [apply (adj_den UE ue_adj false); auto|apply DD]. }
    destruct (DM (fun _ _ => 0)) as (Wf & R0 & C0 & _). split; [exact R0|]. split; [exact C0|]. split; [exact Wf|].
    intros rho i j Hi Hj HB. destruct (DM rho) as (_ & _ & _ & E). rewrite E by auto.
    assert (Q : forall x, V (KAbs f) (at_entry rho v j x) i 0%nat =
        sumn 6 (fun k => m6ent (Adj (rel (rho v_s) f base)) i k * M (at_entry rho v j x) bt k 0%nat) + v6ent (JVel (rho v_s) (rho v_sdot) base f) i).
    { intros x. rewrite abs_value by auto. unfold W. rewrite v6ent_add, !at_other by auto. change (v6sum dofs _) with (JVel (rho v_s) (rho v_sdot) base f).
      f_equal. rewrite v6ent_mul by auto. apply sumn_ext. intros k Hk. f_equal. apply B_ent; auto. }
    eapply is_derive_ext; [intros x; symmetry; apply Q|].
    eapply D_eq; [apply D_plus; [apply D_sumn; intros k Hk; apply D_mult; [apply D_const|]|apply D_const]|].
    + exact (Derive_correct _ _ (HB eq_refl k Hk)).
    + cbv beta. rewrite Rplus_0_r. apply sumn_ext. intros k Hk. cbn [meaning]. rewrite Rmult_0_l, Rplus_0_l. reflexivity.
  - exists (FNull 6 (VD v)). split; [reflexivity|]. split; [reflexivity|]. split; [reflexivity|]. split; [exact Logic.I|].
    intros rho i j Hi Hj HB. cbn [meaning]. eapply is_derive_ext; [|apply D_const]. intros x. cbv beta. symmetry. rewrite abs_value by auto. rewrite !at_other, B_indep by auto. reflexivity.
Qed.
(** The value is the velocity of the frame when the base moves with the given twist. *)
Lemma abs_velocity f rho : frame_ok r f -> exists w, frame_velocity r place base (rho v_s) (rho v_sdot) (B rho) f w /\
  forall i, (i < 6)%nat -> M rho (absvel base bt f) i 0%nat = v6ent w i.
Proof.
  intros F. exists (WV base (rho v_s) (rho v_sdot) (B rho) f). split; [apply W_velocity; auto|]. intros i Hi.
  destruct (absvel_den rho f F) as (_ & _ & _ & E). apply E; auto.
Qed.
End Kin.
