(** How the relative transforms of a robot move with the joints (no model of the code here). *)
From Coq Require Import Reals List Arith Lia Lra Bool FunctionalExtensionality.
From Coquelicot Require Import Coquelicot.
From Verif Require Import Spec PartialLib SpecRigid Rigid RigidCalc.
Import ListNotations.
Local Open Scope R_scope.

(** The steps (child, parent, joint) from link [t] up to link [b]. *)
Inductive path (up : nat -> option (nat * nat)) (b : nat) : nat -> list (nat * nat * nat) -> Prop :=
| path_nil : path up b b []
| path_cons t p i l : t <> b -> up t = Some (p, i) -> path up b p l -> path up b t ((t, p, i) :: l).

Lemma path_fun up b t l : path up b t l -> forall l', path up b t l' -> l = l'.
Proof. induction 1; intros l' P; inversion P; subst; try congruence.
  assert (p0 = p /\ i0 = i) as [-> ->] by (split; congruence). f_equal. apply IHpath. auto.
Qed.

Section Tree.
Variable r : robot.
Variable place : vec -> nat -> pose.
Hypothesis rok : robot_ok r.
Hypothesis plc : placement r place.
Notation links := (r_links r).

Definition rl (s : vec) (a c : nat) : pose := pmul (pinv (place s a)) (place s c).
Lemma place_rigid s l : (l < links)%nat -> rigid (place s l).
Proof. apply plc. Qed.
Lemma rl_rigid s a c : (a < links)%nat -> (c < links)%nat -> rigid (rl s a c).
Proof. intros. apply rigid_mul; [apply rigid_inv|]; apply place_rigid; auto. Qed.
Lemma rl_same s a : (a < links)%nat -> rl s a a = pid.
Proof. intros. apply pinv_l, place_rigid; auto. Qed.
Lemma rl_mul s a c d : (c < links)%nat -> pmul (rl s a c) (rl s c d) = rl s a d.
Proof.
  intros H. unfold rl. rewrite pmul_assoc, <- (pmul_assoc (place s c)), pinv_r, pmul_id_l by (apply place_rigid; auto). reflexivity.
Qed.
Lemma rl_inv s a c : (a < links)%nat -> pinv (rl s a c) = rl s c a.
Proof. intros H. unfold rl. rewrite pinv_mul, pinv_inv; auto; try apply rigid_inv; apply place_rigid; auto. Qed.

(** One joint. *)
Lemma edge_moves s p c i j : nth_error (r_joints r) i = Some j -> connects j p c -> p <> c -> (p < links)%nat -> (c < links)%nat ->
  moves (fun x => rl (vset s i x) p c) (s i) (axis_of j c) /\
  (forall k x, k <> i -> rl (vset s k x) p c = rl s p c).
Proof.
  intros E C N Hp Hc. destruct plc as [PR PJ]. destruct (proj1 rok i j E) as [[JR [J1 J2]] _].
  destruct C as [[C1 C2]|[C1 C2]].
  - assert (Q : forall s, rl s p c = j_pose j (s i)).
    { intros s'. unfold rl. pose proof (PJ s' i j E) as Z. rewrite C1, C2 in Z. rewrite Z, <- pmul_assoc, pinv_l, pmul_id_l by auto. reflexivity. }
    split.
    + unfold axis_of. rewrite C2, Nat.eqb_refl. eapply moves_ext; [|apply J1]. intros t. rewrite Q. unfold vset. rewrite Nat.eqb_refl. reflexivity.
    + intros k x K. rewrite !Q. unfold vset. apply not_eq_sym, Nat.eqb_neq in K. rewrite K. reflexivity.
  - assert (Q : forall s, rl s p c = pinv (j_pose j (s i))).
    { intros s'. unfold rl. pose proof (PJ s' i j E) as Z. rewrite C1, C2 in Z. rewrite Z.
      rewrite pinv_mul by auto. rewrite pmul_assoc, pinv_l, pmul_id_r by auto. reflexivity. }
    split.
    + unfold axis_of. rewrite C2. apply Nat.eqb_neq in N. rewrite N. eapply moves_ext; [|apply J2].
      intros t. cbv beta. rewrite Q. unfold vset. rewrite Nat.eqb_refl. reflexivity.
    + intros k x K. rewrite !Q. unfold vset. apply not_eq_sym, Nat.eqb_neq in K. rewrite K. reflexivity.
Qed.

Variable b : nat.
Variable up : nat -> option (nat * nat).
Variable depth : nat -> nat.
Hypothesis trav : traversal r b up depth.
Hypothesis Hb : (b < links)%nat.

Lemma path_exists t : (t < links)%nat -> exists l, path up b t l /\ (length l <= depth t)%nat.
Proof.
  remember (depth t) as n eqn:E. revert t E. induction n as [n IH] using lt_wf_ind. intros t E Ht.
  destruct (Nat.eq_dec t b) as [->|N]; [exists []; split; [constructor|cbn; lia]|].
  destruct (trav t Ht N) as (p & i & j & U & _ & _ & Hp & D). destruct (IH (depth p) ltac:(lia) p eq_refl Hp) as (l & P & L).
  exists ((t, p, i) :: l). split; [econstructor; eauto|cbn; lia].
Qed.
Lemma path_step t l c p i : path up b t l -> (t < links)%nat -> In (c, p, i) l ->
  (c < links)%nat /\ c <> b /\ up c = Some (p, i) /\ (depth c <= depth t)%nat /\
  exists j, nth_error (r_joints r) i = Some j /\ connects j p c /\ (p < links)%nat /\ (depth p < depth c)%nat.
Proof.
  intros P. induction P as [|t q k l N U P IH]; intros Ht I; [contradiction|].
  destruct (trav t Ht N) as (p' & i' & j & U' & E & C & Hp & D). rewrite U in U'. injection U' as <- <-. destruct I as [I|I].
  - injection I as <- <- <-. repeat split; auto. exists j; auto.
  - destruct (IH Hp I) as (A & B & U2 & L & X). repeat split; auto. lia.
Qed.
Lemma path_joint_fresh t p i l : path up b t ((t, p, i) :: l) -> (t < links)%nat -> forall c q, ~ In (c, q, i) l.
Proof.
  intros P Ht c q I. inversion P as [|? ? ? ? N U P' E1]; subst.
  destruct (trav t Ht N) as (p' & i' & j & U' & E & C & Hp & D). rewrite U in U'. injection U' as <- <-.
  destruct (path_step _ _ _ _ _ P' Hp I) as (Hc & _ & _ & L & j' & E' & C' & Hq & D').
  rewrite E in E'. injection E' as <-. destruct C as [[? ?]|[? ?]], C' as [[? ?]|[? ?]]; subst; lia.
Qed.
Lemma path_links_moves t l : path up b t l -> (t < links)%nat -> forall s i,
  (forall c p j, In (c, p, i) l -> nth_error (r_joints r) i = Some j -> moves (fun x => rl (vset s i x) b t) (s i) (m6v (Adj (rl s t c)) (axis_of j c))) /\
  ((forall c p, ~ In (c, p, i) l) -> forall x, rl (vset s i x) b t = rl s b t).
Proof.
  intros P. induction P as [|t p k l N U P IH]; intros Ht s i.
  { split; [intros; contradiction|]. intros _ x. rewrite !rl_same; auto. }
  destruct (trav t Ht N) as (p' & i' & j & U' & E & C & Hp & D). rewrite U in U'. injection U' as <- <-.
  assert (PP : path up b t ((t, p, k) :: l)) by (econstructor; eauto).
  assert (Npt : p <> t) by (intros ->; lia).
  destruct (edge_moves s p t k j E C Npt Hp Ht) as [M K].
  specialize (IH Hp s i). destruct IH as [IH1 IH2].
  assert (Q : forall s, rl s b t = pmul (rl s b p) (rl s p t)) by (intros; symmetry; apply rl_mul; auto).
  split.
  - intros c q j' I Ej. destruct I as [I|I].
    + injection I as <- <- <-. rewrite E in Ej. injection Ej as <-.
      rewrite rl_same, Adj_id, m6v_I by auto.
      eapply moves_ext; [|apply (moves_left (rl s b p)); exact M]. intros x. cbv beta. rewrite Q, IH2; auto.
      eapply path_joint_fresh; eauto.
    + assert (Nik : i <> k) by (intros ->; eapply path_joint_fresh; eauto).
      replace (m6v (Adj (rl s t c)) (axis_of j' c)) with (m6v (Adj (pinv (rl s p t))) (m6v (Adj (rl s p c)) (axis_of j' c))).
      * eapply moves_ext; [|apply moves_right; [apply rl_rigid; auto|eapply IH1; eauto]].
        intros x. cbv beta. rewrite Q, K by auto. reflexivity.
      * rewrite <- m6v_mul, <- Adj_mul, rl_inv, rl_mul by (auto; apply rigid_inv, rl_rigid; auto). reflexivity.
  - intros F x. rewrite !Q. rewrite IH2, K; auto.
    + intros ->. apply (F t p). left; auto.
    + intros c q I. apply (F c q). right; auto.
Qed.

(** Frames. *)
Definition frame_ok (f : nat) : Prop := (f < links + length (r_frames r))%nat.
Lemma fl_lt f : frame_ok f -> (frame_link r f < links)%nat.
Proof. intros H. apply (proj2 rok f H). Qed.
Lemma fo_rigid f : frame_ok f -> rigid (frame_offset r f).
Proof. intros H. apply (proj2 rok f H). Qed.
Lemma link_ok l : (l < links)%nat -> frame_ok l.
Proof. intros H. unfold frame_ok. clear - H. lia. Qed.
Lemma fl_link l : (l < links)%nat -> frame_link r l = l.
Proof. intros H. unfold frame_link. apply Nat.ltb_lt in H. rewrite H. reflexivity. Qed.
Lemma fo_link l : (l < links)%nat -> frame_offset r l = pid.
Proof. intros H. unfold frame_offset. apply Nat.ltb_lt in H. rewrite H. reflexivity. Qed.
Lemma fp_rigid s f : frame_ok f -> rigid (frame_pose r place s f).
Proof. intros H. apply rigid_mul; [apply place_rigid, fl_lt; auto|apply fo_rigid; auto]. Qed.
Lemma rel_rigid s f g : frame_ok f -> frame_ok g -> rigid (relative r place s f g).
Proof. intros. apply rigid_mul; [apply rigid_inv|]; apply fp_rigid; auto. Qed.
Lemma rel_same s f : frame_ok f -> relative r place s f f = pid.
Proof. intros. apply pinv_l, fp_rigid; auto. Qed.
Lemma rel_mul s f g h : frame_ok g -> pmul (relative r place s f g) (relative r place s g h) = relative r place s f h.
Proof.
  intros H. unfold relative. rewrite pmul_assoc, <- (pmul_assoc (frame_pose r place s g)), pinv_r, pmul_id_l by (apply fp_rigid; auto). reflexivity.
Qed.
Lemma rel_inv s f g : frame_ok f -> frame_ok g -> pinv (relative r place s f g) = relative r place s g f.
Proof. intros H G. unfold relative. rewrite pinv_mul, pinv_inv; auto; try apply rigid_inv; apply fp_rigid; auto. Qed.
Lemma rel_rl s f g : frame_ok f -> relative r place s f g = pmul (pinv (frame_offset r f)) (pmul (rl s (frame_link r f) (frame_link r g)) (frame_offset r g)).
Proof.
  intros H. unfold relative, frame_pose, rl. rewrite pinv_mul by (apply place_rigid, fl_lt; auto). rewrite !pmul_assoc. reflexivity.
Qed.
Lemma rel_moves s f g l i : frame_ok f -> frame_ok g -> frame_link r f = b -> path up b (frame_link r g) l ->
  (forall c p j, In (c, p, i) l -> nth_error (r_joints r) i = Some j ->
     moves (fun x => relative r place (vset s i x) f g) (s i) (m6v (Adj (relative r place s g c)) (axis_of j c))) /\
  ((forall c p, ~ In (c, p, i) l) -> forall x, relative r place (vset s i x) f g = relative r place s f g).
Proof.
  intros F G B P. destruct (path_links_moves _ _ P (fl_lt g G) s i) as [M C]. rewrite <- B in M, C. split.
  - intros c p j I E. eapply moves_ext; [intros t; symmetry; apply rel_rl; auto|]. apply moves_left.
    destruct (path_step _ _ _ _ _ P (fl_lt g G) I) as (Hc & _).
    replace (m6v (Adj (relative r place s g c)) (axis_of j c)) with (m6v (Adj (pinv (frame_offset r g))) (m6v (Adj (rl s (frame_link r g) c)) (axis_of j c))).
    + apply moves_right; [apply fo_rigid; auto|]. eapply M; eauto.
    + rewrite <- m6v_mul, <- Adj_mul by (apply rigid_inv, fo_rigid; auto). rewrite rel_rl by auto.
      rewrite (fl_link c), (fo_link c), pmul_id_r by auto. reflexivity.
  - intros N x. rewrite !rel_rl, C; auto.
Qed.
(** The operators on twists and wrenches. *)
Lemma Adj_rel s f g h : frame_ok f -> frame_ok g -> m6mul (Adj (relative r place s f g)) (Adj (relative r place s g h)) = Adj (relative r place s f h).
Proof. intros F G. rewrite <- Adj_mul, rel_mul; auto. apply rel_rigid; auto. Qed.
Lemma AdjW_rel s f g h : frame_ok f -> frame_ok g -> m6mul (AdjW (relative r place s f g)) (AdjW (relative r place s g h)) = AdjW (relative r place s f h).
Proof. intros F G. rewrite <- AdjW_mul, rel_mul; auto. apply rel_rigid; auto. Qed.
Lemma Adj_rel_moves s f g l i : frame_ok f -> frame_ok g -> frame_link r f = b -> path up b (frame_link r g) l ->
  (forall c p j, In (c, p, i) l -> nth_error (r_joints r) i = Some j ->
     is_derive_m6 (fun x => Adj (relative r place (vset s i x) f g)) (s i)
       (m6mul (m6mul (Adj (relative r place s f c)) (adx (axis_of j c))) (Adj (relative r place s c g)))) /\
  ((forall c p, ~ In (c, p, i) l) -> is_derive_m6 (fun x => Adj (relative r place (vset s i x) f g)) (s i) m60).
Proof.
  intros F G B P. destruct (rel_moves s f g l i F G B P) as [M C]. split.
  - intros c p j I E. specialize (M c p j I E). apply Adj_moves in M; [|apply rel_rigid; auto].
    rewrite vset_same in M. destruct (path_step _ _ _ _ _ P (fl_lt g G) I) as (Hc & _). apply link_ok in Hc.
    replace (m6mul (m6mul (Adj (relative r place s f c)) (adx (axis_of j c))) (Adj (relative r place s c g)))
      with (m6mul (Adj (relative r place s f g)) (adx (m6v (Adj (relative r place s g c)) (axis_of j c)))); [exact M|].
    rewrite m6mul_assoc. transitivity (m6mul (m6mul (Adj (relative r place s f g)) (m6mul (adx (m6v (Adj (relative r place s g c)) (axis_of j c))) (Adj (relative r place s g c)))) (Adj (relative r place s c g))).
    + rewrite !m6mul_assoc, (Adj_rel s g c g), rel_same, Adj_id, m6mul_I_r by auto. reflexivity.
    + rewrite <- adx_Adj by (apply rel_rigid; auto). rewrite !m6mul_assoc, <- (m6mul_assoc (Adj (relative r place s f g))), Adj_rel by auto. reflexivity.
  - intros N. eapply m6_D_ext; [|apply m6_D_const]. intros t. cbv beta. rewrite (C N). reflexivity.
Qed.
Lemma AdjW_rel_moves s f g l i : frame_ok f -> frame_ok g -> frame_link r f = b -> path up b (frame_link r g) l ->
  (forall c p j, In (c, p, i) l -> nth_error (r_joints r) i = Some j ->
     is_derive_m6 (fun x => AdjW (relative r place (vset s i x) f g)) (s i)
       (m6mul (m6mul (AdjW (relative r place s f c)) (adw (axis_of j c))) (AdjW (relative r place s c g)))) /\
  ((forall c p, ~ In (c, p, i) l) -> is_derive_m6 (fun x => AdjW (relative r place (vset s i x) f g)) (s i) m60).
Proof.
  intros F G B P. destruct (rel_moves s f g l i F G B P) as [M C]. split.
  - intros c p j I E. specialize (M c p j I E). apply AdjW_moves in M; [|apply rel_rigid; auto].
    rewrite vset_same in M. destruct (path_step _ _ _ _ _ P (fl_lt g G) I) as (Hc & _). apply link_ok in Hc.
    replace (m6mul (m6mul (AdjW (relative r place s f c)) (adw (axis_of j c))) (AdjW (relative r place s c g)))
      with (m6mul (AdjW (relative r place s f g)) (adw (m6v (Adj (relative r place s g c)) (axis_of j c)))); [exact M|].
    rewrite m6mul_assoc. transitivity (m6mul (m6mul (AdjW (relative r place s f g)) (m6mul (adw (m6v (Adj (relative r place s g c)) (axis_of j c))) (AdjW (relative r place s g c)))) (AdjW (relative r place s c g))).
    + rewrite !m6mul_assoc, (AdjW_rel s g c g), rel_same, AdjW_id, m6mul_I_r by auto. reflexivity.
    + rewrite <- adw_AdjW by (apply rel_rigid; auto). rewrite !m6mul_assoc, <- (m6mul_assoc (AdjW (relative r place s f g))), AdjW_rel by auto. reflexivity.
  - intros N. eapply m6_D_ext; [|apply m6_D_const]. intros t. cbv beta. rewrite (C N). reflexivity.
Qed.
End Tree.
