(** The derivatives with respect to the joints computed by SharedKinDynComputations. *)
From Coq Require Import Reals List Arith Lia Lra Bool FunctionalExtensionality.
From Coquelicot Require Import Coquelicot.
From Verif Require Import Spec PartialLib SpecQuaternion.
From Verif Require Import QuatCurve SpecRigid Rigid RigidCalc KinTree KinModel KinLib KinMotion KinUsers KinProofs KinExist.
From Verif Require Import SpecBase BaseProofs SpecMom MomModel.
Import ListNotations.
Local Open Scope R_scope.

Lemma v6total_sum n f : v6total n f = v6sum n f.
Proof. induction n; cbn; [reflexivity|]. rewrite IHn. reflexivity. Qed.

Lemma fold_set_col (T : nat -> v6) dofs (l : list (nat * nat * nat)) : NoDup (map snd l) -> (forall c p j, In (c, p, j) l -> (j < dofs)%nat) ->
  forall D, exists D', foldo (fun (a : mat) (x : nat * nat * nat) => if (snd x <? dofs)%nat then Some (set_col a (snd x) (T (snd x))) else None) l D = Some D' /\
    (forall i c p j, In (c, p, j) l -> D' i j = v6ent (T j) i) /\ (forall i j, (forall c p, ~ In (c, p, j) l) -> D' i j = D i j).
Proof.
  induction l as [|[[c p] j] l IH]; intros ND B D.
  { exists D. cbn. split; [reflexivity|]. split; [intros; contradiction|auto]. }
  cbn [map snd] in ND. inversion ND as [|? ? NI ND']; subst. cbn [foldo snd].
  replace (j <? dofs)%nat with true by (symmetry; apply Nat.ltb_lt; eapply B; left; reflexivity).
  destruct (IH ND' (fun c' p' j' H => B c' p' j' (or_intror H)) (set_col D j (T j))) as (D' & E & I & O). exists D'. split; [exact E|]. split.
  - intros i c' p' j' [H|H]; [|eapply I; eauto]. injection H as <- <- <-. rewrite O.
    + unfold set_col. rewrite Nat.eqb_refl. reflexivity.
    + intros c'' p'' H. apply NI. apply in_map_iff. exists (c'', p'', j). auto.
  - intros i k H. rewrite O; [|intros c' p' H'; apply (H c' p'); right; auto]. unfold set_col.
    destruct (Nat.eqb_spec k j) as [->|]; [|reflexivity]. exfalso. apply (H c p). left; auto.
Qed.
Lemma fold_add_col (T : nat -> v6) dofs (l : list (nat * nat * nat)) : NoDup (map snd l) -> (forall c p j, In (c, p, j) l -> (j < dofs)%nat) ->
  forall D, exists D', foldo (fun (a : mat) (x : nat * nat * nat) => if (snd x <? dofs)%nat then Some (add_col a (snd x) (T (snd x))) else None) l D = Some D' /\
    (forall i c p j, In (c, p, j) l -> D' i j = D i j + v6ent (T j) i) /\ (forall i j, (forall c p, ~ In (c, p, j) l) -> D' i j = D i j).
Proof.
  induction l as [|[[c p] j] l IH]; intros ND B D.
  { exists D. cbn. split; [reflexivity|]. split; [intros; contradiction|auto]. }
  cbn [map snd] in ND. inversion ND as [|? ? NI ND']; subst. cbn [foldo snd].
  replace (j <? dofs)%nat with true by (symmetry; apply Nat.ltb_lt; eapply B; left; reflexivity).
  destruct (IH ND' (fun c' p' j' H => B c' p' j' (or_intror H)) (add_col D j (T j))) as (D' & E & I & O). exists D'. split; [exact E|]. split.
  - intros i c' p' j' [H|H].
    + injection H as <- <- <-. rewrite O.
      * unfold add_col. rewrite Nat.eqb_refl. reflexivity.
      * intros c'' p'' H. apply NI. apply in_map_iff. exists (c'', p'', j). auto.
    + erewrite I by eauto. unfold add_col. destruct (Nat.eqb_spec j' j) as [->|]; [|reflexivity].
      exfalso. apply NI. apply in_map_iff. exists (c', p', j). auto.
  - intros i k H. rewrite O; [|intros c' p' H'; apply (H c' p'); right; auto]. unfold add_col.
    destruct (Nat.eqb_spec k j) as [->|]; [|reflexivity]. exfalso. apply (H c p). left; auto.
Qed.

Section Mom.
Variable r : robot.
Variable place : vec -> nat -> pose.
Variable dofs : nat.
Variable up : nat -> nat -> option (nat * nat).
Variable depth : nat -> nat -> nat.
Variable base : nat.
Variable child : nat -> nat.
Variable inertia : nat -> m6.
Variable fvel : rstate -> nat -> v6.
Notation links := (r_links r).
Notation fl := (frame_link r).
Notation rel := (relative r place).
Hypothesis rok : robot_ok r.
Hypothesis plc : placement r place.
Hypothesis trav : forall b, (b < links)%nat -> traversal r b (up b) (depth b).
Hypothesis one_dof : (length (r_joints r) <= dofs)%nat.
Hypothesis Hb : (base < links)%nat.
Hypothesis kids : forall c p j, (c < links)%nat -> c <> base -> up base c = Some (p, j) -> child j = c.
Hypothesis fvel_ok : forall st f, frame_ok r f -> frame_velocity r place base (st_s st) (st_sd st) (base_twist_of st) f (fvel st f).

Notation jac := (jac_of r place up).
Notation WV := (W r place dofs jac base).
Lemma jok s f g i : frame_ok r f -> frame_ok r g -> (i < dofs)%nat -> moves (fun x => rel (vset s i x) f g) (s i) (jac s f g i).
Proof. intros F G _. exact (jac_of_ok r place up depth rok plc trav s f g i F G). Qed.
Lemma fvel_is st f : frame_ok r f -> fvel st f = WV (st_s st) (st_sd st) (base_twist_of st) f.
Proof.
  intros F. eapply (velocity_unique r place base); [exact rok|exact plc|exact Hb|exact F|apply fvel_ok; auto|].
  apply (W_velocity r place dofs up depth base jac rok plc trav one_dof jok Hb); auto.
Qed.
Lemma fl_base : fl base = base. Proof. apply fl_link; auto. Qed.
Lemma bok : frame_ok r base. Proof. apply link_ok; auto. Qed.
(** A step of the path. *)
Lemma step_facts t l c p j : (t < links)%nat -> path (up base) base t l -> In (c, p, j) l ->
  exists jt, nth_error (r_joints r) j = Some jt /\ (j < dofs)%nat /\ (c < links)%nat /\ child j = c /\ motion_axis r j c = axis_of jt c.
Proof.
  intros Ht P I. destruct (path_step r base (up base) (depth base) (trav base Hb) Hb _ _ _ _ _ P Ht I) as (Hc & Nc & U & _).
  destruct (up_step r dofs up depth trav one_dof _ _ _ _ _ _ Hb Ht P I) as (jt & E & _ & Hj & A & _ & _).
  exists jt. repeat split; auto. eapply kids; eauto.
Qed.
Lemma vel_moves st f l j : frame_ok r f -> (j < dofs)%nat -> path (up base) base (fl f) l ->
  (forall c p, In (c, p, j) l -> is_derive_v6 (fun x => fvel (with_s st (vset (st_s st) j x)) f) (st_s st j)
     (m6v (Adj (rel (st_s st) f (child j))) (axis_times_velocity r child fvel st j))) /\
  ((forall c p, ~ In (c, p, j) l) -> is_derive_v6 (fun x => fvel (with_s st (vset (st_s st) j x)) f) (st_s st j) v60).
Proof.
  intros F Hj P. pose proof (fl_lt r rok f F) as Hf.
  destruct (W_moves r place dofs up depth jac rok plc trav one_dof jok base (st_s st) (st_sd st) (base_twist_of st) f l j bok F Hj) as [X Y].
  { rewrite fl_base. exact P. }
  assert (Q : forall x, WV (vset (st_s st) j x) (st_sd st) (base_twist_of st) f = fvel (with_s st (vset (st_s st) j x)) f).
  { intros x. rewrite fvel_is by auto. reflexivity. }
  split.
  - intros c p I. destruct (step_facts _ _ _ _ _ Hf P I) as (jt & E & _ & Hc & K & A).
    eapply v6_D_ext; [exact Q|]. specialize (X c p jt I E). unfold axis_times_velocity, info_axis. rewrite K, A.
    rewrite fvel_is by (apply link_ok; auto).
    replace (m6v (adx (axis_of jt c)) (v6opp (WV (st_s st) (st_sd st) (base_twist_of st) c))) with (v6opp (m6v (adx (axis_of jt c)) (WV (st_s st) (st_sd st) (base_twist_of st) c))); [exact X|].
    generalize (adx (axis_of jt c)) (WV (st_s st) (st_sd st) (base_twist_of st) c). intros A0 a. destruct A0 as [[] [] [] []], a as [[] []].
    unfold v6opp, m6v, vadd, vopp, mv. cbn. f_equal; f_equal; ring.
  - intros N. eapply v6_D_ext; [exact Q|]. apply Y; auto.
Qed.
(** getFrameVelJointsDerivative. *)
Lemma vel_derivative_ok st f : frame_ok r f -> exists D, vel_derivative r dofs (up base) base child rel fvel st f = Some (true, D) /\
  joints_derivative dofs (fun s => fvel (with_s st s) f) (st_s st) D.
Proof.
  intros F. pose proof (fl_lt r rok f F) as Hf. destruct (up_path r up depth trav _ _ Hb Hf) as (l & P). unfold vel_derivative.
  replace (f <? links + length (r_frames r))%nat with true by (symmetry; apply Nat.ltb_lt; exact F).
  rewrite (walk_path _ _ _ _ _ P) by (generalize (up_short r up depth trav _ _ _ Hb Hf P); lia).
  destruct (fold_set_col (fun j => m6v (Adj (rel (st_s st) f (child j))) (axis_times_velocity r child fvel st j)) dofs l (up_nodup r up depth trav _ _ _ Hb Hf P)) with (D := fun _ _ : nat => 0) as (D & E & I & O).
  { intros c p j J. destruct (step_facts _ _ _ _ _ Hf P J) as (_ & _ & Hj & _); auto. }
  rewrite E. exists D. split; [reflexivity|]. intros i j Hi Hj. destruct (vel_moves st f l j F Hj P) as [X Y].
  destruct (path_in_dec l j) as [(c & p & J)|N].
  - rewrite (I i c p j J). apply (v6ent_D (fun x => fvel (with_s st (vset (st_s st) j x)) f)). eapply X; eauto.
  - rewrite (O i j N). specialize (Y N). apply v6ent_D with (i := i) in Y. rewrite v6ent_0 in Y. exact Y.
Qed.

(** One link of getLinearAngularMomentumJointsDerivative. *)
Definition link_momentum (st : rstate) (l : nat) : v6 := m6v (AdjW (rel (st_s st) base l)) (m6v (inertia l) (fvel st l)).
Lemma link_walk_ok st l : (l < links)%nat -> forall D, exists D', link_walk r dofs (up base) base child inertia rel fvel st l D = Some D' /\
  forall i j, (i < 6)%nat -> (j < dofs)%nat -> is_derive (fun x => v6ent (link_momentum (with_s st (vset (st_s st) j x)) l) i) (st_s st j) (D' i j - D i j).
Proof.
  intros Hl D. assert (F := link_ok r l Hl). assert (FL := fl_link r l Hl).
  destruct (up_path r up depth trav _ _ Hb Hl) as (pa & P). unfold link_walk.
  rewrite (walk_path _ _ _ _ _ P) by (generalize (up_short r up depth trav _ _ _ Hb Hl P); lia).
  destruct (fold_add_col (link_term r base child inertia rel fvel st l) dofs pa (up_nodup r up depth trav _ _ _ Hb Hl P)) with (D := D) as (D' & E & I & O).
  { intros c p j J. destruct (step_facts _ _ _ _ _ Hl P J) as (_ & _ & Hj & _); auto. }
  exists D'. split; [exact E|]. intros i j Hi Hj. destruct (vel_moves st l pa j F Hj) as [X Y]; [rewrite FL; exact P|].
  destruct (AdjW_rel_moves r place rok plc base (up base) (depth base) (trav base Hb) Hb (st_s st) base l pa j bok F fl_base) as [XA YA]; [rewrite FL; exact P|].
  assert (SP : forall x, st_s (with_s st x) = x) by reflexivity.
  destruct (path_in_dec pa j) as [(c & p & J)|N].
  - rewrite (I i c p j J). replace (D i j + v6ent (link_term r base child inertia rel fvel st l j) i - D i j) with (v6ent (link_term r base child inertia rel fvel st l j) i) by ring.
    destruct (step_facts _ _ _ _ _ Hl P J) as (jt & EJ & _ & Hc & K & A).
    apply (v6ent_D (fun x => link_momentum (with_s st (vset (st_s st) j x)) l)). unfold link_momentum.
    pose proof (v6_D_mv (fun x => AdjW (rel (vset (st_s st) j x) base l)) (fun x => m6v (inertia l) (fvel (with_s st (vset (st_s st) j x)) l)) (st_s st j) _ _ (XA c p jt J EJ)
      (v6_D_mv (fun _ => inertia l) (fun x => fvel (with_s st (vset (st_s st) j x)) l) (st_s st j) _ _ (m6_D_const (inertia l) _) (X c p J))) as Z.
    cbv beta in Z. rewrite !vset_same in Z. 
    replace (link_term r base child inertia rel fvel st l j) with
      (v6add (m6v (m6mul (m6mul (AdjW (rel (st_s st) base c)) (adw (axis_of jt c))) (AdjW (rel (st_s st) c l))) (m6v (inertia l) (fvel (with_s st (st_s st)) l)))
        (m6v (AdjW (rel (st_s st) base l)) (v6add (m6v m60 (fvel (with_s st (st_s st)) l)) (m6v (inertia l) (m6v (Adj (rel (st_s st) l (child j))) (axis_times_velocity r child fvel st j)))))); [exact Z|].
    assert (S0 : with_s st (st_s st) = st) by (destruct st; reflexivity). rewrite S0.
    unfold link_term, info_axis. rewrite K, A. rewrite !m6v_mul. f_equal. f_equal.
    generalize (m6v (inertia l) (m6v (Adj (rel (st_s st) l c)) (axis_times_velocity r child fvel st j))) (fvel st l). intros [[] []] [[] []].
    unfold v6add, m6v, m60, m30, vadd, mv. cbn. f_equal; f_equal; ring.
  - rewrite (O i j N). replace (D i j - D i j) with (v6ent v60 i) by (rewrite v6ent_0; ring).
    apply (v6ent_D (fun x => link_momentum (with_s st (vset (st_s st) j x)) l)). unfold link_momentum.
    pose proof (v6_D_mv (fun x => AdjW (rel (vset (st_s st) j x) base l)) (fun x => m6v (inertia l) (fvel (with_s st (vset (st_s st) j x)) l)) (st_s st j) _ _ (YA N)
      (v6_D_mv (fun _ => inertia l) (fun x => fvel (with_s st (vset (st_s st) j x)) l) (st_s st j) _ _ (m6_D_const (inertia l) _) (Y N))) as Z.
    cbv beta in Z.
    assert (ZE : forall A w u B, v6add (m6v m60 w) (m6v A (v6add (m6v m60 u) (m6v B v60))) = v60).
    { intros [[] [] [] []] [[] []] [[] []] [[] [] [] []]. unfold v6add, m6v, m60, m30, v60, v30, vadd, mv. cbn. f_equal; f_equal; ring. }
    rewrite ZE in Z. exact Z.
Qed.
Lemma links_ok st n : (n <= links)%nat -> exists D, fold_left (fun a l => match a with Some D => link_walk r dofs (up base) base child inertia rel fvel st l D | None => None end) (seq 0 n) (Some (fun _ _ => 0)) = Some D /\
  forall i j, (i < 6)%nat -> (j < dofs)%nat -> is_derive (fun x => v6ent (v6total n (link_momentum (with_s st (vset (st_s st) j x)))) i) (st_s st j) (D i j).
Proof.
  induction n as [|n IH]; intros Hn.
  - exists (fun _ _ => 0). split; [reflexivity|]. intros i j _ _. cbn [v6total]. exact (D_const (v6ent v60 i) _) || (eapply D_eq; [exact (D_const (v6ent v60 i) _)|reflexivity]).
  - destruct (IH ltac:(lia)) as (D & E & H). rewrite seq_S, fold_left_app. cbn [fold_left]. rewrite E. cbn [plus].
    destruct (link_walk_ok st n ltac:(lia) D) as (D' & E' & H'). exists D'. split; [exact E'|]. intros i j Hi Hj.
    apply is_derive_ext with (f := fun x => v6ent (v6total n (link_momentum (with_s st (vset (st_s st) j x)))) i + v6ent (link_momentum (with_s st (vset (st_s st) j x)) n) i).
    { intros x. symmetry. exact (v6ent_add (v6total n (link_momentum (with_s st (vset (st_s st) j x)))) (link_momentum (with_s st (vset (st_s st) j x)) n) i). }
    eapply D_eq; [exact (D_plus _ _ _ _ _ (H i j Hi Hj) (H' i j Hi Hj))|]. ring.
Qed.
Lemma mom_derivative_ok st : exists D, mom_derivative r dofs (up base) base child inertia rel fvel st = Some D /\
  joints_derivative dofs (fun s => v6total links (link_momentum (with_s st s))) (st_s st) D.
Proof. destruct (links_ok st links (le_n _)) as (D & E & H). exists D. split; [exact E|]. exact H. Qed.
(** The momentum is the one of the specification. *)
Lemma momentum_is st h : momentum_in r place inertia base (st_s st) (st_sd st) (base_twist_of st) h -> h = v6total links (link_momentum st).
Proof.
  intros (w & Hw & ->). rewrite !v6total_sum. apply v6sum_ext. intros l Hl. unfold link_momentum. do 2 f_equal.
  eapply (velocity_unique r place base); [exact rok|exact plc|exact Hb|apply link_ok; exact Hl|apply Hw; exact Hl|apply fvel_ok, link_ok; exact Hl].
Qed.
End Mom.
