(** Bookkeeping for the proofs about the dynamics: vectors assembled from the blocks
    of the layout (no model here). *)
From Coq Require Import Reals List Arith Lia Lra Bool FunctionalExtensionality.
From Coquelicot Require Import Coquelicot.
From Verif Require Import Spec SpecQuaternion PartialLib CostsModel QuadLib SpecDynamics.
Import ListNotations.
Local Open Scope R_scope.

(** [g (i - o)] on the block, 0 elsewhere. *)
Definition rowv (o n i : nat) (g : nat -> R) : R := if in_range o n i then g (i - o)%nat else 0.
Lemma in_range_no o n i : (i < o \/ o + n <= i)%nat -> in_range o n i = false.
Proof. intros H. destruct (in_range o n i) eqn:E; auto. apply in_range_spec in E. lia. Qed.
Lemma in_range_yes o n i : (o <= i < o + n)%nat -> in_range o n i = true.
Proof. intros H. apply in_range_spec; auto. Qed.
Lemma rowv_in o n g a : (a < n)%nat -> rowv o n (o + a) g = g a.
Proof. intros. unfold rowv. rewrite in_range_yes by lia. f_equal. lia. Qed.
Lemma rowv_out o n i g : (i < o \/ o + n <= i)%nat -> rowv o n i g = 0.
Proof. intros. unfold rowv. rewrite in_range_no by lia. auto. Qed.
Lemma partial_rowv o n i (g : vec -> nat -> R) x k d :
  (forall a, (a < n)%nat -> partial (fun y => g y a) x k (d a)) ->
  partial (fun y => rowv o n i (g y)) x k (rowv o n i d).
Proof.
  intros H. unfold rowv. destruct (in_range o n i) eqn:E.
  - apply in_range_spec in E. apply H. lia.
  - apply partial_const.
Qed.
Lemma rowv_ext o n i g g' : (forall a, (a < n)%nat -> g a = g' a) -> rowv o n i g = rowv o n i g'.
Proof. intros H. unfold rowv. destruct (in_range o n i) eqn:E; auto. apply in_range_spec in E. apply H. lia. Qed.
Lemma rowv_cases o n i g : (exists a, (a < n)%nat /\ i = (o + a)%nat /\ rowv o n i g = g a) \/
  ((i < o \/ o + n <= i)%nat /\ rowv o n i g = 0).
Proof.
  unfold rowv. destruct (in_range o n i) eqn:E.
  - apply in_range_spec in E. left. exists (i - o)%nat. repeat split; lia.
  - right. split; auto. destruct (Nat.lt_ge_cases i o); auto. destruct (Nat.lt_ge_cases i (o + n)); auto.
    rewrite in_range_yes in E by lia. discriminate.
Qed.
Lemma sumn_rowv n o m (l : nat -> R) g : ((0 < m)%nat -> (o + m <= n)%nat) ->
  sumn n (fun i => l i * rowv o m i g) = sumn m (fun a => l (o + a)%nat * g a).
Proof.
  revert n o g. induction m as [|m IH]; intros n o g H; simpl.
  - rewrite (sumn_ext n _ (fun _ => 0)); [apply sumn_0|]. intros. rewrite rowv_out by lia. ring.
  - rewrite <- (IH n o g) by lia.
    transitivity (sumn n (fun i => l i * rowv o m i g + (if Nat.eqb i (o + m) then l (o + m)%nat * g m else 0))).
    + apply sumn_ext. intros i Hi. destruct (Nat.eqb_spec i (o + m)).
      * subst. rewrite rowv_in, rowv_out by lia. ring.
      * destruct (rowv_cases o m i g) as [[a [Ha [-> E]]]|[Ha E]]; rewrite E.
        -- rewrite rowv_in by lia. ring.
        -- rewrite rowv_out by lia. ring.
    + rewrite sumn_plus. f_equal. rewrite (sumn_single n _ (o + m)); try lia.
      * rewrite Nat.eqb_refl. auto.
      * intros i Hi N. apply Nat.eqb_neq in N. rewrite N. auto.
Qed.

Lemma lsum_single {A} (f : A -> R) l p : In p l -> NoDup l ->
  (forall q, In q l -> q <> p -> f q = 0) -> lsum f l = f p.
Proof.
  induction l as [|a l IH]; simpl; intros I N H; [tauto|].
  inversion N; subst. destruct I as [->|I].
  - rewrite (lsum_ext f (fun _ => 0) l), lsum_0; [ring|].
    intros q Hq. apply H; auto. intros ->. auto.
  - rewrite IH; auto. rewrite (H a); [ring|auto|intros ->; auto].
Qed.
Lemma lsum_cons {A} (f : A -> R) a l : lsum f (a :: l) = f a + lsum f l.
Proof. reflexivity. Qed.
Lemma lsum_zero {A} (f : A -> R) l : (forall q, In q l -> f q = 0) -> lsum f l = 0.
Proof. intros. rewrite (lsum_ext f (fun _ => 0) l); [apply lsum_0|auto]. Qed.

(** Everything the layout hypothesis says, in usable form. *)
Definition apart (o n o' n' : nat) : Prop := (o + n <= o' \/ o' + n' <= o)%nat.
Record points_apart (ptf ptp : contact_point -> nat) (p p' : contact_point) : Prop := {
  pa_ff : apart (ptf p) 3 (ptf p') 3; pa_fp : apart (ptf p) 3 (ptp p') 3;
  pa_pf : apart (ptp p) 3 (ptf p') 3; pa_pp : apart (ptp p) 3 (ptp p') 3 }.
Lemma fop_points (A B : contact_point -> nat) pts :
  ForallOrdPairs blocks_apart (flat_map (fun p => [(A p, 3%nat); (B p, 3%nat)]) pts) ->
  (forall p, In p pts -> apart (A p) 3 (B p) 3) /\ NoDup pts /\
  (forall p p', In p pts -> In p' pts -> p <> p' -> points_apart A B p p').
Proof.
  induction pts as [|p pts IH]; simpl; intros H.
  - split; [tauto|]. split; [constructor|]. simpl; tauto.
  - inversion H as [|? ? H1 H2]; subst. inversion H2 as [|? ? H3 H4]; subst. destruct (IH H4) as [I1 [I2 I3]].
    inversion H1 as [|? ? H5 H6]; subst. rewrite Forall_forall in H3, H6.
    assert (M : forall p', In p' pts -> points_apart A B p p').
    { intros p' I. assert (Ia : In (A p', 3%nat) (flat_map (fun p => [(A p, 3%nat); (B p, 3%nat)]) pts)).
      { apply in_flat_map. exists p'. simpl; auto. }
      assert (Ib : In (B p', 3%nat) (flat_map (fun p => [(A p, 3%nat); (B p, 3%nat)]) pts)).
      { apply in_flat_map. exists p'. simpl; auto. }
      pose proof (H6 _ Ia). pose proof (H6 _ Ib). pose proof (H3 _ Ia). pose proof (H3 _ Ib).
      split; assumption. }
    split; [|split].
    + intros q [<-|I]; auto.
    + constructor; auto. intros I. pose proof (pa_ff _ _ _ _ (M p I)) as K. unfold apart in K. lia.
    + intros a b [<-|Ia] [<-|Ib] N; auto; [congruence|].
      destruct (M a Ia); split; unfold apart in *; lia.
Qed.
Lemma fop_app {A} (R : A -> A -> Prop) l l' : ForallOrdPairs R (l ++ l') ->
  ForallOrdPairs R l /\ ForallOrdPairs R l' /\ (forall a b, In a l -> In b l' -> R a b).
Proof.
  induction l as [|a l IH]; simpl; intros H.
  - split; [constructor|]. split; auto. intros; tauto.
  - inversion H as [|? ? H1 H2]; subst. destruct (IH H2) as [I1 [I2 I3]]. rewrite Forall_forall in H1.
    split; [|split]; auto.
    + constructor; auto. apply Forall_forall. intros. apply H1. apply in_or_app; auto.
    + intros x y [<-|I] J; auto. apply H1, in_or_app; auto.
Qed.

Section Blocks.
  Variable L : dyn_layout.
  Hypothesis LO : layout_ok L.
  Let pts := dl_points L.

  Lemma pts_apart p p' : In p pts -> In p' pts -> p <> p' -> points_apart cp_f cp_p p p'.
  Proof. destruct LO as [[H _] _]. apply fop_app in H. destruct H as [_ [H _]]. apply (fop_points cp_f cp_p) in H. apply H. Qed.
  Lemma pts_nodup : NoDup pts.
  Proof. destruct LO as [[H _] _]. apply fop_app in H. destruct H as [_ [H _]]. apply (fop_points cp_f cp_p) in H. apply H. Qed.
  Lemma pt_self p : In p pts -> apart (cp_f p) 3 (cp_p p) 3.
  Proof. destruct LO as [[H _] _]. apply fop_app in H. destruct H as [_ [H _]]. apply (fop_points cp_f cp_p) in H. apply H. Qed.
  Lemma cpts_apart p p' : In p pts -> In p' pts -> p <> p' -> points_apart cp_fc cp_vc p p'.
  Proof. destruct LO as [_ [H _]]. apply fop_app in H. destruct H as [_ [H _]]. apply (fop_points cp_fc cp_vc) in H. apply H. Qed.
  Lemma cpt_self p : In p pts -> apart (cp_fc p) 3 (cp_vc p) 3.
  Proof. destruct LO as [_ [H _]]. apply fop_app in H. destruct H as [_ [H _]]. apply (fop_points cp_fc cp_vc) in H. apply H. Qed.

  Definition sfix : list (nat * nat) :=
    [(dl_mom L, 6%nat); (dl_com L, 3%nat); (dl_base L, 3%nat); (dl_quat L, 4%nat); (dl_jnt L, dl_dof L)].
  Lemma fixed_apart :
    apart (dl_mom L) 6 (dl_com L) 3 /\ apart (dl_mom L) 6 (dl_base L) 3 /\ apart (dl_mom L) 6 (dl_quat L) 4 /\
    apart (dl_mom L) 6 (dl_jnt L) (dl_dof L) /\ apart (dl_com L) 3 (dl_base L) 3 /\ apart (dl_com L) 3 (dl_quat L) 4 /\
    apart (dl_com L) 3 (dl_jnt L) (dl_dof L) /\ apart (dl_base L) 3 (dl_quat L) 4 /\
    apart (dl_base L) 3 (dl_jnt L) (dl_dof L) /\ apart (dl_quat L) 4 (dl_jnt L) (dl_dof L).
  Proof.
    destruct LO as [[H _] _]. apply fop_app in H. destruct H as [H _].
    inversion H as [|? ? A1 B1]; subst. inversion B1 as [|? ? A2 B2]; subst. inversion B2 as [|? ? A3 B3]; subst.
    inversion B3 as [|? ? A4 B4]; subst. rewrite Forall_forall in A1, A2, A3, A4.
    repeat split;
    match goal with
    | |- apart ?a ?n ?b ?m => first
      [ exact (A1 (b, m) ltac:(simpl; tauto)) | exact (A2 (b, m) ltac:(simpl; tauto))
      | exact (A3 (b, m) ltac:(simpl; tauto)) | exact (A4 (b, m) ltac:(simpl; tauto)) ]
    end.
  Qed.
  Lemma pt_fixed p o n : In p pts -> In (o, n) sfix -> apart o n (cp_f p) 3 /\ apart o n (cp_p p) 3.
  Proof.
    intros I J. destruct LO as [[H _] _]. apply fop_app in H. destruct H as [_ [_ H]].
    split.
    - refine (H (o, n) (cp_f p, 3%nat) J _). apply in_flat_map. exists p. simpl; auto.
    - refine (H (o, n) (cp_p p, 3%nat) J _). apply in_flat_map. exists p. simpl; auto.
  Qed.
  Definition cfix : list (nat * nat) := [(dl_lin L, 3%nat); (dl_qd L, 4%nat); (dl_jv L, dl_dof L)].
  Lemma cfixed_apart : apart (dl_lin L) 3 (dl_qd L) 4 /\ apart (dl_lin L) 3 (dl_jv L) (dl_dof L) /\
    apart (dl_qd L) 4 (dl_jv L) (dl_dof L).
  Proof.
    destruct LO as [_ [H _]]. apply fop_app in H. destruct H as [H _].
    inversion H as [|? ? A1 B1]; subst. inversion B1 as [|? ? A2 B2]; subst. rewrite Forall_forall in A1, A2.
    repeat split; match goal with
    | |- apart ?a ?n ?b ?m => first
      [ exact (A1 (b, m) ltac:(simpl; tauto)) | exact (A2 (b, m) ltac:(simpl; tauto)) ] end.
  Qed.
  Lemma cpt_fixed p o n : In p pts -> In (o, n) cfix -> apart o n (cp_fc p) 3 /\ apart o n (cp_vc p) 3.
  Proof.
    intros I J. destruct LO as [_ [H _]]. apply fop_app in H. destruct H as [_ [_ H]].
    split.
    - refine (H (o, n) (cp_fc p, 3%nat) J _). apply in_flat_map. exists p. simpl; auto.
    - refine (H (o, n) (cp_vc p, 3%nat) J _). apply in_flat_map. exists p. simpl; auto.
  Qed.
  (** Blocks lie inside the vector. *)
  Lemma block_inside o n : In (o, n) (state_blocks L) -> (0 < n)%nat -> (o + n <= dl_nx L)%nat.
  Proof.
    intros I P. destruct LO as [[_ H] _]. assert (o + n - 1 < dl_nx L)%nat; [|lia].
    apply H. exists (o, n). split; auto. simpl. lia.
  Qed.

  (** A vector given block by block. *)
  Definition assemble (gf gp : contact_point -> nat -> R) (gm gc gb gq gj : nat -> R) : vec := fun i =>
    lsum (fun p => rowv (cp_f p) 3 i (gf p) + rowv (cp_p p) 3 i (gp p)) pts +
    (rowv (dl_mom L) 6 i gm + rowv (dl_com L) 3 i gc + rowv (dl_base L) 3 i gb +
     rowv (dl_quat L) 4 i gq + rowv (dl_jnt L) (dl_dof L) i gj).

  Section At.
    Variables (gf gp : contact_point -> nat -> R) (gm gc gb gq gj : nat -> R).
    Notation A := (assemble gf gp gm gc gb gq gj).
    Ltac fixs := destruct fixed_apart as (?&?&?&?&?&?&?&?&?&?); unfold apart in *.
    Ltac out := rewrite rowv_out by lia.
    Lemma assemble_f p a : In p pts -> (a < 3)%nat -> A (cp_f p + a)%nat = gf p a.
    Proof.
      intros I Ha. unfold assemble. rewrite (lsum_single _ pts p I pts_nodup).
      - rewrite rowv_in by lia. pose proof (pt_self p I). unfold apart in *.
        destruct (pt_fixed p (dl_mom L) 6 I) as [F1 _]; [simpl; tauto|].
        destruct (pt_fixed p (dl_com L) 3 I) as [F2 _]; [simpl; tauto|].
        destruct (pt_fixed p (dl_base L) 3 I) as [F3 _]; [simpl; tauto|].
        destruct (pt_fixed p (dl_quat L) 4 I) as [F4 _]; [simpl; tauto|].
        destruct (pt_fixed p (dl_jnt L) (dl_dof L) I) as [F5 _]; [simpl; tauto|].
        unfold apart in *. repeat out. ring.
      - intros q Iq N. destruct (pts_apart q p Iq I N). unfold apart in *. repeat out. ring.
    Qed.
    Lemma assemble_p p a : In p pts -> (a < 3)%nat -> A (cp_p p + a)%nat = gp p a.
    Proof.
      intros I Ha. unfold assemble. rewrite (lsum_single _ pts p I pts_nodup).
      - rewrite (rowv_in (cp_p p)) by lia. pose proof (pt_self p I). unfold apart in *.
        destruct (pt_fixed p (dl_mom L) 6 I) as [_ F1]; [simpl; tauto|].
        destruct (pt_fixed p (dl_com L) 3 I) as [_ F2]; [simpl; tauto|].
        destruct (pt_fixed p (dl_base L) 3 I) as [_ F3]; [simpl; tauto|].
        destruct (pt_fixed p (dl_quat L) 4 I) as [_ F4]; [simpl; tauto|].
        destruct (pt_fixed p (dl_jnt L) (dl_dof L) I) as [_ F5]; [simpl; tauto|].
        unfold apart in *. repeat out. ring.
      - intros q Iq N. destruct (pts_apart q p Iq I N). unfold apart in *. repeat out. ring.
    Qed.
    Lemma points_zero o n a : In (o, n) sfix -> (a < n)%nat ->
      lsum (fun p => rowv (cp_f p) 3 (o + a) (gf p) + rowv (cp_p p) 3 (o + a) (gp p)) pts = 0.
    Proof.
      intros J Ha. apply lsum_zero. intros p I. destruct (pt_fixed p o n I J). unfold apart in *. repeat out. ring.
    Qed.
    Lemma assemble_mom a : (a < 6)%nat -> A (dl_mom L + a)%nat = gm a.
    Proof. intros. unfold assemble. rewrite (points_zero _ 6) by (simpl; tauto || lia). rewrite rowv_in by lia. fixs. repeat out. ring. Qed.
    Lemma assemble_com a : (a < 3)%nat -> A (dl_com L + a)%nat = gc a.
    Proof. intros. unfold assemble. rewrite (points_zero _ 3) by (simpl; tauto || lia). rewrite (rowv_in (dl_com L)) by lia. fixs. repeat out. ring. Qed.
    Lemma assemble_base a : (a < 3)%nat -> A (dl_base L + a)%nat = gb a.
    Proof. intros. unfold assemble. rewrite (points_zero _ 3) by (simpl; tauto || lia). rewrite (rowv_in (dl_base L)) by lia. fixs. repeat out. ring. Qed.
    Lemma assemble_quat a : (a < 4)%nat -> A (dl_quat L + a)%nat = gq a.
    Proof. intros. unfold assemble. rewrite (points_zero _ 4) by (simpl; tauto || lia). rewrite (rowv_in (dl_quat L)) by lia. fixs. repeat out. ring. Qed.
    Lemma assemble_jnt a : (a < dl_dof L)%nat -> A (dl_jnt L + a)%nat = gj a.
    Proof. intros. unfold assemble. rewrite (points_zero _ (dl_dof L)) by (simpl; tauto || lia). rewrite (rowv_in (dl_jnt L)) by lia. fixs. repeat out. ring. Qed.

    (** Case analysis on a row. *)
    Lemma assemble_cases i :
      (exists p a, In p pts /\ (a < 3)%nat /\ i = (cp_f p + a)%nat /\ A i = gf p a) \/
      (exists p a, In p pts /\ (a < 3)%nat /\ i = (cp_p p + a)%nat /\ A i = gp p a) \/
      (exists a, (a < 6)%nat /\ i = (dl_mom L + a)%nat /\ A i = gm a) \/
      (exists a, (a < 3)%nat /\ i = (dl_com L + a)%nat /\ A i = gc a) \/
      (exists a, (a < 3)%nat /\ i = (dl_base L + a)%nat /\ A i = gb a) \/
      (exists a, (a < 4)%nat /\ i = (dl_quat L + a)%nat /\ A i = gq a) \/
      (exists a, (a < dl_dof L)%nat /\ i = (dl_jnt L + a)%nat /\ A i = gj a) \/
      (A i = 0 /\ (forall p, In p pts -> in_range (cp_f p) 3 i = false /\ in_range (cp_p p) 3 i = false) /\
       in_range (dl_mom L) 6 i = false /\ in_range (dl_com L) 3 i = false /\ in_range (dl_base L) 3 i = false /\
       in_range (dl_quat L) 4 i = false /\ in_range (dl_jnt L) (dl_dof L) i = false).
    Proof.
      destruct (existsb (fun p => in_range (cp_f p) 3 i) pts) eqn:E1.
      { apply existsb_exists in E1. destruct E1 as [p [I E]]. apply in_range_spec in E. left.
        exists p, (i - cp_f p)%nat. assert (i = cp_f p + (i - cp_f p))%nat as Ei by lia. set (a := (i - cp_f p)%nat) in *. clearbody a. subst i.
        split; auto. split; [lia|]. split; auto. apply assemble_f; auto. lia. }
      destruct (existsb (fun p => in_range (cp_p p) 3 i) pts) eqn:E2.
      { apply existsb_exists in E2. destruct E2 as [p [I E]]. apply in_range_spec in E. right; left.
        exists p, (i - cp_p p)%nat. assert (i = cp_p p + (i - cp_p p))%nat as Ei by lia. set (a := (i - cp_p p)%nat) in *. clearbody a. subst i.
        split; auto. split; [lia|]. split; auto. apply assemble_p; auto. lia. }
      do 2 right.
      destruct (in_range (dl_mom L) 6 i) eqn:E3.
      { apply in_range_spec in E3. left. exists (i - dl_mom L)%nat. assert (i = dl_mom L + (i - dl_mom L))%nat as Ei by lia. set (a := (i - dl_mom L)%nat) in *. clearbody a. subst i.
        split; [lia|]. split; auto. apply assemble_mom; lia. }
      right. destruct (in_range (dl_com L) 3 i) eqn:E4.
      { apply in_range_spec in E4. left. exists (i - dl_com L)%nat. assert (i = dl_com L + (i - dl_com L))%nat as Ei by lia. set (a := (i - dl_com L)%nat) in *. clearbody a. subst i.
        split; [lia|]. split; auto. apply assemble_com; lia. }
      right. destruct (in_range (dl_base L) 3 i) eqn:E5.
      { apply in_range_spec in E5. left. exists (i - dl_base L)%nat. assert (i = dl_base L + (i - dl_base L))%nat as Ei by lia. set (a := (i - dl_base L)%nat) in *. clearbody a. subst i.
        split; [lia|]. split; auto. apply assemble_base; lia. }
      right. destruct (in_range (dl_quat L) 4 i) eqn:E6.
      { apply in_range_spec in E6. left. exists (i - dl_quat L)%nat. assert (i = dl_quat L + (i - dl_quat L))%nat as Ei by lia. set (a := (i - dl_quat L)%nat) in *. clearbody a. subst i.
        split; [lia|]. split; auto. apply assemble_quat; lia. }
      right. destruct (in_range (dl_jnt L) (dl_dof L) i) eqn:E7.
      { apply in_range_spec in E7. left. exists (i - dl_jnt L)%nat. assert (i = dl_jnt L + (i - dl_jnt L))%nat as Ei by lia. set (a := (i - dl_jnt L)%nat) in *. clearbody a. subst i.
        split; [lia|]. split; auto. apply assemble_jnt; lia. }
      right.
      assert (P : forall p, In p pts -> in_range (cp_f p) 3 i = false /\ in_range (cp_p p) 3 i = false).
      { intros p I. split.
        - destruct (in_range (cp_f p) 3 i) eqn:E; auto. rewrite <- E1. symmetry. apply existsb_exists. eauto.
        - destruct (in_range (cp_p p) 3 i) eqn:E; auto. rewrite <- E2. symmetry. apply existsb_exists. eauto. }
      split; [|repeat split; auto; intros; apply P; auto].
      unfold assemble. rewrite lsum_zero.
      - unfold rowv. rewrite E3, E4, E5, E6, E7. ring.
      - intros p I. unfold rowv. destruct (P p I) as [-> ->]. ring.
    Qed.
  End At.

  Lemma assemble_ext gf gp gm gc gb gq gj gf' gp' gm' gc' gb' gq' gj' i :
    (forall p a, In p pts -> (a < 3)%nat -> gf p a = gf' p a) -> (forall p a, In p pts -> (a < 3)%nat -> gp p a = gp' p a) ->
    (forall a, (a < 6)%nat -> gm a = gm' a) -> (forall a, (a < 3)%nat -> gc a = gc' a) -> (forall a, (a < 3)%nat -> gb a = gb' a) ->
    (forall a, (a < 4)%nat -> gq a = gq' a) -> (forall a, (a < dl_dof L)%nat -> gj a = gj' a) ->
    assemble gf gp gm gc gb gq gj i = assemble gf' gp' gm' gc' gb' gq' gj' i.
  Proof.
    intros. unfold assemble. f_equal.
    - apply lsum_ext. intros p I. f_equal; apply rowv_ext; auto.
    - rewrite (rowv_ext _ _ _ gm gm'), (rowv_ext _ _ _ gc gc'), (rowv_ext _ _ _ gb gb'), (rowv_ext _ _ _ gq gq'), (rowv_ext _ _ _ gj gj'); auto.
  Qed.

  Lemma partial_assemble gf gp gm gc gb gq gj x k df dp dm dc db dq dj i :
    (forall p a, In p pts -> (a < 3)%nat -> partial (fun y => gf y p a) x k (df p a)) ->
    (forall p a, In p pts -> (a < 3)%nat -> partial (fun y => gp y p a) x k (dp p a)) ->
    (forall a, (a < 6)%nat -> partial (fun y => gm y a) x k (dm a)) ->
    (forall a, (a < 3)%nat -> partial (fun y => gc y a) x k (dc a)) ->
    (forall a, (a < 3)%nat -> partial (fun y => gb y a) x k (db a)) ->
    (forall a, (a < 4)%nat -> partial (fun y => gq y a) x k (dq a)) ->
    (forall a, (a < dl_dof L)%nat -> partial (fun y => gj y a) x k (dj a)) ->
    partial (fun y => assemble (gf y) (gp y) (gm y) (gc y) (gb y) (gq y) (gj y) i) x k (assemble df dp dm dc db dq dj i).
  Proof.
    intros. unfold assemble. apply partial_plus.
    - apply (partial_lsum pts (fun p y => rowv (cp_f p) 3 i (gf y p) + rowv (cp_p p) 3 i (gp y p))).
      intros p I. apply partial_plus; apply partial_rowv; auto.
    - repeat apply partial_plus; apply partial_rowv; auto.
  Qed.

  Definition block_sum (l : vec) (gf gp : contact_point -> nat -> R) (gm gc gb gq gj : nat -> R) : R :=
    lsum (fun p => sumn 3 (fun a => l (cp_f p + a)%nat * gf p a) + sumn 3 (fun a => l (cp_p p + a)%nat * gp p a)) pts +
    (sumn 6 (fun a => l (dl_mom L + a)%nat * gm a) + sumn 3 (fun a => l (dl_com L + a)%nat * gc a) +
     sumn 3 (fun a => l (dl_base L + a)%nat * gb a) + sumn 4 (fun a => l (dl_quat L + a)%nat * gq a) +
     sumn (dl_dof L) (fun a => l (dl_jnt L + a)%nat * gj a)).
  Lemma weighted_assemble l gf gp gm gc gb gq gj :
    weighted (dl_nx L) l (assemble gf gp gm gc gb gq gj) = block_sum l gf gp gm gc gb gq gj.
  Proof.
    unfold weighted, assemble, block_sum.
    rewrite (sumn_ext _ _ (fun i => l i * lsum (fun p => rowv (cp_f p) 3 i (gf p) + rowv (cp_p p) 3 i (gp p)) pts +
      (l i * rowv (dl_mom L) 6 i gm + l i * rowv (dl_com L) 3 i gc + l i * rowv (dl_base L) 3 i gb +
       l i * rowv (dl_quat L) 4 i gq + l i * rowv (dl_jnt L) (dl_dof L) i gj))) by (intros; ring).
    rewrite !sumn_plus.
    assert (SB : forall o n, In (o, n) sfix -> (0 < n)%nat -> (o + n <= dl_nx L)%nat).
    { intros o n I P. apply block_inside; auto. unfold state_blocks. apply in_or_app. left. exact I. }
    rewrite !sumn_rowv by (intros; apply SB; [simpl; tauto|lia]).
    f_equal. unfold pts.
    assert (PB : forall p, In p (dl_points L) -> (cp_f p + 3 <= dl_nx L)%nat /\ (cp_p p + 3 <= dl_nx L)%nat).
    { intros p I. split; apply block_inside; try lia; unfold state_blocks; apply in_or_app; right;
        apply in_flat_map; exists p; simpl; auto. }
    induction (dl_points L) as [|p l' IH].
    + change (@lsum contact_point) with (fun f l => fold_right (fun (a : contact_point) s => f a + s) 0 l). cbn [fold_right].
      rewrite (sumn_ext _ _ (fun _ => 0)); [apply sumn_0|intros; ring].
    + rewrite lsum_cons. rewrite <- IH by (intros; apply PB; simpl; auto).
      rewrite <- (sumn_rowv (dl_nx L)) by (intros; apply PB; simpl; auto).
      rewrite <- (sumn_rowv (dl_nx L) (cp_p p)) by (intros; apply PB; simpl; auto).
      rewrite <- !sumn_plus. apply sumn_ext. intros. rewrite lsum_cons. ring.
  Qed.
End Blocks.
