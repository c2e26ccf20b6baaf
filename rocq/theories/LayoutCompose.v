(** Costs and constraints built on the solver's variable structure: the
    configurations computed by the constructors from the labels, and the
    discharge of the non-overlap hypotheses of the exactness theorems. *)
From Coq Require Import Reals String List Arith Bool Lia Lra.
From Verif Require Import Spec SpecLayout SpecState Labeller LabellerProofs Layout LayoutProofs LabelFilters
  SpecConstraints SpecCosts Smoothing ConstraintsModel ConstraintStatements CostsModel CostStatements.
Import ListNotations.
Local Open Scope nat_scope.

(** Offset of a range (size_t conversion of range.offset; the asserts exclude
    invalid ranges). *)
Definition offset (r : range) : nat := match r with Some (o, _) => o | None => 0 end.
Definition label_offset (L : labeller) (n : string) : nat := offset (getIndexRange L n).

(** FeetDistanceCost.cpp:39-52: allPoints. *)
Definition feet_points (L : labeller) : list (nat * bool) :=
  flat_map (fun l => (if contains "LeftPositionPoint" l then [(label_offset L l, true)] else []) ++
                     (if contains "RightPositionPoint" l then [(label_offset L l, false)] else []))
           (listOfLabels L).

(** MeanPointPositionCost.cpp:40-46. *)
Definition mean_points (L : labeller) : list nat := map offset (ranges_containing L "PositionPoint").
(** FeetRelativeHeightConstraint.cpp:39-56. *)
Definition height_cfg (L : labeller) (mx : R) : fh_cfg :=
  {| fh_left := map offset (ranges_containing L "LeftPositionPoint");
     fh_right := map offset (ranges_containing L "RightPositionPoint"); fh_max := mx |}.
(** ForceMeanCost.cpp:42-51, ForceRatioCost.cpp:43-52. *)
Definition force_own (L : labeller) (foot : string) (i : nat) : nat :=
  label_offset L (foot ++ "ForcePoint" ++ decimal i)%string.
Definition force_others (L : labeller) (foot : string) (i : nat) : list nat :=
  map offset (other_ranges_containing L (foot ++ "ForcePoint")%string (foot ++ "ForcePoint" ++ decimal i)%string).
(** Offsets of the ranges of one contact point, looked up by name by the per
    point constraints and costs (e.g. ContactForceControlConstraints.cpp,
    DynamicalComplementarityConstraint.cpp constructors). *)
Definition pos_off (L : labeller) (foot : string) (i : nat) : nat :=
  label_offset L (foot ++ "PositionPoint" ++ decimal i)%string.
Definition vel_off (C : labeller) (foot : string) (i : nat) : nat :=
  label_offset C (foot ++ "VelocityControlPoint" ++ decimal i)%string.
Definition fctl_off (C : labeller) (foot : string) (i : nat) : nat :=
  label_offset C (foot ++ "ForceControlPoint" ++ decimal i)%string.

Section OnLayout.
Context (dofs n : nat) (SL CL : labeller).
Hypothesis HS : consistent (state_decl dofs n) SL.
Hypothesis HC : consistent (control_decl dofs n) CL.

Lemma labels_are : listOfLabels SL = map sname (stags n).
Proof. destruct HS as (_ & _ & H & _). unfold listOfLabels. now rewrite H, state_names. Qed.

Lemma lookup_off t : stag_ok n t -> label_offset SL (sname t) = soff n t.
Proof. intros H. unfold label_offset. now rewrite (state_lookup dofs n SL t HS H). Qed.
Lemma lookup_coff t : ctag_ok n t -> label_offset CL (cname t) = coff n t.
Proof. intros H. unfold label_offset. now rewrite (control_lookup dofs n CL t HC H). Qed.

Lemma off_map (g : nat -> stag) : (forall i, i < n -> stag_ok n (g i)) ->
  map offset (map (getIndexRange SL) (map sname (map g (seq 0 n)))) = map (fun i => soff n (g i)) (seq 0 n).
Proof.
  intros H. rewrite !map_map. apply map_ext_in. intros i Hi. apply in_seq in Hi.
  change (label_offset SL (sname (g i)) = soff n (g i)). apply lookup_off, H. lia.
Qed.

Lemma mean_points_are : mean_points SL = map (fun i => 6 * i + 3) (seq 0 (2 * n)).
Proof.
  unfold mean_points, ranges_containing. rewrite labels_are.
  rewrite (filter_map_comm _ is_anypos) by apply contains_P. rewrite tags_anypos, !map_app.
  rewrite !off_map by (intros; cbn; lia). cbn [soff].
  replace (2 * n) with (n + n) by lia. rewrite seq_app, map_app. f_equal.
  replace (0 + n) with (n + 0) by lia. clear.
  assert (G : forall k s, map (fun i => 6 * n + 6 * i + 3) (seq s k) = map (fun i => 6 * i + 3) (seq (n + s) k)).
  { induction k; intros s; cbn [seq map]; auto. f_equal; [lia|]. rewrite IHk. f_equal. f_equal. lia. }
  apply G.
Qed.

Lemma height_left_are mx : fh_left (height_cfg SL mx) = map (fun i => 6 * i + 3) (seq 0 n).
Proof.
  cbn [height_cfg fh_left]. unfold ranges_containing. rewrite labels_are.
  rewrite (filter_map_comm _ (is_pos true)) by apply contains_LP. rewrite tags_pos_left.
  rewrite !off_map by (intros; cbn; lia). reflexivity.
Qed.
Lemma height_right_are mx : fh_right (height_cfg SL mx) = map (fun i => 6 * n + 6 * i + 3) (seq 0 n).
Proof.
  cbn [height_cfg fh_right]. unfold ranges_containing. rewrite labels_are.
  rewrite (filter_map_comm _ (is_pos false)) by apply contains_RP. rewrite tags_pos_right.
  rewrite !off_map by (intros; cbn; lia). reflexivity.
Qed.

Lemma feet_points_are : feet_points SL =
  map (fun i => (6 * i + 3, true)) (seq 0 n) ++ map (fun i => (6 * n + 6 * i + 3, false)) (seq 0 n).
Proof.
  unfold feet_points. rewrite labels_are.
  assert (E : forall l, (forall t, In t l -> stag_ok n t) ->
    flat_map (fun l => (if contains "LeftPositionPoint" l then [(label_offset SL l, true)] else []) ++
                     (if contains "RightPositionPoint" l then [(label_offset SL l, false)] else [])) (map sname l) =
    flat_map (fun t => match t with SP b i => [(soff n t, b)] | _ => [] end) l).
  { induction l as [|t l IH]; intros H; cbn [map flat_map]; auto.
    rewrite contains_LP, contains_RP, IH by (intros; apply H; cbn; auto). f_equal.
    destruct t as [[] i|[] i| | | | |]; cbn [is_pos Bool.eqb app]; auto;
    rewrite lookup_off by (apply H; cbn; auto); reflexivity. }
  rewrite E.
  - unfold stags. rewrite !flat_map_app.
    assert (F : forall b l, flat_map (fun t => match t with SP b i => [(soff n t, b)] | _ => [] end)
        (flat_map (fun i => [SF b i; SP b i]) l) = map (fun i => (soff n (SP b i), b)) l).
    { intros b l. induction l; cbn [flat_map map app]; auto. f_equal. exact IHl. }
    rewrite !F. cbn [flat_map app]. rewrite app_nil_r. reflexivity.
  - intros t Ht. unfold stags in Ht. rewrite !in_app_iff in Ht.
    destruct Ht as [Ht|[Ht|Ht]].
    + apply in_flat_map in Ht. destruct Ht as (i & Hi & [<-|[<-|[]]]); apply in_seq in Hi; cbn; lia.
    + apply in_flat_map in Ht. destruct Ht as (i & Hi & [<-|[<-|[]]]); apply in_seq in Hi; cbn; lia.
    + cbn in Ht. intuition (subst; exact I).
Qed.

Definition foot_base (lft : bool) : nat := if lft then 0 else 6 * n.
Definition foot_name (lft : bool) : string := if lft then "Left"%string else "Right"%string.

Lemma force_own_is lft i : i < n -> force_own SL (foot_name lft) i = foot_base lft + 6 * i.
Proof. intros H. destruct lft; [apply (lookup_off (SF true i)) in H|apply (lookup_off (SF false i)) in H]; exact H. Qed.
Lemma pos_off_is lft i : i < n -> pos_off SL (foot_name lft) i = foot_base lft + 6 * i + 3.
Proof. intros H. destruct lft; [apply (lookup_off (SP true i)) in H|apply (lookup_off (SP false i)) in H]; exact H. Qed.
Lemma vel_off_is lft i : i < n -> vel_off CL (foot_name lft) i = foot_base lft + 6 * i.
Proof. intros H. destruct lft; [apply (lookup_coff (CV true i)) in H|apply (lookup_coff (CV false i)) in H]; exact H. Qed.
Lemma fctl_off_is lft i : i < n -> fctl_off CL (foot_name lft) i = foot_base lft + 6 * i + 3.
Proof. intros H. destruct lft; [apply (lookup_coff (CF true i)) in H|apply (lookup_coff (CF false i)) in H]; exact H. Qed.

Lemma force_others_are lft i : i < n ->
  force_others SL (foot_name lft) i =
  map (fun j => foot_base lft + 6 * j) (filter (fun j => negb (j =? i)) (seq 0 n)).
Proof.
  intros Hi. unfold force_others, other_ranges_containing. rewrite labels_are.
  set (h := fun t => is_force lft t && negb (match t with SF _ j => j =? i | _ => false end)).
  rewrite (filter_map_comm _ h).
  2:{ intros t. unfold h. destruct lft; cbn [foot_name].
      - change ("Left" ++ "ForcePoint")%string with "LeftForcePoint"%string. rewrite contains_LF.
        destruct t as [[] j|[] j| | | | |]; cbn [is_force Bool.eqb andb]; auto.
        f_equal. destruct (j =? i) eqn:E.
        + apply Nat.eqb_eq in E; subst. apply String.eqb_refl.
        + apply String.eqb_neq. intros H. change (sname (SF true j) = sname (SF true i)) in H.
          apply sname_inj in H. injection H as ->. rewrite Nat.eqb_refl in E. discriminate.
      - change ("Right" ++ "ForcePoint")%string with "RightForcePoint"%string. rewrite contains_RF.
        destruct t as [[] j|[] j| | | | |]; cbn [is_force Bool.eqb andb]; auto.
        f_equal. destruct (j =? i) eqn:E.
        + apply Nat.eqb_eq in E; subst. apply String.eqb_refl.
        + apply String.eqb_neq. intros H. change (sname (SF false j) = sname (SF false i)) in H.
          apply sname_inj in H. injection H as ->. rewrite Nat.eqb_refl in E. discriminate. }
  assert (E : filter h (stags n) = map (SF lft) (filter (fun j => negb (j =? i)) (seq 0 n))).
  { assert (E1 : forall l, filter h l = filter (fun t => negb (match t with SF _ j => j =? i | _ => false end)) (filter (is_force lft) l)).
    { induction l as [|t l IH]; cbn [filter]; auto. unfold h at 1. rewrite IH.
      destruct (is_force lft t); cbn [andb filter]; auto. }
    rewrite E1. assert (filter (is_force lft) (stags n) = map (SF lft) (seq 0 n)) as ->
      by (destruct lft; [apply tags_force_left|apply tags_force_right]).
    apply (filter_map_comm _ (fun j => negb (j =? i))). reflexivity. }
  rewrite E, !map_map. apply map_ext_in. intros j Hj. apply filter_In in Hj. destruct Hj as [Hj _]. apply in_seq in Hj.
  change (label_offset SL (sname (SF lft j)) = foot_base lft + 6 * j).
  rewrite lookup_off by (cbn; lia). destruct lft; reflexivity.
Qed.
End OnLayout.

(** Disjointness of arithmetic families of ranges. *)
Lemma disjoint_ranges_NoDup_map (f : nat -> nat) (l : list nat) : NoDup l ->
  (forall i j, In i l -> In j l -> i <> j -> f i + 3 <= f j \/ f j + 3 <= f i) ->
  disjoint_ranges 3 (map f l).
Proof.
  induction 1 as [|a l Ha Hl IH]; intros H; cbn [map disjoint_ranges]; auto.
  split.
  - intros b Hb. apply in_map_iff in Hb. destruct Hb as (j & <- & Hj).
    apply H; cbn; auto. intros ->. contradiction.
  - apply IH. intros i j Hi Hj. apply H; cbn; auto.
Qed.

Lemma disjoint_app l1 l2 : disjoint_ranges 3 l1 -> disjoint_ranges 3 l2 ->
  (forall a b, In a l1 -> In b l2 -> a + 3 <= b \/ b + 3 <= a) -> disjoint_ranges 3 (l1 ++ l2).
Proof.
  induction l1 as [|a l1 IH]; intros H1 H2 H; cbn [app disjoint_ranges]; auto.
  destruct H1 as [H1 H1']. split.
  - intros b Hb. apply in_app_or in Hb. destruct Hb as [Hb|Hb]; auto. apply H; cbn; auto.
  - apply IH; auto. intros x y Hx Hy. apply H; cbn; auto.
Qed.

Lemma mean_points_disjoint n : disjoint_ranges 3 (map (fun i => 6 * i + 3) (seq 0 (2 * n))).
Proof. apply disjoint_ranges_NoDup_map; [apply seq_NoDup|intros; lia]. Qed.

Lemma two_feet_disjoint n :
  disjoint_ranges 3 (map (fun i => 6 * i + 3) (seq 0 n) ++ map (fun i => 6 * n + 6 * i + 3) (seq 0 n)).
Proof.
  apply disjoint_app; try (apply disjoint_ranges_NoDup_map; [apply seq_NoDup|intros; lia]).
  intros a b Ha Hb. apply in_map_iff in Ha, Hb. destruct Ha as (i & <- & Hi), Hb as (j & <- & Hj).
  apply in_seq in Hi, Hj. lia.
Qed.

Lemma forces_disjoint b n i : disjoint_ranges 3 ((b + 6 * i) :: map (fun j => b + 6 * j) (filter (fun j => negb (j =? i)) (seq 0 n))).
Proof.
  cbn [disjoint_ranges]. split.
  - intros x Hx. apply in_map_iff in Hx. destruct Hx as (j & <- & Hj). apply filter_In in Hj.
    destruct Hj as [_ Hj]. apply negb_true_iff, Nat.eqb_neq in Hj. lia.
  - apply disjoint_ranges_NoDup_map; [apply NoDup_filter, seq_NoDup|intros; lia].
Qed.
