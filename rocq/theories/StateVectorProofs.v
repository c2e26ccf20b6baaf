From Coq Require Import Reals String List Arith Bool Lia Lra.
From Verif Require Import SpecLayout SpecState Labeller LabellerProofs Layout LayoutProofs.
Import ListNotations.
Local Open Scope nat_scope.

Ltac bcase :=
  repeat match goal with
  | |- context [?a <=? ?b] => let E := fresh in destruct (a <=? b) eqn:E; [apply Nat.leb_le in E|apply Nat.leb_gt in E]
  | |- context [?a <? ?b] => let E := fresh in destruct (a <? b) eqn:E; [apply Nat.ltb_lt in E|apply Nat.ltb_ge in E]
  end; cbn [andb].

Lemma write_at_after v o a b : o + length a + length b <= length v ->
  write_at (write_at v o a) (o + length a) b = write_at v o (a ++ b).
Proof.
  intros H. apply nth_ext_err. intros i.
  rewrite !nth_write_at by (rewrite ?write_at_length, ?app_length; lia).
  rewrite app_length. bcase; try lia; auto.
  all: first [rewrite nth_error_app1 by lia; f_equal; lia | rewrite nth_error_app2 by lia; f_equal; lia].
Qed.
Lemma write_at_before v o a b : o + length a + length b <= length v ->
  write_at (write_at v (o + length a) b) o a = write_at v o (a ++ b).
Proof.
  intros H. apply nth_ext_err. intros i.
  rewrite !nth_write_at by (rewrite ?write_at_length, ?app_length; lia).
  rewrite app_length. bcase; try lia; auto.
  all: first [rewrite nth_error_app1 by lia; f_equal; lia | rewrite nth_error_app2 by lia; f_equal; lia].
Qed.
Lemma write_at_nil v o : o <= length v -> write_at v o [] = v.
Proof. intros. unfold write_at. cbn. rewrite Nat.add_0_r. apply firstn_skipn. Qed.
Lemma write_at_all v w : length w = length v -> write_at v 0 w = w.
Proof. intros H. unfold write_at. cbn. rewrite H, skipn_all. apply app_nil_r. Qed.

Lemma l3_length v : length (l3 v) = 3. Proof. now destruct v as [[]]. Qed.
Lemma l4_length v : length (l4 v) = 4. Proof. now destruct v as [[[]]]. Qed.
Lemma l6_length v : length (l6 v) = 6. Proof. unfold l6. now rewrite app_length, !l3_length. Qed.

Lemma set_segment_ok o s vs v : length vs = s -> o + s <= length v ->
  set_segment (Some (o, s)) vs v = Some (write_at v o vs).
Proof.
  intros H1 H2. unfold set_segment. apply Nat.eqb_eq in H1. apply Nat.leb_le in H2. now rewrite H1, H2.
Qed.

Definition pvec (p : point_state) : list R := l3 (pointForce p) ++ l3 (pointPosition p).
Definition cvec (p : point_control) : list R := l3 (pointVelocityControl p) ++ l3 (pointForceControl p).
Lemma pvec_length p : length (pvec p) = 6. Proof. unfold pvec. now rewrite app_length, !l3_length. Qed.
Lemma cvec_length p : length (cvec p) = 6. Proof. unfold cvec. now rewrite app_length, !l3_length. Qed.
Lemma flat_length {A} (f : A -> list R) l : (forall p, length (f p) = 6) -> length (flat_map f l) = 6 * length l.
Proof. intros H. induction l; cbn [flat_map length]; auto. rewrite app_length, H, IHl. lia. Qed.

Lemma write_points_ok pts : forall s o v, o + 6 * (s + length pts) <= length v ->
  write_points (map (fun i => Some (o + 6 * i + 3, 3)) (seq s (length pts)))
               (map (fun i => Some (o + 6 * i, 3)) (seq s (length pts))) pts v
  = Some (write_at v (o + 6 * s) (flat_map pvec pts)).
Proof.
  induction pts as [|p pts IH]; intros s o v H; cbn [length seq map write_points flat_map] in *.
  - rewrite write_at_nil by lia. reflexivity.
  - unfold bind. rewrite set_segment_ok by (rewrite ?l3_length; lia).
    rewrite set_segment_ok by (rewrite ?write_at_length; rewrite ?l3_length; lia).
    assert (E : write_at (write_at v (o + 6 * s + 3) (l3 (pointPosition p))) (o + 6 * s) (l3 (pointForce p))
                = write_at v (o + 6 * s) (pvec p)).
    { match goal with |- write_at (write_at _ _ ?P) _ ?F = _ => pose proof (write_at_before v (o + 6 * s) F P) as W end.
      rewrite !l3_length in W. apply W. lia. }
    rewrite E. rewrite IH by (rewrite write_at_length; rewrite ?pvec_length; lia).
    f_equal. replace (o + 6 * S s) with (o + 6 * s + length (pvec p)) by (rewrite pvec_length; lia).
    rewrite write_at_after; auto. rewrite pvec_length, (flat_length pvec) by apply pvec_length. lia.
Qed.

Lemma write_pointsC_ok pts : forall s o v, o + 6 * (s + length pts) <= length v ->
  write_pointsC (map (fun i => Some (o + 6 * i + 3, 3)) (seq s (length pts)))
               (map (fun i => Some (o + 6 * i, 3)) (seq s (length pts))) pts v
  = Some (write_at v (o + 6 * s) (flat_map cvec pts)).
Proof.
  induction pts as [|p pts IH]; intros s o v H; cbn [length seq map write_pointsC flat_map] in *.
  - rewrite write_at_nil by lia. reflexivity.
  - unfold bind. rewrite set_segment_ok by (rewrite ?l3_length; lia).
    rewrite set_segment_ok by (rewrite ?write_at_length; rewrite ?l3_length; lia).
    assert (E : write_at (write_at v (o + 6 * s + 3) (l3 (pointForceControl p))) (o + 6 * s) (l3 (pointVelocityControl p))
                = write_at v (o + 6 * s) (cvec p)).
    { match goal with |- write_at (write_at _ _ ?P) _ ?F = _ => pose proof (write_at_before v (o + 6 * s) F P) as W end.
      rewrite !l3_length in W. apply W. lia. }
    rewrite E. rewrite IH by (rewrite write_at_length; rewrite ?cvec_length; lia).
    f_equal. replace (o + 6 * S s) with (o + 6 * s + length (cvec p)) by (rewrite cvec_length; lia).
    rewrite write_at_after; auto. rewrite cvec_length, (flat_length cvec) by apply cvec_length. lia.
Qed.

Lemma state_vector_length {Rot} (q : Rot -> V4) s dofs n : state_sized s dofs n ->
  length (state_vector q s) = 12 * n + 16 + dofs.
Proof.
  intros (H1 & H2 & H3). unfold state_vector.
  fold (pvec). rewrite !app_length. fold pvec.
  rewrite !(flat_length (fun p => l3 (pointForce p) ++ l3 (pointPosition p))) by apply pvec_length.
  rewrite l6_length, !l3_length, l4_length. lia.
Qed.
Lemma control_vector_length c dofs n : control_sized c dofs n ->
  length (control_vector c) = 12 * n + 7 + dofs.
Proof.
  intros (H1 & H2 & H3). unfold control_vector. rewrite !app_length.
  rewrite !(flat_length (fun p => l3 (pointVelocityControl p) ++ l3 (pointForceControl p))) by apply cvec_length.
  rewrite !l3_length, l4_length. lia.
Qed.

Ltac wstep K :=
  rewrite set_segment_ok; [|rewrite ?l3_length, ?l4_length, ?l6_length; auto; lia|rewrite ?write_at_length; lia].

Lemma write_then {v a o b s w} : v = write_at w 0 a -> o = length a -> length b = s ->
  o + s <= length w ->
  set_segment (Some (o, s)) b v = Some (write_at w 0 (a ++ b)).
Proof.
  intros -> -> <- H. rewrite set_segment_ok; auto.
  - f_equal. rewrite <- (write_at_after w 0 a b) by (cbn; lia). reflexivity.
  - rewrite write_at_length; cbn; lia.
Qed.

Lemma write_state_ok {Rot} (q : Rot -> V4) s dofs n v : state_sized s dofs n ->
  length v = 12 * n + 16 + dofs ->
  write_state q (layout dofs n) s v = Some (state_vector q s).
Proof.
  intros Hs Hv. pose proof (state_vector_length q s dofs n Hs) as HL.
  destruct Hs as (H1 & H2 & H3).
  unfold write_state, layout, foot_layout. cbn [vr_left vr_right positionPoints forcePoints r_momentum r_com r_basePosition r_baseQuaternion r_joints].
  unfold bind.
  assert (F1 := flat_length pvec (leftContactPointsState s) pvec_length).
  assert (F2 := flat_length pvec (rightContactPointsState s) pvec_length).
  set (wl := flat_map pvec (leftContactPointsState s)) in *.
  set (wr := flat_map pvec (rightContactPointsState s)) in *.
  pose proof (write_points_ok (leftContactPointsState s) 0 0 v) as WL. rewrite H1 in WL. rewrite WL by lia. clear WL.
  fold wl. rewrite ?Nat.mul_0_r, ?Nat.add_0_r.
  pose proof (write_points_ok (rightContactPointsState s) 0 (6 * n) (write_at v 0 wl)) as WR. rewrite H2 in WR. rewrite WR by (rewrite write_at_length; lia). clear WR.
  fold wr. rewrite Nat.mul_0_r, Nat.add_0_r.
  assert (E : write_at (write_at v 0 wl) (6 * n) wr = write_at v 0 (wl ++ wr)).
  { replace (6 * n) with (0 + length wl) by lia. apply write_at_after. lia. }
  rewrite E; clear E.
  rewrite (write_then (w := v) eq_refl); [|rewrite ?app_length; lia|apply l6_length|lia].
  rewrite (write_then (w := v) eq_refl); [|rewrite ?app_length, ?l6_length; lia|apply l3_length|lia].
  rewrite (write_then (w := v) eq_refl); [|rewrite ?app_length, ?l6_length, ?l3_length; lia|apply l3_length|lia].
  rewrite (write_then (w := v) eq_refl); [|rewrite ?app_length, ?l6_length, ?l3_length; lia|apply l4_length|lia].
  rewrite (write_then (w := v) eq_refl); [|rewrite ?app_length, ?l6_length, ?l3_length, ?l4_length; lia|auto|lia].
  f_equal. rewrite <- !app_assoc.
  change (write_at v 0 (state_vector q s) = state_vector q s).
  apply write_at_all. lia.
Qed.

Lemma write_control_ok c dofs n v : control_sized c dofs n ->
  length v = 12 * n + 7 + dofs ->
  write_control (layout dofs n) c v = Some (control_vector c).
Proof.
  intros Hs Hv. pose proof (control_vector_length c dofs n Hs) as HL.
  destruct Hs as (H1 & H2 & H3).
  unfold write_control, layout, foot_layout. cbn [vr_left vr_right velocityControlPoints forceControlPoints r_baseLinVel r_baseQuatDer r_jointsVel].
  unfold bind.
  assert (F1 := flat_length cvec (leftContactPointsControl c) cvec_length).
  assert (F2 := flat_length cvec (rightContactPointsControl c) cvec_length).
  set (wl := flat_map cvec (leftContactPointsControl c)) in *.
  set (wr := flat_map cvec (rightContactPointsControl c)) in *.
  pose proof (write_pointsC_ok (leftContactPointsControl c) 0 0 v) as WL. rewrite H1 in WL. rewrite WL by lia. clear WL.
  fold wl. rewrite ?Nat.mul_0_r, ?Nat.add_0_r.
  pose proof (write_pointsC_ok (rightContactPointsControl c) 0 (6 * n) (write_at v 0 wl)) as WR. rewrite H2 in WR. rewrite WR by (rewrite write_at_length; lia). clear WR.
  fold wr. rewrite Nat.mul_0_r, Nat.add_0_r.
  assert (E : write_at (write_at v 0 wl) (6 * n) wr = write_at v 0 (wl ++ wr)).
  { replace (6 * n) with (0 + length wl) by lia. apply write_at_after. lia. }
  rewrite E; clear E.
  rewrite (write_then (w := v) eq_refl); [|rewrite ?app_length; lia|apply l3_length|lia].
  rewrite (write_then (w := v) eq_refl); [|rewrite ?app_length, ?l6_length, ?l3_length; lia|apply l4_length|lia].
  rewrite (write_then (w := v) eq_refl); [|rewrite ?app_length, ?l6_length, ?l3_length, ?l4_length; lia|auto|lia].
  f_equal. rewrite <- !app_assoc.
  change (write_at v 0 (control_vector c) = control_vector c).
  apply write_at_all. lia.
Qed.

(** Reading. *)
Lemma get_segment_mid a b c o s : o = length a -> s = length b ->
  get_segment (Some (o, s)) (a ++ b ++ c) = Some b.
Proof.
  intros -> ->. unfold get_segment. rewrite !app_length.
  replace (length a + length b <=? length a + (length b + length c)) with true by (symmetry; apply Nat.leb_le; lia).
  f_equal. unfold segment. cbn [fst snd].
  rewrite skipn_app, Nat.sub_diag, skipn_all. cbn [app skipn].
  rewrite firstn_app, Nat.sub_diag, firstn_all. cbn [firstn]. apply app_nil_r.
Qed.

Lemma of3_l3 v : of3 (l3 v) = Some v. Proof. now destruct v as [[]]. Qed.
Lemma of4_l4 v : of4 (l4 v) = Some v. Proof. now destruct v as [[[]]]. Qed.
Lemma of6_l6 v : of6 (l6 v) = Some v. Proof. now destruct v as [[[]] [[]]]. Qed.

Lemma read_points_ok o pts : forall s pre post old, length pre = o + 6 * s -> length old = length pts ->
  read_points (pre ++ flat_map pvec pts ++ post)
    (map (fun i => Some (o + 6 * i + 3, 3)) (seq s (length pts)))
    (map (fun i => Some (o + 6 * i, 3)) (seq s (length pts))) old = Some pts.
Proof.
  induction pts as [|p pts IH]; intros s pre post old Hpre Hold;
    cbn [length seq map read_points flat_map].
  - destruct old; [reflexivity|discriminate].
  - destruct old as [|x old]; [discriminate|]. injection Hold as Hold.
    assert (E1 : pre ++ (pvec p ++ flat_map pvec pts) ++ post =
                (pre ++ l3 (pointForce p)) ++ l3 (pointPosition p) ++ (flat_map pvec pts ++ post))
      by (unfold pvec at 1; rewrite <- !app_assoc; reflexivity).
    assert (E2 : pre ++ (pvec p ++ flat_map pvec pts) ++ post =
                pre ++ l3 (pointForce p) ++ (l3 (pointPosition p) ++ flat_map pvec pts ++ post))
      by (unfold pvec at 1; rewrite <- !app_assoc; reflexivity).
    rewrite E1 at 1. rewrite get_segment_mid by (rewrite ?app_length, ?l3_length; lia).
    cbn [bind]. rewrite of3_l3. cbn [bind].
    rewrite E2 at 1. rewrite get_segment_mid by (rewrite ?l3_length; lia).
    cbn [bind]. rewrite of3_l3. cbn [bind].
    assert (E3 : pre ++ (pvec p ++ flat_map pvec pts) ++ post =
                (pre ++ pvec p) ++ flat_map pvec pts ++ post) by (rewrite <- !app_assoc; reflexivity).
    rewrite E3. rewrite (IH (S s)) by (rewrite ?app_length, ?pvec_length; lia).
    cbn [bind]. now destruct p.
Qed.

Lemma read_pointsC_ok o pts : forall s pre post old, length pre = o + 6 * s -> length old = length pts ->
  read_pointsC (pre ++ flat_map cvec pts ++ post)
    (map (fun i => Some (o + 6 * i + 3, 3)) (seq s (length pts)))
    (map (fun i => Some (o + 6 * i, 3)) (seq s (length pts))) old = Some pts.
Proof.
  induction pts as [|p pts IH]; intros s pre post old Hpre Hold;
    cbn [length seq map read_pointsC flat_map].
  - destruct old; [reflexivity|discriminate].
  - destruct old as [|x old]; [discriminate|]. injection Hold as Hold.
    assert (E1 : pre ++ (cvec p ++ flat_map cvec pts) ++ post =
                (pre ++ l3 (pointVelocityControl p)) ++ l3 (pointForceControl p) ++ (flat_map cvec pts ++ post))
      by (unfold cvec at 1; rewrite <- !app_assoc; reflexivity).
    assert (E2 : pre ++ (cvec p ++ flat_map cvec pts) ++ post =
                pre ++ l3 (pointVelocityControl p) ++ (l3 (pointForceControl p) ++ flat_map cvec pts ++ post))
      by (unfold cvec at 1; rewrite <- !app_assoc; reflexivity).
    rewrite E1 at 1. rewrite get_segment_mid by (rewrite ?app_length, ?l3_length; lia).
    cbn [bind]. rewrite !of3_l3. cbn [bind].
    rewrite E2 at 1. rewrite get_segment_mid by (rewrite ?l3_length; lia).
    cbn [bind]. rewrite !of3_l3. cbn [bind].
    assert (E3 : pre ++ (cvec p ++ flat_map cvec pts) ++ post =
                (pre ++ cvec p) ++ flat_map cvec pts ++ post) by (rewrite <- !app_assoc; reflexivity).
    rewrite E3. rewrite (IH (S s)) by (rewrite ?app_length, ?cvec_length; lia).
    cbn [bind]. now destruct p.
Qed.

Lemma read_vector {Rot} (fromQ : V4 -> Rot) (s old : state Rot) (q : V4) dofs n t :
  state_sized s dofs n -> state_sized old dofs n ->
  setStateFromVariables fromQ (layout dofs n) (state_vector (fun _ => q) s) t old =
  Some (mkState (leftContactPointsState s) (rightContactPointsState s) (momentumInCoM s) (comPosition s)
                (basePosition s) (fromQ (normalized4 q)) (jointsConfiguration s) t).
Proof.
  intros (H1 & H2 & H3) (O1 & O2 & O3).
  unfold setStateFromVariables, layout, foot_layout. cbn [vr_left vr_right positionPoints forcePoints r_momentum r_com r_basePosition r_baseQuaternion r_joints].
  unfold state_vector.
  assert (F1 := flat_length pvec (leftContactPointsState s) pvec_length).
  assert (F2 := flat_length pvec (rightContactPointsState s) pvec_length).
  change (fun p => l3 (pointForce p) ++ l3 (pointPosition p)) with pvec.
  match goal with |- context [read_points (?a ++ ?b) _ _ _] =>
    pose proof (read_points_ok 0 (leftContactPointsState s) 0 [] b (leftContactPointsState old) eq_refl ltac:(lia)) as RL end.
  rewrite H1 in RL. cbn [app] in RL. rewrite RL. cbn [bind]. clear RL.
  match goal with |- context [read_points (?a ++ ?b ++ ?z) _ _ _] =>
    pose proof (read_points_ok (6 * n) (rightContactPointsState s) 0 a z (rightContactPointsState old) ltac:(lia) ltac:(lia)) as RL end.
  rewrite H2 in RL. rewrite RL. cbn [bind]. clear RL.
  set (wl := flat_map pvec (leftContactPointsState s)) in *.
  set (wr := flat_map pvec (rightContactPointsState s)) in *.
  set (m := l6 (momentumInCoM s)). set (c := l3 (comPosition s)). set (b := l3 (basePosition s)).
  set (qq := l4 q). set (j := jointsConfiguration s).
  assert (Lm : length m = 6) by apply l6_length. assert (Lc : length c = 3) by apply l3_length.
  assert (Lb : length b = 3) by apply l3_length. assert (Lq : length qq = 4) by apply l4_length.
  replace (wl ++ wr ++ m ++ c ++ b ++ qq ++ j) with ((wl ++ wr) ++ m ++ (c ++ b ++ qq ++ j)) by (rewrite <- !app_assoc; reflexivity).
  rewrite (get_segment_mid _ _ _ (12 * n) 6) by (rewrite ?app_length; lia). cbn [bind]. unfold m at 1. rewrite of6_l6. cbn [bind].
  replace ((wl ++ wr) ++ m ++ c ++ b ++ qq ++ j) with ((wl ++ wr ++ m) ++ c ++ (b ++ qq ++ j)) by (rewrite <- !app_assoc; reflexivity).
  rewrite (get_segment_mid _ _ _ (12 * n + 6) 3) by (rewrite ?app_length; lia). cbn [bind]. unfold c at 1. rewrite of3_l3. cbn [bind].
  replace ((wl ++ wr ++ m) ++ c ++ b ++ qq ++ j) with ((wl ++ wr ++ m ++ c) ++ b ++ (qq ++ j)) by (rewrite <- !app_assoc; reflexivity).
  rewrite (get_segment_mid _ _ _ (12 * n + 9) 3) by (rewrite ?app_length; lia). cbn [bind]. unfold b at 1. rewrite of3_l3. cbn [bind].
  replace ((wl ++ wr ++ m ++ c) ++ b ++ qq ++ j) with ((wl ++ wr ++ m ++ c ++ b) ++ qq ++ j) by (rewrite <- !app_assoc; reflexivity).
  rewrite (get_segment_mid _ _ _ (12 * n + 12) 4) by (rewrite ?app_length; lia). cbn [bind]. unfold qq at 1. rewrite of4_l4. cbn [bind].
  replace ((wl ++ wr ++ m ++ c ++ b) ++ qq ++ j) with ((wl ++ wr ++ m ++ c ++ b ++ qq) ++ j ++ []) by (rewrite app_nil_r, <- !app_assoc; reflexivity).
  rewrite (get_segment_mid _ _ _ (12 * n + 16) dofs) by (rewrite ?app_length; try unfold j; lia). reflexivity.
Qed.

Lemma read_vectorC (c old : control) dofs n t :
  control_sized c dofs n -> control_sized old dofs n ->
  setControlFromVariables (layout dofs n) (control_vector c) t old =
  Some (mkControl (leftContactPointsControl c) (rightContactPointsControl c) (baseLinearVelocity c)
                (baseQuaternionDerivative c) (jointsVelocity c) t).
Proof.
  intros (H1 & H2 & H3) (O1 & O2 & O3).
  unfold setControlFromVariables, layout, foot_layout. cbn [vr_left vr_right velocityControlPoints forceControlPoints r_baseLinVel r_baseQuatDer r_jointsVel].
  unfold control_vector.
  assert (F1 := flat_length cvec (leftContactPointsControl c) cvec_length).
  assert (F2 := flat_length cvec (rightContactPointsControl c) cvec_length).
  change (fun p => l3 (pointVelocityControl p) ++ l3 (pointForceControl p)) with cvec.
  match goal with |- context [read_pointsC (?a ++ ?b) _ _ _] =>
    pose proof (read_pointsC_ok 0 (leftContactPointsControl c) 0 [] b (leftContactPointsControl old) eq_refl ltac:(lia)) as RL end.
  rewrite H1 in RL. cbn [app] in RL. rewrite RL. cbn [bind]. clear RL.
  match goal with |- context [read_pointsC (?a ++ ?b ++ ?z) _ _ _] =>
    pose proof (read_pointsC_ok (6 * n) (rightContactPointsControl c) 0 a z (rightContactPointsControl old) ltac:(lia) ltac:(lia)) as RL end.
  rewrite H2 in RL. rewrite RL. cbn [bind]. clear RL.
  set (wl := flat_map cvec (leftContactPointsControl c)) in *.
  set (wr := flat_map cvec (rightContactPointsControl c)) in *.
  set (b := l3 (baseLinearVelocity c)).
  set (qq := l4 (baseQuaternionDerivative c)). set (j := jointsVelocity c).
  assert (Lb : length b = 3) by apply l3_length. assert (Lq : length qq = 4) by apply l4_length.
  replace (wl ++ wr ++ b ++ qq ++ j) with ((wl ++ wr) ++ b ++ (qq ++ j)) by (rewrite <- !app_assoc; reflexivity).
  rewrite (get_segment_mid _ _ _ (12 * n) 3) by (rewrite ?app_length; lia). cbn [bind]. unfold b at 1. rewrite of3_l3. cbn [bind].
  replace ((wl ++ wr) ++ b ++ qq ++ j) with ((wl ++ wr ++ b) ++ qq ++ j) by (rewrite <- !app_assoc; reflexivity).
  rewrite (get_segment_mid _ _ _ (12 * n + 3) 4) by (rewrite ?app_length; lia). cbn [bind]. unfold qq at 1. rewrite of4_l4. cbn [bind].
  replace ((wl ++ wr ++ b) ++ qq ++ j) with ((wl ++ wr ++ b ++ qq) ++ j ++ []) by (rewrite app_nil_r, <- !app_assoc; reflexivity).
  rewrite (get_segment_mid _ _ _ (12 * n + 7) dofs) by (rewrite ?app_length; try unfold j; lia). reflexivity.
Qed.

(** Every vector of the right length is the vector of a state. *)
Lemma split_at {X} (l : list X) k m : length l = k + m ->
  exists a b, l = a ++ b /\ length a = k /\ length b = m.
Proof.
  intros H. exists (firstn k l), (skipn k l). rewrite firstn_skipn, firstn_length, skipn_length. repeat split; lia.
Qed.
Lemma parse3 l : length l = 3 -> exists v, l = l3 v.
Proof. destruct l as [|a [|b [|c [|]]]]; try discriminate. intros _. now exists (a,b,c). Qed.
Lemma parse4 l : length l = 4 -> exists v, l = l4 v.
Proof. destruct l as [|a [|b [|c [|d [|]]]]]; try discriminate. intros _. now exists (a,b,c,d). Qed.
Lemma parse6 l : length l = 6 -> exists v, l = l6 v.
Proof. destruct l as [|a [|b [|c [|d [|e [|f [|]]]]]]]; try discriminate. intros _. now exists ((a,b,c),(d,e,f)). Qed.
Lemma parse_points n : forall l, length l = 6 * n -> exists pts, l = flat_map pvec pts /\ length pts = n.
Proof.
  induction n; intros l H.
  - exists []. destruct l; [auto|discriminate].
  - destruct (split_at l 3 (3 + 6 * n)) as (a & r & -> & Ha & Hr); [lia|].
    destruct (split_at r 3 (6 * n)) as (b & r' & -> & Hb & Hr'); [lia|].
    destruct (parse3 a Ha) as (va & ->). destruct (parse3 b Hb) as (vb & ->).
    destruct (IHn r' Hr') as (pts & -> & Hp).
    exists (mkPointState va vb :: pts). cbn [flat_map length]. rewrite Hp. split; auto.
    unfold pvec at 2. cbn [pointForce pointPosition]. now rewrite <- app_assoc.
Qed.
Lemma parse_pointsC n : forall l, length l = 6 * n -> exists pts, l = flat_map cvec pts /\ length pts = n.
Proof.
  induction n; intros l H.
  - exists []. destruct l; [auto|discriminate].
  - destruct (split_at l 3 (3 + 6 * n)) as (a & r & -> & Ha & Hr); [lia|].
    destruct (split_at r 3 (6 * n)) as (b & r' & -> & Hb & Hr'); [lia|].
    destruct (parse3 a Ha) as (va & ->). destruct (parse3 b Hb) as (vb & ->).
    destruct (IHn r' Hr') as (pts & -> & Hp).
    exists (mkPointControl vb va :: pts). cbn [flat_map length]. rewrite Hp. split; auto.
    unfold cvec at 2. cbn [pointVelocityControl pointForceControl]. now rewrite <- app_assoc.
Qed.

Lemma parse_state {Rot} (r : Rot) (t : R) v dofs n : length v = 12 * n + 16 + dofs ->
  exists s q, v = state_vector (fun _ : Rot => q) s /\ state_sized s dofs n.
Proof.
  intros H.
  destruct (split_at v (6 * n) (6 * n + 16 + dofs)) as (a & v1 & -> & Ha & H1); [lia|].
  destruct (split_at v1 (6 * n) (16 + dofs)) as (b & v2 & -> & Hb & H2); [lia|].
  destruct (split_at v2 6 (10 + dofs)) as (m & v3 & -> & Hm & H3); [lia|].
  destruct (split_at v3 3 (7 + dofs)) as (c & v4 & -> & Hc & H4); [lia|].
  destruct (split_at v4 3 (4 + dofs)) as (p & v5 & -> & Hp & H5); [lia|].
  destruct (split_at v5 4 dofs) as (q & j & -> & Hq & Hj); [lia|].
  destruct (parse_points n a Ha) as (pl & -> & Hpl). destruct (parse_points n b Hb) as (pr & -> & Hpr).
  destruct (parse6 m Hm) as (vm & ->). destruct (parse3 c Hc) as (vc & ->). destruct (parse3 p Hp) as (vp & ->).
  destruct (parse4 q Hq) as (vq & ->).
  exists (mkState pl pr vm vc vp r j t), vq. split; [reflexivity|]. unfold state_sized. cbn. auto.
Qed.
Lemma parse_control (t : R) v dofs n : length v = 12 * n + 7 + dofs ->
  exists c, v = control_vector c /\ control_sized c dofs n.
Proof.
  intros H.
  destruct (split_at v (6 * n) (6 * n + 7 + dofs)) as (a & v1 & -> & Ha & H1); [lia|].
  destruct (split_at v1 (6 * n) (7 + dofs)) as (b & v2 & -> & Hb & H2); [lia|].
  destruct (split_at v2 3 (4 + dofs)) as (p & v5 & -> & Hp & H5); [lia|].
  destruct (split_at v5 4 dofs) as (q & j & -> & Hq & Hj); [lia|].
  destruct (parse_pointsC n a Ha) as (pl & -> & Hpl). destruct (parse_pointsC n b Hb) as (pr & -> & Hpr).
  destruct (parse3 p Hp) as (vp & ->). destruct (parse4 q Hq) as (vq & ->).
  exists (mkControl pl pr vp vq j t). split; [reflexivity|]. unfold control_sized. cbn. auto.
Qed.

Lemma checkSize_spec {Rot} (s : state Rot) dofs n : checkSize s dofs n = true <-> state_sized s dofs n.
Proof. unfold checkSize, state_sized. rewrite !andb_true_iff, !Nat.eqb_eq. tauto. Qed.
Lemma checkSizeC_spec c dofs n : checkSizeC c dofs n = true <-> control_sized c dofs n.
Proof. unfold checkSizeC, control_sized. rewrite !andb_true_iff, !Nat.eqb_eq. tauto. Qed.

Lemma zero_like_repeat v : zero_like v = repeat 0%R (length v).
Proof. unfold zero_like. induction v; cbn; congruence. Qed.

Lemma normalized4_unit q : sqnorm4 q = 1%R -> normalized4 q = q.
Proof.
  intros H. destruct q as [[[a b] c] d]. unfold normalized4. rewrite H, sqrt_1.
  destruct (Rlt_dec 0 1); auto. unfold Rdiv. rewrite Rinv_1, !Rmult_1_r. reflexivity.
Qed.

(** ** Round trips as used by the solver *)
Lemma layout_points dofs n : length (positionPoints (vr_left (layout dofs n))) = n.
Proof. cbn. now rewrite map_length, seq_length. Qed.

Lemma fillInitialState_ok {Rot} (q : Rot -> V4) junk s dofs n :
  (forall k, length (junk k) = k) -> state_sized s dofs n ->
  fillInitialState q junk (layout dofs n) s = Some (state_vector q s).
Proof.
  intros Hj Hs. unfold fillInitialState. apply write_state_ok; auto.
  rewrite Hj, layout_points. cbn [layout r_joints range_size]. lia.
Qed.

Lemma stateGuess_cases {Rot} (q : Rot -> V4) dofs n buffer s valid :
  length buffer = 12 * n + 16 + dofs ->
  (valid = true /\ state_sized s dofs n /\
     stateGuess_get q (layout dofs n) buffer (s, valid) = Some (state_vector q s, true)) \/
  (~ (valid = true /\ state_sized s dofs n) /\
     stateGuess_get q (layout dofs n) buffer (s, valid) = Some (repeat 0%R (12 * n + 16 + dofs), false)).
Proof.
  intros Hb. unfold stateGuess_get. rewrite layout_points. cbn [layout r_joints range_size]. fold (layout dofs n).
  destruct valid; cbn [negb].
  - destruct (checkSize s dofs n) eqn:E; cbn [negb].
    + apply checkSize_spec in E. left. rewrite (write_state_ok q s dofs n) by auto. auto.
    + right. split.
      * intros [_ H]. apply checkSize_spec in H. congruence.
      * rewrite zero_like_repeat, Hb. reflexivity.
  - right. split; [intros [H _]; discriminate|]. rewrite zero_like_repeat, Hb. reflexivity.
Qed.
Lemma controlGuess_cases dofs n buffer c valid :
  length buffer = 12 * n + 7 + dofs ->
  (valid = true /\ control_sized c dofs n /\
     controlGuess_get (layout dofs n) buffer (c, valid) = Some (control_vector c, true)) \/
  (~ (valid = true /\ control_sized c dofs n) /\
     controlGuess_get (layout dofs n) buffer (c, valid) = Some (repeat 0%R (12 * n + 7 + dofs), false)).
Proof.
  intros Hb. unfold controlGuess_get. rewrite layout_points. cbn [layout r_joints range_size]. fold (layout dofs n).
  destruct valid; cbn [negb].
  - destruct (checkSizeC c dofs n) eqn:E; cbn [negb].
    + apply checkSizeC_spec in E. left. rewrite (write_control_ok c dofs n) by auto. auto.
    + right. split.
      * intros [_ H]. apply checkSizeC_spec in H. congruence.
      * rewrite zero_like_repeat, Hb. reflexivity.
  - right. split; [intros [H _]; discriminate|]. rewrite zero_like_repeat, Hb. reflexivity.
Qed.
