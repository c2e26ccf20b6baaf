(** C36, C37: bounds of the variables. *)
From Coq Require Import Reals String List Arith Bool Lra Lia.
From Verif Require Import SpecLayout SpecState SpecSettings SpecBounds SettingsModel PropSettings
  Labeller LabellerProofs Layout LayoutProofs BoundsModel BoundsProofs.
Import ListNotations.
Local Open Scope R_scope.

(** A sequence of queries to one of the bound objects: all the answers. *)
Fixpoint ask_all (o : variable_bound) (qs : list query) : option (list (list dbl * bool)) :=
  match qs with
  | [] => Some []
  | q :: rest =>
    do (o', a) <- bound_get o q;
    do l <- ask_all o' rest; Some (a :: l)
  end.

(** Everything but the scratch buffer. *)
Definition frame_eq (a b : variable_bound) : Prop :=
  vb_first a = vb_first b /\ vb_second a = vb_second b /\ vb_switch a = vb_switch b /\ vb_comRange a = vb_comRange b /\
  vb_sign a = vb_sign b /\ vb_trajectory a = vb_trajectory b /\ vb_tolerance a = vb_tolerance b.
Lemma get_frame a b q : frame_eq a b ->
  match bound_get a q, bound_get b q with
  | Some (a', x), Some (b', y) => frame_eq a' b /\ x = y
  | None, None => True
  | _, _ => False
  end.
Proof.
  intros F. assert (F' := F). destruct F' as (H1 & H2 & H3 & H4 & H5 & H6 & H7). unfold bound_get, pick.
  rewrite H1, H2, H3, H4, H5, H6, H7.
  destruct (vb_trajectory b && vb_tolerance b && q_inRange q); [|split; [exact F | reflexivity]].
  destruct (q_reference q) as [ref []]; cbn [negb]; [|split; [exact F | reflexivity]].
  destruct (vb_comRange b) as [[off sz]|] eqn:E; [|exact I].
  set (c := (length ref =? 3)%nat && _). destruct c; [|exact I].
  split; [repeat split; cbn; congruence | reflexivity].
Qed.

(** ** History independence: each answer is the one a fresh object would give. *)
Lemma ask_all_spec o (f : query -> list dbl * bool) : (forall q, exists o', bound_get o q = Some (o', f q)) ->
  forall qs, ask_all o qs = Some (map f qs).
Proof.
  intros H qs. enough (G : forall o2, frame_eq o2 o -> ask_all o2 qs = Some (map f qs)).
  { apply G. repeat split. }
  induction qs as [|q qs IH]; intros o2 F; [reflexivity|].
  cbn [ask_all map]. pose proof (get_frame o2 o q F) as G. destruct (H q) as (o' & E). rewrite E in G.
  destruct (bound_get o2 q) as [[o2' x]|]; [|contradiction]. destruct G as (F2 & ->).
  cbn [bind]. rewrite (IH o2' F2). reflexivity.
Qed.

Section Bounds.
(** Any accepted settings, the variable structure built for them, any infinities of
    the optimiser. *)
Context (zok : bool) (S0 C0 SL CL : labeller) (vr : var_ranges) (st0 : Settings) (s : settings) (force : D3) (minf pinf : dbl).
Let dofs := nrOfDOFs (robotModel s).
Let n := length (leftPoints s).
Hypothesis Hacc : accepts st0 s.
Hypothesis Hnum : all_numbers s.
Hypothesis built : setVariablesStructure zok dofs n S0 C0 = (SL, CL, Some vr).

Let D : documented s := C31_accepted_documented st0 s Hnum Hacc.
Notation a := (maximumAngularMomentum s).
Notation h := (minimumCoMHeight s).
Notation v := (velocityMaximumDerivative s).
Notation jl := (jointsLimits s).
Notation jvl := (jointsVelocityLimits s).

Lemma bounds_are : setBounds minf pinf (lab_size SL) (lab_size CL) vr s force = Some (expected minf pinf n s force).
Proof.
  destruct (setVariablesStructure_some _ _ _ _ _ _ _ _ built) as (-> & HS & HC).
  replace (lab_size SL) with (12 * n + 16 + dofs)%nat.
  2: { destruct HS as (_ & -> & _). unfold state_decl. rewrite !total_app, !total_fstate, !seq_length. unfold total. cbn [map list_sum fold_right snd]. lia. }
  replace (lab_size CL) with (12 * n + 7 + dofs)%nat.
  2: { destruct HC as (_ & -> & _). unfold control_decl. rewrite !total_app, !total_fcontrol, !seq_length. unfold total. cbn [map list_sum fold_right snd]. lia. }
  apply setBounds_layout; [apply (doc_limits_size s D) | apply (doc_vlimits_size s D)].
Qed.

(** The box of the target centre of mass is requested and contains the time. *)
Definition com_box_on (q : query) : bool :=
  constrainTargetCoMPosition s && desiredCoMTrajectory s && targetCoMPositionTolerance s && q_inRange q.
Definition usable (q : query) : Prop := length (fst (q_reference q)) = 3%nat.
Definition tolerance_of (q : query) : dbl := if snd (q_tolerance q) then fst (q_tolerance q) else Fin 0.
(** Expected bounds of the centre of mass and validity, for a default box [d]. *)
Definition com_entry (d : list dbl) (shift : dbl -> dbl -> dbl) (q : query) : list dbl * bool :=
  if com_box_on q then
    if snd (q_reference q) then (map (fun x => shift x (tolerance_of q)) (fst (q_reference q)), true) else (d, false)
  else (d, true).
Definition dsub (x y : dbl) : dbl := dadd x (dneg y).

Lemma dmul_m1 t : dmul (Fin (-1)) t = dneg t.
Proof. destruct t; cbn [dmul dneg]; unfold dscale; try (f_equal; ring); try reflexivity; destruct (Rlt_dec 0 (-1)); try (exfalso; lra); destruct (Rlt_dec (-1) 0); try (exfalso; lra); reflexivity. Qed.
Lemma dmul_1 t : dmul (Fin 1) t = t.
Proof. destruct t; cbn [dmul]; unfold dscale; try (f_equal; ring); try reflexivity; destruct (Rlt_dec 0 1); try (exfalso; lra); reflexivity. Qed.

Lemma box_gates : (constrainTargetCoMPosition s && desiredCoMTrajectory s) && (constrainTargetCoMPosition s && targetCoMPositionTolerance s)
  = constrainTargetCoMPosition s && desiredCoMTrajectory s && targetCoMPositionTolerance s.
Proof. destruct (constrainTargetCoMPosition s), (desiredCoMTrajectory s), (targetCoMPositionTolerance s); reflexivity. Qed.

Lemma overwrite_com (A X c B : list dbl) com o : o = length (A ++ X) -> length com = length c ->
  overwrite (A ++ X ++ c ++ B) o com = (A ++ X ++ com ++ B)%list.
Proof. intros; now apply overwrite_mid. Qed.

Lemma pts_len {X} m (b : list X) : length b = 6%nat -> length (points m b) = (12 * m)%nat.
Proof. intros E. unfold points. rewrite concat_repeat_length, E. lia. Qed.
Lemma ld3_len x : length (ld3 x) = 3%nat. Proof. destruct x as [[? ?] ?]; reflexivity. Qed.

Lemma get_box (A X d B : list dbl) sgn t q :
  length A = (12 * n)%nat -> length X = 6%nat -> length d = 3%nat -> usable q ->
  (forall x, dmul (Fin sgn) x = t x) ->
  exists o', bound_get (mkVB (A ++ X ++ d ++ B) (A ++ X ++ d ++ B) (A ++ X ++ d ++ B) (dmul (horizon s) (activeControlPercentage s))
     (Some (12 * n + 6, 3)%nat) sgn (constrainTargetCoMPosition s && desiredCoMTrajectory s)
     (constrainTargetCoMPosition s && targetCoMPositionTolerance s)) q =
  Some (o', ((A ++ X ++ fst (com_entry d (fun x y => dadd x (t y)) q) ++ B)%list, snd (com_entry d (fun x y => dadd x (t y)) q))).
Proof.
  intros LA LX Ld Hu Ht. unfold bound_get, com_entry, com_box_on, pick.
  cbn [vb_trajectory vb_tolerance vb_first vb_second vb_switch vb_comRange vb_sign].
  rewrite box_gates. unfold tolerance_of, usable in *.
  set (b1 := constrainTargetCoMPosition s && desiredCoMTrajectory s && targetCoMPositionTolerance s) in *. clearbody b1.
  destruct (b1 && q_inRange q).
  2: { eexists. cbn [fst snd]. destruct (dltb (q_time q) (dmul (horizon s) (activeControlPercentage s))); reflexivity. }
  destruct (q_reference q) as [ref valid]. cbn [fst snd] in *.
  destruct valid; cbn [negb fst snd].
  2: { eexists. destruct (dltb (q_time q) (dmul (horizon s) (activeControlPercentage s))); reflexivity. }
  match goal with |- context [if dltb ?x ?y then ?z else ?z] => replace (if dltb x y then z else z) with z by (destruct (dltb x y); reflexivity) end.
  rewrite Hu. rewrite (proj2 (Nat.leb_le _ _)) by (rewrite !app_length; lia). cbn [andb Nat.eqb].
  eexists. f_equal. f_equal. f_equal.
  rewrite overwrite_com.
  - f_equal. f_equal. f_equal. unfold plus_constant. apply map_ext. intros x. now rewrite Ht.
  - rewrite app_length. lia.
  - unfold plus_constant. rewrite map_length. lia.
Qed.

(** ** C37: state bounds, for every sequence of queries.  The bounds of the centre of
    mass are the reference minus / plus the tolerance exactly when the option is on
    and the range contains the time; an invalid reference is reported and gives the
    default box; the other variables never change. *)
Theorem C37_state_lower_answers : forall qs, Forall usable qs ->
  exists B, setBounds minf pinf (lab_size SL) (lab_size CL) vr s force = Some B /\
  ask_all (b_stateLower B) qs =
  Some (map (fun q => let (com, valid) := com_entry [minf; minf; h] dsub q in (state_lower minf n a com jl, valid)) qs).
Proof.
  intros qs HU. exists (expected minf pinf n s force). split; [apply bounds_are|].
  cbn [b_stateLower expected].
  set (f := fun q => let (com, valid) := com_entry [minf; minf; h] dsub q in (state_lower minf n a com jl, valid)).
  set (o := mkVB _ _ _ _ _ _ _ _).
  assert (G : forall q, usable q -> exists o', bound_get o q = Some (o', f q)).
  { intros q Hq. unfold o, f, state_lower.
    destruct (get_box (points n ([minf; minf; Fin 0] ++ [minf; minf; Fin 0])) [minf; minf; minf; dneg a; dneg a; dneg a]
       [minf; minf; h] (repeat minf 3 ++ repeat minf 4 ++ map fst jl) (-1) dneg q) as (o' & E); auto.
    { apply pts_len; reflexivity. } { apply dmul_m1. }
    exists o'. rewrite E. unfold dsub. destruct (com_entry [minf; minf; h] _ q); reflexivity. }
  clear -G HU. assert (F : frame_eq o o) by (repeat split). revert F. generalize o at 1 3.
  induction qs as [|q qs IH]; intros o2 F; [reflexivity|].
  inversion HU; subst. cbn [ask_all map]. pose proof (get_frame o2 o q F) as K. destruct (G q) as (o' & E); auto. rewrite E in K.
  destruct (bound_get o2 q) as [[o2' x]|]; [|contradiction]. destruct K as (F2 & ->).
  cbn [bind]. rewrite (IH ltac:(assumption) o2' F2). reflexivity.
Qed.
Theorem C37_state_upper_answers : forall qs, Forall usable qs ->
  exists B, setBounds minf pinf (lab_size SL) (lab_size CL) vr s force = Some B /\
  ask_all (b_stateUpper B) qs =
  Some (map (fun q => let (com, valid) := com_entry (repeat pinf 3) dadd q in (state_upper pinf n a com jl, valid)) qs).
Proof.
  intros qs HU. exists (expected minf pinf n s force). split; [apply bounds_are|].
  cbn [b_stateUpper expected].
  set (f := fun q => let (com, valid) := com_entry (repeat pinf 3) dadd q in (state_upper pinf n a com jl, valid)).
  set (o := mkVB _ _ _ _ _ _ _ _).
  assert (G : forall q, usable q -> exists o', bound_get o q = Some (o', f q)).
  { intros q Hq. unfold o, f, state_upper.
    destruct (get_box (points n (repeat pinf 3 ++ repeat pinf 3)) [pinf; pinf; pinf; a; a; a]
       (repeat pinf 3) (repeat pinf 3 ++ repeat pinf 4 ++ map snd jl) 1 (fun x => x) q) as (o' & E); auto.
    { apply pts_len; reflexivity. } { apply dmul_1. }
    exists o'. rewrite E. change (fun x y : dbl => dadd x y) with dadd. destruct (com_entry (repeat pinf 3) dadd q); reflexivity. }
  clear -G HU. assert (F : frame_eq o o) by (repeat split). revert F. generalize o at 1 3.
  induction qs as [|q qs IH]; intros o2 F; [reflexivity|].
  inversion HU; subst. cbn [ask_all map]. pose proof (get_frame o2 o q F) as K. destruct (G q) as (o' & E); auto. rewrite E in K.
  destruct (bound_get o2 q) as [[o2' x]|]; [|contradiction]. destruct K as (F2 & ->).
  cbn [bind]. rewrite (IH ltac:(assumption) o2' F2). reflexivity.
Qed.

(** ** C36: control bounds, for every sequence of queries: the limits of the settings
    before the switch time, points frozen from then on. *)
Definition active (q : query) : bool := dltb (q_time q) (dmul (horizon s) (activeControlPercentage s)).
Theorem C36_control_answers : forall qs, exists B,
  setBounds minf pinf (lab_size SL) (lab_size CL) vr s force = Some B /\
  ask_all (b_controlLower B) qs =
    Some (map (fun q => (if active q then control_box minf n (neg3 v) (neg3 force) (map fst jvl)
                         else control_box minf n zeroD3 zeroD3 (map fst jvl), true)) qs) /\
  ask_all (b_controlUpper B) qs =
    Some (map (fun q => (if active q then control_box pinf n v force (map snd jvl)
                         else control_box pinf n zeroD3 zeroD3 (map snd jvl), true)) qs).
Proof.
  intros qs. exists (expected minf pinf n s force). split; [apply bounds_are|].
  cbn [b_controlLower b_controlUpper expected]. split.
  - apply (ask_all_spec _ (fun q => (if active q then _ else _, true))). intros q. eexists. unfold bound_get, pick.
    cbn [vb_trajectory vb_tolerance andb vb_switch vb_first vb_second]. reflexivity.
  - apply (ask_all_spec _ (fun q => (if active q then _ else _, true))). intros q. eexists. unfold bound_get, pick.
    cbn [vb_trajectory vb_tolerance andb vb_switch vb_first vb_second]. reflexivity.
Qed.

(** Order. *)
Lemma below_points (x y : list dbl) m : below x y -> below (points m x) (points m y).
Proof.
  intros H. unfold points, below. induction (2 * m)%nat; cbn [repeat concat]; [constructor|]. apply Forall2_app; auto.
Qed.
Lemma below_limits (l : list (dbl * dbl)) : Forall ordered l -> below (map fst l) (map snd l).
Proof. induction 1; constructor; auto. Qed.
Lemma dle_neg x : nonneg x -> dle (dneg x) x.
Proof. destruct x; cbn; try lra; auto. Qed.
Lemma nonneg3 : let '(x, y, z) := v in nonneg x /\ nonneg y /\ nonneg z.
Proof. exact (doc_velmax s D). Qed.
Definition nonneg_all (x : D3) : Prop := let '(p, q, r) := x in nonneg p /\ nonneg q /\ nonneg r.
Lemma below_neg3 x : nonneg_all x -> below (ld3 (neg3 x)) (ld3 x).
Proof. destruct x as [[p q] r]; intros (A & B & C); repeat constructor; now apply dle_neg. Qed.

(** The infinities of the optimiser enclose the numbers involved. *)
Hypothesis Hinf : dle minf pinf /\ dle (Fin 0) pinf /\ dle h pinf.

Theorem C36_control_lower_below_upper : nonneg_all force -> forall q,
  below (if active q then control_box minf n (neg3 v) (neg3 force) (map fst jvl) else control_box minf n zeroD3 zeroD3 (map fst jvl))
        (if active q then control_box pinf n v force (map snd jvl) else control_box pinf n zeroD3 zeroD3 (map snd jvl)).
Proof.
  intros Hf q. destruct Hinf as (I1 & _).
  assert (T : below (repeat minf 3 ++ repeat minf 4 ++ map fst jvl) (repeat pinf 3 ++ repeat pinf 4 ++ map snd jvl)).
  { repeat (constructor; [exact I1|]). apply below_limits, (doc_vlimits s D). }
  destruct (active q); (apply Forall2_app; [apply below_points|exact T]); apply Forall2_app.
  - apply below_neg3. exact nonneg3.
  - now apply below_neg3.
  - repeat constructor; cbn; lra.
  - repeat constructor; cbn; lra.
Qed.

(** State: whatever the query, provided the reference is finite and the tolerance non
    negative when they are used. *)
Definition finite (d : dbl) : Prop := exists x, d = Fin x.
Theorem C36_state_lower_below_upper : forall q,
  (com_box_on q = true -> snd (q_reference q) = true -> Forall finite (fst (q_reference q)) /\ nonneg (tolerance_of q)) ->
  below (state_lower minf n a (fst (com_entry [minf; minf; h] dsub q)) jl)
        (state_upper pinf n a (fst (com_entry (repeat pinf 3) dadd q)) jl).
Proof.
  intros q Hq. destruct Hinf as (I1 & I2 & I3).
  apply Forall2_app; [apply below_points; repeat constructor; cbn; auto|].
  apply Forall2_app. { repeat constructor; auto; apply dle_neg, (doc_angmom s D). }
  apply Forall2_app.
  - unfold com_entry. destruct (com_box_on q) eqn:E1; [|cbn [fst]; repeat constructor; auto].
    destruct (snd (q_reference q)) eqn:E2; [|cbn [fst]; repeat constructor; auto].
    cbn [fst]. destruct (Hq eq_refl eq_refl) as (F & T). clear -F T.
    induction F as [|x l [r ->] F IH]; cbn [map]; constructor; auto.
    unfold dsub. destruct (tolerance_of q); cbn in *; auto; try contradiction. lra.
  - apply Forall2_app; [repeat constructor; auto|]. apply Forall2_app; [repeat constructor; auto|].
    apply below_limits, (doc_limits s D).
Qed.

(** Frozen: every control of every point is forced to zero outside the active part. *)
Lemma nth_points_zero i m : (i < 12 * m)%nat -> nth i (points m (ld3 zeroD3 ++ ld3 zeroD3)) NaN = Fin 0.
Proof.
  intros Hi. unfold points. replace (2 * m)%nat with (m + m)%nat by lia.
  assert (E : concat (repeat (ld3 zeroD3 ++ ld3 zeroD3) (m + m)) = repeat (Fin 0) ((m + m) * 6)).
  { rewrite repeat_blocks. reflexivity. }
  rewrite E. assert (G : forall k j, (j < k)%nat -> nth j (repeat (Fin 0) k) NaN = Fin 0).
  { induction k; intros [|j] Hj; cbn; auto; try lia. apply IHk. lia. }
  apply G. lia.
Qed.
Theorem C36_points_frozen : forall q i, active q = false -> (i < 12 * n)%nat ->
  forall B lo up, setBounds minf pinf (lab_size SL) (lab_size CL) vr s force = Some B ->
  ask_all (b_controlLower B) [q] = Some [lo] -> ask_all (b_controlUpper B) [q] = Some [up] ->
  nth i (fst lo) NaN = Fin 0 /\ nth i (fst up) NaN = Fin 0.
Proof.
  intros q i Hq Hi B lo up EB El Eu.
  destruct (C36_control_answers [q]) as (B' & EB' & El' & Eu'). rewrite EB in EB'; injection EB' as <-.
  rewrite El in El'; rewrite Eu in Eu'. cbn [map] in El', Eu'. injection El' as ->. injection Eu' as ->.
  rewrite Hq. cbn [fst]. unfold control_box.
  split; rewrite app_nth1 by (rewrite pts_len by reflexivity; lia); now apply nth_points_zero.
Qed.
(** Joints: bounded by their limits at any time. *)
Theorem C36_joints_limits : forall q j, (j < dofs)%nat ->
  forall com B, setBounds minf pinf (lab_size SL) (lab_size CL) vr s force = Some B -> length com = 3%nat ->
  nth (12 * n + 16 + j) (state_lower minf n a com jl) NaN = fst (nth j jl (NaN, NaN)) /\
  nth (12 * n + 16 + j) (state_upper pinf n a com jl) NaN = snd (nth j jl (NaN, NaN)) /\
  (forall lo, ask_all (b_controlLower B) [q] = Some [lo] -> nth (12 * n + 7 + j) (fst lo) NaN = fst (nth j jvl (NaN, NaN))) /\
  (forall up, ask_all (b_controlUpper B) [q] = Some [up] -> nth (12 * n + 7 + j) (fst up) NaN = snd (nth j jvl (NaN, NaN))).
Proof.
  intros q j Hj com B EB Hc.
  assert (N : forall (X Y : list dbl) k i, length X = k -> nth (k + i) (X ++ Y) NaN = nth i Y NaN).
  { intros X Y k i <-. rewrite app_nth2 by lia. f_equal. lia. }
  destruct (C36_control_answers [q]) as (B' & EB' & El' & Eu'). rewrite EB in EB'; injection EB' as <-.
  split; [|split; [|split]].
  - unfold state_lower. replace (12 * n + 16 + j)%nat with (12 * n + (6 + (3 + (3 + (4 + j)))))%nat by lia.
    rewrite !N by (auto; try (rewrite pts_len; reflexivity)). change NaN with (fst (NaN, NaN)) at 1. now rewrite map_nth.
  - unfold state_upper. replace (12 * n + 16 + j)%nat with (12 * n + (6 + (3 + (3 + (4 + j)))))%nat by lia.
    rewrite !N by (auto; try (rewrite pts_len; reflexivity)). change NaN with (snd (NaN, NaN)) at 1. now rewrite map_nth.
  - intros lo E. rewrite E in El'. cbn [map] in El'. injection El' as ->. cbn [fst]. unfold control_box.
    replace (12 * n + 7 + j)%nat with (12 * n + (3 + (4 + j)))%nat by lia.
    destruct (active q); rewrite !N by (auto; rewrite pts_len; auto; rewrite app_length, !ld3_len; reflexivity);
      change NaN with (fst (NaN, NaN)) at 1; now rewrite map_nth.
  - intros up E. rewrite E in Eu'. cbn [map] in Eu'. injection Eu' as ->. cbn [fst]. unfold control_box.
    replace (12 * n + 7 + j)%nat with (12 * n + (3 + (4 + j)))%nat by lia.
    destruct (active q); rewrite !N by (auto; rewrite pts_len; auto; rewrite app_length, !ld3_len; reflexivity);
      change NaN with (snd (NaN, NaN)) at 1; now rewrite map_nth.
Qed.
End Bounds.

(** ** The hypotheses are met: settings with a point, the target box and all references. *)
Definition some_settings (h : R) : settings := probe (Fin h) (Fin 1) true true false true true false true false true [(0, 0, 0)].
Lemma some_accepted st h : 0 <= h -> accepts st (some_settings h).
Proof. intros H. apply probe_accepts; [cbn [dltb d0]; destruct (Rlt_dec h 0); [lra | reflexivity] | apply lt10 | discriminate]. Qed.
Lemma some_numbers h : all_numbers (some_settings h).
Proof.
  unfold all_numbers, some_settings, probe; cbn [jointsLimits jointsVelocityLimits desiredLeftRatios desiredRightRatios].
  repeat split; try (repeat constructor; apply Fin_number).
Qed.
Example C36_C37_nonvacuous : forall st, exists SL CL vr,
  accepts st (some_settings 1) /\ all_numbers (some_settings 1) /\
  setVariablesStructure true (nrOfDOFs (robotModel (some_settings 1))) (length (leftPoints (some_settings 1))) lab_init lab_init = (SL, CL, Some vr) /\
  (dle (Fin (-10)) (Fin 10) /\ dle (Fin 0) (Fin 10) /\ dle (minimumCoMHeight (some_settings 1)) (Fin 10)) /\
  nonneg_all (Fin 1, Fin 1, Fin 1) /\
  let q := mkQuery (Fin (1/2)) true ([Fin 1; Fin 2; Fin 3], true) (Fin (1/10), true) in
  usable q /\ com_box_on (some_settings 1) q = true /\ active (some_settings 1) q = true /\
  active (some_settings 1) (mkQuery (Fin 2) true ([], false) (Fin 0, false)) = false.
Proof.
  intros st. destruct (setVariablesStructure_ok true 0 1 lab_init lab_init (or_introl eq_refl)) as (SL & CL & E & _).
  exists SL, CL, (layout 0 1). split; [apply some_accepted; lra|]. split; [apply some_numbers|]. split; [exact E|].
  split; [repeat split; cbn; lra|]. split; [repeat split; cbn; lra|].
  repeat split; unfold active; cbn [some_settings probe horizon activeControlPercentage q_time dmul dltb];
    [destruct (Rlt_dec (1/2) (1 * 1)) | destruct (Rlt_dec 2 (1 * 1))]; try reflexivity; exfalso; lra.
Qed.

(** ** Findings. *)
(** The maximum derivative of the force is not validated: a negative entry is accepted
    and gives an empty box (lower bound above the upper one) for the force controls. *)
Theorem C36_negative_force_derivative_refuted : forall st, exists s force, accepts st s /\ all_numbers s /\
  forall S0 C0 SL CL vr zok, setVariablesStructure zok (nrOfDOFs (robotModel s)) (length (leftPoints s)) S0 C0 = (SL, CL, Some vr) ->
  exists B lo up, setBounds (Fin (-10)) (Fin 10) (lab_size SL) (lab_size CL) vr s force = Some B /\
    let q := mkQuery (Fin (1/2)) false ([], false) (Fin 0, false) in
    ask_all (b_controlLower B) [q] = Some [lo] /\ ask_all (b_controlUpper B) [q] = Some [up] /\ ~ below (fst lo) (fst up).
Proof.
  intros st. exists (some_settings 1), (Fin (-1), Fin 1, Fin 1).
  split; [apply some_accepted; lra|]. split; [apply some_numbers|].
  intros S0 C0 SL CL vr zok E.
  set (q := mkQuery (Fin (1/2)) false ([], false) (Fin 0, false)).
  destruct (C36_control_answers zok S0 C0 SL CL vr st (some_settings 1) (Fin (-1), Fin 1, Fin 1) (Fin (-10)) (Fin 10)
     (some_accepted st 1 ltac:(lra)) (some_numbers 1) E [q]) as (B & EB & El & Eu).
  cbn [map] in El, Eu. eexists B, _, _. split; [exact EB|]. cbv zeta. split; [exact El|]. split; [exact Eu|].
  assert (A : active (some_settings 1) q = true).
  { unfold active, q; cbn [some_settings probe horizon activeControlPercentage q_time dmul dltb]. destruct (Rlt_dec (1/2) (1*1)); [reflexivity | lra]. }
  rewrite A. cbn [fst]. intros H. unfold below in H.
  assert (N : forall (x y : list dbl), Forall2 dle x y -> forall i, (i < length x)%nat -> dle (nth i x NaN) (nth i y NaN)).
  { clear. induction 1; intros [|i] Hi; cbn in *; auto; try lia. apply IHForall2. lia. }
  specialize (N _ _ H 3%nat). specialize (N ltac:(cbn; lia)). cbn in N. lra.
Qed.

(** The switch time is measured from zero, not from the initial time: when the
    initial state is later than the active part, every point is frozen from the start,
    even if the whole horizon is declared active. *)
Theorem C36_frozen_from_the_start_refuted : forall st, exists s t0 H, accepts st s /\ all_numbers s /\
  horizon s = Fin H /\ activeControlPercentage s = Fin 1 /\ 0 < H /\
  forall t q, q_time q = Fin t -> t0 <= t <= t0 + H -> active s q = false.
Proof.
  intros st. exists (some_settings 1), 1, 1. split; [apply some_accepted; lra|]. split; [apply some_numbers|].
  split; [reflexivity|]. split; [reflexivity|]. split; [lra|].
  intros t q Ht (H1 & _). unfold active. rewrite Ht. cbn [some_settings probe horizon activeControlPercentage dmul dltb].
  destruct (Rlt_dec t (1 * 1)); [lra | reflexivity].
Qed.
(** What holds: the active part is [0, horizon * percentage) in absolute time. *)
Theorem C36_active_part : forall s q t H p, horizon s = Fin H -> activeControlPercentage s = Fin p -> q_time q = Fin t ->
  (active s q = true <-> t < H * p).
Proof.
  intros s q t H p E1 E2 E3. unfold active. rewrite E1, E2, E3. cbn [dmul dltb].
  destruct (Rlt_dec t (H * p)); split; auto; intros; try discriminate; contradiction.
Qed.
(** While the box of the target is on, it replaces the minimum height of the centre of
    mass: a target below that height makes the bound lower than the setting. *)
Theorem C37_minimum_height_dropped_refuted : forall st, exists s q z, accepts st s /\ all_numbers s /\
  minimumCoMHeight s = Fin (2/10) /\ com_box_on s q = true /\
  nth 2 (fst (com_entry s [Fin (-10); Fin (-10); minimumCoMHeight s] dsub q)) NaN = Fin z /\ z < 2/10.
Proof.
  intros st. exists (some_settings 1), (mkQuery (Fin 1) true ([Fin 0; Fin 0; Fin 0], true) (Fin (1/10), true)), (0 + - (1/10)).
  split; [apply some_accepted; lra|]. split; [apply some_numbers|]. split; [reflexivity|]. split; [reflexivity|].
  split; [reflexivity | lra].
Qed.

Print Assumptions C37_state_lower_answers. Print Assumptions C37_state_upper_answers. Print Assumptions C36_control_answers.
Print Assumptions C36_control_lower_below_upper. Print Assumptions C36_state_lower_below_upper. Print Assumptions C36_points_frozen.
Print Assumptions C36_joints_limits. Print Assumptions C36_negative_force_derivative_refuted.
Print Assumptions C36_frozen_from_the_start_refuted. Print Assumptions C37_minimum_height_dropped_refuted.
