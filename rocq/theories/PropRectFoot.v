(** C26-C28: the rectangular foot. *)
From Coq Require Import Reals List Arith Bool Lia Lra.
From Verif Require Import Spec SpecState SpecGeometry RectFoot RectFootProofs.
Import ListNotations.
Local Open Scope R_scope.

(** Feet obtained by any sequence of setFoot calls. *)
Inductive foot_reachable : foot -> Prop :=
| foot_new : foot_reachable newFoot
| foot_set s xl yl tl : foot_reachable s -> foot_reachable (fst (setFoot s xl yl tl)).

(** C26: acceptance exactly of positive dimensions; refusal keeps everything. *)
Theorem C26_acceptance : forall s xl yl tl,
  (snd (setFoot s xl yl tl) = true <-> 0 < xl /\ 0 < yl) /\
  (snd (setFoot s xl yl tl) = false -> fst (setFoot s xl yl tl) = s).
Proof.
  intros. split.
  - unfold setFoot. destruct (Rle_dec xl 0), (Rle_dec yl 0); cbn [snd]; split; intros; try discriminate; try lra; auto.
  - intros H. destruct (setFoot s xl yl tl) as [s' b] eqn:E. cbn in *. subst. apply setFoot_false in E as (-> & _). auto.
Qed.
(** The four points, in order: top left, top right, bottom left, bottom right (x
    is forward, y is left), mapped by the transform of the caller. *)
Theorem C26_corners : forall s xl yl tl t, 0 < xl -> 0 < yl ->
  getPoints (fst (setFoot s xl yl tl)) t =
  Some (map (tapply t) [tl; sub3 tl (0, yl, 0); sub3 tl (xl, 0, 0); sub3 tl (xl, yl, 0)]).
Proof.
  intros s xl yl tl t Hx Hy. destruct (setFoot s xl yl tl) as [s' b] eqn:E. cbn [fst].
  destruct b; [eapply getPoints_value; eauto|]. apply setFoot_false in E. lra.
Qed.
(** A query succeeds exactly when a setFoot call was accepted before. *)
Theorem C26_queries_need_set : forall s t w solve, foot_reachable s ->
  (getPoints s t = None <-> s = newFoot) /\ (getForces solve s w = None <-> s = newFoot) /\
  (s = newFoot \/ exists s0 xl yl tl, 0 < xl /\ 0 < yl /\ s = fst (setFoot s0 xl yl tl)).
Proof.
  intros s t w solve H. split; [|split].
  - destruct s; cbn; split; intros; discriminate || reflexivity.
  - destruct s as [d|]; [|cbn; split; auto]. unfold getForces, newFoot. split; [|discriminate].
    destruct w as [[[fx fy] fz] tt]. cbn [fst snd]. destruct (sub3 tt _) as [[? ?] ?].
    destruct Rlt_dec; [discriminate|]. cbv zeta. destruct (Nat.eqb _ 1); [discriminate|]. destruct (Nat.eqb _ 2); discriminate.
  - induction H as [|s xl yl tl H IH]; auto.
    destruct (setFoot s xl yl tl) as [s' b] eqn:E. destruct b.
    + right. exists s, xl, yl, tl. pose proof (setFoot_true _ _ _ _ _ E) as (? & ? & _). rewrite E. auto.
    + apply setFoot_false in E as (-> & _). cbn. auto.
Qed.
(** The points of a rigidly moved foot form a rectangle of the requested sides. *)
Theorem C26_rigid_rectangle : forall s xl yl tl t p0 p1 p2 p3, 0 < xl -> 0 < yl -> orthonormal (fst t) ->
  getPoints (fst (setFoot s xl yl tl)) t = Some [p0; p1; p2; p3] ->
  dist2 p0 p1 = yl * yl /\ dist2 p2 p3 = yl * yl /\ dist2 p0 p2 = xl * xl /\ dist2 p1 p3 = xl * xl /\
  dist2 p0 p3 = xl * xl + yl * yl /\ dist2 p1 p2 = xl * xl + yl * yl.
Proof.
  intros s xl yl tl t p0 p1 p2 p3 Hx Hy Ho H. rewrite C26_corners in H by auto.
  cbn [map] in H. injection H as <- <- <- <-. rewrite !tapply_dist by auto.
  destruct tl as [[a b] c]. unfold dist2. cbn [sub3 dot3]. repeat split; ring.
Qed.
Example C26_example : orthonormal ((0,-1,0),(1,0,0),(0,0,1)) /\
  foot_reachable (fst (setFoot (fst (setFoot newFoot 2 4 (1,2,0))) (-1) 4 (1,2,0))).
Proof. split; [cbn; repeat split; lra | repeat constructor]. Qed.
Print Assumptions C26_acceptance.
Print Assumptions C26_corners.
Print Assumptions C26_queries_need_set.
Print Assumptions C26_rigid_rectangle.

(** C27: ratios on the corners (+L,+D), (+L,-D), (-L,+D), (-L,-D). *)
Theorem C27_ratios : forall s xl yl tl copX copY, 0 < xl -> 0 < yl ->
  exists r0 r1 r2 r3,
    getNormalRatiosFromCoP (fst (setFoot s xl yl tl)) copX copY = Some [r0; r1; r2; r3] /\
    r0 + r1 + r2 + r3 = 1 /\
    r0 * (xl/2) + r1 * (xl/2) + r2 * (-(xl/2)) + r3 * (-(xl/2)) = copX /\
    r0 * (yl/2) + r1 * (-(yl/2)) + r2 * (yl/2) + r3 * (-(yl/2)) = copY /\
    (-(xl/2) <= copX <= xl/2 -> -(yl/2) <= copY <= yl/2 -> 0 <= r0 /\ 0 <= r1 /\ 0 <= r2 /\ 0 <= r3).
Proof.
  intros s xl yl tl cx cy Hx Hy. destruct (setFoot s xl yl tl) as [s' b] eqn:E. cbn [fst].
  destruct b; [|apply setFoot_false in E; lra]. apply setFoot_true in E as (_ & _ & ->).
  set (d := mkFoot _ _ _). destruct (normalRatios_four d cx cy) as (r0 & r1 & r2 & r3 & E).
  exists r0, r1, r2, r3. cbn [getNormalRatiosFromCoP]. rewrite E. split; auto.
  assert (HL : 0 < halfL d) by (cbn; lra). assert (HD : 0 < halfD d) by (cbn; lra).
  destruct (ratios_sum d HL HD cx cy r0 r1 r2 r3 E) as (S1 & S2 & S3). cbn [halfL halfD d] in S2, S3.
  repeat split; try lra;
  (destruct (ratios_range d HL HD cx cy r0 r1 r2 r3) as (? & ? & ? & ?); auto; cbn [halfL halfD d]; try apply Rabs_le; lra).
Qed.
Print Assumptions C27_ratios.

(** C28.  The QR solver is external; it is assumed to solve exactly the systems of
    full row rank (such solvers exist).  The corners are the points returned by
    getPoints in the foot frame.  The number of active corners is the number of
    normal force ratios of the CoP above the code's threshold 1e-7. *)
Example C28_solver_exists : exists solve, exact_solver solve.
Proof. exists min_norm_solver. exact min_norm_exact. Qed.

Definition cop_x (c f t : V3) : R := - py (sub3 t (cross3v c f)) / pz f.
Definition cop_y (c f t : V3) : R := px (sub3 t (cross3v c f)) / pz f.
Definition foot_center (xl yl : R) (tl : V3) : V3 := sub3 tl (xl/2, yl/2, 0).
Definition above (r : R) : bool := if Rlt_dec (1/10000000) (Rabs r) then true else false.
Definition count_active (o : option (list R)) : nat :=
  match o with Some l => length (filter above l) | None => O end.

Lemma count_eq l : length (filter above l) = nactive l.
Proof.
  unfold nactive. induction l as [|a l IH]; cbn; auto.
  change (above a) with (isActive a). destruct (isActive a); cbn; rewrite IH; auto.
Qed.
Lemma foot_center_eq xl yl tl : add3 tl (- (xl/2), - (yl/2), 0) = foot_center xl yl tl.
Proof. destruct tl as [[a b] c]. unfold foot_center. cbn. f_equal; ring. Qed.

Theorem C28_wrench_partial : forall solve s xl yl tl f t, exact_solver solve -> 0 < xl -> 0 < yl ->
  let foot := fst (setFoot s xl yl tl) in
  let c := foot_center xl yl tl in
  forall ps, getPoints foot tident = Some ps ->
  exists fs, getForces solve foot (f, t) = Some fs /\ length fs = 4%nat /\
    (pz f < 1/10000000 -> fs = [zero3; zero3; zero3; zero3]) /\
    (1/10000000 <= pz f ->
      let n := count_active (getNormalRatiosFromCoP foot (cop_x c f t) (cop_y c f t)) in
      (1 <= n)%nat /\
      (* three or four active corners: the wrench is reproduced exactly *)
      ((3 <= n)%nat -> resultant_force fs = f /\ resultant_moment zero3 ps fs = t) /\
      (* two: tangential force and yaw moment exact, the rest up to the dropped ratios *)
      (* one: the yaw moment is not reproduced, see below *)
      ((n <= 2)%nat ->
        let F := resultant_force fs in
        let M := resultant_moment c ps fs in
        let tc := sub3 t (cross3v c f) in
        px F = px f /\ py F = py f /\ Rabs (pz F - pz f) <= 3/10000000 * pz f /\
        Rabs (px M - px tc) <= 3/10000000 * (yl/2 * pz f) /\
        Rabs (py M - py tc) <= 3/10000000 * (xl/2 * pz f) /\
        (n = 2%nat -> pz M = pz tc))).
Proof.
  intros solve s xl yl tl f t Hs Hx Hy foot c ps Hps.
  assert (E : foot = Some (mkFoot (xl/2) (yl/2) c)).
  { unfold foot. destruct (setFoot s xl yl tl) as [s' b] eqn:E. destruct b; [|apply setFoot_false in E; lra].
    apply setFoot_true in E as (_ & _ & ->). cbn [fst]. rewrite foot_center_eq. reflexivity. }
  set (d := mkFoot (xl/2) (yl/2) c) in *.
  assert (HL : 0 < halfL d) by (cbn; lra). assert (HD : 0 < halfD d) by (cbn; lra).
  assert (Eps : ps = map (fun i => add3 (center d) (corner d i)) [0;1;2;3]%nat).
  { rewrite E in Hps. unfold getPoints in Hps. assert (Q : forall A (a b : A), Some a = Some b -> b = a) by congruence.
    apply Q in Hps. rewrite Hps. apply map_ext. intros i.
    unfold tident, tapply. cbn [fst snd mul3 ident3].
    destruct (add3 (center d) (corner d i)) as [[u v] w]. unfold ident3, zero3. cbn [mul3 dot3 add3]. f_equal; [f_equal|]; ring. }
  rewrite E. destruct (Rlt_dec (pz f) (1/10000000)) as [Hz|Hz].
  - exists [zero3; zero3; zero3; zero3]. split; [|split; [reflexivity|split; [reflexivity|lra]]].
    unfold getForces. destruct f as [[fx fy] fz]. cbn [fst snd]. destruct (sub3 t _) as [[? ?] ?].
    cbn in Hz. destruct Rlt_dec; [reflexivity|lra].
  - cbn [getNormalRatiosFromCoP count_active]. rewrite count_eq. unfold cop_x, cop_y.
    assert (Hz' : 1/10000000 <= pz f) by lra.
    pose proof (getForces_exact solve Hs d f t HL HD Hz') as A.
    pose proof (getForces_few solve Hs d f t HL HD Hz') as B. cbv zeta in A, B. cbn [center d] in A, B.
    set (n := nactive _) in *.
    assert (Hn : (1 <= n)%nat) by (apply nactive_pos; auto).
    destruct (le_lt_dec 3 n) as [H3|H3].
    + destruct (A H3) as (fs & G1 & G2 & G3 & G4). exists fs. split; [exact G1|]. split; [exact G2|]. split; [lra|].
      intros _. split; auto. split; [|lia]. intros _. split; auto.
      rewrite (moment_shift zero3 c) by (rewrite Eps, G2; reflexivity).
      rewrite Eps. cbn [center d] in *. rewrite G4, G3.
      destruct t as [[? ?] ?], c as [[? ?] ?], f as [[? ?] ?]. unfold zero3. cbn. f_equal; [f_equal|]; ring.
    + assert (H2 : (n <= 2)%nat) by lia. destruct (B H2) as (fs & G1 & G2 & G3).
      exists fs. split; [exact G1|]. split; [exact G2|]. split; [lra|].
      intros _. split; auto. split; [lia|]. intros _. rewrite Eps. cbn [center d] in *. exact G3.
Qed.
(** Whenever the CoP is in the foot no corner pulls on the ground. *)
Theorem C28_normal_forces_nonneg : forall solve s xl yl tl f t fs, 0 < xl -> 0 < yl ->
  let foot := fst (setFoot s xl yl tl) in
  let c := foot_center xl yl tl in
  -(xl/2) <= cop_x c f t <= xl/2 -> -(yl/2) <= cop_y c f t <= yl/2 ->
  getForces solve foot (f, t) = Some fs -> forall g, In g fs -> 0 <= pz g.
Proof.
  intros solve s xl yl tl f t fs Hx Hy foot c HX HY.
  assert (E : foot = Some (mkFoot (xl/2) (yl/2) c)).
  { unfold foot. destruct (setFoot s xl yl tl) as [s' b] eqn:E. destruct b; [|apply setFoot_false in E; lra].
    apply setFoot_true in E as (_ & _ & ->). cbn [fst]. rewrite foot_center_eq. reflexivity. }
  rewrite E. unfold cop_x, cop_y in *. set (d := mkFoot (xl/2) (yl/2) c) in *.
  unfold getForces. destruct f as [[fx fy] fz]. cbn [fst snd].
  cbn [center d]. destruct (sub3 t (cross3v c (fx, fy, fz))) as [[tx ty] tz]. cbn [px py pz fst snd] in *.
  destruct Rlt_dec as [Hz|Hz].
  { intros H g Hg. injection H as <-. cbn in Hg. decompose [or] Hg; subst; cbn; try lra; contradiction. }
  cbv zeta. destruct (normalRatios_four d (- ty / fz) (tx / fz)) as (r0 & r1 & r2 & r3 & Er).
  destruct (ratios_range d ltac:(cbn; lra) ltac:(cbn; lra) (- ty / fz) (tx / fz) r0 r1 r2 r3) as (R0 & R1 & R2 & R3);
    [apply Rabs_le; cbn; lra | apply Rabs_le; cbn; lra | exact Er |].
  rewrite Er. cbn [map combine filter].
  assert (P : forall a, 0 <= a <= 1 -> 0 <= a * fz) by (intros; apply Rmult_le_pos; lra).
  pose proof (P _ R0). pose proof (P _ R1). pose proof (P _ R2). pose proof (P _ R3).
  destruct (isActive r0), (isActive r1), (isActive r2), (isActive r3);
    cbn [filter length map fst snd Nat.eqb fillReduced fillAll]; intros Hfs g Hg; injection Hfs as <-;
    cbn [In] in Hg; decompose [or] Hg; subst; try contradiction; unfold zero3; cbn [pz snd]; lra.
Qed.
(** Refuted: with the CoP on a corner only that corner is active and a yaw moment
    is silently lost although the call reports success. *)
Theorem C28_corner_loses_yaw_refuted : forall solve, exists fs,
  getForces solve (fst (setFoot newFoot 2 2 (1, 1, 0))) ((0, 0, 1), (1, -1, 5)) = Some fs /\
  resultant_moment zero3 [(1,1,0);(1,-1,0);(-1,1,0);(-1,-1,0)] fs <> (1, -1, 5).
Proof.
  intros solve. unfold setFoot. destruct (Rle_dec 2 0); [lra|]. cbn [fst snd].
  replace (add3 (1, 1, 0) (- (2 / 2), - (2 / 2), 0)) with (zero3) by (unfold zero3; cbn; f_equal; [f_equal|]; field).
  unfold getForces. cbn [fst snd center]. unfold zero3 at 1. cbn [cross3v sub3].
  destruct Rlt_dec; [lra|]. cbv zeta.
  assert (E : normalRatios (mkFoot (2/2) (2/2) zero3) (- (-1 - (0 * 0 - 0 * 1)) / 1) ((1 - (0 * 1 - 0 * 0)) / 1) = [1;0;0;0]).
  { unfold normalRatios. cbn [halfL halfD]. unfold Rmax, Rmin.
    destruct Rle_dec as [H|H]; [exfalso; lra|]. destruct Rle_dec as [H'|H'].
    - f_equal; [field|f_equal; [field|f_equal;[field|f_equal;field]]].
    - exfalso. apply H'. lra. }
  rewrite E. cbn [map].
  assert (A1 : isActive 1 = true) by (unfold isActive, forceThreshold; destruct Rlt_dec as [|H]; auto; exfalso; apply H; rewrite Rabs_R1; lra).
  assert (A0 : isActive 0 = false) by (unfold isActive, forceThreshold; destruct Rlt_dec as [H|H]; auto; rewrite Rabs_R0 in H; exfalso; lra).
  rewrite A1, A0. cbn [filter length Nat.eqb combine map fst snd].
  eexists. split; [reflexivity|]. unfold resultant_moment, sum3, zero3. cbn. intros H. injection H. lra.
Qed.
Print Assumptions C28_wrench_partial.
Print Assumptions C28_normal_forces_nonneg.
Print Assumptions C28_corner_loses_yaw_refuted.
(** A wrench meeting the first case: CoP in the center, four active corners. *)
Example C28_example :
  count_active (getNormalRatiosFromCoP (fst (setFoot newFoot 2 2 (1, 1, 0)))
    (cop_x (foot_center 2 2 (1,1,0)) (1, 0, 10) (0, 0, 3)) (cop_y (foot_center 2 2 (1,1,0)) (1, 0, 10) (0, 0, 3))) = 4%nat.
Proof.
  unfold setFoot. destruct (Rle_dec 2 0); [lra|]. cbn [fst]. unfold cop_x, cop_y, foot_center.
  cbn [sub3 cross3v px py pz fst snd getNormalRatiosFromCoP count_active].
  match goal with |- context[normalRatios _ ?a ?b] => replace a with 0 by field; replace b with 0 by field end.
  unfold normalRatios. cbn [halfL halfD].
  assert (A : forall r, r = 1/4 -> above r = true).
  { intros r ->. unfold above. rewrite Rabs_right by lra. destruct Rlt_dec; auto; lra. }
  set (m := Rmax _ _). assert (Em : m = 0) by (unfold m, Rmax; destruct Rle_dec; lra).
  set (k := Rmin _ _). assert (Ek : k = 1/2) by (unfold k, Rmin; destruct Rle_dec; lra).
  rewrite Em, Ek. cbn [filter]. rewrite !A by lra. reflexivity.
Qed.
