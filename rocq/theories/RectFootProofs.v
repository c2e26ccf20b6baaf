(** Proofs about the rectangular foot (C26-C28). *)
From Coq Require Import Reals List Arith Bool Lia Lra.
From Verif Require Import Spec SpecState SpecGeometry RectFoot.
Import ListNotations.
Local Open Scope R_scope.

(** The assumption on the solver can be met: minimum norm solution by Cramer's rule. *)
Definition cramer (G : nat -> nat -> R) (b : vec) (j : nat) : R :=
  det3 (fun r c => if Nat.eqb c j then b r else G r c) / det3 G.
Definition min_norm_solver (n : nat) (A : mat) (b : vec) : vec := fun k =>
  A 0%nat k * cramer (gram n A) b 0 + A 1%nat k * cramer (gram n A) b 1 + A 2%nat k * cramer (gram n A) b 2.

Lemma sumn_lin3 n (f g h : nat -> R) a b c :
  sumn n (fun k => f k * a + g k * b + h k * c) = sumn n f * a + sumn n g * b + sumn n h * c.
Proof. induction n; cbn [sumn]; [ring|]. rewrite IHn. ring. Qed.
Lemma sumn_ext' n f g : (forall k, f k = g k) -> sumn n f = sumn n g.
Proof. intros H. induction n; cbn [sumn]; auto. rewrite IHn, H; auto. Qed.

Lemma min_norm_exact : exact_solver min_norm_solver.
Proof.
  intros n A b Hd i Hi. unfold min_norm_solver.
  rewrite (sumn_ext' n _ (fun k => (A i k * A 0%nat k) * cramer (gram n A) b 0 + (A i k * A 1%nat k) * cramer (gram n A) b 1
     + (A i k * A 2%nat k) * cramer (gram n A) b 2)) by (intros; ring).
  rewrite sumn_lin3. fold (gram n A i 0%nat) (gram n A i 1%nat) (gram n A i 2%nat).
  set (G := gram n A) in *. unfold cramer. unfold det3 at 1 3 5. cbn [Nat.eqb].
  unfold det3 in *.
  destruct i as [|[|[|i]]]; try lia; field; auto.
Qed.

Lemma setFoot_true s xl yl tl s' : setFoot s xl yl tl = (s', true) ->
  0 < xl /\ 0 < yl /\ s' = Some (mkFoot (xl/2) (yl/2) (add3 tl (- (xl/2), - (yl/2), 0))).
Proof.
  unfold setFoot. destruct (Rle_dec xl 0), (Rle_dec yl 0); intros H; inversion H; subst; repeat split; lra.
Qed.
Lemma setFoot_false s xl yl tl s' : setFoot s xl yl tl = (s', false) -> s' = s /\ (xl <= 0 \/ yl <= 0).
Proof.
  unfold setFoot. destruct (Rle_dec xl 0), (Rle_dec yl 0); intros H; inversion H; subst; auto.
Qed.

Lemma getPoints_value xl yl tl s s' t : setFoot s xl yl tl = (s', true) ->
  getPoints s' t = Some (map (tapply t) [tl; sub3 tl (0, yl, 0); sub3 tl (xl, 0, 0); sub3 tl (xl, yl, 0)]).
Proof.
  intros H. apply setFoot_true in H as (_ & _ & ->). cbn [getPoints center corner halfL halfD map].
  destruct tl as [[a b] c]. cbn [add3 sub3].
  do 2 f_equal; [|f_equal; [|f_equal; [|f_equal]]]; f_equal; f_equal; [f_equal| |f_equal| |f_equal| |f_equal|]; field.
Qed.

(** Rigid transforms preserve distances. *)
Lemma tapply_dist t p q : orthonormal (fst t) -> dist2 (tapply t p) (tapply t q) = dist2 p q.
Proof.
  destruct t as [[[[[a b] c] [[d e] f]] [[g h] i]] [[t0 t1] t2]], p as [[p0 p1] p2], q as [[q0 q1] q2].
  unfold dist2, tapply, orthonormal. cbn [fst snd mul3 dot3 add3 sub3]. intros (H1 & H2 & H3 & H4 & H5 & H6).
  set (x := p0 - q0). set (y := p1 - q1). set (z := p2 - q2).
  transitivity (x*x*(a*a+d*d+g*g) + y*y*(b*b+e*e+h*h) + z*z*(c*c+f*f+i*i)
     + 2*x*y*(a*b+d*e+g*h) + 2*x*z*(a*c+d*f+g*i) + 2*y*z*(b*c+e*f+h*i)).
  - unfold x, y, z. ring.
  - rewrite H1, H2, H3, H4, H5, H6. ring.
Qed.

Section Ratios.
Variable d : footdata.
Hypothesis HL : 0 < halfL d.
Hypothesis HD : 0 < halfD d.
Variables cx cy : R.

Lemma ratios_sum r0 r1 r2 r3 : normalRatios d cx cy = [r0; r1; r2; r3] ->
  r0 + r1 + r2 + r3 = 1 /\ (r0 + r1 - r2 - r3) * halfL d = cx /\ (r0 - r1 + r2 - r3) * halfD d = cy.
Proof.
  unfold normalRatios. intros H. injection H. clear H. intros <- <- <- <-.
  match goal with |- context[(Rmax ?a ?b + Rmin ?c ?e)/2] => set (q := (Rmax a b + Rmin c e)/2) end.
  repeat split; field; lra.
Qed.

Lemma ratios_range r0 r1 r2 r3 : Rabs cx <= halfL d -> Rabs cy <= halfD d ->
  normalRatios d cx cy = [r0; r1; r2; r3] ->
  (0 <= r0 <= 1) /\ (0 <= r1 <= 1) /\ (0 <= r2 <= 1) /\ (0 <= r3 <= 1).
Proof.
  unfold normalRatios. intros Hx Hy H. injection H. clear H. intros <- <- <- <-.
  set (x := cx / (2 * halfL d)). set (y := cy / (2 * halfD d)).
  replace (- cx / (2 * halfL d)) with (- x) by (unfold x; field; lra).
  assert (Bx : -(1/2) <= x <= 1/2).
  { apply Rabs_def2_le in Hx || (pose proof (Rle_abs cx); pose proof (Rle_abs (-cx)); rewrite Rabs_Ropp in *).
    unfold x. split; apply Rmult_le_reg_r with (2 * halfL d); try lra; field_simplify; try lra. }
  assert (By : -(1/2) <= y <= 1/2).
  { pose proof (Rle_abs cy); pose proof (Rle_abs (-cy)); rewrite Rabs_Ropp in *.
    unfold y. split; apply Rmult_le_reg_r with (2 * halfD d); try lra; field_simplify; try lra. }
  unfold Rmax, Rmin. destruct (Rle_dec 0 (- x - y)), (Rle_dec (5/10 - y) (5/10 - x)); lra.
Qed.
End Ratios.

Lemma normalRatios_four d cx cy : exists r0 r1 r2 r3, normalRatios d cx cy = [r0; r1; r2; r3].
Proof. unfold normalRatios. do 4 eexists. reflexivity. Qed.

(** Full row rank of the two regression matrices. *)
Lemma gram8 d : 0 < halfL d -> 0 < halfD d ->
  det3 (gram 8 (regression (map (corner d) [0;1;2;3]%nat))) <> 0.
Proof.
  intros HL HD. unfold det3, gram. cbn [sumn regression map corner Nat.even nth Nat.div Nat.divmod fst py px snd].
  match goal with |- ?e <> 0 => replace e with (64 * (halfL d * halfL d + halfD d * halfD d)) by ring end.
  assert (0 < halfL d * halfL d) by nra. assert (0 < halfD d * halfD d) by nra. lra.
Qed.
Lemma gram4 p q : px p <> px q \/ py p <> py q -> det3 (gram 4 (regression [p; q])) <> 0.
Proof.
  intros H. unfold det3, gram. cbn [sumn regression Nat.even nth Nat.div Nat.divmod fst].
  match goal with |- ?e <> 0 => replace e with (2 * ((px p - px q)^2 + (py p - py q)^2)) by ring end.
  assert (0 < (px p - px q)^2 + (py p - py q)^2); [|lra].
  pose proof (pow2_ge_0 (px p - px q)). pose proof (pow2_ge_0 (py p - py q)).
  destruct H as [H|H]; [assert (0 < (px p - px q)^2)|assert (0 < (py p - py q)^2)]; try lra;
    (rewrite <- Rsqr_pow2; apply Rsqr_pos_lt; lra).
Qed.

Section Forces.
Variable qrsolve : nat -> mat -> vec -> vec.
Hypothesis Hqr : exact_solver qrsolve.

Lemma solve8 d fx fy tz : 0 < halfL d -> 0 < halfD d ->
  let b : vec := fun i => match i with O => fx | 1%nat => fy | _ => tz end in
  let x := qrsolve 8 (regression (map (corner d) [0;1;2;3]%nat)) b in
  let L := halfL d in let D := halfD d in
  x 0%nat + x 2%nat + x 4%nat + x 6%nat = fx /\ x 1%nat + x 3%nat + x 5%nat + x 7%nat = fy /\
  - D * x 0%nat + L * x 1%nat + D * x 2%nat + L * x 3%nat - D * x 4%nat - L * x 5%nat + D * x 6%nat - L * x 7%nat = tz.
Proof.
  intros HL HD b x L D. pose proof (Hqr 8%nat _ b (gram8 d HL HD)) as E. fold x in E.
  pose proof (E 0%nat ltac:(lia)) as E0. pose proof (E 1%nat ltac:(lia)) as E1. pose proof (E 2%nat ltac:(lia)) as E2.
  cbn [sumn regression map corner Nat.even nth Nat.div Nat.divmod fst py px snd b] in E0, E1, E2.
  fold L D in E2. repeat split; lra.
Qed.
Lemma solve4 p q fx fy tz : px p <> px q \/ py p <> py q ->
  let b : vec := fun i => match i with O => fx | 1%nat => fy | _ => tz end in
  let x := qrsolve 4 (regression [p; q]) b in
  x 0%nat + x 2%nat = fx /\ x 1%nat + x 3%nat = fy /\
  - py p * x 0%nat + px p * x 1%nat - py q * x 2%nat + px q * x 3%nat = tz.
Proof.
  intros H b x. pose proof (Hqr 4%nat _ b (gram4 p q H)) as E. fold x in E.
  pose proof (E 0%nat ltac:(lia)) as E0. pose proof (E 1%nat ltac:(lia)) as E1. pose proof (E 2%nat ltac:(lia)) as E2.
  cbn [sumn regression Nat.even nth Nat.div Nat.divmod fst b] in E0, E1, E2.
  repeat split; lra.
Qed.

(** Resultant of four forces at the corners. *)
Lemma resultant_corners d f0 f1 f2 f3 :
  resultant_moment (center d) (map (fun i => add3 (center d) (corner d i)) [0;1;2;3]%nat) [f0;f1;f2;f3] =
  (halfD d * (pz f0 - pz f1 + pz f2 - pz f3), - halfL d * (pz f0 + pz f1 - pz f2 - pz f3),
   halfL d * (py f0 + py f1 - py f2 - py f3) - halfD d * (px f0 - px f1 + px f2 - px f3)).
Proof.
  destruct (center d) as [[c0 c1] c2], f0 as [[? ?] ?], f1 as [[? ?] ?], f2 as [[? ?] ?], f3 as [[? ?] ?].
  unfold resultant_moment. cbn [map combine sum3 fold_right fst snd corner add3 sub3 cross3v zero3 px py pz].
  unfold zero3. f_equal; [f_equal|]; ring.
Qed.
Lemma moment_shift o c (ps fs : list V3) : length ps = length fs ->
  resultant_moment o ps fs = add3 (resultant_moment c ps fs) (cross3v (sub3 c o) (resultant_force fs)).
Proof.
  revert fs. induction ps as [|p ps IH]; intros [|f fs] H; try discriminate.
  - destruct o as [[? ?] ?], c as [[? ?] ?].
    unfold resultant_moment, resultant_force, sum3, zero3, cross3v, sub3, add3, combine, map, fold_right.
    f_equal; [f_equal|]; ring.
  - injection H as H. specialize (IH fs H). unfold resultant_moment, resultant_force in *.
    cbn [combine map fst snd]. unfold sum3 in *. cbn [fold_right].
    destruct (fold_right add3 zero3 (map (fun pf => cross3v (sub3 (fst pf) o) (snd pf)) (combine ps fs))) as [[u0 u1] u2].
    destruct (fold_right add3 zero3 (map (fun pf => cross3v (sub3 (fst pf) c) (snd pf)) (combine ps fs))) as [[w0 w1] w2].
    destruct (fold_right add3 zero3 fs) as [[g0 g1] g2].
    destruct o as [[? ?] ?], c as [[? ?] ?], p as [[? ?] ?], f as [[? ?] ?].
    cbn [add3 sub3 cross3v] in *. injection IH as E0 E1 E2. subst. f_equal; [f_equal|]; ring.
Qed.

Definition nactive (alphas : list R) : nat := length (filter (fun x => x) (map isActive alphas)).
Lemma inactive_bound a : isActive a = false -> Rabs a <= 1/10000000.
Proof. unfold isActive, forceThreshold. destruct Rlt_dec; [discriminate|lra]. Qed.
Lemma inactive_bound2 a : isActive a = false -> -(1/10000000) <= a <= 1/10000000.
Proof.
  intros H. apply inactive_bound in H. pose proof (Rle_abs a). pose proof (Rle_abs (-a)). rewrite Rabs_Ropp in *. lra.
Qed.

Lemma nactive_pos d cx cy : 0 < halfL d -> 0 < halfD d -> (1 <= nactive (normalRatios d cx cy))%nat.
Proof.
  intros HL HD. destruct (normalRatios_four d cx cy) as (r0 & r1 & r2 & r3 & E).
  destruct (ratios_sum d HL HD cx cy r0 r1 r2 r3 E) as (S1 & _). rewrite E. unfold nactive. cbn [map filter].
  destruct (isActive r0) eqn:A0; cbn [length]; [lia|].
  destruct (isActive r1) eqn:A1; cbn [length]; [lia|].
  destruct (isActive r2) eqn:A2; cbn [length]; [lia|].
  destruct (isActive r3) eqn:A3; cbn [length]; [lia|].
  apply inactive_bound2 in A0, A1, A2, A3. lra.
Qed.

(** At least three active points: the wrench is reproduced exactly. *)
Lemma getForces_exact d f t : 0 < halfL d -> 0 < halfD d -> 1/10000000 <= pz f ->
  let tc := sub3 t (cross3v (center d) f) in
  (3 <= nactive (normalRatios d (- py tc / pz f) (px tc / pz f)))%nat ->
  exists fs, getForces qrsolve (Some d) (f, t) = Some fs /\ length fs = 4%nat /\ resultant_force fs = f /\
    resultant_moment (center d) (map (fun i => add3 (center d) (corner d i)) [0;1;2;3]%nat) fs = tc.
Proof.
  intros HL HD Hfz tc Hn. destruct f as [[fx fy] fz].
  unfold getForces. cbn [fst snd]. fold tc. destruct tc as [[tx ty] tz]. cbn [px py pz fst snd] in *.
  destruct (Rlt_dec fz (1/10000000)); [lra|].
  destruct (normalRatios_four d (- ty / fz) (tx / fz)) as (r0 & r1 & r2 & r3 & E).
  destruct (ratios_sum d HL HD _ _ r0 r1 r2 r3 E) as (S1 & S2 & S3).
  rewrite E in *. unfold nactive in Hn. cbv zeta.
  destruct (Nat.eqb_spec (length (filter (fun x => x) (map isActive [r0; r1; r2; r3]))) 1); [lia|].
  destruct (Nat.eqb_spec (length (filter (fun x => x) (map isActive [r0; r1; r2; r3]))) 2); [lia|].
  eexists. split; [reflexivity|].
  cbn [map fillAll Nat.mul Nat.add length].
  destruct (solve8 d fx fy tz HL HD) as (X & Y & T).
  cbn [map] in X, Y, T.
  set (x := qrsolve 8%nat _ _) in *.
  change (map (fun i => add3 (center d) (corner d i)) [0;1;2;3]%nat) with
         [add3 (center d) (corner d 0); add3 (center d) (corner d 1); add3 (center d) (corner d 2); add3 (center d) (corner d 3)].
  split; [reflexivity|].
  assert (M2 : (r0 + r1 - r2 - r3) * halfL d * fz = - ty) by (rewrite S2; field; lra).
  assert (M3' : (r0 - r1 + r2 - r3) * halfD d * fz = tx) by (rewrite S3; field; lra).
  split.
  - unfold resultant_force, sum3, zero3. cbn [fold_right add3]. f_equal; [f_equal|]; [lra|lra|].
    replace (r0 * fz + (r1 * fz + (r2 * fz + (r3 * fz + 0)))) with ((r0+r1+r2+r3)*fz) by ring. rewrite S1. ring.
  - rewrite (resultant_corners d). cbn [px py pz fst snd]. f_equal; [f_equal|]; lra.
Qed.


Lemma small_mul a fz : 0 <= fz -> -(1/10000000) <= a <= 1/10000000 ->
  -(1/10000000) * fz <= a * fz <= 1/10000000 * fz.
Proof. intros. nra. Qed.

(** Fewer active points: the forces of the inactive corners are dropped. *)
Lemma getForces_few d f t : 0 < halfL d -> 0 < halfD d -> 1/10000000 <= pz f ->
  let tc := sub3 t (cross3v (center d) f) in
  let n := nactive (normalRatios d (- py tc / pz f) (px tc / pz f)) in
  (n <= 2)%nat ->
  exists fs, getForces qrsolve (Some d) (f, t) = Some fs /\ length fs = 4%nat /\
    let F := resultant_force fs in
    let M := resultant_moment (center d) (map (fun i => add3 (center d) (corner d i)) [0;1;2;3]%nat) fs in
    px F = px f /\ py F = py f /\ Rabs (pz F - pz f) <= 3/10000000 * pz f /\
    Rabs (px M - px tc) <= 3/10000000 * (halfD d * pz f) /\
    Rabs (py M - py tc) <= 3/10000000 * (halfL d * pz f) /\
    (n = 2%nat -> pz M = pz tc).
Proof.
  intros HL HD Hfz tc n Hn. destruct f as [[fx fy] fz].
  unfold getForces. cbn [fst snd]. fold tc. destruct tc as [[tx ty] tz]. cbn [px py pz fst snd] in *.
  destruct (Rlt_dec fz (1/10000000)); [lra|]. assert (Hp : 0 < fz) by lra.
  pose proof (nactive_pos d (- ty / fz) (tx / fz) HL HD) as Hpos. fold n in Hpos.
  destruct (normalRatios_four d (- ty / fz) (tx / fz)) as (r0 & r1 & r2 & r3 & E).
  destruct (ratios_sum d HL HD _ _ r0 r1 r2 r3 E) as (S1 & S2 & S3).
  cbv zeta. unfold n in *. clear n. rewrite E in *. unfold nactive in *.
  assert (M1 : r0 * fz + r1 * fz + r2 * fz + r3 * fz = fz) by (rewrite <- (Rmult_1_l fz) at 5; rewrite <- S1; ring).
  assert (M2 : halfL d * (r0 * fz) + halfL d * (r1 * fz) - halfL d * (r2 * fz) - halfL d * (r3 * fz) = - ty).
  { transitivity ((r0 + r1 - r2 - r3) * halfL d * fz); [ring | rewrite S2; field; lra]. }
  assert (M3' : halfD d * (r0 * fz) - halfD d * (r1 * fz) + halfD d * (r2 * fz) - halfD d * (r3 * fz) = tx).
  { transitivity ((r0 - r1 + r2 - r3) * halfD d * fz); [ring | rewrite S3; field; lra]. }
  assert (B : forall a, isActive a = false ->
     (-(1/10000000) * fz <= a * fz <= 1/10000000 * fz) /\
     (-(1/10000000) * (halfL d * fz) <= halfL d * (a * fz) <= 1/10000000 * (halfL d * fz)) /\
     (-(1/10000000) * (halfD d * fz) <= halfD d * (a * fz) <= 1/10000000 * (halfD d * fz))).
  { intros a Ha. apply inactive_bound2 in Ha. pose proof (small_mul a fz ltac:(lra) Ha).
    repeat split; try lra.
    - apply Rle_trans with (halfL d * (-(1/10000000) * fz)); [lra | apply Rmult_le_compat_l; lra].
    - apply Rle_trans with (halfL d * (1/10000000 * fz)); [apply Rmult_le_compat_l; lra | lra].
    - apply Rle_trans with (halfD d * (-(1/10000000) * fz)); [lra | apply Rmult_le_compat_l; lra].
    - apply Rle_trans with (halfD d * (1/10000000 * fz)); [apply Rmult_le_compat_l; lra | lra]. }
  assert (P1 : 0 < halfL d * fz) by (apply Rmult_lt_0_compat; lra).
  assert (P2 : 0 < halfD d * fz) by (apply Rmult_lt_0_compat; lra).
  change (map (fun i => add3 (center d) (corner d i)) [0;1;2;3]%nat) with
         [add3 (center d) (corner d 0); add3 (center d) (corner d 1); add3 (center d) (corner d 2); add3 (center d) (corner d 3)].
  assert (Hc : forall i j, (i < j < 4)%nat -> px (corner d i) <> px (corner d j) \/ py (corner d i) <> py (corner d j)).
  { intros i j Hij. destruct i as [|[|[|[|i]]]], j as [|[|[|[|j]]]]; try lia; cbn [corner px py fst snd];
      (left; lra) || (right; lra). }
  cbn [map combine filter] in *.
  destruct (isActive r0) eqn:A0, (isActive r1) eqn:A1, (isActive r2) eqn:A2, (isActive r3) eqn:A3;
    cbn [filter length map fst snd Nat.eqb] in *; try lia;
    try (pose proof (B r0 A0) as (? & ? & ?)); try (pose proof (B r1 A1) as (? & ? & ?));
       try (pose proof (B r2 A2) as (? & ? & ?)); try (pose proof (B r3 A3) as (? & ? & ?));
    eexists; (split; [reflexivity|]); cbn [fillReduced Nat.mul Nat.add length]; (split; [reflexivity|]);
    try match goal with |- context [qrsolve 4%nat (regression [corner d ?i; corner d ?j]) _] =>
         destruct (solve4 (corner d i) (corner d j) fx fy tz (Hc i j ltac:(lia))) as (X & Y & T);
         set (x := qrsolve 4%nat _ _) in *; cbn [corner px py fst snd] in T end;
    rewrite (resultant_corners d); unfold resultant_force, sum3, zero3; cbn [fold_right add3 px py pz fst snd];
    repeat split; try (apply Rabs_le); try lra; try (intros; discriminate).
Qed.
End Forces.
