(** Lemmas about FillDefaultInitialState. *)
From Coq Require Import Reals List Arith Bool Lra Lia.
From Verif Require Import Spec SpecState SpecGeometry SpecUtilities RectFoot RectFootProofs PropRectFoot FillModel.
Import ListNotations.
Local Open Scope R_scope.

Lemma ratios_interior d cx cy : 0 < halfL d -> 0 < halfD d ->
  Rabs cx <= (1 - 2/1000000) * halfL d -> Rabs cy <= (1 - 2/1000000) * halfD d ->
  nactive (normalRatios d cx cy) = 4%nat.
Proof.
  intros HL HD Hx Hy. unfold normalRatios.
  set (x := cx / (2 * halfL d)). set (y := cy / (2 * halfD d)).
  replace (- cx / (2 * halfL d)) with (- x) by (unfold x; field; lra).
  assert (Bx : -(1/2) + 1/1000000 <= x <= 1/2 - 1/1000000).
  { pose proof (Rle_abs cx); pose proof (Rle_abs (-cx)); rewrite Rabs_Ropp in *.
    unfold x. split; apply Rmult_le_reg_r with (2 * halfL d); try lra; field_simplify; try lra. }
  assert (By : -(1/2) + 1/1000000 <= y <= 1/2 - 1/1000000).
  { pose proof (Rle_abs cy); pose proof (Rle_abs (-cy)); rewrite Rabs_Ropp in *.
    unfold y. split; apply Rmult_le_reg_r with (2 * halfD d); try lra; field_simplify; try lra. }
  assert (A : forall a, 1/10000000 < a -> isActive a = true).
  { intros a Ha. unfold isActive, forceThreshold. destruct Rlt_dec as [|C]; auto. exfalso. apply C. rewrite Rabs_right; lra. }
  unfold nactive. cbn [map]. rewrite !A; [reflexivity|..]; clearbody x y; clear - Bx By;
  unfold Rmax, Rmin; destruct (Rle_dec 0 (- x - y)), (Rle_dec (5/10 - y) (5/10 - x)); lra.
Qed.

Section Share.
Variable solve : nat -> mat -> vec -> vec.
Hypothesis Hs : exact_solver solve.
Variables (s : foot) (xl yl : R) (tl : V3).
Hypothesis Hx : 0 < xl. Hypothesis Hy : 0 < yl.
Let ft := fst (setFoot s xl yl tl).
Variables F dx : R.
Hypothesis HF : 0 <= F.
Let w : V3 * V3 := ((0, 0, F), (0, - F * dx, 0)).

Lemma cop_value : F <> 0 -> cop_x (foot_center xl yl tl) (0,0,F) (0, - F * dx, 0) = dx - (px tl - xl/2) /\
  cop_y (foot_center xl yl tl) (0,0,F) (0, - F * dx, 0) = - (py tl - yl/2).
Proof.
  intros H. unfold cop_x, cop_y, foot_center. destruct tl as [[a b] c]. cbn [px py pz fst snd sub3 cross3v]. split; field; auto.
Qed.

Lemma foot_share : exists ps fs, getPoints ft tident = Some ps /\ getForces solve ft w = Some fs /\ length ps = 4%nat /\ length fs = 4%nat /\
  px (resultant_force fs) = 0 /\ py (resultant_force fs) = 0 /\
  Rabs (pz (resultant_force fs) - F) <= 1/10000000 + 3/10000000 * F.
Proof.
  pose proof (C26_corners s xl yl tl tident Hx Hy) as Hps.
  destruct (C28_wrench_partial solve s xl yl tl (0,0,F) (0, - F * dx, 0) Hs Hx Hy _ Hps) as (fs & H1 & H2 & H3 & H4).
  exists (map (tapply tident) [tl; sub3 tl (0, yl, 0); sub3 tl (xl, 0, 0); sub3 tl (xl, yl, 0)]), fs.
  split; [exact Hps|]. split; [exact H1|]. split; [reflexivity|]. split; [exact H2|].
  cbn [pz snd] in *.
  destruct (Rlt_dec F (1/10000000)) as [C|C].
  - rewrite (H3 C). unfold resultant_force, sum3, zero3. cbn. repeat split; try ring.
    rewrite Rabs_left1 by lra. lra.
  - destruct (H4 ltac:(lra)) as (_ & A & B). set (n := count_active _) in *. destruct (le_lt_dec 3 n) as [C3|C3].
    + destruct (A C3) as (-> & _). cbn. repeat split. rewrite Rabs_right; lra.
    + destruct (B ltac:(lia)) as (B1 & B2 & B3 & _). cbn [px py fst snd] in B1, B2. repeat split; auto. lra.
Qed.

Lemma foot_exact ps : over_foot (1/1000000) xl yl tl dx -> F = 0 \/ 1/10000000 <= F ->
  getPoints ft tident = Some ps ->
  exists fs, getForces solve ft w = Some fs /\ length fs = 4%nat /\
    resultant_force fs = (0, 0, F) /\ resultant_moment zero3 ps fs = (0, - F * dx, 0).
Proof.
  intros (O1 & O2) HFz Hps.
  destruct (C28_wrench_partial solve s xl yl tl (0,0,F) (0, - F * dx, 0) Hs Hx Hy _ Hps) as (fs & H1 & H2 & H3 & H4).
  exists fs. split; [exact H1|]. split; [exact H2|]. cbn [pz snd] in *. destruct HFz as [->|HFz].
  - rewrite H3 by lra. assert (length ps = 4%nat) as Hl.
    { unfold ft in *. rewrite C26_corners in Hps by auto. injection Hps as <-. reflexivity. }
    destruct ps as [|[[? ?] ?] [|[[? ?] ?] [|[[? ?] ?] [|[[? ?] ?] [|]]]]]; try discriminate.
    unfold resultant_force, resultant_moment, sum3, zero3. cbn. split; repeat (f_equal; try ring).
  - destruct (H4 HFz) as (_ & A & _). apply A. clear A.
    destruct (cop_value ltac:(lra)) as (Ex & Ey). rewrite Ex, Ey.
    unfold getNormalRatiosFromCoP. destruct (setFoot s xl yl tl) as [s' b] eqn:E.
    destruct b; [|apply setFoot_false in E; lra]. apply setFoot_true in E as (_ & _ & ->). cbn [fst count_active].
    rewrite count_eq, ratios_interior; cbn [halfL halfD]; try lia; try lra; apply Rabs_le; lra.
Qed.

Lemma foot_pushes fs : over_foot 0 xl yl tl dx -> getForces solve ft w = Some fs -> forall g, In g fs -> 0 <= pz g.
Proof.
  intros (O1 & O2) H. destruct (Req_dec F 0) as [->|C].
  - intros g Hg. unfold ft in H. destruct (setFoot s xl yl tl) as [s' b] eqn:E.
    destruct b; [|apply setFoot_false in E; lra]. apply setFoot_true in E as (_ & _ & ->). cbn [fst] in H.
    unfold getForces, w in H. cbn [fst snd] in H. destruct (sub3 _ _) as [[? ?] ?]. destruct Rlt_dec; [|lra].
    injection H as <-. unfold zero3 in Hg. cbn in Hg. repeat (destruct Hg as [<-|Hg]; [cbn; lra|]). contradiction.
  - destruct (cop_value C) as (Ex & Ey).
    apply (C28_normal_forces_nonneg solve s xl yl tl (0,0,F) (0, - F * dx, 0) fs Hx Hy); auto; rewrite ?Ex, ?Ey; lra.
Qed.
End Share.

Lemma give_forces_spec : forall ps fs ls, give_forces ps fs = Some ls ->
  map pointPosition ls = ps /\ map pointForce ls = firstn (length ps) fs /\ (length ps <= length fs)%nat.
Proof.
  induction ps as [|p ps IH]; intros fs ls H; cbn in H.
  - injection H as <-. cbn. repeat split; auto. lia.
  - destruct fs as [|f fs]; [discriminate|]. destruct (give_forces ps fs) as [ls'|] eqn:E; [|discriminate].
    injection H as <-. destruct (IH fs ls' E) as (A & B & C). cbn. rewrite A, B. repeat split. lia.
Qed.
Lemma give_forces_some : forall ps fs, (length ps <= length fs)%nat -> exists ls, give_forces ps fs = Some ls.
Proof.
  induction ps as [|p ps IH]; intros fs H; [eexists; reflexivity|]. destruct fs as [|f fs]; cbn in H; [lia|].
  destruct (IH fs ltac:(lia)) as (ls & E). exists (mkPointState f p :: ls). cbn. rewrite E. reflexivity.
Qed.

Lemma leftShare_range F dl dr fl : 0 <= F -> leftShare F dl dr = Some fl -> 0 <= fl <= F.
Proof.
  unfold leftShare. intros HF. destruct (Req_EM_T dr 0).
  - destruct (Req_EM_T dl 0); [discriminate|]. intros H. injection H as <-. lra.
  - intros H. injection H as <-. pose proof (Rabs_pos dl). pose proof (Rabs_pos_lt dr n).
    assert (0 <= Rabs dl / Rabs dr) by (apply Rmult_le_pos; auto; apply Rlt_le, Rinv_0_lt_compat; auto).
    split.
    + apply Rmult_le_pos; auto. apply Rlt_le, Rinv_0_lt_compat. lra.
    + apply Rmult_le_reg_r with (1 + Rabs dl / Rabs dr); [lra|]. unfold Rdiv at 1. rewrite Rmult_assoc, Rinv_l by lra. nra.
Qed.
(** The shares balance the lateral lever arms when the CoM is between the feet. *)
Lemma leftShare_balance F dl dr fl : dl * dr <= 0 -> leftShare F dl dr = Some fl -> dl * fl + dr * (F - fl) = 0.
Proof.
  unfold leftShare. intros Hd. destruct (Req_EM_T dr 0).
  - destruct (Req_EM_T dl 0); [discriminate|]. intros H. injection H as <-. subst. ring.
  - intros H. injection H as <-. pose proof (Rabs_pos dl). pose proof (Rabs_pos_lt dr n).
    assert (E : F / (1 + Rabs dl / Rabs dr) = F * Rabs dr / (Rabs dl + Rabs dr)) by (field; split; lra).
    rewrite E. clear E.
    destruct (Req_dec dl 0) as [->|Hd0]; [rewrite Rabs_R0; field; lra|].
    unfold Rabs in *. destruct (Rcase_abs dl), (Rcase_abs dr); try (exfalso; nra); field; try lra.
Qed.

Lemma inverse_left X : orthonormal (fst X) -> compose (tinverse X) X = tident.
Proof.
  destruct X as [[[[[a b] c] [[d e] f]] [[g h] i]] [[x y] z]]. cbn [fst snd orthonormal].
  intros (H1 & H2 & H3 & H4 & H5 & H6). unfold compose, tinverse, tident, ident3, zero3.
  cbn [fst snd transpose3 mul33 mul3 dot3 scale3 add3 px py pz tapply]. unfold tapply. cbn [fst snd mul3 dot3 add3].
  repeat match goal with |- (_, _) = (_, _) => apply f_equal2 end; try lra; ring.
Qed.

Lemma sum3_app l r : sum3 (l ++ r) = add3 (sum3 l) (sum3 r).
Proof.
  unfold sum3. rewrite fold_right_app. induction l as [|a l IH]; cbn.
  - destruct (fold_right add3 zero3 r) as [[x y] z]. cbn. repeat (f_equal; try ring).
  - rewrite IH. destruct a as [[? ?] ?], (fold_right add3 zero3 l) as [[? ?] ?], (fold_right add3 zero3 r) as [[? ?] ?].
    cbn. repeat (f_equal; try ring).
Qed.
Lemma moment_app o p1 p2 f1 f2 : length p1 = length f1 ->
  resultant_moment o (p1 ++ p2) (f1 ++ f2) = add3 (resultant_moment o p1 f1) (resultant_moment o p2 f2).
Proof.
  intros H. unfold resultant_moment. rewrite <- sum3_app, <- map_app. f_equal. f_equal.
  revert f1 H. induction p1 as [|p p1 IH]; intros [|f f1] H; try discriminate; cbn; auto. f_equal. apply IH. auto.
Qed.
Lemma moment_translate o d ps fs : resultant_moment o (map (fun p => add3 p d) ps) fs = resultant_moment (sub3 o d) ps fs.
Proof.
  unfold resultant_moment. f_equal. revert fs. induction ps as [|p ps IH]; intros [|f fs]; cbn; auto.
  f_equal; [|apply IH]. destruct p as [[? ?] ?], d as [[? ?] ?], o as [[? ?] ?], f as [[? ?] ?]. cbn. repeat (f_equal; try ring).
Qed.
