(** Algebra and calculus of rigid transforms (no model of the code here). *)
From Coq Require Import Reals List Arith Lia Lra Bool FunctionalExtensionality.
From Coquelicot Require Import Coquelicot.
From Verif Require Import Spec PartialLib SpecRigid.
Import ListNotations.
Local Open Scope R_scope.

Ltac r3 := unfold mm, mv, madd, vadd, mneg, vopp, mtr, skew, vcross, m3I, m30, v30, vscale; cbn [vx vy vz a00 a01 a02 a10 a11 a12 a20 a21 a22]; f_equal; ring.

Lemma mm_assoc A B C : mm (mm A B) C = mm A (mm B C). Proof. r3. Qed.
Lemma mm_I_l A : mm m3I A = A. Proof. destruct A. r3. Qed.
Lemma mm_I_r A : mm A m3I = A. Proof. destruct A. r3. Qed.
Lemma mm_0_l A : mm m30 A = m30. Proof. r3. Qed.
Lemma mm_0_r A : mm A m30 = m30. Proof. r3. Qed.
Lemma madd_0_l A : madd m30 A = A. Proof. destruct A. r3. Qed.
Lemma madd_0_r A : madd A m30 = A. Proof. destruct A. r3. Qed.
Lemma madd_comm A B : madd A B = madd B A. Proof. r3. Qed.
Lemma madd_assoc A B C : madd (madd A B) C = madd A (madd B C). Proof. r3. Qed.
Lemma mm_add_l A B C : mm (madd A B) C = madd (mm A C) (mm B C). Proof. r3. Qed.
Lemma mm_add_r A B C : mm A (madd B C) = madd (mm A B) (mm A C). Proof. r3. Qed.
Lemma mm_neg_l A B : mm (mneg A) B = mneg (mm A B). Proof. r3. Qed.
Lemma mm_neg_r A B : mm A (mneg B) = mneg (mm A B). Proof. r3. Qed.
Lemma mtr_mm A B : mtr (mm A B) = mm (mtr B) (mtr A). Proof. r3. Qed.
Lemma mtr_tr A : mtr (mtr A) = A. Proof. destruct A. reflexivity. Qed.
Lemma mtr_I : mtr m3I = m3I. Proof. reflexivity. Qed.
Lemma mv_mm A B x : mv (mm A B) x = mv A (mv B x). Proof. r3. Qed.
Lemma mv_I x : mv m3I x = x. Proof. destruct x. r3. Qed.
Lemma mv_add A x y : mv A (vadd x y) = vadd (mv A x) (mv A y). Proof. r3. Qed.
Lemma mv_madd A B x : mv (madd A B) x = vadd (mv A x) (mv B x). Proof. r3. Qed.
Lemma mv_opp A x : mv A (vopp x) = vopp (mv A x). Proof. r3. Qed.
Lemma mv_neg A x : mv (mneg A) x = vopp (mv A x). Proof. r3. Qed.
Lemma mv_0 A : mv A v30 = v30. Proof. r3. Qed.
Lemma mv_m30 x : mv m30 x = v30. Proof. r3. Qed.
Lemma vadd_0_l x : vadd v30 x = x. Proof. destruct x. r3. Qed.
Lemma vadd_0_r x : vadd x v30 = x. Proof. destruct x. r3. Qed.
Lemma vadd_comm x y : vadd x y = vadd y x. Proof. r3. Qed.
Lemma vadd_assoc x y z : vadd (vadd x y) z = vadd x (vadd y z). Proof. r3. Qed.
Lemma vadd_opp x : vadd x (vopp x) = v30. Proof. r3. Qed.
Lemma vopp_opp x : vopp (vopp x) = x. Proof. destruct x. r3. Qed.
Lemma vopp_add x y : vopp (vadd x y) = vadd (vopp x) (vopp y). Proof. r3. Qed.
Lemma skew_v w x : mv (skew w) x = vcross w x. Proof. r3. Qed.
Lemma skew_add x y : skew (vadd x y) = madd (skew x) (skew y). Proof. r3. Qed.
Lemma skew_opp x : skew (vopp x) = mneg (skew x). Proof. r3. Qed.
Lemma skew_0 : skew v30 = m30. Proof. r3. Qed.
Lemma skew_tr x : mtr (skew x) = mneg (skew x). Proof. r3. Qed.

(** ** Rotations *)
Definition madj (A : m3) : m3 :=
  M3 (a11 A * a22 A - a12 A * a21 A) (a02 A * a21 A - a01 A * a22 A) (a01 A * a12 A - a02 A * a11 A)
     (a12 A * a20 A - a10 A * a22 A) (a00 A * a22 A - a02 A * a20 A) (a02 A * a10 A - a00 A * a12 A)
     (a10 A * a21 A - a11 A * a20 A) (a01 A * a20 A - a00 A * a21 A) (a00 A * a11 A - a01 A * a10 A).
Definition mscale (k : R) (A : m3) : m3 :=
  M3 (k * a00 A) (k * a01 A) (k * a02 A) (k * a10 A) (k * a11 A) (k * a12 A) (k * a20 A) (k * a21 A) (k * a22 A).
Lemma mm_adj_r A : mm A (madj A) = mscale (mdet A) m3I. Proof. unfold madj, mdet, mscale. r3. Qed.
Lemma mdet_mm A B : mdet (mm A B) = mdet A * mdet B. Proof. unfold mdet, mm; cbn; ring. Qed.
Lemma mdet_tr A : mdet (mtr A) = mdet A. Proof. unfold mdet, mtr; cbn; ring. Qed.
Lemma mscale_1 A : mscale 1 A = A. Proof. destruct A. unfold mscale; cbn; f_equal; ring. Qed.
Lemma rot_adj A : rotation A -> mtr A = madj A.
Proof.
  intros [O D]. transitivity (mm (mtr A) (mm A (madj A))).
  - rewrite mm_adj_r, D, mscale_1, mm_I_r. reflexivity.
  - rewrite <- mm_assoc, O, mm_I_l. reflexivity.
Qed.
Lemma rot_l A : rotation A -> mm (mtr A) A = m3I. Proof. intros [O _]. exact O. Qed.
Lemma rot_r A : rotation A -> mm A (mtr A) = m3I.
Proof. intros H. rewrite (rot_adj A H), mm_adj_r. destruct H as [_ D]. rewrite D. apply mscale_1. Qed.
Lemma rotation_I : rotation m3I.
Proof. split; [unfold mm, mtr, m3I; cbn; f_equal; ring|unfold mdet; cbn; ring]. Qed.
Lemma rotation_mm A B : rotation A -> rotation B -> rotation (mm A B).
Proof.
  intros HA HB. split.
  - rewrite mtr_mm, mm_assoc, <- (mm_assoc (mtr A)), rot_l, mm_I_l by auto. apply rot_l; auto.
  - rewrite mdet_mm. destruct HA as [_ ->], HB as [_ ->]. ring.
Qed.
Lemma rotation_tr A : rotation A -> rotation (mtr A).
Proof. intros H. split; [rewrite mtr_tr; apply rot_r; auto|rewrite mdet_tr; apply H]. Qed.
(** The cross product turns with the frame. *)
Lemma skew_cof A x : mm (mm A (skew x)) (mtr A) = skew (mv (mtr (madj A)) x).
Proof. unfold madj. r3. Qed.
Lemma skew_rot A x : rotation A -> mm A (skew x) = mm (skew (mv A x)) A.
Proof.
  intros H. transitivity (mm (mm (mm A (skew x)) (mtr A)) A).
  - rewrite mm_assoc, rot_l, mm_I_r by auto. reflexivity.
  - rewrite skew_cof, <- (rot_adj A H), mtr_tr. reflexivity.
Qed.
Lemma skew_rot_tr A x : rotation A -> mm (skew x) A = mm A (skew (mv (mtr A) x)).
Proof. intros H. rewrite skew_rot by auto. rewrite <- mv_mm, rot_r, mv_I by auto. reflexivity. Qed.

(** ** Transforms *)
Lemma pose_eq A B : rot A = rot B -> pos A = pos B -> A = B.
Proof. destruct A, B; cbn; intros; subst; auto. Qed.
Lemma pmul_assoc A B C : pmul (pmul A B) C = pmul A (pmul B C).
Proof. apply pose_eq; cbn; [apply mm_assoc|]. rewrite mv_add, mv_mm, vadd_assoc. reflexivity. Qed.
Lemma pmul_id_l A : pmul pid A = A.
Proof. apply pose_eq; cbn; [apply mm_I_l|]. rewrite mv_I, vadd_0_r. reflexivity. Qed.
Lemma pmul_id_r A : pmul A pid = A.
Proof. apply pose_eq; cbn; [apply mm_I_r|]. rewrite mv_0, vadd_0_l. reflexivity. Qed.
Lemma pinv_l A : rigid A -> pmul (pinv A) A = pid.
Proof. intros H. apply pose_eq; cbn; [apply rot_l; auto|]. apply vadd_opp. Qed.
Lemma pinv_r A : rigid A -> pmul A (pinv A) = pid.
Proof.
  intros H. apply pose_eq; cbn; [apply rot_r; auto|]. rewrite mv_opp, <- mv_mm, rot_r, mv_I by auto.
  rewrite vadd_comm. apply vadd_opp.
Qed.
Lemma rigid_id : rigid pid. Proof. apply rotation_I. Qed.
Lemma rigid_mul A B : rigid A -> rigid B -> rigid (pmul A B). Proof. apply rotation_mm. Qed.
Lemma rigid_inv A : rigid A -> rigid (pinv A). Proof. apply rotation_tr. Qed.
Lemma pinv_inv A : rigid A -> pinv (pinv A) = A.
Proof.
  intros H. apply pose_eq; cbn; [apply mtr_tr|]. rewrite mtr_tr, mv_opp, vopp_opp, <- mv_mm, rot_r, mv_I by auto. reflexivity.
Qed.
Lemma pinv_mul A B : rigid A -> pinv (pmul A B) = pmul (pinv B) (pinv A).
Proof.
  intros H. apply pose_eq; cbn; [apply mtr_mm|].
  rewrite mtr_mm, !mv_mm, mv_add, <- (mv_mm (mtr (rot A))), rot_l, mv_I by auto. rewrite mv_add, vopp_add, mv_opp, vadd_comm. reflexivity.
Qed.
Lemma pinv_id : pinv pid = pid.
Proof. apply pose_eq; cbn; [reflexivity|]. unfold m3I, mtr, mv, vopp, v30; cbn; f_equal; ring. Qed.

(** ** 6D *)
Lemma v6_eq a b : lin a = lin b -> ang a = ang b -> a = b.
Proof. destruct a, b; cbn; intros; subst; auto. Qed.
Lemma m6_eq A B : bll A = bll B -> bla A = bla B -> bal A = bal B -> baa A = baa B -> A = B.
Proof. destruct A, B; cbn; intros; subst; auto. Qed.
Ltac g3 := repeat match goal with |- context [mm ?x ?y] => generalize (mm x y); intros end;
  repeat match goal with |- context [mv ?x ?y] => generalize (mv x y); intros end;
  repeat match goal with H : m3 |- _ => destruct H end; repeat match goal with H : v3 |- _ => destruct H end; r3.
Ltac r6 := unfold m6mul, m6v, m6add, m6neg, v6add, v6opp, m6I, m60, v60; cbn [bll bla bal baa lin ang];
  rewrite ?mm_add_l, ?mm_add_r, ?mm_neg_l, ?mm_neg_r, ?mm_assoc, ?mm_I_l, ?mm_I_r, ?mm_0_l, ?mm_0_r,
    ?mv_add, ?mv_madd, ?mv_opp, ?mv_neg, ?mv_mm, ?mv_I, ?mv_0, ?mv_m30, ?madd_0_l, ?madd_0_r, ?vadd_0_l, ?vadd_0_r; f_equal; g3.
Lemma m6mul_assoc A B C : m6mul (m6mul A B) C = m6mul A (m6mul B C). Proof. r6. Qed.
Lemma m6v_mul A B x : m6v (m6mul A B) x = m6v A (m6v B x). Proof. r6. Qed.
Lemma m6mul_I_l A : m6mul m6I A = A. Proof. destruct A as [[] [] [] []]. r6. Qed.
Lemma m6mul_I_r A : m6mul A m6I = A. Proof. destruct A as [[] [] [] []]. r6. Qed.
Lemma m6mul_0_l A : m6mul m60 A = m60. Proof. r6. Qed.
Lemma m6mul_0_r A : m6mul A m60 = m60. Proof. r6. Qed.
Lemma m6v_I x : m6v m6I x = x. Proof. destruct x as [[] []]. r6. Qed.
Lemma m6v_0 A : m6v A v60 = v60. Proof. r6. Qed.
Lemma m6v_m0 x : m6v m60 x = v60. Proof. r6. Qed.
Lemma m6v_add A x y : m6v A (v6add x y) = v6add (m6v A x) (m6v A y). Proof. r6. Qed.
Lemma m6v_opp A x : m6v A (v6opp x) = v6opp (m6v A x). Proof. r6. Qed.
Lemma m6v_madd A B x : m6v (m6add A B) x = v6add (m6v A x) (m6v B x). Proof. r6. Qed.
Lemma m6v_neg A x : m6v (m6neg A) x = v6opp (m6v A x). Proof. r6. Qed.
Lemma m6mul_add_l A B C : m6mul (m6add A B) C = m6add (m6mul A C) (m6mul B C). Proof. r6. Qed.
Lemma m6mul_add_r A B C : m6mul A (m6add B C) = m6add (m6mul A B) (m6mul A C). Proof. r6. Qed.
Lemma m6mul_neg_l A B : m6mul (m6neg A) B = m6neg (m6mul A B). Proof. r6. Qed.
Lemma m6mul_neg_r A B : m6mul A (m6neg B) = m6neg (m6mul A B). Proof. r6. Qed.
Lemma m6add_comm A B : m6add A B = m6add B A. Proof. r6. Qed.
Lemma m6add_0_r A : m6add A m60 = A. Proof. destruct A as [[] [] [] []]. r6. Qed.
Lemma m6add_0_l A : m6add m60 A = A. Proof. destruct A as [[] [] [] []]. r6. Qed.
Lemma v6add_comm x y : v6add x y = v6add y x. Proof. r6. Qed.
Lemma v6add_assoc x y z : v6add (v6add x y) z = v6add x (v6add y z). Proof. r6. Qed.
Lemma v6add_0_l x : v6add v60 x = x. Proof. destruct x as [[] []]. r6. Qed.
Lemma v6add_0_r x : v6add x v60 = x. Proof. destruct x as [[] []]. r6. Qed.
Lemma v6opp_opp x : v6opp (v6opp x) = x. Proof. destruct x as [[] []]. r6. Qed.
Lemma v6add_opp x : v6add x (v6opp x) = v60. Proof. r6. Qed.

Lemma Adj_mul A B : rigid A -> Adj (pmul A B) = m6mul (Adj A) (Adj B).
Proof.
  intros H. unfold Adj, m6mul; cbn [bll bla bal baa rot pos pmul]. f_equal.
  - rewrite mm_0_r, madd_0_r. reflexivity.
  - rewrite skew_add, mm_add_l. rewrite <- !mm_assoc, <- (skew_rot _ _ H). reflexivity.
  - rewrite mm_0_l, mm_0_r, madd_0_r. reflexivity.
  - rewrite mm_0_l, madd_0_l. reflexivity.
Qed.
Lemma AdjW_mul A B : rigid A -> AdjW (pmul A B) = m6mul (AdjW A) (AdjW B).
Proof.
  intros H. unfold AdjW, m6mul; cbn [bll bla bal baa rot pos pmul]. f_equal.
  - rewrite mm_0_l, madd_0_r. reflexivity.
  - rewrite mm_0_l, mm_0_r, madd_0_r. reflexivity.
  - rewrite skew_add, mm_add_l. rewrite <- !mm_assoc, <- (skew_rot _ _ H). apply madd_comm.
  - rewrite mm_0_r, madd_0_l. reflexivity.
Qed.
Lemma Adj_id : Adj pid = m6I.
Proof. unfold Adj, pid, m6I; cbn. f_equal. rewrite mm_I_r. apply skew_0. Qed.
Lemma AdjW_id : AdjW pid = m6I.
Proof. unfold AdjW, pid, m6I; cbn. f_equal. rewrite mm_I_r. apply skew_0. Qed.
Lemma Adj_inv_l A : rigid A -> m6mul (Adj (pinv A)) (Adj A) = m6I.
Proof. intros H. rewrite <- Adj_mul by (apply rigid_inv; auto). rewrite pinv_l by auto. apply Adj_id. Qed.
Lemma Adj_inv_r A : rigid A -> m6mul (Adj A) (Adj (pinv A)) = m6I.
Proof. intros H. rewrite <- Adj_mul by auto. rewrite pinv_r by auto. apply Adj_id. Qed.
Lemma AdjW_inv_l A : rigid A -> m6mul (AdjW (pinv A)) (AdjW A) = m6I.
Proof. intros H. rewrite <- AdjW_mul by (apply rigid_inv; auto). rewrite pinv_l by auto. apply AdjW_id. Qed.
Lemma AdjW_inv_r A : rigid A -> m6mul (AdjW A) (AdjW (pinv A)) = m6I.
Proof. intros H. rewrite <- AdjW_mul by auto. rewrite pinv_r by auto. apply AdjW_id. Qed.

(** Moving a cross product operator through a transform. *)
Lemma jacobi p w : madd (mm (skew p) (skew w)) (mneg (mm (skew w) (skew p))) = skew (vcross p w).
Proof. r3. Qed.
Lemma adx_Adj H s : rigid H -> m6mul (Adj H) (adx s) = m6mul (adx (m6v (Adj H) s)) (Adj H).
Proof.
  intros K. unfold Adj, adx, m6mul, m6v; cbn [bll bla bal baa lin ang].
  rewrite !mv_m30, !vadd_0_l, !mm_0_r, !mm_0_l, !madd_0_l, !madd_0_r. f_equal.
  - apply skew_rot; auto.
  - rewrite (skew_rot _ (lin s) K), mm_assoc, (skew_rot _ (ang s) K), mv_mm.
    rewrite skew_v, skew_add, mm_add_l, <- jacobi, mm_add_l, mm_neg_l, !mm_assoc.
    set (X := mm (skew (mv (rot H) (lin s))) (rot H)). set (Y := mm (skew (pos H)) (mm (skew (mv (rot H) (ang s))) (rot H))).
    set (Z := mm (skew (mv (rot H) (ang s))) (mm (skew (pos H)) (rot H))).
    clearbody X Y Z. destruct X, Y, Z. r3.
  - apply skew_rot; auto.
Qed.
Lemma adw_AdjW H s : rigid H -> m6mul (AdjW H) (adw s) = m6mul (adw (m6v (Adj H) s)) (AdjW H).
Proof.
  intros K. unfold Adj, AdjW, adw, m6mul, m6v; cbn [bll bla bal baa lin ang].
  rewrite !mv_m30, !vadd_0_l, !mm_0_r, !mm_0_l, !madd_0_l, !madd_0_r. f_equal.
  - apply skew_rot; auto.
  - rewrite (skew_rot _ (lin s) K), mm_assoc, (skew_rot _ (ang s) K), mv_mm.
    rewrite skew_v, skew_add, mm_add_l, <- jacobi, mm_add_l, mm_neg_l, !mm_assoc.
    set (X := mm (skew (mv (rot H) (lin s))) (rot H)). set (Y := mm (skew (pos H)) (mm (skew (mv (rot H) (ang s))) (rot H))).
    set (Z := mm (skew (mv (rot H) (ang s))) (mm (skew (pos H)) (rot H))).
    clearbody X Y Z. destruct X, Y, Z. r3.
  - apply skew_rot; auto.
Qed.
