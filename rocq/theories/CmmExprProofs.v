(** The expressions of CentroidalMomentumConstraint.cpp:184-240 are the second derivatives (C70). *)
From Coq Require Import Reals List Arith Lia Lra Bool FunctionalExtensionality.
From Coquelicot Require Import Coquelicot.
From Verif Require Import Spec PartialLib SpecQuaternion SpecRigid SpecBase SpecFeet SpecCom SpecMom SpecDerivatives SpecCmm Rigid RigidCalc KinTree ConstraintsModel CostsModel Quaternion QuaternionProofs.
From Verif Require Import KinModel KinLib KinMotion KinUsers KinProofs KinExist QuatCurve BaseModel BaseProofs OriProofs SymModel FeetModel PropBase ComModel ComLib ComProofs ComHess ComCode MomModel MomProofs PropMom CmmModel CmmProofs PropCmm.
From Verif Require Import MibModel MibLib MibProofs MibDouble PropMib CmmExprModel CurveLib.
Import ListNotations.
Local Open Scope R_scope.

(** ** Matrices of functions with two derivatives *)
Section Mats.
Variable vars : nat.
Variable dim : nat -> nat.
Variable single : nat -> bool.
Notation good2 := (good2 vars dim single).
Definition goodm (n m : nat) (e : expression) : Prop := forall i j, (i < n)%nat -> (j < m)%nat -> good2 (fun rho => e rho i j).
Lemma gm_var v n : (v < vars)%nat -> dim v = n -> goodm n 1 (e_var v).
Proof. intros Hv <- i j Hi Hj. apply good2_proj; auto. Qed.
Lemma gm_identity n m : goodm n m e_identity. Proof. intros i j _ _. exact (good2_const vars dim single (delta i j)). Qed.
Lemma gm_add n m a b : goodm n m a -> goodm n m b -> goodm n m (e_add a b).
Proof. intros A B i j Hi Hj. apply (good2_plus _ _ _ (fun rho => a rho i j) (fun rho => b rho i j)); auto. Qed.
Lemma good2_scale c f : good2 f -> good2 (fun rho => c * f rho).
Proof. intros F. apply (good2_mult _ _ _ (fun _ => c) f); [apply good2_const|exact F]. Qed.
Lemma gm_scale n m c a : goodm n m a -> goodm n m (e_scale c a).
Proof. intros A i j Hi Hj. apply (good2_scale c (fun rho => a rho i j)). auto. Qed.
Lemma good2_opp f : good2 f -> good2 (fun rho => - f rho).
Proof. intros F. eapply good2_ext; [|apply (good2_scale (-1) f F)]. intros rho. cbv beta. ring. Qed.
Lemma gm_neg n m a : goodm n m a -> goodm n m (e_neg a).
Proof. intros A i j Hi Hj. apply (good2_opp (fun rho => a rho i j)). auto. Qed.
Lemma gm_times n m k l a b : (0 < k)%nat -> (0 < l)%nat -> goodm k l a -> goodm n m b -> goodm n m (e_times a b).
Proof. intros Hk Hl A B i j Hi Hj. apply (good2_mult _ _ _ (fun rho => a rho 0%nat 0%nat) (fun rho => b rho i j)); auto. Qed.
Lemma gm_mul n m k a b : goodm n k a -> goodm k m b -> goodm n m (e_mul k a b).
Proof. intros A B i j Hi Hj. apply (good2_sum _ _ _ k (fun l rho => a rho i l * b rho l j)). intros l Hl. apply (good2_mult _ _ _ (fun rho => a rho i l) (fun rho => b rho l j)); auto. Qed.
Lemma gm_transpose n m a : goodm n m a -> goodm m n (e_transpose a).
Proof. intros A i j Hi Hj. apply A; auto. Qed.
Lemma gm_rows n o m a : goodm (o + n) m a -> goodm n m (e_rows o a).
Proof. intros A i j Hi Hj. apply A; auto. lia. Qed.
Lemma skew_sum v i j : (i < 3)%nat -> (j < 3)%nat -> sumn 3 (fun k => Quaternion.skew (fun m => delta m k) i j * v k) = Quaternion.skew v i j.
Proof. intros Hi Hj. destruct i as [|[|[|i]]]; try lia; destruct j as [|[|[|j]]]; try lia; unfold Quaternion.skew, delta; cbn [sumn Nat.eqb]; ring. Qed.
Lemma gm_skew a : goodm 3 1 a -> goodm 3 3 (e_skew a).
Proof.
  intros A i j Hi Hj. apply (good2_ext _ _ _ (fun rho => sumn 3 (fun k => Quaternion.skew (fun m => delta m k) i j * a rho k 0%nat))).
  - intros rho. exact (skew_sum (fun k => a rho k 0%nat) i j Hi Hj).
  - apply (good2_sum _ _ _ 3 (fun k rho => Quaternion.skew (fun m => delta m k) i j * a rho k 0%nat)). intros k Hk.
    apply (good2_scale (Quaternion.skew (fun m => delta m k) i j) (fun rho => a rho k 0%nat)). apply A; lia.
Qed.
Lemma gm_horz n m k a b : goodm n k a -> goodm n (m - k) b -> goodm n m (e_horz k a b).
Proof. intros A B i j Hi Hj. unfold e_horz. destruct (Nat.ltb_spec j k); [apply A; auto|apply B; lia]. Qed.
Lemma gm_vert n m k a b : goodm k m a -> goodm (n - k) m b -> goodm n m (e_vert k a b).
Proof. intros A B i j Hi Hj. unfold e_vert. destruct (Nat.ltb_spec i k); [apply A; auto|apply B; lia]. Qed.
Lemma gm_rotation q : goodm 4 1 q -> goodm 3 3 (rotation_expression q).
Proof.
  intros Q. unfold rotation_expression. pose proof (gm_skew _ (gm_rows 3 1 1 q Q)) as S.
  apply gm_add; [apply gm_add; [apply gm_identity|]|].
  - eapply gm_times; [| |exact Q|apply gm_scale; exact S]; lia.
  - apply gm_mul; [apply gm_scale; exact S|exact S].
Qed.
Lemma gm_G q : goodm 4 1 q -> goodm 3 4 (G_expression q).
Proof.
  intros Q. unfold G_expression. pose proof (gm_neg _ _ _ (gm_rows 3 1 1 q Q)) as S.
  apply gm_horz; [exact S|]. apply gm_add; [eapply gm_times; [| |exact Q|apply gm_identity]; lia|apply gm_skew; exact S].
Qed.
Lemma gm_twist l d q : goodm 3 1 l -> goodm 4 1 d -> goodm 4 1 q -> goodm 6 1 (body_twist_expression l d q).
Proof. intros L D Q. apply gm_vert; [exact L|]. apply gm_mul; [apply gm_scale, gm_G; exact Q|exact D]. Qed.
End Mats.

(** The sizes of the variables; joints and quaternion move along one coordinate at a time. *)
Definition edim (dofs v : nat) : nat :=
  if (v =? v_s)%nat then dofs else if (v =? v_sdot)%nat then dofs else if (v =? v_q)%nat then 4%nat else if (v =? v_lin)%nat then 3%nat
  else if (v =? v_qdot)%nat then 4%nat else if (v =? v_n)%nat then 4%nat else if (v =? v_com)%nat then 3%nat else if (v =? v_lambda)%nat then 3%nat else 0%nat.
Definition esingle (v : nat) : bool := (v =? v_s)%nat || (v =? v_q)%nat.

Section Expr.
Variable r : robot.
Variable place : vec -> nat -> pose.
Variable dofs : nat.
Variable up : nat -> nat -> option (nat * nat).
Variable depth : nat -> nat -> nat.
Variable base : nat.
Variable inertia : nat -> m6.
Variable vel : point -> nat -> v6.
Variable mas : masses.
Variable cpos : vec -> vec -> vec -> v3.
Variable cjac : vec -> vec -> vec -> mat.
Notation rel := (relative r place).
Hypothesis MR : moving_robot r place dofs up depth base vel.
Hypothesis CO : com_oracle r place mas base dofs cpos cjac.
Let rok : robot_ok r := proj1 MR.
Let plc : placement r place := proj1 (proj2 MR).
Let trav := proj1 (proj2 (proj2 MR)).
Let one := proj1 (proj2 (proj2 (proj2 MR))).
Let Hb := proj1 (proj2 (proj2 (proj2 (proj2 MR)))).
Let TR : tree r dofs up base := proj1 (proj2 (proj2 (proj2 (proj2 (proj2 MR))))).
Let vok := proj2 (proj2 (proj2 (proj2 (proj2 (proj2 MR))))).
Notation ML := (ML r place dofs up base inertia).
Notation DM := (DM r place dofs up base inertia).
Notation DD := (DD r place dofs up base inertia).
Notation "'links'" := (r_links r).
Notation JAC := (jac_of r place up).
Notation G2 := (good2 12 (edim dofs) esingle).
Notation G1 := (good1 12 (edim dofs) esingle).
Notation GA := (grad_at 12 (edim dofs) esingle).
Notation HG := (has_grad 12 (edim dofs) esingle).
Notation PD := pd.

(** ** The momentum *)
Definition HH (s sd : vec) (b : v6) (i : nat) : R := v6ent (v6sum links (ML sd b s)) i.
Definition unit6 (k : nat) : v6 := of6 (fun i => delta i k).
Lemma HH_momentum s sd b : momentum_in r place inertia base s sd b (v6sum links (ML sd b s)).
Proof.
  exists (V r place dofs up base sd b s). split; [|symmetry; exact (v6total_sum links (ML sd b s))]. intros l Hl.
  apply (W_velocity r place dofs up depth base JAC rok plc trav one (jac_fine r place dofs up depth rok plc trav) Hb). apply link_ok; exact Hl.
Qed.
Lemma HH_matrix s : momentum_matrix r place inertia base dofs s (total_matrix r place inertia base JAC s).
Proof.
  apply matrix_exists. intros s' sd b l w Hl Hw.
  eapply (velocity_unique r place base); [exact rok|exact plc|exact Hb|apply link_ok; exact Hl|exact Hw|].
  apply (W_velocity r place dofs up depth base JAC rok plc trav one (jac_fine r place dofs up depth rok plc trav) Hb). apply link_ok; exact Hl.
Qed.
Lemma HH_affine s sd b i : (i < 6)%nat -> HH s sd b i = sumn 6 (fun k => HH s (fun _ => 0) (unit6 k) i * v6ent b k) + sumn dofs (fun k => HH s (fun m => delta m k) v60 i * sd k).
Proof.
  intros Hi. set (C := total_matrix r place inertia base JAC s).
  assert (E : forall sd b, HH s sd b i = sumn 6 (fun k => C i k * v6ent b k) + sumn dofs (fun k => C i (6 + k)%nat * sd k)) by (intros; apply (HH_matrix s _ _ _ (HH_momentum s _ _) i Hi)).
  rewrite E. apply (f_equal2 Rplus); apply sumn_ext; intros k Hk; rewrite E; apply (f_equal2 Rmult); try reflexivity.
  - rewrite (sumn_single 6 _ k Hk); [|intros j Hj N; unfold unit6; rewrite of6_ent by exact Hj; unfold delta; apply Nat.eqb_neq in N; rewrite N; ring].
    unfold unit6. rewrite of6_ent by exact Hk. unfold delta. rewrite Nat.eqb_refl. replace (sumn dofs (fun k0 => C i (6 + k0)%nat * 0)) with 0; [ring|]. symmetry. rewrite (sumn_ext dofs _ (fun _ => 0)); [apply sumn_0|]. intros. ring.
  - rewrite (sumn_single dofs _ k Hk); [|intros j Hj N; unfold delta; apply Nat.eqb_neq in N; rewrite N; ring]. unfold delta. rewrite Nat.eqb_refl.
    rewrite (sumn_ext 6 _ (fun _ => 0)); [rewrite sumn_0; ring|]. intros j Hj. rewrite v6ent_0. ring.
Qed.
Lemma HH_good sd b i : G2 (fun rho => HH (rho v_s) sd b i).
Proof.
  apply (good2_leaf 12 (edim dofs) esingle v_s (fun s => HH s sd b i) (fun k s => v6ent (v6sum links (fun l => DM sd b s l k)) i) (fun k j s => v6ent (v6sum links (fun l => DD sd b s l k j)) i)); [unfold v_s; lia|reflexivity|..].
  - intros s j Hj. exact (sum_D r place dofs up depth base inertia vel MR s sd b i j Hj).
  - intros s k j Hk Hj. unfold partial. apply (v6ent_D (fun x => v6sum links (fun l => DM sd b (vset s j x) l k))).
    apply (v6_D_sum links (fun l x => DM sd b (vset s j x) l k)). intros l Hl.
    apply (DM_D r place dofs up depth base inertia rok plc trav one Hb TR sd b s l k j Hl Hj).
  - intros s k j Hk Hj. apply (f_equal (fun x => v6ent x i)). apply v6sum_ext. intros l Hl. apply (DD_sym r place dofs up depth base inertia rok plc trav one Hb TR). exact Hl.
Qed.
Notation momentum_e := (momentum_expression r base inertia rel vel).
Lemma momentum_is_HH t rho i : momentum_e t rho i 0%nat = HH (rho v_s) (rho v_sdot) (twist_of t rho) i.
Proof. unfold momentum_expression. rewrite (mib_value_ok r place dofs up depth base inertia vel rok plc trav one Hb vok). reflexivity. Qed.
Lemma twist_ent t rho k : (k < 6)%nat -> v6ent (twist_of t rho) k = t rho k 0%nat.
Proof. intros Hk. destruct k as [|[|[|[|[|[|k]]]]]]; try lia; reflexivity. Qed.
Lemma gm_momentum t : goodm 12 (edim dofs) esingle 6 1 t -> goodm 12 (edim dofs) esingle 6 1 (momentum_e t).
Proof.
  intros T i j Hi Hj. replace j with 0%nat by lia.
  apply (good2_ext _ _ _ (fun rho => sumn 6 (fun k => HH (rho v_s) (fun _ => 0) (unit6 k) i * t rho k 0%nat) + sumn dofs (fun k => HH (rho v_s) (fun m => delta m k) v60 i * rho v_sdot k))).
  { intros rho. rewrite momentum_is_HH, HH_affine by exact Hi. apply (f_equal2 Rplus); [|reflexivity]. apply sumn_ext. intros k Hk. rewrite twist_ent by exact Hk. reflexivity. }
  apply (good2_plus _ _ _ (fun rho => sumn 6 (fun k => HH (rho v_s) (fun _ => 0) (unit6 k) i * t rho k 0%nat)) (fun rho => sumn dofs (fun k => HH (rho v_s) (fun m => delta m k) v60 i * rho v_sdot k))).
  - apply (good2_sum _ _ _ 6 (fun k rho => HH (rho v_s) (fun _ => 0) (unit6 k) i * t rho k 0%nat)). intros k Hk.
    apply (good2_mult _ _ _ (fun rho => HH (rho v_s) (fun _ => 0) (unit6 k) i) (fun rho => t rho k 0%nat)); [apply HH_good|apply T; lia].
  - apply (good2_sum _ _ _ dofs (fun k rho => HH (rho v_s) (fun m => delta m k) v60 i * rho v_sdot k)). intros k Hk.
    apply (good2_mult _ _ _ (fun rho => HH (rho v_s) (fun m => delta m k) v60 i) (fun rho => rho v_sdot k)); [apply HH_good|]. apply good2_proj; [unfold v_sdot; lia|exact Hk].
Qed.
Notation centroidal_e := (centroidal_expression r base inertia rel vel).
Notation lagrangian_e := (lagrangian r base inertia rel vel).
Definition FL (rho : env) : R := lagrangian_e rho 0%nat 0%nat.
Lemma FL_good : G2 FL.
Proof.
  unfold FL, lagrangian. assert (GN : goodm 12 (edim dofs) esingle 4 1 (e_var v_n)) by (apply gm_var; [unfold v_n; lia|reflexivity]).
  refine (gm_mul 12 (edim dofs) esingle 1 1 3 (e_transpose (e_var v_lambda)) centroidal_e _ _ 0%nat 0%nat _ _); try lia.
  - apply gm_transpose. apply gm_var; [unfold v_lambda; lia|reflexivity].
  - unfold centroidal_expression. apply gm_mul.
    + apply gm_mul; [apply gm_rotation; exact GN|]. apply gm_horz; [|apply gm_identity]. apply gm_skew, gm_neg. apply gm_var; [unfold v_com; lia|reflexivity].
    + apply gm_momentum. apply gm_twist; [apply gm_var; [unfold v_lin; lia|reflexivity]|apply gm_var; [unfold v_qdot; lia|reflexivity]|exact GN].
Qed.
(** ** The Jacobian of the centre of mass and the derivative of the normalisation *)
Let KI := KIN r place dofs up depth base rok plc trav one Hb.
Notation DCb := (ComCode.DC r place base JAC mas).
Definition comJ (rho : env) (a k : nat) : R := com_jacobian_expression cpos rho a k.
Lemma com_value_is rho i : (i < 3)%nat -> com_value cpos rho i 0%nat = com_entry r place mas base (rho v_s) i.
Proof. intros Hi. exact (value_eq r place dofs base mas cpos cjac CO rho i Hi). Qed.
Lemma comJ_is rho a k : (a < 3)%nat -> (k < dofs)%nat -> comJ rho a k = DCb (rho v_s) k a.
Proof.
  intros Ha Hk. unfold comJ, com_jacobian_expression, column_derivative, com_expression. apply is_derive_unique.
  eapply is_derive_ext; [|exact (DC_partial r place dofs up depth base JAC _ _ _ mas KI (rho v_s) k a Hk)].
  intros t. symmetry. exact (com_value_is (at_entry rho v_s k t) a Ha).
Qed.
Lemma comJ_good a k : (a < 3)%nat -> (k < dofs)%nat -> G1 (fun rho => comJ rho a k).
Proof.
  intros Ha Hk. apply (good1_ext _ _ _ (fun rho => DCb (rho v_s) k a)); [intros rho; symmetry; apply comJ_is; auto|].
  exists (fun u j rho => if (u =? v_s)%nat then HV r place up base mas (rho v_s) k a j else 0). intros rho.
  apply (grad_leaf 12 (edim dofs) esingle v_s (fun s => DCb s k a) rho (fun j => HV r place up base mas (rho v_s) k a j)); [unfold v_s; lia|reflexivity|].
  intros j Hj. exact (DC_second r place dofs up depth base JAC _ _ _ mas KI TR (rho v_s) k j a Hk Hj).
Qed.
Lemma normalized_is rho i : normalized_expression rho i 0%nat = qunit (rho v_q) i.
Proof. unfold normalized_expression, qunit, qnorm2. cbn [sumn]. do 2 f_equal. ring. Qed.
Definition NM (rho : env) (e k : nat) : R := quaternion_map_expression rho e k.
Definition map_of (q : vec) (e k : nat) : R := Derive (fun x => qunit (vset q k x) e) (q k).
Lemma NM_of rho e k : NM rho e k = map_of (rho v_q) e k.
Proof. unfold NM, quaternion_map_expression, column_derivative, map_of. apply Derive_ext. intros t. rewrite normalized_is. reflexivity. Qed.
Lemma map_is q e k : 0 < qnorm2 q -> (e < 4)%nat -> (k < 4)%nat -> map_of q e k = NormalizedQuaternionDerivative q e k.
Proof. intros P He Hk. apply is_derive_unique. apply unit_partial; auto. Qed.
Lemma NM_has rho e k : 0 < qnorm2 (rho v_q) -> (e < 4)%nat -> (k < 4)%nat -> HG (fun rho => NM rho e k) rho.
Proof.
  intros P He Hk. exists (fun u j => if (u =? v_q)%nat then Derive (fun t => NormalizedQuaternionDerivative (vset (rho v_q) j t) e k) (rho v_q j) else 0).
  eapply grad_ext; [intros rho'; symmetry; apply NM_of|].
  apply (grad_leaf 12 (edim dofs) esingle v_q (fun q => map_of q e k) rho (fun j => Derive (fun t => NormalizedQuaternionDerivative (vset (rho v_q) j t) e k) (rho v_q j))); [unfold v_q; lia|reflexivity|].
  intros j Hj. unfold partial. eapply is_derive_ext_loc; [|apply Derive_correct, norm_second; exact P].
  eapply filter_imp; [|apply (vset_near (rho v_q) j P)]. intros t Pt. cbv beta. symmetry. apply map_is; auto.
Qed.
(** ** The gradient of the weighted value *)
Notation QLE := (quaternion_lagrangian r base inertia rel vel).
Notation JLE := (joints_lagrangian r base inertia rel vel cpos).
Definition QL (a : nat) (rho : env) : R := QLE rho a 0%nat.
Definition JL (a : nat) (rho : env) : R := JLE rho a 0%nat.
Lemma QL_is a rho : QL a rho = sumn 4 (fun e => pd FL v_n e rho * NM rho e a). Proof. reflexivity. Qed.
Lemma JL_is a rho : JL a rho = pd FL v_s a rho + sumn 3 (fun c => pd FL v_com c rho * comJ rho c a). Proof. reflexivity. Qed.
Lemma FLp_has v k rho : (v < 12)%nat -> (k < edim dofs v)%nat -> HG (pd FL v k) rho.
Proof. intros Hv Hk. apply good1_has. apply good1_pd; auto. apply FL_good. Qed.
Lemma term_has rho e a : 0 < qnorm2 (rho v_q) -> (e < 4)%nat -> (a < 4)%nat -> HG (fun rho => pd FL v_n e rho * NM rho e a) rho.
Proof. intros P He Ha. apply (has_mult _ _ _ (pd FL v_n e) (fun rho => NM rho e a)); [apply FLp_has; [unfold v_n; lia|exact He]|apply NM_has; auto]. Qed.
Lemma QL_has rho a : 0 < qnorm2 (rho v_q) -> (a < 4)%nat -> HG (QL a) rho.
Proof. intros P Ha. apply (has_sum _ _ _ 4 (fun e rho => pd FL v_n e rho * NM rho e a)). intros e He. apply term_has; auto. Qed.
Lemma cterm_has rho c a : (c < 3)%nat -> (a < dofs)%nat -> HG (fun rho => pd FL v_com c rho * comJ rho c a) rho.
Proof. intros Hc Ha. apply (has_mult _ _ _ (pd FL v_com c) (fun rho => comJ rho c a)); [apply FLp_has; [unfold v_com; lia|exact Hc]|apply good1_has, comJ_good; auto]. Qed.
Lemma csum_has rho a : (a < dofs)%nat -> HG (fun rho => sumn 3 (fun c => pd FL v_com c rho * comJ rho c a)) rho.
Proof. intros Ha. apply (has_sum _ _ _ 3 (fun c rho => pd FL v_com c rho * comJ rho c a)). intros c Hc. apply cterm_has; auto. Qed.
Lemma JL_has rho a : (a < dofs)%nat -> HG (JL a) rho.
Proof.
  intros Ha. apply (has_plus _ _ _ (pd FL v_s a) (fun rho => sumn 3 (fun c => pd FL v_com c rho * comJ rho c a))); [apply FLp_has; [unfold v_s; lia|exact Ha]|apply csum_has; exact Ha].
Qed.
(** ** The curves *)
Notation VV := (variables cpos).
Definition dq (st : rstate) (j : nat) (v k : nat) : R := (if (v =? v_q)%nat then delta k j else 0) + (if (v =? v_n)%nat then map_of (st_q st) k j else 0).
Definition ds (st : rstate) (j : nat) (v k : nat) : R := (if (v =? v_s)%nat then delta k j else 0) + (if (v =? v_com)%nat then DCb (st_s st) j k else 0).
Lemma entry_D (x : vec) j k : is_derive (fun t => vset x j t k) (x j) (delta k j).
Proof.
  unfold vset, delta. destruct (Nat.eqb_spec k j) as [->|N]; [apply (@is_derive_id R_AbsRing)|exact (D_const (x k) _)].
Qed.
Ltac no_entries := match goal with H : (_ < edim _ ?v)%nat |- _ => exfalso; change (edim dofs v) with 0%nat in H; lia end.
Lemma split_var (P : nat -> Prop) : P v_s -> P v_sdot -> P v_q -> P v_lin -> P v_qdot -> P v_n -> P v_com -> P v_lambda -> (forall v, edim dofs v = 0%nat -> P v) -> forall v, P v.
Proof.
  intros H1 H2 H3 H4 H5 H6 H7 H8 H9 v. destruct v as [|[|[|[|[|[|[|[|[|[|[|[|v]]]]]]]]]]]]; auto; apply H9; reflexivity.
Qed.
Lemma curve_q st l j : 0 < qnorm2 (st_q st) -> (j < 4)%nat -> curve (edim dofs) esingle (fun t => VV (with_q st (vset (st_q st) j t)) l) (st_q st j) (dq st j).
Proof.
  intros P Hj. split.
  - apply (split_var (fun v => forall k, (k < edim dofs v)%nat -> is_derive (fun t => VV (with_q st (vset (st_q st) j t)) l v k) (st_q st j) (dq st j v k))); intros k Hk; unfold dq; cbn [Nat.eqb v_s v_sdot v_q v_lin v_qdot v_n v_com v_lambda].
    + eapply D_eq; [exact (D_const (st_s st k) _)|ring].
    + eapply D_eq; [exact (D_const (st_sd st k) _)|ring].
    + eapply D_eq; [exact (entry_D (st_q st) j k)|ring].
    + eapply D_eq; [exact (D_const (st_lin st k) _)|ring].
    + eapply D_eq; [exact (D_const (st_qd st k) _)|ring].
    + change (edim dofs v_n) with 4%nat in Hk. rewrite map_is by auto. eapply is_derive_ext; [|eapply D_eq; [exact (unit_partial (st_q st) j k P Hj Hk)|ring]].
      intros t. symmetry. exact (normalized_is (VV (with_q st (vset (st_q st) j t)) l) k).
    + change (edim dofs v_com) with 3%nat in Hk. eapply is_derive_ext; [|eapply D_eq; [exact (D_const (com_entry r place mas base (st_s st) k) _)|ring]].
      intros t. symmetry. match goal with |- VV ?s l v_com k = _ => change (VV s l v_com k) with (com_value cpos (fun v => if (v =? v_s)%nat then st_s s else if (v =? v_sdot)%nat then st_sd s else if (v =? v_q)%nat then st_q s
    else if (v =? v_p)%nat then st_p s else if (v =? v_lin)%nat then st_lin s else if (v =? v_qdot)%nat then st_qd s
    else if (v =? v_lambda)%nat then l else fun _ => 0) k 0%nat) end. rewrite com_value_is by exact Hk. reflexivity.
    + eapply D_eq; [exact (D_const (l k) _)|ring].
    + intros k' Hk'. rewrite Hk in Hk'. lia.
  - intros v S. unfold esingle in S. apply orb_true_iff in S. destruct S as [S|S]; apply Nat.eqb_eq in S; subst v.
    + left. reflexivity.
    + right. exists j, (fun t => t). split; [exact Hj|]. intros t. change (vset (st_q st) j t = vset (vset (st_q st) j (st_q st j)) j t). rewrite vset_same. reflexivity.
Qed.
Lemma curve_s st l j : (j < dofs)%nat -> curve (edim dofs) esingle (fun t => VV (with_s st (vset (st_s st) j t)) l) (st_s st j) (ds st j).
Proof.
  intros Hj. split.
  - apply (split_var (fun v => forall k, (k < edim dofs v)%nat -> is_derive (fun t => VV (with_s st (vset (st_s st) j t)) l v k) (st_s st j) (ds st j v k))); intros k Hk; unfold ds; cbn [Nat.eqb v_s v_sdot v_q v_lin v_qdot v_n v_com v_lambda].
    + eapply D_eq; [exact (entry_D (st_s st) j k)|ring].
    + eapply D_eq; [exact (D_const (st_sd st k) _)|ring].
    + eapply D_eq; [exact (D_const (st_q st k) _)|ring].
    + eapply D_eq; [exact (D_const (st_lin st k) _)|ring].
    + eapply D_eq; [exact (D_const (st_qd st k) _)|ring].
    + eapply is_derive_ext; [|eapply D_eq; [exact (D_const (qunit (st_q st) k) _)|ring]].
      intros t. symmetry. exact (normalized_is (VV (with_s st (vset (st_s st) j t)) l) k).
    + change (edim dofs v_com) with 3%nat in Hk. eapply is_derive_ext; [|eapply D_eq; [exact (DC_partial r place dofs up depth base JAC _ _ _ mas KI (st_s st) j k Hj)|ring]].
      intros t. symmetry. match goal with |- VV ?s l v_com k = _ => change (VV s l v_com k) with (com_value cpos (fun v => if (v =? v_s)%nat then st_s s else if (v =? v_sdot)%nat then st_sd s else if (v =? v_q)%nat then st_q s
    else if (v =? v_p)%nat then st_p s else if (v =? v_lin)%nat then st_lin s else if (v =? v_qdot)%nat then st_qd s
    else if (v =? v_lambda)%nat then l else fun _ => 0) k 0%nat) end. rewrite com_value_is by exact Hk. reflexivity.
    + eapply D_eq; [exact (D_const (l k) _)|ring].
    + intros k' Hk'. rewrite Hk in Hk'. lia.
  - intros v S. unfold esingle in S. apply orb_true_iff in S. destruct S as [S|S]; apply Nat.eqb_eq in S; subst v.
    + right. exists j, (fun t => t). split; [exact Hj|]. intros t. change (vset (st_s st) j t = vset (vset (st_s st) j (st_s st j)) j t). rewrite vset_same. reflexivity.
    + left. reflexivity.
Qed.
Lemma with_q_same st j : with_q st (vset (st_q st) j (st_q st j)) = st. Proof. rewrite vset_same. destruct st; reflexivity. Qed.
Lemma with_s_same st j : with_s st (vset (st_s st) j (st_s st j)) = st. Proof. rewrite vset_same. destruct st; reflexivity. Qed.
Lemma dot_two g v j u w : (v < 12)%nat -> (j < edim dofs v)%nat -> (u < 12)%nat ->
  dot 12 (edim dofs) g (fun v' k => (if (v' =? v)%nat then delta k j else 0) + (if (v' =? u)%nat then w k else 0)) = g v j + sumn (edim dofs u) (fun k => g u k * w k).
Proof.
  intros Hv Hj Hu. rewrite dot_sym, (dot_plus 12 (edim dofs) (fun v' k => if (v' =? v)%nat then delta k j else 0) (fun v' k => if (v' =? u)%nat then w k else 0) g).
  rewrite (dot_entry 12 (edim dofs) v j g Hv Hj), (dot_group 12 (edim dofs) u w g Hu). apply (f_equal2 Rplus); [reflexivity|]. apply sumn_ext. intros. apply Rmult_comm.
Qed.
Lemma along_q f st l j : 0 < qnorm2 (st_q st) -> (j < 4)%nat -> HG f (VV st l) ->
  is_derive (fun t => f (VV (with_q st (vset (st_q st) j t)) l)) (st_q st j) (pd f v_q j (VV st l) + sumn 4 (fun e => pd f v_n e (VV st l) * NM (VV st l) e j)).
Proof.
  intros P Hj H. pose proof (grad_pd _ _ _ f _ H) as G.
  specialize (G (fun t => VV (with_q st (vset (st_q st) j t)) l) (st_q st j) (dq st j)). cbv beta in G. rewrite with_q_same in G. specialize (G eq_refl (curve_q st l j P Hj)).
  eapply D_eq; [exact G|]. transitivity (pd f v_q j (VV st l) + sumn 4 (fun k => pd f v_n k (VV st l) * map_of (st_q st) k j)); [apply (dot_two (fun v k => pd f v k (VV st l)) v_q j v_n (fun k => map_of (st_q st) k j)); [unfold v_q; lia|exact Hj|unfold v_n; lia]|].
  apply (f_equal2 Rplus); [reflexivity|]. apply sumn_ext. intros e He. rewrite NM_of. reflexivity.
Qed.
Lemma along_s f st l j : (j < dofs)%nat -> HG f (VV st l) ->
  is_derive (fun t => f (VV (with_s st (vset (st_s st) j t)) l)) (st_s st j) (pd f v_s j (VV st l) + sumn 3 (fun c => pd f v_com c (VV st l) * comJ (VV st l) c j)).
Proof.
  intros Hj H. pose proof (grad_pd _ _ _ f _ H) as G.
  specialize (G (fun t => VV (with_s st (vset (st_s st) j t)) l) (st_s st j) (ds st j)). cbv beta in G. rewrite with_s_same in G. specialize (G eq_refl (curve_s st l j Hj)).
  eapply D_eq; [exact G|]. transitivity (pd f v_s j (VV st l) + sumn 3 (fun k => pd f v_com k (VV st l) * DCb (st_s st) j k)); [apply (dot_two (fun v k => pd f v k (VV st l)) v_s j v_com (fun k => DCb (st_s st) j k)); [unfold v_s; lia|exact Hj|unfold v_com; lia]|].
  apply (f_equal2 Rplus); [reflexivity|]. apply sumn_ext. intros e He. rewrite comJ_is by auto. reflexivity.
Qed.
(** ** The gradient does not depend on the raw quaternion *)
Lemma FL_q j x rho : FL (at_entry rho v_q j x) = FL rho. Proof. reflexivity. Qed.
Lemma pd_FL_q v k j rho : v <> v_q -> pd (pd FL v k) v_q j rho = 0.
Proof.
  intros N. rewrite <- (Derive_const (pd FL v k rho) (rho v_q j)). unfold pd at 1. apply Derive_ext. intros t. unfold pd. 
  replace (at_entry rho v_q j t v k) with (rho v k) by (unfold at_entry, env_set; apply Nat.eqb_neq in N; rewrite N; reflexivity).
  apply Derive_ext. intros x. replace (at_entry (at_entry rho v_q j t) v k x) with (at_entry (at_entry rho v k x) v_q j t); [apply FL_q|].
  apply functional_extensionality. intros u. unfold at_entry, env_set. apply Nat.eqb_neq in N. destruct (Nat.eqb_spec u v) as [->|Nv]; [rewrite N; reflexivity|].
  destruct (Nat.eqb_spec u v_q) as [->|Nq]; [|reflexivity]. rewrite Nat.eqb_sym in N. rewrite N. reflexivity.
Qed.
Lemma pd_FL_0 j rho : pd FL v_q j rho = 0.
Proof. unfold pd. rewrite <- (Derive_const (FL rho) (rho v_q j)). apply Derive_ext. intros t. apply FL_q. Qed.
(** Functions of one group only. *)
Lemma pd_other (f : env -> R) (phi : vec -> R) w u j rho : (forall rho, f rho = phi (rho w)) -> u <> w -> pd f u j rho = 0.
Proof.
  intros E N. unfold pd. rewrite <- (Derive_const (f rho) (rho u j)). apply Derive_ext. intros t. rewrite !E. unfold at_entry, env_set.
  assert (N' : w <> u) by congruence. apply Nat.eqb_neq in N'. rewrite N'. reflexivity.
Qed.
Lemma pd_NM u j rho e k : u <> v_q -> pd (fun rho => NM rho e k) u j rho = 0.
Proof. intros N. apply (pd_other (fun rho => NM rho e k) (fun q => map_of q e k) v_q); [intros rho'; apply NM_of|exact N]. Qed.
Lemma pd_comJ u j rho a k : (a < 3)%nat -> (k < dofs)%nat -> u <> v_s -> pd (fun rho => comJ rho a k) u j rho = 0.
Proof. intros Ha Hk N. apply (pd_other (fun rho => comJ rho a k) (fun s => DCb s k a) v_s); [intros rho'; apply comJ_is; auto|exact N]. Qed.
Lemma pd_QL u j rho b : 0 < qnorm2 (rho v_q) -> (u < 12)%nat -> (j < edim dofs u)%nat -> (b < 4)%nat -> u <> v_q ->
  pd (QL b) u j rho = sumn 4 (fun e => pd (pd FL v_n e) u j rho * NM rho e b).
Proof.
  intros P Hu Hj Hb' N. rewrite (pd_ext (QL b) (fun rho => sumn 4 (fun e => pd FL v_n e rho * NM rho e b)) u j rho) by (intros; apply QL_is).
  rewrite (pd_sum 12 (edim dofs) esingle u j rho Hu Hj 4 (fun e rho => pd FL v_n e rho * NM rho e b)) by (intros e He; apply term_has; auto).
  apply sumn_ext. intros e He. assert (Lv : (v_n < 12)%nat) by (unfold v_n; lia).
  rewrite (pd_mult 12 (edim dofs) esingle u j rho Hu Hj (pd FL v_n e) (fun rho => NM rho e b) (FLp_has v_n e rho Lv He) (NM_has rho e b P He Hb')).
  rewrite pd_NM by exact N. ring.
Qed.
Lemma pd_JL u j rho a : (u < 12)%nat -> (j < edim dofs u)%nat -> (a < dofs)%nat -> u <> v_s ->
  pd (JL a) u j rho = pd (pd FL v_s a) u j rho + sumn 3 (fun c => pd (pd FL v_com c) u j rho * comJ rho c a).
Proof.
  intros Hu Hj Ha N. rewrite (pd_ext (JL a) (fun rho => pd FL v_s a rho + sumn 3 (fun c => pd FL v_com c rho * comJ rho c a)) u j rho) by (intros; apply JL_is).
  assert (Lv : (v_s < 12)%nat) by (unfold v_s; lia). assert (Lc : (v_com < 12)%nat) by (unfold v_com; lia).
  rewrite (pd_plus 12 (edim dofs) esingle u j rho Hu Hj (pd FL v_s a) (fun rho => sumn 3 (fun c => pd FL v_com c rho * comJ rho c a)) (FLp_has v_s a rho Lv Ha) (csum_has rho a Ha)).
  apply (f_equal2 Rplus); [reflexivity|].
  rewrite (pd_sum 12 (edim dofs) esingle u j rho Hu Hj 3 (fun c rho => pd FL v_com c rho * comJ rho c a)) by (intros e He; apply cterm_has; auto).
  apply sumn_ext. intros e He. rewrite (pd_mult 12 (edim dofs) esingle u j rho Hu Hj (pd FL v_com e) (fun rho => comJ rho e a) (FLp_has v_com e rho Lc He) (good1_has _ _ _ _ _ (comJ_good e a He Ha))).
  rewrite pd_comJ by auto. ring.
Qed.
Lemma mixed_sym rho a b : 0 < qnorm2 (rho v_q) -> (a < dofs)%nat -> (b < 4)%nat ->
  pd (JL a) v_q b rho + sumn 4 (fun e => pd (JL a) v_n e rho * NM rho e b) = pd (QL b) v_s a rho + sumn 3 (fun c => pd (QL b) v_com c rho * comJ rho c a).
Proof.
  intros P Ha Hb'. rewrite (pd_JL v_q b) by (try exact Ha; try exact Hb'; unfold v_q, v_s; lia).
  rewrite (pd_FL_q v_s) by (unfold v_s, v_q; lia).
  rewrite (sumn_ext 3 (fun c => pd (pd FL v_com c) v_q b rho * comJ rho c a) (fun _ => 0)) by (intros c Hc; rewrite pd_FL_q by (unfold v_com, v_q; lia); ring).
  rewrite (sumn_ext 4 (fun e => pd (JL a) v_n e rho * NM rho e b) (fun e => (pd (pd FL v_n e) v_s a rho + sumn 3 (fun c => pd (pd FL v_n e) v_com c rho * comJ rho c a)) * NM rho e b)).
  - rewrite pd_QL by (try exact Ha; auto; unfold v_q, v_s; lia).
    rewrite (sumn_ext 3 (fun c => pd (QL b) v_com c rho * comJ rho c a) (fun c => sumn 4 (fun e => pd (pd FL v_n e) v_com c rho * NM rho e b) * comJ rho c a)).
    + cbn [sumn]. ring.
    + intros c Hc. rewrite pd_QL by (try exact Hc; auto; unfold v_q, v_com; lia). reflexivity.
  - intros e He. rewrite (pd_JL v_n e) by (try exact He; auto; unfold v_n, v_s; lia). apply (f_equal2 Rmult); [|reflexivity].
    apply (f_equal2 Rplus); [apply (pd_swap 12 (edim dofs) esingle FL); try exact Ha; try exact He; try apply FL_good; unfold v_n, v_s; lia|].
    apply sumn_ext. intros c Hc. apply (f_equal2 Rmult); [|reflexivity]. apply (pd_swap 12 (edim dofs) esingle FL); try exact Hc; try exact He; try apply FL_good; unfold v_n, v_com; lia.
Qed.
(** ** The value and its derivatives along the state *)
Lemma FL_has rho : HG FL rho. Proof. apply good1_has, good2_1, FL_good. Qed.
Lemma FL_along_q st l j : 0 < qnorm2 (st_q st) -> (j < 4)%nat -> is_derive (fun t => FL (VV (with_q st (vset (st_q st) j t)) l)) (st_q st j) (QL j (VV st l)).
Proof. intros P Hj. eapply D_eq; [exact (along_q FL st l j P Hj (FL_has _))|]. rewrite pd_FL_0, QL_is. ring. Qed.
Lemma FL_along_s st l j : (j < dofs)%nat -> is_derive (fun t => FL (VV (with_s st (vset (st_s st) j t)) l)) (st_s st j) (JL j (VV st l)).
Proof. intros Hj. eapply D_eq; [exact (along_s FL st l j Hj (FL_has _))|]. rewrite JL_is. reflexivity. Qed.
Notation second := (cmm_second r base inertia rel vel cpos).
Lemma second_qq st l a b : 0 < qnorm2 (st_q st) -> (a < 4)%nat -> (b < 4)%nat -> is_derive (fun t => QL a (VV (with_q st (vset (st_q st) b t)) l)) (st_q st b) (second v_q v_q st l a b).
Proof. intros P Ha Hb'. exact (along_q (QL a) st l b P Hb' (QL_has (VV st l) a P Ha)). Qed.
Lemma second_qs st l a b : 0 < qnorm2 (st_q st) -> (a < 4)%nat -> (b < dofs)%nat -> is_derive (fun t => QL a (VV (with_s st (vset (st_s st) b t)) l)) (st_s st b) (second v_q v_s st l a b).
Proof. intros P Ha Hb'. exact (along_s (QL a) st l b Hb' (QL_has (VV st l) a P Ha)). Qed.
Lemma second_ss st l a b : (a < dofs)%nat -> (b < dofs)%nat -> is_derive (fun t => JL a (VV (with_s st (vset (st_s st) b t)) l)) (st_s st b) (second v_s v_s st l a b).
Proof. intros Ha Hb'. exact (along_s (JL a) st l b Hb' (JL_has (VV st l) a Ha)). Qed.
Lemma second_sq st l a b : 0 < qnorm2 (st_q st) -> (a < dofs)%nat -> (b < 4)%nat -> is_derive (fun t => JL a (VV (with_q st (vset (st_q st) b t)) l)) (st_q st b) (second v_q v_s st l b a).
Proof. intros P Ha Hb'. eapply D_eq; [exact (along_q (JL a) st l b P Hb' (JL_has (VV st l) a Ha))|]. exact (mixed_sym (VV st l) a b P Ha Hb'). Qed.
(** ** The controls move *)
Lemma along_entry f rho v j : (v < 12)%nat -> (j < edim dofs v)%nat -> HG f rho -> is_derive (fun t => f (at_entry rho v j t)) (rho v j) (pd f v j rho).
Proof.
  intros Hv Hj H. pose proof (grad_pd _ _ _ f _ H) as G. specialize (G (at_entry rho v j) (rho v j) _ (at_entry_same rho v j) (entry_curve (edim dofs) esingle rho v j Hj)).
  eapply D_eq; [exact G|]. rewrite dot_sym. exact (dot_entry 12 (edim dofs) v j _ Hv Hj).
Qed.
Definition with_lin (st : rstate) (x : vec) : rstate := with_u st x (st_qd st) (st_sd st).
Definition with_qd (st : rstate) (x : vec) : rstate := with_u st (st_lin st) x (st_sd st).
Definition with_sd (st : rstate) (x : vec) : rstate := with_u st (st_lin st) (st_qd st) x.
Lemma VV_lin st l j t : VV (with_lin st (vset (st_lin st) j t)) l = at_entry (VV st l) v_lin j t.
Proof. apply functional_extensionality. apply (split_var (fun v => VV (with_lin st (vset (st_lin st) j t)) l v = at_entry (VV st l) v_lin j t v)); try reflexivity. intros v E. destruct v as [|[|[|[|[|[|[|[|[|[|[|[|v]]]]]]]]]]]]; try reflexivity; discriminate. Qed.
Lemma VV_qd st l j t : VV (with_qd st (vset (st_qd st) j t)) l = at_entry (VV st l) v_qdot j t.
Proof. apply functional_extensionality. apply (split_var (fun v => VV (with_qd st (vset (st_qd st) j t)) l v = at_entry (VV st l) v_qdot j t v)); try reflexivity. intros v E. destruct v as [|[|[|[|[|[|[|[|[|[|[|[|v]]]]]]]]]]]]; try reflexivity; discriminate. Qed.
Lemma VV_sd st l j t : VV (with_sd st (vset (st_sd st) j t)) l = at_entry (VV st l) v_sdot j t.
Proof. apply functional_extensionality. apply (split_var (fun v => VV (with_sd st (vset (st_sd st) j t)) l v = at_entry (VV st l) v_sdot j t v)); try reflexivity. intros v E. destruct v as [|[|[|[|[|[|[|[|[|[|[|[|v]]]]]]]]]]]]; try reflexivity; discriminate. Qed.
Lemma second_ql st l a b : 0 < qnorm2 (st_q st) -> (a < 4)%nat -> (b < 3)%nat -> is_derive (fun t => QL a (VV (with_lin st (vset (st_lin st) b t)) l)) (st_lin st b) (second v_q v_lin st l a b).
Proof.
  intros P Ha Hb'. apply is_derive_ext with (f := fun t => QL a (at_entry (VV st l) v_lin b t)); [intros t; rewrite VV_lin; reflexivity|].
  apply (along_entry (QL a) (VV st l) v_lin b); [unfold v_lin; lia|exact Hb'|exact (QL_has (VV st l) a P Ha)].
Qed.
Lemma second_qd st l a b : 0 < qnorm2 (st_q st) -> (a < 4)%nat -> (b < 4)%nat -> is_derive (fun t => QL a (VV (with_qd st (vset (st_qd st) b t)) l)) (st_qd st b) (second v_q v_qdot st l a b).
Proof.
  intros P Ha Hb'. apply is_derive_ext with (f := fun t => QL a (at_entry (VV st l) v_qdot b t)); [intros t; rewrite VV_qd; reflexivity|].
  apply (along_entry (QL a) (VV st l) v_qdot b); [unfold v_qdot; lia|exact Hb'|exact (QL_has (VV st l) a P Ha)].
Qed.
Lemma second_qv st l a b : 0 < qnorm2 (st_q st) -> (a < 4)%nat -> (b < dofs)%nat -> is_derive (fun t => QL a (VV (with_sd st (vset (st_sd st) b t)) l)) (st_sd st b) (second v_q v_sdot st l a b).
Proof.
  intros P Ha Hb'. apply is_derive_ext with (f := fun t => QL a (at_entry (VV st l) v_sdot b t)); [intros t; rewrite VV_sd; reflexivity|].
  apply (along_entry (QL a) (VV st l) v_sdot b); [unfold v_sdot; lia|exact Hb'|exact (QL_has (VV st l) a P Ha)].
Qed.
Lemma second_sl st l a b : (a < dofs)%nat -> (b < 3)%nat -> is_derive (fun t => JL a (VV (with_lin st (vset (st_lin st) b t)) l)) (st_lin st b) (second v_s v_lin st l a b).
Proof.
  intros Ha Hb'. apply is_derive_ext with (f := fun t => JL a (at_entry (VV st l) v_lin b t)); [intros t; rewrite VV_lin; reflexivity|].
  apply (along_entry (JL a) (VV st l) v_lin b); [unfold v_lin; lia|exact Hb'|exact (JL_has (VV st l) a Ha)].
Qed.
Lemma second_sd st l a b : (a < dofs)%nat -> (b < 4)%nat -> is_derive (fun t => JL a (VV (with_qd st (vset (st_qd st) b t)) l)) (st_qd st b) (second v_s v_qdot st l a b).
Proof.
  intros Ha Hb'. apply is_derive_ext with (f := fun t => JL a (at_entry (VV st l) v_qdot b t)); [intros t; rewrite VV_qd; reflexivity|].
  apply (along_entry (JL a) (VV st l) v_qdot b); [unfold v_qdot; lia|exact Hb'|exact (JL_has (VV st l) a Ha)].
Qed.
Lemma second_sv st l a b : (a < dofs)%nat -> (b < dofs)%nat -> is_derive (fun t => JL a (VV (with_sd st (vset (st_sd st) b t)) l)) (st_sd st b) (second v_s v_sdot st l a b).
Proof.
  intros Ha Hb'. apply is_derive_ext with (f := fun t => JL a (at_entry (VV st l) v_sdot b t)); [intros t; rewrite VV_sd; reflexivity|].
  apply (along_entry (JL a) (VV st l) v_sdot b); [unfold v_sdot; lia|exact Hb'|exact (JL_has (VV st l) a Ha)].
Qed.
(** ** The expression is the angular momentum about the centre of mass *)
Lemma rotation_is rho i j : (i < 3)%nat -> (j < 3)%nat -> rotation_expression (e_var v_n) rho i j = ment (qmat (rho v_n)) i j.
Proof.
  intros Hi Hj. unfold rotation_expression, e_add, e_identity, e_times, e_mul, e_scale, e_skew, e_rows, e_var, qmat, qrot, SpecQuaternion.cross, qvec, Quaternion.skew, delta.
  generalize (rho v_n). intros q. split3 i; split3 j; cbn; ring.
Qed.
Lemma twist_is st l : twist_of base_twist_expression (VV st l) = base_twist_of st.
Proof.
  unfold base_twist_of. rewrite Ginv3_eq. set (n := qunit (st_q st)). unfold twist_of, base_twist_expression, body_twist_expression, e_vert.
  cbn [Nat.ltb Nat.leb]. change (V3 (e_var v_lin (VV st l) 0%nat 0%nat) (e_var v_lin (VV st l) 1%nat 0%nat) (e_var v_lin (VV st l) 2%nat 0%nat)) with (V3 (st_lin st 0%nat) (st_lin st 1%nat) (st_lin st 2%nat)).
  apply (f_equal2 V6); [reflexivity|].
  unfold e_mul, e_scale, G_expression, e_horz, e_neg, e_rows, e_add, e_times, e_identity, e_skew, e_var. cbn [sumn Nat.add Nat.sub Nat.ltb Nat.leb]. unfold Quaternion.skew, delta. cbn [Nat.eqb].
  change (VV st l v_qdot) with (st_qd st).
  assert (E : forall i, VV st l v_n i = n i). { intros i. exact (normalized_is (VV st l) i). }
  rewrite !E. apply f_equal3; ring.
Qed.
Lemma FL_value st l : FL (VV st l) = sumn 3 (fun i => l i * vent (about (qmat (qunit (st_q st))) (com_in_base r place mas base (st_s st)) (v6sum links (ML (st_sd st) (base_twist_of st) (st_s st)))) i).
Proof.
  unfold FL, lagrangian, e_mul. apply sumn_ext. intros i Hi. apply (f_equal2 Rmult); [reflexivity|].
  unfold centroidal_expression. set (h := v6sum links (ML (st_sd st) (base_twist_of st) (st_s st))).
  assert (Em : forall k, momentum_e base_twist_expression (VV st l) k 0%nat = v6ent h k). { intros k. rewrite momentum_is_HH, twist_is. reflexivity. }
  assert (En : VV st l v_n = qunit (st_q st)). { apply functional_extensionality. intros k. exact (normalized_is (VV st l) k). }
  assert (Ec : forall k, (k < 3)%nat -> e_var v_com (VV st l) k 0%nat = vent (com_in_base r place mas base (st_s st)) k).
  { intros k Hk. change (e_var v_com (VV st l) k 0%nat) with (com_value cpos (fun v => if (v =? v_s)%nat then st_s st else if (v =? v_sdot)%nat then st_sd st else if (v =? v_q)%nat then st_q st
    else if (v =? v_p)%nat then st_p st else if (v =? v_lin)%nat then st_lin st else if (v =? v_qdot)%nat then st_qd st
    else if (v =? v_lambda)%nat then l else fun _ => 0) k 0%nat). rewrite com_value_is by exact Hk. split3 k; reflexivity. }
  unfold e_mul. rewrite (sumn_ext 6 _ (fun k => sumn 3 (fun m => ment (qmat (qunit (st_q st))) i m * e_horz 3 (e_skew (e_neg (e_var v_com))) e_identity (VV st l) m k) * v6ent h k)).
  - unfold e_horz, e_skew, e_neg, e_identity, Quaternion.skew, delta. cbn [sumn Nat.ltb Nat.leb Nat.sub Nat.eqb]. rewrite !Ec by lia.
    generalize (com_in_base r place mas base (st_s st)) (qmat (qunit (st_q st))). clear. intros [cx cy cz] A. destruct h as [[] []]. unfold about, v6ent. cbn [Nat.ltb Nat.leb Nat.sub].
    split3 i; cbn; ring.
  - intros k Hk. rewrite Em. apply (f_equal2 Rmult); [|reflexivity]. apply sumn_ext. intros m Hm. rewrite rotation_is, En by auto. reflexivity.
Qed.
End Expr.
