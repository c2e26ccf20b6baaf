(** The value of the Hessian of the centre of mass (ComModel.hess). *)
From Coq Require Import Reals List Arith Lia Lra Bool FunctionalExtensionality.
From Coquelicot Require Import Coquelicot.
From Verif Require Import Spec PartialLib SpecRigid SpecBase SpecCom SpecDerivatives Rigid RigidCalc KinTree KinModel KinLib KinMotion KinProofs PropKin MixLib ComModel ComLib ComProofs.
Import ListNotations.
Local Open Scope R_scope.

Lemma fold_sumn (f : nat -> R) n : fold_right (fun l t => f l + t) 0 (seq 0 n) = sumn n f.
Proof.
  induction n as [|n IH]; [reflexivity|]. rewrite seq_S, fold_right_app. cbn [fold_right sumn Nat.add]. rewrite <- IH.
  rewrite Rplus_0_r. generalize (seq 0 n) as L, (f n) as y. induction L as [|x L IHL]; intros y; cbn [fold_right]; [ring|]. rewrite IHL. ring.
Qed.
Lemma fold_left_sumn (f : nat -> R) n : fold_left (fun t l => t + f l) (seq 0 n) 0 = sumn n f.
Proof.
  induction n as [|n IH]; [reflexivity|]. rewrite seq_S, fold_left_app. cbn [fold_left sumn Nat.add]. rewrite IH. reflexivity.
Qed.
Lemma all_some_spec {A} (l : list (option A)) x : all_some l = Some x -> l = map Some x.
Proof.
  revert x. induction l as [|[a|] l IH]; intros x E; cbn in E; [injection E as <-; reflexivity| |discriminate].
  destruct (all_some l) as [y|]; [|discriminate]. injection E as <-. cbn. rewrite (IH y) by reflexivity. reflexivity.
Qed.
Lemma all_some_ok {A B} (f : A -> option B) l : (forall a, In a l -> f a <> None) -> exists x, all_some (map f l) = Some x.
Proof.
  induction l as [|a l IH]; intros H; [exists []; reflexivity|]. cbn. destruct (f a) eqn:E; [|exfalso; apply (H a); [left; reflexivity|exact E]].
  destruct IH as (x & ->); [intros c I; apply H; right; exact I|]. eauto.
Qed.
Lemma find_col_some (f : nat -> option (env -> mat)) j l : forall hs h, map f l = map Some hs -> find_col j (combine l hs) = Some h -> In j l /\ f j = Some h.
Proof.
  induction l as [|a l IH]; intros hs h E F; [discriminate|]. destruct hs as [|g hs]; [discriminate|]. cbn in E. injection E as E1 E2.
  unfold find_col in F. cbn [combine find fst] in F. destruct (Nat.eqb_spec a j) as [->|N].
  - injection F as <-. split; [left; reflexivity|exact E1].
  - destruct (IH hs h E2 F) as [I X]. split; [right; exact I|exact X].
Qed.
Lemma find_col_none (f : nat -> option (env -> mat)) j l : forall hs, map f l = map Some hs -> find_col j (combine l hs) = None -> ~ In j l.
Proof.
  induction l as [|a l IH]; intros hs E F; [intros []|]. destruct hs as [|g hs]; [discriminate|]. cbn in E. injection E as E1 E2.
  unfold find_col in F. cbn [combine find fst] in F. destruct (Nat.eqb_spec a j) as [->|N]; [discriminate|]. intros [I|I]; [auto|]. exact (IH hs E2 F I).
Qed.

Section Com.
Variable r : robot.
Variable place : vec -> nat -> pose.
Variable dofs : nat.
Variable up : nat -> nat -> option (nat * nat).
Variable depth : nat -> nat -> nat.
Variable base : nat.
Variable jac : vec -> nat -> nat -> nat -> v6.
Variable fvel : env -> nat -> v6.
Variable btw : env -> v6.
Variable quat : m3 -> vec.
Variable b : masses.
Notation rel := (relative r place).
Notation links := (r_links r).
Hypothesis K : kinematics r place dofs up depth base jac fvel btw quat.
Let rok : robot_ok r := k_robot _ _ _ _ _ _ _ _ _ _ K.
Let plc : placement r place := k_place _ _ _ _ _ _ _ _ _ _ K.
Let trav : forall b, (b < r_links r)%nat -> traversal r b (up b) (depth b) := k_trav _ _ _ _ _ _ _ _ _ _ K.
Let Hb : (base < links)%nat := k_base _ _ _ _ _ _ _ _ _ _ K.
Hypothesis TR : tree r dofs up base.
Variable ue : nat -> env -> mat.
Hypothesis ue_adj : forall w f g, ue (code (KAdj w f g)) = val0 r rel jac fvel quat (KAdj w f g).
Notation P := (P r up base).
Notation onp := (onp r up base).
Notation ch := (ch r up base).
Notation H2 := (H2 r place up base b).
Notation hess := (hess r b dofs up base ue).
Lemma relative_mass_eq l : relative_mass r b l = m_of b l / total_mass r b.
Proof. unfold relative_mass, total_mass. rewrite fold_left_sumn. reflexivity. Qed.
Definition HV (s : vec) (k i j : nat) : R := sumn links (fun l => m_of b l / total_mass r b * vent (H2 s l k j) i).
Lemma HV_sym s k i j : HV s k i j = HV s j i k.
Proof. apply sumn_ext. intros l Hl. rewrite (H2_sym r place dofs up depth base jac fvel btw quat b K TR s l k j Hl). reflexivity. Qed.
Lemma child_dof k Kc : child_of r up base k = Some Kc -> Kc = ch k /\ (Kc < links)%nat /\ onp Kc k = true /\ (k < dofs)%nat.
Proof.
  intros C. pose proof (child_on r place dofs up depth base jac fvel btw quat K TR k Kc C) as O.
  destruct (child_inv r place dofs up depth base jac fvel btw quat K k Kc C) as (HK & _).
  split; [unfold ComLib.ch; rewrite C; reflexivity|]. split; [exact HK|]. split; [exact O|]. exact (on_lt r place dofs up depth base jac fvel btw quat K Kc k HK O).
Qed.
Lemma on_tr l k j : (l < links)%nat -> onp l k = true -> onp (ch k) j = true -> onp l j = true.
Proof.
  intros Hl E E'. exact (on_trans r place dofs up depth base jac fvel btw quat K TR l k (ch k) j Hl E (on_ch r place dofs up depth base jac fvel btw quat K TR l k Hl E) E').
Qed.
Lemma hess_value n : forall k h, hess n k = Some h -> forall rho i j, (i < 3)%nat -> (j < dofs)%nat -> h rho i j = HV (rho v_s) k i j.
Proof.
  induction n as [|n IH]; intros k h E rho i j Hi Hj; cbn [ComModel.hess] in E; [discriminate|].
  destruct (child_of r up base k) as [Kc|] eqn:C; [|unfold hess_direct in E; rewrite C in E; discriminate].
  destruct (child_dof k Kc C) as (-> & HK & OK & Hk).
  destruct (direct_spec r place dofs up depth base jac fvel btw quat b K TR ue ue_adj k (ch k) C) as (A & nz & others & ED & [LA S] & N & O).
  rewrite ED in E. destruct (forallb _ others); [|discriminate]. destruct (all_some (map (hess n) others)) as [hs|] eqn:EA; [|discriminate].
  apply all_some_spec in EA. injection E as <-. destruct (find_col j (combine others hs)) as [g|] eqn:F.
  - destruct (find_col_some _ j others hs g EA F) as [I G]. rewrite (IH j g G rho i k Hi Hk). apply HV_sym.
  - pose proof (find_col_none _ j others hs EA F) as NI. destruct (S j Hj) as (X & EX & D). rewrite (nth_error_nth _ _ _ EX).
    assert (Q : forall l, (l < links)%nat -> onp l k = true -> onp (ch k) j = false -> onp l j = false).
    { intros l Hl E1 E2. destruct (onp l j) eqn:E3; [|reflexivity]. exfalso. apply NI, O. exists l. auto. }
    destruct (existsb (Nat.eqb j) nz) eqn:EZ.
    + destruct (D rho) as (_ & _ & _ & V). rewrite V by lia. cbv beta.
      assert (B : onp (ch k) j = true). { apply existsb_exists in EZ. destruct EZ as (y & Iy & Ey). apply Nat.eqb_eq in Ey. subst y. apply N, Iy. }
      rewrite fold_sumn. apply sumn_ext. intros l Hl. unfold ComLib.H2. rewrite B, relative_mass_eq. destruct (onp l k) eqn:E1; cbn [andb].
      * rewrite (on_tr l k j Hl E1 B). reflexivity.
      * rewrite vent_0. ring.
    + assert (B : onp (ch k) j = false).
      { destruct (onp (ch k) j) eqn:B; [|reflexivity]. apply N in B. assert (existsb (Nat.eqb j) nz = true); [|congruence]. apply existsb_exists. exists j. split; [exact B|apply Nat.eqb_refl]. }
      unfold HV. rewrite (sumn_ext _ _ (fun _ => 0)); [symmetry; apply sumn_0|]. intros l Hl. unfold ComLib.H2. destruct (onp l k) eqn:E1; cbn [andb]; [rewrite (Q l Hl E1 B)|]; rewrite vent_0; ring.
Qed.
(** The recursion of the constructors ends. *)
Definition deepest : nat := list_max (map (depth base) (seq 0 links)).
Lemma deepest_le l : (l < links)%nat -> (depth base l <= deepest)%nat.
Proof.
  intros Hl. unfold deepest. pose proof (proj1 (list_max_le (map (depth base) (seq 0 links)) _) (le_n _)) as F. rewrite Forall_forall in F. apply F. apply in_map, in_seq. lia.
Qed.
Lemma deeper l k j : (l < links)%nat -> onp l k = true -> onp l j = true -> onp (ch k) j = false ->
  child_of r up base j = Some (ch j) /\ (depth base (ch k) < depth base (ch j))%nat.
Proof.
  intros Hl E1 E2 E3. pose proof (on_ch r place dofs up depth base jac fvel btw quat K TR l j Hl E2) as CJ. split; [exact CJ|].
  pose proof (on_ch r place dofs up depth base jac fvel btw quat K TR l k Hl E1) as CK.
  destruct (child_dof j _ CJ) as (_ & HJ & OJ & _). destruct (child_dof k _ CK) as (_ & HK & OK & _).
  destruct (on_total r place dofs up depth base jac fvel btw quat K TR l k j Hl E1 E2) as [Z|Z]; [congruence|].
  destruct (on_child r place dofs up depth base jac fvel btw quat K TR (ch j) k HJ Z) as (J & p & C & I). rewrite CK in C. injection C as <-.
  destruct (P_split r place dofs up depth base jac fvel btw quat K TR (ch j) j (ch j) HJ OJ CJ) as (_ & p0 & post & _ & Q & _).
  rewrite Q in I. destruct I as [I|I]; [injection I as _ _ <-; congruence|].
  pose proof (path_P r place dofs up depth base jac fvel btw quat K (ch j) HJ) as PJ. rewrite Q in PJ. inversion PJ as [|t q i L N U Q' X1 [X2 X3]]; subst.
  destruct (path_step r base (up base) (depth base) (trav base Hb) Hb (ch j) _ (ch j) p0 j PJ HJ ltac:(left; reflexivity)) as (_ & _ & _ & _ & jj & _ & _ & Hp & D1).
  destruct (path_step r base (up base) (depth base) (trav base Hb) Hb p0 post (ch k) p k Q' Hp I) as (_ & _ & _ & D2 & _). lia.
Qed.
Lemma hess_ends n : forall k Kc, child_of r up base k = Some Kc -> (deepest - depth base Kc < n)%nat -> exists h, hess n k = Some h.
Proof.
  induction n as [|n IH]; intros k Kc C Hn; [lia|]. cbn [ComModel.hess]. destruct (child_dof k Kc C) as (-> & HK & OK & Hk).
  destruct (direct_spec r place dofs up depth base jac fvel btw quat b K TR ue ue_adj k (ch k) C) as (A & nz & others & ED & _ & N & O). rewrite ED.
  assert (G : forall j, In j others -> child_of r up base j = Some (ch j) /\ (depth base (ch k) < depth base (ch j))%nat).
  { intros j I. apply O in I. destruct I as (l & Hl & E1 & E2 & E3). exact (deeper l k j Hl E1 E2 E3). }
  replace (forallb (fun j => (j <? dofs)%nat) others) with true.
  - destruct (all_some_ok (hess n) others) as (hs & ->); [|eauto]. intros j I. destruct (G j I) as [CJ D]. destruct (IH j (ch j) CJ) as (h & ->); [|discriminate].
    destruct (child_dof j _ CJ) as (_ & HJ & _). pose proof (deepest_le _ HJ). lia.
  - symmetry. apply forallb_forall. intros j I. apply Nat.ltb_lt. destruct (G j I) as [CJ _]. apply (child_dof j _ CJ).
Qed.
End Com.
