(** Proofs about DynamicsModel.v: value and Jacobians. *)
From Coq Require Import Reals List Arith Lia Lra Bool FunctionalExtensionality.
From Coquelicot Require Import Coquelicot.
From Verif Require Import Spec SpecConstraints SpecQuaternion PartialLib Smoothing SmoothingProofs Quaternion QuaternionProofs.
From Verif Require Import ConstraintsModel ConstraintStatements CostsModel QuadLib SpecDynamics DynamicsModel DynamicsLib.
Import ListNotations.
Local Open Scope R_scope.

Lemma fold_read {T A} (read : T -> R) (step : T -> A -> T) (W : A -> bool) (F : R) l :
  (forall a d, In a l -> read (step d a) = if W a then F else read d) ->
  forall d, read (fold_left step l d) = if existsb W l then F else read d.
Proof.
  induction l as [|a l IH]; simpl; intros H d; auto.
  rewrite IH by auto. rewrite H by auto. destruct (W a), (existsb W l); auto.
Qed.
Lemma fold_acc {T A} (read : T -> R) (step : T -> A -> T) (f : A -> R) l :
  (forall a d, In a l -> read (step d a) = read d + f a) ->
  forall d, read (fold_left step l d) = read d + lsum f l.
Proof.
  induction l as [|a l IH]; simpl; intros H d; [ring|].
  rewrite IH by auto. rewrite H by auto. ring.
Qed.
Lemma ind_eq a b : a = b -> ind a b = 1.
Proof. intros ->. apply ind_refl. Qed.
Ltac kill_ind := repeat match goal with
  | |- context [ind ?a ?b] => first [ rewrite (ind_neq a b) by lia | rewrite (ind_eq a b) by lia ]
  end.
Ltac idx3 a := destruct a as [|[|[|a]]]; [| | |exfalso; lia].
Lemma qeq (x y : R) : x = y -> y = x. Proof. auto. Qed.
(** Like [deriv], using the hypotheses first. *)
Ltac dv known :=
  first [ eassumption | lazymatch goal with
  | |- partial (fun y => _ + _) _ _ _ => simple eapply partial_plus; dv known
  | |- partial (fun y => _ - _) _ _ _ => simple eapply partial_minus; dv known
  | |- partial (fun y => _ * _) _ _ _ => simple eapply partial_mult; dv known
  | |- partial (fun y => - _) _ _ _ => simple eapply partial_opp; dv known
  | |- _ => first [ simple apply partial_const | simple apply partial_var
                  | lazymatch goal with
                    | |- partial (fun y => ?h _) _ _ _ => simple eapply (partial_comp h); [known | dv known]
                    end ]
  end ].
Ltac acts := idtac; lazymatch goal with
  | |- is_derive (hs_eval _) _ _ => apply hs_deriv_ok
  | |- is_derive (ht_eval _) _ _ => apply ht_deriv_ok
  | |- is_derive (hs_deriv _) _ _ => apply hs_dderiv_ok
  | |- is_derive (ht_deriv _) _ _ => apply ht_dderiv_ok
  end.

Section Dyn.
  Variable c : dy_cfg.
  Let L := dy_L c.
  Hypothesis LO : layout_ok L.
  Let pts := dl_points L.

  (** ** Closed form of the value *)
  Definition rf (x u : vec) (p : contact_point) (a : nat) : R :=
    match a with
    | 2%nat => hs_eval (dy_z c) (x (cp_p p + 2)%nat) * u (cp_fc p + 2)%nat +
               dy_diss c * (hs_eval (dy_z c) (x (cp_p p + 2)%nat) - 1) * x (cp_f p + 2)%nat
    | _ => u (cp_fc p + a)%nat
    end.
  Definition rp (x u : vec) (p : contact_point) (a : nat) : R :=
    match a with
    | 2%nat => u (cp_vc p + 2)%nat
    | _ => ht_eval (dy_xy c) (x (cp_p p + 2)%nat) * u (cp_vc p + a)%nat
    end.
  Definition dist (x : vec) (p : contact_point) : vec := vsub (seg x (cp_p p)) (seg x (dl_com L)).
  Definition momrow (x : vec) (p : contact_point) (a : nat) : R :=
    match a with
    | S (S (S b)) => cross (dist x p) (seg x (cp_f p)) b
    | _ => x (cp_f p + a)%nat
    end.
  Definition rm (x : vec) (a : nat) : R := dy_mass c * dy_gravity a + lsum (fun p => momrow x p a) pts.
  Definition rc (x : vec) (a : nat) : R := x (dl_mom L + a)%nat / dy_mass c.
  Definition rb (x u : vec) : vec := qrot (NormalizedQuaternion (seg x (dl_quat L))) (seg u (dl_lin L)).
  Definition V (x u : vec) : vec :=
    assemble L (rf x u) (rp x u) (rm x) (rc x) (rb x u) (seg u (dl_qd L)) (seg u (dl_jv L)).

  Lemma rotation_of_qrot q v a : (a < 3)%nat -> mulv 3 (rotation_of q) v a = qrot q v a.
  Proof.
    intros H. unfold mulv, rotation_of, qrot, identity, mat3mul, qvec, tail3. cbn [sumn].
    idx3 a; cbn [skew cross Nat.eqb]; ring.
  Qed.

  Section Upd.
    Variables (w : dy_ws) (x u : vec).
    Hypothesis Wx : y_x w = x.
    Hypothesis Wu : y_u w = u.
    Hypothesis Wc : y_com w = seg x (dl_com L).
    Lemma foot_dyn_row p i d : In p pts -> in_range (dl_mom L) 6 i = false ->
      foot_dynamics c w d p i = if in_range (cp_f p) 3 i || in_range (cp_p p) 3 i then V x u i else d i.
    Proof.
      intros I Hm.
      assert (Hm1 : in_range (dl_mom (dy_L c) + 3) 3 i = false).
      { apply in_range_no. destruct (Nat.lt_ge_cases i (dl_mom L)); [unfold L in *; lia|].
        destruct (Nat.lt_ge_cases i (dl_mom L + 6)); [rewrite in_range_yes in Hm by lia; discriminate|unfold L in *; lia]. }
      assert (Hm2 : in_range (dl_mom (dy_L c)) 3 i = false).
      { apply in_range_no. destruct (Nat.lt_ge_cases i (dl_mom L)); [unfold L in *; lia|].
        destruct (Nat.lt_ge_cases i (dl_mom L + 6)); [rewrite in_range_yes in Hm by lia; discriminate|unfold L in *; lia]. }
      unfold foot_dynamics, add_seg. unfold set_seg at 1. rewrite Hm1. unfold set_seg at 1. rewrite Hm2. rewrite Wx, Wu.
      pose proof (pt_self L LO p I) as Sf. unfold apart in Sf.
      destruct (in_range (cp_f p) 3 i) eqn:E1; cbn [orb].
      - apply in_range_spec in E1. replace i with (cp_f p + (i - cp_f p))%nat by lia.
        unfold V. rewrite assemble_f by (auto; lia). unfold vset, set_seg.
        assert (K : (i - cp_f p = 0 \/ i - cp_f p = 1 \/ i - cp_f p = 2)%nat) by lia.
        destruct K as [K|[K|K]]; rewrite K; eqbs; rewrite ?(in_range_no (cp_p p)), ?in_range_yes by lia;
          cbn [rf]; try reflexivity; f_equal; lia.
      - destruct (in_range (cp_p p) 3 i) eqn:E2.
        + apply in_range_spec in E2. replace i with (cp_p p + (i - cp_p p))%nat by lia.
          unfold V. rewrite assemble_p by (auto; lia). unfold vset, set_seg.
          assert (K : (i - cp_p p = 0 \/ i - cp_p p = 1 \/ i - cp_p p = 2)%nat) by lia.
          destruct K as [K|[K|K]]; rewrite K; eqbs; rewrite ?in_range_yes by lia;
            cbn [rp]; try reflexivity; repeat f_equal; lia.
        + assert (N1 : (i < cp_f p \/ cp_f p + 3 <= i)%nat).
          { destruct (Nat.lt_ge_cases i (cp_f p)); auto. destruct (Nat.lt_ge_cases i (cp_f p + 3)); auto.
            rewrite in_range_yes in E1 by lia. discriminate. }
          assert (N2 : (i < cp_p p \/ cp_p p + 3 <= i)%nat).
          { destruct (Nat.lt_ge_cases i (cp_p p)); auto. destruct (Nat.lt_ge_cases i (cp_p p + 3)); auto.
            rewrite in_range_yes in E2 by lia. discriminate. }
          unfold vset, set_seg. eqbs. rewrite !in_range_no by lia. reflexivity.
    Qed.
    Lemma foot_dyn_mom p a d : In p pts -> (a < 6)%nat ->
      foot_dynamics c w d p (dl_mom L + a)%nat = d (dl_mom L + a)%nat + momrow x p a.
    Proof.
      intros I Ha. destruct (pt_fixed L LO p (dl_mom L) 6 I) as [A1 A2]; [simpl; tauto|]. unfold apart in *.
      unfold foot_dynamics, add_seg. rewrite Wx, Wu, Wc. fold L.
      assert (B : forall d', vset (set_seg (vset (set_seg d' (cp_f p) 2 (fun a0 : nat => u (cp_fc p + a0)%nat)) (cp_f p + 2)
         (hs_eval (dy_z c) (x (cp_p p + 2)%nat) * u (cp_fc p + 2)%nat + dy_diss c * (hs_eval (dy_z c) (x (cp_p p + 2)%nat) - 1) * x (cp_f p + 2)%nat))
         (cp_p p) 2 (fun a0 : nat => ht_eval (dy_xy c) (x (cp_p p + 2)%nat) * u (cp_vc p + a0)%nat)) (cp_p p + 2)
         (u (cp_vc p + 2)%nat) (dl_mom L + a)%nat = d' (dl_mom L + a)%nat).
      { intros d'. unfold vset, set_seg. eqbs. rewrite !in_range_no by lia. reflexivity. }
      set (d1 := vset _ _ _) in *. 
      assert (B' : forall b, (b < 6)%nat -> d1 (dl_mom L + b)%nat = d (dl_mom L + b)%nat).
      { intros b Hb. unfold d1, vset, set_seg. eqbs. rewrite !in_range_no by lia. reflexivity. }
      clear B. clearbody d1. unfold set_seg at 1.
      destruct (Nat.lt_ge_cases a 3).
      - rewrite in_range_no by lia. unfold set_seg. rewrite in_range_yes by lia.
        replace (dl_mom L + a - dl_mom L)%nat with a by lia. rewrite B' by lia.
        destruct a as [|[|[|a]]]; try lia; reflexivity.
      - rewrite in_range_yes by lia. unfold set_seg. rewrite in_range_no by lia.
        destruct a as [|[|[|b]]]; try lia. 
        replace (dl_mom L + 3 + (dl_mom L + S (S (S b)) - (dl_mom L + 3)))%nat with (dl_mom L + S (S (S b)))%nat by lia.
        rewrite B' by lia. f_equal. cbn [momrow].
        replace (dl_mom L + S (S (S b)) - (dl_mom L + 3))%nat with b by lia.
        reflexivity.
    Qed.
  End Upd.

  Lemma dynamics_V w t x u i : (i < dl_nx L)%nat -> snd (dy_dynamics (c, w) t x u) i = V x u i.
  Proof.
    intros Hi. unfold dy_dynamics. cbn [snd]. set (w' := dy_update c w x u). fold L.
    rewrite <- fold_left_app. change (dl_left L ++ dl_right L) with pts.
    assert (Wx : y_x w' = x) by reflexivity. assert (Wu : y_u w' = u) by reflexivity.
    assert (Wc : y_com w' = seg x (dl_com L)) by reflexivity.
    set (d0 := set_seg (y_dyn w') (dl_mom L) 6 (fun a : nat => dy_mass c * dy_gravity a)).
    assert (FM : forall a, (a < 6)%nat -> fold_left (foot_dynamics c w') pts d0 (dl_mom L + a)%nat = rm x a).
    { intros a Ha. rewrite (fold_acc (fun d => d (dl_mom L + a)%nat) (foot_dynamics c w') (fun p => momrow x p a)).
      - unfold d0, set_seg. rewrite in_range_yes by lia. unfold rm. repeat f_equal. lia.
      - intros p d I. apply foot_dyn_mom with (u := u); auto. }
    assert (FO : forall i, in_range (dl_mom L) 6 i = false ->
      fold_left (foot_dynamics c w') pts d0 i =
      if existsb (fun p => in_range (cp_f p) 3 i || in_range (cp_p p) 3 i) pts then V x u i else d0 i).
    { intros j Hj. apply (fold_read (fun d => d j) (foot_dynamics c w')
        (fun p => in_range (cp_f p) 3 j || in_range (cp_p p) 3 j)).
      intros p d I. apply foot_dyn_row; auto. }
    set (d1 := fold_left _ _ _) in *. clearbody d1.
    assert (PF : forall p j, In p pts -> in_range (cp_f p) 3 j = true \/ in_range (cp_p p) 3 j = true -> d1 j = V x u j).
    { intros p j I E. assert (Hj : in_range (dl_mom L) 6 j = false).
      { destruct (pt_fixed L LO p (dl_mom L) 6 I) as [A1 A2]; [simpl; tauto|]. unfold apart in *.
        apply in_range_no. destruct E as [E|E]; apply in_range_spec in E; lia. }
      rewrite FO by auto.
      replace (existsb _ pts) with true; auto. symmetry. apply existsb_exists. exists p. split; auto.
      apply orb_true_iff. tauto. }
    destruct (fixed_apart L LO) as (P1&P2&P3&P4&P5&P6&P7&P8&P9&P10).
    pose proof (assemble_cases L LO (rf x u) (rp x u) (rm x) (rc x) (rb x u) (seg u (dl_qd L)) (seg u (dl_jv L)) i) as K.
    fold (V x u) in K.
    destruct K as [(p&a&I&Ha&->&E)|[(p&a&I&Ha&->&E)|[(a&Ha&->&E)|[(a&Ha&->&E)|[(a&Ha&->&E)|[(a&Ha&->&E)|[(a&Ha&->&E)|(E&Ep&Er)]]]]]]].
    - destruct (pt_fixed L LO p (dl_com L) 3 I) as [A1 _]; [simpl; tauto|].
      destruct (pt_fixed L LO p (dl_base L) 3 I) as [A2 _]; [simpl; tauto|].
      destruct (pt_fixed L LO p (dl_quat L) 4 I) as [A3 _]; [simpl; tauto|].
      destruct (pt_fixed L LO p (dl_jnt L) (dl_dof L) I) as [A4 _]; [simpl; tauto|]. unfold apart in *.
      unfold set_seg. rewrite !in_range_no by lia. apply PF with (p := p); auto. left. apply in_range_yes. lia.
    - destruct (pt_fixed L LO p (dl_com L) 3 I) as [_ A1]; [simpl; tauto|].
      destruct (pt_fixed L LO p (dl_base L) 3 I) as [_ A2]; [simpl; tauto|].
      destruct (pt_fixed L LO p (dl_quat L) 4 I) as [_ A3]; [simpl; tauto|].
      destruct (pt_fixed L LO p (dl_jnt L) (dl_dof L) I) as [_ A4]; [simpl; tauto|]. unfold apart in *.
      unfold set_seg. rewrite !in_range_no by lia. apply PF with (p := p); auto. right. apply in_range_yes. lia.
    - unfold apart in *. unfold set_seg. rewrite !in_range_no by lia. rewrite FM, E by auto. reflexivity.
    - unfold apart in *. unfold set_seg. rewrite (in_range_no (dl_jnt L)), (in_range_no (dl_quat L)), (in_range_no (dl_base L)), in_range_yes by lia.
      rewrite E. rewrite Wx. unfold rc. do 2 f_equal. lia.
    - unfold apart in *. unfold set_seg. rewrite (in_range_no (dl_jnt L)), (in_range_no (dl_quat L)), in_range_yes by lia.
      rewrite E. replace (dl_base L + a - dl_base L)%nat with a by lia.
      change (y_rot w') with (rotation_of (NormalizedQuaternion (seg x (dl_quat L)))).
      rewrite rotation_of_qrot by auto. reflexivity.
    - unfold apart in *. unfold set_seg. rewrite (in_range_no (dl_jnt L)), in_range_yes by lia.
      rewrite E. replace (dl_quat L + a - dl_quat L)%nat with a by lia. reflexivity.
    - unfold set_seg. rewrite in_range_yes by lia. rewrite E. replace (dl_jnt L + a - dl_jnt L)%nat with a by lia. reflexivity.
    - exfalso. destruct LO as [[_ C] _]. destruct (proj1 (C i) Hi) as [[o n] [J B]]. cbn [fst snd] in B.
      unfold state_blocks in J. apply in_app_or in J. destruct J as [J|J].
      + destruct Er as (R1&R2&R3&R4&R5).
        simpl in J. assert (in_range o n i = true) by (apply in_range_yes; lia).
        destruct J as [J|[J|[J|[J|[J|[]]]]]]; congruence.
      + apply in_flat_map in J. destruct J as [p [I J]]. destruct (Ep p I) as [R1 R2].
        assert (in_range o n i = true) by (apply in_range_yes; lia).
        simpl in J. destruct J as [J|[J|[]]]; congruence.
  Qed.

  Lemma V_law x u : quat_nonzero L x ->
    dynamics_law L (dy_mass c) (dy_diss c) (smooth_step (sm_K (dy_xy c)) (disabled_of (dy_xy c)))
      (smooth_bump (sm_K (dy_z c)) (disabled_of (dy_z c))) x u (V x u).
  Proof.
    intros Q. split.
    - intros p a I Ha. unfold V. rewrite assemble_f by (auto; lia). destruct a as [|[|a]]; try lia; reflexivity.
    - intros p I. unfold V. rewrite assemble_f by (auto; lia). cbn [rf]. rewrite <- !hs_eval_value. reflexivity.
    - intros p a I Ha. unfold V. rewrite assemble_p by (auto; lia). rewrite <- ht_eval_value. destruct a as [|[|a]]; try lia; reflexivity.
    - intros p I. unfold V. rewrite assemble_p by (auto; lia). reflexivity.
    - intros a Ha. unfold V. rewrite assemble_mom by (auto; lia). unfold rm, momrow.
      destruct a as [|[|[|a]]]; try lia; reflexivity.
    - intros a Ha. replace (dl_mom L + 3 + a)%nat with (dl_mom L + (3 + a))%nat by lia. unfold V. rewrite assemble_mom by (auto; lia).
      unfold rm. change (dy_gravity (3 + a)%nat) with 0. rewrite Rmult_0_r, Rplus_0_l. reflexivity.
    - intros a Ha. unfold V. rewrite assemble_com by (auto; lia). reflexivity.
    - intros a Ha. unfold V. rewrite assemble_base by (auto; lia). unfold rb.
      destruct Q as [i [Hi Hq]]. pose proof (qnorm2_pos (seg x (dl_quat L)) i Hi Hq) as P.
      unfold qrot, qvec. idx3 a; cbn [cross]; rewrite !Normalized_eq by lia; reflexivity.
    - intros a Ha. unfold V. rewrite assemble_quat by (auto; lia). reflexivity.
    - intros a Ha. unfold V. rewrite assemble_jnt by (auto; lia). reflexivity.
  Qed.
End Dyn.
