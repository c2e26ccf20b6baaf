From Coq Require Import Reals List Arith Lia Lra Bool FunctionalExtensionality.
From Coquelicot Require Import Coquelicot.
From Verif Require Import Spec SpecConstraints SpecCosts Smoothing ConstraintsModel ConstraintStatements
  CostsModel CostStatements SmoothingProofs PartialLib QuadLib ConstraintProofs CostProofs CostProofs2.
Import ListNotations.
Local Open Scope R_scope.

Lemma length_pos {A} (l : list A) : l <> [] -> INR (length l) <> 0.
Proof. intros H. apply not_0_INR. destruct l; simpl; congruence. Qed.
Lemma mp_sum_lsum pts x a : mp_sum pts x a = lsum (fun o => x (o + a)%nat) pts.
Proof. destruct pts; simpl; auto. rewrite (fold_sum (fun o => seg x o a)). reflexivity. Qed.

(** Hessian written by the double loop over points with a block per pair. *)
Lemma pair_blocks_exact {A} m n (o : A -> nat) (P : list (nat * R)) (w d : vec) (l : list A) (q : A -> R)
   (blkv : A -> A -> nat -> nat -> R) H :
  disjoint_ranges n (map fst P) -> (m <= n)%nat ->
  P = map (fun a => (o a, q a)) l ->
  (forall a b i j, In a l -> In b l -> (i < m)%nat -> (j < m)%nat -> blkv a b i j = if Nat.eqb i j then w i * q a * q b else 0) ->
  let pat := pair_list (fun a => identity_block (o a) (o a) m) (fun a b => identity_block (o a) (o b) m ++ identity_block (o b) (o a) m) l in
  zero_outside pat H ->
  pair_loop (fun a H => set_block H (o a) (o a) m m (blkv a a))
            (fun a b H => let H := set_block H (o a) (o b) m m (blkv a b) in
                          set_block H (o b) (o a) m m (block_of H (o a) (o b))) l H
  = quad_hess (comp_resids m P w d) /\ zero_outside pat (quad_hess (comp_resids m P w d)).
Proof.
  intros D L EP EB pat Z.
  assert (I : forall a, In a l -> In (o a, q a) P). { intros. rewrite EP. apply (in_map (fun a => (o a, q a))); auto. }
  assert (ZF : zero_outside pat (quad_hess (comp_resids m P w d))).
  { apply quad_hess_zero. intros p [a [b [Ha [Hb Hp]]]]. unfold pat.
    apply (in_pair_list o (fun r c => identity_block r c m)).
    rewrite EP, map_map in Ha, Hb. simpl in Ha, Hb. apply in_map_iff in Ha, Hb.
    destruct Ha as [a' [<- Ha]]. destruct Hb as [b' [<- Hb]]. exists a', b'; auto. }
  split; auto.
  set (F := quad_hess (comp_resids m P w d)) in *.
  destruct (writes_pairs F o m (fun a H => set_block H (o a) (o a) m m (blkv a a))
            (fun a b H => let H := set_block H (o a) (o b) m m (blkv a b) in
                          set_block H (o b) (o a) m m (block_of H (o a) (o b))) l) as [W [HW CW]].
  - intros a Ha. apply writes_block. intros. unfold F. rewrite (quad_hess_at m n P w d _ (q a) _ (q a)); auto.
  - intros a b Ha Hb. apply writes_block_copy; intros; unfold F.
    + rewrite (quad_hess_at m n P w d _ (q a) _ (q b)); auto.
    + rewrite (quad_hess_at m n P w d _ (q b) _ (q a)); auto. rewrite EB; auto. destruct (Nat.eqb a0 b0); ring.
  - apply (writes_total F W _ pat); auto. intros i j Hp. unfold pat in Hp.
    apply (in_pair_list o (fun r c => identity_block r c m)) in Hp. destruct Hp as [a [b [Ha [Hb Hp]]]].
    apply (CW a b); auto. apply pat_blk; auto.
Qed.

Section MP.
  Variable pts : list nat.
  Variables x0 u0 : vec.
  Hypothesis NE : pts <> [].
  Hypothesis D : disjoint_ranges 3 pts.
  Let ok := kreach mp_class mp_other (mp_ctor pts x0 u0).

  Lemma mp_inv s : ok s -> mp_pts (fst s) = pts /\
     vzero_outside (q_sgrad (mp_sup s)) (k_sg (snd s)) /\ k_cg (snd s) = vzero.
  Proof.
    unfold ok. revert s. apply kreach_inv.
    - repeat split; intros k _; reflexivity.
    - intros [c w] t x u H. simpl in *. destruct (mp_ref c t); [destruct (mp_weight c t)|]; simpl; auto.
    - intros [c w] t x u g [? [Z Zc]]; simpl in *. destruct (mp_ref c t); [destruct (mp_weight c t)|]; simpl; auto.
      repeat split; auto. apply (fold_seg_out _ 3 (fun _ a => _)); auto.
      intros o i Ho Hi. apply in_flat_map. exists o. split; auto. simpl; lia.
    - kstep.
    - intros [c w] t x u H I. simpl in *. destruct (mp_weight c t); simpl; auto.
    - kstep.
    - kstep.
    - intros [c w] s' H [[r ->]|[r ->]]; [destruct r|]; simpl in *; auto.
  Qed.

  Let inv := 1 / INR (length pts).
  Definition mp_P : list (nat * R) := map (fun o => (o, inv)) pts.
  Lemma mp_P_fst : map fst mp_P = pts.
  Proof. unfold mp_P. rewrite map_map. simpl. apply map_id. Qed.
  Lemma mp_mean x a : lsum (fun p => snd p * x (fst p + a)%nat) mp_P = lmean (fun o => x (o + a)%nat) pts.
  Proof. unfold mp_P, lmean. rewrite lsum_map. simpl. rewrite lsum_scal. unfold inv. field. apply length_pos; auto. Qed.
  Lemma mp_value_quad d w x : mean_point_value pts d w x = quad (comp_resids 3 mp_P w d) x.
  Proof.
    rewrite quad_comp. unfold mean_point_value. rewrite <- sumn_scal. apply sumn_ext. intros c _.
    rewrite mp_mean. ring.
  Qed.

  Theorem mp_exact : cost_exact mp_class ok mp_valid mp_value mp_sup.
  Proof.
    kstart_ns mp_inv; unfold mp_value, mp_valid, always_valid in *; simpl in *; match goal with E1 : mp_pts ?cf = _ |- _ =>
      rewrite ?E1 in *; try (destruct (mp_ref cf t) as [d|] eqn:Er; [destruct (mp_weight cf t) as [wt|] eqn:Ew|]);
        try (exfalso; match goal with V : _ <> None /\ _ |- _ => destruct V; congruence end); simpl in * end.
    - f_equal. unfold mean_point_value. cbn [sumn]. rewrite !mp_sum_lsum. unfold lmean. field. apply length_pos; auto.
    - give. assert (Z : vzero_outside (flat_map (fun o => seq o 3) pts) (quad_grad (comp_resids 3 mp_P wt d) x)).
      { apply quad_grad_zero. rewrite mp_P_fst. auto. }
      match goal with |- vzero_outside _ ?g' /\ _ => assert (E : g' = quad_grad (comp_resids 3 mp_P wt d) x) end.
      { eapply (vwrites_total _ (fun i => existsb (fun o => in_range o 3 i) pts) (fun g => fold_left _ pts g)).
        - apply (vwrites_fold _ (fun o => in_range o 3) (fun o g => set_seg g o 3 _)).
          intros o Ho. apply vwrites_seg. intros a Ha.
          rewrite (quad_grad_at 3 3 mp_P _ _ x o inv); auto.
          + rewrite mp_mean, mp_sum_lsum. unfold lmean, inv. field. apply length_pos; auto.
          + rewrite mp_P_fst; auto.
          + unfold mp_P. apply in_map_iff. exists o; auto.
        - exact Z.
        - assumption.
        - intros i Hi. apply in_flat_map in Hi. destruct Hi as [o [Ho Hi]]. apply in_seq in Hi.
          apply existsb_exists. exists o. split; auto. apply in_range_spec. lia. }
      split; [rewrite E; auto|]. eapply quad_grad_ok; [|exact E]. intros; apply mp_value_quad.
    - unfold buffer_cgrad; simpl. give. match goal with H : k_cg _ = _ |- _ => rewrite H end.
      split; [intros k _; reflexivity|]. apply gradient_const.
    - give. destruct (pair_blocks_exact 3 3 (fun o => o) mp_P wt d pts (fun _ => inv)
        (fun _ _ a b => if Nat.eqb a b then wt a * inv * inv else 0) H) as [E Z]; auto.
      { rewrite mp_P_fst; auto. }
      match goal with |- zero_outside _ ?M /\ _ => assert (E' : M = quad_hess (comp_resids 3 mp_P wt d)) by exact E end.
      split. { rewrite E'. exact Z. } eapply quad_hess_ok; [|exact E']. intros; apply mp_value_quad.
    - give. split; [auto|]. apply no_control_hessian; auto.
    - give. split; [auto|]. eapply no_control_mixed; auto. intros; apply mp_value_quad.
    all: match goal with E1 : mp_pts ?cf = _ |- _ => rewrite ?E1;
           repeat match goal with |- context [match ?o with Some _ => _ | None => _ end] => destruct o end end;
         simpl; rewrite ?E1; repeat split; match goal with E1 : mp_pts ?cf = _ |- _ => rewrite ?E1; reflexivity end.
  Qed.

  Theorem mp_invalid s : ok s -> forall t x u g,
    ((mp_ref (fst s) t = None \/ mp_weight (fst s) t = None) ->
       snd (mp_eval s t x u) = None /\ snd (mp_sgrad s t x u g) = None).
  Proof.
    intros R t x u g. destruct s as [c w]. simpl. intros [E|E]; [rewrite E; auto|].
    rewrite E. destruct (mp_ref c t); auto.
  Qed.
End MP.

Section FD.
  Variable all : list (nat * bool).
  Variables x0 u0 : vec.
  Hypothesis NEl : side all true <> [].
  Hypothesis NEr : side all false <> [].
  Hypothesis D : disjoint_ranges 3 (map fst all).
  Let ok := kreach fd_class no_other (fd_ctor all x0 u0).
  Lemma fd_inv s : ok s -> fst s = fst (fd_ctor all x0 u0).
  Proof.
    unfold ok. revert s. apply kreach_inv; [reflexivity|kstep|kstep|kstep|kstep|kstep|kstep|intros ? ? ? []].
  Qed.
  Let nL := INR (length (side all true)).
  Let nR := INR (length (side all false)).
  Definition fd_q (p : nat * bool) : R := if snd p then 1 / nL else - 1 / nR.
  Definition fd_P : list (nat * R) := map (fun p => (fst p, fd_q p)) all.
  Lemma fd_P_fst : map fst fd_P = map fst all.
  Proof. unfold fd_P. rewrite map_map. reflexivity. Qed.
  Lemma side_sum b (f : nat -> R) l : lsum f (side l b) = lsum (fun p => if Bool.eqb (snd p) b then f (fst p) else 0) l.
  Proof.
    induction l as [|p l IH]; simpl; auto. unfold side in *. simpl. destruct (Bool.eqb (snd p) b); simpl; rewrite IH; ring.
  Qed.
  Lemma fd_dist x a : lsum (fun p => snd p * x (fst p + a)%nat) fd_P
     = lmean (fun o => x (o + a)%nat) (side all true) - lmean (fun o => x (o + a)%nat) (side all false).
  Proof.
    unfold lmean. fold nL nR. unfold fd_P. rewrite lsum_map, !side_sum.
    unfold Rdiv at 1 2. rewrite <- !lsum_scal_r.
    match goal with |- _ = ?s - lsum ?f all => replace (s - lsum f all) with (s + (-1) * lsum f all) by ring end.
    rewrite <- lsum_scal, <- lsum_plus. apply lsum_ext. intros [o b] _. simpl. unfold fd_q; simpl. destruct b; simpl; unfold Rdiv; ring.
  Qed.
  Lemma fd_value_quad x : feet_distance_value (side all true) (side all false) x = quad (comp_resids 3 fd_P (fun _ => 1) vzero) x.
  Proof.
    rewrite quad_comp. unfold feet_distance_value. rewrite <- sumn_scal. apply sumn_ext. intros c _. rewrite fd_dist. unfold vzero; ring.
  Qed.
  Lemma side_in o b : In o (side all b) <-> In (o, b) all.
  Proof.
    unfold side. rewrite in_map_iff. split.
    - intros [[o' b'] [E H]]. simpl in E; subst. apply filter_In in H. destruct H as [H E]. simpl in E. apply eqb_prop in E; subst; auto.
    - intros H. exists (o, b). split; auto. apply filter_In. split; auto. simpl. apply eqb_reflx.
  Qed.

  Theorem fd_exact : cost_exact fd_class ok always_valid fd_value (fd_sup all).
  Proof.
    pose proof (length_pos _ NEl) as HL. pose proof (length_pos _ NEr) as HR. fold nL in HL. fold nR in HR.
    kstart fd_inv; unfold fd_value, fd_points in *; simpl in *; fold (side all true) in *; fold (side all false) in *.
    - f_equal. unfold fd_distance; simpl. fold (side all true) (side all false). rewrite !mp_sum_lsum.
      unfold feet_distance_value, lmean. cbn [sumn]. ring.
    - give.
      assert (Z : vzero_outside (flat_map (fun o => seq o 3) (side all true ++ side all false)) (quad_grad (comp_resids 3 fd_P (fun _ => 1) vzero) x)).
      { apply quad_grad_zero. rewrite fd_P_fst. intros k Hk. unfold comp_sup in Hk. apply in_flat_map in Hk. destruct Hk as [o [Ho Hk]].
        apply in_flat_map. exists o. split; auto. apply in_map_iff in Ho. destruct Ho as [[o' b] [E Ho]]. simpl in E; subst o'.
        apply in_or_app. destruct b; [left|right]; apply side_in; auto. }
      match goal with |- vzero_outside _ ?g' /\ _ => assert (E : g' = quad_grad (comp_resids 3 fd_P (fun _ => 1) vzero) x) end.
      { set (F := quad_grad (comp_resids 3 fd_P (fun _ => 1) vzero) x) in *.
        eapply (vwrites_total F _ (fun g => fold_left _ (side all false) (fold_left _ (side all true) g))).
        - apply (vwrites_comp F (fun i => existsb (fun o => in_range o 3 i) (side all true)) (fun i => existsb (fun o => in_range o 3 i) (side all false))
            (fun g => fold_left _ (side all true) g) (fun g => fold_left _ (side all false) g)).
          + apply (vwrites_fold F (fun o => in_range o 3) (fun o g => set_seg g o 3 _)).
            intros o Ho. apply vwrites_seg. intros a Ha. unfold F.
            rewrite (quad_grad_at 3 3 fd_P _ _ x o (1 / nL)); auto.
            * rewrite fd_dist. unfold fd_distance. simpl. fold (side all true) (side all false). rewrite !mp_sum_lsum.
              unfold lmean, vzero. fold nL nR. field. auto.
            * rewrite fd_P_fst; auto.
            * unfold fd_P. apply in_map_iff. exists (o, true). split; auto. apply side_in; auto.
          + apply (vwrites_fold F (fun o => in_range o 3) (fun o g => set_seg g o 3 _)).
            intros o Ho. apply vwrites_seg. intros a Ha. unfold F.
            rewrite (quad_grad_at 3 3 fd_P _ _ x o (- 1 / nR)); auto.
            * rewrite fd_dist. unfold fd_distance. simpl. fold (side all true) (side all false). rewrite !mp_sum_lsum.
              unfold lmean, vzero. fold nL nR. field. auto.
            * rewrite fd_P_fst; auto.
            * unfold fd_P. apply in_map_iff. exists (o, false). split; auto. apply side_in; auto.
        - exact Z.
        - assumption.
        - intros i Hi. apply in_flat_map in Hi. destruct Hi as [o [Ho Hi]]. apply in_seq in Hi. apply orb_true_iff.
          apply in_app_or in Ho. destruct Ho as [Ho|Ho]; [right|left]; apply existsb_exists; exists o; (split; [auto|]); apply in_range_spec; lia. }
      split; [rewrite E; auto|]. eapply quad_grad_ok; [|exact E]. intros; apply fd_value_quad.
    - give. split; [auto|]. rewrite (noop_vzero [] g eq_refl); auto. apply gradient_const.
    - give. destruct (pair_blocks_exact 3 3 fst fd_P (fun _ => 1) vzero all fd_q
        (fun a b => scaled_identity (1 / fd_diagonal nL nR a b)) mzero) as [E Z]; auto.
      { rewrite fd_P_fst; auto. }
      { intros [a ba] [b bb] i j _ _ _ _. unfold scaled_identity, fd_diagonal, fd_q; simpl. destruct (Nat.eqb i j); auto.
        destruct ba, bb; field; auto. }
      { intros i j _; reflexivity. }
      match goal with |- zero_outside _ ?M /\ _ => assert (E' : M = quad_hess (comp_resids 3 fd_P (fun _ => 1) vzero)) by exact E end.
      split. { rewrite E'. exact Z. }
      eapply quad_hess_ok; [|exact E']. intros; apply fd_value_quad.
    - give. split; [auto|]. apply no_control_hessian; auto.
    - give. split; [auto|]. eapply no_control_mixed; auto. intros; apply fd_value_quad.
    - unfold fd_value; simpl. auto 10.
  Qed.
End FD.

Section FH.
  Variable c : fh_cfg.
  Variables x0 u0 : vec.
  Hypothesis NEl : fh_left c <> [].
  Hypothesis NEr : fh_right c <> [].
  Hypothesis D : disjoint_ranges 3 (fh_left c ++ fh_right c).
  Let ok := reach fh_class no_other (fh_ctor c x0 u0).
  Lemma fh_inv s : ok s -> fst s = c /\ w_sj (snd s) = w_sj (snd (fh_ctor c x0 u0)) /\ w_cj (snd s) = mzero.
  Proof.
    unfold ok. revert s. apply reach_inv; [split; [reflexivity|split; reflexivity]|inv_step|inv_step|inv_step|inv_step|inv_step|inv_step|intros ? ? ? []].
  Qed.
  Let nL := INR (length (fh_left c)).
  Let nR := INR (length (fh_right c)).
  Definition fh_P : list (nat * R) := map (fun o => ((o + 2)%nat, 1 / nL)) (fh_left c) ++ map (fun o => ((o + 2)%nat, - 1 / nR)) (fh_right c).
  Lemma fh_value_lf x i : feet_height_value (fh_left c) (fh_right c) x i = lf fh_P x.
  Proof.
    unfold feet_height_value, lmean, lf, fh_P. fold nL nR. rewrite lsum_app, !lsum_map. simpl. rewrite !lsum_scal. unfold Rdiv. ring.
  Qed.
  Lemma fh_P_fst : map fst fh_P = map (fun o => (o + 2)%nat) (fh_left c ++ fh_right c).
  Proof. unfold fh_P. rewrite !map_app, !map_map. reflexivity. Qed.
  Lemma fh_nodup : NoDup (map fst fh_P).
  Proof. rewrite fh_P_fst. apply nodup_inj. eapply disjoint_nodup; [|exact D]. lia. Qed.
  Lemma fh_zero : zero_outside (p_sjac (fh_patterns (fh_ctor c x0 u0))) (fun i k => match i with O => co fh_P k | _ => 0 end).
  Proof.
    intros i k N. destruct i; auto. apply co_out. rewrite fh_P_fst. intros I. apply N. simpl. rewrite <- map_app.
    apply in_map_iff in I. destruct I as [o [<- Ho]]. apply in_map_iff. exists o; auto.
  Qed.
  Lemma fh_jac : w_sj (snd (fh_ctor c x0 u0)) = fun i k => match i with O => co fh_P k | _ => 0 end.
  Proof.
    set (F := fun (i k : nat) => match i with O => co fh_P k | _ => 0 end).
    simpl.
    pose proof (writes_fold F (fun o => blk 1 0 (o + 2)) (fun o J => mset J 0 (o + 2) (1 / nL)) (fh_left c)) as W1.
    pose proof (writes_fold F (fun o => blk 1 0 (o + 2)) (fun o J => mset J 0 (o + 2) (- 1 / nR)) (fh_right c)) as W2.
    assert (W1' := W1 (fun o Ho => writes_mset F 0 (o + 2) (1 / nL) (eq_sym (co_in fh_P (o + 2) (1 / nL) fh_nodup
        (in_or_app _ _ _ (or_introl (in_map (fun o => ((o + 2)%nat, 1 / nL)) _ o Ho))))))).
    assert (W2' := W2 (fun o Ho => writes_mset F 0 (o + 2) (- 1 / nR) (eq_sym (co_in fh_P (o + 2) (- 1 / nR) fh_nodup
        (in_or_app _ _ _ (or_intror (in_map (fun o => ((o + 2)%nat, - 1 / nR)) _ o Ho))))))).
    eapply (writes_total F _ _ _ mzero (writes_comp F _ _ _ _ W1' W2')).
    - apply fh_zero.
    - intros i j _; reflexivity.
    - intros i j I. cbv beta. apply orb_true_iff. simpl in I. apply in_app_or in I. destruct I as [I|I];
      apply in_map_iff in I; destruct I as [o [E Ho]]; injection E; intros; subst; [right|left]; apply existsb_exists; exists o; (split; [auto|apply blk1]).
  Qed.
  Lemma fh_is_jac x : is_jacobian 1 (feet_height_value (fh_left c) (fh_right c)) x (fun i k => match i with O => co fh_P k | _ => 0 end).
  Proof.
    intros i k Hi. rows i. eapply partial_ext; [intros; symmetry; apply fh_value_lf|]. apply partial_lf.
  Qed.
  Theorem fh_exact : constraint_exact fh_class ok 1 fh_value fh_patterns.
  Proof.
    start_exact fh_inv.
    - rows i. unfold fh_value; simpl. rewrite !(fold_sum (fun o => x (o + 2)%nat)). unfold vset; simpl.
      unfold feet_height_value, lmean. rewrite !Rplus_0_l. reflexivity.
    - match goal with H : w_sj _ = _ |- _ => rewrite H end. change (fold_left _ _ _) with (w_sj (snd (fh_ctor c x0 u0))).
      rewrite fh_jac. split. { apply fh_zero. } apply fh_is_jac.
    - match goal with H : w_cj _ = _ |- _ => rewrite H end. split. { intros ? ? _; reflexivity. }
      intros i k Hi. unfold fh_value; simpl. apply partial_const.
    - split; auto. rewrite (noop_zero [] H eq_refl); auto. unfold fh_value; simpl. eapply weighted_hessian. { intros y; apply fh_is_jac. }
      intros j k. simpl. apply partial_const.
    - split; auto. rewrite (noop_zero [] H eq_refl); auto. unfold fh_value; cbn [fst]. apply hessian_const.
    - split; auto. rewrite (noop_zero [] H eq_refl); auto. unfold fh_value; simpl.
      eapply (weighted_mixed 1 l (fun y _ => feet_height_value (fh_left c) (fh_right c) y)). { intros y z. apply fh_is_jac. }
      intros j k. simpl. apply partial_const.
    - auto 10.
  Qed.
End FH.
