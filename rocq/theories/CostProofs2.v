From Coq Require Import Reals List Arith Lia Lra Bool FunctionalExtensionality.
From Coquelicot Require Import Coquelicot.
From Verif Require Import Spec SpecConstraints SpecCosts Smoothing ConstraintsModel ConstraintStatements
  CostsModel CostStatements SmoothingProofs PartialLib QuadLib ConstraintProofs CostProofs.
Import ListNotations.
Local Open Scope R_scope.

Lemma noop_zero pat H : pat = [] -> zero_outside pat H -> H = mzero.
Proof. intros -> Z. apply functional_extensionality; intros i. apply functional_extensionality; intros j. apply Z. simpl; tauto. Qed.
Lemma noop_vzero sup g : sup = [] -> vzero_outside sup g -> g = vzero.
Proof. intros -> Z. apply functional_extensionality; intros i. apply Z. simpl; tauto. Qed.

(** Costs that do not depend on the control: trivial control derivatives. *)
Lemma no_control_hessian (v : R) u H : zero_outside [] H -> is_hessian (fun _ => v) u H.
Proof. intros Z. rewrite (noop_zero [] H eq_refl Z). apply hessian_const. Qed.
Lemma no_control_mixed rs x u H (f : vec -> R) : (forall y, f y = quad rs y) -> zero_outside [] H ->
  is_mixed_hessian (fun y _ => f y) x u H.
Proof.
  intros E Z. rewrite (noop_zero [] H eq_refl Z). apply (mixed_const_control f (quad_grad rs)).
  intros y. eapply gradient_ext; [symmetry; apply E|]. intros k. apply quad_gradient.
Qed.
Lemma quad_grad_ok rs x (f : vec -> R) g : (forall y, f y = quad rs y) -> g = quad_grad rs x -> is_gradient f x g.
Proof. intros E ->. eapply gradient_ext; [symmetry; apply E|]. intros k; apply quad_gradient. Qed.
Lemma quad_hess_ok rs x (f : vec -> R) H : (forall y, f y = quad rs y) -> H = quad_hess rs -> is_hessian f x H.
Proof. intros E ->. eapply hessian_ext; [symmetry; apply E|]. apply quad_hessian. Qed.

(** Support of the component gradients / Hessians. *)
Definition comp_sup (m : nat) (l : list nat) : list nat := flat_map (fun o => seq o m) l.
Definition comp_pat (m : nat) (l : list nat) (p : nat * nat) : Prop :=
  exists a b, In a l /\ In b l /\ In p (identity_block a b m).
Lemma quad_grad_zero m P w d x sup :
  (forall k, In k (comp_sup m (map fst P)) -> In k sup) -> vzero_outside sup (quad_grad (comp_resids m P w d) x).
Proof.
  intros H k N. apply quad_grad_out. intros o q c Hi Hc ->. apply N, H.
  unfold comp_sup. apply in_flat_map. exists o. split. { apply (in_map fst) in Hi; auto. } apply in_seq; lia.
Qed.
Lemma quad_hess_zero m P w d pat :
  (forall p, comp_pat m (map fst P) p -> In p pat) -> zero_outside pat (quad_hess (comp_resids m P w d)).
Proof.
  intros H i j N. apply quad_hess_out. intros o1 q1 o2 q2 c H1 H2 Hc E. apply N, H.
  exists o1, o2. split. { apply (in_map fst) in H1; auto. } split. { apply (in_map fst) in H2; auto. }
  apply in_identity_block. exists c. split; auto.
Qed.
Lemma pat_blk m a b i j : In (i, j) (identity_block a b m) -> blk m a b i j = true.
Proof. intros H. apply in_identity_block in H. destruct H as [c [Hc E]]. injection E; intros; subst. apply blk_spec. exists c, c. auto. Qed.

Lemma seg_out sup g o n f : (forall i, (o <= i < o + n)%nat -> In i sup) -> vzero_outside sup g -> vzero_outside sup (set_seg g o n f).
Proof.
  intros C Z i N. unfold set_seg. destruct (in_range o n i) eqn:B; [|apply Z; auto].
  exfalso. apply N, C. apply in_range_spec; auto.
Qed.
Lemma fold_seg_out sup n (f : nat -> nat -> R) l g : (forall o i, In o l -> (o <= i < o + n)%nat -> In i sup) ->
  vzero_outside sup g -> vzero_outside sup (fold_left (fun g o => set_seg g o n (f o)) l g).
Proof.
  revert g; induction l as [|o l IH]; intros g C Z; simpl; auto.
  apply IH. { intros; eapply C; simpl; eauto. } apply seg_out; auto. intros; apply (C o); simpl; auto.
Qed.

Section FM.
  Variable c : fm_cfg.
  Variables x0 u0 : vec.
  Hypothesis D : disjoint_ranges 3 (fm_own c :: fm_others c).
  Let ok := kreach fm_class no_other (fm_ctor c x0 u0).

  Lemma fm_inv s : ok s -> fst s = c /\ vzero_outside (q_sgrad (fm_sup s)) (k_sg (snd s)) /\ k_cg (snd s) = vzero.
  Proof.
    unfold ok. revert s. apply kreach_inv.
    - repeat split; intros k _; reflexivity.
    - kstep.
    - intros [c' w] t x u g [? [Z Zc]]; simpl in *; subst c'. repeat split; auto.
      apply (fold_seg_out _ 2 (fun _ a => _)).
      + intros o i Ho Hi. simpl. right; right. apply in_flat_map. exists o. split; auto. simpl. lia.
      + apply seg_out; auto. intros i Hi. simpl. lia.
    - kstep.
    - kstep.
    - kstep.
    - kstep.
    - intros ? ? ? [].
  Qed.

  Let inv := 1 / (INR (length (fm_others c)) + 1).
  Definition fm_P : list (nat * R) := (fm_own c, 1 - inv) :: map (fun o => (o, - inv)) (fm_others c).
  Definition fm_rs := comp_resids 2 fm_P (fun _ => 1) vzero.
  Lemma fm_P_fst : map fst fm_P = fm_own c :: fm_others c.
  Proof. unfold fm_P. simpl. rewrite map_map. simpl. rewrite map_id. reflexivity. Qed.
  Lemma fm_pos : INR (length (fm_others c)) + 1 <> 0.
  Proof. pose proof (pos_INR (length (fm_others c))). lra. Qed.
  Lemma fm_diff_lf x a : fm_diff c x a = lsum (fun p => snd p * x (fst p + a)%nat) fm_P.
  Proof.
    unfold fm_diff. fold inv. rewrite (fold_sum (fun o => seg x o a)).
    unfold fm_P. simpl. rewrite lsum_map. simpl. rewrite lsum_scal. unfold seg. ring.
  Qed.
  Lemma fm_value_quad x : force_mean_value (fm_own c) (fm_own c :: fm_others c) x = quad fm_rs x.
  Proof.
    unfold fm_rs. rewrite quad_comp. unfold force_mean_value, lmean.
    change (length (fm_own c :: fm_others c)) with (S (length (fm_others c))). rewrite S_INR.
    simpl. rewrite !lsum_map. simpl. rewrite !lsum_scal. unfold inv, vzero. field. apply fm_pos.
  Qed.

  Lemma fm_hess_zero w : zero_outside (q_shess (fm_sup (c, w))) (quad_hess fm_rs).
  Proof.
    apply quad_hess_zero. rewrite fm_P_fst. intros p [a [b [Ha [Hb Hp]]]]. unfold fm_sup, q_shess; cbv zeta; cbn [fst]. rewrite !in_app_iff.
    destruct Ha as [<-|Ha]; destruct Hb as [<-|Hb].
    - left. exact Hp.
    - right; left. apply in_flat_map. exists b. split; auto. apply in_or_app; auto.
    - right; left. apply in_flat_map. exists a. split; auto. apply in_or_app; auto.
    - right; right. apply (in_pair_list (fun o : nat => o) (fun r c => identity_block r c 2)). exists a, b; auto.
  Qed.

  Theorem fm_exact : cost_exact fm_class ok always_valid fm_value fm_sup.
  Proof.
    kstart fm_inv.
    - f_equal. unfold fm_value; simpl. rewrite fm_value_quad. unfold fm_rs. rewrite quad_comp. simpl.
      rewrite !fm_diff_lf. unfold vzero, kset_x; simpl. unfold Rdiv. field.
    - give. match goal with |- vzero_outside _ ?g' /\ _ => assert (E : g' = quad_grad fm_rs x) end.
      { apply (vwrites_total (quad_grad fm_rs x) (fun i => existsb (fun o => in_range o 2 i) (fm_others c) || in_range (fm_own c) 2 i)
          (fun g => fold_left (fun g o => set_seg g o 2 (fun a => - inv * fm_diff c x a)) (fm_others c)
                      (set_seg g (fm_own c) 2 (fun a => (1 - inv) * fm_diff c x a))) (q_sgrad (fm_sup (c, w)))).
        - apply (vwrites_comp _ _ _ (fun g => set_seg g (fm_own c) 2 (fun a => (1 - inv) * fm_diff c x a))
                   (fun g => fold_left (fun g o => set_seg g o 2 (fun a => - inv * fm_diff c x a)) (fm_others c) g)).
          + apply vwrites_seg. intros a Ha. unfold fm_rs.
            rewrite (quad_grad_at 2 3 fm_P _ _ x (fm_own c) (1 - inv)); auto.
            * rewrite fm_diff_lf. unfold vzero; ring.
            * rewrite fm_P_fst; auto.
            * left; auto.
          + apply (vwrites_fold _ (fun o => in_range o 2) (fun o g => set_seg g o 2 (fun a => - inv * fm_diff c x a))).
            intros o Ho. apply vwrites_seg. intros a Ha. unfold fm_rs.
            rewrite (quad_grad_at 2 3 fm_P _ _ x o (- inv)); auto.
            * rewrite fm_diff_lf. unfold vzero; ring.
            * rewrite fm_P_fst; auto.
            * right. apply in_map_iff. exists o; auto.
        - apply quad_grad_zero. rewrite fm_P_fst. intros k Hk. exact Hk.
        - simpl. auto.
        - intros i Hi. simpl in Hi. apply orb_true_iff.
          destruct Hi as [<-|[<-|Hi]].
          + right. apply in_range_spec; lia.
          + right. apply in_range_spec; lia.
          + left. apply in_flat_map in Hi. destruct Hi as [o [Ho Hi]]. apply existsb_exists. exists o. split; auto.
            apply in_range_spec. simpl in Hi. lia. }
      split.
      + rewrite E. apply quad_grad_zero. rewrite fm_P_fst. intros k Hk. exact Hk.
      + eapply quad_grad_ok; [|exact E]. intros y. unfold fm_value; simpl. apply fm_value_quad.
    - unfold buffer_cgrad; simpl. give. match goal with H : k_cg _ = _ |- _ => rewrite H end.
      split; [intros k _; reflexivity|]. unfold fm_value; simpl. apply gradient_const.
    - give. match goal with |- zero_outside ?pat ?H' /\ _ => assert (E : H' = quad_hess fm_rs) end.
      { assert (at_ : forall o1 q1 o2 q2 a b, In (o1, q1) fm_P -> In (o2, q2) fm_P -> (a < 2)%nat -> (b < 2)%nat ->
           scaled_identity (q1 * q2) a b = quad_hess fm_rs (o1 + a) (o2 + b)).
        { intros. unfold fm_rs. rewrite (quad_hess_at 2 3 fm_P _ _ o1 q1 o2 q2); auto.
          - unfold scaled_identity. destruct (Nat.eqb a b); ring.
          - rewrite fm_P_fst; auto. }
        assert (Iown : In (fm_own c, 1 - inv) fm_P) by (left; auto).
        assert (Iot : forall o, In o (fm_others c) -> In (o, - inv) fm_P). { intros o Ho. right. apply in_map_iff. exists o; auto. }
        destruct (writes_pairs (quad_hess fm_rs) (fun o : nat => o) 2
             (fun a H => set_block H a a 2 2 (scaled_identity (inv * inv)))
             (fun a b H => let H := set_block H a b 2 2 (scaled_identity (inv * inv)) in
                           set_block H b a 2 2 (block_of H a b)) (fm_others c)) as [W [HW CW]].
        - intros a Ha. apply writes_block. intros. rewrite <- (at_ a (- inv) a (- inv)); auto. f_equal; ring.
        - intros a b Ha Hb. apply writes_block_copy.
          + intros. rewrite <- (at_ a (- inv) b (- inv)); auto. f_equal; ring.
          + intros. rewrite <- (at_ b (- inv) a (- inv)); auto. f_equal; ring.
        - pose proof (writes_block (quad_hess fm_rs) 2 (fm_own c) (fm_own c) (scaled_identity ((1 - inv) * (1 - inv)))
             (fun a b Ha Hb => at_ _ _ _ _ a b Iown Iown Ha Hb)) as W1.
          pose proof (writes_fold (quad_hess fm_rs) (fun o i j => blk 2 o (fm_own c) i j || blk 2 (fm_own c) o i j)
             (fun o H => let H := set_block H (fm_own c) o 2 2 (scaled_identity (- inv * (1 - inv))) in
                         set_block H o (fm_own c) 2 2 (block_of H (fm_own c) o)) (fm_others c)) as W2.
          assert (W2' := W2 (fun o Ho => writes_block_copy (quad_hess fm_rs) 2 (fm_own c) o (scaled_identity (- inv * (1 - inv)))
             (fun a b Ha Hb => eq_trans (f_equal (fun q => scaled_identity q a b) (Rmult_comm _ _)) (at_ _ _ _ _ a b Iown (Iot o Ho) Ha Hb))
             (fun a b Ha Hb => at_ _ _ _ _ a b (Iot o Ho) Iown Ha Hb))).
          pose proof (writes_comp _ _ _ _ _ (writes_comp _ _ _ _ _ W1 W2') HW) as WT.
          eapply (writes_total (quad_hess fm_rs) _ _ (q_shess (fm_sup (c, w))) H WT).
          + apply fm_hess_zero.
          + assumption.
          + intros i j Hp. simpl in Hp. cbv beta.
            apply orb_true_iff.
            change (In (i, j) (identity_block (fm_own c) (fm_own c) 2 ++ flat_map (fun o => identity_block (fm_own c) o 2 ++ identity_block o (fm_own c) 2) (fm_others c)
                ++ pair_list (fun a => identity_block a a 2) (fun a b => identity_block a b 2 ++ identity_block b a 2) (fm_others c))) in Hp.
            rewrite !in_app_iff in Hp. destruct Hp as [Hp|[Hp|Hp]].
            * right. apply orb_true_iff; right. apply pat_blk; auto.
            * right. apply orb_true_iff; left. apply in_flat_map in Hp. destruct Hp as [o [Ho Hp]].
              apply existsb_exists. exists o. split; auto. apply orb_true_iff. apply in_app_or in Hp.
              destruct Hp as [Hp|Hp]; [right|left]; apply pat_blk; auto.
            * left. apply (in_pair_list (fun o : nat => o) (fun r c => identity_block r c 2)) in Hp.
              destruct Hp as [a [b [Ha [Hb Hp]]]]. apply (CW a b); auto. apply pat_blk; auto. }
      split.
      + rewrite E. apply (fm_hess_zero w).
      + eapply quad_hess_ok; [|exact E]. intros y. unfold fm_value; simpl. apply fm_value_quad.
    - give. split; [auto|]. unfold fm_value; simpl. apply no_control_hessian; auto.
    - give. split; [auto|]. unfold fm_value; simpl. eapply (no_control_mixed fm_rs); auto. intros; apply fm_value_quad.
    - auto 10.
  Qed.
End FM.

(** Entry-wise writes. *)
Lemma writes_mset F i j v : v = F i j -> writes F (blk 1 i j) (fun H => mset H i j v).
Proof.
  intros E H a b. rewrite mset_block. apply (writes_block F 1 i j (fun _ _ => v)).
  intros p q Hp Hq. replace p with O by lia. replace q with O by lia. rewrite !Nat.add_0_r. auto.
Qed.
Lemma writes_mset_copy F i j v : v = F i j -> v = F j i ->
  writes F (fun a b => blk 1 j i a b || blk 1 i j a b) (fun H => let H := mset H i j v in mset H j i (H i j)).
Proof.
  intros E E' H a b. cbv zeta.
  assert (X : mset H i j v i j = v). { unfold mset. rewrite !Nat.eqb_refl. reflexivity. }
  rewrite X. apply (writes_comp F _ _ (fun H => mset H i j v) (fun H => mset H j i v)); apply writes_mset; auto.
Qed.
Lemma vwrites_vset F i v : v = F i -> vwrites F (in_range i 1) (fun g => vset g i v).
Proof.
  intros E g a. rewrite vset_seg. apply (vwrites_seg F i 1 (fun _ => v)).
  intros p Hp. replace p with O by lia. rewrite Nat.add_0_r. auto.
Qed.
Lemma disjoint_shift n m l : (m <= n)%nat -> disjoint_ranges n l -> disjoint_ranges m (map (fun o => (o + 2)%nat) l).
Proof.
  intros L. induction l; simpl; auto. intros [H D]. split; auto.
  intros b Hb. apply in_map_iff in Hb. destruct Hb as [b' [<- Hb]]. specialize (H b' Hb). lia.
Qed.

Lemma fold_vset_out sup (f : nat -> R) l g : (forall o, In o l -> In (o + 2)%nat sup) ->
  vzero_outside sup g -> vzero_outside sup (fold_left (fun g o => vset g (o + 2) (f o)) l g).
Proof.
  revert g; induction l as [|o l IH]; intros g C Z; simpl; auto.
  apply IH. { intros; apply C; simpl; auto. } rewrite vset_seg. apply seg_out; auto.
  intros i Hi. replace i with (o + 2)%nat by lia. apply C; simpl; auto.
Qed.

Section FRT.
  Variable own : nat.
  Variable others : list nat.
  Variables x0 u0 : vec.
  Hypothesis D : disjoint_ranges 3 (own :: others).
  Let ok := kreach frt_class frt_other (frt_ctor own others x0 u0).

  Lemma frt_inv s : ok s -> frt_own (fst s) = own /\ frt_others (fst s) = others /\
     vzero_outside (q_sgrad (frt_sup s)) (k_sg (snd s)) /\ k_cg (snd s) = vzero.
  Proof.
    unfold ok. revert s. apply kreach_inv.
    - repeat split; intros k _; reflexivity.
    - kstep.
    - intros [c w] t x u g [? [? [Z Zc]]]; simpl in *. repeat split; auto.
      assert (Z1 : vzero_outside (map (fun o => (o + 2)%nat) (frt_own c :: frt_others c)) (vset (k_sg w) (frt_own c + 2) ((1 - frt_ratio c) * frt_diff c x))).
      { rewrite vset_seg. apply seg_out; auto. intros i Hi. left. lia. }
      apply (fold_vset_out _ (fun _ => _)); auto. intros o Ho. right. apply in_map_iff. exists o; auto.
    - kstep.
    - kstep.
    - kstep.
    - kstep.
    - intros [c w] s' H [r ->]. simpl in *. auto.
  Qed.

  Definition frt_P (r : R) : list (nat * R) := ((own + 2)%nat, 1 - r) :: map (fun o => ((o + 2)%nat, - r)) others.
  Definition frt_rs r := comp_resids 1 (frt_P r) (fun _ => 1) vzero.
  Lemma frt_P_fst r : map fst (frt_P r) = map (fun o => (o + 2)%nat) (own :: others).
  Proof. unfold frt_P. simpl. rewrite map_map. reflexivity. Qed.
  Lemma frt_diff_lf c x : frt_own c = own -> frt_others c = others ->
    frt_diff c x = lsum (fun p => snd p * x (fst p + 0)%nat) (frt_P (frt_ratio c)).
  Proof.
    intros E1 E2. unfold frt_diff. rewrite (fold_sum (fun o => seg x o 2%nat)), E1, E2.
    unfold frt_P. simpl. rewrite lsum_map. simpl. rewrite Nat.add_0_r.
    rewrite (lsum_ext (fun a => - frt_ratio c * x (a + 2 + 0)%nat) (fun a => - frt_ratio c * x (a + 2)%nat)).
    - rewrite lsum_scal. unfold seg. ring.
    - intros. rewrite Nat.add_0_r. reflexivity.
  Qed.
  Lemma frt_value_quad r x : force_ratio_value r own (own :: others) x = quad (frt_rs r) x.
  Proof.
    unfold frt_rs. rewrite quad_comp. unfold force_ratio_value. simpl.
    rewrite !lsum_map. simpl. rewrite Nat.add_0_r.
    rewrite (lsum_ext (fun a => - r * x (a + 2 + 0)%nat) (fun a => - r * x (a + 2)%nat)).
    - rewrite !lsum_scal. unfold vzero. field.
    - intros. rewrite Nat.add_0_r. reflexivity.
  Qed.
  Lemma frt_disj r : disjoint_ranges 1 (map fst (frt_P r)).
  Proof. rewrite frt_P_fst. apply (disjoint_shift 3); auto. Qed.
  Lemma frt_own_in r : In ((own + 2)%nat, 1 - r) (frt_P r). Proof. left; auto. Qed.
  Lemma frt_others_in r o : In o others -> In ((o + 2)%nat, - r) (frt_P r).
  Proof. intros. right. apply in_map_iff. exists o; auto. Qed.
  Lemma frt_at r i p j q : In (i, p) (frt_P r) -> In (j, q) (frt_P r) -> p * q = quad_hess (frt_rs r) i j.
  Proof.
    intros. rewrite <- (Nat.add_0_r i), <- (Nat.add_0_r j). unfold frt_rs.
    rewrite (quad_hess_at 1 1 (frt_P r) _ _ i p j q); auto; try apply frt_disj. simpl. ring.
  Qed.
  Lemma frt_gat r x i p : In (i, p) (frt_P r) ->
    p * lsum (fun p => snd p * x (fst p + 0)%nat) (frt_P r) = quad_grad (frt_rs r) x i.
  Proof.
    intros. rewrite <- (Nat.add_0_r i) at 1. unfold frt_rs.
    rewrite (quad_grad_at 1 1 (frt_P r) _ _ x i p); auto; try apply frt_disj. unfold vzero. ring.
  Qed.
  Lemma frt_grad_zero r x : vzero_outside (map (fun o => (o + 2)%nat) (own :: others)) (quad_grad (frt_rs r) x).
  Proof.
    apply quad_grad_zero. rewrite frt_P_fst. intros k Hk. unfold comp_sup in Hk. apply in_flat_map in Hk.
    destruct Hk as [o [Ho Hk]]. simpl in Hk. destruct Hk as [<-|[]]. auto.
  Qed.
  Definition frt_pat := [((own + 2)%nat, (own + 2)%nat)]
                ++ flat_map (fun o => [((own + 2)%nat, (o + 2)%nat); ((o + 2)%nat, (own + 2)%nat)]) others
                ++ pair_list (fun a => [((a + 2)%nat, (a + 2)%nat)])
                             (fun a b => [((a + 2)%nat, (b + 2)%nat); ((b + 2)%nat, (a + 2)%nat)]) others.
  Lemma frt_pat_pairs p : In p (pair_list (fun a => [((a + 2)%nat, (a + 2)%nat)])
                             (fun a b => [((a + 2)%nat, (b + 2)%nat); ((b + 2)%nat, (a + 2)%nat)]) others) <->
     exists a b, In a others /\ In b others /\ p = ((a + 2)%nat, (b + 2)%nat).
  Proof.
    rewrite (in_pair_list (fun o : nat => (o + 2)%nat) (fun r c => [(r, c)]) others p). simpl.
    split; intros [a [b H]]; exists a, b; intuition.
  Qed.
  Lemma frt_hess_zero r : zero_outside frt_pat (quad_hess (frt_rs r)).
  Proof.
    apply quad_hess_zero. rewrite frt_P_fst. intros p [a [b [Ha [Hb Hp]]]]. unfold frt_pat. rewrite !in_app_iff.
    apply in_identity_block in Hp. destruct Hp as [z [Hz ->]]. replace z with O by lia. rewrite !Nat.add_0_r.
    apply in_map_iff in Ha, Hb. destruct Ha as [a' [<- Ha]]. destruct Hb as [b' [<- Hb]].
    destruct Ha as [<-|Ha]; destruct Hb as [<-|Hb].
    - left. left; auto.
    - right; left. apply in_flat_map. exists b'. split; simpl; auto.
    - right; left. apply in_flat_map. exists a'. split; simpl; auto.
    - right; right. apply frt_pat_pairs. exists a', b'; auto.
  Qed.
  Lemma blk1 i j : blk 1 i j i j = true.
  Proof. apply blk_spec. exists O, O. lia. Qed.

  Theorem frt_exact : cost_exact frt_class ok always_valid frt_value frt_sup.
  Proof.
    kstart_ns frt_inv; match goal with E1 : frt_own _ = _, E2 : frt_others _ = _ |- _ => unfold frt_value in *; simpl in *; rewrite ?E1, ?E2 in * end.
    - f_equal. rewrite frt_value_quad. unfold frt_rs. rewrite quad_comp.
      rewrite frt_diff_lf by auto. cbn [sumn]. unfold vzero. field.
    - give. match goal with |- vzero_outside _ ?g' /\ _ => assert (E : g' = quad_grad (frt_rs (frt_ratio cf)) x) end.
      { set (F := quad_grad (frt_rs (frt_ratio cf)) x).
        pose proof (vwrites_vset F (own + 2) ((1 - frt_ratio cf) * frt_diff cf x)) as W1.
        rewrite (frt_diff_lf cf x) in * by auto.
        specialize (W1 (frt_gat (frt_ratio cf) x _ _ (frt_own_in _))).
        pose proof (vwrites_fold F (fun o => in_range (o + 2) 1) (fun o g => vset g (o + 2) (- frt_ratio cf * lsum (fun p => snd p * x (fst p + 0)%nat) (frt_P (frt_ratio cf)))) (others)) as W2.
        specialize (W2 (fun o Ho => vwrites_vset F (o + 2) _ (frt_gat (frt_ratio cf) x _ _ (frt_others_in _ o Ho)))).
        eapply (vwrites_total F _ _ _ (k_sg w) (vwrites_comp F _ _ _ _ W1 W2)).
        - apply frt_grad_zero.
        - assumption.
        - intros i [<-|Hi]; apply orb_true_iff; [right; apply in_range_spec; lia|left].
          apply in_map_iff in Hi. destruct Hi as [o [<- Ho]]. apply existsb_exists. exists o. split; auto. apply in_range_spec; lia. }
      split. { rewrite E. apply frt_grad_zero. }
      eapply quad_grad_ok; [|exact E]. intros y. apply frt_value_quad.
    - unfold buffer_cgrad; simpl. give. match goal with H : k_cg _ = _ |- _ => rewrite H end.
      split; [intros k _; reflexivity|]. apply gradient_const.
    - give. match goal with |- zero_outside ?pat ?H' /\ _ => assert (E : H' = quad_hess (frt_rs (frt_ratio cf))) end.
      { set (r := frt_ratio cf) in *. set (F := quad_hess (frt_rs r)).
        destruct (writes_pairs F (fun o : nat => (o + 2)%nat) 1
             (fun a H => mset H (a + 2) (a + 2) (r * r))
             (fun a b H => let H := mset H (a + 2) (b + 2) (r * r) in
                           mset H (b + 2) (a + 2) (H (a + 2)%nat (b + 2)%nat)) (others)) as [W [HW CW]].
        - intros a Ha. apply writes_mset. unfold F. rewrite <- (frt_at r _ (- r) _ (- r)); try (apply frt_others_in; auto). ring.
        - intros a b Ha Hb. apply writes_mset_copy; unfold F; rewrite <- (frt_at r _ (- r) _ (- r)); try (apply frt_others_in; auto); ring.
        - pose proof (writes_mset F (own + 2) (own + 2) ((1 - r) * (1 - r)) (frt_at r _ _ _ _ (frt_own_in r) (frt_own_in r))) as W1.
          pose proof (writes_fold F (fun o i j => blk 1 (o + 2) (own + 2) i j || blk 1 (own + 2) (o + 2) i j)
             (fun o H => let H := mset H (own + 2) (o + 2) (- r * (1 - r)) in
                         mset H (o + 2) (own + 2) (H (own + 2)%nat (o + 2)%nat)) (others)) as W2.
          assert (W2' := W2 (fun o Ho => writes_mset_copy F (own + 2) (o + 2) (- r * (1 - r))
             (eq_trans (Rmult_comm _ _) (frt_at r _ _ _ _ (frt_own_in r) (frt_others_in r o Ho)))
             (frt_at r _ _ _ _ (frt_others_in r o Ho) (frt_own_in r)))).
          pose proof (writes_comp _ _ _ _ _ (writes_comp _ _ _ _ _ W1 W2') HW) as WT.
          eapply (writes_total F _ _ frt_pat H WT).
          + apply frt_hess_zero.
          + assumption.
          + intros i j Hp. cbv beta. apply orb_true_iff. unfold frt_pat in Hp. rewrite !in_app_iff in Hp.
            destruct Hp as [Hp|[Hp|Hp]].
            * right. apply orb_true_iff; right. destruct Hp as [E|[]]. injection E; intros; subst. apply blk1.
            * right. apply orb_true_iff; left. apply in_flat_map in Hp. destruct Hp as [o [Ho Hp]].
              apply existsb_exists. exists o. split; auto. apply orb_true_iff.
              destruct Hp as [E|[E|[]]]; injection E; intros; subst; [right|left]; apply blk1.
            * left. apply frt_pat_pairs in Hp. destruct Hp as [a [b [Ha [Hb E]]]]. injection E; intros; subst.
              apply (CW a b); auto. apply blk1. }
      split. { rewrite E. apply frt_hess_zero. }
      eapply quad_hess_ok; [|exact E]. intros y. apply frt_value_quad.
    - give. split; [auto|]. apply no_control_hessian; auto.
    - give. split; [auto|]. eapply (no_control_mixed (frt_rs (frt_ratio cf))); auto. intros; apply frt_value_quad.
    - auto 10.
  Qed.
End FRT.
