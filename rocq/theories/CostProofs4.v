From Coq Require Import Reals List Arith Lia Lra Bool FunctionalExtensionality.
From Coquelicot Require Import Coquelicot.
From Verif Require Import Spec SpecConstraints SpecCosts Smoothing ConstraintsModel ConstraintStatements
  CostsModel CostStatements SmoothingProofs PartialLib QuadLib ConstraintProofs CostProofs CostProofs2 CostProofs3.
Import ListNotations.
Local Open Scope R_scope.

Lemma quad_hess_zero_resids rs pat :
  (forall r i k, In r rs -> In i (map fst (rl r)) -> In k (map fst (rl r)) -> In (i, k) pat) ->
  zero_outside pat (quad_hess rs).
Proof.
  intros C i k N. unfold quad_hess. rewrite (lsum_ext _ (fun _ => 0)); [apply lsum_0|].
  intros r Hr. destruct (in_dec Nat.eq_dec i (map fst (rl r))) as [Hi|Hi]; [|rewrite (co_out _ i); auto; ring].
  destruct (in_dec Nat.eq_dec k (map fst (rl r))) as [Hk|Hk]; [|rewrite (co_out _ k); auto; ring].
  exfalso. apply N. eapply C; eauto.
Qed.
Lemma quad_grad_zero_resids rs x sup :
  (forall r i, In r rs -> In i (map fst (rl r)) -> In i sup) -> vzero_outside sup (quad_grad rs x).
Proof.
  intros C i N. unfold quad_grad. rewrite (lsum_ext _ (fun _ => 0)); [apply lsum_0|].
  intros r Hr. rewrite co_out; [ring|]. intros I. apply N. eapply C; eauto.
Qed.

(** * Foot yaw *)
Section FYSel.
  Variables (cx cy : R).
  Variable pts : list (R * R).
  Definition px i := fst (nth i pts (0, 0)) - cx.
  Definition py i := snd (nth i pts (0, 0)) - cy.
  Definition sel_ok (s : fy_sel) : Prop :=
    (forall i, sel_br s = Some i -> (i < length pts)%nat /\ px i < 0 /\ py i < 0) /\
    (forall i, sel_tr s = Some i -> (i < length pts)%nat /\ 0 < px i /\ py i < 0) /\
    (forall i, sel_tl s = Some i -> (i < length pts)%nat /\ 0 < px i /\ 0 <= py i).
  Lemma fy_step_ok s i : (i < length pts)%nat -> sel_ok s -> sel_ok (fy_select_step cx cy s (i, nth i pts (0, 0))).
  Proof.
    intros Hi [A [B C]]. unfold fy_select_step.
    destruct (Rlt_dec (snd (nth i pts (0, 0)) - cy) 0) as [Hy|Hy];
    [destruct (Rlt_dec (fst (nth i pts (0, 0)) - cx) 0) as [Hx|Hx]|];
    repeat match goal with |- context [Rlt_dec ?a ?b] => destruct (Rlt_dec a b) end;
    repeat match goal with |- context [fy_better ?a ?b ?c] => destruct (fy_better a b c) end;
    unfold sel_ok; simpl; (split; [|split]); intros j E; try (injection E; intros; subst j); auto;
    unfold px, py; repeat split; try lra; auto; try (apply A; auto); try (apply B; auto); try (apply C; auto).
  Qed.
  Lemma fy_fold_ok l s : (forall ip, In ip l -> (fst ip < length pts)%nat /\ snd ip = nth (fst ip) pts (0, 0)) ->
    sel_ok s -> sel_ok (fold_left (fy_select_step cx cy) l s).
  Proof.
    revert s. induction l as [|[i p] l IH]; simpl; auto. intros s H Hs. apply IH; auto.
    destruct (H (i, p)) as [H1 H2]; auto. simpl in *. subst p. apply fy_step_ok; auto.
  Qed.
End FYSel.
Lemma combine_nth_in pts ip : In ip (combine (seq 0 (length pts)) pts) ->
  (fst ip < length pts)%nat /\ snd ip = nth (fst ip) pts (0, 0).
Proof.
  intros H. apply (In_nth _ _ (O, (0, 0))) in H. destruct H as [n [Hn E]].
  rewrite combine_length, seq_length, Nat.min_id in Hn.
  rewrite combine_nth in E by (rewrite seq_length; auto). rewrite seq_nth in E by auto. subst ip. simpl. auto.
Qed.
Lemma fy_select_ok pts : exists cx cy, sel_ok cx cy pts (fy_select pts).
Proof.
  unfold fy_select. eexists. eexists. apply fy_fold_ok. { apply combine_nth_in. }
  unfold sel_ok; simpl; repeat split; discriminate.
Qed.
Lemma fy_select_distinct pts b r l : sel_br (fy_select pts) = Some b -> sel_tr (fy_select pts) = Some r -> sel_tl (fy_select pts) = Some l ->
  (b < length pts /\ r < length pts /\ l < length pts /\ b <> r /\ b <> l /\ r <> l)%nat.
Proof.
  intros Eb Er El. destruct (fy_select_ok pts) as [cx [cy [A [B C]]]].
  destruct (A _ Eb), (B _ Er), (C _ El). repeat split; auto; intros ->; lra.
Qed.

Section FY.
  Variable off : nat -> nat.
  Variable pts : list (R * R).
  Variables x0 u0 : vec.
  Variable s0 : fy.
  Hypothesis CT : fy_ctor off pts x0 u0 = Some s0.
  Hypothesis D : disjoint_ranges 3 (map off (seq 0 (length pts))).
  Let ok := kreach fy_class fy_other s0.

  Lemma off_disj i j : (i < length pts)%nat -> (j < length pts)%nat -> i <> j -> (off i + 3 <= off j \/ off j + 3 <= off i)%nat.
  Proof.
    clear CT. revert D. generalize (length pts) as n. intros n. 
    assert (G : forall m, disjoint_ranges 3 (map off (seq m n)) -> forall i j, (m <= i < m + n)%nat -> (m <= j < m + n)%nat -> i <> j ->
       (off i + 3 <= off j \/ off j + 3 <= off i)%nat).
    { induction n as [|n IH]; simpl; intros m [] a b Ha Hb N; try lia. 
      destruct (Nat.eq_dec a m) as [->|Na]; destruct (Nat.eq_dec b m) as [->|Nb]; try lia.
      - apply H. apply in_map. apply in_seq. lia.
      - destruct (H (off a)); [apply in_map; apply in_seq; lia|lia|lia].
      - apply (IH (S m)); auto; lia. }
    intros. apply (G O); auto; lia.
  Qed.
  Lemma fy_corners : exists b r l, (b < length pts /\ r < length pts /\ l < length pts /\ b <> r /\ b <> l /\ r <> l)%nat /\
     fy_br (fst s0) = off b /\ fy_tr (fst s0) = off r /\ fy_tl (fst s0) = off l /\
     fy_init (fst s0) = atan2 (snd (nth r pts (0, 0)) - snd (nth b pts (0, 0))) (fst (nth r pts (0, 0)) - fst (nth b pts (0, 0))) /\
     sel_br (fy_select pts) = Some b /\ sel_tr (fy_select pts) = Some r /\ sel_tl (fy_select pts) = Some l.
  Proof.
    unfold fy_ctor in CT. destruct (sel_br (fy_select pts)) as [b|] eqn:Eb; [|discriminate].
    destruct (sel_tr (fy_select pts)) as [r|] eqn:Er; [|discriminate].
    destruct (sel_tl (fy_select pts)) as [l|] eqn:El; [|discriminate].
    injection CT; intros <-. exists b, r, l. split; [apply fy_select_distinct; auto|]. simpl. auto 10.
  Qed.

  Lemma fy_inv s : ok s -> fy_init (fst s) = fy_init (fst s0) /\ fy_br (fst s) = fy_br (fst s0) /\ fy_tr (fst s) = fy_tr (fst s0) /\ fy_tl (fst s) = fy_tl (fst s0).
  Proof.
    unfold ok. revert s. apply kreach_inv; auto;
    try (intros [c w] t x u; try intros ?; intros; simpl in *; destruct (fy_ref c t); simpl; auto).
    intros [c w] s' H [r ->]. simpl in *. auto.
  Qed.

  Definition fy_rs (psi : R) (br tr tl : nat) : list resid :=
    [ {| rw := 1; rl := [((tr + 1)%nat, cos psi); ((br + 1)%nat, - cos psi); (tr, - sin psi); (br, sin psi)]; rd := 0 |};
      {| rw := 1; rl := [(tl, cos psi); (tr, - cos psi); ((tl + 1)%nat, sin psi); ((tr + 1)%nat, - sin psi)]; rd := 0 |} ].
  Lemma fy_value_quad psi br tr tl x : foot_yaw_value psi br tr tl x = quad (fy_rs psi br tr tl) x.
  Proof. unfold foot_yaw_value, quad, fy_rs, lf; simpl. ring. Qed.

  Ltac inds := unfold ind; eqbs; ring.

  Lemma fy_keep : cost_methods_keep_value fy_class ok fy_value.
  Proof. intros [c w] _ t x u g M. repeat split; simpl; destruct (fy_ref c t); reflexivity. Qed.
  Theorem fy_exact : cost_exact fy_class ok fy_valid fy_value fy_sup.
  Proof.
    destruct fy_corners as [b [r [l [[Hb [Hr [Hl [N1 [N2 N3]]]]] [Eb [Er [El _]]]]]]].
    pose proof (off_disj b r Hb Hr N1) as D1. pose proof (off_disj b l Hb Hl N2) as D2. pose proof (off_disj r l Hr Hl N3) as D3.
    set (br := off b) in *. set (tr := off r) in *. set (tl := off l) in *. clearbody br tr tl.
    assert (E0 : forall s, ok s -> fy_br (fst s) = br /\ fy_tr (fst s) = tr /\ fy_tl (fst s) = tl).
    { intros s Hs. destruct (fy_inv s Hs) as [_ [A [B C]]]. rewrite A, B, C. auto. }
    unfold cost_exact; repeat match goal with |- _ /\ _ => split end; [| | | | | |exact fy_keep];
    kstart_ns E0; unfold fy_value, fy_yaw, fy_valid, fy_topBottom, fy_left, seg in *; cbn [fst snd] in *;
      try (match goal with |- context [fy_ref ?c ?t] => destruct (fy_ref c t) as [rf|] eqn:ER; [|congruence] end);
      match goal with A : fy_br ?c = _ , B : fy_tr ?c = _ , C : fy_tl ?c = _ |- _ => rewrite ?A, ?B, ?C in *;
        try (set (psi := rf - fy_init c) in * ) end; rewrite ?Nat.add_0_r.
    - cbn. f_equal. unfold foot_yaw_value. ring.
    - give. cbn [k_x kset_x].
      assert (Z : vzero_outside [tr; (tr + 1)%nat; br; (br + 1)%nat; tl; (tl + 1)%nat] (quad_grad (fy_rs psi br tr tl) x)).
      { apply quad_grad_zero_resids. intros q i [<-|[<-|[]]]; simpl; tauto. }
      match goal with |- vzero_outside _ ?g' /\ _ => assert (E : g' = quad_grad (fy_rs psi br tr tl) x) end.
      { set (F := quad_grad (fy_rs psi br tr tl) x) in *.
        apply functional_extensionality. intros i. unfold vset.
        destruct (in_dec Nat.eq_dec i [tr; (tr + 1)%nat; br; (br + 1)%nat; tl; (tl + 1)%nat]) as [Hi|Hi].
        - simpl in Hi. unfold F, quad_grad, fy_rs, co, lf; simpl.
          repeat (destruct Hi as [<-|Hi]); try contradiction; unfold ind; eqbs; ring.
        - rewrite (Z i Hi). match goal with Hg : vzero_outside _ g |- _ => rewrite <- (Hg i Hi) end. simpl in Hi. eqbs; try reflexivity; exfalso; apply Hi; auto 10. }
      split; [rewrite E; auto|]. eapply quad_grad_ok; [|exact E]. intros; apply fy_value_quad.
    - give. split; [auto|]. rewrite (noop_vzero [] g eq_refl); auto. apply gradient_const.
    - give. 
      match goal with Hz : zero_outside ?p _ |- _ => set (pat := p) in * end.
      assert (Z : zero_outside pat (quad_hess (fy_rs psi br tr tl))).
      { apply quad_hess_zero_resids. unfold pat. intros q i k [<-|[<-|[]]]; simpl; rewrite ?Nat.add_0_r;
        intros Hi Hk; repeat destruct Hi as [<-|Hi]; repeat destruct Hk as [<-|Hk]; try contradiction; auto 40. }
      match goal with |- zero_outside _ ?M /\ _ => assert (E : M = quad_hess (fy_rs psi br tr tl)) end.
      { set (F := quad_hess (fy_rs psi br tr tl)) in *.
        assert (B : forall f r c, (forall a b, (a < 2)%nat -> (b < 2)%nat -> f a b = F (r + a)%nat (c + b)%nat) -> 
                     writes F (blk 2 r c) (fun H => set_block H r c 2 2 f)) by (intros; apply writes_block; auto).
        set (tb := fy_tb_block (sin psi) (cos psi)) in *. set (lr := fy_lr_block (sin psi) (cos psi)) in *.
        assert (W1 := B (fun a b => tb a b + lr a b) tr tr). assert (W2 := B tb br br). assert (W3 := B (fun a b => - tb a b) tr br).
        assert (W4 := B (fun a b => - tb a b) br tr). assert (W5 := B lr tl tl). assert (W6 := B (fun a b => - lr a b) tr tl).
        assert (W7 := B (fun a b => - lr a b) tl tr).
        Ltac entry := let a := fresh "a" in let b' := fresh "b" in intros a b' ? ?; destruct a as [|[|a]]; destruct b' as [|[|b']]; try lia;
            unfold fy_rs, quad_hess, co, fy_tb_block, fy_lr_block; simpl; rewrite ?Nat.add_0_r; unfold ind; eqbs; ring.
        unfold tb, lr, F in W1, W2, W3, W4, W5, W6, W7.
        specialize (W1 ltac:(entry)). specialize (W2 ltac:(entry)). specialize (W3 ltac:(entry)). specialize (W4 ltac:(entry)).
        specialize (W5 ltac:(entry)). specialize (W6 ltac:(entry)). specialize (W7 ltac:(entry)).
        pose proof (writes_comp _ _ _ _ _ (writes_comp _ _ _ _ _ (writes_comp _ _ _ _ _ (writes_comp _ _ _ _ _ (writes_comp _ _ _ _ _ (writes_comp _ _ _ _ _ W1 W2) W3) W4) W5) W6) W7) as W.
        refine (writes_total _ _ _ pat H W _ _ _).
        - exact Z.
        - assumption.
        - intros i j Hij. cbv beta.
          assert (HP : pat = dense_block tr tr 2 2 ++ dense_block br br 2 2 ++ dense_block tr br 2 2 ++ dense_block br tr 2 2
                ++ dense_block tl tl 2 2 ++ dense_block tr tl 2 2 ++ dense_block tl tr 2 2) by reflexivity. rewrite HP in Hij. clearbody pat. rewrite !orb_true_iff, !blk_spec.
          rewrite !in_app_iff, !in_dense_block in Hij;
          repeat match goal with H : _ \/ _ |- _ => destruct H as [Hij|Hij] end; destruct Hij as [a [b' [Ha [Hb' E]]]];
          injection E; intros; subst i j; assert (X : forall p q : nat, exists a0 b0, (a0 < 2)%nat /\ (b0 < 2)%nat /\ (p + a = p + a0)%nat /\ (q + b' = q + b0)%nat) by (intros; exists a, b'; auto); auto 10. }
      split; [rewrite E; unfold pat in Z; rewrite ?Nat.add_0_r in Z; exact Z|]. eapply quad_hess_ok; [|exact E]. intros; apply fy_value_quad.
    - give. split; [auto|]. apply no_control_hessian; auto.
    - give. split; [auto|]. eapply no_control_mixed; auto. intros; apply fy_value_quad.
  Qed.
End FY.
