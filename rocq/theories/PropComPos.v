(** C63: the position of the centre of mass. *)
From Coq Require Import Reals List Arith Lia Lra Bool FunctionalExtensionality.
From Coquelicot Require Import Coquelicot.
From Verif Require Import Spec PartialLib QuadLib SpecQuaternion SpecRigid SpecBase SpecDerivatives SpecFeet SpecCom Rigid RigidCalc KinTree ConstraintsModel CostsModel.
From Verif Require Import KinModel KinLib KinMotion KinProofs QuatCurve PropKin BaseProofs PropBase SymModel SymProofs SymKin MixLib BaseModel FeetModel FeetProofs RatLib ContactProofs PropContact ComModel ComLib ComHess ComCode PropCom ComPosModel ComPosProofs.
Import ListNotations.
Local Open Scope R_scope.

Section ComPos.
Variable r : robot.
Variable place : vec -> nat -> pose.
Variable dofs : nat.
Variable up : nat -> nat -> option (nat * nat).
Variable depth : nat -> nat -> nat.
Variable base : nat.
Variable bt : formula.
Variable jac : vec -> nat -> nat -> nat -> v6.
Variable fvel : env -> nat -> v6.
Variable btw : env -> v6.
Variable quat : m3 -> vec.
Variable mas : masses.
Variable cpos : vec -> vec -> vec -> v3.
Variable cjac : vec -> vec -> vec -> mat.
Variable qri : vec -> mat.
Variable fuel : nat.
Notation rel := (relative r place).
Notation UE0 := (ueval r dofs up base bt rel jac fvel quat).
Notation Com := (compos_class r mas dofs up base UE0 fuel cpos cjac qri).
Notation M := (meaning (vdim dofs) urows (ucols dofs) (com_ue r mas dofs up base UE0 fuel cpos cjac)).
Variable c : compos_cfg.
Variable shared : R -> env.
Notation op := (cp_pos c).
Notation oq := (cp_quat c).
Notation os := (cp_joints c).
Notation ot := (cp_com c).
(** The documented value: the centre of mass for the base and the joints of the state, minus the centre of mass of the state. *)
Definition centre_error (s : compos) (t : R) (x u : vec) : vec := com_error r place mas base op oq os ot dofs x.
Definition reachable : compos -> Prop := reach Com compos_other (compos_ctor c shared).
(** The quaternion of the base is not zero. *)
Definition turned_base (x : vec) : Prop := 0 < qnorm2 (part x oq 4).

Hypothesis K : kinematics r place dofs up depth base jac fvel btw quat.
Hypothesis TR : tree r dofs up base.
Hypothesis CO : com_oracle r place mas base dofs cpos cjac.
Hypothesis RT : right_trivialized qri.
Hypothesis AP : ranges_apart op oq os ot dofs.

Notation pattern := (p_sjac (compos_patterns dofs (compos_ctor c shared))).
Definition inv (s : compos) : Prop := cp_cfg s = c /\ forall i k, ~ In (i, k) pattern -> cp_buffer s i k = 0.
Lemma in_pattern i k : In (i, k) pattern <->
  (i < 3)%nat /\ (k = op + i \/ in_range oq 4 k = true \/ in_range os dofs k = true \/ k = ot + i)%nat.
Proof.
  cbn [compos_patterns p_sjac compos_ctor cp_cfg]. rewrite !in_app_iff, !in_identity_block, !in_dense_block. split.
  - intros [(a & Ha & Q)|[(a & b & Ha & Hb & Q)|[(a & b & Ha & Hb & Q)|(a & Ha & Q)]]]; injection Q as -> ->; rewrite !in_range_spec; cbn [Nat.add]; (split; [lia|]); lia.
  - rewrite !in_range_spec. intros [Hi [->|[H|[H| ->]]]].
    + left. exists i. auto.
    + right. left. exists i, (k - oq)%nat. split; [lia|]. split; [lia|]. f_equal; lia.
    + right. right. left. exists i, (k - os)%nat. split; [lia|]. split; [lia|]. f_equal; lia.
    + right. right. right. exists i. auto.
Qed.
(** What the Jacobian contains. *)
Definition filled (B : mat) (dq ds : nat -> nat -> R) (i k : nat) : R :=
  if (i <? 3)%nat then
    if in_range ot 3 k then scaled_identity (-1) i (k - ot) else if in_range os dofs k then ds i (k - os)%nat
    else if in_range oq 4 k then dq i (k - oq)%nat else if in_range op 3 k then delta i (k - op) else B i k
  else B i k.
Lemma fill (B db : mat) dq ds i k : (forall n m, (n < 3)%nat -> (m < 3)%nat -> db n m = delta n m) ->
  set_block (set_block (set_block (set_block B 0 op 3 3 db) 0 oq 3 4 dq) 0 os 3 dofs ds) 0 ot 3 3 (scaled_identity (-1)) i k = filled B dq ds i k.
Proof.
  intros HB. unfold set_block, filled. assert (E : in_range 0 3 i = (i <? 3)%nat) by (unfold in_range; reflexivity). rewrite !E, !Nat.sub_0_r.
  destruct (Nat.ltb_spec i 3) as [Hi|Hi]; cbn [andb]; [|reflexivity].
  destruct (in_range ot 3 k); [reflexivity|]. destruct (in_range os dofs k); [reflexivity|]. destruct (in_range oq 4 k); [reflexivity|].
  destruct (in_range op 3 k) eqn:Q; [|reflexivity]. apply in_range_spec in Q. apply HB; lia.
Qed.
Lemma filled_zero B dq ds : (forall i k, ~ In (i, k) pattern -> B i k = 0) -> forall i k, ~ In (i, k) pattern -> filled B dq ds i k = 0.
Proof.
  intros H i k N. unfold filled. destruct (Nat.ltb_spec i 3) as [Hi|Hi]; [|auto]. rewrite in_pattern in N.
  destruct (in_range ot 3 k) eqn:Q1.
  { apply in_range_spec in Q1. unfold scaled_identity. destruct (Nat.eqb_spec i (k - ot)); [|reflexivity]. exfalso. apply N. lia. }
  destruct (in_range os dofs k) eqn:Q2; [exfalso; apply N; auto|]. destruct (in_range oq 4 k) eqn:Q3; [exfalso; apply N; auto|].
  destruct (in_range op 3 k) eqn:Q4.
  { apply in_range_spec in Q4. unfold delta. destruct (Nat.eqb_spec i (k - op)); [|reflexivity]. exfalso. apply N. lia. }
  apply H. rewrite in_pattern, Q2, Q3. exact N.
Qed.
Lemma reachable_inv s : reachable s -> inv s.
Proof.
  apply reach_inv; unfold inv.
  - cbn. auto.
  - intros s' t x u [A B]. cbn. auto.
  - intros s' t x u J [A B]. cbn [compos_class c_sjac compos_sjac fst cp_cfg cp_buffer]. split; [exact A|]. rewrite A. intros i k N. rewrite fill by (intros n m Hn Hm; apply (cjac_base r place dofs base mas cpos cjac CO); auto). apply filled_zero; auto.
  - intros s' t x u J [A B]. cbn. auto.
  - intros s' t x u l H [A B]. cbn. auto.
  - intros s' t x u l H [A B]. cbn. auto.
  - intros s' t x u l H [A B]. cbn. auto.
  - intros s' s'' [A B] O. destruct O; cbn; auto.
Qed.
Lemma state_now s t x : cp_cfg s = c -> cp_shared (compos_update dofs s t x) t = compos_state dofs c (cp_shared s t) x.
Proof.
  intros E. unfold compos_update, compos_set_shared, at_time. cbn [cp_shared]. destruct (Req_EM_T t t); [|congruence]. rewrite E. reflexivity.
Qed.
Lemma state_q rho x : compos_state dofs c rho x v_q = part x oq 4. Proof. reflexivity. Qed.
Lemma state_p rho x : compos_state dofs c rho x v_p = part x op 3. Proof. reflexivity. Qed.
Lemma state_s rho x : compos_state dofs c rho x v_s = part x os dofs. Proof. reflexivity. Qed.

(** ** The gradient *)
Lemma error_sum x n : (n < 3)%nat -> com_error r place mas base op oq os ot dofs x n = x (op + n)%nat + W r place base mas n (part x oq 4) (part x os dofs) - x (ot + n)%nat.
Proof.
  intros Hn. unfold com_error. rewrite world_sum by exact Hn. f_equal. f_equal. unfold part3. destruct n as [|[|[|n]]]; [| | |lia]; cbn [vent vx vy vz]; f_equal; lia.
Qed.
Notation GQ' := (GQ r place base mas).
Notation GS' := (GS r place base jac mas).
Notation W' := (W r place base mas).
Lemma AQS : apart oq 4 os dofs. Proof. apply AP. Qed.
Lemma two_q (h : vec -> vec -> R) x k d : in_range oq 4 k = true -> partial (fun q => h q (part x os dofs)) (part x oq 4) (k - oq) d ->
  partial (fun y => h (part y oq 4) (part y os dofs)) x k d.
Proof.
  intros E H. unfold partial in *. rewrite part_in in H by exact E. eapply is_derive_ext; [|exact H]. intros t. cbv beta.
  rewrite !part_vset, E, (outside _ _ _ _ _ AQS E). reflexivity.
Qed.
Lemma two_s (h : vec -> vec -> R) x k d : in_range os dofs k = true -> partial (fun s => h (part x oq 4) s) (part x os dofs) (k - os) d ->
  partial (fun y => h (part y oq 4) (part y os dofs)) x k d.
Proof.
  intros E H. unfold partial in *. rewrite part_in in H by exact E. eapply is_derive_ext; [|exact H]. intros t. cbv beta.
  rewrite !part_vset, E, (outside _ _ _ _ _ (apart_sym _ _ _ _ AQS) E). reflexivity.
Qed.
Lemma two_0 (h : vec -> vec -> R) x k : in_range oq 4 k = false -> in_range os dofs k = false -> partial (fun y => h (part y oq 4) (part y os dofs)) x k 0.
Proof. intros E E'. unfold partial. eapply is_derive_ext; [|apply D_const]. intros t. cbv beta. rewrite !part_vset, E, E'. reflexivity. Qed.
Definition field (n : nat) (x : vec) (k : nat) : R :=
  filled (fun _ _ => 0) (fun n j => GQ' (part x oq 4) (part x os dofs) n j) (fun n j => GS' (part x oq 4) (part x os dofs) n j) n k.
Lemma cases k :
  (in_range ot 3 k = true /\ in_range os dofs k = false /\ in_range oq 4 k = false /\ in_range op 3 k = false) \/
  (in_range ot 3 k = false /\ in_range os dofs k = true /\ in_range oq 4 k = false /\ in_range op 3 k = false) \/
  (in_range ot 3 k = false /\ in_range os dofs k = false /\ in_range oq 4 k = true /\ in_range op 3 k = false) \/
  (in_range ot 3 k = false /\ in_range os dofs k = false /\ in_range oq 4 k = false /\ in_range op 3 k = true) \/
  (in_range ot 3 k = false /\ in_range os dofs k = false /\ in_range oq 4 k = false /\ in_range op 3 k = false).
Proof.
  destruct AP as (A1 & A2 & A3 & A4 & A5 & A6).
  destruct (in_range ot 3 k) eqn:Q1; destruct (in_range os dofs k) eqn:Q2; destruct (in_range oq 4 k) eqn:Q3; destruct (in_range op 3 k) eqn:Q4; try tauto; exfalso;
    rewrite ?in_range_spec in *; unfold apart in *; lia.
Qed.
Lemma field_partial n x k : turned_base x -> (n < 3)%nat -> partial (fun y => com_error r place mas base op oq os ot dofs y n) x k (field n x k).
Proof.
  intros P Hn. eapply partial_ext; [intros y; symmetry; apply (error_sum y n Hn)|].
  assert (LN : (n <? 3)%nat = true) by (apply Nat.ltb_lt; exact Hn).
  set (d := if in_range os dofs k then GS' (part x oq 4) (part x os dofs) n (k - os) else if in_range oq 4 k then GQ' (part x oq 4) (part x os dofs) n (k - oq) else 0).
  assert (DW : partial (fun y => W' n (part y oq 4) (part y os dofs)) x k d).
  { unfold d. destruct (in_range os dofs k) eqn:Q1.
    - apply (two_s (W' n) x k _ Q1). apply (W_s r place dofs up depth base jac fvel btw quat mas K). apply in_range_spec in Q1. lia.
    - destruct (in_range oq 4 k) eqn:Q2; [|apply (two_0 (W' n)); auto]. apply (two_q (W' n) x k _ Q2). apply (W_q r place base mas). exact P. }
  eapply partial_eq; [apply partial_minus; [apply partial_plus; [apply partial_var|exact DW]|apply partial_var]|].
  unfold field, filled, d. rewrite LN. unfold ind, scaled_identity, delta. destruct (cases k) as [(Q1 & Q2 & Q3 & Q4)|[(Q1 & Q2 & Q3 & Q4)|[(Q1 & Q2 & Q3 & Q4)|[(Q1 & Q2 & Q3 & Q4)|(Q1 & Q2 & Q3 & Q4)]]]]; rewrite ?Q1, ?Q2, ?Q3, ?Q4;
    repeat match goal with H : in_range _ _ _ = true |- _ => apply in_range_spec in H | H : in_range ?o ?m ?k = false |- _ => assert (~ (o <= k < o + m)%nat) by (intros Z; apply in_range_spec in Z; congruence); clear H end;
    repeat match goal with |- context [(?a =? ?b)%nat] => destruct (Nat.eqb_spec a b) end; try lia; try lra.
Qed.

(** ** The value, the other methods, the Jacobian outside the columns of the joints: for any frame *)
Lemma eval_right s : reachable s -> forall t x u i, snd (c_eval Com s t x u) i = centre_error s t x u i.
Proof.
  intros R t x u i. destruct (reachable_inv s R) as [E _]. cbn [compos_class c_eval compos_eval snd]. rewrite state_now, E by exact E. rewrite (proj1 (CO _ _ _)).
  unfold centre_error, com_error. rewrite state_q, state_p, state_s. replace (vec3_of (part x op 3)) with (part3 x op); [reflexivity|].
  unfold vec3_of, part3, part. cbn. f_equal; f_equal; lia.
Qed.
Lemma sjac_form s : reachable s -> forall t x u J i k, turned_base x -> (i < 3)%nat -> snd (c_sjac Com s t x u J) i k = field i x k.
Proof.
  intros R t x u J i k P Hi. destruct (reachable_inv s R) as [E B]. cbn [compos_class c_sjac compos_sjac snd]. rewrite state_now, E by exact E.
  rewrite fill by (intros n m Hn Hm; apply (cjac_base r place dofs base mas cpos cjac CO); auto). unfold field, filled. rewrite state_q, state_p, state_s.
  apply Nat.ltb_lt in Hi as LI. rewrite LI. destruct (in_range ot 3 k) eqn:Q1; [reflexivity|]. destruct (in_range os dofs k) eqn:Q2.
  { apply in_range_spec in Q2. apply (cjac_joints r place dofs up depth base jac fvel btw quat mas cpos cjac K CO); [exact Hi|lia]. }
  destruct (in_range oq 4 k) eqn:Q3.
  { apply in_range_spec in Q3. apply (cjac_quaternion r place dofs base mas cpos cjac qri CO RT); [exact P|exact Hi|lia]. }
  destruct (in_range op 3 k) eqn:Q4; [reflexivity|]. apply B. rewrite in_pattern, Q2, Q3. apply not_true_iff_false in Q1. apply not_true_iff_false in Q4.
  rewrite in_range_spec in Q1, Q4. intros (_ & [Q|[Q|[Q|Q]]]); try discriminate; lia.
Qed.
(** ** The value and the Jacobian, for any number of constructors that may be nested *)
Theorem C63_value_and_jacobian s : reachable s -> forall t x u, turned_base x ->
  (forall i, snd (c_eval Com s t x u) i = centre_error s t x u i) /\
  (forall J, let J' := snd (c_sjac Com s t x u J) in
     zero_outside (p_sjac (compos_patterns dofs s)) J' /\ forall i k, (i < 3)%nat -> partial (fun y => centre_error s t y u i) x k (J' i k)) /\
  (forall J i k, snd (c_cjac Com s t x u J) i k = 0).
Proof.
  intros R t x u P. destruct (reachable_inv s R) as [E B]. split; [apply eval_right; exact R|]. split; [|reflexivity]. intros J. cbv zeta. split.
  - intros i k N. cbn [compos_class c_sjac compos_sjac snd]. rewrite state_now, E by exact E.
    rewrite fill by (intros n m Hn Hm; apply (cjac_base r place dofs base mas cpos cjac CO); auto). cbn [compos_patterns p_sjac] in N. rewrite E in N. apply filled_zero; [exact B|exact N].
  - intros i k Hi. rewrite sjac_form by auto. apply field_partial; auto.
Qed.

(** ** All together, when the constructors of the Hessians end *)
Lemma C63_all : (forall k, (k < dofs)%nat -> hess r mas dofs up base UE0 fuel k <> None) ->
  constraint_exact_on turned_base Com reachable 3 centre_error (compos_patterns dofs).
Proof.
  intros HN.
  assert (GRAD : forall l t s u y k, turned_base y -> partial (fun z => weighted 3 l (centre_error s t z u)) y k (sumn 3 (fun n => l n * field n y k))).
  { intros l t s u y k P. unfold weighted. apply (sum_partial (fun n z => l n * centre_error s t z u n)). intros n Hn.
    eapply partial_eq; [apply partial_mult; [apply partial_const|apply (field_partial n y k P Hn)]|]. cbv beta. ring. }
  split; [|intros s R t x u l N; repeat split; reflexivity].
  intros s R t x u P. destruct (C63_value_and_jacobian s R t x u P) as (HE & HJ & HC). destruct (reachable_inv s R) as [E _].
  set (rho := compos_state dofs c (cp_shared s t) x).
  assert (Prho : 0 < qnorm2 (rho v_q)) by exact P.
  destruct (first r place dofs up depth base bt jac fvel btw quat mas cpos cjac fuel K CO v_q ltac:(auto)) as (DQ & EQ & VQ). change (v_q =? v_q)%nat with true in VQ. cbv iota in VQ.
  destruct (first r place dofs up depth base bt jac fvel btw quat mas cpos cjac fuel K CO v_s ltac:(auto)) as (DS & ES & VS). change (v_s =? v_q)%nat with false in VS. cbv iota in VS.
  split; [auto|]. split; [|split; [|split; [|split]]].
  - intros J _. apply HJ.
  - intros J _. split; [intros i k _; apply HC|]. intros i k _. rewrite HC. unfold centre_error. apply (partial_const (com_error r place mas base op oq os ot dofs x i)).
  - intros l H Z. cbv zeta. cbn [compos_class c_shess compos_shess snd compos_patterns p_shess] in *. rewrite E in Z. rewrite state_now, E by exact E. fold rho.
    set (m1 := fun i j => com_lambda r mas dofs up base UE0 fuel cpos cjac rho (bind_com r mas dofs up base UE0 fuel (com_quaternion_derivative r mas dofs up base UE0 fuel) i v_q) l j).
    set (m2 := fun i j => com_lambda r mas dofs up base UE0 fuel cpos cjac rho (bind_com r mas dofs up base UE0 fuel (com_quaternion_derivative r mas dofs up base UE0 fuel) i v_s) l j).
    set (m3 := fun i j => com_lambda r mas dofs up base UE0 fuel cpos cjac rho (bind_com r mas dofs up base UE0 fuel (com_joints_derivative r mas dofs up base UE0 fuel) i v_s) l j).
    match goal with |- zero_outside _ ?X /\ _ => set (H' := X) end.
    assert (EH : forall a b, H' a b = if in_range os dofs a && in_range os dofs b then m3 (b - os)%nat (a - os)%nat
      else if in_range oq 4 a && in_range oq 4 b then m1 (a - oq)%nat (b - oq)%nat
      else if in_range oq 4 a && in_range os dofs b then m2 (a - oq)%nat (b - os)%nat
      else if in_range os dofs a && in_range oq 4 b then m2 (b - oq)%nat (a - os)%nat else H a b).
    { intros a b. unfold H'. rewrite (columns_block os dofs m3). destruct (in_range os dofs a && in_range os dofs b)%bool; [reflexivity|].
      apply (rows_blocks oq os dofs 4 m1 m2 H a b AQS). }
    split.
    + intros a b N. rewrite EH. rewrite !in_app_iff, !in_dense_block in N.
      assert (IN : forall o o' n n', in_range o n a = true -> in_range o' n' b = true -> exists i j, (i < n)%nat /\ (j < n')%nat /\ (a, b) = (o + i, o' + j)%nat).
      { intros o o' n n' Qa Qb. apply in_range_spec in Qa. apply in_range_spec in Qb. exists (a - o)%nat, (b - o')%nat. split; [lia|]. split; [lia|]. f_equal; lia. }
      destruct (in_range os dofs a) eqn:A1; destruct (in_range os dofs b) eqn:B1; destruct (in_range oq 4 a) eqn:A2; destruct (in_range oq 4 b) eqn:B2; cbn [andb];
        try (exfalso; apply N; auto 6; fail); apply Z; rewrite !in_app_iff, !in_dense_block; exact N.
    + exists (fun y k => sumn 3 (fun n => l n * field n y k)). split; [intros y Py k; apply GRAD; exact Py|].
      (* second derivatives of one row *)
      assert (QQ : forall i, (i < 4)%nat -> exists X, bind_com r mas dofs up base UE0 fuel (com_quaternion_derivative r mas dofs up base UE0 fuel) i v_q = Some X /\
        forall n j, (n < 3)%nat -> (j < 4)%nat -> partial (fun q => GQ' q (part x os dofs) n i) (part x oq 4) j (M rho X n j)).
      { intros i Hi. destruct (again r place dofs up depth base bt jac fvel btw quat mas cpos cjac fuel K TR CO HN v_q v_q DQ i EQ Hi) as (X & EX & DX).
        exists X. split; [unfold com_quaternion_derivative, bind_com; rewrite EQ; exact EX|]. intros n j Hn Hj. specialize (DX rho Prho n j Hn Hj). unfold partial.
        eapply is_derive_ext_loc; [|exact DX]. eapply filter_imp; [|apply (near_q rho j Prho)]. intros z Pz. cbv beta. rewrite VQ by auto. rewrite at_same, at_other by discriminate. reflexivity. }
      assert (QS : forall i, (i < 4)%nat -> exists X, bind_com r mas dofs up base UE0 fuel (com_quaternion_derivative r mas dofs up base UE0 fuel) i v_s = Some X /\
        forall n j, (n < 3)%nat -> (j < dofs)%nat -> partial (fun s => GQ' (part x oq 4) s n i) (part x os dofs) j (M rho X n j)).
      { intros i Hi. destruct (again r place dofs up depth base bt jac fvel btw quat mas cpos cjac fuel K TR CO HN v_q v_s DQ i EQ Hi) as (X & EX & DX).
        exists X. split; [unfold com_quaternion_derivative, bind_com; rewrite EQ; exact EX|]. intros n j Hn Hj. specialize (DX rho Prho n j Hn Hj). unfold partial.
        eapply is_derive_ext; [|exact DX]. intros z. cbv beta. rewrite VQ by (auto; rewrite at_other by discriminate; exact P). rewrite at_same, at_other by discriminate. reflexivity. }
      assert (SS : forall i, (i < dofs)%nat -> exists X, bind_com r mas dofs up base UE0 fuel (com_joints_derivative r mas dofs up base UE0 fuel) i v_s = Some X /\
        forall n j, (n < 3)%nat -> (j < dofs)%nat -> partial (fun s => GS' (part x oq 4) s n i) (part x os dofs) j (M rho X n j)).
      { intros i Hi. destruct (again r place dofs up depth base bt jac fvel btw quat mas cpos cjac fuel K TR CO HN v_s v_s DS i ES Hi) as (X & EX & DX).
        exists X. split; [unfold com_joints_derivative, bind_com; rewrite ES; exact EX|]. intros n j Hn Hj. specialize (DX rho Prho n j Hn Hj). unfold partial.
        eapply is_derive_ext; [|exact DX]. intros z. cbv beta. rewrite VS by (auto; rewrite at_other by discriminate; exact P). rewrite at_same, at_other by discriminate. reflexivity. }
      (* entry by entry *)
      assert (ROW : forall j k d, (forall n, (n < 3)%nat -> partial (fun y => field n y j) x k (d n)) -> H' j k = sumn 3 (fun n => d n * l n) ->
         partial (fun y => sumn 3 (fun n => l n * field n y j)) x k (H' j k)).
      { intros j k d HD EQ'. rewrite EQ'. eapply partial_eq; [apply (sum_partial (fun n y => l n * field n y j) x k (fun n => l n * d n))|].
        - intros n Hn. eapply partial_eq; [apply partial_mult; [apply partial_const|apply HD; exact Hn]|]. cbv beta. ring.
        - apply sumn_ext. intros n Hn. ring. }
      assert (F0 : forall j, in_range os dofs j = false -> in_range oq 4 j = false -> forall n k, partial (fun y => field n y j) x k 0).
      { intros j Q1 Q2 n k. unfold field, filled. rewrite Q1, Q2. apply partial_const. }
      assert (FQ : forall j, in_range oq 4 j = true -> forall n, (n < 3)%nat -> forall y, field n y j = GQ' (part y oq 4) (part y os dofs) n (j - oq)).
      { intros j Q n Hn y. unfold field, filled. apply Nat.ltb_lt in Hn. rewrite Hn. destruct (cases j) as [(Q1 & Q2 & Q3 & Q4)|[(Q1 & Q2 & Q3 & Q4)|[(Q1 & Q2 & Q3 & Q4)|[(Q1 & Q2 & Q3 & Q4)|(Q1 & Q2 & Q3 & Q4)]]]]; try congruence. rewrite Q1, Q2, Q3. reflexivity. }
      assert (FS : forall j, in_range os dofs j = true -> forall n, (n < 3)%nat -> forall y, field n y j = GS' (part y oq 4) (part y os dofs) n (j - os)).
      { intros j Q n Hn y. unfold field, filled. apply Nat.ltb_lt in Hn. rewrite Hn. destruct (cases j) as [(Q1 & Q2 & Q3 & Q4)|[(Q1 & Q2 & Q3 & Q4)|[(Q1 & Q2 & Q3 & Q4)|[(Q1 & Q2 & Q3 & Q4)|(Q1 & Q2 & Q3 & Q4)]]]]; try congruence. rewrite Q1, Q2. reflexivity. }
      assert (Z0 : forall j k, (in_range os dofs j = false /\ in_range oq 4 j = false) \/ (in_range os dofs k = false /\ in_range oq 4 k = false) -> H' j k = sumn 3 (fun n => 0 * l n)).
      { intros j k Q. rewrite EH. assert (ZZ : sumn 3 (fun n => 0 * l n) = 0) by (cbn [sumn]; ring). rewrite ZZ.
        assert (N : ~ In (j, k) (dense_block oq oq 4 4 ++ dense_block oq os 4 dofs ++ dense_block os oq dofs 4 ++ dense_block os os dofs dofs)).
        { rewrite !in_app_iff, !in_dense_block. intros T.
          assert (T' : (in_range oq 4 j = true \/ in_range os dofs j = true) /\ (in_range oq 4 k = true \/ in_range os dofs k = true)).
          { rewrite !in_range_spec. destruct T as [(a & b & ? & ? & T)|[(a & b & ? & ? & T)|[(a & b & ? & ? & T)|(a & b & ? & ? & T)]]]; injection T as -> ->; lia. }
          destruct Q as [[Q Q']|[Q Q']], T' as [[T1|T1] [T2|T2]]; congruence. }
        destruct Q as [[-> ->]|[-> ->]]; rewrite ?andb_false_r; cbn [andb]; rewrite ?andb_false_r; apply Z; exact N. }
      intros j k. destruct (in_range oq 4 j) eqn:Qj; [|destruct (in_range os dofs j) eqn:Sj].
      * pose proof (outside _ _ _ _ _ AQS Qj) as Sj. assert (Hj : (j - oq < 4)%nat) by (apply in_range_spec in Qj; lia).
        destruct (in_range oq 4 k) eqn:Qk; [|destruct (in_range os dofs k) eqn:Sk].
        -- destruct (QQ (j - oq)%nat Hj) as (X & EX & DX). assert (Hk : (k - oq < 4)%nat) by (apply in_range_spec in Qk; lia).
           apply (ROW j k (fun n => M rho X n (k - oq)%nat)).
           ++ intros n Hn. eapply partial_ext; [intros y; symmetry; apply FQ; auto|]. apply (two_q (fun q s => GQ' q s n (j - oq)) x k _ Qk). apply DX; auto.
           ++ rewrite EH, Sj, Qj, Qk. cbn [andb]. unfold m1, com_lambda. rewrite EX. cbn [com_at]. reflexivity.
        -- destruct (QS (j - oq)%nat Hj) as (X & EX & DX). assert (Hk : (k - os < dofs)%nat) by (apply in_range_spec in Sk; lia).
           apply (ROW j k (fun n => M rho X n (k - os)%nat)).
           ++ intros n Hn. eapply partial_ext; [intros y; symmetry; apply FQ; auto|]. apply (two_s (fun q s => GQ' q s n (j - oq)) x k _ Sk). apply DX; auto.
           ++ rewrite EH, Sj, Qj, Qk, Sk. cbn [andb]. unfold m2, com_lambda. rewrite EX. cbn [com_at]. reflexivity.
        -- apply (ROW j k (fun _ => 0)); [|apply Z0; auto]. intros n Hn. eapply partial_ext; [intros y; symmetry; apply FQ; auto|]. apply (two_0 (fun q s => GQ' q s n (j - oq))); auto.
      * assert (Hj : (j - os < dofs)%nat) by (apply in_range_spec in Sj; lia).
        destruct (in_range oq 4 k) eqn:Qk; [|destruct (in_range os dofs k) eqn:Sk].
        -- assert (Hk : (k - oq < 4)%nat) by (apply in_range_spec in Qk; lia). destruct (QS (k - oq)%nat Hk) as (X & EX & DX).
           apply (ROW j k (fun n => M rho X n (j - os)%nat)).
           ++ intros n Hn. eapply partial_ext; [intros y; symmetry; apply FS; auto|]. apply (two_q (fun q s => GS' q s n (j - os)) x k _ Qk).
              eapply partial_eq; [apply (GS_q r place base jac mas n (part x oq 4) (part x os dofs) (k - oq) (j - os) P)|].
              symmetry. apply (D_unique _ _ _ _ (DX n (j - os)%nat Hn Hj)). apply (GQ_s r place dofs up depth base jac fvel btw quat mas K n _ _ (k - oq) (j - os) Hj).
           ++ pose proof (outside _ _ _ _ _ AQS Qk) as Sk. rewrite EH, Sj, Sk, Qj, Qk. cbn [andb]. unfold m2, com_lambda. rewrite EX. cbn [com_at]. reflexivity.
        -- assert (Hk : (k - os < dofs)%nat) by (apply in_range_spec in Sk; lia). destruct (SS (k - os)%nat Hk) as (X & EX & DX). destruct (SS (j - os)%nat Hj) as (Y & EY & DY).
           apply (ROW j k (fun n => M rho X n (j - os)%nat)).
           ++ intros n Hn. eapply partial_ext; [intros y; symmetry; apply FS; auto|]. apply (two_s (fun q s => GS' q s n (j - os)) x k _ Sk).
              eapply partial_eq; [apply (DY n (k - os)%nat Hn Hk)|].
              apply (GS_sym r place dofs up depth base jac fvel btw quat mas K TR n (part x oq 4) (part x os dofs) (j - os) (k - os) _ _ Hj Hk (DY n _ Hn Hk) (DX n _ Hn Hj)).
           ++ rewrite EH, Sj, Sk. cbn [andb]. unfold m3, com_lambda. rewrite EX. cbn [com_at]. reflexivity.
        -- apply (ROW j k (fun _ => 0)); [|apply Z0; auto]. intros n Hn. eapply partial_ext; [intros y; symmetry; apply FS; auto|]. apply (two_0 (fun q s => GS' q s n (j - os))); auto.
      * apply (ROW j k (fun _ => 0)); [|apply Z0; auto]. intros n Hn. apply F0; auto.
  - intros l H Z. split; [exact Z|]. exists (fun _ _ => 0). split; [intros y k; unfold centre_error; apply (partial_const (weighted 3 l (com_error r place mas base op oq os ot dofs x)))|]. intros j k.
    eapply partial_eq; [apply partial_const|]. symmetry. apply Z. cbn. auto.
  - intros l H Z. split; [exact Z|]. exists (fun y w k => sumn 3 (fun n => l n * field n y k)). split; [intros y w Py k; apply (GRAD l t s w y k Py)|].
    intros j k. eapply partial_eq; [apply partial_const|]. symmetry. apply Z. cbn. auto.
Qed.
End ComPos.

(** The depth of the nesting of the constructors is a number that depends on the robot only: from it on the constraint is exact. *)
Theorem C63_com_position_exact r place dofs up depth base bt jac fvel btw quat mas cpos cjac qri :
  kinematics r place dofs up depth base jac fvel btw quat -> tree r dofs up base -> com_oracle r place mas base dofs cpos cjac -> right_trivialized qri ->
  exists n0, forall n, (n0 <= n)%nat -> forall c shared, ranges_apart (cp_pos c) (cp_quat c) (cp_joints c) (cp_com c) dofs ->
    constraint_exact_on (turned_base c) (compos_class r mas dofs up base (ueval r dofs up base bt (relative r place) jac fvel quat) n cpos cjac qri)
      (reachable r place dofs up base bt jac fvel quat mas cpos cjac qri n c shared) 3 (centre_error r place dofs base mas c) (compos_patterns dofs).
Proof.
  intros K TR CO RT. destruct (proj1 (C65_com_hessian r place dofs up depth base bt jac fvel btw quat mas K TR)) as (n0 & Q). exists n0. intros n Hn c shared AP.
  apply (C63_all r place dofs up depth base bt jac fvel btw quat mas cpos cjac qri n c shared K TR CO RT AP). intros k Hk. apply Q; auto.
Qed.

(** The bounds: zero at first, then plus and minus half the tolerance last set; nothing else changes them. *)
Theorem C63_bounds r b dofs up base ue n cpos cjac qri c shared s tol :
  let C := compos_class r b dofs up base ue n cpos cjac qri in
  (cp_lower (compos_ctor c shared) = 0 /\ cp_upper (compos_ctor c shared) = 0) /\
  (cp_lower (compos_set_tolerance s tol) = - (tol / 2) /\ cp_upper (compos_set_tolerance s tol) = tol / 2) /\
  (forall t x u l M, let same s' := cp_lower s' = cp_lower s /\ cp_upper s' = cp_upper s in
     same (fst (c_eval C s t x u)) /\ same (fst (c_sjac C s t x u M)) /\ same (fst (c_cjac C s t x u M)) /\ same (fst (c_shess C s t x u l M)) /\
     same (fst (c_chess C s t x u l M)) /\ same (fst (c_mhess C s t x u l M)) /\ forall g, same (compos_set_shared s g)).
Proof.
  split; [split; reflexivity|]. split; [split; cbn; lra|]. intros t x u l M. repeat split; reflexivity.
Qed.


(** ** Concrete cases *)
From Verif Require Import KinExist KinInstance.
(** iDynTree's matrix 2 [-v, w I + v^] keeps the contract. *)
Definition right_inverse (q : vec) : mat := fun a k =>
  2 * match a, k with
      | O, 0%nat => - q 1%nat | O, 1%nat => q 0%nat | O, 2%nat => - q 3%nat | O, 3%nat => q 2%nat
      | 1%nat, 0%nat => - q 2%nat | 1%nat, 1%nat => q 3%nat | 1%nat, 2%nat => q 0%nat | 1%nat, 3%nat => - q 1%nat
      | 2%nat, 0%nat => - q 3%nat | 2%nat, 1%nat => - q 2%nat | 2%nat, 2%nat => q 1%nat | 2%nat, 3%nat => q 0%nat
      | _, _ => 0 end.
Example right_inverse_ok : right_trivialized right_inverse.
Proof.
  intros n x e U D w. assert (U0 : qnorm2 (n x) = 1) by apply (locally_singleton _ _ U).
  assert (WE : V3 (w 0%nat) (w 1%nat) (w 2%nat) = Einv (n x) e) by (unfold w, right_inverse, Einv; cbn [sumn]; f_equal; ring).
  rewrite WE, E_is_RG by exact U0. rewrite <- skew_rot by (apply qmat_rot; exact U0). apply qmat_D; [exact U0|exact D|].
  assert (D2 : is_derive (fun t => qnorm2 (n t)) x (2 * sumn 4 (fun k => n x k * e k))).
  { unfold qnorm2. eapply D_eq; [apply D_plus; [apply D_plus; [apply D_plus|]|]; apply D_mult; apply D; lia|]. cbn [sumn]. ring. }
  assert (D1 : is_derive (fun t => qnorm2 (n t)) x 0).
  { eapply is_derive_ext_loc; [|apply (D_const 1)]. eapply filter_imp; [|exact U]. intros t E. cbv beta in *. symmetry. exact E. }
  pose proof (D_unique _ _ _ _ D2 D1). lra.
Qed.
(** Base position at 0, quaternion at 3, two joints at 7, the centre of mass at 9. *)
Definition arm_compos : compos_cfg := {| cp_pos := 0; cp_quat := 3; cp_joints := 7; cp_com := 9 |}.
Example arm_compos_exact bt : exists cpos cjac n,
  constraint_exact_on (turned_base arm_compos) (compos_class arm arm_masses 2 up 0 (ueval arm 2 up 0 bt (relative arm place) jac (fvel_with btw) quat_of) n cpos cjac right_inverse)
    (reachable arm place 2 up 0 bt jac (fvel_with btw) quat_of arm_masses cpos cjac right_inverse n arm_compos (fun _ _ _ => 0)) 3
    (centre_error arm place 2 0 arm_masses arm_compos) (compos_patterns 2).
Proof.
  destruct arm_com_oracle as (cpos & cjac & CO). exists cpos, cjac.
  destruct (C63_com_position_exact arm place 2 up depth 0 bt jac (fvel_with btw) btw quat_of arm_masses cpos cjac right_inverse arm_kinematics arm_tree CO right_inverse_ok) as (n0 & Q).
  exists n0. apply Q; [lia|]. unfold ranges_apart, apart. cbn. lia.
Qed.
(** With the base not turned: the first coordinate of the centre of mass of the arm, when the hinge is at a and the slider at c. *)
Example arm_centre a c : turned_base arm_compos (arm_x a c) /\
  centre_error arm place 2 0 arm_masses arm_compos (compos_ctor arm_compos (fun _ _ _ => 0)) 0 (arm_x a c) (fun _ => 0) 0%nat = (3 - 3 * sin a + 2 * c * cos a) / 4.
Proof.
  split; [exact (arm_quat a c 0 v30)|]. unfold centre_error, com_error, com_world, base_pose.
  change (cp_quat arm_compos) with 3%nat. change (cp_pos arm_compos) with 0%nat. change (cp_joints arm_compos) with 7%nat. change (cp_com arm_compos) with 9%nat.
  rewrite arm_unit. change (part3 (arm_x a c) 0) with v30. change (Pose m3I v30) with pid. change (arm_x a c (9 + 0)%nat) with 0.
  replace (papply pid (com_in_base arm place arm_masses 0 (part (arm_x a c) 7 2))) with (com_in_base arm place arm_masses 0 (part (arm_x a c) 7 2)).
  - unfold com_in_base. cbn [vent vx]. rewrite arm_com. change (part (arm_x a c) 7 2 0%nat) with a. change (part (arm_x a c) 7 2 1%nat) with c. ring.
  - unfold papply, pid, com_in_base, mv, m3I, vadd, v30. cbn. f_equal; ring.
Qed.
Print Assumptions C63_value_and_jacobian.
Print Assumptions C63_com_position_exact.
Print Assumptions C63_bounds.
