(** C64: the position of a contact point. *)
From Coq Require Import Reals List Arith Lia Lra Bool FunctionalExtensionality.
From Coquelicot Require Import Coquelicot.
From Verif Require Import Spec PartialLib QuadLib SpecQuaternion SpecDynamics SpecRigid SpecBase SpecDerivatives SpecFeet Rigid RigidCalc KinTree ConstraintsModel CostsModel.
From Verif Require Import KinModel KinLib KinMotion KinProofs QuatCurve PropKin BaseProofs PropBase SymModel SymProofs SymKin MixLib BaseModel FeetModel FeetProofs RatLib ContactModel ContactProofs ContactCode.
Import ListNotations.
Local Open Scope R_scope.

(** ** Writing the Hessian *)
Lemma not_in_range o n k : ~ (o <= k < o + n)%nat -> in_range o n k = false.
Proof. intros H. apply not_true_is_false. rewrite in_range_spec. exact H. Qed.
Lemma rows_blocks (q s n N : nat) (f g : nat -> nat -> R) (H : mat) a b : apart q N s n ->
  fold_left (fun H i =>
    let H := set_block H (q + i) q 1 N (fun _ j => f i j) in
    let H := set_block H (q + i) s 1 n (fun _ j => g i j) in
    set_block H s (q + i) n 1 (fun j _ => g i j)) (seq 0 N) H a b =
  if in_range q N a && in_range q N b then f (a - q)%nat (b - q)%nat
  else if in_range q N a && in_range s n b then g (a - q)%nat (b - s)%nat
  else if in_range s n a && in_range q N b then g (b - q)%nat (a - s)%nat else H a b.
Proof.
  intros AP. unfold apart in AP. set (step := fun (H : mat) i => _).
  assert (Q : forall m, (m <= N)%nat -> fold_left step (seq 0 m) H a b =
    if in_range q m a && in_range q N b then f (a - q)%nat (b - q)%nat
    else if in_range q m a && in_range s n b then g (a - q)%nat (b - s)%nat
    else if in_range s n a && in_range q m b then g (b - q)%nat (a - s)%nat else H a b); [|apply (Q N (le_n N))].
  induction m as [|m IH]; intros L.
  - cbn [seq fold_left]. rewrite (not_in_range q 0 a), (not_in_range q 0 b) by lia. rewrite andb_false_r. reflexivity.
  - rewrite seq_S, fold_left_app. cbn [fold_left Nat.add]. specialize (IH ltac:(lia)). set (H0 := fold_left step (seq 0 m) H) in *. unfold step, set_block. rewrite IH.
    destruct (in_range s n a) eqn:Sa; destruct (in_range s n b) eqn:Sb; destruct (in_range q N b) eqn:Qb;
    destruct (in_range q m a) eqn:Ma; destruct (in_range q m b) eqn:Mb; destruct (in_range q (S m) a) eqn:Ta; destruct (in_range q (S m) b) eqn:Tb;
    destruct (in_range (q + m) 1 a) eqn:Ua; destruct (in_range (q + m) 1 b) eqn:Ub; cbn [andb]; try reflexivity;
    repeat match goal with H : in_range _ _ _ = true |- _ => apply in_range_spec in H | H : in_range ?o ?m ?k = false |- _ => assert (~ (o <= k < o + m)%nat) by (intros Z; apply in_range_spec in Z; congruence); clear H end;
    try lia; first [replace (a - q)%nat with m by lia; reflexivity | replace (b - q)%nat with m by lia; reflexivity | idtac].
Qed.

Section Contact.
Variable r : robot.
Variable place : vec -> nat -> pose.
Variable dofs : nat.
Variable up : nat -> nat -> option (nat * nat).
Variable depth : nat -> nat -> nat.
Variable base : nat.
Variable bt : formula.
Variable bt_dep : nat -> bool.
Variable jac : vec -> nat -> nat -> nat -> v6.
Variable fvel : env -> nat -> v6.
Variable btw : env -> v6.
Variable quat : m3 -> vec.
Notation rel := (relative r place).
Notation Contact := (contact_class r dofs up base bt bt_dep rel jac fvel quat).
Notation M := (meaning (vdim dofs) urows (ucols dofs) (ueval r dofs up base bt rel jac fvel quat)).
Variable c : contact_cfg.
Variable shared : R -> env.
Notation op := (cn_pos c).
Notation oq := (cn_quat c).
Notation os := (cn_joints c).
Notation ot := (cn_point c).
Notation foot := (cn_foot c).
Notation pf := (cn_in_foot c).
(** The documented value: the point fixed to the foot minus the point of the state. *)
Definition point_error (s : contact) (t : R) (x u : vec) : vec := contact_error r place base foot pf op oq os ot dofs x.
Definition reachable : contact -> Prop := reach Contact contact_other (contact_ctor c shared).
(** The quaternion of the base is not zero. *)
Definition turned_base (x : vec) : Prop := 0 < qnorm2 (part x oq 4).

Hypothesis K : kinematics r place dofs up depth base jac fvel btw quat.
Hypothesis F : is_frame r foot.
Hypothesis AP : ranges_apart op oq os ot dofs.

Notation pattern := (p_sjac (contact_patterns dofs (contact_ctor c shared))).
Definition inv (s : contact) : Prop := cn_cfg s = c /\ forall i k, ~ In (i, k) pattern -> cn_buffer s i k = 0.
Lemma in_pattern i k : In (i, k) pattern <->
  (i < 3)%nat /\ (k = op + i \/ in_range oq 4 k = true \/ in_range os dofs k = true \/ k = ot + i)%nat.
Proof.
  cbn [contact_patterns p_sjac contact_ctor cn_cfg]. rewrite !in_app_iff, !in_identity_block, !in_dense_block. split.
  - intros [(a & Ha & Q)|[(a & b & Ha & Hb & Q)|[(a & b & Ha & Hb & Q)|(a & Ha & Q)]]]; injection Q as -> ->; rewrite !in_range_spec; cbn [Nat.add]; (split; [lia|]); lia.
  - rewrite !in_range_spec. intros [Hi [->|[H|[H| ->]]]].
    + left. exists i. auto.
    + right. left. exists i, (k - oq)%nat. split; [lia|]. split; [lia|]. f_equal; lia.
    + right. right. left. exists i, (k - os)%nat. split; [lia|]. split; [lia|]. f_equal; lia.
    + right. right. right. exists i. auto.
Qed.
(** What the Jacobian contains. *)
Definition filled (B : mat) (dq ds : nat -> nat -> R) (i k : nat) : R :=
  if (i <? 3)%nat then
    if in_range ot 3 k then scaled_identity (-1) i (k - ot) else if in_range os dofs k then ds i (k - os)%nat
    else if in_range oq 4 k then dq i (k - oq)%nat else if in_range op 3 k then scaled_identity 1 i (k - op) else B i k
  else B i k.
Lemma fill (B : mat) dq ds i k :
  set_block (set_block (set_block (set_block B 0 op 3 3 (scaled_identity 1)) 0 oq 3 4 dq) 0 os 3 dofs ds) 0 ot 3 3 (scaled_identity (-1)) i k = filled B dq ds i k.
Proof.
  unfold set_block, filled. assert (E : in_range 0 3 i = (i <? 3)%nat) by (unfold in_range; reflexivity). rewrite !E, !Nat.sub_0_r.
  destruct (i <? 3)%nat; cbn [andb]; reflexivity.
Qed.
Lemma filled_zero B dq ds : (forall i k, ~ In (i, k) pattern -> B i k = 0) -> forall i k, ~ In (i, k) pattern -> filled B dq ds i k = 0.
Proof.
  intros H i k N. unfold filled. destruct (Nat.ltb_spec i 3) as [Hi|Hi]; [|auto]. rewrite in_pattern in N.
  destruct (in_range ot 3 k) eqn:Q1.
  { apply in_range_spec in Q1. unfold scaled_identity. destruct (Nat.eqb_spec i (k - ot)); [|reflexivity]. exfalso. apply N. lia. }
  destruct (in_range os dofs k) eqn:Q2; [exfalso; apply N; auto|]. destruct (in_range oq 4 k) eqn:Q3; [exfalso; apply N; auto|].
  destruct (in_range op 3 k) eqn:Q4.
  { apply in_range_spec in Q4. unfold scaled_identity. destruct (Nat.eqb_spec i (k - op)); [|reflexivity]. exfalso. apply N. lia. }
  apply H. rewrite in_pattern, Q2, Q3. exact N.
Qed.
Lemma reachable_inv s : reachable s -> inv s.
Proof.
  apply reach_inv; unfold inv.
  - cbn. auto.
  - intros s' t x u [A B]. cbn. auto.
  - intros s' t x u J [A B]. cbn [contact_class c_sjac contact_sjac fst cn_cfg cn_buffer]. split; [exact A|]. rewrite A. intros i k N. rewrite fill. apply filled_zero; auto.
  - intros s' t x u J [A B]. cbn. auto.
  - intros s' t x u l H [A B]. cbn. auto.
  - intros s' t x u l H [A B]. cbn. auto.
  - intros s' t x u l H [A B]. cbn. auto.
  - intros s' s'' [A B] O. destruct O; cbn; auto.
Qed.
Lemma state_now s t x : cn_cfg s = c -> cn_shared (contact_update dofs s t x) t = contact_state dofs c (cn_shared s t) x.
Proof.
  intros E. unfold contact_update, contact_set_shared, at_time. cbn [cn_shared]. destruct (Req_EM_T t t); [|congruence]. rewrite E. reflexivity.
Qed.
Lemma state_q rho x : contact_state dofs c rho x v_q = part x oq 4. Proof. reflexivity. Qed.
Lemma state_p rho x : contact_state dofs c rho x v_p = part x op 3. Proof. reflexivity. Qed.
Lemma state_s rho x : contact_state dofs c rho x v_s = part x os dofs. Proof. reflexivity. Qed.

(** ** The gradient *)
Notation GQ' := (GQ r place base c).
Notation GS' := (GS r place base jac c).
Notation W' := (W r place base c).
Lemma outside o n o' n' k : apart o n o' n' -> in_range o n k = true -> in_range o' n' k = false.
Proof. unfold apart. intros A H. apply in_range_spec in H. apply not_in_range. lia. Qed.
Lemma apart_sym o n o' n' : apart o n o' n' -> apart o' n' o n. Proof. unfold apart. lia. Qed.
Lemma AQS : apart oq 4 os dofs. Proof. apply AP. Qed.
Lemma two_q (h : vec -> vec -> R) x k d : in_range oq 4 k = true -> partial (fun q => h q (part x os dofs)) (part x oq 4) (k - oq) d ->
  partial (fun y => h (part y oq 4) (part y os dofs)) x k d.
Proof.
  intros E H. unfold partial in *. rewrite part_in in H by exact E. eapply is_derive_ext; [|exact H]. intros t. cbv beta.
  rewrite !part_vset, E, (outside _ _ _ _ _ AQS E). reflexivity.
Qed.
Lemma two_s (h : vec -> vec -> R) x k d : in_range os dofs k = true -> partial (fun s => h (part x oq 4) s) (part x os dofs) (k - os) d ->
  partial (fun y => h (part y oq 4) (part y os dofs)) x k d.
Proof.
  intros E H. unfold partial in *. rewrite part_in in H by exact E. eapply is_derive_ext; [|exact H]. intros t. cbv beta.
  rewrite !part_vset, E, (outside _ _ _ _ _ (apart_sym _ _ _ _ AQS) E). reflexivity.
Qed.
Lemma two_0 (h : vec -> vec -> R) x k : in_range oq 4 k = false -> in_range os dofs k = false -> partial (fun y => h (part y oq 4) (part y os dofs)) x k 0.
Proof. intros E E'. unfold partial. eapply is_derive_ext; [|apply D_const]. intros t. cbv beta. rewrite !part_vset, E, E'. reflexivity. Qed.
Definition field (n : nat) (x : vec) (k : nat) : R :=
  filled (fun _ _ => 0) (fun n j => GQ' (part x oq 4) (part x os dofs) n j) (fun n j => GS' (part x oq 4) (part x os dofs) n j) n k.
Lemma cases k :
  (in_range ot 3 k = true /\ in_range os dofs k = false /\ in_range oq 4 k = false /\ in_range op 3 k = false) \/
  (in_range ot 3 k = false /\ in_range os dofs k = true /\ in_range oq 4 k = false /\ in_range op 3 k = false) \/
  (in_range ot 3 k = false /\ in_range os dofs k = false /\ in_range oq 4 k = true /\ in_range op 3 k = false) \/
  (in_range ot 3 k = false /\ in_range os dofs k = false /\ in_range oq 4 k = false /\ in_range op 3 k = true) \/
  (in_range ot 3 k = false /\ in_range os dofs k = false /\ in_range oq 4 k = false /\ in_range op 3 k = false).
Proof.
  destruct AP as (A1 & A2 & A3 & A4 & A5 & A6).
  destruct (in_range ot 3 k) eqn:Q1; destruct (in_range os dofs k) eqn:Q2; destruct (in_range oq 4 k) eqn:Q3; destruct (in_range op 3 k) eqn:Q4; try tauto; exfalso;
    rewrite ?in_range_spec in *; unfold apart in *; lia.
Qed.
Lemma field_partial n x k : turned_base x -> (n < 3)%nat -> partial (fun y => contact_error r place base foot pf op oq os ot dofs y n) x k (field n x k).
Proof.
  intros P Hn. eapply partial_ext; [intros y; symmetry; apply (error_sum r place dofs base c y n Hn)|].
  assert (LN : (n <? 3)%nat = true) by (apply Nat.ltb_lt; exact Hn).
  set (d := if in_range os dofs k then GS' (part x oq 4) (part x os dofs) n (k - os) else if in_range oq 4 k then GQ' (part x oq 4) (part x os dofs) n (k - oq) else 0).
  assert (DW : partial (fun y => W' n (part y oq 4) (part y os dofs)) x k d).
  { unfold d. destruct (in_range os dofs k) eqn:Q1.
    - apply (two_s (W' n) x k _ Q1). apply (W_s r place dofs up depth base jac fvel btw quat K c F). apply in_range_spec in Q1. lia.
    - destruct (in_range oq 4 k) eqn:Q2; [|apply (two_0 (W' n)); auto]. apply (two_q (W' n) x k _ Q2). apply (W_q r place base c). exact P. }
  eapply partial_eq; [apply partial_minus; [apply partial_plus; [apply partial_var|exact DW]|apply partial_var]|].
  unfold field, filled, d. rewrite LN. unfold ind, scaled_identity. destruct (cases k) as [(Q1 & Q2 & Q3 & Q4)|[(Q1 & Q2 & Q3 & Q4)|[(Q1 & Q2 & Q3 & Q4)|[(Q1 & Q2 & Q3 & Q4)|(Q1 & Q2 & Q3 & Q4)]]]]; rewrite ?Q1, ?Q2, ?Q3, ?Q4;
    repeat match goal with H : in_range _ _ _ = true |- _ => apply in_range_spec in H | H : in_range ?o ?m ?k = false |- _ => assert (~ (o <= k < o + m)%nat) by (intros Z; apply in_range_spec in Z; congruence); clear H end;
    repeat match goal with |- context [(?a =? ?b)%nat] => destruct (Nat.eqb_spec a b) end; try lia; try lra.
Qed.

(** ** The value, the other methods, the Jacobian outside the columns of the joints: for any frame *)
Lemma eval_right s : reachable s -> forall t x u i, snd (c_eval Contact s t x u) i = point_error s t x u i.
Proof.
  intros R t x u i. destruct (reachable_inv s R) as [E _]. cbn [contact_class c_eval contact_eval snd]. rewrite state_now, E by exact E.
  unfold point_error, contact_error, world_transform. rewrite state_q, state_p, state_s. unfold part3. rewrite <- (Nat.add_0_r op) at 4. reflexivity.
Qed.
Lemma sjac_form s : reachable s -> forall t x u J i k, turned_base x -> (i < 3)%nat ->
  snd (c_sjac Contact s t x u J) i k =
  filled (fun _ _ => 0) (fun n j => GQ' (part x oq 4) (part x os dofs) n j)
    (value_of r dofs up base bt rel jac fvel quat (contact_state dofs c (cn_shared s t) x) (joints_derivative r dofs up base bt bt_dep c)) i k.
Proof.
  intros R t x u J i k P Hi. destruct (reachable_inv s R) as [E B]. cbn [contact_class c_sjac contact_sjac snd]. rewrite state_now, E by exact E. rewrite fill. unfold filled.
  apply Nat.ltb_lt in Hi as LI. rewrite LI. destruct (in_range ot 3 k) eqn:Q1; [reflexivity|]. destruct (in_range os dofs k) eqn:Q2; [reflexivity|]. destruct (in_range oq 4 k) eqn:Q3.
  - destruct (quat_first r place dofs up depth base bt bt_dep jac fvel btw quat K c F) as (X & EX & _ & _ & _ & VX). unfold quaternion_derivative. rewrite EX. cbn [value_of].
    apply in_range_spec in Q3. rewrite VX; [reflexivity|exact P|exact Hi|lia].
  - destruct (in_range op 3 k) eqn:Q4; [reflexivity|]. apply B. rewrite in_pattern, Q2, Q3. apply not_true_iff_false in Q1. apply not_true_iff_false in Q4.
    rewrite in_range_spec in Q1, Q4. intros (_ & [Q|[Q|[Q|Q]]]); try discriminate; lia.
Qed.
Theorem C64_value_and_jacobian_partial s : reachable s -> forall t x u, turned_base x ->
  (forall i, snd (c_eval Contact s t x u) i = point_error s t x u i) /\
  (forall J, let J' := snd (c_sjac Contact s t x u J) in
     zero_outside (p_sjac (contact_patterns dofs s)) J' /\
     forall i k, (i < 3)%nat -> ~ (os <= k < os + dofs)%nat -> partial (fun y => point_error s t y u i) x k (J' i k)) /\
  (forall J i k, snd (c_cjac Contact s t x u J) i k = 0).
Proof.
  intros R t x u P. destruct (reachable_inv s R) as [E B]. split; [apply eval_right; exact R|]. split; [|reflexivity]. intros J. cbv zeta. split.
  - intros i k N. cbn [contact_class c_sjac contact_sjac snd]. rewrite state_now, E by exact E. rewrite fill. cbn [contact_patterns p_sjac] in N. rewrite E in N. apply filled_zero; [exact B|exact N].
  - intros i k Hi N. rewrite sjac_form by auto. eapply partial_eq; [apply field_partial; auto|]. unfold field, filled. rewrite (not_in_range os dofs k N). reflexivity.
Qed.

(** ** All together, when the offset of the foot does not turn the axes of the joints of its link *)
Theorem C64_contact_position_exact : keeps_axes r foot ->
  constraint_exact_on turned_base Contact reachable 3 point_error (contact_patterns dofs).
Proof.
  intros KA. assert (UT : forall b, is_frame r b -> unturned r up b foot).
  { intros b HB. apply (keeps_unturned r place dofs up depth base jac fvel btw quat K); auto. apply (keeps_all r place dofs up depth base jac fvel btw quat K); auto. }
  assert (GRAD : forall l t s u y k, turned_base y -> partial (fun z => weighted 3 l (point_error s t z u)) y k (sumn 3 (fun n => l n * field n y k))).
  { intros l t s u y k P. unfold weighted. apply (sum_partial (fun n z => l n * point_error s t z u n)). intros n Hn.
    eapply partial_eq; [apply partial_mult; [apply partial_const|apply (field_partial n y k P Hn)]|]. cbv beta. ring. }
  split; [|intros s R t x u l N; repeat split; reflexivity].
  intros s R t x u P. destruct (C64_value_and_jacobian_partial s R t x u P) as (HE & HJ & HC). destruct (reachable_inv s R) as [E _].
  set (rho := contact_state dofs c (cn_shared s t) x).
  assert (Prho : 0 < qnorm2 (rho v_q)) by exact P.
  destruct (quat_first r place dofs up depth base bt bt_dep jac fvel btw quat K c F) as (DQ & EQ & _ & _ & _ & VQ).
  destruct (joints_first r place dofs up depth base bt bt_dep jac fvel btw quat K c F UT) as (DS & ES & _ & _ & _ & VS).
  split; [auto|]. split; [|split; [|split; [|split]]].
  - intros J _. cbv zeta. destruct (HJ J) as [Z _]. split; [exact Z|]. intros i k Hi. rewrite sjac_form by auto.
    eapply partial_eq; [apply field_partial; auto|]. unfold field, filled. destruct (i <? 3)%nat; [|reflexivity]. destruct (in_range ot 3 k); [reflexivity|].
    destruct (in_range os dofs k) eqn:Q; [|reflexivity]. apply in_range_spec in Q. fold rho. unfold joints_derivative. rewrite ES. cbn [value_of]. symmetry. apply VS; [exact Prho|exact Hi|lia].
  - intros J _. split; [intros i k _; apply HC|]. intros i k _. rewrite HC. unfold point_error. apply (partial_const (contact_error r place base foot pf op oq os ot dofs x i)).
  - intros l H Z. cbv zeta. cbn [contact_class c_shess contact_shess snd contact_patterns p_shess] in *. rewrite E in Z. rewrite state_now, E by exact E. fold rho.
    set (m1 := fun i j => times_lambda r dofs up base bt rel jac fvel quat rho (bind_col r dofs up base bt bt_dep (quaternion_derivative r dofs up base bt bt_dep c) i v_q) l j).
    set (m2 := fun i j => times_lambda r dofs up base bt rel jac fvel quat rho (bind_col r dofs up base bt bt_dep (quaternion_derivative r dofs up base bt bt_dep c) i v_s) l j).
    set (m3 := fun i j => times_lambda r dofs up base bt rel jac fvel quat rho (bind_col r dofs up base bt bt_dep (joints_derivative r dofs up base bt bt_dep c) i v_s) l j).
    match goal with |- zero_outside _ ?X /\ _ => set (H' := X) end.
    assert (EH : forall a b, H' a b = if in_range os dofs a && in_range os dofs b then m3 (b - os)%nat (a - os)%nat
      else if in_range oq 4 a && in_range oq 4 b then m1 (a - oq)%nat (b - oq)%nat
      else if in_range oq 4 a && in_range os dofs b then m2 (a - oq)%nat (b - os)%nat
      else if in_range os dofs a && in_range oq 4 b then m2 (b - oq)%nat (a - os)%nat else H a b).
    { intros a b. unfold H'. rewrite (columns_block os dofs m3). destruct (in_range os dofs a && in_range os dofs b)%bool; [reflexivity|].
      apply (rows_blocks oq os dofs 4 m1 m2 H a b AQS). }
    split.
    + intros a b N. rewrite EH. rewrite !in_app_iff, !in_dense_block in N.
      assert (IN : forall o o' n n', in_range o n a = true -> in_range o' n' b = true -> exists i j, (i < n)%nat /\ (j < n')%nat /\ (a, b) = (o + i, o' + j)%nat).
      { intros o o' n n' Qa Qb. apply in_range_spec in Qa. apply in_range_spec in Qb. exists (a - o)%nat, (b - o')%nat. split; [lia|]. split; [lia|]. f_equal; lia. }
      destruct (in_range os dofs a) eqn:A1; destruct (in_range os dofs b) eqn:B1; destruct (in_range oq 4 a) eqn:A2; destruct (in_range oq 4 b) eqn:B2; cbn [andb];
        try (exfalso; apply N; auto 6; fail); apply Z; rewrite !in_app_iff, !in_dense_block; exact N.
    + exists (fun y k => sumn 3 (fun n => l n * field n y k)). split; [intros y Py k; apply GRAD; exact Py|].
      (* second derivatives of one row *)
      assert (QQ : forall i, (i < 4)%nat -> exists X, bind_col r dofs up base bt bt_dep (quaternion_derivative r dofs up base bt bt_dep c) i v_q = Some X /\
        forall n j, (n < 3)%nat -> (j < 4)%nat -> partial (fun q => GQ' q (part x os dofs) n i) (part x oq 4) j (M rho X n j)).
      { intros i Hi. destruct (again r place dofs up depth base bt bt_dep jac fvel btw quat K c F UT v_q v_q DQ i ltac:(auto) ltac:(auto) EQ Hi) as (X & EX & DX).
        exists X. split; [unfold quaternion_derivative, bind_col; rewrite EQ; exact EX|]. intros n j Hn Hj. specialize (DX rho Prho n j Hn Hj). unfold partial.
        eapply is_derive_ext_loc; [|exact DX]. eapply filter_imp; [|apply (near_q rho j Prho)]. intros z Pz. cbv beta. rewrite VQ by auto. rewrite at_same, at_other by discriminate. reflexivity. }
      assert (QS : forall i, (i < 4)%nat -> exists X, bind_col r dofs up base bt bt_dep (quaternion_derivative r dofs up base bt bt_dep c) i v_s = Some X /\
        forall n j, (n < 3)%nat -> (j < dofs)%nat -> partial (fun s => GQ' (part x oq 4) s n i) (part x os dofs) j (M rho X n j)).
      { intros i Hi. destruct (again r place dofs up depth base bt bt_dep jac fvel btw quat K c F UT v_q v_s DQ i ltac:(auto) ltac:(auto) EQ Hi) as (X & EX & DX).
        exists X. split; [unfold quaternion_derivative, bind_col; rewrite EQ; exact EX|]. intros n j Hn Hj. specialize (DX rho Prho n j Hn Hj). unfold partial.
        eapply is_derive_ext; [|exact DX]. intros z. cbv beta. rewrite VQ by (auto; rewrite at_other by discriminate; exact P). rewrite at_same, at_other by discriminate. reflexivity. }
      assert (SS : forall i, (i < dofs)%nat -> exists X, bind_col r dofs up base bt bt_dep (joints_derivative r dofs up base bt bt_dep c) i v_s = Some X /\
        forall n j, (n < 3)%nat -> (j < dofs)%nat -> partial (fun s => GS' (part x oq 4) s n i) (part x os dofs) j (M rho X n j)).
      { intros i Hi. destruct (again r place dofs up depth base bt bt_dep jac fvel btw quat K c F UT v_s v_s DS i ltac:(auto) ltac:(auto) ES Hi) as (X & EX & DX).
        exists X. split; [unfold joints_derivative, bind_col; rewrite ES; exact EX|]. intros n j Hn Hj. specialize (DX rho Prho n j Hn Hj). unfold partial.
        eapply is_derive_ext; [|exact DX]. intros z. cbv beta. rewrite VS by (auto; rewrite at_other by discriminate; exact P). rewrite at_same, at_other by discriminate. reflexivity. }
      (* entry by entry *)
      assert (ROW : forall j k d, (forall n, (n < 3)%nat -> partial (fun y => field n y j) x k (d n)) -> H' j k = sumn 3 (fun n => d n * l n) ->
         partial (fun y => sumn 3 (fun n => l n * field n y j)) x k (H' j k)).
      { intros j k d HD EQ'. rewrite EQ'. eapply partial_eq; [apply (sum_partial (fun n y => l n * field n y j) x k (fun n => l n * d n))|].
        - intros n Hn. eapply partial_eq; [apply partial_mult; [apply partial_const|apply HD; exact Hn]|]. cbv beta. ring.
        - apply sumn_ext. intros n Hn. ring. }
      assert (F0 : forall j, in_range os dofs j = false -> in_range oq 4 j = false -> forall n k, partial (fun y => field n y j) x k 0).
      { intros j Q1 Q2 n k. unfold field, filled. rewrite Q1, Q2. apply partial_const. }
      assert (FQ : forall j, in_range oq 4 j = true -> forall n, (n < 3)%nat -> forall y, field n y j = GQ' (part y oq 4) (part y os dofs) n (j - oq)).
      { intros j Q n Hn y. unfold field, filled. apply Nat.ltb_lt in Hn. rewrite Hn. destruct (cases j) as [(Q1 & Q2 & Q3 & Q4)|[(Q1 & Q2 & Q3 & Q4)|[(Q1 & Q2 & Q3 & Q4)|[(Q1 & Q2 & Q3 & Q4)|(Q1 & Q2 & Q3 & Q4)]]]]; try congruence. rewrite Q1, Q2, Q3. reflexivity. }
      assert (FS : forall j, in_range os dofs j = true -> forall n, (n < 3)%nat -> forall y, field n y j = GS' (part y oq 4) (part y os dofs) n (j - os)).
      { intros j Q n Hn y. unfold field, filled. apply Nat.ltb_lt in Hn. rewrite Hn. destruct (cases j) as [(Q1 & Q2 & Q3 & Q4)|[(Q1 & Q2 & Q3 & Q4)|[(Q1 & Q2 & Q3 & Q4)|[(Q1 & Q2 & Q3 & Q4)|(Q1 & Q2 & Q3 & Q4)]]]]; try congruence. rewrite Q1, Q2. reflexivity. }
      assert (Z0 : forall j k, (in_range os dofs j = false /\ in_range oq 4 j = false) \/ (in_range os dofs k = false /\ in_range oq 4 k = false) -> H' j k = sumn 3 (fun n => 0 * l n)).
      { intros j k Q. rewrite EH. assert (ZZ : sumn 3 (fun n => 0 * l n) = 0) by (cbn [sumn]; ring). rewrite ZZ.
        assert (N : ~ In (j, k) (dense_block oq oq 4 4 ++ dense_block oq os 4 dofs ++ dense_block os oq dofs 4 ++ dense_block os os dofs dofs)).
        { rewrite !in_app_iff, !in_dense_block. intros T.
          assert (T' : (in_range oq 4 j = true \/ in_range os dofs j = true) /\ (in_range oq 4 k = true \/ in_range os dofs k = true)).
          { rewrite !in_range_spec. destruct T as [(a & b & ? & ? & T)|[(a & b & ? & ? & T)|[(a & b & ? & ? & T)|(a & b & ? & ? & T)]]]; injection T as -> ->; lia. }
          destruct Q as [[Q Q']|[Q Q']], T' as [[T1|T1] [T2|T2]]; congruence. }
        destruct Q as [[-> ->]|[-> ->]]; rewrite ?andb_false_r; cbn [andb]; rewrite ?andb_false_r; apply Z; exact N. }
      intros j k. destruct (in_range oq 4 j) eqn:Qj; [|destruct (in_range os dofs j) eqn:Sj].
      * pose proof (outside _ _ _ _ _ AQS Qj) as Sj. assert (Hj : (j - oq < 4)%nat) by (apply in_range_spec in Qj; lia).
        destruct (in_range oq 4 k) eqn:Qk; [|destruct (in_range os dofs k) eqn:Sk].
        -- destruct (QQ (j - oq)%nat Hj) as (X & EX & DX). assert (Hk : (k - oq < 4)%nat) by (apply in_range_spec in Qk; lia).
           apply (ROW j k (fun n => M rho X n (k - oq)%nat)).
           ++ intros n Hn. eapply partial_ext; [intros y; symmetry; apply FQ; auto|]. apply (two_q (fun q s => GQ' q s n (j - oq)) x k _ Qk). apply DX; auto.
           ++ rewrite EH, Sj, Qj, Qk. cbn [andb]. unfold m1, times_lambda. rewrite EX. reflexivity.
        -- destruct (QS (j - oq)%nat Hj) as (X & EX & DX). assert (Hk : (k - os < dofs)%nat) by (apply in_range_spec in Sk; lia).
           apply (ROW j k (fun n => M rho X n (k - os)%nat)).
           ++ intros n Hn. eapply partial_ext; [intros y; symmetry; apply FQ; auto|]. apply (two_s (fun q s => GQ' q s n (j - oq)) x k _ Sk). apply DX; auto.
           ++ rewrite EH, Sj, Qj, Qk, Sk. cbn [andb]. unfold m2, times_lambda. rewrite EX. reflexivity.
        -- apply (ROW j k (fun _ => 0)); [|apply Z0; auto]. intros n Hn. eapply partial_ext; [intros y; symmetry; apply FQ; auto|]. apply (two_0 (fun q s => GQ' q s n (j - oq))); auto.
      * assert (Hj : (j - os < dofs)%nat) by (apply in_range_spec in Sj; lia).
        destruct (in_range oq 4 k) eqn:Qk; [|destruct (in_range os dofs k) eqn:Sk].
        -- assert (Hk : (k - oq < 4)%nat) by (apply in_range_spec in Qk; lia). destruct (QS (k - oq)%nat Hk) as (X & EX & DX).
           apply (ROW j k (fun n => M rho X n (j - os)%nat)).
           ++ intros n Hn. eapply partial_ext; [intros y; symmetry; apply FS; auto|]. apply (two_q (fun q s => GS' q s n (j - os)) x k _ Qk).
              eapply partial_eq; [apply (GS_q r place base jac c n (part x oq 4) (part x os dofs) (k - oq) (j - os) P)|].
              symmetry. apply (D_unique _ _ _ _ (DX n (j - os)%nat Hn Hj)). apply (GQ_s r place dofs up depth base jac fvel btw quat K c F n _ _ (k - oq) (j - os) Hj).
           ++ pose proof (outside _ _ _ _ _ AQS Qk) as Sk. rewrite EH, Sj, Sk, Qj, Qk. cbn [andb]. unfold m2, times_lambda. rewrite EX. reflexivity.
        -- assert (Hk : (k - os < dofs)%nat) by (apply in_range_spec in Sk; lia). destruct (SS (k - os)%nat Hk) as (X & EX & DX). destruct (SS (j - os)%nat Hj) as (Y & EY & DY).
           apply (ROW j k (fun n => M rho X n (j - os)%nat)).
           ++ intros n Hn. eapply partial_ext; [intros y; symmetry; apply FS; auto|]. apply (two_s (fun q s => GS' q s n (j - os)) x k _ Sk).
              eapply partial_eq; [apply (DY n (k - os)%nat Hn Hk)|].
              apply (GS_sym r place dofs up depth base jac fvel btw quat K c F n (part x oq 4) (part x os dofs) (j - os) (k - os) _ _ Hj Hk (DY n _ Hn Hk) (DX n _ Hn Hj)).
           ++ rewrite EH, Sj, Sk. cbn [andb]. unfold m3, times_lambda. rewrite EX. reflexivity.
        -- apply (ROW j k (fun _ => 0)); [|apply Z0; auto]. intros n Hn. eapply partial_ext; [intros y; symmetry; apply FS; auto|]. apply (two_0 (fun q s => GS' q s n (j - os))); auto.
      * apply (ROW j k (fun _ => 0)); [|apply Z0; auto]. intros n Hn. apply F0; auto.
  - intros l H Z. split; [exact Z|]. exists (fun _ _ => 0). split; [intros y k; unfold point_error; apply (partial_const (weighted 3 l (contact_error r place base foot pf op oq os ot dofs x)))|]. intros j k.
    eapply partial_eq; [apply partial_const|]. symmetry. apply Z. cbn. auto.
  - intros l H Z. split; [exact Z|]. exists (fun y w k => sumn 3 (fun n => l n * field n y k)). split; [intros y w Py k; apply (GRAD l t s w y k Py)|].
    intros j k. eapply partial_eq; [apply partial_const|]. symmetry. apply Z. cbn. auto.
Qed.
End Contact.

(** The bounds: zero at first, then plus and minus half the tolerance last set; nothing else changes them. *)
Theorem C64_bounds r dofs up base bt bt_dep rel jac fvel quat c shared s tol :
  let C := contact_class r dofs up base bt bt_dep rel jac fvel quat in
  (cn_lower (contact_ctor c shared) = 0 /\ cn_upper (contact_ctor c shared) = 0) /\
  (cn_lower (contact_set_tolerance s tol) = - (tol / 2) /\ cn_upper (contact_set_tolerance s tol) = tol / 2) /\
  (forall t x u l M, let same s' := cn_lower s' = cn_lower s /\ cn_upper s' = cn_upper s in
     same (fst (c_eval C s t x u)) /\ same (fst (c_sjac C s t x u M)) /\ same (fst (c_cjac C s t x u M)) /\ same (fst (c_shess C s t x u l M)) /\
     same (fst (c_chess C s t x u l M)) /\ same (fst (c_mhess C s t x u l M)) /\ forall g, same (contact_set_shared s g)).
Proof.
  split; [split; reflexivity|]. split; [split; cbn; lra|]. intros t x u l M. repeat split; reflexivity.
Qed.

(** ** Concrete cases *)
From Verif Require Import KinExist KinInstance.
(** Base position at 0, quaternion at 3, two joints at 7, the point at 9; the foot is the last link of the arm. *)
Definition arm_contact (f : nat) (p : v3) : contact_cfg := {| cn_pos := 0; cn_quat := 3; cn_joints := 7; cn_point := 9; cn_foot := f; cn_in_foot := p |}.
Example arm_ranges f p : ranges_apart (cn_pos (arm_contact f p)) (cn_quat (arm_contact f p)) (cn_joints (arm_contact f p)) (cn_point (arm_contact f p)) 2.
Proof. unfold ranges_apart, apart. cbn. lia. Qed.
Example arm_contact_exact bt bt_dep p :
  constraint_exact_on (turned_base (arm_contact 2 p)) (contact_class arm 2 up 0 bt bt_dep (relative arm place) jac (fvel_with btw) quat_of)
    (reachable arm place 2 up 0 bt bt_dep jac (fvel_with btw) quat_of (arm_contact 2 p) (fun _ _ _ => 0)) 3
    (point_error arm place 2 0 (arm_contact 2 p)) (contact_patterns 2).
Proof.
  apply (C64_contact_position_exact arm place 2 up depth 0 bt bt_dep jac (fvel_with btw) btw quat_of (arm_contact 2 p) (fun _ _ _ => 0)).
  - apply arm_kinematics.
  - unfold is_frame. cbn. lia.
  - apply arm_ranges.
  - intros i j p0 E C. change (frame_offset arm (cn_foot (arm_contact 2 p))) with pid. apply mv_I.
Qed.
(** With the base not turned and the first joint at zero the point is where one expects it. *)
Definition arm_x (a b : R) : vec := fun i => match i with 3%nat => 1 | 7%nat => a | 8%nat => b | _ => 0 end.
Lemma arm_unit a b : qmat (qunit (part (arm_x a b) 3 4)) = m3I.
Proof.
  assert (S : sqrt (qnorm2 (part (arm_x a b) 3 4)) = 1) by (replace (qnorm2 (part (arm_x a b) 3 4)) with 1; [apply sqrt_1|unfold qnorm2, part, arm_x; cbn; ring]).
  assert (U : qunit (part (arm_x a b) 3 4) = part (arm_x a b) 3 4) by (apply functional_extensionality; intros i; unfold qunit; rewrite S; field).
  rewrite U. unfold qmat, qrot, SpecQuaternion.cross, qvec, delta, part, arm_x, m3I. cbn. f_equal; ring.
Qed.
Lemma arm_quat a b c p : turned_base (arm_contact c p) (arm_x a b).
Proof. unfold turned_base, qnorm2, part, arm_x. cbn. lra. Qed.
Lemma arm_rel2 s : relative arm place s 0 2 = pmul (Pose (Rz (s 0%nat)) (V3 1 0 0)) (Pose m3I (V3 (s 1%nat) 0 0)).
Proof.
  unfold relative, frame_pose. change (frame_link arm 0) with 0%nat. change (frame_link arm 2) with 2%nat.
  change (frame_offset arm 0) with pid. change (frame_offset arm 2) with pid. rewrite !pmul_id_r. cbn [place]. rewrite pinv_id, pmul_id_l. reflexivity.
Qed.
Lemma arm_rel3 s : relative arm place s 0 3 = pmul (Pose (Rz (s 0%nat)) (V3 1 0 0)) (Pose Rx90 (V3 1 0 0)).
Proof.
  unfold relative, frame_pose. change (frame_link arm 0) with 0%nat. change (frame_link arm 3) with 1%nat.
  change (frame_offset arm 0) with pid. change (frame_offset arm 3) with (Pose Rx90 (V3 1 0 0)). rewrite pmul_id_r. cbn [place]. rewrite pinv_id, pmul_id_l. reflexivity.
Qed.
Lemma arm_error f p a b i : (i < 3)%nat -> contact_error arm place 0 f p 0 3 7 9 2 (arm_x a b) i = vent (papply (relative arm place (part (arm_x a b) 7 2) 0 f) p) i.
Proof.
  intros Hi. unfold contact_error, base_pose. rewrite arm_unit. change (part3 (arm_x a b) 0) with v30. change (Pose m3I v30) with pid. rewrite pmul_id_l.
  replace (arm_x a b (9 + i)%nat) with 0; [ring|]. destruct i as [|[|[|i]]]; try lia; reflexivity.
Qed.
Example arm_point : contact_error arm place 0 2 (V3 1 0 0) 0 3 7 9 2 (arm_x 0 2) 0%nat = 4.
Proof.
  rewrite arm_error by lia. rewrite arm_rel2. change (part (arm_x 0 2) 7 2 0%nat) with 0. change (part (arm_x 0 2) 7 2 1%nat) with 2.
  unfold papply, pmul, mv, mm, vadd, Rz, m3I. cbn. rewrite cos_0, sin_0. ring.
Qed.

(** The frame 3 is turned with respect to its link: the derivative with respect to the first joint is wrong. *)
Definition turned_contact : contact_cfg := arm_contact 3 (V3 0 1 0).
Lemma turned_rel s : vx (pos (relative arm place s 0 3)) = 1 + cos (s 0%nat) /\ vx (papply (relative arm place s 0 3) (V3 0 1 0)) = 1 + cos (s 0%nat).
Proof. rewrite arm_rel3. unfold papply, pmul, mv, mm, vadd, Rz, Rx90. cbn. split; ring. Qed.
Lemma turned_point x t : contact_error arm place 0 3 (V3 0 1 0) 0 3 7 9 2 (arm_x t x) 0%nat = 1 + cos t.
Proof. rewrite arm_error by lia. apply (turned_rel (part (arm_x t x) 7 2)). Qed.
Lemma turned_slope : is_derive (fun t => 1 + cos t) 0 0.
Proof. eapply D_eq; [apply D_plus; [apply D_const|apply is_derive_cos]|]. rewrite sin_0. rring. Qed.
Theorem C64_turned_frame_refuted :
  exists r place dofs up depth base bt bt_dep jac fvel btw quat c shared s t x u J i k,
    kinematics r place dofs up depth base jac fvel btw quat /\ is_frame r (cn_foot c) /\
    ranges_apart (cn_pos c) (cn_quat c) (cn_joints c) (cn_point c) dofs /\
    reachable r place dofs up base bt bt_dep jac fvel quat c shared s /\ turned_base c x /\ (i < 3)%nat /\
    partial (fun y => point_error r place dofs base c s t y u i) x k 0 /\
    snd (c_sjac (contact_class r dofs up base bt bt_dep (relative r place) jac fvel quat) s t x u J) i k = -1.
Proof.
  exists arm, place, 2%nat, up, depth, 0%nat, (FVar v_twist), (fun v => (v =? v_twist)%nat), jac, (fvel_with btw), btw, quat_of, turned_contact, (fun _ _ _ => 0).
  exists (contact_ctor turned_contact (fun _ _ _ => 0)), 0, (arm_x 0 0), (fun _ => 0), (fun _ _ => 0), 0%nat, 7%nat.
  pose proof (arm_quat 0 0 3 (V3 0 1 0)) as P.
  assert (F : is_frame arm 3) by (unfold is_frame; cbn; lia).
  split; [apply arm_kinematics|]. split; [exact F|]. split; [apply arm_ranges|]. split; [apply reach_init|]. split; [exact P|]. split; [lia|]. split.
  - unfold partial, point_error. change (cn_foot turned_contact) with 3%nat. change (cn_in_foot turned_contact) with (V3 0 1 0).
    change (cn_pos turned_contact) with 0%nat. change (cn_quat turned_contact) with 3%nat. change (cn_joints turned_contact) with 7%nat. change (cn_point turned_contact) with 9%nat.
    eapply is_derive_ext; [|exact turned_slope].
    intros t. cbv beta. replace (vset (arm_x 0 0) 7 t) with (arm_x t 0); [symmetry; apply (turned_point 0 t)|].
    apply functional_extensionality. intros i. unfold vset, arm_x. do 10 (destruct i as [|i]; [reflexivity|]). reflexivity.
  - rewrite (sjac_form arm place 2 up depth 0 (FVar v_twist) (fun v => (v =? v_twist)%nat) jac (fvel_with btw) btw quat_of turned_contact (fun _ _ _ => 0) arm_kinematics F _ (reach_init _ _ _) 0 (arm_x 0 0) (fun _ => 0) (fun _ _ => 0) 0 7 P ltac:(lia)).
    unfold filled. change (0 <? 3)%nat with true. change (in_range (cn_point turned_contact) 3 7) with false. change (in_range (cn_joints turned_contact) 2 7) with true. cbv iota.
    change (7 - cn_joints turned_contact)%nat with 0%nat. set (rho := contact_state _ _ _ _).
    assert (Prho : 0 < qnorm2 (rho v_q)) by exact P.
    destruct (joints_code arm place 2 up depth 0 (FVar v_twist) (fun v => (v =? v_twist)%nat) jac (fvel_with btw) btw quat_of arm_kinematics turned_contact F ltac:(cbn; lia) ltac:(cbn; lia) rho 0 0 Prho ltac:(lia) ltac:(lia)) as (D & ED & VD).
    unfold joints_derivative. rewrite ED. cbn [value_of]. rewrite VD. clear VD ED D.
    assert (RI : forall n l, RR (rho v_q) n l = ment m3I n l) by (intros n l; unfold RR; rewrite <- (arm_unit 0 0); reflexivity).
    cbn [sumn]. rewrite !RI. cbn [ment m3I a00 a01 a02 a10 a11 a12 a20 a21 a22].
    change (cn_in_foot turned_contact) with (V3 0 1 0). change (cn_foot turned_contact) with 3%nat. cbn [vent vx vy vz].
    assert (PV : vx (mixed_linear (relative arm place) jac (rho v_s) 0 3 0) = 0).
    { pose proof (k_jac _ _ _ _ _ _ _ _ _ _ arm_kinematics (rho v_s) 0 3 0 ltac:(unfold frame_ok; cbn; lia) F ltac:(lia)) as [_ (D & _)]. rewrite vset_same in D. unfold mixed_linear.
      refine (D_unique _ _ _ _ D _). eapply is_derive_ext; [|exact turned_slope].
      intros t. symmetry. pose proof (proj1 (turned_rel (vset (rho v_s) 0 t))) as T. rewrite vset_at in T. exact T. }
    rewrite PV.
    destruct (adjD_value arm place 2 up depth 0 (FVar v_twist) jac (fvel_with btw) quat_of arm_ok arm_placement arm_traversal ltac:(cbn; lia) false 0 3 1 ltac:(unfold frame_ok; cbn; lia) F ltac:(lia)) as (l & PA & VAL).
    change (frame_link arm 0) with 0%nat in PA. change (frame_link arm 3) with 1%nat in PA.
    assert (PL : l = [(1%nat, 0%nat, 0%nat)]).
    { apply (path_fun _ _ _ _ PA). econstructor; [lia|reflexivity|constructor]. }
    assert (VAL' : val arm 2 up 0 (FVar v_twist) (relative arm place) jac (fvel_with btw) quat_of (KAdjD false 0 3 1) rho 0%nat 0%nat = -1).
    { destruct (VAL rho 0%nat 0%nat ltac:(lia) ltac:(lia)) as [VI _]. rewrite (VI 1%nat 0%nat) by (rewrite PL; left; reflexivity).
      unfold adjD_code. change (1 =? frame_link arm 3)%nat with true. cbv iota. unfold AdjOf, adOf. unfold motion_axis. cbn [nth r_joints arm hinge axis_of j_link1 j_axis1 j_axis2 j_link2 Nat.eqb].
      assert (RT : rot (relative arm place (rho v_s) 0 3) = Rx90).
      { rewrite arm_rel3. change (rho v_s 0%nat) with 0. unfold Rz, pmul, mm, Rx90. cbn. rewrite cos_0, sin_0. f_equal; ring. }
      unfold m6mul, Adj, adx, m6ent. cbn [bll bla bal baa]. change (0 <? 3)%nat with true. change (1 <? 3)%nat with true. cbv iota. rewrite RT. unfold axis_of, mm, madd, m30, skew, Rx90. cbn. ring. }
    rewrite VAL'. ring.
Qed.
Print Assumptions C64_value_and_jacobian_partial.
Print Assumptions C64_contact_position_exact.
Print Assumptions C64_bounds.
Print Assumptions C64_turned_frame_refuted.
