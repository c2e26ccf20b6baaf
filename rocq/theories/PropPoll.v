(** C71: the second derivatives of CentroidalMomentumConstraint are evaluated in parallel, and the result does not depend on
    the order in which the evaluations end. *)
From Coq Require Import Reals List Arith Lia Lra Bool FunctionalExtensionality Permutation.
From Verif Require Import Spec PartialLib QuadLib SpecBase SpecFeet SpecCmm CostsModel KinModel SymModel BaseModel MomModel CmmModel PropContact PollModel.
Import ListNotations.

Section Loop.
Variable w : nat -> mat -> mat.
Definition job (d : nat -> bool) (i : nat) : async := Async (w i) (negb (d i)) (d i).
Definition left_by (H : mat) (taken : list nat) : mat := fold_right (fun i M => w i M) H taken.
Lemma left_app H a b : left_by H (a ++ b) = left_by (left_by H b) a.
Proof. unfold left_by. apply fold_right_app. Qed.
Lemma round_runs ready d m : forall k H taken, poll_round ready k (map (job d) (seq k m)) H taken =
  (let new := rev (filter (fun i => negb (d i) && ready i) (seq k m)) in
   Some (map (job (fun i => d i || ready i)) (seq k m), left_by H new, new ++ taken)).
Proof.
  cbv zeta. induction m as [|m IH]; intros k H taken; [reflexivity|]. cbn [seq map poll_round filter]. cbn [job a_done a_valid a_write].
  assert (J : job (fun i => d i || ready i) k = Async (w k) (negb (d k || ready k)) (d k || ready k)) by reflexivity. rewrite J.
  assert (J' : job d k = Async (w k) (negb (d k)) (d k)) by reflexivity. rewrite J'.
  destruct (d k) eqn:E; cbn [negb andb orb].
  - rewrite IH. reflexivity.
  - destruct (ready k) eqn:Q; rewrite IH; [|reflexivity]. cbn [rev]. rewrite left_app, <- app_assoc. reflexivity.
Qed.
Lemma waiting d m k : existsb (fun f => negb (a_done f)) (map (job d) (seq k m)) = true <-> exists i, (k <= i < k + m)%nat /\ d i = false.
Proof.
  rewrite existsb_exists. split.
  - intros (f & I & N). apply in_map_iff in I. destruct I as (i & <- & I). apply in_seq in I. exists i. split; [lia|]. cbn in N. destruct (d i); auto; discriminate.
  - intros (i & L & N). exists (job d i). split; [apply in_map, in_seq; lia|]. cbn. rewrite N. reflexivity.
Qed.
Definition took (d : nat -> bool) (m : nat) (taken : list nat) : Prop := NoDup taken /\ forall i, In i taken <-> (i < m)%nat /\ d i = true.
Lemma took_more ready d m taken : took d m taken ->
  took (fun i => d i || ready i) m (rev (filter (fun i => negb (d i) && ready i) (seq 0 m)) ++ taken).
Proof.
  intros (ND & I). assert (F : forall i, In i (rev (filter (fun i => negb (d i) && ready i) (seq 0 m))) <-> (i < m)%nat /\ d i = false /\ ready i = true).
  { intros i. rewrite <- in_rev, filter_In, in_seq, andb_true_iff, negb_true_iff. split; [intros ((A & B) & C); split; [lia|exact C]|intros (A & C); split; [lia|exact C]]. }
  split.
  - assert (Q : NoDup (rev (filter (fun i => negb (d i) && ready i) (seq 0 m)))) by apply NoDup_rev, NoDup_filter, seq_NoDup.
    revert Q F. generalize (rev (filter (fun i => negb (d i) && ready i) (seq 0 m))). intros l Q F.
    assert (DJ : forall i, In i l -> ~ In i taken). { intros i A B. apply F in A. apply I in B. destruct A as (_ & A & _), B as (_ & B). congruence. }
    clear F I. induction l as [|a l IH]; [exact ND|]. cbn. inversion Q; subst. constructor; [rewrite in_app_iff; intros [A|A]; [contradiction|exact (DJ a (or_introl eq_refl) A)]|].
    apply IH; [assumption|]. intros i A. apply DJ. right. exact A.
  - intros i. rewrite in_app_iff, F, I, orb_true_iff. destruct (d i); intuition congruence.
Qed.
Lemma poll_ends ready m : forall fuel n d H taken, took d m taken ->
  let o := poll ready fuel n (map (job d) (seq 0 m)) (left_by H taken) taken in
  (o = Running \/ exists t', o = Ended (left_by H t') t' /\ NoDup t' /\ forall i, In i t' <-> (i < m)%nat) /\
  ((forall i, (i < m)%nat -> d i = true \/ exists k, (n <= k < n + fuel)%nat /\ ready k i = true) -> o <> Running) /\
  ((exists i, (i < m)%nat /\ d i = false /\ forall k, (n <= k < n + fuel)%nat -> ready k i = false) -> o = Running).
Proof.
  assert (ENDED : forall d taken, took d m taken -> (exists i, (0 <= i < 0 + m)%nat /\ d i = false) \/ (NoDup taken /\ (forall i, In i taken <-> (i < m)%nat) /\ forall i, (i < m)%nat -> d i = true)).
  { intros d taken (ND & I). destruct (existsb (fun f => negb (a_done f)) (map (job d) (seq 0 m))) eqn:E; [left; apply waiting, E|right].
    assert (A : forall i, (i < m)%nat -> d i = true).
    { intros i L. destruct (d i) eqn:Q; auto. assert (X : existsb (fun f => negb (a_done f)) (map (job d) (seq 0 m)) = true) by (apply waiting; exists i; split; [lia|exact Q]). congruence. }
    split; [exact ND|]. split; [|exact A]. intros i. rewrite I. split; [tauto|]. intros L. split; [exact L|apply A, L]. }
  induction fuel as [|fuel IH]; intros n d H taken T; cbv zeta.
  - cbn [poll]. destruct (ENDED d taken T) as [B|(ND & I & A)].
    + pose proof B as B'. apply waiting in B. rewrite B. split; [left; reflexivity|]. split; [|reflexivity].
      intros Q. destruct B' as (i & L & N). destruct (Q i ltac:(lia)) as [X|(k & X & _)]; [congruence|lia].
    + assert (E : existsb (fun f => negb (a_done f)) (map (job d) (seq 0 m)) = false).
      { destruct existsb eqn:E; auto. apply waiting in E. destruct E as (i & L & N). rewrite (A i) in N by lia. discriminate. }
      rewrite E. split; [right; exists taken; auto|]. split; [discriminate|]. intros (i & L & N & _). rewrite (A i L) in N. discriminate.
  - cbn [poll]. destruct (ENDED d taken T) as [B|(ND & I & A)].
    + pose proof B as B'. apply waiting in B. rewrite B, round_runs. cbv zeta iota. rewrite <- left_app.
      specialize (IH (S n) (fun i => d i || ready n i) H _ (took_more (ready n) d m taken T)). cbv zeta in IH. destruct IH as (I1 & I2 & I3).
      split; [exact I1|]. split.
      * intros Q. apply I2. intros i L. destruct (Q i L) as [X|(k & X & Y)]; [left; rewrite X; reflexivity|].
        destruct (Nat.eq_dec k n) as [->|N]; [left; rewrite Y; apply orb_true_r|right; exists k; split; [lia|exact Y]].
      * intros (i & L & N & Z). apply I3. exists i. split; [exact L|]. split; [rewrite N, (Z n) by lia; reflexivity|]. intros k K. apply Z. lia.
    + assert (E : existsb (fun f => negb (a_done f)) (map (job d) (seq 0 m)) = false).
      { destruct existsb eqn:E; auto. apply waiting in E. destruct E as (i & L & N). rewrite (A i) in N by lia. discriminate. }
      rewrite E. split; [right; exists taken; auto|]. split; [discriminate|]. intros (i & L & N & _). rewrite (A i L) in N. discriminate.
Qed.
Lemma order_free m : (forall i j M, (i < m)%nat -> (j < m)%nat -> i <> j -> w i (w j M) = w j (w i M)) ->
  forall H a b, Permutation a b -> NoDup a -> (forall i, In i a -> (i < m)%nat) -> left_by H a = left_by H b.
Proof.
  intros C H a b P. induction P; intros ND B; cbn.
  - reflexivity.
  - inversion ND; subst. f_equal. apply IHP; [assumption|]. intros i I. apply B. right. exact I.
  - inversion ND as [|? ? N1 N2]; subst. apply C; [apply B; left; reflexivity|apply B; right; left; reflexivity|]. intros E. apply N1. left. auto.
  - rewrite IHP1 by assumption. apply IHP2; [eapply Permutation_NoDup; eauto|]. intros i I. apply B. eapply Permutation_in; [apply Permutation_sym; eauto|exact I].
Qed.
(** The loop over evaluations that write apart from each other. *)
Lemma parallel m : (forall i j M, (i < m)%nat -> (j < m)%nat -> i <> j -> w i (w j M) = w j (w i M)) ->
  forall ready H, let o fuel := poll ready fuel 0 (map (job (fun _ => false)) (seq 0 m)) H [] in
  (forall fuel, o fuel = Running \/ exists t', o fuel = Ended (left_by H (rev (seq 0 m))) t' /\ Permutation t' (seq 0 m)) /\
  ((forall i, (i < m)%nat -> exists k, ready k i = true) -> exists fuel, o fuel <> Running) /\
  ((exists i, (i < m)%nat /\ forall k, ready k i = false) -> forall fuel, o fuel = Running).
Proof.
  intros C ready H. cbv zeta. assert (T : took (fun _ => false) m []) by (split; [constructor|]; intros i; cbn; intuition discriminate).
  assert (K := fun fuel => poll_ends ready m fuel 0 (fun _ => false) H [] T). cbv zeta in K. cbn [left_by fold_right] in K.
  split; [|split].
  - intros fuel. destruct (K fuel) as ([R|(t' & E & ND & I)] & _); [left; exact R|right]. exists t'.
    assert (P : Permutation t' (seq 0 m)). { apply NoDup_Permutation; [exact ND|apply seq_NoDup|]. intros i. rewrite I, in_seq. lia. }
    split; [|exact P]. rewrite E. f_equal. apply (order_free m C); [|exact ND|intros i; apply I]. etransitivity; [exact P|apply Permutation_rev].
  - intros E. assert (exists fuel, forall i, (i < m)%nat -> exists k, (k < fuel)%nat /\ ready k i = true) as (fuel & F).
    { clear - E. induction m as [|m IH]; [exists 0%nat; intros; lia|]. destruct IH as (f1 & F1); [intros i L; apply E; lia|]. destruct (E m ltac:(lia)) as (k & Hk).
      exists (Nat.max f1 (S k)). intros i L. destruct (Nat.eq_dec i m) as [->|N]; [exists k; split; [lia|exact Hk]|]. destruct (F1 i ltac:(lia)) as (k' & A & B). exists k'. split; [lia|exact B]. }
    exists fuel. apply (K fuel). intros i L. right. destruct (F i L) as (k & A & B). exists k. split; [lia|exact B].
  - intros (i & L & N) fuel. apply (K fuel). exists i. auto.
Qed.
End Loop.

Lemma blocks_commute H r1 c1 m1 n1 f1 r2 c2 m2 n2 f2 : apart r1 m1 r2 m2 \/ apart c1 n1 c2 n2 ->
  set_block (set_block H r1 c1 m1 n1 f1) r2 c2 m2 n2 f2 = set_block (set_block H r2 c2 m2 n2 f2) r1 c1 m1 n1 f1.
Proof.
  intros A. extensionality i. extensionality j. unfold set_block. destruct A as [A|A].
  - destruct (in_range r1 m1 i) eqn:E; cbn [andb].
    + rewrite (outside _ _ _ _ _ A E). reflexivity.
    + destruct (in_range r2 m2 i && in_range c2 n2 j); reflexivity.
  - destruct (in_range c1 n1 j) eqn:E; rewrite ?andb_false_r, ?andb_true_r.
    + rewrite (outside _ _ _ _ _ A E), !andb_false_r. reflexivity.
    + destruct (in_range r2 m2 i && in_range c2 n2 j); reflexivity.
Qed.

(** What it means for the loop to give one matrix under every schedule. *)
Definition every_evaluation_ends (m : nat) (ready : nat -> nat -> bool) : Prop := forall i, (i < m)%nat -> exists k, ready k i = true.
Definition ends_with (m : nat) (loop : nat -> outcome) (H' : mat) : Prop :=
  exists fuel taken, loop fuel = Ended H' taken /\ Permutation taken (seq 0 m).
Definition never_undefined (loop : nat -> outcome) : Prop := forall fuel, loop fuel <> Undefined.
Definition never_ends (loop : nat -> outcome) : Prop := forall fuel, loop fuel = Running.

Section Hessians.
Variable dofs : nat.
Variable second : nat -> nat -> rstate -> vec -> mat.
Variable mom : rstate -> SpecRigid.v6.
Variable matrix : rstate -> mat.
Variable dmom : rstate -> option mat.
Variable cpos : vec -> vec -> vec -> SpecRigid.v3.
Variable cjac : vec -> vec -> vec -> mat.
Variable s : cmm.
Notation c := (cm_cfg s).
Notation Cmm := (cmm_class dofs mom matrix dmom cpos cjac second).
Hypothesis A : apart (at_quaternion c) 4 (at_joints c) dofs.

Lemma loop_generic m w loop H : (forall i j M, (i < m)%nat -> (j < m)%nat -> i <> j -> w i (w j M) = w j (w i M)) ->
  forall ready, (forall fuel, loop fuel = poll ready fuel 0 (map (job w (fun _ => false)) (seq 0 m)) H []) ->
  never_undefined loop /\ (every_evaluation_ends m ready -> ends_with m loop (left_by w H (rev (seq 0 m)))) /\
  ((exists i, (i < m)%nat /\ forall k, ready k i = false) -> never_ends loop).
Proof.
  intros C ready E. destruct (parallel w m C ready H) as (P1 & P2 & P3). split; [|split].
  - intros fuel. rewrite E. destruct (P1 fuel) as [Q|(t & Q & _)]; rewrite Q; discriminate.
  - intros F. destruct (P2 F) as (fuel & N). destruct (P1 fuel) as [Q|(t & Q & P)]; [contradiction|]. exists fuel, t. rewrite E. auto.
  - intros F fuel. rewrite E. apply P3, F.
Qed.

Definition state_write (st : rstate) (l : vec) (i : nat) : mat -> mat := a_write (nth i (state_jobs dofs second c st l) (launch (fun M => M))).
Definition mixed_write (st : rstate) (l : vec) (i : nat) : mat -> mat := a_write (nth i (mixed_jobs dofs second c st l) (launch (fun M => M))).
Ltac six i := destruct i as [|[|[|[|[|[|i]]]]]]; try lia.

(** The Hessian with respect to the state.  Whatever the evaluations answer to the polls, nothing undefined is done; if each of
    the three ends at some time, the loop ends, each result has been taken once, and the matrix is the one that evaluating
    one after the other would give; if one never ends, neither does the loop. *)
Theorem C71_state_hessian t x u l H ready :
  let loop fuel := state_hessian_loop dofs second ready fuel s t x u l H in
  never_undefined loop /\
  (every_evaluation_ends 3 ready -> ends_with 3 loop (snd (c_shess Cmm s t x u l H))) /\
  ((exists i, (i < 3)%nat /\ forall k, ready k i = false) -> never_ends loop).
Proof.
  cbv zeta. set (st := cm_shared (cmm_update dofs s t x u) t).
  apply (loop_generic 3 (state_write st l) (fun fuel => state_hessian_loop dofs second ready fuel s t x u l H) H); [|intros fuel; reflexivity].
  assert (A' := apart_sym _ _ _ _ A).
  intros i j M Hi Hj N. six i; six j; try (exfalso; apply N; reflexivity); unfold state_write; cbn [nth state_jobs a_write launch];
    [ rewrite (blocks_commute (set_block M _ _ _ _ _)) by (right; assumption); f_equal; apply blocks_commute; left; assumption
    | apply blocks_commute; left; assumption
    | rewrite (blocks_commute M) by (left; assumption); apply blocks_commute; right; assumption
    | rewrite (blocks_commute M) by (right; assumption); apply blocks_commute; left; assumption
    | apply blocks_commute; left; assumption
    | rewrite (blocks_commute (set_block M _ _ _ _ _)) by (left; assumption); f_equal; apply blocks_commute; right; assumption ].
Qed.
Hypothesis A1 : apart (at_linear c) 3 (at_quaternion_rate c) 4.
Hypothesis A2 : apart (at_linear c) 3 (at_joint_rates c) dofs.
Hypothesis A3 : apart (at_quaternion_rate c) 4 (at_joint_rates c) dofs.
(** The mixed Hessian, in the same way with six evaluations. *)
Theorem C71_mixed_hessian t x u l H ready :
  let loop fuel := mixed_hessian_loop dofs second ready fuel s t x u l H in
  never_undefined loop /\
  (every_evaluation_ends 6 ready -> ends_with 6 loop (snd (c_mhess Cmm s t x u l H))) /\
  ((exists i, (i < 6)%nat /\ forall k, ready k i = false) -> never_ends loop).
Proof.
  cbv zeta. set (st := cm_shared (cmm_update dofs s t x u) t).
  apply (loop_generic 6 (mixed_write st l) (fun fuel => mixed_hessian_loop dofs second ready fuel s t x u l H) H); [|intros fuel; reflexivity].
  assert (A' := apart_sym _ _ _ _ A). assert (A1' := apart_sym _ _ _ _ A1). assert (A2' := apart_sym _ _ _ _ A2). assert (A3' := apart_sym _ _ _ _ A3).
  intros i j M Hi Hj N. six i; six j; try (exfalso; apply N; reflexivity); unfold mixed_write; cbn [nth mixed_jobs a_write launch];
    first [apply blocks_commute; left; assumption | apply blocks_commute; right; assumption].
Qed.
Lemma within o m i : (i < m)%nat -> in_range o m (o + i) = true.
Proof. intros L. apply in_range_spec. lia. Qed.
Lemma at_block M r0 c0 m n f i j : (i < m)%nat -> (j < n)%nat -> set_block M r0 c0 m n f (r0 + i)%nat (c0 + j)%nat = f i j.
Proof. intros Hi Hj. unfold set_block. rewrite (within r0 m i Hi), (within c0 n j Hj). cbn [andb]. f_equal; lia. Qed.
Lemma off_block M r0 c0 m n f a b : in_range r0 m a = false \/ in_range c0 n b = false -> set_block M r0 c0 m n f a b = M a b.
Proof. intros [E|E]; unfold set_block; rewrite E, ?andb_false_r; reflexivity. Qed.
(** The matrix: at each pair of variables what its expression evaluates to at the robot state the point encodes, and what was
    there before at the other entries. *)
Theorem C71_entries t x u l H :
  let st := cmm_state dofs c x u in
  let S := snd (c_shess Cmm s t x u l H) in
  let M := snd (c_mhess Cmm s t x u l H) in
  (forall i j, (i < 4)%nat -> (j < 4)%nat -> S (at_quaternion c + i) (at_quaternion c + j) = second v_q v_q st l i j)%nat /\
  (forall i k, (i < 4)%nat -> (k < dofs)%nat -> S (at_quaternion c + i) (at_joints c + k) = second v_q v_s st l i k /\
     S (at_joints c + k) (at_quaternion c + i) = second v_q v_s st l i k)%nat /\
  (forall k m, (k < dofs)%nat -> (m < dofs)%nat -> S (at_joints c + k) (at_joints c + m) = second v_s v_s st l k m)%nat /\
  (forall a b, (in_range (at_quaternion c) 4 a = false /\ in_range (at_joints c) dofs a = false) \/ (in_range (at_quaternion c) 4 b = false /\ in_range (at_joints c) dofs b = false) -> S a b = H a b) /\
  (forall i j, (i < 4)%nat -> (j < 3)%nat -> M (at_quaternion c + i) (at_linear c + j) = second v_q v_lin st l i j)%nat /\
  (forall i j, (i < 4)%nat -> (j < 4)%nat -> M (at_quaternion c + i) (at_quaternion_rate c + j) = second v_q v_qdot st l i j)%nat /\
  (forall i k, (i < 4)%nat -> (k < dofs)%nat -> M (at_quaternion c + i) (at_joint_rates c + k) = second v_q v_sdot st l i k)%nat /\
  (forall k j, (k < dofs)%nat -> (j < 3)%nat -> M (at_joints c + k) (at_linear c + j) = second v_s v_lin st l k j)%nat /\
  (forall k j, (k < dofs)%nat -> (j < 4)%nat -> M (at_joints c + k) (at_quaternion_rate c + j) = second v_s v_qdot st l k j)%nat /\
  (forall k m, (k < dofs)%nat -> (m < dofs)%nat -> M (at_joints c + k) (at_joint_rates c + m) = second v_s v_sdot st l k m)%nat /\
  (forall a b, (in_range (at_quaternion c) 4 a = false /\ in_range (at_joints c) dofs a = false) \/
     (in_range (at_linear c) 3 b = false /\ in_range (at_quaternion_rate c) 4 b = false /\ in_range (at_joint_rates c) dofs b = false) -> M a b = H a b).
Proof.
  cbv zeta. assert (E : cm_shared (cmm_update dofs s t x u) t = cmm_state dofs c x u).
  { unfold cmm_update, cmm_set_shared. cbn [cm_shared]. destruct (Req_EM_T t t); [reflexivity|contradiction]. }
  cbn [cmm_class c_shess c_mhess]. unfold cmm_shess, cmm_mhess. cbn [snd]. rewrite E.
  assert (B := apart_sym _ _ _ _ A). assert (B1 := apart_sym _ _ _ _ A1). assert (B2 := apart_sym _ _ _ _ A2). assert (B3 := apart_sym _ _ _ _ A3).
  assert (O : forall o m o' m' i, apart o m o' m' -> (i < m)%nat -> in_range o' m' (o + i) = false) by (intros o m o' m' i AP L; exact (outside _ _ _ _ _ AP (within o m i L))).
  repeat match goal with |- _ /\ _ => split end; intros a b; [| intros Ha Hb; split | | | | | | | | | ];
    try (intros Ha Hb);
    repeat first [rewrite at_block by assumption; reflexivity
      | rewrite off_block by (first [left; eapply O; eassumption | right; eapply O; eassumption]) ].
  - intros Q. rewrite !off_block by tauto. reflexivity.
  - intros Q. rewrite !off_block by tauto. reflexivity.
Qed.
End Hessians.

(** ** A concrete case: a layout, and an evaluation in which the third ends first, then the first, then the second. *)
Definition poll_layout : layout :=
  {| at_momentum := 0; at_position := 6; at_quaternion := 9; at_joints := 13; at_linear := 0; at_quaternion_rate := 3; at_joint_rates := 7 |}.
Definition late (n i : nat) : bool := match i with 0 => (2 <=? n)%nat | 1 => (5 <=? n)%nat | _ => (1 <=? n)%nat end.
Example late_ends : every_evaluation_ends 6 late.
Proof. intros i L. exists 5%nat. destruct i as [|[|i]]; reflexivity. Qed.
Definition tag (v w : nat) (_ : rstate) (_ : vec) : mat := fun i j => INR (1 + v + 10 * w + 100 * i + 1000 * j).
Example late_run s : cm_cfg s = poll_layout -> forall t x u l,
  exists H', state_hessian_loop 2 tag late 6 s t x u l (fun _ _ => 0%R) = Ended H' [1; 0; 2]%nat /\ state_hessian_loop 2 tag late 5 s t x u l (fun _ _ => 0%R) = Running /\ H' 9%nat 14%nat = INR 1003 /\ H' 14%nat 9%nat = INR 1003.
Proof.
  intros E t x u l. eexists. unfold state_hessian_loop. rewrite E. cbn - [INR tag set_block]. split; [reflexivity|]. split; [reflexivity|].
  split; unfold set_block, tag; cbn - [INR]; reflexivity.
Qed.
Example poll_apart : apart 9 4 13 2 /\ apart 0 3 3 4 /\ apart 0 3 7 2 /\ apart 3 4 7 2.
Proof. unfold apart. lia. Qed.
Print Assumptions C71_state_hessian.
Print Assumptions C71_mixed_hessian.
Print Assumptions C71_entries.
