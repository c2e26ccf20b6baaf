(** The derivative of the static torques with respect to the joints. *)
From Coq Require Import Reals List Arith Lia Lra Bool FunctionalExtensionality.
From Coquelicot Require Import Coquelicot.
From Verif Require Import Spec PartialLib SpecQuaternion.
From Verif Require Import QuatCurve SpecRigid Rigid RigidCalc KinTree KinModel KinLib KinMotion KinUsers KinProofs KinExist.
From Verif Require Import SpecBase BaseProofs SpecMom MomModel MomProofs SpecStatic StaticModel.
Import ListNotations.
Local Open Scope R_scope.

(** Link c is link m or one of the links between m and the base (which is not counted). *)
Inductive above (up : nat -> option (nat * nat)) (b : nat) : nat -> nat -> Prop :=
| above_here m p i : m <> b -> up m = Some (p, i) -> above up b m m
| above_up m p i c : m <> b -> up m = Some (p, i) -> above up b p c -> above up b m c.

Lemma above_path up b t l : path up b t l -> forall c, above up b t c <-> exists p i, In (c, p, i) l.
Proof.
  induction 1 as [|t p i l N U P IH]; intros c; split.
  - intros H. inversion H; congruence.
  - intros (p & i & []).
  - intros H. inversion H as [? q k N' U' E1|? q k ? N' U' H' E1]; subst.
    + exists p, i. left. reflexivity.
    + rewrite U in U'. injection U' as <- <-. destruct (proj1 (IH c) H') as (p' & i' & I). exists p', i'. right. exact I.
  - intros (q & k & [I|I]).
    + injection I as <- <- <-. eapply above_here; eauto.
    + eapply above_up; eauto. apply IH. eauto.
Qed.

Section Chains.
Variable r : robot.
Variable b : nat.
Variable up : nat -> option (nat * nat).
Variable depth : nat -> nat.
Hypothesis trav : traversal r b up depth.
Hypothesis Hb : (b < r_links r)%nat.
Notation links := (r_links r).
Notation ab := (above up b).

Lemma up_facts m : (m < links)%nat -> m <> b -> exists p i, up m = Some (p, i) /\ (p < links)%nat /\ (depth p < depth m)%nat /\ p <> m.
Proof. intros H N. destruct (trav m H N) as (p & i & j & U & _ & _ & Hp & D). exists p, i. repeat split; auto. intros ->. lia. Qed.
Lemma ab_facts m c : ab m c -> (m < links)%nat -> (c < links)%nat /\ c <> b /\ (depth c <= depth m)%nat.
Proof.
  induction 1 as [m p i N U|m p i c N U H IH]; intros Hm; [repeat split; auto|].
  destruct (up_facts m Hm N) as (p' & i' & U' & Hp & D & _). rewrite U in U'. injection U' as <- <-. destruct (IH Hp) as (A & B & C). repeat split; auto. lia.
Qed.
Lemma ab_strict m p i c : (m < links)%nat -> m <> b -> up m = Some (p, i) -> ab p c -> (depth c < depth m)%nat.
Proof.
  intros Hm N U H. destruct (up_facts m Hm N) as (p' & i' & U' & Hp & D & _). rewrite U in U'. injection U' as <- <-.
  destruct (ab_facts p c H Hp) as (_ & _ & L). lia.
Qed.
Lemma ab_step m p i c : up m = Some (p, i) -> ab m c -> c = m \/ ab p c.
Proof. intros U H. inversion H as [? ? ? N' U' E1|? q k ? N' U' H' E1]; subst; [left; reflexivity|]. rewrite U in U'. injection U' as <- <-. right. exact H'. Qed.
Lemma ab_trans a c d : ab a c -> ab c d -> ab a d.
Proof. induction 1 as [m p i N U|m p i c N U H IH]; intros H'; [exact H'|]. eapply above_up; eauto. Qed.
Lemma ab_anti a c : (a < links)%nat -> ab a c -> ab c a -> a = c.
Proof.
  intros Ha H H'. inversion H as [? ? ? N' U' E1|? q k ? N' U' Q E1]; subst; [reflexivity|].
  destruct (ab_facts _ _ H Ha) as (Hc & _). pose proof (ab_strict a q k c Ha N' U' Q) as D. destruct (ab_facts _ _ H' Hc) as (_ & _ & D'). lia.
Qed.
Lemma ab_dec m c : (m < links)%nat -> ab m c \/ ~ ab m c.
Proof.
  intros Hm. destruct (path_exists r b up depth trav Hb m Hm) as (l & P & _). pose proof (above_path up b m l P c) as Q.
  destruct (in_dec Nat.eq_dec c (map (fun x => fst (fst x)) l)) as [I|N].
  - left. apply Q. apply in_map_iff in I. destruct I as ([[c' p] i] & E & I). cbn in E. subst. eauto.
  - right. intros H. apply N. destruct (proj1 Q H) as (p & i & I). apply in_map_iff. exists (c, p, i). auto.
Qed.
Lemma ab_total m c d : (m < links)%nat -> ab m c -> ab m d -> ab c d \/ ab d c.
Proof.
  intros Hm H. revert d. induction H as [m p i N U|m p i c N U H IH]; intros d H'; [left; exact H'|].
  destruct (up_facts m Hm N) as (p' & i' & U' & Hp & D & _). rewrite U in U'. injection U' as <- <-.
  destruct (ab_step m p i d U H') as [->|Q]; [right; eapply above_up; eauto|]. apply IH; auto.
Qed.
Lemma ab_self m : (m < links)%nat -> m <> b -> ab m m.
Proof. intros Hm N. destruct (up_facts m Hm N) as (p & i & U & _). eapply above_here; eauto. Qed.
Lemma not_base m c : ab m c -> m <> b.
Proof. intros H. inversion H; auto. Qed.
End Chains.

(** ** The loops *)
Lemma put2_same D l z a : put2 D l z a l z = a.
Proof. unfold put2. rewrite !Nat.eqb_refl. reflexivity. Qed.
Lemma put2_other D l z a m k : m <> l \/ k <> z -> put2 D l z a m k = D m k.
Proof. unfold put2. destruct (Nat.eqb_spec m l), (Nat.eqb_spec k z); cbn; auto. intros [|]; congruence. Qed.

Section Loops.
Variable r : robot.
Variable dofs : nat.
Variable up : nat -> option (nat * nat).
Variable base : nat.
Variable child : nat -> nat.
Variable inertia : nat -> m6.
Variable rel : nat -> nat -> pose.
Variable acc : nat -> v6.
Variable wrench : nat -> v6.
Definition T (l z : nat) : v6 := m6v (inertia l) (m6v (Adj (rel l (child z))) (axis_times_acceleration r child acc z)).
Notation vis := (visit r base child inertia rel acc).
Lemma visit_loop l p : p <> l -> forall pl : list (nat * nat * nat), NoDup (map snd pl) -> (forall c q z, In (c, q, z) pl -> (z < dofs)%nat) -> forall D,
  exists D', foldo (fun a x => (fun (_ _ z : nat) D => if (z <? dofs)%nat then Some (vis l p z D) else None) (fst (fst x)) (snd (fst x)) (snd x) a) pl D = Some D' /\
  (forall c q z, In (c, q, z) pl -> D' l z = v6add (D l z) (v6opp (T l z))) /\
  (forall z, (forall c q, ~ In (c, q, z) pl) -> D' l z = D l z) /\
  (forall c q z, p <> base -> In (c, q, z) pl -> D' p z = v6add (D p z) (m6v (AdjW (rel p l)) (D' l z))) /\
  (forall z, p = base \/ (forall c q, ~ In (c, q, z) pl) -> D' p z = D p z) /\
  (forall m z, m <> l -> m <> p -> D' m z = D m z).
Proof.
  intros Npl. induction pl as [|[[c q] z] pl IH]; intros ND B D.
  { exists D. cbn. repeat split; intros; auto; contradiction. }
  cbn [map snd] in ND. inversion ND as [|? ? NI ND']; subst. cbn [foldo snd fst].
  replace (z <? dofs)%nat with true by (symmetry; apply Nat.ltb_lt; eapply B; left; reflexivity).
  assert (FR : forall c' q', ~ In (c', q', z) pl).
  { intros c' q' I. apply NI. apply in_map_iff. exists (c', q', z). auto. }
  assert (V1 : vis l p z D l z = v6add (D l z) (v6opp (T l z))).
  { unfold visit. destruct (Nat.eqb_spec p base); [apply put2_same|]. rewrite put2_other by (left; auto). apply put2_same. }
  assert (V2 : forall k, k <> z -> forall m, vis l p z D m k = D m k).
  { intros k K m. unfold visit. destruct (Nat.eqb_spec p base); rewrite ?put2_other by (right; auto); reflexivity. }
  assert (V3 : p <> base -> vis l p z D p z = v6add (D p z) (m6v (AdjW (rel p l)) (vis l p z D l z))).
  { intros K. rewrite V1. unfold visit. destruct (Nat.eqb_spec p base); [contradiction|]. rewrite put2_same, put2_same, put2_other by (left; auto). reflexivity. }
  assert (V4 : p = base -> vis l p z D p z = D p z).
  { intros K. unfold visit. destruct (Nat.eqb_spec p base); [|contradiction]. apply put2_other. left; auto. }
  assert (V5 : forall m k, m <> l -> m <> p -> vis l p z D m k = D m k).
  { intros m k K K'. unfold visit. destruct (Nat.eqb_spec p base); rewrite ?put2_other by (left; auto); reflexivity. }
  destruct (IH ND' (fun c' q' z' H => B c' q' z' (or_intror H)) (vis l p z D)) as (D' & E & A1 & A2 & A3 & A4 & A5).
  exists D'. split; [exact E|]. split; [|split; [|split; [|split]]].
  - intros c' q' z' [I|I].
    + injection I as <- <- <-. rewrite (A2 z FR). exact V1.
    + rewrite (A1 c' q' z' I). rewrite V2; [reflexivity|]. intros ->. exact (FR _ _ I).
  - intros z' H. rewrite A2 by (intros c' q' I; apply (H c' q'); right; exact I). apply V2. intros ->. apply (H c q). left; reflexivity.
  - intros c' q' z' K [I|I].
    + injection I as <- <- <-. rewrite (A4 z (or_intror FR)), (A2 z FR). exact (V3 K).
    + rewrite (A3 c' q' z' K I). rewrite V2; [reflexivity|]. intros ->. exact (FR _ _ I).
  - intros z' [K|H].
    + rewrite (A4 z' (or_introl K)). destruct (Nat.eq_dec z' z) as [->|N]; [apply V4; exact K|apply V2; exact N].
    + rewrite A4 by (right; intros c' q' I; apply (H c' q'); right; exact I). apply V2. intros ->. apply (H c q). left; reflexivity.
  - intros m k K K'. rewrite A5 by auto. apply V5; auto.
Qed.
Lemma raise_loop l j : forall pl : list (nat * nat * nat), NoDup (map (fun x => fst (fst x)) pl) -> (forall q i, ~ In (l, q, i) pl) -> forall D,
  exists D', foldo (fun a x => (fun (a _ _ : nat) D => Some (raise rel l j a D)) (fst (fst x)) (snd (fst x)) (snd x) a) pl D = Some D' /\
  (forall c q i, In (c, q, i) pl -> D' c j = v6add (D c j) (m6v (AdjW (rel c l)) (D l j))) /\
  (forall m z, z <> j \/ (forall q i, ~ In (m, q, i) pl) -> D' m z = D m z).
Proof.
  induction pl as [|[[c q] i] pl IH]; intros ND NL D.
  { exists D. cbn. repeat split; intros; auto; contradiction. }
  cbn [map fst] in ND. inversion ND as [|? ? NI ND']; subst. cbn [foldo fst snd].
  assert (FR : forall q' i', ~ In (c, q', i') pl).
  { intros q' i' I. apply NI. apply in_map_iff. exists (c, q', i'). auto. }
  assert (Ncl : c <> l). { intros ->. apply (NL q i). left; reflexivity. }
  destruct (IH ND' (fun q' i' H => NL q' i' (or_intror H)) (raise rel l j c D)) as (D' & E & A1 & A2).
  exists D'. split; [exact E|]. split.
  - intros c' q' i' [I|I].
    + injection I as <- <- <-. rewrite A2 by (right; exact FR). apply put2_same.
    + rewrite (A1 c' q' i' I). unfold raise. rewrite !put2_other; auto. left. intros ->. exact (FR _ _ I).
  - intros m z H. rewrite A2.
    + unfold raise. apply put2_other. destruct H as [H|H]; [right; exact H|]. left. intros ->. apply (H q i). left; reflexivity.
    + destruct H as [H|H]; [left; exact H|]. right. intros q' i' I. apply (H q' i'). right; exact I.
Qed.
End Loops.

Lemma m6add_assoc A B C : m6add (m6add A B) C = m6add A (m6add B C).
Proof. r6. Qed.
Lemma m6add_neg A : m6add A (m6neg A) = m60.
Proof. r6. Qed.
Lemma neg_of_sum X Y : m6add X Y = m60 -> X = m6neg Y.
Proof. intros H. rewrite <- (m6add_0_r X), <- (m6add_neg Y), <- m6add_assoc, H. apply m6add_0_l. Qed.
Lemma v6sum_split' n f k : (k < n)%nat -> v6add (f k) (v6sum n (fun l => if (l =? k)%nat then v60 else f l)) = v6sum n f.
Proof.
  revert k. induction n as [|n IH]; intros k Hk; [lia|]. cbn [v6sum]. destruct (Nat.eqb_spec n k) as [->|N].
  - rewrite v6add_0_r, v6add_comm. f_equal. apply v6sum_ext. intros i Hi. destruct (Nat.eqb_spec i k); [lia|reflexivity].
  - rewrite <- v6add_assoc, IH by lia. reflexivity.
Qed.

Section Torque.
Variable r : robot.
Variable place : vec -> nat -> pose.
Variable dofs : nat.
Variable up : nat -> option (nat * nat).
Variable depth : nat -> nat.
Variable base : nat.
Variable child : nat -> nat.
Variable inertia : nat -> m6.
Variable order : list nat.
Notation links := (r_links r).
Hypothesis rok : robot_ok r.
Hypothesis plc : placement r place.
Hypothesis trav : traversal r base up depth.
Hypothesis one_dof : (length (r_joints r) <= dofs)%nat.
Hypothesis Hb : (base < links)%nat.
Hypothesis kids : forall c p j, (c < links)%nat -> c <> base -> up c = Some (p, j) -> child j = c.
Hypothesis crossed : forall z, (z < dofs)%nat -> (child z < links)%nat /\ child z <> base /\ exists p, up (child z) = Some (p, z).
Hypothesis ord : ordered r base up order.
Variable s : vec.
Notation rel := (relative r place s).
Variable acc : nat -> v6.
Variable wrench : nat -> v6.
Notation ab := (above up base).
Notation X := (fun f g => AdjW (rel f g)).
Notation TT := (T r child inertia rel acc).
Notation K := (child_force r child wrench).
Notation link_step := (static_link r dofs up base child inertia rel acc wrench).

Lemma joint_index m p j : (m < links)%nat -> m <> base -> up m = Some (p, j) -> (j < dofs)%nat.
Proof.
  intros Hm N U. destruct (trav m Hm N) as (p' & i' & jt & U' & E & _). rewrite U in U'. injection U' as <- <-.
  assert (nth_error (r_joints r) j <> None) by congruence. apply nth_error_Some in H. lia.
Qed.
Lemma chain_joint m pl z : (m < links)%nat -> (z < dofs)%nat -> path up base m pl -> (exists c q, In (c, q, z) pl) <-> ab m (child z).
Proof.
  intros Hm Hz P. split.
  - intros (c & q & I). destruct (path_step r base up depth trav Hb _ _ _ _ _ P Hm I) as (Hc & N & U & _).
    rewrite (kids c q z Hc N U). apply (above_path up base m pl P). eauto.
  - intros H. apply (above_path up base m pl P) in H. destruct H as (p & i & I).
    destruct (path_step r base up depth trav Hb _ _ _ _ _ P Hm I) as (Hc & N & U & _). destruct (crossed z Hz) as (_ & _ & q & U').
    rewrite U in U'. injection U' as -> ->. eauto.
Qed.
Lemma chain_joint_not m pl z : (m < links)%nat -> (z < dofs)%nat -> path up base m pl -> ~ ab m (child z) -> forall c q, ~ In (c, q, z) pl.
Proof. intros Hm Hz P H c q I. apply H. apply (chain_joint m pl z Hm Hz P). eauto. Qed.

Lemma link_effect l p j : (l < links)%nat -> l <> base -> up l = Some (p, j) -> forall D, exists D', link_step l D = Some D' /\
  (forall z, (z < dofs)%nat -> ab l (child z) -> D' l z = v6add (v6add (D l z) (if (child z =? l)%nat then K z else v60)) (v6opp (TT l z))) /\
  (forall z, (z < dofs)%nat -> ~ ab l (child z) -> D' l z = D l z) /\
  (forall z, (z < dofs)%nat -> p <> base -> ab l (child z) -> D' p z = v6add (D p z) (m6v (X p l) (D' l z))) /\
  (forall a, ab p a -> a <> p -> D' a j = v6add (D a j) (m6v (X a l) (D' l j))) /\
  (forall m z, (z < dofs)%nat -> m <> l -> ~ (m = p /\ p <> base /\ ab l (child z)) -> ~ (ab p m /\ m <> p /\ z = j) -> D' m z = D m z).
Proof.
  intros Hl Nl U D. destruct (up_facts r base up depth trav Hb l Hl Nl) as (p' & j' & U' & Hp & Dp & Npl). rewrite U in U'. injection U' as <- <-.
  pose proof (joint_index l p j Hl Nl U) as Hj. pose proof (kids l p j Hl Nl U) as Cj.
  destruct (path_exists r base up depth trav Hb l Hl) as (pl & P & _).
  pose proof (path_nodup r base up depth trav Hb l pl P Hl) as ND.
  pose proof (path_short r base up depth trav Hb l pl P Hl) as SH.
  assert (BD : forall c q z, In (c, q, z) pl -> (z < dofs)%nat).
  { intros c q z I. destruct (path_step r base up depth trav Hb _ _ _ _ _ P Hl I) as (Hc & N & Uc & _). eapply joint_index; eauto. }
  assert (CZ : forall z, (z < dofs)%nat -> child z = l -> z = j).
  { intros z Hz C. destruct (crossed z Hz) as (_ & _ & q & Uz). rewrite C, U in Uz. congruence. }
  set (D0 := put2 D l j (v6add (D l j) (K j))).
  assert (D0l : forall z, (z < dofs)%nat -> D0 l z = v6add (D l z) (if (child z =? l)%nat then K z else v60)).
  { intros z Hz. unfold D0. destruct (Nat.eqb_spec (child z) l) as [E|E].
    - rewrite (CZ z Hz E), put2_same. reflexivity.
    - rewrite put2_other, v6add_0_r by (right; intros ->; auto). reflexivity. }
  assert (D0o : forall m z, m <> l -> D0 m z = D m z) by (intros; apply put2_other; left; auto).
  destruct (visit_loop r dofs base child inertia rel acc l p Npl pl ND BD D0) as (D1 & E1 & A1 & A2 & A3 & A4 & A5).
  assert (B1 : forall z, (z < dofs)%nat -> ab l (child z) -> D1 l z = v6add (v6add (D l z) (if (child z =? l)%nat then K z else v60)) (v6opp (TT l z))).
  { intros z Hz H. apply (chain_joint l pl z Hl Hz P) in H. destruct H as (c & q & I). rewrite (A1 c q z I), D0l by exact Hz. reflexivity. }
  assert (B2 : forall z, (z < dofs)%nat -> ~ ab l (child z) -> D1 l z = D l z).
  { intros z Hz H. rewrite (A2 z (chain_joint_not l pl z Hl Hz P H)), D0l by exact Hz. destruct (Nat.eqb_spec (child z) l) as [E|E]; [|apply v6add_0_r].
    exfalso. apply H. rewrite E. eapply above_here; eauto. }
  assert (B3 : forall z, (z < dofs)%nat -> p <> base -> ab l (child z) -> D1 p z = v6add (D p z) (m6v (X p l) (D1 l z))).
  { intros z Hz Np H. apply (chain_joint l pl z Hl Hz P) in H. destruct H as (c & q & I). rewrite (A3 c q z Np I), D0o by auto. reflexivity. }
  assert (B4 : forall z, (z < dofs)%nat -> p = base \/ ~ ab l (child z) -> D1 p z = D p z).
  { intros z Hz H. rewrite A4; [apply D0o; auto|]. destruct H as [H|H]; [left; exact H|right; apply (chain_joint_not l pl z Hl Hz P H)]. }
  assert (B5 : forall m z, m <> l -> m <> p -> D1 m z = D m z) by (intros; rewrite A5, D0o by auto; reflexivity).
  assert (STEP : exists D', link_step l D = Some D' /\
     (forall a, ab p a -> a <> p -> D' a j = v6add (D1 a j) (m6v (X a l) (D1 l j))) /\
     (forall m z, ~ (ab p m /\ m <> p /\ z = j) -> D' m z = D1 m z)).
  { unfold static_link. rewrite U. replace (j <? dofs)%nat with true by (symmetry; apply Nat.ltb_lt; exact Hj). fold D0. cbv zeta.
    rewrite (walk_path up base _ l pl P) by lia. rewrite E1. destruct (Nat.eqb_spec p base) as [Ep|Ep].
    - exists D1. split; [reflexivity|]. split; [|reflexivity]. intros a Ha. exfalso. apply (not_base base up p a Ha). exact Ep.
    - destruct (up_facts r base up depth trav Hb p Hp Ep) as (q & k & Uq & Hq & Dq & Nqp). rewrite Uq.
      destruct (path_exists r base up depth trav Hb q Hq) as (ql & Q & _).
      pose proof (path_short r base up depth trav Hb q ql Q Hq) as SQ. rewrite (walk_path up base _ q ql Q) by lia.
      assert (QA : forall c, (exists t i, In (c, t, i) ql) <-> (ab p c /\ c <> p)).
      { intros c. rewrite <- (above_path up base q ql Q c). split.
        - intros H. split; [eapply above_up; eauto|]. intros ->. pose proof (ab_strict r base up depth trav Hb p q k p Hp Ep Uq H). lia.
        - intros [H N]. destruct (ab_step base up p q k c Uq H) as [->|H']; [congruence|exact H']. }
      destruct (raise_loop rel l j ql (path_nodup_children r base up depth trav Hb q ql Q Hq)) with (D := D1) as (D' & E' & R1 & R2).
      { intros t i I. assert (ab p l) by (apply QA; eauto). pose proof (ab_strict r base up depth trav Hb l p j l Hl Nl U H). lia. }
      exists D'. split; [exact E'|]. split.
      + intros a Ha Na. destruct (proj2 (QA a) (conj Ha Na)) as (t & i & I). exact (R1 a t i I).
      + intros m z H. apply R2. destruct (Nat.eq_dec z j) as [->|N]; [|left; exact N]. right. intros t i I. apply H.
        destruct (proj1 (QA m) (ex_intro _ t (ex_intro _ i I))). auto. }
  destruct STEP as (D' & E' & R1 & R2). exists D'. split; [exact E'|].
  assert (Lp : ~ ab p l) by (intros H; pose proof (ab_strict r base up depth trav Hb l p j l Hl Nl U H); lia).
  assert (Rl : forall z, D' l z = D1 l z) by (intros z; apply R2; intros (H & _); auto).
  assert (Rp : forall z, D' p z = D1 p z) by (intros z; apply R2; intros (_ & H & _); auto).
  split; [|split; [|split; [|split]]].
  - intros z Hz H. rewrite Rl. apply B1; auto.
  - intros z Hz H. rewrite Rl. apply B2; auto.
  - intros z Hz Np H. rewrite Rp, Rl. apply B3; auto.
  - intros a Ha Na. rewrite R1, Rl by auto. f_equal. apply B5; auto. intros ->. auto.
  - intros m z Hz Nm N1 N2. rewrite R2 by exact N2. destruct (Nat.eq_dec m p) as [->|Nmp]; [|apply B5; auto].
    apply B4; [exact Hz|]. destruct (Nat.eq_dec p base) as [E|E]; [left; exact E|]. right. intros H. apply N1. auto.
Qed.

(** ** The table after the links of [done] *)
Definition inb (c : nat) (done : list nat) : bool := existsb (Nat.eqb c) done.
Lemma inb_in c done : inb c done = true <-> In c done.
Proof.
  unfold inb. rewrite existsb_exists. split; [intros (x & I & E); apply Nat.eqb_eq in E; subst; auto|].
  intros I. exists c. split; [exact I|apply Nat.eqb_refl].
Qed.
Lemma inb_out c done : ~ In c done -> inb c done = false.
Proof. intros H. destruct (inb c done) eqn:E; [|reflexivity]. apply inb_in in E. contradiction. Qed.
Definition own (done : list nat) (m z : nat) : v6 :=
  if inb m done then v6add (if (child z =? m)%nat then K z else v60) (v6opp (TT m z)) else v60.
Definition kid_sum (done : list nat) (D : table) (m z : nat) : v6 :=
  v6sum links (fun c => if hangs base up c m && inb c done then m6v (X m c) (D c z) else v60).
Definition inv (done : list nat) (D : table) : Prop := forall z m, (z < dofs)%nat -> (m < links)%nat -> m <> base ->
  (ab m (child z) -> D m z = v6add (own done m z) (kid_sum done D m z)) /\
  (ab (child z) m -> m <> child z -> D m z = if inb (child z) done then m6v (X m (child z)) (D (child z) z) else v60) /\
  (~ ab m (child z) -> ~ ab (child z) m -> D m z = v60).
(** done is made of whole branches. *)
Definition closed (done : list nat) : Prop := forall c m, In c done -> (m < links)%nat -> ab m c -> In m done.

Lemma inv_start : inv [] (fun _ _ => v60).
Proof.
  intros z m Hz Hm N. split; [|split]; intros; cbn [inb existsb]; auto. unfold own, kid_sum. cbn [inb existsb].
  rewrite (v6sum_ext _ _ (fun _ => v60)) by (intros c _; rewrite andb_false_r; reflexivity). rewrite v6sum_0, v6add_0_l. reflexivity.
Qed.
Lemma hangs_up c m : hangs base up c m = true -> c <> base /\ exists i, up c = Some (m, i).
Proof.
  unfold hangs. intros H. apply andb_true_iff in H. destruct H as [H H']. apply negb_true_iff, Nat.eqb_neq in H. split; [exact H|].
  destruct (up c) as [[p i]|]; [|discriminate]. apply Nat.eqb_eq in H'. subst. eauto.
Qed.
Lemma inv_step l D done : (l < links)%nat -> l <> base -> ~ In l done -> closed done -> inv done D ->
  exists D', link_step l D = Some D' /\ inv (l :: done) D'.
Proof.
  intros Hl Nl Fl CL I. destruct (up_facts r base up depth trav Hb l Hl Nl) as (p & j & U & Hp & Dp & Npl).
  pose proof (joint_index l p j Hl Nl U) as Hj. pose proof (kids l p j Hl Nl U) as Cj.
  assert (CZ : forall z, (z < dofs)%nat -> child z = l -> z = j).
  { intros z Hz C. destruct (crossed z Hz) as (_ & _ & q & Uz). rewrite C, U in Uz. congruence. }
  assert (All : ab l l) by (eapply above_here; eauto).
  assert (Lp : ~ ab p l) by (intros H; pose proof (ab_strict r base up depth trav Hb l p j l Hl Nl U H); lia).
  assert (UPL : forall c, ab p c -> ab l c) by (intros c H; eapply above_up; eauto).
  assert (Fa : forall a, ab l a -> ~ In a done) by (intros a H J; apply Fl; exact (CL a l J Hl H)).
  destruct (link_effect l p j Hl Nl U D) as (D' & E & S1 & S2 & S3 & S4 & S5). exists D'. split; [exact E|].
  assert (UN : forall c z, (z < dofs)%nat -> In c done -> D' c z = D c z).
  { intros c z Hz J. apply S5; [exact Hz|intros ->; contradiction| |].
    - intros (-> & Np & _). apply (Fa p); [|exact J]. apply UPL. apply (ab_self r base up depth trav Hb p Hp Np).
    - intros (H & _). exact (Fa c (UPL c H) J). }
  assert (IL : inb l (l :: done) = true) by (apply inb_in; left; reflexivity).
  assert (IO : forall c, c <> l -> inb c (l :: done) = inb c done).
  { intros c N. unfold inb. cbn [existsb]. apply Nat.eqb_neq in N. rewrite N. reflexivity. }
  assert (NLD : inb l done = false) by (apply inb_out; exact Fl).
  (* the sum over the children *)
  assert (KS : forall m z, (z < dofs)%nat -> m <> p -> kid_sum (l :: done) D' m z = kid_sum done D m z).
  { intros m z Hz N. apply v6sum_ext. intros c Hc. destruct (Nat.eq_dec c l) as [->|Nc].
    - rewrite NLD, andb_false_r. replace (hangs base up l m) with false; [reflexivity|]. symmetry. unfold hangs. rewrite U.
      replace (p =? m)%nat with false by (symmetry; apply Nat.eqb_neq; auto). apply andb_false_r.
    - rewrite IO by exact Nc. destruct (hangs base up c m); [|reflexivity]. cbn [andb]. destruct (inb c done) eqn:J; [|reflexivity].
      apply inb_in in J. rewrite UN by auto. reflexivity. }
  assert (KP : forall z, (z < dofs)%nat -> kid_sum (l :: done) D' p z = v6add (m6v (X p l) (D' l z)) (kid_sum done D p z)).
  { intros z Hz. unfold kid_sum.
    rewrite <- (v6sum_split' links (fun c => if hangs base up c p && inb c (l :: done) then m6v (X p c) (D' c z) else v60) l Hl).
    rewrite <- (v6sum_split' links (fun c => if hangs base up c p && inb c done then m6v (X p c) (D c z) else v60) l Hl).
    cbv beta. rewrite IL, NLD, andb_false_r, andb_true_r, v6add_0_l.
    replace (hangs base up l p) with true by (symmetry; unfold hangs; rewrite U, Nat.eqb_refl; apply Nat.eqb_neq in Nl; rewrite Nl; reflexivity).
    f_equal. apply v6sum_ext. intros c Hc. destruct (Nat.eqb_spec c l) as [->|Nc]; [reflexivity|]. rewrite IO by exact Nc.
    destruct (hangs base up c p); [|reflexivity]. cbn [andb]. destruct (inb c done) eqn:J; [|reflexivity]. apply inb_in in J. rewrite UN by auto. reflexivity. }
  intros z m Hz Hm Nm. destruct (I z m Hz Hm Nm) as (I1 & I2 & I3). split; [|split].
  - intros A. destruct (Nat.eq_dec m l) as [->|Nml].
    + rewrite S1 by auto. rewrite (I1 A), KS by auto. unfold own at 1 2. rewrite IL, NLD, v6add_0_l.
      rewrite (v6add_comm (kid_sum done D l z)), v6add_assoc, (v6add_comm (kid_sum done D l z)), <- v6add_assoc. reflexivity.
    + assert (OW : own (l :: done) m z = own done m z) by (unfold own; rewrite IO by exact Nml; reflexivity). rewrite OW.
      destruct (Nat.eq_dec m p) as [->|Nmp].
      * rewrite (S3 z Hz Nm (UPL _ A)), (I1 A), KP by exact Hz. rewrite v6add_assoc. f_equal. apply v6add_comm.
      * rewrite KS by auto. rewrite S5; [exact (I1 A)|exact Hz|exact Nml|intros (H & _); auto|]. intros (H & _ & ->). rewrite Cj in A.
        apply Lp. eapply ab_trans; eauto.
  - intros B NB. destruct (Nat.eq_dec (child z) l) as [El|Nzl].
    + pose proof (CZ z Hz El) as ->. rewrite El, IL. rewrite El, NLD in I2. rewrite El in B, NB.
      destruct (ab_step base up l p j m U B) as [->|H]; [congruence|]. destruct (Nat.eq_dec m p) as [->|Nmp].
      * rewrite (S3 j Hz Nm ltac:(rewrite El; exact All)), (I2 B NB), v6add_0_l. reflexivity.
      * rewrite (S4 m H Nmp), (I2 B NB), v6add_0_l. reflexivity.
    + rewrite IO by exact Nzl. replace (D' m z) with (D m z).
      * rewrite (I2 B NB). destruct (inb (child z) done) eqn:J; [|reflexivity]. apply inb_in in J. rewrite UN by auto. reflexivity.
      * symmetry. destruct (crossed z Hz) as (Hc & Nc & _). destruct (Nat.eq_dec m l) as [->|Nml].
        -- apply S2; [exact Hz|]. intros A. apply Nzl. apply (ab_anti r base up depth trav Hb); auto.
        -- apply S5; [exact Hz|exact Nml| |].
           ++ intros (-> & Np & A). destruct (ab_step base up l p j (child z) U A) as [E'|A']; [contradiction|]. apply NB.
              apply (ab_anti r base up depth trav Hb); auto.
           ++ intros (_ & _ & ->). contradiction.
  - intros N1 N2. rewrite <- (I3 N1 N2). destruct (Nat.eq_dec m l) as [->|Nml]; [apply S2; auto|]. apply S5; [exact Hz|exact Nml| |].
    + intros (-> & Np & A). destruct (ab_step base up l p j (child z) U A) as [E'|A']; [|contradiction]. apply N2. rewrite E'. apply UPL.
      apply (ab_self r base up depth trav Hb p Hp Np).
    + intros (H & _ & ->). apply N2. rewrite Cj. apply UPL. exact H.
Qed.
Lemma closed_step l done todo : order = todo ++ l :: done -> todo <> [] -> closed done -> closed (l :: done).
Proof.
  intros E T CL c m J Hm H. destruct ord as (ND & IN & HD & OR).
  assert (Q : forall c m, In c (l :: done) -> (m < links)%nat -> ab m c -> In m (l :: done)).
  { clear c m J Hm H. intros c m J Hm H. induction H as [m q i N U|m q i c N U H IH]; [exact J|].
    destruct (up_facts r base up depth trav Hb m Hm N) as (q' & i' & U' & Hq & _ & _). rewrite U in U'. injection U' as <- <-.
    specialize (IH J Hq). assert (Im : In m order) by (apply IN; exact Hm). rewrite E in Im. apply in_app_or in Im. destruct Im as [Im|Im]; [|exact Im].
    exfalso. apply in_split in Im. destruct Im as (b1 & b2 & ->). rewrite <- app_assoc in E. cbn [app] in E.
    destruct (OR b1 m (b2 ++ l :: done) E N) as (q' & i' & U' & Iq). rewrite U in U'. injection U' as <- <-.
    rewrite E in ND. apply NoDup_remove in ND. clear - ND Iq IH. destruct ND as [ND _].
    induction b1 as [|a b1 IHb]; [contradiction|]. cbn in ND. inversion ND as [|? ? N1 N2]; subst.
    destruct Iq as [->|Iq]; [|apply IHb; auto]. apply N1. apply in_or_app. right. apply in_or_app. right. exact IH. }
  exact (Q c m J Hm H).
Qed.
Lemma table_final : exists D, static_table r dofs up order base child inertia rel acc wrench = Some D /\ inv (tl order) D.
Proof.
  pose proof ord as (ND & IN & HD & OR).
  assert (EO : exists rest, order = base :: rest).
  { clear - HD. destruct order as [|b0 rest]; [discriminate|]. cbn in HD. injection HD as ->. eauto. }
  destruct EO as (rest & EO). unfold static_table. rewrite EO in ND, IN |- *. cbn [tl].
  assert (G : forall done todo, rest = todo ++ done -> closed done -> forall D, inv done D ->
     exists D', fold_left (fun o l => match o with Some D => link_step l D | None => None end) (rev todo) (Some D) = Some D' /\ inv rest D').
  { intros done todo. revert done. induction todo as [|l todo IH] using rev_ind; intros done E CL D HI.
    { cbn in E. subst. exists D. split; [reflexivity|exact HI]. }
    rewrite rev_app_distr. cbn [rev app fold_left]. rewrite <- app_assoc in E. cbn [app] in E.
    assert (Il : In l (base :: rest)) by (right; rewrite E; apply in_or_app; right; left; reflexivity).
    assert (Hl : (l < links)%nat) by (apply IN; exact Il).
    inversion ND as [|? ? NB NR]. rewrite E in NB, NR.
    assert (Nl : l <> base) by (intros ->; apply NB; apply in_or_app; right; left; reflexivity).
    assert (Fl : ~ In l done) by (apply NoDup_remove in NR; intros J; apply NR; apply in_or_app; auto).
    destruct (inv_step l D done Hl Nl Fl CL HI) as (D' & E' & HI'). rewrite E'.
    apply IH with (done := l :: done); auto. apply (closed_step l done (base :: todo)); [rewrite EO, E; reflexivity|discriminate|exact CL]. }
  apply G with (done := []); [rewrite app_nil_r; reflexivity|intros c m []|apply inv_start].
Qed.
(** The entries of the table at the end. *)
Lemma rest_is c : (c < links)%nat -> c <> base -> inb c (tl order) = true.
Proof.
  intros Hc N. apply inb_in. destruct ord as (ND & IN & HD & _). clear - IN HD Hc N. destruct order as [|b0 rest]; [discriminate|]. cbn in HD |- *. injection HD as ->.
  destruct (proj2 (IN c) Hc) as [E|I]; [congruence|exact I].
Qed.
Lemma final_entries D : inv (tl order) D -> forall z m, (z < dofs)%nat -> (m < links)%nat -> m <> base ->
  (ab m (child z) -> D m z = v6add (v6add (if (child z =? m)%nat then K z else v60) (v6opp (TT m z)))
      (v6sum links (fun c => if hangs base up c m then m6v (X m c) (D c z) else v60))) /\
  (ab (child z) m -> m <> child z -> D m z = m6v (X m (child z)) (D (child z) z)) /\
  (~ ab m (child z) -> ~ ab (child z) m -> D m z = v60).
Proof.
  intros HI z m Hz Hm N. destruct (HI z m Hz Hm N) as (A & B & C). destruct (crossed z Hz) as (Hc & Nc & _). split; [|split; [|exact C]].
  - intros H. rewrite (A H). unfold own. rewrite rest_is by auto. f_equal. apply v6sum_ext. intros c Hk.
    destruct (hangs base up c m) eqn:E; [|reflexivity]. destruct (hangs_up c m E) as (Nk & _). rewrite rest_is by auto. reflexivity.
  - intros H H'. rewrite (B H H'), rest_is by auto. reflexivity.
Qed.
End Torque.

