(** How the wrenches that keep the robot still move with the joints. *)
From Coq Require Import Reals List Arith Lia Lra Bool FunctionalExtensionality.
From Coquelicot Require Import Coquelicot.
From Verif Require Import Spec PartialLib SpecQuaternion.
From Verif Require Import QuatCurve SpecRigid Rigid RigidCalc KinTree KinModel KinLib KinMotion KinUsers KinProofs KinExist.
From Verif Require Import SpecBase BaseProofs SpecMom MomModel MomProofs SpecStatic StaticModel StaticProofs.
Import ListNotations.
Local Open Scope R_scope.

(** ** Derivatives *)
Section Calculus.
Variable r : robot.
Variable place : vec -> nat -> pose.
Variable dofs : nat.
Variable up : nat -> option (nat * nat).
Variable depth : nat -> nat.
Variable base : nat.
Variable child : nat -> nat.
Variable inertia : nat -> m6.
Variable order : list nat.
Notation links := (r_links r).
Hypothesis rok : robot_ok r.
Hypothesis plc : placement r place.
Hypothesis trav : traversal r base up depth.
Hypothesis one_dof : (length (r_joints r) <= dofs)%nat.
Hypothesis Hb : (base < links)%nat.
Hypothesis kids : forall c p j, (c < links)%nat -> c <> base -> up c = Some (p, j) -> child j = c.
Hypothesis crossed : forall z, (z < dofs)%nat -> (child z < links)%nat /\ child z <> base /\ exists p, up (child z) = Some (p, z).
Hypothesis ord : ordered r base up order.
Notation rel := (relative r place).
Notation ab := (above up base).
Variable A : v6.
Variable ext : nat -> v6.
Variable forces : vec -> nat -> v6.
Hypothesis bal : forall s, static_balance r place base up inertia A ext s (forces s).
Variable s : vec.
Definition accel (s : vec) (l : nat) : v6 := m6v (Adj (rel s l base)) A.
Notation K := (child_force r child (forces s)).
Notation AA := (axis_times_acceleration r child (accel s)).

Lemma rel_link s' f g : (f < links)%nat -> (g < links)%nat -> rel s' f g = rl place s' f g.
Proof.
  intros F G. rewrite (rel_rl r place rok plc s' f g) by (apply link_ok; exact F). rewrite !(fl_link r), !(fo_link r) by auto.
  rewrite pinv_id, pmul_id_l, pmul_id_r. reflexivity.
Qed.
Lemma axis_is z jt : nth_error (r_joints r) z = Some jt -> info_axis r child z = axis_of jt (child z).
Proof. intros E. unfold info_axis, motion_axis. rewrite (nth_error_nth _ _ _ E). reflexivity. Qed.
Lemma joint_at z : (z < dofs)%nat -> exists jt p, nth_error (r_joints r) z = Some jt /\ up (child z) = Some (p, z) /\ connects jt p (child z) /\ (p < links)%nat /\ p <> child z.
Proof.
  intros Hz. destruct (crossed z Hz) as (Hc & Nc & p & U). destruct (trav (child z) Hc Nc) as (p' & i & jt & U' & E & C & Hp & D).
  rewrite U in U'. injection U' as <- <-. exists jt, p. repeat split; auto. intros ->. lia.
Qed.
(** One step of the tree. *)
Lemma edge_D z c m : (z < dofs)%nat -> (c < links)%nat -> (m < links)%nat -> hangs base up c m = true ->
  is_derive_m6 (fun x => AdjW (rel (vset s z x) m c)) (s z)
    (if (child z =? c)%nat then m6mul (AdjW (rel s m c)) (adw (info_axis r child z)) else m60).
Proof.
  intros Hz Hc Hm H. destruct (hangs_up up base c m H) as (Nc & i & U). destruct (trav c Hc Nc) as (p' & i' & jt & U' & E & C & Hp & D).
  rewrite U in U'. injection U' as <- <-. assert (N : m <> c) by (intros ->; lia).
  destruct (edge_moves r place rok plc s m c i jt E C N Hp Hc) as [M F]. destruct (Nat.eqb_spec (child z) c) as [Ez|Ez].
  - assert (i = z). { destruct (crossed z Hz) as (_ & _ & q & Uz). rewrite Ez, U in Uz. congruence. } subst i.
    rewrite (axis_is z jt E), Ez. apply AdjW_moves in M; [|apply rl_rigid with (r := r); auto]. rewrite vset_same in M.
    rewrite rel_link by auto. eapply m6_D_ext; [|exact M]. intros t. cbv beta. rewrite rel_link by auto. reflexivity.
  - eapply m6_D_ext; [|apply (m6_D_const (AdjW (rel s m c)))]. intros t. cbv beta. rewrite !rel_link by auto. rewrite F; [reflexivity|].
    intros ->. apply Ez. exact (kids c m i Hc Nc U).
Qed.
(** The transform back to the base. *)
Lemma Adj_pinv_D f x v : is_derive_m3 (fun t => rot (f t)) x v -> forall w, is_derive_v3 (fun t => pos (f t)) x w ->
  exists D, is_derive_m6 (fun t => Adj (pinv (f t))) x D.
Proof.
  intros M w V. pose proof (m3_D_tr _ _ _ M) as Mt. pose proof (v3_D_opp _ _ _ (v3_D_mv _ _ _ _ _ Mt V)) as P.
  exists (M6 (mtr v) (madd (mm (skew (vopp (vadd (mv (mtr v) (pos (f x))) (mv (mtr (rot (f x))) w)))) (mtr (rot (f x))))
     (mm (skew (vopp (mv (mtr (rot (f x))) (pos (f x))))) (mtr v))) m30 (mtr v)).
  split; [exact Mt|]. split; [|split; [exact (m3_D_const m30 x)|exact Mt]].
  exact (m3_D_mul _ _ _ _ _ (m3_D_skew _ _ _ P) Mt).
Qed.
Lemma back_D l z : (l < links)%nat -> (z < dofs)%nat ->
  (ab l (child z) -> is_derive_m6 (fun x => Adj (rel (vset s z x) l base)) (s z)
     (m6neg (m6mul (m6mul (Adj (rel s l (child z))) (adx (info_axis r child z))) (Adj (rel s (child z) base))))) /\
  (~ ab l (child z) -> is_derive_m6 (fun x => Adj (rel (vset s z x) l base)) (s z) m60).
Proof.
  intros Hl Hz. destruct (path_exists r base up depth trav Hb l Hl) as (pl & P & _).
  assert (Fl := link_ok r l Hl). assert (Fb := link_ok r base Hb).
  assert (P' : path up base (frame_link r l) pl) by (rewrite (fl_link r l Hl); exact P).
  destruct (Adj_rel_moves r place rok plc base up depth trav Hb s base l pl z Fb Fl (fl_link r base Hb) P') as [M C].
  destruct (rel_moves r place rok plc base up depth trav Hb s base l pl z Fb Fl (fl_link r base Hb) P') as [MM CC].
  pose proof (chain_joint r dofs up depth base child trav Hb kids crossed l pl z Hl Hz P) as CJ.
  assert (INV : forall x, rel (vset s z x) l base = pinv (rel (vset s z x) base l)) by (intros; symmetry; apply (rel_inv r place rok plc); auto).
  split.
  - intros H. apply CJ in H. destruct H as (c & q & I). destruct (joint_at z Hz) as (jt & p & E & U & CN & Hp & Np).
    destruct (path_step r base up depth trav Hb _ _ _ _ _ P Hl I) as (Hc & Nc & Uc & _). pose proof (kids c q z Hc Nc Uc) as Ec. subst c.
    specialize (M _ _ jt I E). specialize (MM _ _ jt I E). destruct MM as [M1 M2].
    destruct (Adj_pinv_D (fun x => rel (vset s z x) base l) (s z) _ M1 _ M2) as (D & HD).
    assert (HD' : is_derive_m6 (fun x => Adj (rel (vset s z x) l base)) (s z) D).
    { eapply m6_D_ext; [|exact HD]. intros t. cbv beta. rewrite INV. reflexivity. }
    pose proof (m6_D_mul _ _ _ _ _ HD' M) as Z. cbv beta in Z. rewrite vset_same in Z.
    assert (Z' : is_derive_m6 (fun x => m6mul (Adj (rel (vset s z x) l base)) (Adj (rel (vset s z x) base l))) (s z) m60).
    { eapply m6_D_ext; [|apply (m6_D_const m6I)]. intros t. cbv beta. rewrite (Adj_rel r place rok plc), (rel_same r place rok plc), Adj_id by auto. reflexivity. }
    pose proof (m6_D_unique _ _ _ _ Z Z') as Q. apply neg_of_sum in Q.
    assert (Q' : D = m6mul (m6mul D (Adj (rel s base l))) (Adj (rel s l base))).
    { rewrite m6mul_assoc, (Adj_rel r place rok plc), (rel_same r place rok plc), Adj_id, m6mul_I_r by auto. reflexivity. }
    rewrite axis_is with (jt := jt) by exact E.
    replace (m6neg (m6mul (m6mul (Adj (rel s l (child z))) (adx (axis_of jt (child z)))) (Adj (rel s (child z) base)))) with D; [exact HD'|].
    rewrite Q', Q. rewrite m6mul_neg_l. f_equal. rewrite !m6mul_assoc. rewrite <- (m6mul_assoc (Adj (rel s l base)) (Adj (rel s base (child z)))).
    assert (Fc := link_ok r (child z) Hc).
    rewrite (Adj_rel r place rok plc s l base (child z)), (Adj_rel r place rok plc s (child z) l base) by auto. reflexivity.
  - intros H. eapply m6_D_ext; [|apply (m6_D_const (Adj (rel s l base)))]. intros t. cbv beta.
    rewrite INV, CC; [|intros c q I; apply H; apply CJ; eauto]. rewrite (rel_inv r place rok plc) by auto. reflexivity.
Qed.
Lemma accel_D l z : (l < links)%nat -> (z < dofs)%nat ->
  (ab l (child z) -> is_derive_v6 (fun x => accel (vset s z x) l) (s z) (v6opp (m6v (Adj (rel s l (child z))) (AA z)))) /\
  (~ ab l (child z) -> is_derive_v6 (fun x => accel (vset s z x) l) (s z) v60).
Proof.
  intros Hl Hz. destruct (back_D l z Hl Hz) as [B C]. split; intros H.
  - pose proof (v6_D_mv _ _ _ _ _ (B H) (v6_D_const A (s z))) as Z. cbv beta in Z. rewrite m6v_0, v6add_0_r, m6v_neg, !m6v_mul in Z. exact Z.
  - pose proof (v6_D_mv _ _ _ _ _ (C H) (v6_D_const A (s z))) as Z. cbv beta in Z. rewrite m6v_0, v6add_0_r, m6v_m0 in Z. exact Z.
Qed.
Lemma v6_cancel f e S a : v6add (v6add f e) (v6opp S) = a -> f = v6add (v6add a S) (v6opp e).
Proof.
  intros <-. rewrite (v6add_assoc (v6add f e) (v6opp S) S), (v6add_comm (v6opp S) S), v6add_opp, v6add_0_r, v6add_assoc, v6add_opp, v6add_0_r. reflexivity.
Qed.
Lemma v6_out k t S : v6add (v6add (v6add k t) S) (v6opp k) = v6add t S.
Proof.
  rewrite (v6add_comm k t), (v6add_assoc t k S), (v6add_comm k S), (v6add_assoc t (v6add S k)), (v6add_assoc S k), v6add_opp, v6add_0_r. reflexivity.
Qed.
Lemma force_is s' l : (l < links)%nat -> forces s' l =
  v6add (v6add (m6v (inertia l) (accel s' l)) (v6sum links (fun c => if hangs base up c l then m6v (AdjW (rel s' l c)) (forces s' c) else v60))) (v6opp (ext l)).
Proof. intros Hl. apply v6_cancel. rewrite <- v6total_sum. exact (bal s' l Hl). Qed.
Lemma v6sum_single n k f : (k < n)%nat -> (forall i, (i < n)%nat -> i <> k -> f i = v60) -> v6sum n f = f k.
Proof.
  intros Hk H. rewrite <- (v6sum_split' n f k Hk), (v6sum_ext n _ (fun _ => v60)), v6sum_0, v6add_0_r; [reflexivity|].
  intros i Hi. cbv beta. destruct (Nat.eqb_spec i k); [reflexivity|]. apply H; auto.
Qed.
Notation inv := (inv r place dofs up base child inertia s (accel s) (forces s)).
Definition force_rate (D : table) (l z : nat) : v6 := v6add (D l z) (if (child z =? l)%nat then v6opp (K z) else v60).
Lemma depth_bound : exists N, forall l, (l < links)%nat -> (depth l <= N)%nat.
Proof.
  generalize links. intros k. clear. induction k as [|n [N H]]; [exists 0%nat; lia|]. exists (Nat.max N (depth n)). intros l Hl.
  destruct (Nat.eq_dec l n) as [->|]; [lia|]. specialize (H l ltac:(lia)). lia.
Qed.
Lemma force_D D : inv (tl order) D -> forall l z, (l < links)%nat -> l <> base -> (z < dofs)%nat ->
  is_derive_v6 (fun x => forces (vset s z x) l) (s z) (force_rate D l z).
Proof.
  intros HI l z Hl Nl Hz. destruct depth_bound as (N & BN). remember (N - depth l)%nat as n eqn:En. revert l Hl Nl En.
  induction n as [n IH] using lt_wf_ind. intros l Hl Nl En.
  pose proof (final_entries r place dofs up base child inertia order crossed ord s (accel s) (forces s) D HI) as FE.
  destruct (crossed z Hz) as (Hc & Nc & _).
  (* the children *)
  assert (KD : forall c, (c < links)%nat -> is_derive_v6 (fun x => if hangs base up c l then m6v (AdjW (rel (vset s z x) l c)) (forces (vset s z x) c) else v60) (s z)
     (if hangs base up c l then m6v (AdjW (rel s l c)) (D c z) else v60)).
  { intros c Hk. destruct (hangs base up c l) eqn:H; [|apply v6_D_const]. destruct (hangs_up up base c l H) as (Nk & i & U).
    destruct (up_facts r base up depth trav Hb c Hk Nk) as (q & i' & U' & _ & Dq & _). rewrite U in U'. injection U' as <- <-.
    pose proof (BN c Hk) as BC. pose proof (IH (N - depth c)%nat ltac:(lia) c Hk Nk eq_refl) as FD.
    pose proof (v6_D_mv _ _ _ _ _ (edge_D z c l Hz Hk Hl H) FD) as Z. cbv beta in Z. rewrite !vset_same in Z.
    match type of Z with is_derive_v6 _ _ ?d => replace (m6v (AdjW (rel s l c)) (D c z)) with d; [exact Z|] end.
    unfold force_rate. destruct (Nat.eqb_spec (child z) c) as [E|E].
    - rewrite m6v_mul, m6v_add, m6v_opp. unfold child_force. rewrite E.
      rewrite (v6add_comm (m6v (AdjW (rel s l c)) (D c z))), <- v6add_assoc, v6add_opp, v6add_0_l. reflexivity.
    - rewrite v6add_0_r, m6v_m0, v6add_0_l. reflexivity. }
  pose proof (v6_D_sum links _ (s z) _ KD) as SD.
  destruct (accel_D l z Hl Hz) as [A1 A2]. destruct (FE z l Hz Hl Nl) as (F1 & F2 & F3).
  set (S := v6sum links (fun c => if hangs base up c l then m6v (AdjW (rel s l c)) (D c z) else v60)) in *.
  assert (G : forall a, is_derive_v6 (fun x => accel (vset s z x) l) (s z) a -> force_rate D l z = v6add (m6v (inertia l) a) S ->
     is_derive_v6 (fun x => forces (vset s z x) l) (s z) (force_rate D l z)).
  { intros a Ha Q. eapply v6_D_ext; [intros x; symmetry; exact (force_is (vset s z x) l Hl)|]. rewrite Q.
    pose proof (v6_D_add _ _ _ _ _ (v6_D_add _ _ _ _ _ (v6_D_mv _ _ _ _ _ (m6_D_const (inertia l) (s z)) Ha) SD) (v6_D_const (v6opp (ext l)) (s z))) as Z.
    cbv beta in Z. rewrite m6v_m0, v6add_0_l, v6add_0_r in Z. exact Z. }
  destruct (ab_dec r base up depth trav Hb l (child z) Hl) as [H|H].
  - apply (G _ (A1 H)). unfold force_rate. rewrite (F1 H), m6v_opp. fold S. unfold T.
    destruct (Nat.eqb_spec (child z) l) as [E|E].
    + apply v6_out.
    + rewrite v6add_0_r, v6add_0_l. reflexivity.
  - assert (NE : (child z =? l)%nat = false).
    { apply Nat.eqb_neq. intros E. apply H. rewrite E. apply (ab_self r base up depth trav Hb); auto. }
    apply (G _ (A2 H)). unfold force_rate. rewrite NE, v6add_0_r, m6v_0, v6add_0_l.
    destruct (ab_dec r base up depth trav Hb (child z) l Hc) as [H'|H'].
    + assert (NZ : l <> child z) by (intros E; rewrite <- E in NE; rewrite Nat.eqb_refl in NE; discriminate).
      (* the child of l on the way to child z *)
      assert (W : exists c, (c < links)%nat /\ hangs base up c l = true /\ ab (child z) c).
      { clear - H' NZ Hc trav Hb. revert Hc. induction H' as [m p i N U|m p i c N U H IH]; intros Hc; [congruence|].
        destruct (up_facts r base up depth trav Hb m Hc N) as (p' & i' & U' & Hp & _ & _). rewrite U in U'. injection U' as <- <-.
        destruct (Nat.eq_dec c p) as [->|Np].
        - exists m. split; [exact Hc|]. split; [|eapply above_here; eauto]. unfold hangs. rewrite U, Nat.eqb_refl.
          apply Nat.eqb_neq in N. rewrite N. reflexivity.
        - destruct (IH Np Hp) as (d & Hd & Hh & Ha). exists d. split; [exact Hd|]. split; [exact Hh|]. eapply above_up; eauto. }
      destruct W as (c & Hk & Hh & Ha). destruct (hangs_up up base c l Hh) as (Nk & i & U).
      assert (ON : S = m6v (AdjW (rel s l c)) (D c z)).
      { unfold S. rewrite (v6sum_single links c) by (exact Hk || (intros d Hd Nd; destruct (hangs base up d l) eqn:E; [|reflexivity];
          destruct (hangs_up up base d l E) as (Nbd & k & Ud); destruct (FE z d Hz Hd Nbd) as (_ & _ & F3'); rewrite F3', m6v_0; [reflexivity| |];
          [intros Q; destruct (ab_step base up d l k (child z) Ud Q) as [Q'|Q'];
             [rewrite Q' in Ha; destruct (ab_step base up d l k c Ud Ha) as [Q2|Q2]; [congruence|];
               pose proof (ab_strict r base up depth trav Hb c l i c Hk Nk U Q2); lia | exact (H Q')]
          |intros Q; destruct (ab_total r base up depth trav Hb (child z) c d Hc Ha Q) as [Q2|Q2];
             [destruct (ab_step base up c l i d U Q2) as [Q3|Q3]; [congruence|]; pose proof (ab_strict r base up depth trav Hb d l k d Hd Nbd Ud Q3); lia
             |destruct (ab_step base up d l k c Ud Q2) as [Q3|Q3]; [congruence|]; pose proof (ab_strict r base up depth trav Hb c l i c Hk Nk U Q3); lia]])).
        rewrite Hh. reflexivity. }
      rewrite ON, (F2 H' NZ). destruct (Nat.eq_dec c (child z)) as [->|Ncz]; [reflexivity|].
      destruct (FE z c Hz Hk Nk) as (_ & F2' & _). rewrite (F2' Ha Ncz), <- m6v_mul, (AdjW_rel r place rok plc) by (apply link_ok; auto). reflexivity.
    + rewrite (F3 H H'). unfold S. symmetry. rewrite (v6sum_ext links _ (fun _ => v60)); [apply v6sum_0|]. intros c Hk.
      destruct (hangs base up c l) eqn:E; [|reflexivity]. destruct (hangs_up up base c l E) as (Nk & i & U).
      assert (UL : ab c l) by (eapply above_up; eauto; apply (ab_self r base up depth trav Hb); auto).
      destruct (FE z c Hz Hk Nk) as (_ & _ & F3'). rewrite F3', m6v_0; [reflexivity| |].
      * intros Q. destruct (ab_step base up c l i (child z) U Q) as [Q'|Q']; [|exact (H Q')]. apply H'. rewrite Q'. exact UL.
      * intros Q. apply H'. eapply ab_trans; eauto.
Qed.
End Calculus.
