(** The loops of MomentumInBaseExpression.cpp: what MibModel computes. *)
From Coq Require Import Reals List Arith Lia Lra Bool FunctionalExtensionality.
From Coquelicot Require Import Coquelicot.
From Verif Require Import Spec PartialLib SpecQuaternion QuatCurve SpecRigid Rigid RigidCalc KinTree KinModel KinLib KinMotion KinUsers KinProofs KinExist PropKin.
From Verif Require Import SpecBase SpecDerivatives ComModel ComLib ComProofs ComHess MibModel MibLib.
Import ListNotations.
Local Open Scope R_scope.

Lemma upd_eq {A} (c : nat -> A) j a : upd c j a j = a. Proof. unfold upd. rewrite Nat.eqb_refl. reflexivity. Qed.
Lemma upd_ne {A} (c : nat -> A) j a k : k <> j -> upd c j a k = c k. Proof. intros N. unfold upd. apply Nat.eqb_neq in N. rewrite N. reflexivity. Qed.
Lemma fold_v6sum (f : nat -> v6) n : fold_left (fun c l => v6add c (f l)) (seq 0 n) v60 = v6sum n f.
Proof. induction n as [|n IH]; [reflexivity|]. rewrite seq_S, fold_left_app. cbn [fold_left v6sum Nat.add]. rewrite IH. reflexivity. Qed.
Lemma v6sum_split n f k : (k < n)%nat -> v6add (f k) (v6sum n (fun l => if (l =? k)%nat then v60 else f l)) = v6sum n f.
Proof.
  intros Hk. rewrite <- (v6sum_one n k (f k) Hk) at 1. rewrite <- v6sum_add. apply v6sum_ext. intros l Hl. destruct (Nat.eqb_spec l k) as [->|]; [apply v6add_0_r|apply v6add_0_l].
Qed.

Section Mib.
Variable r : robot.
Variable place : vec -> nat -> pose.
Variable dofs : nat.
Variable up : nat -> nat -> option (nat * nat).
Variable depth : nat -> nat -> nat.
Variable base : nat.
Variable inertia : nat -> m6.
Variable vel : point -> nat -> v6.
Notation links := (r_links r).
Notation rel := (relative r place).
Hypothesis rok : robot_ok r.
Hypothesis plc : placement r place.
Hypothesis trav : forall b, (b < links)%nat -> traversal r b (up b) (depth b).
Hypothesis one_dof : (length (r_joints r) <= dofs)%nat.
Hypothesis Hb : (base < links)%nat.
Hypothesis TR : tree r dofs up base.
Hypothesis vel_ok : forall s sd b f, frame_ok r f -> frame_velocity r place base s sd b f (vel (Point s sd b) f).
Notation jac := (jac_of r place up).
Notation JF := (jac_fine r place dofs up depth rok plc trav).
Notation KI := (KIN r place dofs up depth base rok plc trav one_dof Hb).
Notation P := (P r up base).
Notation onp := (onp r up base).
Notation ch := (ch r up base).
Notation ax := (fun k => motion_axis r k (ch k)).
Notation V := (V r place dofs up base).
Notation DV := (DV r place dofs up base).
Notation ML := (ML r place dofs up base inertia).
Notation T := (T r place dofs up base inertia).
Notation DM := (DM r place dofs up base inertia).
Notation DD := (DD r place dofs up base inertia).
Notation F := (F r place dofs up base inertia).

(** ** Loops *)
Lemma to_base_fold {A} (step : nat -> nat -> A -> option A) l a : (l < links)%nat ->
  to_base r up base step l a = foldo (fun a x => step (snd x) (fst (fst x)) a) (P l) a.
Proof.
  intros Hl. unfold to_base. rewrite (walk_path _ _ _ _ _ (path_P _ _ _ _ _ _ _ _ _ _ KI l Hl)) by apply (P_length _ _ _ _ _ _ _ _ _ _ KI l Hl).
  assert (Q : forall L, (forall x, In x L -> In x (P l)) -> forall a, foldo (fun a x => match child_of r up base (snd x) with Some c => step (snd x) c a | None => None end) L a = foldo (fun a x => step (snd x) (fst (fst x)) a) L a).
  { induction L as [|[[c p] j] L IH]; intros I a0; [reflexivity|]. cbn [foldo snd fst].
    destruct (P_info _ _ _ _ _ _ _ _ _ _ KI TR l c p j Hl (I _ (or_introl eq_refl))) as [_ ->]. destruct (step j c a0); [|reflexivity]. apply IH. intros x Ix. apply I. right. exact Ix. }
  apply Q. auto.
Qed.
Lemma fold_upd {A} (g : nat -> nat -> A -> A) (step : nat -> nat -> (nat -> A) -> option (nat -> A)) (HS : forall j c a, (j < dofs)%nat -> step j c a = Some (upd a j (g j c (a j)))) :
  forall (L : list (nat * nat * nat)), NoDup (map snd L) -> (forall c p j, In (c, p, j) L -> (j < dofs)%nat /\ child_of r up base j = Some c) -> forall cols,
  exists cols', foldo (fun a x => step (snd x) (fst (fst x)) a) L cols = Some cols' /\ forall j, cols' j = if existsb (Nat.eqb j) (map snd L) then g j (ch j) (cols j) else cols j.
Proof.
  induction L as [|[[c p] m] L IH]; intros ND HC cols; [exists cols; split; [reflexivity|intros; reflexivity]|].
  cbn [map snd] in ND. inversion ND as [|? ? NI ND']; subst. destruct (HC c p m (or_introl eq_refl)) as [Hm CH]. cbn [foldo map snd fst]. rewrite HS by auto.
  destruct (IH ND' (fun c' p' j I => HC c' p' j (or_intror I)) (upd cols m (g m c (cols m)))) as (cols' & E & Q). exists cols'. split; [exact E|]. intros j. rewrite Q. cbn [existsb].
  destruct (Nat.eqb_spec j m) as [->|N]; cbn [orb].
  - replace (existsb (Nat.eqb m) (map snd L)) with false; [rewrite upd_eq; unfold ComLib.ch; rewrite CH; reflexivity|]. symmetry. apply not_true_is_false. intros Z. apply existsb_exists in Z.
    destruct Z as (y & Iy & Ey). apply Nat.eqb_eq in Ey. subst y. contradiction.
  - rewrite upd_ne by auto. reflexivity.
Qed.
Lemma P_nodup l : (l < links)%nat -> NoDup (map snd (P l)).
Proof. intros Hl. apply (up_nodup r up depth trav base l _ Hb Hl). apply (path_P _ _ _ _ _ _ _ _ _ _ KI l Hl). Qed.
Lemma to_base_upd {A} (g : nat -> nat -> A -> A) (step : nat -> nat -> (nat -> A) -> option (nat -> A)) (HS : forall j c a, (j < dofs)%nat -> step j c a = Some (upd a j (g j c (a j)))) l cols : (l < links)%nat ->
  exists cols', to_base r up base step l cols = Some cols' /\ forall j, cols' j = if onp l j then g j (ch j) (cols j) else cols j.
Proof.
  intros Hl. rewrite to_base_fold by auto. apply (fold_upd g step HS (P l) (P_nodup l Hl)). intros c p j I. exact (P_info _ _ _ _ _ _ _ _ _ _ KI TR l c p j Hl I).
Qed.
Lemma each_link_add {B} (add : B -> B -> B) (t : nat -> nat -> B) (step : nat -> (nat -> B) -> option (nat -> B)) init :
  (forall l cols, (l < links)%nat -> exists cols', step l cols = Some cols' /\ forall j, cols' j = add (cols j) (t l j)) ->
  exists cols, each_link r step init = Some cols /\ forall j, cols j = fold_left (fun c l => add c (t l j)) (seq 0 links) (init j).
Proof.
  intros H. unfold each_link. assert (Q : forall n, (n <= links)%nat -> exists cols, fold_left (fun o l => match o with Some a => step l a | None => None end) (seq 0 n) (Some init) = Some cols /\
    forall j, cols j = fold_left (fun c l => add c (t l j)) (seq 0 n) (init j)).
  { induction n as [|n IH]; intros Hn; [exists init; split; reflexivity|]. destruct (IH ltac:(lia)) as (cols & E & Q). rewrite seq_S, fold_left_app. cbn [fold_left Nat.add]. rewrite E.
    destruct (H n cols ltac:(lia)) as (cols' & E' & Q'). exists cols'. split; [exact E'|]. intros j. rewrite Q', Q, fold_left_app. reflexivity. }
  apply Q. lia.
Qed.

(** ** The terms *)
Section At.
Variables (s sd : vec) (b : v6).
Notation x := (Point s sd b).
Lemma xadj_eq f g : (f < links)%nat -> (g < links)%nat -> xadj rel x f g = Adj (rel s f g).
Proof. intros Hf Hg. unfold xadj. cbn [x_s]. destruct (Nat.eqb_spec f g) as [->|]; [|reflexivity]. rewrite (rel_same r place rok plc s g (link_ok r g Hg)), Adj_id. reflexivity. Qed.
Lemma xadjw_eq f g : (f < links)%nat -> (g < links)%nat -> xadjw rel x f g = AdjW (rel s f g).
Proof. intros Hf Hg. unfold xadjw. cbn [x_s]. destruct (Nat.eqb_spec f g) as [->|]; [|reflexivity]. rewrite (rel_same r place rok plc s g (link_ok r g Hg)), AdjW_id. reflexivity. Qed.
Lemma vel_eq f : frame_ok r f -> vel x f = V sd b s f.
Proof.
  intros H. eapply (velocity_unique r place base); [exact rok|exact plc|exact Hb|exact H|apply vel_ok; auto|].
  apply (W_velocity r place dofs up depth base jac rok plc trav one_dof JF Hb); auto.
Qed.
Lemma xvel_eq f : (f < links)%nat -> xvel base vel x f = V sd b s f.
Proof.
  intros Hf. unfold xvel. destruct (Nat.eqb_spec f base) as [->|]; [|apply vel_eq, link_ok; auto]. cbn [x_b].
  rewrite (V_base r place dofs up depth base rok plc trav Hb sd b s). reflexivity.
Qed.
Lemma in_base_eq l : (l < links)%nat -> in_base base inertia rel x l = m6mul (AdjW (rel s base l)) (inertia l).
Proof. intros Hl. unfold in_base. rewrite xadjw_eq by auto. reflexivity. Qed.
Lemma onf l k : (l < links)%nat -> onp l k = true -> (k < dofs)%nat /\ (ch k < links)%nat /\ child_of r up base k = Some (ch k).
Proof.
  intros Hl E. destruct (on_facts r place dofs up depth base rok plc trav one_dof Hb TR l k Hl E) as (_ & _ & _ & _ & A & B & C & _). auto.
Qed.

(** ** The value *)
Lemma mib_value_ok : mib_value r base inertia rel vel x = v6sum links (ML sd b s).
Proof.
  unfold mib_value. cbn [x_b].
  assert (Q : forall n h, (n <= links)%nat -> fold_left (fun h l => if (l =? base)%nat then h else v6add h (m6v (in_base base inertia rel x l) (xvel base vel x l))) (seq 0 n) h =
    v6add h (v6sum n (fun l => if (l =? base)%nat then v60 else ML sd b s l))).
  { induction n as [|n IH]; intros h Hn; [cbn; rewrite v6add_0_r; reflexivity|]. rewrite seq_S, fold_left_app. cbn [fold_left v6sum Nat.add]. rewrite IH by lia.
    destruct (n =? base)%nat; [rewrite v6add_0_r; reflexivity|]. rewrite in_base_eq, xvel_eq by lia. rewrite <- v6add_assoc. unfold MibLib.ML. rewrite m6v_mul. reflexivity. }
  rewrite Q by lia. rewrite <- (v6sum_split links (ML sd b s) base Hb). f_equal. unfold MibLib.ML.
  rewrite (rel_same r place rok plc s base (link_ok r base Hb)), AdjW_id, m6v_I, (V_base r place dofs up depth base rok plc trav Hb sd b s). reflexivity.
Qed.

(** ** The first derivatives *)
Lemma DM_open l j : (l < links)%nat -> onp l j = true -> DM sd b s l j =
  v6add (m6v (m6mul (m6mul (AdjW (rel s base (ch j))) (adw (ax j))) (AdjW (rel s (ch j) l))) (m6v (inertia l) (V sd b s l)))
        (v6opp (m6v (m6mul (m6mul (AdjW (rel s base l)) (inertia l)) (Adj (rel s l (ch j)))) (m6v (adx (ax j)) (V sd b s (ch j))))).
Proof.
  intros Hl E. destruct (onf l j Hl E) as (Hj & HJ & _). unfold MibLib.DM, MibLib.T, MibLib.DV. rewrite E. repeat (progress m6v_open).
  rewrite (XX r place rok plc) by auto. reflexivity.
Qed.
Lemma joint_cols_ok : exists cols, mib_joint_cols r dofs up base inertia rel vel x = Some cols /\ forall j, cols j = v6sum links (fun l => DM sd b s l j).
Proof.
  unfold mib_joint_cols.
  match goal with |- exists cols, each_link r ?st ?i = _ /\ _ => destruct (each_link_add v6add (fun l j => DM sd b s l j) st i) as (cols & E & Q) end.
  - intros l cols Hl. set (LM := m6v (inertia l) (xvel base vel x l)).
    destruct (to_base_upd (fun j c v => v6add (v6add v (m6v (m6mul (m6mul (xadjw rel x base c) (adw (axis r j c))) (xadjw rel x c l)) LM)) (v6opp (m6v (m6mul (in_base base inertia rel x l) (xadj rel x l c)) (m6v (adx (axis r j c)) (xvel base vel x c)))))
      (fun j c cols => if (j <? dofs)%nat then Some (upd cols j (v6add (v6add (cols j) (m6v (m6mul (m6mul (xadjw rel x base c) (adw (axis r j c))) (xadjw rel x c l)) LM)) (v6opp (m6v (m6mul (in_base base inertia rel x l) (xadj rel x l c)) (m6v (adx (axis r j c)) (xvel base vel x c)))))) else None)) with (l := l) (cols := cols) as (cols' & E & Q); [|exact Hl|].
    + intros j c a Hj. apply Nat.ltb_lt in Hj. rewrite Hj. reflexivity.
    + exists cols'. split; [exact E|]. intros j. rewrite Q. destruct (onp l j) eqn:Ej.
      * destruct (onf l j Hl Ej) as (Hj & HJ & _). rewrite (DM_open l j Hl Ej). subst LM. rewrite in_base_eq, !xvel_eq, !xadjw_eq, !xadj_eq by auto. unfold axis. rewrite v6add_assoc. reflexivity.
      * unfold MibLib.DM. rewrite Ej, v6add_0_r. reflexivity.
  - exists cols. split; [exact E|]. intros j. rewrite Q. apply fold_v6sum.
Qed.
Definition DR (l j : nat) : v6 := m6v (AdjW (rel s base l)) (m6v (inertia l) (if onp l j then m6v (Adj (rel s l (ch j))) (ax j) else v60)).
Lemma rate_cols_ok : exists cols, mib_rate_cols r dofs up base inertia rel x = Some cols /\ forall j, cols j = v6sum links (fun l => DR l j).
Proof.
  unfold mib_rate_cols.
  match goal with |- exists cols, each_link r ?st ?i = _ /\ _ => destruct (each_link_add v6add (fun l j => DR l j) st i) as (cols & E & Q) end.
  - intros l cols Hl.
    destruct (to_base_upd (fun j c v => v6add v (m6v (m6mul (in_base base inertia rel x l) (xadj rel x l c)) (axis r j c)))
      (fun j c cols => add_to dofs cols j (m6v (m6mul (in_base base inertia rel x l) (xadj rel x l c)) (axis r j c)))) with (l := l) (cols := cols) as (cols' & E & Q); [|exact Hl|].
    + intros j c a Hj. unfold add_to. apply Nat.ltb_lt in Hj. rewrite Hj. reflexivity.
    + exists cols'. split; [exact E|]. intros j. rewrite Q. unfold DR. destruct (onp l j) eqn:Ej.
      * destruct (onf l j Hl Ej) as (Hj & HJ & _). rewrite in_base_eq, xadj_eq by auto. unfold axis. rewrite !m6v_mul. reflexivity.
      * rewrite !m6v_0, v6add_0_r. reflexivity.
  - exists cols. split; [exact E|]. intros j. rewrite Q. apply fold_v6sum.
Qed.
Lemma crbi_v a : m6v (crbi r base inertia rel x) a = v6sum links (fun l => m6v (AdjW (rel s base l)) (m6v (inertia l) (m6v (Adj (rel s l base)) a))).
Proof.
  unfold crbi. assert (Q : forall n M, (n <= links)%nat -> m6v (fold_left (fun M l => m6add M (m6mul (in_base base inertia rel x l) (xadj rel x l base))) (seq 0 n) M) a =
    v6add (m6v M a) (v6sum n (fun l => m6v (AdjW (rel s base l)) (m6v (inertia l) (m6v (Adj (rel s l base)) a))))).
  { induction n as [|n IH]; intros M Hn; [cbn [fold_left seq v6sum]; rewrite v6add_0_r; reflexivity|]. rewrite seq_S, fold_left_app. cbn [fold_left v6sum Nat.add].
    rewrite m6v_madd, IH by lia. rewrite in_base_eq, xadj_eq by lia. rewrite !m6v_mul, v6add_assoc. reflexivity. }
  rewrite Q by lia. rewrite m6v_m0, v6add_0_l. reflexivity.
Qed.
Lemma V_rest a l : V (fun _ => 0) a s l = m6v (Adj (rel s l base)) a.
Proof.
  unfold MibLib.V, W. rewrite (v6sum_ext _ _ (fun _ => v60)); [rewrite v6sum_0; apply v6add_0_r|]. intros k _. generalize (jac s base l k). intros [[] []].
  unfold v6scale, v60, vscale, v30. cbn. f_equal; f_equal; ring.
Qed.
Lemma blocks_ok : exists A, mib_twist_blocks r dofs up base inertia rel x = Some A /\ forall a j, m6v (A j) a = v6sum links (fun l => DM (fun _ => 0) a s l j).
Proof.
  unfold mib_twist_blocks.
  set (t := fun l j => if onp l j then m6add (m6mul (m6mul (m6mul (m6mul (AdjW (rel s base (ch j))) (adw (ax j))) (AdjW (rel s (ch j) l))) (inertia l)) (Adj (rel s l base)))
     (m6neg (m6mul (m6mul (m6mul (m6mul (AdjW (rel s base l)) (inertia l)) (Adj (rel s l (ch j)))) (adx (ax j))) (Adj (rel s (ch j) base)))) else m60).
  assert (AA : forall A B C, m6add (m6add A B) C = m6add A (m6add B C)).
  { intros [[] [] [] []] [[] [] [] []] [[] [] [] []]. unfold m6add, madd. cbn. f_equal; f_equal; ring. }
  match goal with |- exists A, each_link r ?st ?i = _ /\ _ => destruct (each_link_add m6add t st i) as (A & E & Q) end.
  - intros l cols Hl. 
    set (one := fun j c => m6mul (m6mul (m6mul (m6mul (xadjw rel x base c) (adw (axis r j c))) (xadjw rel x c l)) (inertia l)) (xadj rel x l base)).
    set (two := fun j c => m6mul (m6mul (m6mul (m6mul (xadjw rel x base l) (inertia l)) (xadj rel x l c)) (adx (axis r j c))) (xadj rel x c base)).
    destruct (to_base_upd (fun j c v => m6add (m6add v (one j c)) (m6neg (two j c)))
      (fun j c A => if (j <? dofs)%nat then Some (upd A j (m6add (m6add (A j) (one j c)) (m6neg (two j c)))) else None)) with (l := l) (cols := cols) as (cols' & E & Q); [|exact Hl|].
    + intros j c a Hj. apply Nat.ltb_lt in Hj. rewrite Hj. reflexivity.
    + exists cols'. split; [exact E|]. intros j. rewrite Q. unfold t. destruct (onp l j) eqn:Ej; [|rewrite m6add_0_r; reflexivity].
      destruct (onf l j Hl Ej) as (Hj & HJ & _). subst one two. cbv beta. rewrite !xadjw_eq, !xadj_eq by auto. unfold axis. apply AA.
  - exists A. split; [exact E|]. intros a j. rewrite Q.
    assert (G : forall n M, (n <= links)%nat -> m6v (fold_left (fun c l => m6add c (t l j)) (seq 0 n) M) a = v6add (m6v M a) (v6sum n (fun l => DM (fun _ => 0) a s l j))).
    { induction n as [|n IH]; intros M Hn; [cbn [fold_left seq v6sum]; rewrite v6add_0_r; reflexivity|]. rewrite seq_S, fold_left_app. cbn [fold_left v6sum Nat.add]. rewrite m6v_madd, IH by lia.
      rewrite v6add_assoc. f_equal. f_equal. unfold t. destruct (onp n j) eqn:Ej; [|unfold MibLib.DM; rewrite Ej; apply m6v_m0].
      unfold MibLib.DM, MibLib.T, MibLib.DV. rewrite Ej. destruct (onf n j ltac:(lia) Ej) as (Hj & HJ & _). rewrite !V_rest. repeat (progress m6v_open). rewrite (XX r place rok plc) by (auto; lia). reflexivity. }
    rewrite G by lia. rewrite m6v_m0, v6add_0_l. reflexivity.
Qed.
End At.
End Mib.
