(** MomentumInBaseJointsDoubleDerivativeEvaluable: the second derivatives of the momentum (MibModel.mib_double). *)
From Coq Require Import Reals List Arith Lia Lra Bool FunctionalExtensionality.
From Coquelicot Require Import Coquelicot.
From Verif Require Import Spec PartialLib SpecQuaternion QuatCurve SpecRigid Rigid RigidCalc KinTree KinModel KinLib KinMotion KinUsers KinProofs KinExist PropKin.
From Verif Require Import SpecBase SpecDerivatives ComModel ComLib ComProofs ComHess MibModel MibLib MibProofs.
Import ListNotations.
Local Open Scope R_scope.

Lemma existsb_in j (L : list nat) : existsb (Nat.eqb j) L = true <-> In j L.
Proof. rewrite existsb_exists. split; [intros (y & I & E); apply Nat.eqb_eq in E; subst; exact I|intros I; exists j; split; [exact I|apply Nat.eqb_refl]]. Qed.

Section Mib.
Variable r : robot.
Variable place : vec -> nat -> pose.
Variable dofs : nat.
Variable up : nat -> nat -> option (nat * nat).
Variable depth : nat -> nat -> nat.
Variable base : nat.
Variable inertia : nat -> m6.
Variable vel : point -> nat -> v6.
Notation links := (r_links r).
Notation rel := (relative r place).
Hypothesis rok : robot_ok r.
Hypothesis plc : placement r place.
Hypothesis trav : forall b, (b < links)%nat -> traversal r b (up b) (depth b).
Hypothesis one_dof : (length (r_joints r) <= dofs)%nat.
Hypothesis Hb : (base < links)%nat.
Hypothesis TR : tree r dofs up base.
Hypothesis vel_ok : forall s sd b f, frame_ok r f -> frame_velocity r place base s sd b f (vel (Point s sd b) f).
Notation KI := (KIN r place dofs up depth base rok plc trav one_dof Hb).
Notation P := (P r up base).
Notation onp := (onp r up base).
Notation ch := (ch r up base).
Notation ax := (fun k => motion_axis r k (ch k)).
Variables (s sd : vec) (b : v6).
Notation x := (Point s sd b).
Notation V := (V r place dofs up base sd b s).
Notation DV := (DV r place dofs up base sd b s).
Notation T := (T r place dofs up base inertia sd b s).
Notation DD := (DD r place dofs up base inertia sd b s).
Notation F := (F r place dofs up base inertia sd b s).
Notation xadj_eq := (xadj_eq r place rok plc s sd b).
Notation xadjw_eq := (xadjw_eq r place rok plc s sd b).
Notation xvel_eq := (xvel_eq r place dofs up depth base vel rok plc trav one_dof Hb vel_ok s sd b).
Notation onf := (onf r place dofs up depth base rok plc trav one_dof Hb TR).

Lemma vel_cols_ok l : (l < links)%nat -> exists cols, vel_cols r dofs up base rel vel x l = Some cols /\ forall j, cols j = DV l j.
Proof.
  intros Hl. unfold vel_cols. destruct (Nat.eqb_spec l base) as [->|N].
  - exists (fun _ => v60). split; [reflexivity|]. intros j. unfold MibLib.DV. destruct (onp base j) eqn:E; [|reflexivity]. exfalso.
    apply (onp_in r up base) in E. destruct E as (c & p & I). rewrite <- (P_eq _ _ _ _ _ _ _ _ _ _ KI base [] Hb) in I; [contradiction|constructor].
  - rewrite (walk_path _ _ _ _ _ (path_P _ _ _ _ _ _ _ _ _ _ KI l Hl)) by apply (P_length _ _ _ _ _ _ _ _ _ _ KI l Hl).
    destruct (fold_upd r dofs up base (fun j c _ => m6v (m6mul (xadj rel x l c) (m6neg (adx (axis r j c)))) (xvel base vel x c))
       (fun j v cols => if (j <? dofs)%nat then Some (upd cols j (m6v (m6mul (xadj rel x l v) (m6neg (adx (axis r j v)))) (xvel base vel x v))) else None)) with (L := P l) (cols := fun _ : nat => v60) as (cols & E & Q).
    + intros j c a Hj. apply Nat.ltb_lt in Hj. rewrite Hj. reflexivity.
    + apply (P_nodup r place dofs up depth base rok plc trav one_dof Hb l Hl).
    + intros c p j I. exact (P_info _ _ _ _ _ _ _ _ _ _ KI TR l c p j Hl I).
    + exists cols. split; [exact E|]. intros j. rewrite Q. change (existsb (Nat.eqb j) (map snd (P l))) with (onp l j). unfold MibLib.DV. destruct (onp l j) eqn:Ej; [|reflexivity].
      destruct (onf l j Hl Ej) as (Hj & HJ & _). rewrite xadj_eq, xvel_eq by auto. unfold axis. rewrite m6v_mul, m6v_neg, m6v_opp. reflexivity.
Qed.
Lemma fold_pair (t : nat -> v6) : forall (L : list (nat * nat * nat)), NoDup (map snd L) -> (forall c p j, In (c, p, j) L -> (j < dofs)%nat) -> forall cols nz,
  exists cols', foldo (fun (a : (nat -> v6) * list nat) (y : nat * nat * nat) => match add_to dofs (fst a) (snd y) (t (snd y)) with Some c => Some (c, snd a ++ [snd y]) | None => None end) L (cols, nz) = Some (cols', nz ++ map snd L) /\
    forall j, cols' j = if existsb (Nat.eqb j) (map snd L) then v6add (cols j) (t j) else cols j.
Proof.
  induction L as [|[[c p] m] L IH]; intros ND HC cols nz; [exists cols; split; [cbn; rewrite app_nil_r; reflexivity|intros; reflexivity]|].
  cbn [map snd] in ND. inversion ND as [|? ? NI ND']; subst. pose proof (HC c p m (or_introl eq_refl)) as Hm. cbn [foldo map snd fst]. unfold add_to at 1. apply Nat.ltb_lt in Hm. rewrite Hm.
  destruct (IH ND' (fun c' p' j I => HC c' p' j (or_intror I)) (upd cols m (v6add (cols m) (t m))) (nz ++ [m])) as (cols' & E & Q). exists cols'. split; [rewrite E, <- app_assoc; reflexivity|]. intros j. rewrite Q. cbn [existsb].
  destruct (Nat.eqb_spec j m) as [->|N]; cbn [orb].
  - replace (existsb (Nat.eqb m) (map snd L)) with false; [apply upd_eq|]. symmetry. apply not_true_is_false. intros Z. apply existsb_in in Z. contradiction.
  - rewrite upd_ne by auto. reflexivity.
Qed.
(** What a link under joint k adds to column j. *)
Definition G (l k j : nat) : v6 :=
  m6v (m6add (m6mul (adw (ax k)) (m6mul (AdjW (rel s (ch k) l)) (inertia l)))
     (m6neg (m6mul (m6mul (AdjW (rel s (ch k) l)) (inertia l)) (m6mul (m6mul (Adj (rel s l (ch k))) (adx (ax k))) (Adj (rel s (ch k) l)))))) (DV l j).
Notation dd_link := (dd_link r dofs up base inertia rel vel x).
Lemma dd_link_out l k K a : (l < links)%nat -> onp l k = false -> dd_link k K l a = Some a.
Proof.
  intros Hl E. unfold MibModel.dd_link. rewrite (seek_none _ _ _ _ _ _ _ _ _ _ KI l (P l) k (path_P _ _ _ _ _ _ _ _ _ _ KI l Hl) (onp_out r up base l k E) (fuel r) [] (P_length _ _ _ _ _ _ _ _ _ _ KI l Hl)). reflexivity.
Qed.
Lemma dd_link_on l k a : (l < links)%nat -> onp l k = true -> exists a', dd_link k (ch k) l a = Some a' /\
  dd_column a' = v6add (dd_column a) (T l k) /\
  (forall j, dd_cols a' j = if onp (ch k) j then v6add (dd_cols a j) (G l k j) else dd_cols a j) /\
  (forall j, In j (dd_nonzero a') <-> In j (dd_nonzero a) \/ onp (ch k) j = true) /\
  (forall j, In j (dd_others a') <-> In j (dd_others a) \/ (onp l j = true /\ onp (ch k) j = false)).
Proof.
  intros Hl E. destruct (onf l k Hl E) as (Hk & HK & C). pose proof (path_P _ _ _ _ _ _ _ _ _ _ KI l Hl) as PL. pose proof (P_length _ _ _ _ _ _ _ _ _ _ KI l Hl) as LL.
  destruct (P_split _ _ _ _ _ _ _ _ _ _ KI TR l k (ch k) Hl E C) as (pre & p & post & E1 & E2 & NP).
  destruct (seek_some _ _ _ _ _ _ _ _ _ _ KI pre (ch k) p k post NP l ltac:(rewrite <- E1; exact PL) (fuel r) [] ltac:(rewrite <- E1; exact LL)) as [SK _].
  unfold MibModel.dd_link. rewrite SK. cbn [app]. destruct (vel_cols_ok l Hl) as (VC & -> & QV).
  rewrite (to_base_fold r place dofs up depth base rok plc trav one_dof Hb TR _ (ch k)) by auto.
  match goal with |- context[add_to dofs _ _ (m6v ?MM (VC _))] => set (M := MM) end.
  destruct (fold_pair (fun j => m6v M (VC j)) (P (ch k))) with (cols := dd_cols a) (nz := dd_nonzero a) as (cols' & EF & QF).
  { apply (P_nodup r place dofs up depth base rok plc trav one_dof Hb _ HK). }
  { intros c q j I. apply (P_info _ _ _ _ _ _ _ _ _ _ KI TR (ch k) c q j HK I). }
  cbv beta in EF. rewrite EF. eexists. split; [reflexivity|]. cbn [dd_column dd_cols dd_nonzero dd_others]. split; [|split; [|split]].
  - rewrite QV, xadjw_eq, xvel_eq by auto. rewrite v6add_assoc. f_equal. unfold MibLib.T, axis. rewrite !m6v_mul. reflexivity.
  - intros j. rewrite QF. change (existsb (Nat.eqb j) (map snd (P (ch k)))) with (onp (ch k) j). destruct (onp (ch k) j); [|reflexivity]. f_equal. rewrite QV. unfold G. subst M. rewrite xadjw_eq, !xadj_eq by auto. reflexivity.
  - intros j. rewrite in_app_iff. apply or_iff_compat_l. symmetry. apply existsb_in.
  - intros j. rewrite in_app_iff. apply or_iff_compat_l.
    pose proof (P_nodup r place dofs up depth base rok plc trav one_dof Hb l Hl) as ND. rewrite E1, map_app in ND.
    assert (D : forall y, In y (map snd pre) -> ~ In y (map snd ((ch k, p, k) :: post))).
    { revert ND. generalize (map snd ((ch k, p, k) :: post)). generalize (map snd pre). clear. induction l as [|y l IH]; intros l' ND z I J; [contradiction|]. cbn in ND.
      inversion ND as [|? ? NI ND']; subst. destruct I as [->|I]; [apply NI, in_or_app; right; exact J|]. exact (IH l' ND' z I J). }
    assert (O1 : onp l j = true <-> In j (map snd (P l))) by apply existsb_in. assert (O2 : onp (ch k) j = true <-> In j (map snd (P (ch k)))) by apply existsb_in.
    rewrite E1, map_app, in_app_iff in O1. rewrite E2 in O2. split.
    + intros I. split; [apply O1; left; exact I|]. apply not_true_is_false. intros Z. exact (D j I (proj1 O2 Z)).
    + intros [Z N]. apply O1 in Z. destruct Z as [Z|Z]; [exact Z|]. apply O2 in Z. congruence.
Qed.
Lemma dd_links k n : child_of r up base k = Some (ch k) -> (n <= links)%nat -> exists a, fold_left (fun o l => match o with Some a => dd_link k (ch k) l a | None => None end) (seq 0 n) (Some (MibModel.DD (fun _ => v60) v60 [] [])) = Some a /\
  dd_column a = v6sum n (fun l => if onp l k then T l k else v60) /\
  (forall j, dd_cols a j = v6sum n (fun l => if onp l k && onp (ch k) j then G l k j else v60)) /\
  (forall j, In j (dd_nonzero a) <-> exists l, (l < n)%nat /\ onp l k = true /\ onp (ch k) j = true) /\
  (forall j, In j (dd_others a) <-> exists l, (l < n)%nat /\ onp l k = true /\ onp l j = true /\ onp (ch k) j = false).
Proof.
  intros C. induction n as [|n IH]; intros Hn.
  - eexists. split; [reflexivity|]. cbn. split; [reflexivity|]. split; [reflexivity|]. split; intros j; (split; [intros []|intros (l & H & _); lia]).
  - destruct (IH ltac:(lia)) as (a & E & A1 & A2 & A3 & A4). rewrite seq_S, fold_left_app. cbn [fold_left Nat.add]. rewrite E. destruct (onp n k) eqn:O.
    + destruct (dd_link_on n k a ltac:(lia) O) as (a' & E' & B1 & B2 & B3 & B4). exists a'. split; [exact E'|]. cbn [v6sum]. rewrite O. split; [rewrite B1, A1; reflexivity|]. split; [|split].
      * intros j. rewrite B2, A2. cbn [andb]. destruct (onp (ch k) j); [reflexivity|]. rewrite v6add_0_r. reflexivity.
      * intros j. rewrite B3, A3. split; [intros [(l & H & H')|H]; [exists l; split; [lia|auto]|exists n; auto]|]. intros (l & H & H1 & H2). destruct (Nat.eq_dec l n) as [->|]; [right; auto|left; exists l; split; [lia|auto]].
      * intros j. rewrite B4, A4. split; [intros [(l & H & H')|H]; [exists l; split; [lia|auto]|exists n; split; [lia|]; tauto]|]. intros (l & H & H1 & H2). destruct (Nat.eq_dec l n) as [->|]; [right; auto|left; exists l; split; [lia|auto]].
    + rewrite (dd_link_out n k (ch k) a ltac:(lia) O). exists a. split; [reflexivity|]. cbn [v6sum]. rewrite O. cbn [andb]. split; [rewrite v6add_0_r; exact A1|]. split; [intros j; rewrite v6add_0_r; apply A2|]. split.
      * intros j. rewrite A3. split; intros (l & H & H1 & H2); exists l; (split; [|auto]); [lia|]. destruct (Nat.eq_dec l n) as [->|]; [congruence|lia].
      * intros j. rewrite A4. split; intros (l & H & H1 & H2); exists l; (split; [|auto]); [lia|]. destruct (Nat.eq_dec l n) as [->|]; [congruence|lia].
Qed.
(** The second loop. *)
Lemma fold_nonzero (g : nat -> nat -> v6 -> v6) : forall L, NoDup L -> (forall j, In j L -> child_of r up base j = Some (ch j)) -> forall cols,
  exists cols', fold_left (fun o j => match o, child_of r up base j with Some cols, Some J => Some (upd cols j (g j J (cols j))) | _, _ => None end) L (Some cols) = Some cols' /\
    forall j, cols' j = if existsb (Nat.eqb j) L then g j (ch j) (cols j) else cols j.
Proof.
  induction L as [|m L IH]; intros ND HC cols; [exists cols; split; [reflexivity|intros; reflexivity]|]. inversion ND as [|? ? NI ND']; subst. cbn [fold_left]. rewrite (HC m (or_introl eq_refl)).
  destruct (IH ND' (fun j I => HC j (or_intror I)) (upd cols m (g m (ch m) (cols m)))) as (cols' & E & Q). exists cols'. split; [exact E|]. intros j. rewrite Q. cbn [existsb].
  destruct (Nat.eqb_spec j m) as [->|N]; cbn [orb].
  - replace (existsb (Nat.eqb m) L) with false; [apply upd_eq|]. symmetry. apply not_true_is_false. intros Z. apply existsb_in in Z. contradiction.
  - rewrite upd_ne by auto. reflexivity.
Qed.
Definition DDs (k j : nat) : v6 := v6sum links (fun l => DD l k j).
Lemma DDs_sym k j : DDs k j = DDs j k.
Proof. apply v6sum_ext. intros l Hl. apply (DD_sym r place dofs up depth base inertia rok plc trav one_dof Hb TR sd b s l k j Hl). Qed.
Lemma direct_ok k K : child_of r up base k = Some K -> exists cols others, dd_direct r dofs up base inertia rel vel x k = (Some cols, others) /\
  (forall j, onp (ch k) j = true -> cols j = DDs k j) /\ (forall j, onp (ch k) j = false -> cols j = v60) /\
  (forall j, In j others <-> exists l, (l < links)%nat /\ onp l k = true /\ onp l j = true /\ onp (ch k) j = false).
Proof.
  intros C. destruct (child_dof _ _ _ _ _ _ _ _ _ _ KI TR k K C) as (-> & HK & OK & Hk). unfold dd_direct. rewrite C. unfold each_link.
  destruct (dd_links k links C (le_n _)) as (a & E & A1 & A2 & A3 & A4). rewrite E.
  assert (NZ : forall j, In j (dd_nonzero a) <-> onp (ch k) j = true).
  { intros j. rewrite A3. split; [intros (l & _ & _ & H); exact H|]. intros H. exists (ch k). auto. }
  destruct (fold_nonzero (fun j J v => v6add (m6v (m6mul (m6mul (xadjw rel x base J) (adw (axis r j J))) (xadjw rel x J (ch k))) (dd_column a)) (m6v (xadjw rel x base (ch k)) v)) (nodup Nat.eq_dec (dd_nonzero a))) with (cols := dd_cols a) as (cols & EC & QC).
  { apply NoDup_nodup. }
  { intros j I. apply nodup_In, NZ in I. apply (onf (ch k) j HK I). }
  exists cols, (dd_others a). split; [f_equal; exact EC|]. 
  assert (EX : forall j, existsb (Nat.eqb j) (nodup Nat.eq_dec (dd_nonzero a)) = onp (ch k) j).
  { intros j. apply eq_true_iff_eq. rewrite existsb_in, nodup_In. apply NZ. }
  split; [|split; [|exact A4]].
  - intros j O. rewrite QC, EX, O. destruct (onf (ch k) j HK O) as (Hj & HJ & _). rewrite !xadjw_eq by auto. rewrite A1, A2, !m6v_sum, <- v6sum_add. apply v6sum_ext. intros l Hl. unfold MibLib.DD. rewrite O, andb_true_r.
    destruct (onp l k) eqn:Ol; cbn [andb]; [|rewrite !m6v_0, v6add_0_l; reflexivity].
    rewrite (on_tr _ _ _ _ _ _ _ _ _ _ KI TR l k j Hl Ol O). unfold MibLib.F, G, axis. rewrite !m6v_mul. reflexivity.
  - intros j O. rewrite QC, EX, O, A2. rewrite (v6sum_ext _ _ (fun _ => v60)); [apply v6sum_0|]. intros l _. rewrite O, andb_false_r. reflexivity.
Qed.
(** The columns taken from the other double derivatives. *)
Lemma fold_others (d : nat -> option (nat -> v6)) k : forall L, NoDup L -> (forall j, In j L -> (j < dofs)%nat /\ exists c, d j = Some c) -> forall cols,
  exists cols', fold_left (fun o j => match o, d j with Some c, Some c' => if (j <? dofs)%nat then Some (upd c j (c' k)) else None | _, _ => None end) L (Some cols) = Some cols' /\
    forall j, (In j L -> forall c, d j = Some c -> cols' j = c k) /\ (~ In j L -> cols' j = cols j).
Proof.
  induction L as [|m L IH]; intros ND HC cols; [exists cols; split; [reflexivity|intros j; split; [intros []|reflexivity]]|]. inversion ND as [|? ? NI ND']; subst. cbn [fold_left].
  destruct (HC m (or_introl eq_refl)) as (Hm & c & Ec). rewrite Ec. apply Nat.ltb_lt in Hm. rewrite Hm.
  destruct (IH ND' (fun j I => HC j (or_intror I)) (upd cols m (c k))) as (cols' & E & Q). exists cols'. split; [exact E|]. intros j. destruct (Q j) as [Q1 Q2]. split.
  - intros [<-|I] c' Ec'; [|apply Q1; auto]. rewrite Q2 by auto. rewrite upd_eq. congruence.
  - intros N. rewrite Q2 by (intros I; apply N; right; exact I). apply upd_ne. intros ->. apply N. left. reflexivity.
Qed.
Notation mib_double := (mib_double r dofs up base inertia rel vel x).
Lemma double_ok n : forall k K, child_of r up base k = Some K -> (deepest r depth base - depth base K < n)%nat -> exists cols, mib_double n k = Some cols /\ forall j, cols j = DDs k j.
Proof.
  induction n as [|n IH]; intros k K C Hn; [lia|]. destruct (child_dof _ _ _ _ _ _ _ _ _ _ KI TR k K C) as (-> & HK & OK & Hk).
  destruct (direct_ok k (ch k) C) as (cols & others & E & Q1 & Q2 & Q3). cbn [MibModel.mib_double]. rewrite E.
  assert (D : forall j, In j others -> (j < dofs)%nat /\ exists c, mib_double n j = Some c /\ forall i, c i = DDs j i).
  { intros j I. apply Q3 in I. destruct I as (l & Hl & O1 & O2 & O3). destruct (deeper _ _ _ _ _ _ _ _ _ _ KI TR l k j Hl O1 O2 O3) as [CJ D]. destruct (onf l j Hl O2) as (Hj & HJ & _). split; [exact Hj|].
    apply (IH j (ch j) CJ). pose proof (deepest_le _ _ _ _ _ _ _ _ _ _ KI (ch j) HJ). lia. }
  destruct (fold_others (mib_double n) k (nodup Nat.eq_dec others)) with (cols := cols) as (cols' & E' & Q').
  { apply NoDup_nodup. }
  { intros j I. apply nodup_In in I. destruct (D j I) as (Hj & c & Ec & _). split; [exact Hj|eauto]. }
  exists cols'. split; [exact E'|]. intros j. destruct (Q' j) as [R1 R2]. destruct (in_dec Nat.eq_dec j others) as [I|N].
  - destruct (D j I) as (_ & c & Ec & Qc). rewrite (R1 (proj2 (nodup_In Nat.eq_dec others j) I) c Ec), Qc. apply DDs_sym.
  - rewrite R2 by (rewrite nodup_In; exact N). destruct (onp (ch k) j) eqn:O; [apply Q1; exact O|]. rewrite (Q2 j O). unfold DDs. symmetry. rewrite (v6sum_ext _ _ (fun _ => v60)); [apply v6sum_0|]. intros l Hl. unfold MibLib.DD.
    destruct (onp l k) eqn:O1; [|reflexivity]. destruct (onp l j) eqn:O2; [|reflexivity]. exfalso. apply N, Q3. exists l. auto.
Qed.
End Mib.
