(** The layout the constructor of DynamicalConstraints obtains from the variable
    structures of the solver, and the proof that it satisfies [layout_ok]. *)
From Coq Require Import Reals String List Arith Bool Lia.
From Verif Require Import Spec SpecLayout SpecState Labeller LabellerProofs Layout LayoutProofs LabelFilters LayoutCompose SpecDynamics.
Import ListNotations.
Local Open Scope nat_scope.

(** DynamicalConstraints.cpp:60-97 checkFootVariables (the asserts exclude invalid ranges). *)
Definition checkFootVariables (SL CL : labeller) (foot : string) (points : nat) : list contact_point :=
  map (fun i => {| cp_f := label_offset SL (foot ++ "ForcePoint" ++ decimal i)%string;
                   cp_p := label_offset SL (foot ++ "PositionPoint" ++ decimal i)%string;
                   cp_fc := label_offset CL (foot ++ "ForceControlPoint" ++ decimal i)%string;
                   cp_vc := label_offset CL (foot ++ "VelocityControlPoint" ++ decimal i)%string |}) (seq 0 points).
(** DynamicalConstraints.cpp:360-404: counting loop and range lookups. *)
Definition dy_layout (SL CL : labeller) : dyn_layout :=
  let leftPoints := length (filter (contains "LeftForcePoint") (listOfLabels SL)) in
  let rightPoints := length (filter (contains "RightForcePoint") (listOfLabels SL)) in
  {| dl_nx := lab_size SL; dl_nu := lab_size CL;
     dl_left := checkFootVariables SL CL "Left" leftPoints; dl_right := checkFootVariables SL CL "Right" rightPoints;
     dl_mom := label_offset SL "Momentum"; dl_com := label_offset SL "CoMPosition"; dl_base := label_offset SL "BasePosition";
     dl_quat := label_offset SL "BaseQuaternion"; dl_jnt := label_offset SL "JointsPosition";
     dl_lin := label_offset CL "BaseLinearVelocity"; dl_qd := label_offset CL "BaseQuaternionDerivative";
     dl_jv := label_offset CL "JointsVelocity"; dl_dof := range_size (getIndexRange SL "JointsPosition") |}.

Definition planner_point (n : nat) (lft : bool) (i : nat) : contact_point :=
  let b := if lft then 0 else 6 * n in
  {| cp_f := b + 6 * i; cp_p := b + 6 * i + 3; cp_fc := b + 6 * i + 3; cp_vc := b + 6 * i |}.
Definition planner_layout (dofs n : nat) : dyn_layout :=
  {| dl_nx := 12 * n + 16 + dofs; dl_nu := 12 * n + 7 + dofs;
     dl_left := map (planner_point n true) (seq 0 n); dl_right := map (planner_point n false) (seq 0 n);
     dl_mom := 12 * n; dl_com := 12 * n + 6; dl_base := 12 * n + 9; dl_quat := 12 * n + 12; dl_jnt := 12 * n + 16;
     dl_lin := 12 * n; dl_qd := 12 * n + 3; dl_jv := 12 * n + 7; dl_dof := dofs |}.

Lemma foot_variables_are dofs n SL CL lft :
  consistent (state_decl dofs n) SL -> consistent (control_decl dofs n) CL ->
  checkFootVariables SL CL (foot_name lft) n = map (planner_point n lft) (seq 0 n).
Proof.
  intros HS HC. apply map_ext_in. intros i Hi. apply in_seq in Hi. assert (i < n) as H by lia.
  change (label_offset SL (foot_name lft ++ "ForcePoint" ++ decimal i)%string) with (force_own SL (foot_name lft) i).
  change (label_offset SL (foot_name lft ++ "PositionPoint" ++ decimal i)%string) with (pos_off SL (foot_name lft) i).
  change (label_offset CL (foot_name lft ++ "ForceControlPoint" ++ decimal i)%string) with (fctl_off CL (foot_name lft) i).
  change (label_offset CL (foot_name lft ++ "VelocityControlPoint" ++ decimal i)%string) with (vel_off CL (foot_name lft) i).
  rewrite (force_own_is dofs n SL HS), (pos_off_is dofs n SL HS), (fctl_off_is dofs n CL HC), (vel_off_is dofs n CL HC) by auto.
  destruct lft; reflexivity.
Qed.
Lemma force_labels_left dofs n SL : consistent (state_decl dofs n) SL -> length (filter (contains "LeftForcePoint") (listOfLabels SL)) = n.
Proof.
  intros HS. rewrite (labels_are dofs n SL HS), (filter_map_comm _ (is_force true)) by apply contains_LF.
  rewrite tags_force_left, !map_length, seq_length. reflexivity.
Qed.
Lemma force_labels_right dofs n SL : consistent (state_decl dofs n) SL -> length (filter (contains "RightForcePoint") (listOfLabels SL)) = n.
Proof.
  intros HS. rewrite (labels_are dofs n SL HS), (filter_map_comm _ (is_force false)) by apply contains_RF.
  rewrite tags_force_right, !map_length, seq_length. reflexivity.
Qed.
Lemma dy_layout_is dofs n SL CL : consistent (state_decl dofs n) SL -> consistent (control_decl dofs n) CL ->
  dy_layout SL CL = planner_layout dofs n.
Proof.
  intros HS HC. unfold dy_layout, planner_layout.
  rewrite (force_labels_left dofs n SL HS), (force_labels_right dofs n SL HS).
  pose proof (foot_variables_are dofs n SL CL true HS HC) as FL. pose proof (foot_variables_are dofs n SL CL false HS HC) as FR.
  cbn [foot_name] in FL, FR. rewrite FL, FR.
  change "Momentum"%string with (sname SMom). change "CoMPosition"%string with (sname SCom).
  change "BasePosition"%string with (sname SBase). change "BaseQuaternion"%string with (sname SQuat).
  change "JointsPosition"%string with (sname SJoint). change "BaseLinearVelocity"%string with (cname CLin).
  change "BaseQuaternionDerivative"%string with (cname CQuat). change "JointsVelocity"%string with (cname CJoint).
  rewrite !(lookup_off dofs n SL HS), !(lookup_coff dofs n CL HC), (state_lookup dofs n SL SJoint HS) by exact I.
  destruct HS as (_ & Ss & _). destruct HC as (_ & Cs & _). rewrite Ss, Cs.
  f_equal; unfold state_decl, control_decl; tot.
Qed.

Lemma fop_app_intro {A} (R : A -> A -> Prop) l l' : ForallOrdPairs R l -> ForallOrdPairs R l' ->
  (forall a b, In a l -> In b l' -> R a b) -> ForallOrdPairs R (l ++ l').
Proof.
  induction l as [|a l IH]; simpl; auto. intros H H' X. inversion H; subst. constructor.
  - apply Forall_app. split; auto. apply Forall_forall. intros b Hb. apply X; auto.
  - apply IH; auto.
Qed.
Lemma fop_flat {A B} (R : B -> B -> Prop) (f : A -> list B) l :
  (forall a, In a l -> ForallOrdPairs R (f a)) -> ForallOrdPairs (fun a a' => forall b b', In b (f a) -> In b' (f a') -> R b b') l ->
  ForallOrdPairs R (flat_map f l).
Proof.
  intros H F. induction F as [|a l Ha F IH]; simpl; [constructor|]. apply fop_app_intro; [apply H; simpl; auto| |].
  - apply IH. intros; apply H; simpl; auto.
  - intros b b' Hb Hb'. apply in_flat_map in Hb'. destruct Hb' as [a' [I J]]. rewrite Forall_forall in Ha. eauto.
Qed.
Lemma fop_map_seq {B} (R : B -> B -> Prop) (f : nat -> B) n s : (forall i j, s <= i -> i < j -> j < s + n -> R (f i) (f j)) ->
  ForallOrdPairs R (map f (seq s n)).
Proof.
  revert s. induction n; intros s H; simpl; constructor.
  - apply Forall_forall. intros b Hb. apply in_map_iff in Hb. destruct Hb as [j [<- Hj]]. apply in_seq in Hj. apply H; lia.
  - apply IHn. intros; apply H; lia.
Qed.

Lemma in_planner_point dofs n p : In p (dl_points (planner_layout dofs n)) <-> exists lft i, i < n /\ p = planner_point n lft i.
Proof.
  unfold dl_points. cbn [planner_layout dl_left dl_right]. rewrite in_app_iff, !in_map_iff. split.
  - intros [[i [<- H]]|[i [<- H]]]; apply in_seq in H; [exists true, i|exists false, i]; split; auto; lia.
  - intros [[] [i [H ->]]]; [left|right]; exists i; split; auto; apply in_seq; lia.
Qed.
Lemma planner_points_apart dofs n : ForallOrdPairs (fun p p' => 
   (cp_f p + 6 <= cp_f p' /\ cp_p p = cp_f p + 3 /\ cp_p p' = cp_f p' + 3 /\ cp_vc p = cp_f p /\ cp_vc p' = cp_f p' /\ cp_fc p = cp_f p + 3 /\ cp_fc p' = cp_f p' + 3)) (dl_points (planner_layout dofs n)).
Proof.
  unfold dl_points. cbn [planner_layout dl_left dl_right]. apply fop_app_intro.
  - apply fop_map_seq. intros. cbn. lia.
  - apply fop_map_seq. intros. cbn. lia.
  - intros a b Ha Hb. apply in_map_iff in Ha, Hb. destruct Ha as [i [<- Hi]], Hb as [j [<- Hj]]. apply in_seq in Hi, Hj. cbn. lia.
Qed.
Lemma fop_impl {A} (R S : A -> A -> Prop) l : (forall a b, R a b -> S a b) -> ForallOrdPairs R l -> ForallOrdPairs S l.
Proof. intros H F. induction F as [|a l Ha F IH]; constructor; auto. eapply Forall_impl; [|exact Ha]. auto. Qed.

Lemma planner_layout_ok dofs n : layout_ok (planner_layout dofs n).
Proof.
  split; split.
  - unfold state_blocks. apply fop_app_intro.
    + cbn. repeat constructor; cbn; unfold blocks_apart; cbn; lia.
    + apply fop_flat.
      * intros p Hp. apply in_planner_point in Hp. destruct Hp as [lft [i [Hi ->]]]. repeat constructor; unfold blocks_apart; cbn; lia.
      * eapply fop_impl; [|apply planner_points_apart]. cbv beta. intros p p' H b b' [<-|[<-|[]]] [<-|[<-|[]]]; unfold blocks_apart; cbn; lia.
    + intros a b Ha Hb. apply in_flat_map in Hb. destruct Hb as [p [Hp Hb]]. apply in_planner_point in Hp. destruct Hp as [lft [i [Hi ->]]].
      cbn in Ha, Hb. unfold blocks_apart. destruct lft; repeat destruct Ha as [<-|Ha]; try contradiction; repeat destruct Hb as [<-|Hb]; try contradiction; cbn; lia.
  - intros i. cbn [planner_layout dl_nx]. unfold state_blocks. split.
    + intros Hi. destruct (Nat.lt_ge_cases i (12 * n)).
      * set (k := i / 6). assert (Ek : i = 6 * k + i mod 6) by (apply Nat.div_mod; lia). assert (Mk : i mod 6 < 6) by (apply Nat.mod_upper_bound; lia).
        set (r := i mod 6) in *. clearbody k r.
        assert (Pt : exists p, In p (dl_points (planner_layout dofs n)) /\ cp_f p = 6 * k /\ cp_p p = 6 * k + 3).
        { destruct (Nat.lt_ge_cases k n).
          - exists (planner_point n true k). split; [apply in_planner_point; eauto|]. cbn. lia.
          - exists (planner_point n false (k - n)). split; [apply in_planner_point; exists false, (k - n); split; auto; lia|]. cbn. lia. }
        destruct Pt as (p & Hp & E1 & E2). destruct (Nat.lt_ge_cases r 3).
        -- exists (cp_f p, 3). split; [apply in_or_app; right; apply in_flat_map; exists p; simpl; auto|]. cbn. lia.
        -- exists (cp_p p, 3). split; [apply in_or_app; right; apply in_flat_map; exists p; simpl; auto|]. cbn. lia.
      * destruct (Nat.lt_ge_cases i (12 * n + 6)); [exists (12 * n, 6); split; [cbn; auto 10|cbn; lia]|].
        destruct (Nat.lt_ge_cases i (12 * n + 9)); [exists (12 * n + 6, 3); split; [cbn; auto 10|cbn; lia]|].
        destruct (Nat.lt_ge_cases i (12 * n + 12)); [exists (12 * n + 9, 3); split; [cbn; auto 10|cbn; lia]|].
        destruct (Nat.lt_ge_cases i (12 * n + 16)); [exists (12 * n + 12, 4); split; [cbn; auto 10|cbn; lia]|].
        exists (12 * n + 16, dofs); split; [cbn; auto 10|cbn; lia].
    + intros [b [Hb H]]. apply in_app_or in Hb. destruct Hb as [Hb|Hb].
      * cbn in Hb. repeat destruct Hb as [<-|Hb]; try contradiction; cbn in H; lia.
      * apply in_flat_map in Hb. destruct Hb as [p [Hp Hb]]. apply in_planner_point in Hp. destruct Hp as [lft [j [Hj ->]]].
        cbn in Hb. destruct lft; repeat destruct Hb as [<-|Hb]; try contradiction; cbn in H; lia.
  - unfold control_blocks. apply fop_app_intro.
    + cbn. repeat constructor; cbn; unfold blocks_apart; cbn; lia.
    + apply fop_flat.
      * intros p Hp. apply in_planner_point in Hp. destruct Hp as [lft [i [Hi ->]]]. repeat constructor; unfold blocks_apart; cbn; lia.
      * eapply fop_impl; [|apply planner_points_apart]. cbv beta. intros p p' H b b' [<-|[<-|[]]] [<-|[<-|[]]]; unfold blocks_apart; cbn; lia.
    + intros a b Ha Hb. apply in_flat_map in Hb. destruct Hb as [p [Hp Hb]]. apply in_planner_point in Hp. destruct Hp as [lft [i [Hi ->]]].
      cbn in Ha, Hb. unfold blocks_apart. destruct lft; repeat destruct Ha as [<-|Ha]; try contradiction; repeat destruct Hb as [<-|Hb]; try contradiction; cbn; lia.
  - intros i. cbn [planner_layout dl_nu]. unfold control_blocks. split.
    + intros Hi. destruct (Nat.lt_ge_cases i (12 * n)).
      * set (k := i / 6). assert (Ek : i = 6 * k + i mod 6) by (apply Nat.div_mod; lia). assert (Mk : i mod 6 < 6) by (apply Nat.mod_upper_bound; lia).
        set (r := i mod 6) in *. clearbody k r.
        assert (Pt : exists p, In p (dl_points (planner_layout dofs n)) /\ cp_vc p = 6 * k /\ cp_fc p = 6 * k + 3).
        { destruct (Nat.lt_ge_cases k n).
          - exists (planner_point n true k). split; [apply in_planner_point; eauto|]. cbn. lia.
          - exists (planner_point n false (k - n)). split; [apply in_planner_point; exists false, (k - n); split; auto; lia|]. cbn. lia. }
        destruct Pt as (p & Hp & E1 & E2). destruct (Nat.lt_ge_cases r 3).
        -- exists (cp_vc p, 3). split; [apply in_or_app; right; apply in_flat_map; exists p; simpl; auto|]. cbn. lia.
        -- exists (cp_fc p, 3). split; [apply in_or_app; right; apply in_flat_map; exists p; simpl; auto|]. cbn. lia.
      * destruct (Nat.lt_ge_cases i (12 * n + 3)); [exists (12 * n, 3); split; [cbn; auto 10|cbn; lia]|].
        destruct (Nat.lt_ge_cases i (12 * n + 7)); [exists (12 * n + 3, 4); split; [cbn; auto 10|cbn; lia]|].
        exists (12 * n + 7, dofs); split; [cbn; auto 10|cbn; lia].
    + intros [b [Hb H]]. apply in_app_or in Hb. destruct Hb as [Hb|Hb].
      * cbn in Hb. repeat destruct Hb as [<-|Hb]; try contradiction; cbn in H; lia.
      * apply in_flat_map in Hb. destruct Hb as [p [Hp Hb]]. apply in_planner_point in Hp. destruct Hp as [lft [j [Hj ->]]].
        cbn in Hb. destruct lft; repeat destruct Hb as [<-|Hb]; try contradiction; cbn in H; lia.
Qed.
