From Coq Require Import Reals String List Arith Bool Lia.
From Coq Require Import Decimal DecimalString DecimalNat.
From Verif Require Import SpecLayout SpecState Labeller LabellerProofs Layout.
Import ListNotations.
Local Open Scope nat_scope.

Lemma add_range_new A L n d : consistent A L -> ~ In n (map fst A) ->
  exists L', addLabelAndGetIndexRange L n d = (L', Some (total A, d)) /\
             consistent (A ++ [(n, d)]) L'.
Proof.
  intros C Hn. pose proof (consistent_add A L n d C) as HC.
  unfold addLabelAndGetIndexRange.
  rewrite (add_body_new A L n d C Hn) in *. cbn [fst] in HC.
  eexists. split.
  - destruct C as (_ & Hs & _). rewrite <- Hs. reflexivity.
  - unfold declare in HC. destruct (existsb (String.eqb n) (map fst A)) eqn:E; auto.
    apply existsb_eqb in E. contradiction.
Qed.

Lemma nodup_mid {X} (A : list X) a B : NoDup (A ++ a :: B) -> ~ In a A.
Proof. intros H Hin. apply NoDup_remove_2 in H. apply H, in_or_app. auto. Qed.

Lemma fresh_after (A : list (string * nat)) n d B : NoDup (map fst (A ++ (n, d) :: B)) -> ~ In n (map fst A).
Proof. rewrite map_app. cbn [map fst]. apply nodup_mid. Qed.

(** Declarations of one foot. *)
Definition fstate (foot : string) (i : nat) : list (string * nat) :=
  [((foot ++ "ForcePoint" ++ decimal i)%string, 3); ((foot ++ "PositionPoint" ++ decimal i)%string, 3)].
Definition fcontrol (foot : string) (i : nat) : list (string * nat) :=
  [((foot ++ "VelocityControlPoint" ++ decimal i)%string, 3); ((foot ++ "ForceControlPoint" ++ decimal i)%string, 3)].

Definition state_decl (dofs n : nat) : list (string * nat) :=
  flat_map (fstate "Left") (seq 0 n) ++ flat_map (fstate "Right") (seq 0 n) ++
  [("Momentum", 6); ("CoMPosition", 3); ("BasePosition", 3); ("BaseQuaternion", 4); ("JointsPosition", dofs)]%string.
Definition control_decl (dofs n : nat) : list (string * nat) :=
  flat_map (fcontrol "Left") (seq 0 n) ++ flat_map (fcontrol "Right") (seq 0 n) ++
  [("BaseLinearVelocity", 3); ("BaseQuaternionDerivative", 4); ("JointsVelocity", dofs)]%string.

Lemma total_fstate f l : total (flat_map (fstate f) l) = 6 * length l.
Proof. induction l; auto. cbn [flat_map]. rewrite total_app, IHl. unfold total, fstate. cbn [map list_sum fold_right snd length]. unfold list_sum. cbn [fold_right]. lia. Qed.
Lemma total_fcontrol f l : total (flat_map (fcontrol f) l) = 6 * length l.
Proof. induction l; auto. cbn [flat_map]. rewrite total_app, IHl. unfold total, fcontrol. cbn [map list_sum fold_right snd length]. unfold list_sum. cbn [fold_right]. lia. Qed.

Lemma foot_loop_ok zok foot l : forall s A B SL CL fr,
  l = seq s (length l) ->
  consistent A SL -> consistent B CL ->
  NoDup (map fst (A ++ flat_map (fstate foot) l)) ->
  NoDup (map fst (B ++ flat_map (fcontrol foot) l)) ->
  exists SL' CL',
    foot_loop zok foot l SL CL fr =
    (SL', CL',
     mkFR (positionPoints fr ++ map (fun i => Some (total A + 6 * (i - s) + 3, 3)) l)
          (forcePoints fr ++ map (fun i => Some (total A + 6 * (i - s), 3)) l)
          (velocityControlPoints fr ++ map (fun i => Some (total B + 6 * (i - s), 3)) l)
          (forceControlPoints fr ++ map (fun i => Some (total B + 6 * (i - s) + 3, 3)) l), true) /\
    consistent (A ++ flat_map (fstate foot) l) SL' /\
    consistent (B ++ flat_map (fcontrol foot) l) CL'.
Proof.
  induction l as [|i l IH]; intros s A B SL CL fr Hl CA CB NA NB.
  - cbn. rewrite !app_nil_r. exists SL, CL. destruct fr; cbn. auto.
  - cbn [length seq] in Hl. injection Hl as Hi Hl'. subst s.
    cbn [foot_loop].
    assert (N1 : ~ In (foot ++ "ForcePoint" ++ decimal i)%string (map fst A)).
    { eapply fresh_after. exact NA. }
    destruct (add_range_new A SL _ 3 CA N1) as (S1 & E1 & C1). rewrite E1. clear E1 N1.
    assert (HV : forall o, range_valid zok (Some (o, 3)) = true) by (intros; cbn; now rewrite orb_true_r).
    rewrite HV; cbn [negb].
    set (A1 := A ++ [((foot ++ "ForcePoint" ++ decimal i)%string, 3)]) in *.
    assert (N2 : ~ In (foot ++ "PositionPoint" ++ decimal i)%string (map fst A1)).
    {
      change (A ++ flat_map (fstate foot) (i :: l))
       with (A ++ [((foot ++ "ForcePoint" ++ decimal i)%string, 3)] ++ ((foot ++ "PositionPoint" ++ decimal i)%string, 3) :: flat_map (fstate foot) l) in NA.
      rewrite app_assoc in NA. eapply fresh_after. exact NA. }
    destruct (add_range_new A1 S1 _ 3 C1 N2) as (S2 & E2 & C2). rewrite E2, HV. cbn [negb]. clear E2 N2.
    assert (N3 : ~ In (foot ++ "VelocityControlPoint" ++ decimal i)%string (map fst B)).
    { eapply fresh_after. exact NB. }
    destruct (add_range_new B CL _ 3 CB N3) as (D1 & E1 & CD1). rewrite E1, HV. cbn [negb]. clear E1 N3.
    set (B1 := B ++ [((foot ++ "VelocityControlPoint" ++ decimal i)%string, 3)]) in *.
    assert (N4 : ~ In (foot ++ "ForceControlPoint" ++ decimal i)%string (map fst B1)).
    {
      change (B ++ flat_map (fcontrol foot) (i :: l))
       with (B ++ [((foot ++ "VelocityControlPoint" ++ decimal i)%string, 3)] ++ ((foot ++ "ForceControlPoint" ++ decimal i)%string, 3) :: flat_map (fcontrol foot) l) in NB.
      rewrite app_assoc in NB. eapply fresh_after. exact NB. }
    destruct (add_range_new B1 D1 _ 3 CD1 N4) as (D2 & E2 & CD2). rewrite E2, HV. cbn [negb]. clear E2 N4.
    assert (TA1 : total A1 = total A + 3) by (unfold A1; rewrite total_app; reflexivity).
    assert (TB1 : total B1 = total B + 3) by (unfold B1; rewrite total_app; reflexivity).
    assert (EA : A ++ flat_map (fstate foot) (i :: l) = (A1 ++ [((foot ++ "PositionPoint" ++ decimal i)%string, 3)]) ++ flat_map (fstate foot) l)
      by (unfold A1; rewrite <- !app_assoc; reflexivity).
    assert (EB : B ++ flat_map (fcontrol foot) (i :: l) = (B1 ++ [((foot ++ "ForceControlPoint" ++ decimal i)%string, 3)]) ++ flat_map (fcontrol foot) l)
      by (unfold B1; rewrite <- !app_assoc; reflexivity).
    rewrite EA in *. rewrite EB in *.
    match goal with |- context [foot_loop zok foot l S2 D2 ?fr'] =>
      destruct (IH (S i) _ _ S2 D2 fr' Hl' C2 CD2 NA NB) as (S3 & D3 & E3 & CS & CDD) end.
    exists S3, D3. rewrite E3. split; [|split; auto].
      assert (GE : forall j, In j l -> S i <= j).
      { intros j Hj. rewrite Hl' in Hj. apply in_seq in Hj. lia. }
      rewrite !total_app, TA1, TB1. cbn [positionPoints forcePoints velocityControlPoints forceControlPoints].
      change (total [((foot ++ "PositionPoint" ++ decimal i)%string, 3)]) with 3.
      change (total [((foot ++ "ForceControlPoint" ++ decimal i)%string, 3)]) with 3.
      cbn [map]. rewrite Nat.sub_diag, <- !app_assoc. cbn [app].
      assert (EX : forall c c' : nat, c' = c + 6 -> map (fun j => Some (c' + 6 * (j - S i), 3)) l = map (fun j => Some (c + 6 * (j - i), 3)) l).
      { intros c c' ->. apply map_ext_in. intros j Hj. specialize (GE j Hj). f_equal. f_equal. lia. }
      assert (EX3 : forall c c' : nat, c' = c + 6 -> map (fun j => Some (c' + 6 * (j - S i) + 3, 3)) l = map (fun j => Some (c + 6 * (j - i) + 3, 3)) l).
      { intros c c' ->. apply map_ext_in. intros j Hj. specialize (GE j Hj). f_equal. f_equal. lia. }
      rewrite (EX3 (total A)), (EX (total A)), (EX (total B)), (EX3 (total B)) by lia.
      rewrite !Nat.mul_0_r, !Nat.add_0_r. reflexivity.
Qed.

(** * Names *)
Inductive stag := SF (left : bool) (i : nat) | SP (left : bool) (i : nat) | SMom | SCom | SBase | SQuat | SJoint.
Definition sname (t : stag) : string :=
  match t with
  | SF true i => "LeftForcePoint" ++ decimal i | SF false i => "RightForcePoint" ++ decimal i
  | SP true i => "LeftPositionPoint" ++ decimal i | SP false i => "RightPositionPoint" ++ decimal i
  | SMom => "Momentum" | SCom => "CoMPosition" | SBase => "BasePosition" | SQuat => "BaseQuaternion"
  | SJoint => "JointsPosition"
  end%string.
Inductive ctag := CV (left : bool) (i : nat) | CF (left : bool) (i : nat) | CLin | CQuat | CJoint.
Definition cname (t : ctag) : string :=
  match t with
  | CV true i => "LeftVelocityControlPoint" ++ decimal i | CV false i => "RightVelocityControlPoint" ++ decimal i
  | CF true i => "LeftForceControlPoint" ++ decimal i | CF false i => "RightForceControlPoint" ++ decimal i
  | CLin => "BaseLinearVelocity" | CQuat => "BaseQuaternionDerivative"
  | CJoint => "JointsVelocity"
  end%string.

Lemma sname_inj a b : sname a = sname b -> a = b.
Proof.
  destruct a as [[] i|[] i| | | | |], b as [[] j|[] j| | | | |]; cbn; intros H; try discriminate; auto;
    injection H as H; apply decimal_inj in H; congruence.
Qed.
Lemma cname_inj a b : cname a = cname b -> a = b.
Proof.
  destruct a as [[] i|[] i| | |], b as [[] j|[] j| | |]; cbn; intros H; try discriminate; auto;
    injection H as H; apply decimal_inj in H; congruence.
Qed.

Definition stags (n : nat) : list stag :=
  flat_map (fun i => [SF true i; SP true i]) (seq 0 n) ++
  flat_map (fun i => [SF false i; SP false i]) (seq 0 n) ++ [SMom; SCom; SBase; SQuat; SJoint].
Definition ctags (n : nat) : list ctag :=
  flat_map (fun i => [CV true i; CF true i]) (seq 0 n) ++
  flat_map (fun i => [CV false i; CF false i]) (seq 0 n) ++ [CLin; CQuat; CJoint].

Lemma map_flat_map {A B C} (g : B -> C) (f : A -> list B) l :
  map g (flat_map f l) = flat_map (fun x => map g (f x)) l.
Proof. induction l; cbn; auto. rewrite map_app, IHl. reflexivity. Qed.

Lemma state_names dofs n : map fst (state_decl dofs n) = map sname (stags n).
Proof. unfold state_decl, stags. rewrite !map_app, !map_flat_map. reflexivity. Qed.
Lemma control_names dofs n : map fst (control_decl dofs n) = map cname (ctags n).
Proof. unfold control_decl, ctags. rewrite !map_app, !map_flat_map. reflexivity. Qed.

Lemma NoDup_app_intro {X} (l1 l2 : list X) :
  NoDup l1 -> NoDup l2 -> (forall x, In x l1 -> ~ In x l2) -> NoDup (l1 ++ l2).
Proof.
  induction l1; cbn; intros H1 H2 H; auto. inversion H1; subst. constructor.
  - rewrite in_app_iff. intros [|]; auto. eapply H; eauto.
  - apply IHl1; auto.
Qed.

Lemma NoDup_flat_map {A B} (f : A -> list B) l : NoDup l ->
  (forall x, NoDup (f x)) -> (forall x y z, In z (f x) -> In z (f y) -> x = y) ->
  NoDup (flat_map f l).
Proof.
  intros Hl Hf Hd. induction Hl; cbn; [constructor|].
  apply NoDup_app_intro; auto.
  intros z Hz Hz'. apply in_flat_map in Hz'. destruct Hz' as (y & Hy & Hzy).
  assert (x = y) by eauto. subst. contradiction.
Qed.

Ltac nd := repeat constructor; cbn; intuition discriminate.

Lemma stags_nodup n : NoDup (stags n).
Proof.
  unfold stags. apply NoDup_app_intro; [|apply NoDup_app_intro|].
  - apply NoDup_flat_map; [apply seq_NoDup|nd|].
    intros x y z [<-|[<-|[]]] [H|[H|[]]]; congruence.
  - apply NoDup_flat_map; [apply seq_NoDup|nd|].
    intros x y z [<-|[<-|[]]] [H|[H|[]]]; congruence.
  - nd.
  - intros x Hx. apply in_flat_map in Hx. destruct Hx as (i & _ & [<-|[<-|[]]]); cbn; intuition discriminate.
  - intros x Hx Hx'. apply in_flat_map in Hx. destruct Hx as (i & _ & [<-|[<-|[]]]);
    apply in_app_or in Hx'; destruct Hx' as [Hx'|Hx'];
    try (apply in_flat_map in Hx'; destruct Hx' as (j & _ & [H|[H|[]]]); discriminate);
    cbn in Hx'; intuition discriminate.
Qed.
Lemma ctags_nodup n : NoDup (ctags n).
Proof.
  unfold ctags. apply NoDup_app_intro; [|apply NoDup_app_intro|].
  - apply NoDup_flat_map; [apply seq_NoDup|nd|].
    intros x y z [<-|[<-|[]]] [H|[H|[]]]; congruence.
  - apply NoDup_flat_map; [apply seq_NoDup|nd|].
    intros x y z [<-|[<-|[]]] [H|[H|[]]]; congruence.
  - nd.
  - intros x Hx. apply in_flat_map in Hx. destruct Hx as (i & _ & [<-|[<-|[]]]); cbn; intuition discriminate.
  - intros x Hx Hx'. apply in_flat_map in Hx. destruct Hx as (i & _ & [<-|[<-|[]]]);
    apply in_app_or in Hx'; destruct Hx' as [Hx'|Hx'];
    try (apply in_flat_map in Hx'; destruct Hx' as (j & _ & [H|[H|[]]]); discriminate);
    cbn in Hx'; intuition discriminate.
Qed.

Lemma NoDup_map_inj {A B} (f : A -> B) l : (forall a b, f a = f b -> a = b) -> NoDup l -> NoDup (map f l).
Proof.
  intros Hf. induction 1; cbn; constructor; auto.
  intros Hin. apply in_map_iff in Hin. destruct Hin as (y & E & Hy). apply Hf in E. congruence.
Qed.

Lemma state_decl_nodup dofs n : NoDup (map fst (state_decl dofs n)).
Proof. rewrite state_names. apply NoDup_map_inj; [apply sname_inj|apply stags_nodup]. Qed.
Lemma control_decl_nodup dofs n : NoDup (map fst (control_decl dofs n)).
Proof. rewrite control_names. apply NoDup_map_inj; [apply cname_inj|apply ctags_nodup]. Qed.

Lemma NoDup_app_l {X} (l1 l2 : list X) : NoDup (l1 ++ l2) -> NoDup l1.
Proof. induction l1; cbn; intros H; constructor; inversion H; subst; auto. rewrite in_app_iff in *. tauto. Qed.

(** * The documented layout *)
Definition foot_layout (o n : nat) : foot_ranges :=
  mkFR (map (fun i => Some (o + 6 * i + 3, 3)) (seq 0 n)) (map (fun i => Some (o + 6 * i, 3)) (seq 0 n))
       (map (fun i => Some (o + 6 * i, 3)) (seq 0 n)) (map (fun i => Some (o + 6 * i + 3, 3)) (seq 0 n)).
Definition layout (dofs n : nat) : var_ranges :=
  mkVR (foot_layout 0 n) (foot_layout (6 * n) n)
       (Some (12 * n, 6)) (Some (12 * n + 6, 3)) (Some (12 * n + 9, 3)) (Some (12 * n + 12, 4))
       (Some (12 * n + 16, dofs))
       (Some (12 * n, 3)) (Some (12 * n + 3, 4)) (Some (12 * n + 7, dofs))
       (12 * n + 16 + dofs) (12 * n + 7 + dofs).

Lemma assoc1 {X} (A : list X) a B : A ++ a :: B = (A ++ [a]) ++ B.
Proof. now rewrite <- app_assoc. Qed.

Ltac add_step CONS ND :=
  match type of ND with NoDup (map fst (?A ++ (?n, ?d) :: ?B)) =>
    let L' := fresh "L" in let E := fresh "E" in let C' := fresh "Cons" in
    destruct (add_range_new A _ n d CONS (fresh_after A n d B ND)) as (L' & E & C');
    rewrite E; clear E; cbn [range_valid]; cbn [orb Nat.ltb Nat.leb]; rewrite ?orb_true_r; cbn [negb];
    rewrite (assoc1 A (n, d) B) in ND; clear CONS; rename C' into CONS
  end.

Lemma setVariablesStructure_ok zok dofs n S0 C0 :
  zok = true \/ 0 < dofs ->
  exists SL CL, setVariablesStructure zok dofs n S0 C0 = (SL, CL, Some (layout dofs n)) /\
    consistent (state_decl dofs n) SL /\ consistent (control_decl dofs n) CL.
Proof.
  intros Hz. unfold setVariablesStructure, setFootVariables.
  pose proof (state_decl_nodup dofs n) as NS. pose proof (control_decl_nodup dofs n) as NC.
  unfold state_decl, control_decl in NS, NC.
  assert (HVD : forall o, range_valid zok (Some (o, dofs)) = true).
  { intros o. unfold range_valid. destruct zok; auto. cbn [orb]. destruct Hz as [|Hz]; [discriminate|]. now apply Nat.ltb_lt. }
  change (lab_clear S0) with lab_init. change (lab_clear C0) with lab_init.
  destruct (foot_loop_ok zok "Left" (seq 0 n) 0 [] [] lab_init lab_init empty_fr) as (S1 & D1 & E1 & CS & CD).
  { now rewrite seq_length. } { apply consistent_init. } { apply consistent_init. }
  { cbn [app]. rewrite map_app in NS. apply NoDup_app_l in NS. exact NS. }
  { cbn [app]. rewrite map_app in NC. apply NoDup_app_l in NC. exact NC. }
  rewrite E1; clear E1. cbn [app] in CS, CD.
  destruct (foot_loop_ok zok "Right" (seq 0 n) 0 _ _ S1 D1 empty_fr (eq_sym (f_equal (seq 0) (seq_length n 0))) CS CD) as (S2 & D2 & E2 & CS2 & CD2).
  { rewrite app_assoc, map_app in NS. apply NoDup_app_l in NS. exact NS. }
  { rewrite app_assoc, map_app in NC. apply NoDup_app_l in NC. exact NC. }
  rewrite E2; clear E2. clear CS CD. rewrite app_assoc in NS, NC.
  add_step CS2 NS. add_step CS2 NS. add_step CS2 NS. add_step CS2 NS.
  match type of NS with NoDup (map fst (?A ++ (?n, ?d) :: ?B)) =>
    destruct (add_range_new A _ n d CS2 (fresh_after A n d B NS)) as (L' & E & C');
    rewrite E; clear E; rewrite HVD; cbn [negb] end.
  add_step CD2 NC. add_step CD2 NC.
  match type of NC with NoDup (map fst (?A ++ (?n, ?d) :: ?B)) =>
    destruct (add_range_new A _ n d CD2 (fresh_after A n d B NC)) as (M' & E & D');
    rewrite E; clear E; rewrite HVD; cbn [negb] end.
  exists L', M'. split; [|split].
  - f_equal. f_equal.
    assert (SS : lab_size L' = 12 * n + 16 + dofs).
    { destruct C' as (_ & -> & _). rewrite !total_app, !total_fstate, !seq_length. unfold total. cbn [map list_sum fold_right snd]. lia. }
    assert (SC : lab_size M' = 12 * n + 7 + dofs).
    { destruct D' as (_ & -> & _). rewrite !total_app, !total_fcontrol, !seq_length. unfold total. cbn [map list_sum fold_right snd]. lia. }
    rewrite SS, SC. rewrite !total_app, !total_fstate, !total_fcontrol, !seq_length.
    unfold total. cbn [map list_sum fold_right snd].
    unfold layout, foot_layout. cbn [positionPoints forcePoints velocityControlPoints forceControlPoints empty_fr app].
    assert (EX : forall (f g : nat -> range), (forall i, f i = g i) -> map f (seq 0 n) = map g (seq 0 n)) by (intros; now apply map_ext).
    f_equal; try (f_equal; f_equal; lia); (f_equal; apply EX; intros i; f_equal; f_equal; lia).
  - unfold state_decl. rewrite <- !app_assoc in C'. cbn [app] in C'. exact C'.
  - unfold control_decl. rewrite <- !app_assoc in D'. cbn [app] in D'. exact D'.
Qed.

Lemma setVariablesStructure_no_joints n S0 C0 :
  snd (setVariablesStructure false 0 n S0 C0) = None.
Proof.
  unfold setVariablesStructure.
  destruct (setFootVariables false "Left" n (lab_clear S0) (lab_clear C0)) as [[[S1 C1] ?] ?].
  destruct (setFootVariables false "Right" n S1 C1) as [[[S2 C2] ?] ?].
  repeat match goal with |- context [addLabelAndGetIndexRange ?L ?a ?d] =>
    let r := fresh "r" in let E := fresh "E" in
    destruct (addLabelAndGetIndexRange L a d) as [? r] eqn:E;
    try (destruct (range_valid false r) eqn:?; cbn [negb]; [|reflexivity]) end.
  exfalso.
  match goal with E : addLabelAndGetIndexRange _ "JointsPosition" 0 = (_, ?r), H : range_valid false ?r = true |- _ =>
    unfold addLabelAndGetIndexRange, add_body in E;
    destruct (map_insert _ _ _) as [? []]; injection E as <- <-; cbn in H; discriminate end.
Qed.

Lemma setVariablesStructure_some zok dofs n S0 C0 SL CL vr :
  setVariablesStructure zok dofs n S0 C0 = (SL, CL, Some vr) ->
  vr = layout dofs n /\ consistent (state_decl dofs n) SL /\ consistent (control_decl dofs n) CL.
Proof.
  intros H. assert (Hz : zok = true \/ 0 < dofs).
  { destruct zok; auto. destruct dofs; [|right; lia].
    pose proof (setVariablesStructure_no_joints n S0 C0) as E. rewrite H in E. discriminate. }
  destruct (setVariablesStructure_ok zok dofs n S0 C0 Hz) as (SL' & CL' & E & H1 & H2).
  rewrite E in H. injection H as <- <- <-. auto.
Qed.
