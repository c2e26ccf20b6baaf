(** What the derivatives of SymModel.v are worth: a column of the derivative is right as soon as those of the kinematic
    expressions it uses are, and it can be derived again. *)
From Coq Require Import Reals List Arith Lia Lra Bool FunctionalExtensionality.
From Coquelicot Require Import Coquelicot.
From Verif Require Import Spec PartialLib SpecRigid SpecDerivatives RigidCalc KinModel KinLib SymModel.
Import ListNotations.
Local Open Scope R_scope.

Lemma at_self rho v j : at_entry rho v j (rho v j) = rho.
Proof.
  unfold at_entry. rewrite vset_same. apply functional_extensionality. intros u. unfold env_set. destruct (Nat.eqb_spec u v); congruence.
Qed.

Section Sym.
Variable dofs : nat.
Variable du : kin -> nat -> nat -> option formula.
Variable ue : nat -> env -> mat.
Notation VD := (vdim dofs).
Notation FR := (frows VD urows (ucols dofs)).
Notation FC := (fcols VD urows (ucols dofs)).
Notation M := (meaning VD urows (ucols dofs) ue).
Notation WF := (well_formed VD urows (ucols dofs) ue).
Notation none := (users (fun _ => false)).
Notation DC := (dcol dofs du).
Notation SC := (scalar_size dofs).

(** [X] is the derivative of column c of F with respect to v, in the state rho. *)
Definition has_deriv (rho : env) (F : formula) (c v : nat) (X : formula) : Prop :=
  FR X = FR F /\ FC X = VD v /\ WF X /\
  forall i j, (i < FR F)%nat -> (j < VD v)%nat -> is_derive (fun x => M (at_entry rho v j x) F i c) (rho v j) (M rho X i j).
Definition smooth (rho : env) (v : nat) (F : formula) (c : nat) : Prop :=
  forall i j, (i < FR F)%nat -> (j < VD v)%nat -> ex_derive (fun x => M (at_entry rho v j x) F i c) (rho v j).
Definition shaped (A : formula) (l v : nat) : Prop :=
  exists D, DC A l v = Some D /\ FR D = FR A /\ FC D = VD v /\ WF D.
Definition zero (rho : env) (v : nat) (B : formula) (l c : nat) : Prop := forall j x, M (at_entry rho v j x) B l c = 0.
Fixpoint ready (rho : env) (v : nat) (F : formula) (c : nat) {struct F} : Prop :=
  if none F then smooth rho v F c
  else match F with
  | FUser n => exists X, du (decode n) c v = Some X /\ has_deriv rho F c v X
  | FAdd A B | FSub A B => ready rho v A c /\ ready rho v B c
  | FNeg A => ready rho v A c
  | FSkew A => ready rho v A 0
  | FVee A => ready rho v A 0 /\ ready rho v A 1 /\ ready rho v A 2
  | FTransp A => (0 < FC A)%nat /\ forall j, (j < FC A)%nat -> ready rho v A j
  | FHorz A B => if (c <? FC A)%nat then ready rho v A c else ready rho v B (c - FC A)
  | FMul A B =>
      if SC A then ready rho v A 0 /\ ready rho v B c
      else if SC B then ready rho v A c /\ ready rho v B 0
      else ready rho v B c /\ forall l, (l < FC A)%nat -> ready rho v A l \/ (zero rho v B l c /\ shaped A l v)
  | FBlock A _ j0 _ _ => ready rho v A (j0 + c)
  | FRow A _ => ready rho v A c
  | FCol A k | FElem A _ k => ready rho v A k
  | _ => False
  end.

(** ** Products *)
Lemma sc_true A : SC A = true -> FR A = 1%nat /\ FC A = 1%nat.
Proof. unfold scalar_size. rewrite andb_true_iff, !Nat.eqb_eq. auto. Qed.
Lemma mul_scal A B : SC A = true -> FR (FMul A B) = FR B /\ FC (FMul A B) = FC B /\ forall rho i c, M rho (FMul A B) i c = M rho A 0%nat 0%nat * M rho B i c.
Proof.
  unfold scalar_size. intros S. rewrite frows_mul, fcols_mul, S. split; [reflexivity|]. split; [reflexivity|].
  intros rho i c. rewrite meaning_mul, S. reflexivity.
Qed.
Lemma mul_mat A B : SC A = false -> SC B = false -> FR (FMul A B) = FR A /\ FC (FMul A B) = FC B /\ forall rho i c, M rho (FMul A B) i c = sumn (FC A) (fun l => M rho A i l * M rho B l c).
Proof.
  unfold scalar_size. intros S S'. rewrite frows_mul, fcols_mul, S, S'. split; [reflexivity|]. split; [reflexivity|].
  intros rho i c. rewrite meaning_mul, S, S'. reflexivity.
Qed.
Lemma mul_scal_r A B : SC A = false -> SC B = true -> FR (FMul A B) = FR A /\ FC (FMul A B) = FC A /\ forall rho i c, M rho (FMul A B) i c = M rho A i c * M rho B 0%nat 0%nat.
Proof.
  unfold scalar_size. intros S S'. rewrite frows_mul, fcols_mul, S, S'. split; [reflexivity|]. split; [reflexivity|].
  intros rho i c. rewrite meaning_mul, S, S'. reflexivity.
Qed.
Lemma wf_mat A B : SC A = false -> SC B = false -> WF (FMul A B) -> WF A /\ WF B /\ FC A = FR B.
Proof.
  unfold scalar_size. intros S S' (W & W' & [[E E']|[[E E']|E]]); [|rewrite E, E' in S'; discriminate|auto]. rewrite E, E' in S. discriminate.
Qed.
Lemma wf_mul_intro A B : WF A -> WF B -> FC A = FR B -> WF (FMul A B) /\ FR (FMul A B) = FR A /\ FC (FMul A B) = FC B /\
  forall rho i c, (i < FR A)%nat -> (c < FC B)%nat -> M rho (FMul A B) i c = sumn (FC A) (fun l => M rho A i l * M rho B l c).
Proof.
  intros WA WB E. pose proof (fun rho => den_mul VD urows (ucols dofs) ue rho A B (FR A) (FC A) (FC B) (M rho A) (M rho B)
    (conj WA (conj eq_refl (conj eq_refl (fun _ _ _ _ => eq_refl)))) (conj WB (conj (eq_sym E) (conj eq_refl (fun _ _ _ _ => eq_refl))))) as H.
  destruct (H (fun _ _ => 0)) as (W & R0 & C0 & _). split; [exact W|]. split; [exact R0|]. split; [exact C0|]. intros rho i c Hi Hc. destruct (H rho) as (_ & _ & _ & V). apply V; auto.
Qed.

Definition dval (rho : env) (v : nat) (A : formula) (l i j : nat) : R := match DC A l v with Some D => M rho D i j | None => 0 end.
Lemma fold_spec A B c v n S : WF B -> (c < FC B)%nat -> FC A = FR B -> (forall l, (l < FC A)%nat -> shaped A l v) ->
  (n <= FC A)%nat -> FR S = FR A -> FC S = VD v -> WF S -> exists X,
  fold_left (fun acc l => both FAdd acc (option_map (FMul (FElem B l c)) (DC A l v))) (seq 0 n) (Some S) = Some X /\
  FR X = FR A /\ FC X = VD v /\ WF X /\
  forall rho i j, (i < FR A)%nat -> (j < VD v)%nat -> M rho X i j = M rho S i j + sumn n (fun l => M rho B l c * dval rho v A l i j).
Proof.
  intros WB Hc EK HA Hn RS CS WS. induction n as [|n IH].
  - exists S. split; [reflexivity|]. split; [auto|]. split; [auto|]. split; [auto|]. intros. cbn. ring.
  - destruct (IH ltac:(lia)) as (X & E & RX & CX & WX & V). destruct (HA n ltac:(lia)) as (D & ED & RD & CD & WD).
    rewrite seq_S, fold_left_app. cbn [fold_left Nat.add]. rewrite E, ED. cbn [option_map both].
    assert (SE : SC (FElem B n c) = true) by reflexivity. destruct (mul_scal (FElem B n c) D SE) as (R1 & C1 & V1).
    exists (FAdd X (FMul (FElem B n c) D)). split; [reflexivity|]. split; [exact RX|]. split; [exact CX|]. split.
    + cbn [well_formed]. rewrite R1, C1, RX, CX, RD, CD. split; [exact WX|]. split; [|auto]. split; [split; [exact WB|lia]|]. split; [exact WD|]. left. split; reflexivity.
    + intros rho i j Hi Hj. change (M rho (FAdd X (FMul (FElem B n c) D)) i j) with (M rho X i j + M rho (FMul (FElem B n c) D) i j). cbn [sumn]. rewrite V, V1 by auto. change (M rho (FElem B n c) 0%nat 0%nat) with (M rho B n c).
      assert (EU : dval rho v A n i j = M rho D i j) by (unfold dval; rewrite ED; reflexivity). rewrite EU. ring.
Qed.

Lemma deriv_free_case rho v F c : WF F -> (c < FC F)%nat -> smooth rho v F c -> has_deriv rho F c v (FDeriv F c v).
Proof.
  intros W Hc S. split; [reflexivity|]. split; [reflexivity|]. split; [split; auto|]. intros i j Hi Hj. cbn [meaning]. apply Derive_correct. apply S; auto.
Qed.
Lemma skew_entry (f : nat -> R) i c : (i < 3)%nat -> (c < 3)%nat ->
  match i, c with
  | 0%nat, 1%nat => - f 2%nat | 0%nat, 2%nat => f 1%nat
  | 1%nat, 0%nat => f 2%nat | 1%nat, 2%nat => - f 0%nat
  | 2%nat, 0%nat => - f 1%nat | 2%nat, 1%nat => f 0%nat
  | _, _ => 0
  end = sumn 3 (fun k => skew_column c i k * f k).
Proof. intros Hi Hc. destruct i as [|[|[|]]], c as [|[|[|]]]; try lia; cbn [sumn skew_column]; ring. Qed.
(** The rows of the derivative of a transposed matrix. *)
Lemma rows_spec A v c l : (forall j, In j l -> shaped A j v) -> (c < FR A)%nat -> exists Y,
  all_some (map (fun j => option_map (fun X => FRow X c) (DC A j v)) l) = Some Y /\ length Y = length l /\
  (forall X, In X Y -> WF X /\ FR X = 1%nat /\ FC X = VD v) /\
  forall n j, nth_error l n = Some j -> exists D, DC A j v = Some D /\ nth_error Y n = Some (FRow D c).
Proof.
  intros H Hc. induction l as [|j l IH].
  - exists []. split; [reflexivity|]. split; [reflexivity|]. split; [intros X []|]. intros n j E. destruct n; discriminate.
  - destruct (IH (fun k I => H k (or_intror I))) as (Y & E & L & W & N). destruct (H j (or_introl eq_refl)) as (D & ED & RD & CD & WD).
    exists (FRow D c :: Y). cbn [map all_some]. rewrite ED, E. cbn [option_map]. split; [reflexivity|]. split; [cbn [length]; congruence|]. split.
    + intros X [<-|I]; [|auto]. split; [split; [exact WD|lia]|]. split; [reflexivity|exact CD].
    + intros n k En. destruct n as [|n]; [injection En as <-; exists D; auto|]. apply N. exact En.
Qed.
(** The derivative exists and is right. *)
Lemma dcol_sound rho v F c : WF F -> (c < FC F)%nat -> ready rho v F c -> exists X, DC F c v = Some X /\ has_deriv rho F c v X.
Proof.
  revert c. induction F; intros cc W Hc RD;
    (match goal with |- context [DC ?G] => destruct (none G) eqn:NU end;
     [eexists; split; [cbn [dcol]; rewrite NU; reflexivity|]; apply deriv_free_case; auto; revert RD; cbn [ready]; rewrite NU; auto|]);
    cbn [ready] in RD; rewrite NU in RD; try contradiction; cbn [dcol]; rewrite NU.
  - apply RD.
  - destruct W as (W1 & W2 & ER & EC). destruct RD as [RA RB]. change (FC (FAdd F1 F2)) with (FC F1) in Hc.
    destruct (IHF1 cc W1 Hc RA) as (X & EX & RX & CX & WX & DX). destruct (IHF2 cc W2 ltac:(lia) RB) as (Y & EY & RY & CY & WY & DY).
    exists (FAdd X Y). rewrite EX, EY. split; [reflexivity|]. split; [exact RX|]. split; [exact CX|]. split; [cbn; rewrite RX, RY, CX, CY; auto|].
    intros i j Hi Hj. change (FR (FAdd F1 F2)) with (FR F1) in Hi. cbn [meaning]. apply D_plus; [apply DX|apply DY]; auto. lia.
  - destruct W as (W1 & W2 & ER & EC). destruct RD as [RA RB]. change (FC (FSub F1 F2)) with (FC F1) in Hc.
    destruct (IHF1 cc W1 Hc RA) as (X & EX & RX & CX & WX & DX). destruct (IHF2 cc W2 ltac:(lia) RB) as (Y & EY & RY & CY & WY & DY).
    exists (FSub X Y). rewrite EX, EY. split; [reflexivity|]. split; [exact RX|]. split; [exact CX|]. split; [cbn; rewrite RX, RY, CX, CY; auto|].
    intros i j Hi Hj. change (FR (FSub F1 F2)) with (FR F1) in Hi. cbn [meaning]. apply D_minus; [apply DX|apply DY]; auto. lia.
  - change (FC (FNeg F)) with (FC F) in Hc. destruct (IHF cc W Hc RD) as (X & EX & RX & CX & WX & DX). rewrite EX. cbn [option_map].
    exists (FNeg X). split; [reflexivity|]. split; [exact RX|]. split; [exact CX|]. split; [exact WX|].
    intros i j Hi Hj. change (FR (FNeg F)) with (FR F) in Hi. cbn [meaning].
    eapply is_derive_ext; [intros t; apply Rminus_0_l|]. eapply D_eq; [apply D_minus; [exact (D_const 0 _)|apply DX; auto]|ring].
  - destruct (SC F1) eqn:S; [|destruct (SC F2) eqn:S'].
    + destruct RD as (RA & RB). destruct (mul_scal F1 F2 S) as (R0 & C0 & V0). rewrite C0 in Hc. destruct W as (W1 & W2 & _). destruct (sc_true _ S) as [RS CS].
      destruct (IHF2 cc W2 Hc RB) as (X & EX & RX & CX & WX & DX). destruct (IHF1 0%nat W1 ltac:(lia) RA) as (Y & EY & RY & CY & WY & DY).
      rewrite EX, EY. cbn [option_map both]. destruct (mul_scal F1 X S) as (R1 & C1 & V1).
      destruct (wf_mul_intro (FCol F2 cc) Y ltac:(split; auto) WY ltac:(change (FC (FCol F2 cc)) with 1%nat; lia)) as (W3 & R3 & C3 & V3).
      eexists. split; [reflexivity|]. split; [change (FR (FMul F1 X) = FR (FMul F1 F2)); congruence|]. split; [change (FC (FMul F1 X) = VD v); congruence|]. split.
      * cbn [well_formed]. rewrite R1, C1, R3, C3. split; [split; [auto|]; split; [auto|]; left; auto|]. split; [exact W3|]. split; [exact RX|congruence].
      * intros i j Hi Hj. rewrite R0 in Hi. apply is_derive_ext with (f := fun x => M (at_entry rho v j x) F1 0%nat 0%nat * M (at_entry rho v j x) F2 i cc); [intros t; symmetry; apply V0|].
        eapply D_eq; [apply D_mult; [apply DY|apply DX]; auto; lia|]. cbv beta. rewrite at_self.
        change (M rho (FAdd (FMul F1 X) (FMul (FCol F2 cc) Y)) i j) with (M rho (FMul F1 X) i j + M rho (FMul (FCol F2 cc) Y) i j). rewrite V1, V3 by (auto; lia).
        change (FC (FCol F2 cc)) with 1%nat. cbn [sumn]. change (M rho (FCol F2 cc) i 0%nat) with (M rho F2 i cc). ring.
    + destruct RD as (RA & RB). destruct (mul_scal_r F1 F2 S S') as (R0 & C0 & V0). rewrite C0 in Hc. destruct W as (W1 & W2 & _). destruct (sc_true _ S') as [RS CS].
      destruct (IHF1 cc W1 Hc RA) as (X & EX & RX & CX & WX & DX). destruct (IHF2 0%nat W2 ltac:(lia) RB) as (Y & EY & RY & CY & WY & DY).
      rewrite EX, EY. cbn [option_map both]. destruct (mul_scal F2 X S') as (R1 & C1 & V1).
      destruct (wf_mul_intro (FCol F1 cc) Y ltac:(split; auto) WY ltac:(change (FC (FCol F1 cc)) with 1%nat; lia)) as (W3 & R3 & C3 & V3).
      eexists. split; [reflexivity|]. split; [change (FR (FMul F2 X) = FR (FMul F1 F2)); congruence|]. split; [change (FC (FMul F2 X) = VD v); congruence|]. split.
      * cbn [well_formed]. rewrite R1, C1, R3, C3. split; [split; [auto|]; split; [auto|]; left; auto|]. split; [exact W3|]. split; [exact RX|congruence].
      * intros i j Hi Hj. rewrite R0 in Hi. apply is_derive_ext with (f := fun x => M (at_entry rho v j x) F1 i cc * M (at_entry rho v j x) F2 0%nat 0%nat); [intros t; symmetry; apply V0|].
        eapply D_eq; [apply D_mult; [apply DX|apply DY]; auto; lia|]. cbv beta. rewrite at_self.
        change (M rho (FAdd (FMul F2 X) (FMul (FCol F1 cc) Y)) i j) with (M rho (FMul F2 X) i j + M rho (FMul (FCol F1 cc) Y) i j). rewrite V1, V3 by (auto; lia).
        change (FC (FCol F1 cc)) with 1%nat. cbn [sumn]. change (M rho (FCol F1 cc) i 0%nat) with (M rho F1 i cc). ring.
    + destruct RD as (RB & RA). destruct (mul_mat F1 F2 S S') as (R0 & C0 & V0). rewrite C0 in Hc. destruct (wf_mat _ _ S S' W) as (W1 & W2 & EK).
      destruct (IHF2 cc W2 Hc RB) as (X & EX & RX & CX & WX & DX).
      assert (HA : forall l, (l < FC F1)%nat -> shaped F1 l v).
      { intros l Hl. destruct (RA l Hl) as [RL|[_ SH]]; [|exact SH]. destruct (IHF1 l W1 Hl RL) as (D & ED & RD & CD & WD & _). exists D. auto. }
      rewrite EX. cbn [option_map]. destruct (wf_mul_intro F1 X W1 WX ltac:(lia)) as (W3 & R3 & C3 & V3). rewrite CX in C3.
      destruct (fold_spec F1 F2 cc v (FC F1) (FMul F1 X) W2 Hc EK HA (Nat.le_refl _) R3 C3 W3) as (Z & EZ & RZ & CZ & WZ & VZ).
      exists Z. split; [exact EZ|]. split; [congruence|]. split; [exact CZ|]. split; [exact WZ|].
      intros i j Hi Hj. rewrite R0 in Hi. apply is_derive_ext with (f := fun x => sumn (FC F1) (fun l => M (at_entry rho v j x) F1 i l * M (at_entry rho v j x) F2 l cc)); [intros t; symmetry; apply V0|].
      eapply D_eq; [apply (D_sumn (FC F1) (fun l x => M (at_entry rho v j x) F1 i l * M (at_entry rho v j x) F2 l cc) (rho v j)
         (fun l => dval rho v F1 l i j * M rho F2 l cc + M rho F1 i l * M rho X l j))|].
      * intros l Hl. destruct (RA l Hl) as [RL|[ZL SH]].
        -- destruct (IHF1 l W1 Hl RL) as (D & ED & RD & CD & WD & DD). unfold dval. rewrite ED.
           eapply D_eq; [apply D_mult; [apply DD|apply DX]; auto; lia|]. cbv beta. rewrite at_self. reflexivity.
        -- apply is_derive_ext with (f := fun _ : R => 0); [intros t; cbv beta; rewrite ZL; symmetry; apply Rmult_0_r|].
           assert (E0 : M rho F2 l cc = 0) by (rewrite <- (at_self rho v j); apply ZL).
           assert (E1 : M rho X l j = 0).
           { apply (D_unique (fun x => M (at_entry rho v j x) F2 l cc) (rho v j)); [apply DX; auto; lia|].
             apply is_derive_ext with (f := fun _ : R => 0); [intros t; rewrite ZL; reflexivity|apply D_const]. }
           rewrite E0, E1. eapply D_eq; [apply D_const|ring].
      * rewrite VZ, V3 by (auto; lia). rewrite <- sumn_plus. apply sumn_ext. intros l Hl. ring.
  - destruct W as (W & R3 & C1). change (FC (FSkew F)) with 3%nat in Hc. destruct (IHF 0%nat W ltac:(lia) RD) as (X & EX & RX & CX & WX & DX). rewrite EX. cbn [option_map].
    destruct (wf_mul_intro (FConst 3 3 (skew_column cc)) X Logic.I WX ltac:(change (FC (FConst 3 3 (skew_column cc))) with 3%nat; lia)) as (W3 & R4 & C3 & V3).
    eexists. split; [reflexivity|]. split; [exact R4|]. split; [congruence|]. split; [exact W3|].
    intros i j Hi Hj. change (FR (FSkew F)) with 3%nat in Hi. rewrite V3 by (auto; lia). change (FC (FConst 3 3 (skew_column cc))) with 3%nat.
    apply is_derive_ext with (f := fun x => sumn 3 (fun k => skew_column cc i k * M (at_entry rho v j x) F k 0%nat)).
    { intros t. symmetry. exact (skew_entry (fun k => M (at_entry rho v j t) F k 0%nat) i cc Hi Hc). }
    apply (D_sumn 3 (fun k x => skew_column cc i k * M (at_entry rho v j x) F k 0%nat) (rho v j) (fun k => skew_column cc i k * M rho X k j)).
    intros k Hk. eapply D_eq; [apply D_mult; [exact (D_const (skew_column cc i k) _)|apply DX; auto; lia]|]. cbv beta. ring.
  - destruct W as (W & R3 & C3). destruct RD as (RD0 & RD1 & RD2). change (FC (FVee F)) with 1%nat in Hc. assert (cc = 0%nat) as -> by lia.
    destruct (IHF 0%nat W ltac:(lia) RD0) as (X0 & E0 & R0 & C0 & W0 & D0). destruct (IHF 1%nat W ltac:(lia) RD1) as (X1 & E1 & R1 & C1 & W1 & D1).
    destruct (IHF 2%nat W ltac:(lia) RD2) as (X2 & E2 & R2 & C2 & W2 & D2). cbn [map all_some fst snd]. rewrite E0, E1, E2. cbn [option_map].
    eexists. split; [reflexivity|]. split; [reflexivity|]. split; [exact C1|]. split.
    + split; [discriminate|]. split.
      * split; [split; [exact W1|lia]|]. split; [split; [exact W2|lia]|]. split; [split; [exact W0|lia]|]. exact Logic.I.
      * apply List.Forall_forall. intros X [<-|[<-|[<-|[]]]]; (split; [reflexivity|]).
        -- reflexivity.
        -- change (FC X2 = FC X1). congruence.
        -- change (FC X0 = FC X1). congruence.
    + intros i j Hi Hj. change (FR (FVee F)) with 3%nat in Hi. cbn [meaning map nth]. destruct i as [|[|[|i]]]; [apply D1|apply D2|apply D0|]; lia || exact Hj || (exfalso; lia).
  - destruct RD as [P RD]. change (FC (FTransp F)) with (FR F) in Hc.
    destruct (rows_spec F v cc (seq 0 (FC F))) as (Y & EY & LY & WY & NY); [|exact Hc|].
    { intros j I. apply in_seq in I. destruct (IHF j W ltac:(lia) (RD j ltac:(lia))) as (D & ED & RD' & CD & WD & _). exists D. auto. }
    rewrite seq_length in LY. rewrite EY. cbn [option_map]. exists (FByRows Y). split; [reflexivity|]. split; [exact LY|].
    assert (CY : FC (FByRows Y) = VD v). { destruct Y as [|y Y]; [cbn in LY; lia|]. apply (WY y). left. reflexivity. }
    split; [exact CY|]. split.
    + split; [destruct Y; [cbn in LY; lia|discriminate]|]. split.
      * clear - WY. induction Y as [|y Y IH]; [exact Logic.I|]. split; [apply WY; left; reflexivity|]. apply IH. intros X I. apply WY. right. exact I.
      * apply List.Forall_forall. intros X I. destruct (WY X I) as (_ & RX & CX). split; [exact RX|]. rewrite CX. symmetry. exact CY.
    + intros i j Hi Hj. change (FR (FTransp F)) with (FC F) in Hi. destruct (NY i i) as (D & ED & ND).
      { rewrite (nth_error_nth' _ 0%nat) by (rewrite seq_length; exact Hi). rewrite seq_nth by exact Hi. reflexivity. }
      destruct (IHF i W Hi (RD i Hi)) as (D' & ED' & RD' & CD & WD & DD). rewrite ED in ED'. injection ED' as <-.
      cbn [meaning]. erewrite nth_error_nth by (rewrite nth_error_map, ND; reflexivity). apply DD; auto.
  - destruct W as [W Hi0]. destruct (IHF cc W Hc RD) as (X & EX & RX & CX & WX & DX). rewrite EX. cbn [option_map]. eexists. split; [reflexivity|].
    split; [reflexivity|]. split; [exact CX|]. split; [cbn; split; [exact WX|lia]|]. intros i' j' Hi' Hj'. cbn [meaning]. apply DX; auto.
  - destruct W as [W Hi0]. cbn [fcols] in Hc. replace cc with 0%nat in * by lia. destruct (IHF j W Hi0 RD) as (X & EX & RX & CX & WX & DX). rewrite EX. exists X. split; [reflexivity|].
    split; [exact RX|]. split; [exact CX|]. split; [exact WX|]. intros i' j' Hi' Hj'. cbn [meaning]. apply DX; auto.
  - destruct W as (W & Hi0 & Hj0). cbn [fcols] in Hc. destruct (IHF j W Hj0 RD) as (X & EX & RX & CX & WX & DX). rewrite EX. cbn [option_map]. eexists. split; [reflexivity|].
    split; [reflexivity|]. split; [exact CX|]. split; [cbn; split; [exact WX|lia]|]. intros i' j' Hi' Hj'. cbn [meaning]. apply DX; auto.
  - destruct W as (W & Hi0 & Hj0). cbn [fcols] in Hc. destruct (IHF (j + cc)%nat W ltac:(lia) RD) as (X & EX & RX & CX & WX & DX). rewrite EX. cbn [option_map]. eexists. split; [reflexivity|].
    split; [reflexivity|]. split; [reflexivity|]. split; [cbn; split; [exact WX|]; split; lia|]. intros i' j' Hi' Hj'. cbn [meaning frows] in *. apply DX; [lia|exact Hj'].
  - destruct W as (W1 & W2 & ER). change (FC (FHorz F1 F2)) with (FC F1 + FC F2)%nat in Hc. destruct (Nat.ltb_spec cc (FC F1)) as [L|L].
    + destruct (IHF1 cc W1 L RD) as (X & EX & RX & CX & WX & DX). exists X. split; [exact EX|]. split; [exact RX|]. split; [exact CX|]. split; [exact WX|].
      intros i j Hi Hj. change (FR (FHorz F1 F2)) with (FR F1) in Hi. cbn [meaning]. rewrite (proj2 (Nat.ltb_lt _ _) L). apply DX; auto.
    + destruct (IHF2 (cc - FC F1)%nat W2 ltac:(lia) RD) as (X & EX & RX & CX & WX & DX). exists X. split; [exact EX|]. split; [change (FR X = FR F1); lia|]. split; [exact CX|]. split; [exact WX|].
      intros i j Hi Hj. change (FR (FHorz F1 F2)) with (FR F1) in Hi. cbn [meaning]. rewrite (proj2 (Nat.ltb_ge _ _) L). apply DX; auto. lia.
Qed.
Lemma ready_smooth rho v F c : WF F -> (c < FC F)%nat -> ready rho v F c -> smooth rho v F c.
Proof. intros W Hc RD i j Hi Hj. destruct (dcol_sound rho v F c W Hc RD) as (X & _ & _ & _ & _ & D). eexists. apply D; auto. Qed.
Lemma ready_shaped rho v F c : WF F -> (c < FC F)%nat -> ready rho v F c -> shaped F c v.
Proof. intros W Hc RD. destruct (dcol_sound rho v F c W Hc RD) as (X & E & R0 & C0 & WX & D). exists X. auto. Qed.

(** ** Building *)
Lemma none_ready rho v F c : none F = true -> smooth rho v F c -> ready rho v F c.
Proof. intros N S. destruct F; cbn [ready]; rewrite N; exact S. Qed.
Lemma ready_add rho v A B c : WF (FAdd A B) -> (c < FC A)%nat -> ready rho v A c -> ready rho v B c -> ready rho v (FAdd A B) c.
Proof.
  intros (WA & WB & ER & EC) Hc RA RB. cbn [ready]. destruct (none (FAdd A B)) eqn:NU; [|auto].
  intros i j Hi Hj. cbn [meaning]. change (FR (FAdd A B)) with (FR A) in Hi.
  destruct (ready_smooth rho v A c WA Hc RA i j Hi Hj) as [a Ha]. destruct (ready_smooth rho v B c WB ltac:(lia) RB i j ltac:(lia) Hj) as [b Hb]. eexists. apply D_plus; eauto.
Qed.
Lemma ready_sub rho v A B c : WF (FSub A B) -> (c < FC A)%nat -> ready rho v A c -> ready rho v B c -> ready rho v (FSub A B) c.
Proof.
  intros (WA & WB & ER & EC) Hc RA RB. cbn [ready]. destruct (none (FSub A B)) eqn:NU; [|auto].
  intros i j Hi Hj. cbn [meaning]. change (FR (FSub A B)) with (FR A) in Hi.
  destruct (ready_smooth rho v A c WA Hc RA i j Hi Hj) as [a Ha]. destruct (ready_smooth rho v B c WB ltac:(lia) RB i j ltac:(lia) Hj) as [b Hb]. eexists. apply D_minus; eauto.
Qed.
Lemma ready_neg rho v A c : WF A -> (c < FC A)%nat -> ready rho v A c -> ready rho v (FNeg A) c.
Proof.
  intros W Hc RA. cbn [ready]. destruct (none (FNeg A)) eqn:NU; [|auto]. intros i j Hi Hj. cbn [meaning]. apply (ex_derive_opp (fun x => M (at_entry rho v j x) A i c)). apply (ready_smooth rho v A c W Hc RA); auto.
Qed.
Lemma ready_skew rho v A c : WF (FSkew A) -> (c < 3)%nat -> ready rho v A 0 -> ready rho v (FSkew A) c.
Proof.
  intros (W & R3 & C1) Hc RA. cbn [ready]. destruct (none (FSkew A)) eqn:NU; [|auto]. intros i j Hi Hj. change (FR (FSkew A)) with 3%nat in Hi.
  pose proof (fun k Hk => ready_smooth rho v A 0 W ltac:(lia) RA k j Hk Hj) as SM. rewrite R3 in SM.
  eapply ex_derive_ext; [intros t; symmetry; exact (skew_entry (fun k => M (at_entry rho v j t) A k 0%nat) i c Hi Hc)|].
  eexists. apply (D_sumn 3 (fun k x => skew_column c i k * M (at_entry rho v j x) A k 0%nat) (rho v j) (fun k => skew_column c i k * Derive (fun x => M (at_entry rho v j x) A k 0%nat) (rho v j))).
  intros k Hk. cbv beta. pose proof (Derive_correct _ _ (SM k Hk)) as DK. eapply D_eq; [exact (D_mult _ _ _ _ _ (D_const (skew_column c i k) _) DK)|]. cbv beta. rewrite Rmult_0_l. apply Rplus_0_l.
Qed.
Lemma ready_vee rho v A : WF (FVee A) -> (forall c, (c < 3)%nat -> ready rho v A c) -> ready rho v (FVee A) 0.
Proof.
  intros (W & R3 & C3) RA. cbn [ready]. destruct (none (FVee A)) eqn:NU; [|split; [|split]; apply RA; lia]. intros i j Hi Hj. change (FR (FVee A)) with 3%nat in Hi. cbn [meaning].
  destruct i as [|[|[|i]]]; [apply (ready_smooth rho v A 1 W ltac:(lia) (RA 1%nat ltac:(lia)))|apply (ready_smooth rho v A 2 W ltac:(lia) (RA 2%nat ltac:(lia)))|apply (ready_smooth rho v A 0 W ltac:(lia) (RA 0%nat ltac:(lia)))|]; lia.
Qed.
Lemma ready_transp rho v A c : WF A -> (0 < FC A)%nat -> (c < FR A)%nat -> (forall j, (j < FC A)%nat -> ready rho v A j) -> ready rho v (FTransp A) c.
Proof.
  intros W P Hc RA. cbn [ready]. destruct (none (FTransp A)) eqn:NU; [|auto]. intros i j Hi Hj. change (FR (FTransp A)) with (FC A) in Hi. cbn [meaning].
  apply (ready_smooth rho v A i W Hi (RA i Hi)); auto.
Qed.
Lemma ready_horz rho v A B c : WF (FHorz A B) -> (c < FC A + FC B)%nat -> ((c < FC A)%nat -> ready rho v A c) -> ((FC A <= c)%nat -> ready rho v B (c - FC A)) -> ready rho v (FHorz A B) c.
Proof.
  intros (WA & WB & ER) Hc RA RB. cbn [ready]. destruct (none (FHorz A B)) eqn:NU; [|destruct (Nat.ltb_spec c (FC A)); auto].
  intros i j Hi Hj. change (FR (FHorz A B)) with (FR A) in Hi. cbn [meaning]. destruct (Nat.ltb_spec c (FC A)) as [L|L].
  - apply (ready_smooth rho v A c WA L (RA L)); auto.
  - apply (ready_smooth rho v B (c - FC A) WB ltac:(lia) (RB L)); auto. lia.
Qed.
Lemma ready_mul rho v A B c : WF A -> WF B -> FC A = FR B -> (c < FC B)%nat -> (forall l, (l < FC A)%nat -> ready rho v A l) -> ready rho v B c -> ready rho v (FMul A B) c.
Proof.
  intros WA WB E Hc RA RB. cbn [ready]. destruct (none (FMul A B)) eqn:NU.
  - destruct (wf_mul_intro A B WA WB E) as (W & R0 & C0 & V0). intros i j Hi Hj. rewrite R0 in Hi.
    eexists. eapply is_derive_ext; [intros t; symmetry; apply V0; auto|].
    apply (D_sumn (FC A) (fun l x => M (at_entry rho v j x) A i l * M (at_entry rho v j x) B l c) (rho v j)
      (fun l => Derive (fun x => M (at_entry rho v j x) A i l) (rho v j) * M (at_entry rho v j (rho v j)) B l c + M (at_entry rho v j (rho v j)) A i l * Derive (fun x => M (at_entry rho v j x) B l c) (rho v j))).
    intros l Hl. apply D_mult; apply Derive_correct; [apply (ready_smooth rho v A l WA Hl (RA l Hl))|apply (ready_smooth rho v B c WB Hc RB)]; auto. lia.
  - destruct (SC A) eqn:S; [|destruct (SC B) eqn:S'].
    + destruct (sc_true _ S). split; [apply RA; lia|exact RB].
    + destruct (sc_true _ S'). split; [apply RA; lia|]. replace 0%nat with c by lia. exact RB.
    + split; [exact RB|]. intros l Hl. left. auto.
Qed.
Lemma ready_scal rho v A B c : WF A -> WF B -> SC A = true -> (c < FC B)%nat -> ready rho v A 0 -> ready rho v B c -> ready rho v (FMul A B) c.
Proof.
  intros WA WB S Hc RA RB. destruct (sc_true _ S). cbn [ready]. destruct (none (FMul A B)) eqn:NU.
  - destruct (mul_scal A B S) as (R0 & C0 & V0). intros i j Hi Hj. rewrite R0 in Hi.
    destruct (ready_smooth rho v A 0 WA ltac:(lia) RA 0%nat j ltac:(lia) Hj) as [a Ha]. destruct (ready_smooth rho v B c WB Hc RB i j Hi Hj) as [b Hb].
    eexists. eapply is_derive_ext; [intros t; symmetry; apply V0|]. apply D_mult; eauto.
  - rewrite S. auto.
Qed.
Lemma ready_row rho v A i c : WF (FRow A i) -> (c < FC A)%nat -> ready rho v A c -> ready rho v (FRow A i) c.
Proof. intros [W Hi] Hc RA. cbn [ready]. destruct (none (FRow A i)) eqn:NU; [|auto]. intros i' j Hi' Hj. cbn [meaning]. apply (ready_smooth rho v A c W Hc RA); auto. Qed.
Lemma ready_col rho v A k c : WF (FCol A k) -> ready rho v A k -> ready rho v (FCol A k) c.
Proof. intros [W Hi] RA. cbn [ready]. destruct (none (FCol A k)) eqn:NU; [|auto]. intros i' j Hi' Hj. cbn [meaning]. apply (ready_smooth rho v A k W Hi RA); auto. Qed.
Lemma ready_elem rho v A i k c : WF (FElem A i k) -> ready rho v A k -> ready rho v (FElem A i k) c.
Proof. intros (W & Hi & Hk) RA. cbn [ready]. destruct (none (FElem A i k)) eqn:NU; [|auto]. intros i' j Hi' Hj. cbn [meaning]. apply (ready_smooth rho v A k W Hk RA); auto. Qed.
Lemma ready_block rho v A i0 j0 n m c : WF (FBlock A i0 j0 n m) -> (c < m)%nat -> ready rho v A (j0 + c) -> ready rho v (FBlock A i0 j0 n m) c.
Proof.
  intros (W & Hi & Hk) Hc RA. cbn [ready]. destruct (none (FBlock A i0 j0 n m)) eqn:NU; [|auto]. intros i' j Hi' Hj. cbn [meaning frows] in *. apply (ready_smooth rho v A (j0 + c) W ltac:(lia) RA); auto; lia.
Qed.
Lemma ready_const rho v F c : none F = true -> (forall i j x, (i < FR F)%nat -> (j < VD v)%nat -> M (at_entry rho v j x) F i c = M rho F i c) -> ready rho v F c.
Proof.
  intros N H. apply none_ready; [exact N|]. intros i j Hi Hj. exists 0. apply is_derive_ext with (f := fun _ : R => M rho F i c); [intros t; rewrite H; auto|apply D_const].
Qed.

(** ** Twice *)
Fixpoint ready2 (rho : env) (v1 v2 : nat) (F : formula) (c : nat) {struct F} : Prop :=
  if none F then forall k, (k < VD v1)%nat -> smooth rho v2 (FDeriv F c v1) k
  else match F with
  | FUser n => forall X, du (decode n) c v1 = Some X -> forall k, (k < VD v1)%nat -> ready rho v2 X k
  | FAdd A B => ready2 rho v1 v2 A c /\ ready2 rho v1 v2 B c
  | FMul A B =>
      if SC A then ready2 rho v1 v2 A 0 /\ ready2 rho v1 v2 B c
      else if SC B then ready2 rho v1 v2 A c /\ ready2 rho v1 v2 B 0
      else ready2 rho v1 v2 B c /\ forall l, (l < FC A)%nat -> ready rho v1 A l /\ ready rho v2 A l /\ ready2 rho v1 v2 A l
  | FBlock A _ j0 _ _ => ready2 rho v1 v2 A (j0 + c)
  | FRow A _ => ready2 rho v1 v2 A c
  | FCol A k | FElem A _ k => ready2 rho v1 v2 A k
  | _ => False
  end.
Lemma fold_ready rho v1 v2 A B c n : WF B -> (c < FC B)%nat -> FC A = FR B -> (n <= FC A)%nat -> (forall l, (l < FC A)%nat -> shaped A l v1) ->
  (forall l D, (l < FC A)%nat -> DC A l v1 = Some D -> forall k, (k < VD v1)%nat -> ready rho v2 D k) -> ready rho v2 B c ->
  forall S X, FR S = FR A -> FC S = VD v1 -> WF S -> (forall k, (k < VD v1)%nat -> ready rho v2 S k) ->
  fold_left (fun acc l => both FAdd acc (option_map (FMul (FElem B l c)) (DC A l v1))) (seq 0 n) (Some S) = Some X -> forall k, (k < VD v1)%nat -> ready rho v2 X k.
Proof.
  intros WB Hc EK. induction n as [|n IH]; intros Hn SH HA RB S X RS CS WS RDS E k Hk; [cbn in E; injection E as <-; auto|].
  rewrite seq_S, fold_left_app in E. cbn [fold_left Nat.add] in E.
  destruct (fold_spec A B c v1 n S WB Hc EK SH ltac:(lia) RS CS WS) as (Y & EY & RY & CY & WY & _).
  rewrite EY in E. destruct (SH n ltac:(lia)) as (D & ED & RD & CD & WD). rewrite ED in E. cbn [option_map both] in E. injection E as <-.
  assert (SE : SC (FElem B n c) = true) by reflexivity. destruct (mul_scal (FElem B n c) D SE) as (R1 & C1 & _).
  assert (WE : WF (FElem B n c)) by (split; [exact WB|lia]).
  assert (WM : WF (FMul (FElem B n c) D)) by (split; [exact WE|]; split; [exact WD|]; left; split; reflexivity).
  apply ready_add.
  - split; [exact WY|]. split; [exact WM|]. split; congruence.
  - lia.
  - apply (IH ltac:(lia) SH HA RB S Y); auto.
  - apply ready_scal; [exact WE|exact WD|reflexivity|lia| |apply (HA n); auto; lia]. apply ready_elem; auto.
Qed.
(** The derivative can be derived. *)
Lemma dcol_ready rho v1 v2 F c X : WF F -> (c < FC F)%nat -> ready rho v1 F c -> ready rho v2 F c -> ready2 rho v1 v2 F c -> DC F c v1 = Some X ->
  forall k, (k < VD v1)%nat -> ready rho v2 X k.
Proof.
  revert c X. induction F; intros cc X W Hc RD1 RD2 RR E kk Hkk;
    (match goal with _ : context [DC ?G] |- _ => destruct (none G) eqn:NU end;
     [cbn [dcol] in E; rewrite NU in E; injection E as <-; apply none_ready; [exact NU|]; cbn [ready2] in RR; rewrite NU in RR; apply RR; auto|]);
    cbn [ready] in RD1, RD2; rewrite NU in RD1, RD2; try contradiction;
    cbn [ready2] in RR; rewrite NU in RR; try contradiction; cbn [dcol] in E; rewrite NU in E.
  - apply RR; auto.
  - destruct W as (W1 & W2 & ER & EC). change (FC (FAdd F1 F2)) with (FC F1) in Hc. destruct RD1 as [A1 B1], RD2 as [A2 B2], RR as [RA RB].
    destruct (dcol_sound rho v1 F1 cc W1 Hc A1) as (X1 & E1 & RX & CX & WX & _). destruct (dcol_sound rho v1 F2 cc W2 ltac:(lia) B1) as (X2 & E2 & RX' & CX' & WX' & _).
    rewrite E1, E2 in E. cbn [both] in E. injection E as <-. apply ready_add; [split; [auto|]; split; [auto|]; split; congruence|lia| |]; [apply (IHF1 cc)|apply (IHF2 cc)]; auto. lia.
  - destruct (SC F1) eqn:S; [|destruct (SC F2) eqn:S'].
    + destruct RD1 as [A1 B1], RD2 as [A2 B2], RR as [RA RB]. destruct (mul_scal F1 F2 S) as (R0 & C0 & _). rewrite C0 in Hc. destruct W as (W1 & W2 & _). destruct (sc_true _ S) as [RS CS].
      destruct (dcol_sound rho v1 F2 cc W2 Hc B1) as (X2 & E2 & RX & CX & WX & _). destruct (dcol_sound rho v1 F1 0%nat W1 ltac:(lia) A1) as (Y & EY & RY & CY & WY & _).
      rewrite E2, EY in E. cbn [option_map both] in E. injection E as <-. destruct (mul_scal F1 X2 S) as (R1 & C1 & _).
      destruct (wf_mul_intro (FCol F2 cc) Y ltac:(split; auto) WY ltac:(change (FC (FCol F2 cc)) with 1%nat; lia)) as (W3 & R3 & C3 & _).
      apply ready_add.
      * cbn [well_formed]. rewrite R1, C1, R3, C3. split; [split; [auto|]; split; [auto|]; left; auto|]. split; [exact W3|]. split; [exact RX|congruence].
      * lia.
      * apply ready_scal; auto; [lia|]. apply (IHF2 cc); auto.
      * apply ready_mul; [split; auto|exact WY|change (FC (FCol F2 cc)) with 1%nat; lia|lia|intros l _; apply ready_col; [split; auto|auto]|]. apply (IHF1 0%nat); auto. lia.
    + destruct RD1 as [A1 B1], RD2 as [A2 B2], RR as [RA RB]. destruct (mul_scal_r F1 F2 S S') as (R0 & C0 & _). rewrite C0 in Hc. destruct W as (W1 & W2 & _). destruct (sc_true _ S') as [RS CS].
      destruct (dcol_sound rho v1 F1 cc W1 Hc A1) as (X2 & E2 & RX & CX & WX & _). destruct (dcol_sound rho v1 F2 0%nat W2 ltac:(lia) B1) as (Y & EY & RY & CY & WY & _).
      rewrite E2, EY in E. cbn [option_map both] in E. injection E as <-. destruct (mul_scal F2 X2 S') as (R1 & C1 & _).
      destruct (wf_mul_intro (FCol F1 cc) Y ltac:(split; auto) WY ltac:(change (FC (FCol F1 cc)) with 1%nat; lia)) as (W3 & R3 & C3 & _).
      apply ready_add.
      * cbn [well_formed]. rewrite R1, C1, R3, C3. split; [split; [auto|]; split; [auto|]; left; auto|]. split; [exact W3|]. split; [exact RX|congruence].
      * lia.
      * apply ready_scal; auto; [lia|]. apply (IHF1 cc); auto.
      * apply ready_mul; [split; auto|exact WY|change (FC (FCol F1 cc)) with 1%nat; lia|lia|intros l _; apply ready_col; [split; auto|auto]|]. apply (IHF2 0%nat); auto. lia.
    + destruct RD1 as [B1 _], RD2 as [B2 _], RR as [RB RA]. destruct (mul_mat F1 F2 S S') as (R0 & C0 & _). rewrite C0 in Hc. destruct (wf_mat _ _ S S' W) as (W1 & W2 & EK).
      destruct (dcol_sound rho v1 F2 cc W2 Hc B1) as (X2 & E2 & RX & CX & WX & _). rewrite E2 in E. cbn [option_map] in E.
      destruct (wf_mul_intro F1 X2 W1 WX ltac:(lia)) as (W3 & R3 & C3 & _).
      apply (fold_ready rho v1 v2 F1 F2 cc (FC F1) W2 Hc EK (Nat.le_refl _)) with (S := FMul F1 X2) (X := X); auto.
      * intros l Hl. destruct (RA l Hl) as (A1 & _). apply (ready_shaped rho); auto.
      * intros l D Hl ED k Hk. destruct (RA l Hl) as (A1 & A2 & A3). apply (IHF1 l D); auto.
      * congruence.
      * intros k Hk. apply ready_mul; [auto|auto|lia|lia|intros l Hl; apply (RA l Hl)|]. apply (IHF2 cc); auto.
  - destruct W as [W Hi0]. destruct (dcol_sound rho v1 F cc W Hc RD1) as (Y & EY & RY & CY & WY & _). rewrite EY in E. cbn [option_map] in E. injection E as <-.
    apply ready_row; [split; [exact WY|lia]|lia|]. apply (IHF cc); auto.
  - destruct W as [W Hi0]. apply (IHF j X); auto.
  - destruct W as (W & Hi0 & Hj0). destruct (dcol_sound rho v1 F j W Hj0 RD1) as (Y & EY & RY & CY & WY & _). rewrite EY in E. cbn [option_map] in E. injection E as <-.
    apply ready_row; [split; [exact WY|lia]|lia|]. apply (IHF j); auto.
  - destruct W as (W & Hi0 & Hj0). cbn [fcols] in Hc. destruct (dcol_sound rho v1 F (j + cc)%nat W ltac:(lia) RD1) as (Y & EY & RY & CY & WY & _). rewrite EY in E. cbn [option_map] in E. injection E as <-.
    apply ready_block; [split; [exact WY|]; split; lia|exact Hkk|]. apply (IHF (j + cc)%nat); auto. lia.
Qed.
End Sym.
