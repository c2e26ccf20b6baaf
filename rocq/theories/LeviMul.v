(** Proof side of C45: unary minus and operator*. *)
From Coq Require Import String Reals List Arith Lia Lra Bool QArith Qabs Qreals ZArith FunctionalExtensionality.
From Coquelicot Require Import Coquelicot.
From Verif Require Import Spec PartialLib SpecDerivatives LeviExpr LeviWf LeviMat LeviPost.
Import ListNotations.
Local Open Scope R_scope.
Set Implicit Arguments.

Lemma bind_some A B (o : option A) (f : A -> option B) b : bind o f = Some b -> exists a, o = Some a /\ f a = Some b.
Proof. destruct o; cbn; [eauto|discriminate]. Qed.
Lemma guard_some A c (o : option A) a : guard c o = Some a -> c = true /\ o = Some a.
Proof. destruct c; cbn; [auto|discriminate]. Qed.
Ltac inv H := injection H as H; try subst.
Ltac step H x E := apply bind_some in H; destruct H as (x & E & H).

Section Sound.
Variable vname : nat -> string.
Variable vdim : nat -> nat.
Variables urows ucols : nat -> nat.
Variable udep : nat -> nat -> bool.
Variable uderiv : nat -> nat -> nat -> expr.
Variable same : nat -> expr -> expr -> bool.
Variable ueval : nat -> env -> mat.
Variable udom : nat -> env -> Prop.
Notation rows := (rows vdim urows ucols).
Notation cols := (cols vdim urows ucols).
Notation eval := (eval vdim urows ucols ueval).
Notation depends := (depends vname vdim udep).
Notation eqv := (eqv same).
Notation is_scalar := (is_scalar vdim urows ucols).
Notation exec := (exec vname vdim urows ucols udep uderiv same).
Notation call := (call vname vdim urows ucols udep uderiv same).
Notation computed := (computed vname vdim urows ucols udep uderiv same).
Notation wf := (wf vdim urows ucols ueval).
Notation dom := (dom vdim urows ucols ueval udom).
Notation tr := (tr vdim urows ucols ueval).
Notation spec := (spec vdim urows ucols ueval udom).
Notation post := (post vdim urows ucols ueval udom).
Notation deriv_ok := (deriv_ok vdim urows ucols ueval udom).
Lemma spec_scalar e F D : spec e F D -> forall rho, is_scalar e = sc (F rho).
Proof. intros S rho. rewrite <- (sp_val S rho). reflexivity. Qed.

Lemma null_val r c rho : tr rho (ENull r c) = mkM r c (fun _ _ => 0).
Proof. reflexivity. Qed.

Lemma sound_neg rec t a e (IH : forall c e, rec c = Some e -> post c e) : call rec t (CNeg a) = Some e -> post (CNeg a) e.
Proof.
  change (call rec t (CNeg a)) with (do_neg a). cbn [LeviPost.post]. unfold do_neg. intros H W.
  destruct (is_null a) eqn:N.
  - inv H. destruct e; try discriminate N. constructor; auto. intros. unfold meq; cbn. repeat split; auto. intros; ring.
  - assert (G : e = ENeg a -> spec e (fun rho => mopp (tr rho a)) (fun rho => dom rho a)).
    { intros ->. constructor; auto. intros. unfold meq; cbn. repeat split; auto. }
    destruct a; try (inv H; apply G; reflexivity).
    inv H. constructor; auto. intros. unfold meq; cbn. repeat split; auto. intros. ring.
Qed.

Ltac domt := let r := fresh "rho" in intros r; cbn [LeviPost.dom]; intros;
  repeat match goal with H : _ /\ _ |- _ => destruct H end;
  repeat match goal with |- _ /\ _ => split end; try assumption;
  repeat match goal with S : LeviPost.spec _ _ _ _ _ ?p _ _ |- LeviPost.dom _ _ _ _ _ _ ?p => apply (sp_dom S); tauto end.

Lemma prod_of_some e a b : prod_of e = Some (a, b) -> exists ls rs, e = EProd ls rs a b.
Proof. destruct e; try discriminate. intros H. injection H as -> ->. eauto. Qed.
Lemma mfits_scal_l A B C : sc A = true -> mfits (mtimes A B) C -> mfits B C.
Proof. intros S. rewrite mtimes_scal by auto. auto. Qed.
Lemma prod_mat ls rs a b : wf (EProd ls rs a b) -> is_scalar a = false -> cols a = rows b.
Proof. intros (_ & _ & W) S. destruct ls; [|tauto]. apply scalar_false in S. tauto. Qed.

Lemma sound_mul rec t a b e (IH : forall c e, rec c = Some e -> post c e) : call rec t (CMul a b) = Some e -> post (CMul a b) e.
Proof.
  change (call rec t (CMul a b)) with (do_mul vdim urows ucols rec a b). cbn [LeviPost.post]. unfold do_mul; cbv zeta. intros H Wa Wb.
  apply guard_some in H. destruct H as [G H].
  assert (F : forall rho, mfits (tr rho a) (tr rho b)).
  { intros. unfold mfits. rewrite !sc_tr. rewrite !orb_true_iff, Nat.eqb_eq in G. tauto. }
  split; [exact F|].
  destruct (is_null a || is_null b) eqn:N.
  { inv H. constructor; [exact I| |intros; exact I].
    intros rho. specialize (F rho). unfold mfits in F. unfold mtimes. rewrite !sc_tr in *.
    fold (is_scalar a) (is_scalar b). 
    assert (Z : (forall i j, eval rho a i j = 0) \/ (forall i j, eval rho b i j = 0)).
    { apply orb_true_iff in N. destruct N as [N|N]; [left; destruct a; try discriminate N; auto|right; destruct b; try discriminate N; auto]. }
    assert (V : forall i j, eval rho a i j * eval rho b i j = 0) by (intros; destruct Z as [Z|Z]; rewrite Z; ring).
    assert (RC : forall x, is_scalar x = true -> rows x = 1%nat /\ cols x = 1%nat) by (intros; apply scalar_true; auto).
    unfold meq, tr; cbn [mr mc mf LeviExpr.rows LeviExpr.cols LeviExpr.eval].
    destruct (is_scalar a) eqn:Sa; [|destruct (is_scalar b) eqn:Sb]; cbn [mr mc mf andb].
    - destruct (RC a Sa) as [Ra Ca]. rewrite Ca. cbn. rewrite andb_false_r. split; [destruct (Nat.eqb_spec (rows b) 1); cbn; lia|split; auto].
      intros. destruct Z as [Z|Z]; rewrite Z; ring.
    - destruct (RC b Sb) as [Rb Cb]. split; auto. split; [destruct (Nat.eqb_spec (cols a) 1); cbn; lia|].
      intros. destruct Z as [Z|Z]; rewrite Z; ring.
    - split; auto. split; auto. intros. symmetry. rewrite <- (sumn_0 (Nat.min (cols a) (rows b))). apply sumn_ext. intros k K.
      destruct Z as [Z|Z]; rewrite Z; ring. }
  apply orb_false_iff in N. destruct N as [Na Nb].
  destruct (is_ident b && _) eqn:Ib.
  { inv H. apply andb_true_iff in Ib. destruct Ib as [Ib D]. apply orb_true_iff in D. rewrite !Nat.eqb_eq in D.
    destruct b; try discriminate Ib. apply Nat.eqb_eq in Ib. subst c. cbn [LeviExpr.rows] in D.
    constructor; [auto| |tauto]. intros rho. symmetry. apply (mtimes_ident_r (tr rho e) r). destruct D; [right|left]; auto. }
  destruct (is_ident a && _) eqn:Ia.
  { inv H. apply andb_true_iff in Ia. destruct Ia as [Ia D]. apply orb_true_iff in D. rewrite !Nat.eqb_eq in D.
    destruct a; try discriminate Ia. apply Nat.eqb_eq in Ia. subst c. cbn [LeviExpr.rows LeviExpr.cols] in D.
    constructor; [auto| |tauto]. intros rho. symmetry. apply (mtimes_ident_l (tr rho e) r). destruct D; [right|left]; auto. }
  destruct (neg_of a) as [a1|] eqn:NA.
  { destruct a; try discriminate NA. inv NA. step H p E.
    destruct (IH _ _ E Wa Wb) as [_ Sp]. pose proof (IH _ _ H (sp_wf Sp)) as Sn.
    eapply spec_weaken; [exact Sn| |domt].
    intros rho. cbv beta. rewrite (sp_val Sp rho). symmetry. apply (mopp_mtimes_l (tr rho a1) (tr rho b)). }
  destruct (neg_of b) as [b1|] eqn:NB.
  { destruct b; try discriminate NB. inv NB. step H p E.
    destruct (IH _ _ E Wa Wb) as [_ Sp]. pose proof (IH _ _ H (sp_wf Sp)) as Sn.
    eapply spec_weaken; [exact Sn| |domt].
    intros rho. cbv beta. rewrite (sp_val Sp rho). symmetry. apply (mopp_mtimes_r (tr rho a) (tr rho b1)). }
  rename H into B.
  assert (Wpb : forall b1 b2, prod_of b = Some (b1, b2) -> wf b1 /\ wf b2 /\ (is_scalar b1 = false -> cols b1 = rows b2) /\
     (forall rho, mfits (tr rho b1) (tr rho b2)) /\ (forall rho, meq (tr rho b) (mtimes (tr rho b1) (tr rho b2))) /\ (forall rho, dom rho b -> dom rho b1 /\ dom rho b2)).
  { intros b1 b2 P. apply prod_of_some in P. destruct P as (ls & rs & ->). split; [apply Wb|split; [apply Wb|split; [apply (prod_mat Wb)|]]].
    split; [intros; apply (prod_fits rho Wb)|split; [intros; apply (prod_val rho Wb)|auto]]. }
  assert (Wpa : forall a1 a2, prod_of a = Some (a1, a2) -> wf a1 /\ wf a2 /\ (is_scalar a1 = false -> cols a1 = rows a2) /\
     (forall rho, mfits (tr rho a1) (tr rho a2)) /\ (forall rho, meq (tr rho a) (mtimes (tr rho a1) (tr rho a2))) /\ (forall rho, dom rho a -> dom rho a1 /\ dom rho a2)).
  { intros a1 a2 P. apply prod_of_some in P. destruct P as (ls & rs & ->). split; [apply Wa|split; [apply Wa|split; [apply (prod_mat Wa)|]]].
    split; [intros; apply (prod_fits rho Wa)|split; [intros; apply (prod_val rho Wa)|auto]]. }
  clear Na Nb Ib Ia NA NB G.
  destruct (is_scalar a) eqn:Sa.
  - destruct (is_scalar b) eqn:Sb.
    + inv B. apply prod_spec, prod_wf_scal2; auto.
    + destruct (prod_of b) as [[b1 b2]|].
      2:{ inv B. apply prod_spec, prod_wf_scal; auto. }
      destruct (Wpb _ _ eq_refl) as (W1 & W2 & M & Fb & Vb & Db). clear Wpb Wpa.
      destruct (is_scalar b1) eqn:S1; step B s E; inv B; destruct (IH _ _ E Wa W1) as [_ Sp].
      * assert (SS : is_scalar s = true) by (rewrite (spec_scalar Sp rho0), sc_scal; auto).
        eapply spec_weaken; [apply prod_spec, prod_wf_scal; auto; apply (sp_wf Sp)| |].
        -- intros rho. cbv beta. rewrite (sp_val Sp rho), Vb. apply massoc_s1; auto.
        -- intros rho [D1 D2]. destruct (Db rho D2). split; auto. apply (sp_dom Sp); auto.
      * assert (CS : cols s = rows b2) by (rewrite (spec_cols Sp rho0), mtimes_scal by auto; apply M; auto).
        eapply spec_weaken; [apply prod_spec, prod_wf_mat; auto; apply (sp_wf Sp)| |].
        -- intros rho. cbv beta. rewrite (sp_val Sp rho), Vb. apply massoc_s1; auto.
        -- intros rho [D1 D2]. destruct (Db rho D2). split; auto. apply (sp_dom Sp); auto.
  - assert (MF : is_scalar b = false -> cols a = rows b).
    { intros Sb. destruct (F rho0) as [X|[X|X]]; auto; rewrite sc_tr in X; congruence. }
    destruct (prod_of a) as [[a1 a2]|].
    + destruct (Wpa _ _ eq_refl) as (W1 & W2 & M & Fa & Va & Da). clear Wpa.
      destruct (is_scalar b) eqn:Sb.
      * destruct (is_scalar a1) eqn:S1; step B s E; inv B.
        -- destruct (IH _ _ E W1 Wb) as [_ Sp].
           assert (SS : is_scalar s = true) by (rewrite (spec_scalar Sp rho0), sc_scal; auto).
           eapply spec_weaken; [apply prod_spec, prod_wf_scal; auto; apply (sp_wf Sp)| |].
           ++ intros rho. cbv beta. rewrite (sp_val Sp rho), Va.
              rewrite (mtimes_scal_comm (tr rho a1) (tr rho b)) by auto.
              rewrite <- (mtimes_scal_comm (tr rho b) (mtimes _ _)) by auto.
              apply massoc_s1; auto.
           ++ intros rho [D1 D2]. destruct (Da rho D1). split; auto. apply (sp_dom Sp); auto.
        -- destruct (IH _ _ E Wb W1) as [_ Sp].
           assert (CS : cols s = rows a2) by (rewrite (spec_cols Sp rho0), mtimes_scal by auto; apply M; auto).
           eapply spec_weaken; [apply prod_spec, prod_wf_mat; auto; apply (sp_wf Sp)| |].
           ++ intros rho. cbv beta. rewrite (sp_val Sp rho), Va.
              rewrite <- (mtimes_scal_comm (tr rho b) (mtimes _ _)) by auto.
              apply massoc_s1; auto.
           ++ intros rho [D1 D2]. destruct (Da rho D1). split; auto. apply (sp_dom Sp); auto.
      * assert (R2 : forall p, rec (CMul a2 b) = Some p -> (is_scalar a1 = true -> spec (EProd true false a1 p) (fun rho => mtimes (tr rho a) (tr rho b)) (fun rho => dom rho a /\ dom rho b)) /\
            (is_scalar a1 = false -> spec (EProd false false a1 p) (fun rho => mtimes (tr rho a) (tr rho b)) (fun rho => dom rho a /\ dom rho b))).
        { intros p E. destruct (IH _ _ E W2 Wb) as [Fp Sp]. split; intros S1.
          - eapply spec_weaken; [apply prod_spec, prod_wf_scal; auto; apply (sp_wf Sp)| |].
            + intros rho. cbv beta. rewrite (sp_val Sp rho), Va. symmetry. apply massoc_s1; auto.
            + intros rho [D1 D2]. destruct (Da rho D1). split; auto. apply (sp_dom Sp); auto.
          - assert (C2 : cols a2 = rows b).
            { specialize (MF eq_refl). rewrite <- MF. change (cols a) with (mc (tr rho0 a)). rewrite Va, mc_mat; auto. }
            eapply spec_weaken; [apply prod_spec, prod_wf_mat; auto; [apply (sp_wf Sp)|]| |].
            + rewrite (spec_rows Sp rho0), mr_mat by exact C2. apply M; auto.
            + intros rho. cbv beta. rewrite (sp_val Sp rho), Va. symmetry. apply massoc_mat; auto.
            + intros rho [D1 D2]. destruct (Da rho D1). split; auto. apply (sp_dom Sp); auto. }
        assert (Direct : spec (EProd false false a b) (fun rho => mtimes (tr rho a) (tr rho b)) (fun rho => dom rho a /\ dom rho b)) by (apply prod_spec, prod_wf_mat; auto).
        destruct (prod_of b) as [[b1 b2]|].
        2:{ destruct (is_scalar a1) eqn:S1.
            - step B p E. inv B. apply R2; auto.
            - destruct (_ <? _)%nat; [step B p E; inv B; apply R2; auto|inv B; exact Direct]. }
        destruct (Wpb _ _ eq_refl) as (X1 & X2 & Mb & Fb & Vb & Db). clear Wpb.
        destruct (is_scalar a1) eqn:S1.
        -- destruct (is_scalar b1) eqn:T1.
           ++ step B s E. step B p E2. inv B. destruct (IH _ _ E W1 X1) as [_ Ss], (IH _ _ E2 W2 X2) as [Fp Sp].
              assert (SS : is_scalar s = true) by (rewrite (spec_scalar Ss rho0), sc_scal; auto).
              eapply spec_weaken; [apply prod_spec, prod_wf_scal; auto; [apply (sp_wf Ss)|apply (sp_wf Sp)]| |].
              ** intros rho. cbv beta. rewrite (sp_val Ss rho), (sp_val Sp rho), Va, Vb.
                 assert (F2 : mfits (tr rho a2) (mtimes (tr rho b1) (tr rho b2))).
                 { rewrite <- Vb. apply (mfits_scal_l (tr rho a1)); [exact S1|]. rewrite <- Va. apply F. }
                 rewrite (massoc_s1 (tr rho a1) (tr rho a2) (mtimes (tr rho b1) (tr rho b2))) by auto.
                 rewrite <- (massoc_s2 (tr rho a2) (tr rho b1) (tr rho b2)) by auto.
                 rewrite <- (mtimes_scal_comm (tr rho b1) (tr rho a2)) by auto.
                 rewrite (massoc_s1 (tr rho b1) (tr rho a2) (tr rho b2)) by auto.
                 apply massoc_s1; auto. left; auto.
              ** intros rho [D1 D2]. destruct (Da rho D1), (Db rho D2). split; [apply (sp_dom Ss)|apply (sp_dom Sp)]; auto.
           ++ step B p E. inv B. apply R2; auto.
        -- destruct (is_scalar b1) eqn:T1.
           ++ step B p E. inv B. destruct (IH _ _ E Wa X2) as [Fp Sp].
              eapply spec_weaken; [apply prod_spec, prod_wf_scal; auto; apply (sp_wf Sp)| |].
              ** intros rho. cbv beta. rewrite (sp_val Sp rho), Vb.
                 rewrite <- (massoc_s2 (tr rho a) (tr rho b1) (tr rho b2)) by auto.
                 rewrite <- (mtimes_scal_comm (tr rho b1) (tr rho a)) by auto.
                 symmetry. apply massoc_s1; auto.
              ** intros rho [D1 D2]. destruct (Db rho D2). split; auto. apply (sp_dom Sp); auto.
           ++ destruct (_ <? _)%nat; [|destruct (_ <? _)%nat].
              ** step B l E. inv B. destruct (IH _ _ E Wa X1) as [_ Sp].
                 assert (C1 : cols a = rows b1). { rewrite MF by auto. change (rows b) with (mr (tr rho0 b)). rewrite Vb, mr_mat; auto. }
                 eapply spec_weaken; [apply prod_spec, prod_wf_mat; auto; [apply (sp_wf Sp)|]| |].
                 --- rewrite (spec_cols Sp rho0), mc_mat by auto. apply Mb; auto.
                 --- intros rho. cbv beta. rewrite (sp_val Sp rho), Vb. apply massoc_mat; auto.
                 --- intros rho [D1 D2]. destruct (Db rho D2). split; auto. apply (sp_dom Sp); auto.
              ** step B p E. inv B. apply R2; auto.
              ** inv B. exact Direct.
    + destruct (is_scalar b) eqn:Sb.
      * inv B. eapply spec_weaken; [apply prod_spec, prod_wf_scal; auto| |tauto].
        intros rho. apply mtimes_scal_comm; auto.
      * assert (Direct : spec (EProd false false a b) (fun rho => mtimes (tr rho a) (tr rho b)) (fun rho => dom rho a /\ dom rho b)) by (apply prod_spec, prod_wf_mat; auto).
        destruct (prod_of b) as [[b1 b2]|]; [|inv B; exact Direct].
        destruct (Wpb _ _ eq_refl) as (X1 & X2 & Mb & Fb & Vb & Db). clear Wpb.
        destruct (is_scalar b1) eqn:T1.
        -- step B p E. inv B. destruct (IH _ _ E Wa X2) as [Fp Sp].
           eapply spec_weaken; [apply prod_spec, prod_wf_scal; auto; apply (sp_wf Sp)| |].
           ++ intros rho. cbv beta. rewrite (sp_val Sp rho), Vb.
              rewrite <- (massoc_s2 (tr rho a) (tr rho b1) (tr rho b2)) by auto.
              rewrite <- (mtimes_scal_comm (tr rho b1) (tr rho a)) by auto.
              symmetry. apply massoc_s1; auto.
           ++ intros rho [D1 D2]. destruct (Db rho D2). split; auto. apply (sp_dom Sp); auto.
        -- destruct (_ <? _)%nat; [|inv B; exact Direct].
           step B l E. inv B. destruct (IH _ _ E Wa X1) as [_ Sp].
           assert (C1 : cols a = rows b1). { rewrite MF by auto. change (rows b) with (mr (tr rho0 b)). rewrite Vb, mr_mat; auto. }
           eapply spec_weaken; [apply prod_spec, prod_wf_mat; auto; [apply (sp_wf Sp)|]| |].
           --- rewrite (spec_cols Sp rho0), mc_mat by auto. apply Mb; auto.
           --- intros rho. cbv beta. rewrite (sp_val Sp rho), Vb. apply massoc_mat; auto.
           --- intros rho [D1 D2]. destruct (Db rho D2). split; auto. apply (sp_dom Sp); auto.
Qed.
End Sound.
