(** The Hessian of the centre of mass that CoMInBaseExpression.cpp computes. *)
From Coq Require Import Reals List Arith Lia Lra Bool FunctionalExtensionality.
From Coquelicot Require Import Coquelicot.
From Verif Require Import Spec PartialLib SpecRigid SpecBase SpecCom SpecDerivatives Rigid RigidCalc KinTree KinModel KinLib KinMotion KinProofs PropKin MixLib ComModel ComLib.
Import ListNotations.
Local Open Scope R_scope.

Section Com.
Variable r : robot.
Variable place : vec -> nat -> pose.
Variable dofs : nat.
Variable up : nat -> nat -> option (nat * nat).
Variable depth : nat -> nat -> nat.
Variable base : nat.
Variable bt : formula.
Variable jac : vec -> nat -> nat -> nat -> v6.
Variable fvel : env -> nat -> v6.
Variable btw : env -> v6.
Variable quat : m3 -> vec.
Variable b : masses.
Notation rel := (relative r place).
Notation links := (r_links r).
Hypothesis K : kinematics r place dofs up depth base jac fvel btw quat.
Let rok : robot_ok r := k_robot _ _ _ _ _ _ _ _ _ _ K.
Let plc : placement r place := k_place _ _ _ _ _ _ _ _ _ _ K.
Let trav : forall b, (b < r_links r)%nat -> traversal r b (up b) (depth b) := k_trav _ _ _ _ _ _ _ _ _ _ K.
Let Hb : (base < links)%nat := k_base _ _ _ _ _ _ _ _ _ _ K.
Hypothesis TR : tree r dofs up base.
Variable ue : nat -> env -> mat.
Hypothesis ue_adj : forall w f g, ue (code (KAdj w f g)) = val0 r rel jac fvel quat (KAdj w f g).
Notation Den := (den (vdim dofs) urows (ucols dofs) ue).
Notation Mean := (meaning (vdim dofs) urows (ucols dofs) ue).
Notation P := (P r up base).
Notation onp := (onp r up base).
Notation ch := (ch r up base).
Notation ax := (motion_axis r).
Lemma adjden f g rho : (f < links)%nat -> (g < links)%nat -> Den rho (adj false f g) 6 6 (m6ent (Adj (rel (rho v_s) f g))).
Proof. intros F G. exact (adj_den r place dofs jac fvel quat rok plc ue ue_adj false f g rho (link_ok r f F) (link_ok r g G)). Qed.

(** ** The terms *)
Lemma vert3 rho F v : Den rho F 3 1 (fun i _ => vent v i) -> Den rho (FVert F (FNull 3 1)) 6 1 (fun i _ => v6ent (V6 v v30) i).
Proof.
  intros D. eapply den_ext; [apply (den_vert _ _ _ _ rho F (FNull 3 1) 3 3 1 _ _ D (den_null _ _ _ _ rho 3 1))|].
  intros i j Hi Hj. cbv beta. unfold v6ent. cbn [lin ang]. destruct (i <? 3)%nat; [reflexivity|]. rewrite vent_0. reflexivity.
Qed.
Lemma top_mul6 rho F G x A B : Den rho F 3 6 (fun i j => x * m6ent A i j) -> Den rho G 6 6 (m6ent B) -> Den rho (FMul F G) 3 6 (fun i j => x * m6ent (m6mul A B) i j).
Proof.
  intros HF HG. eapply den_ext; [eapply den_mul; eauto|]. intros i j Hi Hj. cbv beta. rewrite m6ent_mul by lia. rewrite <- sumn_scal. apply sumn_ext. intros k Hk. ring.
Qed.
Lemma top_mulv rho F G x A v : Den rho F 3 6 (fun i j => x * m6ent A i j) -> Den rho G 6 1 (fun i _ => v6ent v i) -> Den rho (FMul F G) 3 1 (fun i _ => x * vent (lin (m6v A v)) i).
Proof.
  intros HF HG. eapply den_ext; [eapply den_mul; eauto|]. intros i j Hi Hj. cbv beta.
  replace (vent (lin (m6v A v)) i) with (v6ent (m6v A v) i) by (unfold v6ent; apply Nat.ltb_lt in Hi; rewrite Hi; reflexivity).
  rewrite v6ent_mul by lia. rewrite <- sumn_scal. apply sumn_ext. intros k Hk. ring.
Qed.
Lemma top_block rho F A : Den rho F 6 6 (m6ent A) -> Den rho (FBlock F 0 0 3 6) 3 6 (fun i j => 1 * m6ent A i j).
Proof. intros D. eapply den_ext; [apply (den_block _ _ _ _ rho F 6 6 _ 0 0 3 6 D); lia|]. intros i j Hi Hj. cbv beta. cbn [Nat.add]. ring. Qed.
Lemma const_den rho l k Kc : (l < links)%nat -> (Kc < links)%nat -> Den rho (constant_part r b l k Kc) 6 1 (fun i _ => v6ent (V6 (U r place b (rho v_s) l k Kc) v30) i).
Proof.
  intros Hl HK. unfold U. rewrite <- (part6_eq (rel (rho v_s) Kc l) (ax k Kc) (m_com b l)) by (apply (rel_rigid r place rok plc); apply link_ok; auto).
  unfold part6. rewrite (rel_inv r place rok plc _ Kc l) by (apply link_ok; auto).
  eapply den_ext; [|intros i j Hi Hj; symmetry; apply v6ent_add].
  apply (den_add _ _ _ _ rho _ _ 6 1).
  - apply den_mulv; [apply den_mul6; [apply (cross_den r dofs ue false)|apply adjden; auto]|]. apply vert3. apply den_const.
  - apply den_mulv; [apply adjden; auto|]. apply vert3. eapply den_ext; [apply top_mulv; [apply top_block, adjden; auto|apply subspace_den]|]. intros i j Hi Hj. cbv beta. ring.
Qed.
Lemma term_den rho l k Kc j J : (l < links)%nat -> (Kc < links)%nat -> (J < links)%nat ->
  Den rho (hess_term r b base l k Kc j J) 3 1 (fun i _ => relative_mass r b l * vent (T r place base b (rho v_s) l k Kc j J) i).
Proof.
  intros Hl HK HJ. unfold hess_term.
  assert (D1 : Den rho (FMul (scalar (relative_mass r b l)) (FBlock (adj false base J) 0 0 3 6)) 3 6 (fun i j => relative_mass r b l * m6ent (Adj (rel (rho v_s) base J)) i j)).
  { eapply den_ext; [apply den_scal; [apply den_const|apply top_block, adjden; auto]|]. intros i m Hi Hm. cbv beta. ring. }
  eapply den_ext; [apply top_mulv; [apply top_mul6; [apply top_mul6; [exact D1|apply (cross_den r dofs ue false)]|apply adjden; auto]|apply const_den; auto]|].
  intros i m Hi Hm. cbv beta. f_equal. f_equal. cbn [adOf]. rewrite !m6v_mul, Adj_lin, adx_lin, Adj_lin. reflexivity.
Qed.

(** ** The loops *)
Lemma seek_none t L k : path (up base) base t L -> (forall c p, ~ In (c, p, k) L) -> forall n seen, (length L < n)%nat -> seek up base n t k seen = Some None.
Proof.
  induction 1 as [|t p i L N U Q IH]; intros NI n seen Hn; destruct n as [|n]; cbn [length] in Hn; try lia; cbn [seek].
  - rewrite Nat.eqb_refl. reflexivity.
  - apply Nat.eqb_neq in N. rewrite N, U. destruct (Nat.eqb_spec i k) as [->|]; [exfalso; eapply NI; left; reflexivity|]. apply IH; [|lia].
    intros c q I. eapply NI. right. exact I.
Qed.
Lemma seek_some pre J q k post : (forall c p, ~ In (c, p, k) pre) -> forall t, path (up base) base t (pre ++ (J, q, k) :: post) -> forall n seen, (length (pre ++ (J, q, k) :: post) < n)%nat ->
  seek up base n t k seen = Some (Some (J, seen ++ map snd pre)) /\ path (up base) base J ((J, q, k) :: post).
Proof.
  induction pre as [|[[c p] i] pre IH]; intros NI t Q n seen Hn; destruct n as [|n]; cbn [app length] in Hn; try lia; cbn [app] in Q; cbn [seek].
  - inversion Q as [|t' p' i' L N U Q' E1 [E2 E3]]; subst. apply Nat.eqb_neq in N as N'. rewrite N', U, Nat.eqb_refl. cbn [map]. rewrite app_nil_r. split; [reflexivity|exact Q].
  - inversion Q as [|t' p' i' L N U Q' E1 [E2 E3]]; subst. apply Nat.eqb_neq in N. rewrite N, U.
    destruct (Nat.eqb_spec i k) as [->|]; [exfalso; eapply NI; left; reflexivity|].
    destruct (IH (fun c' p' I => NI c' p' (or_intror I)) p Q' n (seen ++ [i]) ltac:(lia)) as [A B]. split; [|exact B]. rewrite A. cbn [map snd]. rewrite <- app_assoc. reflexivity.
Qed.
(** The columns evaluate to V. *)
Definition sem (A : list formula) (V : env -> nat -> nat -> R) : Prop :=
  length A = dofs /\ forall j, (j < dofs)%nat -> exists X, nth_error A j = Some X /\ forall rho, Den rho X 3 1 (fun i _ => V rho j i).
Lemma add_list l k Kc (L : list (nat * nat * nat)) : (l < links)%nat -> (Kc < links)%nat -> NoDup (map snd L) ->
  (forall c p j, In (c, p, j) L -> (j < dofs)%nat /\ child_of r up base j = Some c) -> forall A nz V, sem A V ->
  exists A', foldo (fun (acc : list formula * list nat) (x : nat * nat * nat) => match child_of r up base (snd x), nth_error (fst acc) (snd x) with
          | Some J, Some old => match put (fst acc) (snd x) (FAdd old (hess_term r b base l k Kc (snd x) J)) with Some A => Some (A, snd acc ++ [snd x]) | None => None end
          | _, _ => None end) L (A, nz) = Some (A', nz ++ map snd L) /\
    sem A' (fun rho j i => V rho j i + if existsb (Nat.eqb j) (map snd L) then relative_mass r b l * vent (T r place base b (rho v_s) l k Kc j (ch j)) i else 0).
Proof.
  intros Hl HK. induction L as [|[[c p] m] L IH]; intros ND HC A nz V [LA S].
  - exists A. cbn [foldo map existsb]. rewrite app_nil_r. split; [reflexivity|]. split; [exact LA|]. intros j Hj. destruct (S j Hj) as (X & E & D). exists X. split; [exact E|]. intros rho.
    eapply den_ext; [apply D|]. intros i q _ _. cbv beta. ring.
  - cbn [foldo map snd fst]. destruct (HC c p m (or_introl eq_refl)) as [Hm CH]. destruct (child_inv r place dofs up depth base jac fvel btw quat K m c CH) as (Hc & _). rewrite CH. destruct (S m Hm) as (X & E & D). rewrite E.
    destruct (put_some A m (FAdd X (hess_term r b base l k Kc m c)) ltac:(lia)) as (A1 & E1 & L1 & SP). rewrite E1.
    inversion ND as [|? ? NI ND']; subst.
    destruct (IH ND' (fun c' p' j I => HC c' p' j (or_intror I)) A1 (nz ++ [m]) (fun rho j i => V rho j i + if (j =? m)%nat then relative_mass r b l * vent (T r place base b (rho v_s) l k Kc m c) i else 0)) as (A2 & E2 & S2).
    { split; [lia|]. intros j Hj. destruct (Nat.eqb_spec j m) as [->|N].
      - exists (FAdd X (hess_term r b base l k Kc m c)). split; [rewrite SP, Nat.eqb_refl; reflexivity|]. intros rho. apply den_add; [apply D|apply term_den; auto].
      - destruct (S j Hj) as (Y & EY & DY). exists Y. split; [rewrite SP; apply Nat.eqb_neq in N; rewrite N; exact EY|]. intros rho. eapply den_ext; [apply DY|]. intros i q _ _. cbv beta. ring. }
    exists A2. split; [rewrite E2, <- app_assoc; reflexivity|]. destruct S2 as [L2 S2]. split; [exact L2|]. intros j Hj. destruct (S2 j Hj) as (Y & EY & DY). exists Y. split; [exact EY|].
    intros rho. eapply den_ext; [apply DY|]. intros i q _ _. cbv beta. cbn [existsb]. rewrite Rplus_assoc. f_equal. destruct (Nat.eqb_spec j m) as [->|N]; cbn [orb].
    + replace (existsb (Nat.eqb m) (map snd L)) with false; [unfold ComLib.ch; rewrite CH; ring|]. symmetry. apply not_true_is_false. intros Z. apply existsb_exists in Z.
      destruct Z as (y & Iy & Ey). apply Nat.eqb_eq in Ey. subst y. contradiction.
    + ring.
Qed.

Lemma P_info l c p j : (l < links)%nat -> In (c, p, j) (P l) -> (j < dofs)%nat /\ child_of r up base j = Some c.
Proof.
  intros Hl I. destruct (in_step r place dofs up depth base jac fvel btw quat K l c p j Hl I) as (Hc & _ & U & _ & jj & E & _).
  split; [apply (joint_lt r place dofs up depth base jac fvel btw quat K j jj E)|]. exact (child_spec r place dofs up depth base jac fvel btw quat K TR c p j Hc U).
Qed.
Notation HT := (fun rho l k j i => relative_mass r b l * vent (T r place base b (rho v_s) l k (ch k) j (ch j)) i).
Lemma hess_add_spec l k A nz V : (l < links)%nat -> onp l k = true -> sem A V ->
  exists A', hess_add r b up base l k (ch k) (ch k) (A, nz) = Some (A', nz ++ map snd (P (ch k))) /\
    sem A' (fun rho j i => V rho j i + if onp (ch k) j then HT rho l k j i else 0).
Proof.
  intros Hl E S. pose proof (on_ch r place dofs up depth base jac fvel btw quat K TR l k Hl E) as C. destruct (child_inv r place dofs up depth base jac fvel btw quat K k _ C) as (HK & _).
  unfold hess_add. rewrite (walk_path (up base) base _ (ch k) (P (ch k)) (path_P r place dofs up depth base jac fvel btw quat K _ HK) (fuel r) _ (P_length r place dofs up depth base jac fvel btw quat K _ HK)).
  apply (add_list l k (ch k) (P (ch k)) Hl HK).
  - apply (up_nodup r up depth trav base (ch k) _ Hb HK). apply (path_P r place dofs up depth base jac fvel btw quat K _ HK).
  - intros c p j I. apply (P_info (ch k) c p j); auto.
  - exact S.
Qed.
Lemma links_spec k Kc : child_of r up base k = Some Kc -> forall ls, (forall l, In l ls -> (l < links)%nat) -> forall A nz others V, sem A V ->
  exists A' nz' others', hess_links r b up base k Kc ls (A, nz) others = Some ((A', nz'), others') /\
    sem A' (fun rho j i => V rho j i + fold_right (fun l t => (if onp l k && onp (ch k) j then HT rho l k j i else 0) + t) 0 ls) /\
    (forall j, In j nz' <-> In j nz \/ exists l, In l ls /\ onp l k = true /\ onp (ch k) j = true) /\
    (forall j, In j others' <-> In j others \/ exists l, In l ls /\ onp l k = true /\ onp l j = true /\ onp (ch k) j = false).
Proof.
  intros C. assert (EK : Kc = ch k) by (unfold ComLib.ch; rewrite C; reflexivity). subst Kc. destruct (child_inv r place dofs up depth base jac fvel btw quat K k _ C) as (HK & _).
  induction ls as [|l ls IH]; intros HL A nz others V S.
  - exists A, nz, others. cbn [hess_links fold_right]. split; [reflexivity|]. split.
    + destruct S as [LA S]. split; [exact LA|]. intros j Hj. destruct (S j Hj) as (X & E & D). exists X. split; [exact E|]. intros rho. eapply den_ext; [apply D|]. intros i q _ _. cbv beta. ring.
    + split; intros j; (split; [auto|]); intros [H|(l & [] & _)]; exact H.
  - pose proof (HL l (or_introl eq_refl)) as Hl. cbn [hess_links fold_right]. pose proof (path_P r place dofs up depth base jac fvel btw quat K l Hl) as PL.
    pose proof (P_length r place dofs up depth base jac fvel btw quat K l Hl) as LL.
    destruct (onp l k) eqn:E.
    + destruct (P_split r place dofs up depth base jac fvel btw quat K TR l k (ch k) Hl E C) as (pre & p & post & E1 & E2 & NP).
      destruct (seek_some pre (ch k) p k post NP l ltac:(rewrite <- E1; exact PL) (fuel r) [] ltac:(rewrite <- E1; exact LL)) as [SK _]. rewrite SK. cbn [app].
      destruct (hess_add_spec l k A nz V Hl E S) as (A1 & EA & S1). rewrite EA.
      destruct (IH (fun x I => HL x (or_intror I)) A1 (nz ++ map snd (P (ch k))) (others ++ map snd pre) _ S1) as (A2 & nz2 & ot2 & EL & S2 & N2 & O2).
      exists A2, nz2, ot2. split; [exact EL|]. split.
      { destruct S2 as [L2 S2]. split; [exact L2|]. intros j Hj. destruct (S2 j Hj) as (X & EX & D). exists X. split; [exact EX|]. intros rho. eapply den_ext; [apply D|].
        intros i q _ _. cbv beta. cbn [andb]. ring. }
      split; intros j.
      * rewrite N2, in_app_iff. assert (Q : In j (map snd (P (ch k))) <-> onp (ch k) j = true).
        { rewrite (onp_in r up base), in_map_iff. split; [intros ([[c q] m] & <- & I); eauto|intros (c & q & I); exists (c, q, j); auto]. }
        rewrite Q. split.
        -- intros [[H|H]|(x & I & H)]; [auto| |]; right; [exists l; split; [left; reflexivity|auto]|exists x; split; [right; exact I|exact H]].
        -- intros [H|(x & [<-|I] & H1 & H2)]; [auto| |]; [left; right; exact H2|right; exists x; auto].
      * rewrite O2, in_app_iff. assert (Q : In j (map snd pre) <-> onp l j = true /\ onp (ch k) j = false).
        { pose proof (up_nodup r up depth trav base l (P l) Hb Hl PL) as ND. rewrite E1, map_app in ND.
          assert (D : forall x, In x (map snd pre) -> ~ In x (map snd ((ch k, p, k) :: post))).
          { revert ND. generalize (map snd ((ch k, p, k) :: post)). generalize (map snd pre). clear. induction l as [|y l IH]; intros l' ND x I J; [contradiction|]. cbn in ND.
            inversion ND as [|? ? NI ND']; subst. destruct I as [->|I]; [apply NI, in_or_app; right; exact J|]. exact (IH l' ND' x I J). }
          split.
          - intros I. split.
            + unfold ComLib.onp. apply existsb_exists. exists j. split; [|apply Nat.eqb_refl]. rewrite E1, map_app. apply in_or_app. left. exact I.
            + apply not_true_is_false. intros Z. apply (D j I). unfold ComLib.onp in Z. apply existsb_exists in Z. destruct Z as (y & Iy & Ey). apply Nat.eqb_eq in Ey. subst y. rewrite <- E2. exact Iy.
          - intros [Z N]. unfold ComLib.onp in Z, N. apply existsb_exists in Z. destruct Z as (y & Iy & Ey). apply Nat.eqb_eq in Ey. subst y. rewrite E1, map_app in Iy. apply in_app_or in Iy. destruct Iy as [I|I]; [exact I|].
            exfalso. rewrite E2 in N. assert (existsb (Nat.eqb j) (map snd ((ch k, p, k) :: post)) = true); [|congruence]. apply existsb_exists. exists j. split; [exact I|apply Nat.eqb_refl]. }
        rewrite Q. split.
        -- intros [[H|[H1 H2]]|(x & I & H)]; [auto| |]; right; [exists l; split; [left; reflexivity|auto]|exists x; split; [right; exact I|exact H]].
        -- intros [H|(x & [<-|I] & H1 & H2)]; [auto| |]; [left; right; exact H2|right; exists x; auto].
    + rewrite (seek_none l (P l) k PL (onp_out r up base l k E) (fuel r) [] LL).
      destruct (IH (fun x I => HL x (or_intror I)) A nz others V S) as (A2 & nz2 & ot2 & EL & S2 & N2 & O2).
      exists A2, nz2, ot2. split; [exact EL|]. split.
      { destruct S2 as [L2 S2]. split; [exact L2|]. intros j Hj. destruct (S2 j Hj) as (X & EX & D). exists X. split; [exact EX|]. intros rho. eapply den_ext; [apply D|].
        intros i q _ _. cbv beta. cbn [andb]. ring. }
      split; intros j.
      * rewrite N2. split; (intros [H|(x & I & H)]; [auto|right; exists x; split; [|exact H]]); [right; exact I|]. destruct I as [->|I]; [destruct H; congruence|exact I].
      * rewrite O2. split; (intros [H|(x & I & H)]; [auto|right; exists x; split; [|exact H]]); [right; exact I|]. destruct I as [->|I]; [destruct H; congruence|exact I].
Qed.
Lemma direct_spec k Kc : child_of r up base k = Some Kc -> exists A nz others, hess_direct r b dofs up base k = Some (A, nz, others) /\
    sem A (fun rho j i => fold_right (fun l t => (if onp l k && onp (ch k) j then HT rho l k j i else 0) + t) 0 (seq 0 links)) /\
    (forall j, In j nz <-> onp (ch k) j = true) /\
    (forall j, In j others <-> exists l, (l < links)%nat /\ onp l k = true /\ onp l j = true /\ onp (ch k) j = false).
Proof.
  intros C. unfold hess_direct. rewrite C. destruct (child_inv r place dofs up depth base jac fvel btw quat K k _ C) as (HK & _).
  destruct (links_spec k Kc C (seq 0 links) ltac:(intros l I; apply in_seq in I; lia) (repeat (FNull 3 1) dofs) [] [] (fun _ _ _ => 0)) as (A & nz & ot & E & S & N & O).
  { split; [apply repeat_length|]. intros j Hj. exists (FNull 3 1). split; [|intros rho; apply den_null]. rewrite (nth_error_nth' _ (FNull 3 1)) by (rewrite repeat_length; exact Hj). rewrite nth_repeat. reflexivity. }
  exists A, nz, ot. split; [exact E|]. split.
  { destruct S as [L S]. split; [exact L|]. intros j Hj. destruct (S j Hj) as (X & EX & D). exists X. split; [exact EX|]. intros rho. eapply den_ext; [apply D|]. intros i q _ _. cbv beta. ring. }
  split; intros j.
  - rewrite N. split; [intros [[]|(l & _ & _ & H)]; exact H|]. intros H. right. exists Kc. split; [apply in_seq; lia|]. split; [|exact H].
    apply (child_on r place dofs up depth base jac fvel btw quat K TR k Kc C).
  - rewrite O. split.
    + intros [[]|(l & I & H)]. exists l. apply in_seq in I. split; [lia|exact H].
    + intros (l & Hl & H). right. exists l. split; [apply in_seq; lia|exact H].
Qed.
End Com.
