(** Calculus of rigid transforms (no model of the code here). *)
From Coq Require Import Reals List Arith Lia Lra Bool FunctionalExtensionality.
From Coquelicot Require Import Coquelicot.
From Verif Require Import Spec PartialLib SpecRigid Rigid.
Import ListNotations.
Local Open Scope R_scope.

(** ** Scalar rules *)
Lemma D_eq (f : R -> R) (x d d' : R) : is_derive f x d -> d = d' -> is_derive f x d'.
Proof. intros; subst; auto. Qed.
Lemma D_const (c x : R) : is_derive (fun _ => c) x 0.
Proof. exact (is_derive_const (K:=R_AbsRing) (V:=R_NormedModule) c x). Qed.
Lemma D_plus f g (x a b : R) : is_derive f x a -> is_derive g x b -> is_derive (fun t => f t + g t) x (a + b).
Proof. intros. apply (is_derive_plus (K:=R_AbsRing) (V:=R_NormedModule) f g); auto. Qed.
Lemma D_minus f g (x a b : R) : is_derive f x a -> is_derive g x b -> is_derive (fun t => f t - g t) x (a - b).
Proof. intros. apply (is_derive_minus (K:=R_AbsRing) (V:=R_NormedModule) f g); auto. Qed.
Lemma D_opp f (x a : R) : is_derive f x a -> is_derive (fun t => - f t) x (- a).
Proof. intros. apply (is_derive_opp (K:=R_AbsRing) (V:=R_NormedModule) f); auto. Qed.
Lemma D_mult f g (x a b : R) : is_derive f x a -> is_derive g x b -> is_derive (fun t => f t * g t) x (a * g x + f x * b).
Proof.
  intros Hf Hg. evar_last.
  { apply (is_derive_mult (K:=R_AbsRing) f g x a b Hf Hg). intros; simpl; unfold mult; simpl; req; ring. }
  unfold plus, mult; simpl. reflexivity.
Qed.
Lemma D_ext f g (x d : R) : (forall t, f t = g t) -> is_derive f x d -> is_derive g x d.
Proof. intros E. apply is_derive_ext. intros; simpl; apply E. Qed.
Lemma D_unique f (x a b : R) : is_derive f x a -> is_derive f x b -> a = b.
Proof. intros A B. rewrite <- (is_derive_unique f x a A). apply is_derive_unique; auto. Qed.
Lemma D_sumn n (f : nat -> R -> R) x (d : nat -> R) : (forall i, (i < n)%nat -> is_derive (f i) x (d i)) ->
  is_derive (fun t => sumn n (fun i => f i t)) x (sumn n d).
Proof.
  induction n; cbn [sumn]; intros H; [apply D_const|].
  apply (D_plus (fun t => sumn n (fun i => f i t)) (f n)); [apply IHn; intros; apply H; lia|apply H; lia].
Qed.

(** ** 3D *)
Ltac dsplit := unfold is_derive_m3, is_derive_v3;
  match goal with |- (_ /\ _ /\ _) /\ _ => refine (conj (conj _ (conj _ _)) (conj (conj _ (conj _ _)) (conj _ (conj _ _)))) | |- _ => refine (conj _ (conj _ _)) end.
Lemma m3_D_const A x : is_derive_m3 (fun _ => A) x m30.
Proof. dsplit; apply D_const. Qed.
Lemma v3_D_const a x : is_derive_v3 (fun _ => a) x v30.
Proof. dsplit; apply D_const. Qed.
Lemma m3_D_ext f g x d : (forall t, f t = g t) -> is_derive_m3 f x d -> is_derive_m3 g x d.
Proof. intros E ((?&?&?)&(?&?&?)&(?&?&?)). dsplit; eapply D_ext; eauto; intros; cbn; rewrite E; reflexivity. Qed.
Lemma v3_D_ext f g x d : (forall t, f t = g t) -> is_derive_v3 f x d -> is_derive_v3 g x d.
Proof. intros E (?&?&?). dsplit; eapply D_ext; eauto; intros; cbn; rewrite E; reflexivity. Qed.
Lemma m3_D_add f g x d e : is_derive_m3 f x d -> is_derive_m3 g x e -> is_derive_m3 (fun t => madd (f t) (g t)) x (madd d e).
Proof. intros ((?&?&?)&(?&?&?)&(?&?&?)) ((?&?&?)&(?&?&?)&(?&?&?)). dsplit; apply D_plus; auto. Qed.
Lemma v3_D_add f g x d e : is_derive_v3 f x d -> is_derive_v3 g x e -> is_derive_v3 (fun t => vadd (f t) (g t)) x (vadd d e).
Proof. intros (?&?&?) (?&?&?). dsplit; apply D_plus; auto. Qed.
Lemma m3_D_neg f x d : is_derive_m3 f x d -> is_derive_m3 (fun t => mneg (f t)) x (mneg d).
Proof. intros ((?&?&?)&(?&?&?)&(?&?&?)). dsplit; apply D_opp; auto. Qed.
Lemma v3_D_opp f x d : is_derive_v3 f x d -> is_derive_v3 (fun t => vopp (f t)) x (vopp d).
Proof. intros (?&?&?). dsplit; apply D_opp; auto. Qed.
Lemma m3_D_tr f x d : is_derive_m3 f x d -> is_derive_m3 (fun t => mtr (f t)) x (mtr d).
Proof. intros ((?&?&?)&(?&?&?)&(?&?&?)). dsplit; cbn; auto. Qed.
Lemma m3_D_skew f x d : is_derive_v3 f x d -> is_derive_m3 (fun t => skew (f t)) x (skew d).
Proof. intros (?&?&?). dsplit; cbn; try apply D_const; try apply D_opp; auto. Qed.
Lemma D_dot3 a b c d e f (x a' b' c' d' e' f' : R) :
  is_derive a x a' -> is_derive b x b' -> is_derive c x c' -> is_derive d x d' -> is_derive e x e' -> is_derive f x f' ->
  is_derive (fun t => a t * b t + c t * d t + e t * f t) x ((a' * b x + c' * d x + e' * f x) + (a x * b' + c x * d' + e x * f')).
Proof.
  intros. eapply D_eq.
  - apply (D_plus (fun t => a t * b t + c t * d t) (fun t => e t * f t)); [apply (D_plus (fun t => a t * b t) (fun t => c t * d t))|]; apply D_mult; eassumption.
  - ring.
Qed.
Ltac dring := match goal with |- is_derive (fun t => @?a t * @?b t + @?c t * @?d t + @?e t * @?f t) _ _ => apply (D_dot3 a b c d e f); assumption end.
Lemma m3_D_mul f g x d e : is_derive_m3 f x d -> is_derive_m3 g x e ->
  is_derive_m3 (fun t => mm (f t) (g t)) x (madd (mm d (g x)) (mm (f x) e)).
Proof. intros ((?&?&?)&(?&?&?)&(?&?&?)) ((?&?&?)&(?&?&?)&(?&?&?)). dsplit; cbn [mm madd vx vy vz a00 a01 a02 a10 a11 a12 a20 a21 a22]; dring. Qed.
Lemma v3_D_mv f g x d e : is_derive_m3 f x d -> is_derive_v3 g x e ->
  is_derive_v3 (fun t => mv (f t) (g t)) x (vadd (mv d (g x)) (mv (f x) e)).
Proof. intros ((?&?&?)&(?&?&?)&(?&?&?)) (?&?&?). dsplit; cbn [mv vadd vx vy vz a00 a01 a02 a10 a11 a12 a20 a21 a22]; dring. Qed.
Lemma m3_D_unique f x d e : is_derive_m3 f x d -> is_derive_m3 f x e -> d = e.
Proof.
  intros ((?&?&?)&(?&?&?)&(?&?&?)) ((?&?&?)&(?&?&?)&(?&?&?)). destruct d, e; cbn in *. f_equal; eapply D_unique; eauto.
Qed.
Lemma v3_D_unique f x d e : is_derive_v3 f x d -> is_derive_v3 f x e -> d = e.
Proof. intros (?&?&?) (?&?&?). destruct d, e; cbn in *. f_equal; eapply D_unique; eauto. Qed.
Lemma ment_D f x d : is_derive_m3 f x d -> forall i j, is_derive (fun t => ment (f t) i j) x (ment d i j).
Proof.
  intros ((?&?&?)&(?&?&?)&(?&?&?)) i j. destruct i as [|[|[|i]]], j as [|[|[|j]]]; cbn; auto; apply D_const.
Qed.
Lemma vent_D f x d : is_derive_v3 f x d -> forall i, is_derive (fun t => vent (f t) i) x (vent d i).
Proof. intros (?&?&?) i. destruct i as [|[|[|i]]]; cbn; auto; apply D_const. Qed.

(** ** 6D *)
Definition is_derive_m6 (f : R -> m6) (x : R) (d : m6) : Prop :=
  is_derive_m3 (fun t => bll (f t)) x (bll d) /\ is_derive_m3 (fun t => bla (f t)) x (bla d) /\
  is_derive_m3 (fun t => bal (f t)) x (bal d) /\ is_derive_m3 (fun t => baa (f t)) x (baa d).
Definition is_derive_v6 (f : R -> v6) (x : R) (d : v6) : Prop :=
  is_derive_v3 (fun t => lin (f t)) x (lin d) /\ is_derive_v3 (fun t => ang (f t)) x (ang d).
Lemma m6ent_D f x d : is_derive_m6 f x d -> forall i j, is_derive (fun t => m6ent (f t) i j) x (m6ent d i j).
Proof.
  intros (A & B & C & D) i j. unfold m6ent. destruct (i <? 3)%nat, (j <? 3)%nat;
    [apply (ment_D (fun t => bll (f t)))|apply (ment_D (fun t => bla (f t)))|apply (ment_D (fun t => bal (f t)))|apply (ment_D (fun t => baa (f t)))]; auto.
Qed.
Lemma v6ent_D f x d : is_derive_v6 f x d -> forall i, is_derive (fun t => v6ent (f t) i) x (v6ent d i).
Proof.
  intros (A & B) i. unfold v6ent. destruct (i <? 3)%nat; [apply (vent_D (fun t => lin (f t)))|apply (vent_D (fun t => ang (f t)))]; auto.
Qed.
Lemma m6_D_const A x : is_derive_m6 (fun _ => A) x m60.
Proof. split; [|split; [|split]]; apply m3_D_const. Qed.
Lemma v6_D_const a x : is_derive_v6 (fun _ => a) x v60.
Proof. split; apply v3_D_const. Qed.
Lemma m6_D_ext f g x d : (forall t, f t = g t) -> is_derive_m6 f x d -> is_derive_m6 g x d.
Proof. intros E (A & B & C & D). split; [|split; [|split]]; eapply m3_D_ext; eauto; intros; cbn; rewrite E; reflexivity. Qed.
Lemma v6_D_ext f g x d : (forall t, f t = g t) -> is_derive_v6 f x d -> is_derive_v6 g x d.
Proof. intros E (A & B). split; eapply v3_D_ext; eauto; intros; cbn; rewrite E; reflexivity. Qed.
Lemma m6_D_mul f g x d e : is_derive_m6 f x d -> is_derive_m6 g x e ->
  is_derive_m6 (fun t => m6mul (f t) (g t)) x (m6add (m6mul d (g x)) (m6mul (f x) e)).
Proof.
  intros (A & B & C & D) (A' & B' & C' & D').
  assert (K : forall a b c d, madd (madd a b) (madd c d) = madd (madd a c) (madd b d)) by (intros; r3).
  split; [|split; [|split]]; cbn; rewrite K; apply (m3_D_add (fun t => mm _ _) (fun t => mm _ _));
    apply (m3_D_mul (fun t => _ (f t)) (fun t => _ (g t))); auto.
Qed.
Lemma v6_D_mv f g x d e : is_derive_m6 f x d -> is_derive_v6 g x e ->
  is_derive_v6 (fun t => m6v (f t) (g t)) x (v6add (m6v d (g x)) (m6v (f x) e)).
Proof.
  intros (A & B & C & D) (A' & B').
  assert (K : forall a b c d, vadd (vadd a b) (vadd c d) = vadd (vadd a c) (vadd b d)) by (intros; r3).
  split; cbn; rewrite K; apply (v3_D_add (fun t => mv _ _) (fun t => mv _ _)); apply (v3_D_mv (fun t => _ (f t)) (fun t => _ (g t))); auto.
Qed.
Lemma m6_D_add f g x d e : is_derive_m6 f x d -> is_derive_m6 g x e -> is_derive_m6 (fun t => m6add (f t) (g t)) x (m6add d e).
Proof. intros (A & B & C & D) (A' & B' & C' & D'). split; [|split; [|split]]; cbn; apply (m3_D_add (fun t => _ (f t)) (fun t => _ (g t))); auto. Qed.
Lemma v6_D_add f g x d e : is_derive_v6 f x d -> is_derive_v6 g x e -> is_derive_v6 (fun t => v6add (f t) (g t)) x (v6add d e).
Proof. intros (A & B) (A' & B'). split; cbn; apply (v3_D_add (fun t => _ (f t)) (fun t => _ (g t))); auto. Qed.
Lemma v6_D_opp f x d : is_derive_v6 f x d -> is_derive_v6 (fun t => v6opp (f t)) x (v6opp d).
Proof. intros (A & B). split; cbn; apply (v3_D_opp (fun t => _ (f t))); auto. Qed.
Lemma v6_D_unique f x d e : is_derive_v6 f x d -> is_derive_v6 f x e -> d = e.
Proof. intros (A & B) (A' & B'). apply v6_eq; eapply v3_D_unique; eauto. Qed.
Lemma m6_D_unique f x d e : is_derive_m6 f x d -> is_derive_m6 f x e -> d = e.
Proof. intros (A & B & C & D) (A' & B' & C' & D'). apply m6_eq; eapply m3_D_unique; eauto. Qed.

(** ** Motion *)
Lemma moves_ext f g x s : (forall t, f t = g t) -> moves f x s -> moves g x s.
Proof.
  intros E (A & B). split; [rewrite <- E; eapply m3_D_ext; [|exact A]|rewrite <- E; eapply v3_D_ext; [|exact B]]; intros; cbn; rewrite E; reflexivity.
Qed.
Lemma moves_const A x : moves (fun _ => A) x v60.
Proof. split; cbn; [rewrite skew_0, mm_0_r; apply m3_D_const|rewrite mv_0; apply v3_D_const]. Qed.
(** A constant transform in front does not change the velocity seen from the moving frame. *)
Lemma moves_left A f x s : moves f x s -> moves (fun t => pmul A (f t)) x s.
Proof.
  intros (M & V). split; cbn.
  - rewrite mm_assoc. evar (D : m3). assert (K : is_derive_m3 (fun t => mm (rot A) (rot (f t))) x D).
    { apply (m3_D_mul (fun _ => rot A) (fun t => rot (f t))); [apply m3_D_const|exact M]. }
    subst D. rewrite mm_0_l, madd_0_l in K. exact K.
  - rewrite mv_mm. evar (D : v3). assert (K : is_derive_v3 (fun t => vadd (mv (rot A) (pos (f t))) (pos A)) x D).
    { apply (v3_D_add (fun t => mv (rot A) (pos (f t))) (fun _ => pos A)); [|apply v3_D_const].
      apply (v3_D_mv (fun _ => rot A) (fun t => pos (f t))); [apply m3_D_const|exact V]. }
    subst D. rewrite mv_m30, vadd_0_l, vadd_0_r in K. exact K.
Qed.
(** A constant transform behind: the velocity is seen from the new frame. *)
Lemma moves_right B f x s : rigid B -> moves f x s -> moves (fun t => pmul (f t) B) x (m6v (Adj (pinv B)) s).
Proof.
  intros H (M & V). split; cbn.
  - evar (D : m3). assert (K : is_derive_m3 (fun t => mm (rot (f t)) (rot B)) x D).
    { apply (m3_D_mul (fun t => rot (f t)) (fun _ => rot B)); [exact M|apply m3_D_const]. }
    subst D. rewrite mm_0_r, madd_0_r in K. rewrite mv_m30, vadd_0_l.
    rewrite mm_assoc, <- skew_rot_tr, <- mm_assoc by auto. exact K.
  - evar (D : v3). assert (K : is_derive_v3 (fun t => vadd (mv (rot (f t)) (pos B)) (pos (f t))) x D).
    { apply (v3_D_add (fun t => mv (rot (f t)) (pos B)) (fun t => pos (f t))); [|exact V].
      apply (v3_D_mv (fun t => rot (f t)) (fun _ => pos B)); [exact M|apply v3_D_const]. }
    subst D. rewrite mv_0, vadd_0_r, mv_mm, <- mv_add in K.
    enough (E : mv (rot B) (vadd (mv (mtr (rot B)) (lin s)) (mv (mm (skew (vopp (mv (mtr (rot B)) (pos B)))) (mtr (rot B))) (ang s)))
                = vadd (mv (skew (ang s)) (pos B)) (lin s)).
    { rewrite mv_mm, E. exact K. }
    rewrite skew_opp, mm_neg_l, mv_neg.
    rewrite <- (skew_rot (mtr (rot B)) (pos B)) by (apply rotation_tr; auto).
    rewrite mv_add, mv_opp, <- !mv_mm, <- ?mm_assoc, !rot_r, ?mm_I_l, mv_I by auto.
    destruct s as [[] []], (pos B); r3.
Qed.
Lemma moves_unique f x s s' : rigid (f x) -> moves f x s -> moves f x s' -> s = s'.
Proof.
  intros H (A & B) (A' & B'). pose proof (m3_D_unique _ _ _ _ A A') as E. pose proof (v3_D_unique _ _ _ _ B B') as F.
  assert (K : forall X Y, mm (rot (f x)) X = mm (rot (f x)) Y -> X = Y).
  { intros X Y G. rewrite <- (mm_I_l X), <- (mm_I_l Y), <- (rot_l _ H), !mm_assoc, G. reflexivity. }
  apply K in E. apply v6_eq.
  - rewrite <- (mv_I (lin s)), <- (mv_I (lin s')), <- (rot_l _ H), !mv_mm, F. reflexivity.
  - unfold skew in E. injection E as _ Ez Ey. destruct (ang s) as [a b c], (ang s') as [a' b' c']; cbn in *. f_equal; lra.
Qed.
(** The product of two moving transforms. *)
Lemma moves_mul f g x s s' : rigid (g x) -> moves f x s -> moves g x s' ->
  moves (fun t => pmul (f t) (g t)) x (v6add (m6v (Adj (pinv (g x))) s) s').
Proof.
  intros H F G. destruct (moves_right (g x) f x s H F) as [A B]. destruct G as [C D]. destruct F as [F1 F2]. split; cbn.
  - evar (X : m3). assert (K : is_derive_m3 (fun t => mm (rot (f t)) (rot (g t))) x X).
    { apply (m3_D_mul (fun t => rot (f t)) (fun t => rot (g t))); [exact F1|exact C]. }
    subst X. rewrite skew_add, mm_add_r. cbn in A. 
    assert (A2 : is_derive_m3 (fun t => mm (rot (f t)) (rot (g x))) x (mm (mm (rot (f x)) (skew (ang s))) (rot (g x)))).
    { evar (Y : m3). assert (Q : is_derive_m3 (fun t => mm (rot (f t)) (rot (g x))) x Y).
      { apply (m3_D_mul (fun t => rot (f t)) (fun _ => rot (g x))); [exact F1|apply m3_D_const]. }
      subst Y. rewrite mm_0_r, madd_0_r in Q. exact Q. }
    rewrite <- (m3_D_unique _ _ _ _ A2 A). rewrite (mm_assoc (rot (f x)) (rot (g x)) (skew (ang s'))). exact K.
  - evar (X : v3). assert (K : is_derive_v3 (fun t => vadd (mv (rot (f t)) (pos (g t))) (pos (f t))) x X).
    { apply (v3_D_add (fun t => mv (rot (f t)) (pos (g t))) (fun t => pos (f t))); [|exact F2].
      apply (v3_D_mv (fun t => rot (f t)) (fun t => pos (g t))); [exact F1|exact D]. }
    subst X. rewrite mv_add. cbn in B.
    assert (B2 : is_derive_v3 (fun t => vadd (mv (rot (f t)) (pos (g x))) (pos (f t))) x
                   (vadd (mv (mm (rot (f x)) (skew (ang s))) (pos (g x))) (mv (rot (f x)) (lin s)))).
    { evar (Y : v3). assert (Q : is_derive_v3 (fun t => vadd (mv (rot (f t)) (pos (g x))) (pos (f t))) x Y).
      { apply (v3_D_add (fun t => mv (rot (f t)) (pos (g x))) (fun t => pos (f t))); [|exact F2].
        apply (v3_D_mv (fun t => rot (f t)) (fun _ => pos (g x))); [exact F1|apply v3_D_const]. }
      subst Y. rewrite mv_0, vadd_0_r in Q. exact Q. }
    rewrite <- (v3_D_unique _ _ _ _ B2 B). rewrite (mv_mm (rot (f x)) (rot (g x)) (lin s')).
    match type of K with is_derive_v3 _ _ ?d => match goal with |- is_derive_v3 _ _ ?e => replace e with d; [exact K|] end end.
    generalize (mv (mm (rot (f x)) (skew (ang s))) (pos (g x))), (mv (rot (f x)) (mv (rot (g x)) (lin s'))), (mv (rot (f x)) (lin s)). intros; r3.
Qed.
(** The operators on twists and wrenches of a moving transform. *)
Lemma Adj_moves f x s : rigid (f x) -> moves f x s -> is_derive_m6 (fun t => Adj (f t)) x (m6mul (Adj (f x)) (adx s)).
Proof.
  intros H (A & B). unfold Adj, adx, m6mul. cbn [bll bla bal baa].
  rewrite !mm_0_r, !mm_0_l, !madd_0_l, !madd_0_r. split; [|split; [|split]]; cbn [bll bla bal baa]; auto; [|apply m3_D_const].
  evar (D : m3). assert (K : is_derive_m3 (fun t => mm (skew (pos (f t))) (rot (f t))) x D).
  { apply (m3_D_mul (fun t => skew (pos (f t))) (fun t => rot (f t))); [apply m3_D_skew; exact B|exact A]. }
  subst D. rewrite <- skew_rot, <- mm_assoc in K by auto. exact K.
Qed.
Lemma AdjW_moves f x s : rigid (f x) -> moves f x s -> is_derive_m6 (fun t => AdjW (f t)) x (m6mul (AdjW (f x)) (adw s)).
Proof.
  intros H (A & B). unfold AdjW, adw, m6mul. cbn [bll bla bal baa].
  rewrite !mm_0_r, !mm_0_l, !madd_0_l, !madd_0_r. split; [|split; [|split]]; cbn [bll bla bal baa]; auto; [apply m3_D_const|].
  evar (D : m3). assert (K : is_derive_m3 (fun t => mm (skew (pos (f t))) (rot (f t))) x D).
  { apply (m3_D_mul (fun t => skew (pos (f t))) (fun t => rot (f t))); [apply m3_D_skew; exact B|exact A]. }
  subst D. rewrite <- skew_rot, <- mm_assoc, madd_comm in K by auto. exact K.
Qed.
