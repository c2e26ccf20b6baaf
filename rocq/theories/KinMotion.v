(** How the velocities of the frames of a robot are related, and how they change with the joints (no model of the
    code here). *)
From Coq Require Import Reals List Arith Lia Lra Bool FunctionalExtensionality.
From Coquelicot Require Import Coquelicot.
From Verif Require Import Spec PartialLib SpecRigid Rigid RigidCalc KinTree KinLib.
Import ListNotations.
Local Open Scope R_scope.

(** ** Algebra *)
Ltac v6r := intros; repeat match goal with a : v6 |- _ => destruct a as [[] []] | A : m6 |- _ => destruct A as [[] [] [] []] end;
  unfold v6add, v6opp, v6scale, m6v, m6neg, m6add, v60, v30, vadd, vopp, vscale, mv, madd, mneg; cbn; f_equal; f_equal; ring.
Lemma v6scale_add k a b : v6scale k (v6add a b) = v6add (v6scale k a) (v6scale k b). Proof. v6r. Qed.
Lemma v6scale_0 k : v6scale k v60 = v60. Proof. v6r. Qed.
Lemma v6scale_z a : v6scale 0 a = v60. Proof. v6r. Qed.
Lemma m6v_scale A k a : m6v A (v6scale k a) = v6scale k (m6v A a). Proof. v6r. Qed.
Lemma adx_self a : m6v (adx a) a = v60. Proof. destruct a as [[] []]. unfold m6v, adx, skew, m30, v60, v30, mv, vadd. cbn. f_equal; f_equal; ring. Qed.
Lemma v6opp_0 : v6opp v60 = v60. Proof. unfold v6opp, v60, vopp, v30. cbn. f_equal; f_equal; ring. Qed.
Lemma v6opp_add a b : v6opp (v6add a b) = v6add (v6opp a) (v6opp b). Proof. v6r. Qed.
Lemma v6scale_opp k a : v6scale k (v6opp a) = v6opp (v6scale k a). Proof. v6r. Qed.

Fixpoint v6sum (n : nat) (f : nat -> v6) : v6 := match n with O => v60 | S k => v6add (v6sum k f) (f k) end.
Lemma v6sum_ext n f g : (forall i, (i < n)%nat -> f i = g i) -> v6sum n f = v6sum n g.
Proof. induction n as [|n IH]; intros H; [reflexivity|]. cbn. rewrite IH, H; auto. Qed.
Lemma v6sum_0 n : v6sum n (fun _ => v60) = v60.
Proof. induction n as [|n IH]; cbn; [reflexivity|]. rewrite IH. apply v6add_0_l. Qed.
Lemma v6sum_add n f g : v6sum n (fun i => v6add (f i) (g i)) = v6add (v6sum n f) (v6sum n g).
Proof. induction n as [|n IH]; cbn; [symmetry; apply v6add_0_l|]. rewrite IH. rewrite !v6add_assoc. f_equal. rewrite <- !v6add_assoc. f_equal. apply v6add_comm. Qed.
Lemma m6v_sum A n f : m6v A (v6sum n f) = v6sum n (fun i => m6v A (f i)).
Proof. induction n as [|n IH]; cbn; [apply m6v_0|]. rewrite m6v_add, IH. reflexivity. Qed.
Lemma v6sum_one n k a : (k < n)%nat -> v6sum n (fun i => if (i =? k)%nat then a else v60) = a.
Proof.
  induction n as [|n IH]; intros H; [lia|]. cbn. destruct (Nat.eqb_spec n k) as [->|N].
  - rewrite (v6sum_ext _ _ (fun _ => v60)); [rewrite v6sum_0; apply v6add_0_l|]. intros i Hi. destruct (Nat.eqb_spec i k); [lia|reflexivity].
  - rewrite IH by lia. apply v6add_0_r.
Qed.
Lemma vent_add a b i : vent (vadd a b) i = vent a i + vent b i.
Proof. destruct i as [|[|[|i]]]; cbn; ring. Qed.
Lemma vent_opp a i : vent (vopp a) i = - vent a i.
Proof. destruct i as [|[|[|i]]]; cbn; ring. Qed.
Lemma vent_scale k a i : vent (vscale k a) i = k * vent a i.
Proof. destruct i as [|[|[|i]]]; cbn; ring. Qed.
Lemma v6ent_add a b i : v6ent (v6add a b) i = v6ent a i + v6ent b i.
Proof. unfold v6ent. destruct (i <? 3)%nat; cbn [lin ang v6add]; apply vent_add. Qed.
Lemma v6ent_opp a i : v6ent (v6opp a) i = - v6ent a i.
Proof. unfold v6ent. destruct (i <? 3)%nat; cbn [lin ang v6opp]; apply vent_opp. Qed.
Lemma v6ent_scale k a i : v6ent (v6scale k a) i = k * v6ent a i.
Proof. unfold v6ent. destruct (i <? 3)%nat; cbn [lin ang v6scale]; apply vent_scale. Qed.
Lemma v6ent_sum n f i : v6ent (v6sum n f) i = sumn n (fun k => v6ent (f k) i).
Proof. induction n as [|n IH]; cbn; [apply v6ent_0|]. rewrite v6ent_add, IH. reflexivity. Qed.
Lemma v6_D_sum n (f : nat -> R -> v6) x (d : nat -> v6) : (forall i, (i < n)%nat -> is_derive_v6 (f i) x (d i)) ->
  is_derive_v6 (fun t => v6sum n (fun i => f i t)) x (v6sum n d).
Proof. induction n as [|n IH]; intros H; cbn; [apply v6_D_const|]. apply v6_D_add; auto. Qed.

(** ** Inverses *)
Lemma moves_inv f x s : (forall t, rigid (f t)) -> moves f x s -> moves (fun t => pinv (f t)) x (v6opp (m6v (Adj (f x)) s)).
Proof.
  intros RG [A B].
  assert (T : is_derive_m3 (fun t => mtr (rot (f t))) x (mtr (mm (rot (f x)) (skew (ang s))))) by (apply m3_D_tr; exact A).
  split; cbn [pinv rot pos].
  - replace (mm (mtr (rot (f x))) (skew (ang (v6opp (m6v (Adj (f x)) s))))) with (mtr (mm (rot (f x)) (skew (ang s)))); [exact T|].
    assert (E : ang (v6opp (m6v (Adj (f x)) s)) = mv (rot (f x)) (vopp (ang s))).
    { cbn [ang v6opp m6v Adj bal baa]. rewrite mv_m30, vadd_0_l, mv_opp. reflexivity. }
    rewrite E. rewrite mtr_mm.
    pose proof (rotation_tr _ (RG x)) as RT.
    rewrite (skew_rot _ _ RT). rewrite <- mv_mm, (proj1 (RG x)), mv_I. f_equal.
    destruct (ang s). unfold skew, mtr, vopp. cbn. f_equal; ring.
  - assert (V3E : forall d d', d = d' -> is_derive_v3 (fun t => vopp (mv (mtr (rot (f t))) (pos (f t)))) x d -> is_derive_v3 (fun t => vopp (mv (mtr (rot (f t))) (pos (f t)))) x d') by (intros d d' ->; auto).
    refine (V3E _ _ _ (v3_D_opp _ x _ (v3_D_mv (fun t => mtr (rot (f t))) (fun t => pos (f t)) x _ _ T B))).
    cbv beta. 
    assert (E : lin (v6opp (m6v (Adj (f x)) s)) = vopp (vadd (mv (rot (f x)) (lin s)) (mv (skew (pos (f x))) (mv (rot (f x)) (ang s))))).
    { rewrite <- mv_mm. reflexivity. }
    rewrite E, mtr_mm, mv_opp. f_equal. rewrite mv_add, <- !mv_mm, (proj1 (RG x)), mv_I.
    pose proof (rotation_tr _ (RG x)) as RT.
    rewrite (skew_rot _ (pos (f x)) RT). rewrite mm_assoc, (proj1 (RG x)), mm_I_r. rewrite mv_mm.
    generalize (mv (mtr (rot (f x))) (pos (f x))) as q. intros q. destruct s as [[] []], q. unfold vadd, mv, skew, mtr. cbn. f_equal; ring.
Qed.
Lemma Adj_inv_moves f x s : (forall t, rigid (f t)) -> moves f x s ->
  is_derive_m6 (fun t => Adj (pinv (f t))) x (m6neg (m6mul (adx s) (Adj (pinv (f x))))).
Proof.
  intros RG M. pose proof (moves_inv f x s RG M) as MI. apply Adj_moves in MI; [|apply rigid_inv, RG].
  replace (m6neg (m6mul (adx s) (Adj (pinv (f x))))) with (m6mul (Adj (pinv (f x))) (adx (v6opp (m6v (Adj (f x)) s)))); [exact MI|].
  assert (N : forall a, adx (v6opp a) = m6neg (adx a)).
  { intros [[] []]. unfold adx, v6opp, m6neg, skew, mneg, vopp, m30. cbn. f_equal; f_equal; ring. }
  rewrite N, m6mul_neg_r. f_equal. rewrite adx_Adj by (apply rigid_inv, RG).
  rewrite <- m6v_mul, Adj_inv_l, m6v_I by apply RG. reflexivity.
Qed.
(** A joint that moves with the time. *)
Lemma moves_comp f (h : R -> R) (x h' : R) s : is_derive h x h' -> moves f (h x) s -> moves (fun t => f (h t)) x (v6scale h' s).
Proof.
  intros Hh [((A0&A1&A2)&(A3&A4&A5)&(A6&A7&A8)) (B0&B1&B2)].
  assert (C : forall (g : R -> R) (d e : R), is_derive g (h x) d -> h' * d = e -> is_derive (fun t => g (h t)) x e).
  { intros g d e Hg <-. exact (is_derive_comp g h x d h' Hg Hh). }
  unfold moves, is_derive_m3, is_derive_v3. destruct s as [[l0 l1 l2] [w0 w1 w2]].
  split; [split; [split; [|split]|split; [split; [|split]|split; [|split]]]|split; [|split]];
    [refine (C (fun t => a00 (rot (f t))) _ _ A0 _)|refine (C (fun t => a01 (rot (f t))) _ _ A1 _)|refine (C (fun t => a02 (rot (f t))) _ _ A2 _)|refine (C (fun t => a10 (rot (f t))) _ _ A3 _)|refine (C (fun t => a11 (rot (f t))) _ _ A4 _)|refine (C (fun t => a12 (rot (f t))) _ _ A5 _)|refine (C (fun t => a20 (rot (f t))) _ _ A6 _)|refine (C (fun t => a21 (rot (f t))) _ _ A7 _)|refine (C (fun t => a22 (rot (f t))) _ _ A8 _)|refine (C (fun t => vx (pos (f t))) _ _ B0 _)|refine (C (fun t => vy (pos (f t))) _ _ B1 _)|refine (C (fun t => vz (pos (f t))) _ _ B2 _)];
    unfold v6scale, vscale, mm, mv, skew; cbn; ring.
Qed.

Section Motion.
Variable r : robot.
Variable place : vec -> nat -> pose.
Variable dofs : nat.
Variable up : nat -> nat -> option (nat * nat).
Variable depth : nat -> nat -> nat.
Variable jac : vec -> nat -> nat -> nat -> v6.
Notation links := (r_links r).
Notation fl := (frame_link r).
Notation rel := (relative r place).
Hypothesis rok : robot_ok r.
Hypothesis plc : placement r place.
Hypothesis trav : forall b, (b < links)%nat -> traversal r b (up b) (depth b).
Hypothesis one_dof : (length (r_joints r) <= dofs)%nat.
Hypothesis jac_ok : forall s f g i, frame_ok r f -> frame_ok r g -> (i < dofs)%nat -> moves (fun x => rel (vset s i x) f g) (s i) (jac s f g i).

Lemma vset_comm (s : vec) i k x y : i <> k -> vset (vset s i x) k y = vset (vset s k y) i x.
Proof. intros N. apply functional_extensionality. intros n. unfold vset. destruct (Nat.eqb_spec n k), (Nat.eqb_spec n i); congruence. Qed.
Lemma vset_vset (s : vec) i x y : vset (vset s i x) i y = vset s i y.
Proof. apply functional_extensionality. intros n. unfold vset. destruct (Nat.eqb_spec n i); congruence. Qed.
Lemma vset_other (s : vec) i k x : i <> k -> vset s i x k = s k.
Proof. intros N. unfold vset. destruct (Nat.eqb_spec k i); congruence. Qed.
Lemma vset_at (s : vec) i x : vset s i x i = x.
Proof. unfold vset. rewrite Nat.eqb_refl. reflexivity. Qed.

(** The velocity of the third frame is made of that of the second one and the relative velocity. *)
Lemma jac_chain s a f g i : frame_ok r a -> frame_ok r f -> frame_ok r g -> (i < dofs)%nat ->
  jac s a g i = v6add (m6v (Adj (rel s g f)) (jac s a f i)) (jac s f g i).
Proof.
  intros A F G Hi. refine (moves_unique _ _ _ _ _ (jac_ok s a g i A G Hi) _).
  - cbv beta. rewrite vset_same. apply rel_rigid; auto.
  - eapply moves_ext; [intros t; apply (rel_mul r place rok plc _ a f g F)|].
    replace (Adj (rel s g f)) with (Adj (pinv (rel (vset s i (s i)) f g))).
    + apply moves_mul; [|apply jac_ok; auto|apply jac_ok; auto]. cbv beta. rewrite vset_same. apply rel_rigid; auto.
    + rewrite vset_same, (rel_inv r place rok plc) by auto. reflexivity.
Qed.
Definition indep (i f g : nat) : Prop := forall s x, rel (vset s i x) f g = rel s f g.
Lemma jac_none s i f g : frame_ok r f -> frame_ok r g -> (i < dofs)%nat -> indep i f g -> jac s f g i = v60.
Proof.
  intros F G Hi I. refine (moves_unique _ _ _ _ _ (jac_ok s f g i F G Hi) _).
  - cbv beta. rewrite vset_same. apply rel_rigid; auto.
  - eapply moves_ext; [intros t; symmetry; apply I|]. apply moves_const.
Qed.
Lemma jac_indep s i f g k y : frame_ok r f -> frame_ok r g -> (i < dofs)%nat -> (k < dofs)%nat -> indep i f g -> jac (vset s i y) f g k = jac s f g k.
Proof.
  intros F G Hi Hk I. destruct (Nat.eq_dec i k) as [<-|N]; [rewrite !jac_none; auto|].
  refine (moves_unique _ _ _ _ _ (jac_ok (vset s i y) f g k F G Hk) _).
  - cbv beta. rewrite vset_same. apply rel_rigid; auto.
  - rewrite vset_other by auto. eapply moves_ext; [|apply (jac_ok s f g k F G Hk)].
    intros t. cbv beta. rewrite vset_comm by auto. symmetry. apply I.
Qed.
Lemma indep_sym i f g : frame_ok r f -> frame_ok r g -> indep i f g -> indep i g f.
Proof. intros F G I s x. rewrite <- !(rel_inv r place rok plc _ f g) by auto. rewrite I. reflexivity. Qed.
Lemma indep_trans i f g h : frame_ok r g -> indep i f g -> indep i g h -> indep i f h.
Proof. intros G I J s x. rewrite <- !(rel_mul r place rok plc _ f g h) by auto. rewrite I, J. reflexivity. Qed.
Lemma indep_own i g : frame_ok r g -> indep i (fl g) g.
Proof.
  intros G s x. assert (T : frame_ok r (fl g)) by (apply link_ok, fl_lt; auto). rewrite !(rel_rl r place rok plc) by auto.
  rewrite !(fl_link r (fl g)), !(rl_same r place plc) by (apply fl_lt; auto). reflexivity.
Qed.
Lemma rel_links s a c : (a < links)%nat -> (c < links)%nat -> rel s a c = rl place s a c.
Proof.
  intros A C. rewrite (rel_rl r place rok plc) by (apply link_ok; auto). rewrite !(fl_link r), !(fo_link r) by auto.
  rewrite pinv_id, pmul_id_l, pmul_id_r. reflexivity.
Qed.
(** One joint. *)
Lemma joint_jac s p c i j : nth_error (r_joints r) i = Some j -> connects j p c -> p <> c -> (p < links)%nat -> (c < links)%nat ->
  (i < dofs)%nat /\ jac s p c i = axis_of j c /\ (forall k, k <> i -> indep k p c) /\ (forall k, (k < dofs)%nat -> k <> i -> jac s p c k = v60).
Proof.
  intros E C N P L. assert (Hi : (i < dofs)%nat) by (assert (i < length (r_joints r))%nat by (apply nth_error_Some; congruence); lia).
  assert (I : forall k, k <> i -> indep k p c).
  { intros k Nk s' x. rewrite !rel_links by auto. destruct (edge_moves r place rok plc s' p c i j E C N P L) as [_ EM]. apply EM; auto. }
  split; [exact Hi|]. split; [|split; [exact I|]].
  - refine (moves_unique _ _ _ _ _ (jac_ok s p c i ltac:(apply link_ok; auto) ltac:(apply link_ok; auto) Hi) _).
    + cbv beta. rewrite vset_same. apply rel_rigid; auto; apply link_ok; auto.
    + destruct (edge_moves r place rok plc s p c i j E C N P L) as [M _]. eapply moves_ext; [|exact M]. intros t. symmetry. apply rel_links; auto.
  - intros k Hk Nk. apply jac_none; auto; apply link_ok; auto.
Qed.
(** The joints on the path. *)
Lemma path_indep b t l : (b < links)%nat -> path (up b) b t l -> (t < links)%nat -> forall c p i, In (c, p, i) l -> indep i c t /\ indep i b p.
Proof.
  intros Hb P. induction P as [|t q k l N U P IH]; intros Ht c p i I; [contradiction|].
  destruct (trav b Hb t Ht N) as (q' & k' & j & U' & E & C & Hq & D). rewrite U in U'. injection U' as <- <-.
  assert (PP : path (up b) b t ((t, q, k) :: l)) by (econstructor; eauto).
  assert (Nqt : q <> t) by (intros ->; lia).
  destruct I as [I|I].
  - injection I as <- <- <-. split.
    + intros s x. rewrite !(rel_same r place rok plc) by (apply link_ok; auto). reflexivity.
    + intros s x. rewrite !rel_links by auto. apply (proj2 (path_links_moves r place rok plc b (up b) (depth b) (trav b Hb) Hb q l P Hq s k)).
      exact (path_joint_fresh r b (up b) (depth b) (trav b Hb) Hb t q k l PP Ht).
  - assert (Nik : (i <> k)%type).
    { intros E0. rewrite <- E0 in PP. exact (path_joint_fresh r b (up b) (depth b) (trav b Hb) Hb t q i l PP Ht c p I). }
    destruct (IH Hq c p i I) as [I1 I2]. split; [|exact I2].
    apply (indep_trans i c q t); [apply link_ok; auto|exact I1|].
    destruct (joint_jac (fun _ => 0) q t k j E C Nqt Hq Ht) as (_ & _ & X & _). apply X; auto.
Qed.
Lemma path_joint b t l c p i : (b < links)%nat -> path (up b) b t l -> (t < links)%nat -> In (c, p, i) l ->
  exists j, nth_error (r_joints r) i = Some j /\ connects j p c /\ p <> c /\ (p < links)%nat /\ (c < links)%nat.
Proof.
  intros Hb P Ht I. destruct (path_step r b (up b) (depth b) (trav b Hb) Hb _ _ _ _ _ P Ht I) as (Hc & _ & _ & _ & j & E & C & Hp & D).
  exists j. split; [exact E|]. split; [exact C|]. split; [intros ->; lia|]. split; [exact Hp|exact Hc].
Qed.

(** The velocity of frame f when the base frame moves with b and the joints with sd. *)
Definition W (a : nat) (s sd : vec) (b : v6) (f : nat) : v6 :=
  v6add (m6v (Adj (rel s f a)) b) (v6sum dofs (fun k => v6scale (sd k) (jac s a f k))).
Definition JV (s sd : vec) (f g : nat) : v6 := v6sum dofs (fun k => v6scale (sd k) (jac s f g k)).
Lemma JV_chain s sd a f g : frame_ok r a -> frame_ok r f -> frame_ok r g -> JV s sd a g = v6add (m6v (Adj (rel s g f)) (JV s sd a f)) (JV s sd f g).
Proof.
  intros A F G. unfold JV. rewrite m6v_sum, <- v6sum_add. apply v6sum_ext. intros k Hk.
  rewrite m6v_scale, <- v6scale_add. f_equal. apply jac_chain; auto.
Qed.
Lemma W_chain a s sd b f g : frame_ok r a -> frame_ok r f -> frame_ok r g -> W a s sd b g = v6add (m6v (Adj (rel s g f)) (W a s sd b f)) (JV s sd f g).
Proof.
  intros A F G. unfold W. change (v6sum dofs (fun k => v6scale (sd k) (jac s a g k))) with (JV s sd a g).
  rewrite (JV_chain s sd a f g) by auto. rewrite m6v_add, <- m6v_mul, (Adj_rel r place rok plc) by auto. rewrite !v6add_assoc. reflexivity.
Qed.
Lemma JV_joint s sd p c i j : nth_error (r_joints r) i = Some j -> connects j p c -> p <> c -> (p < links)%nat -> (c < links)%nat ->
  JV s sd p c = v6scale (sd i) (axis_of j c).
Proof.
  intros E C N P L. destruct (joint_jac s p c i j E C N P L) as (Hi & J & _ & Z). unfold JV.
  rewrite <- (v6sum_one dofs i (v6scale (sd i) (axis_of j c)) Hi). apply v6sum_ext. intros k Hk.
  destruct (Nat.eqb_spec k i) as [->|Nk]; [rewrite J; reflexivity|]. rewrite Z by auto. apply v6scale_0.
Qed.
Lemma JV_indep s sd f g i x : frame_ok r f -> frame_ok r g -> (i < dofs)%nat -> indep i f g -> JV (vset s i x) sd f g = JV s sd f g.
Proof. intros F G Hi I. unfold JV. apply v6sum_ext. intros k Hk. rewrite jac_indep; auto. Qed.
Lemma W_indep a s sd b f i x : frame_ok r a -> frame_ok r f -> (i < dofs)%nat -> indep i a f -> W a (vset s i x) sd b f = W a s sd b f.
Proof.
  intros A F Hi I. unfold W. rewrite (indep_sym i a f A F I s x). f_equal. apply (JV_indep s sd a f i x); auto.
Qed.
(** What changes with a joint of the path: the derivative is minus the cross product with its axis. *)
Lemma W_moves a s sd b f l i : frame_ok r a -> frame_ok r f -> (i < dofs)%nat -> path (up (fl a)) (fl a) (fl f) l ->
  (forall c p j, In (c, p, i) l -> nth_error (r_joints r) i = Some j ->
    is_derive_v6 (fun x => W a (vset s i x) sd b f) (s i) (m6v (Adj (rel s f c)) (v6opp (m6v (adx (axis_of j c)) (W a s sd b c))))) /\
  ((forall c p, ~ In (c, p, i) l) -> is_derive_v6 (fun x => W a (vset s i x) sd b f) (s i) v60).
Proof.
  intros A F Hi P. pose proof (fl_lt r rok a A) as Ha. pose proof (fl_lt r rok f F) as Hf.
  assert (TA : frame_ok r (fl a)) by (apply link_ok; auto). assert (TF : frame_ok r (fl f)) by (apply link_ok; auto).
  split.
  - intros c p j I E. destruct (path_joint _ _ _ _ _ _ Ha P Hf I) as (j' & E' & C & N & Hp & Hc). rewrite E in E'. injection E' as <-.
    assert (OC : frame_ok r c) by (apply link_ok; auto). assert (OP : frame_ok r p) by (apply link_ok; auto).
    destruct (path_indep _ _ _ Ha P Hf _ _ _ I) as [I1 I2].
    assert (ICF : indep i c f) by (apply (indep_trans i c (fl f) f); auto; apply indep_own; auto).
    assert (IAP : indep i a p) by (apply (indep_trans i a (fl a) p); auto; apply indep_sym; auto; apply indep_own; auto).
    assert (Q : forall x, W a (vset s i x) sd b f =
       v6add (m6v (Adj (rel s f c)) (v6add (m6v (Adj (pinv (rel (vset s i x) p c))) (W a s sd b p)) (v6scale (sd i) (axis_of j c)))) (JV s sd c f)).
    { intros x. rewrite (W_chain a (vset s i x) sd b c f) by auto. rewrite (indep_sym i c f OC F ICF s x).
      rewrite (W_chain a (vset s i x) sd b p c) by auto. rewrite (W_indep a s sd b p i x) by auto. rewrite (JV_joint _ sd p c i j) by auto.
      rewrite (JV_indep s sd c f i x) by auto. rewrite (rel_inv r place rok plc) by auto. reflexivity. }
    eapply v6_D_ext; [intros x; symmetry; apply Q|].
    assert (MP : moves (fun x => rel (vset s i x) p c) (s i) (axis_of j c)).
    { pose proof (jac_ok s p c i OP OC Hi) as M. destruct (joint_jac s p c i j E C N Hp Hc) as (_ & J & _). rewrite J in M. exact M. }
    apply Adj_inv_moves in MP; [|intros t; apply rel_rigid; auto].
    pose proof (v6_D_mv _ (fun _ => W a s sd b p) (s i) _ _ MP (v6_D_const _ _)) as D1.
    pose proof (v6_D_add _ _ _ _ _ D1 (v6_D_const (v6scale (sd i) (axis_of j c)) (s i))) as D2.
    pose proof (v6_D_mv (fun _ => Adj (rel s f c)) _ (s i) _ _ (m6_D_const _ _) D2) as D3.
    pose proof (v6_D_add _ _ _ _ _ D3 (v6_D_const (JV s sd c f) (s i))) as D4. clear D1 D2 D3. cbv beta in D4.
    match type of D4 with is_derive_v6 _ _ ?d => replace (m6v (Adj (rel s f c)) (v6opp (m6v (adx (axis_of j c)) (W a s sd b c)))) with d; [exact D4|] end.
    rewrite v6add_0_r, m6v_m0, v6add_0_l, m6v_0, !v6add_0_r. f_equal. rewrite m6v_neg. f_equal. rewrite m6v_mul.
    rewrite vset_same. rewrite (W_chain a s sd b p c) by auto. rewrite (JV_joint s sd p c i j) by auto.
    rewrite m6v_add, m6v_scale, adx_self, v6scale_0, v6add_0_r. rewrite (rel_inv r place rok plc) by auto. reflexivity.
  - intros NI. assert (IAF : indep i a f).
    { apply (indep_trans i a (fl a) f); auto; [apply indep_sym; auto; apply indep_own; auto|].
      apply (indep_trans i (fl a) (fl f) f); auto; [|apply indep_own; auto]. intros s' x. rewrite !rel_links by auto.
      apply (path_links_moves r place rok plc _ _ _ (trav _ Ha) Ha _ _ P Hf); auto. }
    eapply v6_D_ext; [intros x; symmetry; apply W_indep; auto|]. apply v6_D_const.
Qed.
(** All the joints move. *)
Lemma rel_curve a f (sc : R -> vec) x (sd : vec) : frame_ok r a -> frame_ok r f -> (forall k, (k < dofs)%nat -> is_derive (fun t => sc t k) x (sd k)) ->
  moves (fun t => rel (sc t) a f) x (JV (sc x) sd a f).
Proof.
  intros A F D. pose proof (fl_lt r rok a A) as Ha. pose proof (fl_lt r rok f F) as Hf.
  assert (L : forall t l, path (up (fl a)) (fl a) t l -> (t < links)%nat -> moves (fun u => rel (sc u) (fl a) t) x (JV (sc x) sd (fl a) t)).
  { intros t l P. induction P as [|t q k l N U P IH]; intros Ht.
    - replace (JV (sc x) sd (fl a) (fl a)) with v60.
      + eapply moves_ext; [intros u; symmetry; apply (rel_same r place rok plc); apply link_ok; auto|]. apply moves_const.
      + unfold JV. rewrite <- (v6sum_0 dofs). apply v6sum_ext. intros k Hk. rewrite jac_none, v6scale_0; auto; try (apply link_ok; auto).
        intros s y. rewrite !(rel_same r place rok plc) by (apply link_ok; auto). reflexivity.
    - destruct (trav _ Ha t Ht N) as (q' & k' & j & U' & E & C & Hq & Dp). rewrite U in U'. injection U' as <- <-.
      assert (Nqt : q <> t) by (intros ->; lia). specialize (IH Hq).
      assert (OA : frame_ok r (fl a)) by (apply link_ok; auto). assert (OQ : frame_ok r q) by (apply link_ok; auto). assert (OT : frame_ok r t) by (apply link_ok; auto).
      rewrite (JV_chain (sc x) sd (fl a) q t) by auto. rewrite <- (rel_inv r place rok plc) by auto.
      eapply moves_ext; [intros u; apply (rel_mul r place rok plc _ _ q t OQ)|].
      apply moves_mul; [apply rel_rigid; auto|exact IH|].
      rewrite (JV_joint _ sd q t k j) by auto.
      destruct (joint_jac (sc x) q t k j E C Nqt Hq Ht) as (Hk & J & I & _).
      assert (Q : forall u, rel (sc u) q t = rel (vset (sc x) k (sc u k)) q t).
      { intros u. rewrite !rel_links by auto. destruct plc as [PR PJ]. unfold rl.
        pose proof (PJ (sc u) k j E) as Z1. pose proof (PJ (vset (sc x) k (sc u k)) k j E) as Z2. rewrite vset_at in Z2.
        destruct C as [[C1 C2]|[C1 C2]]; rewrite C1, C2 in Z1, Z2; rewrite Z1, Z2.
        - rewrite <- !pmul_assoc, !pinv_l by auto. reflexivity.
        - rewrite !pinv_mul by auto. rewrite !pmul_assoc, !pinv_l by auto. reflexivity. }
      eapply moves_ext; [intros u; symmetry; apply Q|].
      apply (moves_comp (fun y => rel (vset (sc x) k y) q t) (fun u => sc u k) x (sd k)); [apply D; auto|].
      rewrite <- J. apply jac_ok; auto. }
  assert (OA : frame_ok r (fl a)) by (apply link_ok; auto). assert (OF : frame_ok r (fl f)) by (apply link_ok; auto).
  destruct (path_exists r (fl a) (up (fl a)) (depth (fl a)) (trav _ Ha) Ha (fl f) Hf) as (l & P & _). specialize (L _ _ P Hf).
  assert (Z : forall u v, frame_ok r u -> frame_ok r v -> (forall i, indep i u v) -> JV (sc x) sd u v = v60).
  { intros u v OU OV I. unfold JV. rewrite <- (v6sum_0 dofs). apply v6sum_ext. intros k Hk. rewrite jac_none, v6scale_0; auto. }
  assert (RA : forall s, rel s a (fl a) = pinv (frame_offset r a)).
  { intros s. rewrite (rel_rl r place rok plc) by auto. rewrite (fl_link r (fl a)), (fo_link r (fl a)), (rl_same r place plc), pmul_id_l by auto. apply pmul_id_r. }
  assert (RF : forall s, rel s (fl f) f = frame_offset r f).
  { intros s. rewrite (rel_rl r place rok plc) by auto. rewrite (fl_link r (fl f)), (fo_link r (fl f)), (rl_same r place plc), pmul_id_l by auto. rewrite pinv_id. apply pmul_id_l. }
  rewrite (JV_chain (sc x) sd a (fl a) f) by auto.
  rewrite (Z a (fl a)) by (auto; intros i; apply indep_sym; auto; apply indep_own; auto). rewrite m6v_0, v6add_0_l.
  rewrite (JV_chain (sc x) sd (fl a) (fl f) f) by auto. rewrite (Z (fl f) f) by (auto; intros i; apply indep_own; auto). rewrite v6add_0_r.
  rewrite <- (rel_inv r place rok plc) by auto. rewrite RF.
  apply (moves_ext (fun u => pmul (pinv (frame_offset r a)) (pmul (rel (sc u) (fl a) (fl f)) (frame_offset r f)))).
  { intros u. rewrite <- (rel_mul r place rok plc _ a (fl a) f OA), RA. rewrite <- (rel_mul r place rok plc _ (fl a) (fl f) f OF), RF. reflexivity. }
  apply moves_left, moves_right; [apply fo_rigid; auto|exact L].
Qed.
Lemma W_curve a f (H : R -> pose) (sc : R -> vec) x (sd : vec) b : frame_ok r a -> frame_ok r f -> moves H x b ->
  (forall k, (k < dofs)%nat -> is_derive (fun t => sc t k) x (sd k)) -> moves (fun t => pmul (H t) (rel (sc t) a f)) x (W a (sc x) sd b f).
Proof.
  intros A F M D. unfold W. rewrite <- (rel_inv r place rok plc) by auto. apply moves_mul; [apply rel_rigid; auto|exact M|apply rel_curve; auto].
Qed.
End Motion.
