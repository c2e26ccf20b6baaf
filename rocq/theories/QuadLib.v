(** Proof library: quadratic costs of sparse linear forms, and matrices filled by
    loops of block assignments. *)
From Coq Require Import Reals List Arith Lia Lra Bool FunctionalExtensionality.
From Coquelicot Require Import Coquelicot.
From Verif Require Import Spec ConstraintsModel CostsModel PartialLib.
Import ListNotations.
Local Open Scope R_scope.

(** ** Sums over lists *)
Lemma lsum_ext {A} (f g : A -> R) l : (forall a, In a l -> f a = g a) -> lsum f l = lsum g l.
Proof. induction l; simpl; intros; auto. rewrite H, IHl; auto. Qed.
Lemma lsum_app {A} (f : A -> R) l l' : lsum f (l ++ l') = lsum f l + lsum f l'.
Proof. induction l; simpl; [ring|]. rewrite IHl; ring. Qed.
Lemma lsum_map {A B} (f : B -> R) (g : A -> B) l : lsum f (map g l) = lsum (fun a => f (g a)) l.
Proof. induction l; simpl; auto. rewrite IHl; auto. Qed.
Lemma lsum_scal {A} (c : R) (f : A -> R) l : lsum (fun a => c * f a) l = c * lsum f l.
Proof. induction l; simpl; [ring|]. rewrite IHl; ring. Qed.
Lemma lsum_scal_r {A} (c : R) (f : A -> R) l : lsum (fun a => f a * c) l = lsum f l * c.
Proof. induction l; simpl; [ring|]. rewrite IHl; ring. Qed.
Lemma lsum_plus {A} (f g : A -> R) l : lsum (fun a => f a + g a) l = lsum f l + lsum g l.
Proof. induction l; simpl; [ring|]. rewrite IHl; ring. Qed.
Lemma lsum_0 {A} (l : list A) : lsum (fun _ => 0) l = 0.
Proof. induction l; simpl; lra. Qed.
Lemma lsum_const {A} (c : R) (l : list A) : lsum (fun _ => c) l = INR (length l) * c.
Proof.
  induction l as [|a l IH]. { simpl; ring. }
  change (lsum (fun _ => c) (a :: l)) with (c + lsum (fun _ => c) l). rewrite IH.
  change (length (a :: l)) with (S (length l)). rewrite S_INR. ring.
Qed.
Lemma fold_sum {A} (f : A -> R) l s : fold_left (fun acc a => acc + f a) l s = s + lsum f l.
Proof. revert s; induction l; simpl; intros; [ring|]. rewrite IHl; ring. Qed.

Lemma partial_lsum {A} (l : list A) (f : A -> vec -> R) x k (d : A -> R) :
  (forall a, In a l -> partial (f a) x k (d a)) -> partial (fun y => lsum (fun a => f a y) l) x k (lsum d l).
Proof.
  induction l; simpl; intros. apply partial_const. apply partial_plus; auto.
Qed.

(** ** Sparse linear forms *)
Definition lf (l : list (nat * R)) (x : vec) : R := lsum (fun p => snd p * x (fst p)) l.
Definition co (l : list (nat * R)) (k : nat) : R := lsum (fun p => snd p * ind (fst p) k) l.
Lemma partial_lf l x k : partial (lf l) x k (co l k).
Proof.
  unfold lf, co. apply (partial_lsum l (fun p y => snd p * y (fst p))). intros.
  eapply partial_eq. { deriv idtac. } ring.
Qed.
Lemma co_out l k : ~ In k (map fst l) -> co l k = 0.
Proof.
  intros H. unfold co. rewrite (lsum_ext _ (fun _ => 0)); [apply lsum_0|].
  intros [i q] Hi; simpl. rewrite ind_neq; [ring|]. intros ->. apply H. apply (in_map fst) in Hi. auto.
Qed.
Lemma co_in l i q : NoDup (map fst l) -> In (i, q) l -> co l i = q.
Proof.
  induction l as [|[j p] l IH]; simpl; intros N Hi; [contradiction|].
  inversion N; subst. destruct Hi as [E|Hi].
  - injection E; intros; subst. unfold co; simpl. rewrite ind_refl. fold (co l i). rewrite co_out; auto. ring.
  - unfold co; simpl. fold (co l i). rewrite IH; auto. rewrite ind_neq; [ring|].
    intros ->. apply H1. apply (in_map fst) in Hi; auto.
Qed.

(** ** Quadratic costs *)
Record resid := { rw : R; rl : list (nat * R); rd : R }.
Definition quad (rs : list resid) (x : vec) : R :=
  lsum (fun r => / 2 * rw r * (lf (rl r) x - rd r)^2) rs.
Definition quad_grad (rs : list resid) (x : vec) (k : nat) : R :=
  lsum (fun r => rw r * (lf (rl r) x - rd r) * co (rl r) k) rs.
Definition quad_hess (rs : list resid) (j k : nat) : R :=
  lsum (fun r => rw r * co (rl r) j * co (rl r) k) rs.
Lemma quad_gradient rs x k : partial (quad rs) x k (quad_grad rs x k).
Proof.
  unfold quad, quad_grad. apply (partial_lsum rs (fun r x => / 2 * rw r * (lf (rl r) x - rd r)^2)). intros r _.
  eapply partial_eq.
  { eapply partial_mult. { apply partial_const. }
    eapply (partial_pow (fun y => lf (rl r) y - rd r)). eapply partial_minus. { apply (partial_lf (rl r)). } apply partial_const. }
  simpl. field.
Qed.
Lemma quad_grad_partial rs x j k : partial (fun y => quad_grad rs y j) x k (quad_hess rs j k).
Proof.
  unfold quad_grad, quad_hess. apply (partial_lsum rs (fun r y => rw r * (lf (rl r) y - rd r) * co (rl r) j)). intros r _.
  eapply partial_eq.
  { eapply partial_mult; [|apply partial_const]. eapply partial_mult. { apply partial_const. }
    eapply partial_minus. { apply (partial_lf (rl r)). } apply partial_const. }
  simpl. ring.
Qed.
Lemma quad_hessian rs x : is_hessian (quad rs) x (quad_hess rs).
Proof.
  exists (quad_grad rs). split. { intros y k. apply quad_gradient. } intros. apply quad_grad_partial.
Qed.
Lemma hessian_ext f g x H : (forall y, f y = g y) -> is_hessian f x H -> is_hessian g x H.
Proof.
  intros E [G [A B]]. exists G. split; auto. intros y k. eapply partial_ext; [exact E|apply A].
Qed.
Lemma hessian_eq f x H H' : (forall i j, H i j = H' i j) -> is_hessian f x H -> is_hessian f x H'.
Proof. intros E [G [A B]]. exists G. split; auto. intros. rewrite <- E; auto. Qed.
Lemma gradient_ext f g x G : (forall y, f y = g y) -> is_gradient f x G -> is_gradient g x G.
Proof. intros E A k. eapply partial_ext; [exact E|apply A]. Qed.
Lemma gradient_eq f x G G' : (forall k, G k = G' k) -> is_gradient f x G -> is_gradient f x G'.
Proof. intros E A k. rewrite <- E. apply A. Qed.
Lemma gradient_const (c : R) x : is_gradient (fun _ => c) x vzero.
Proof. intros k. apply partial_const. Qed.
Lemma hessian_const (c : R) x : is_hessian (fun _ => c) x mzero.
Proof. exists (fun _ => vzero). split; intros; [intros k|]; apply partial_const. Qed.
Lemma mixed_const_control (f : vec -> R) (g : vec -> vec) x u :
  (forall y, is_gradient f y (g y)) -> is_mixed_hessian (fun y _ => f y) x u mzero.
Proof. intros H. exists (fun y _ => g y). split; auto. intros. apply partial_const. Qed.

(** ** Weighted sums of components of points *)
Definition comp (P : list (nat * R)) (c : nat) : list (nat * R) := map (fun p => (fst p + c, snd p)%nat) P.
Lemma lf_comp P c x : lf (comp P c) x = lsum (fun p => snd p * x (fst p + c)%nat) P.
Proof. unfold lf, comp. rewrite lsum_map. reflexivity. Qed.

Lemma disjoint_in n l a b : disjoint_ranges n l -> In a l -> In b l -> a = b \/ (a + n <= b)%nat \/ (b + n <= a)%nat.
Proof.
  induction l; simpl; [tauto|]. intros [H D] [->|Ha] [->|Hb]; auto.
  - right. specialize (H a Ha). tauto.
Qed.
Lemma disjoint_weaken n m l : (m <= n)%nat -> disjoint_ranges n l -> disjoint_ranges m l.
Proof. intros L. induction l; simpl; auto. intros [H D]. split; auto. intros b Hb. specialize (H b Hb). lia. Qed.
Lemma disjoint_nodup n l : (0 < n)%nat -> disjoint_ranges n l -> NoDup l.
Proof.
  intros L. induction l; simpl; intros; constructor; try tauto.
  destruct H as [H _]. intros Hi. specialize (H a Hi). lia.
Qed.
Lemma disjoint_app n l l' : disjoint_ranges n (l ++ l') <->
  disjoint_ranges n l /\ disjoint_ranges n l' /\ (forall a b, In a l -> In b l' -> (a + n <= b)%nat \/ (b + n <= a)%nat).
Proof.
  induction l; simpl.
  - split; [intros; repeat split; auto; intros; contradiction|tauto].
  - split.
    + intros [H D]. apply IHl in D. destruct D as [D1 [D2 D3]].
      repeat split; auto.
      * intros b Hb. apply H. apply in_or_app; auto.
      * intros c b [->|Hc] Hb. { apply H. apply in_or_app; auto. } auto.
    + intros [[H D1] [D2 D3]]. split.
      * intros b Hb. apply in_app_or in Hb. destruct Hb; auto.
      * apply IHl. repeat split; auto.
Qed.

Lemma comp_fst P c : map fst (comp P c) = map (fun o => (o + c)%nat) (map fst P).
Proof. unfold comp. rewrite !map_map. reflexivity. Qed.

Lemma nodup_inj (l : list nat) c : NoDup l -> NoDup (map (fun o => (o + c)%nat) l).
Proof.
  induction l; simpl; intros; constructor; inversion H; subst; auto.
  rewrite in_map_iff. intros [b [E Hb]]. assert (b = a) by lia. subst; auto.
Qed.

Lemma co_comp n P o q a c : disjoint_ranges n (map fst P) -> In (o, q) P -> (a < n)%nat -> (c < n)%nat ->
  co (comp P c) (o + a) = if Nat.eqb a c then q else 0.
Proof.
  intros D Hi Ha Hc. destruct (Nat.eqb_spec a c).
  - subst. apply co_in.
    + rewrite comp_fst. apply nodup_inj. eapply disjoint_nodup; [|exact D]. lia.
    + unfold comp. apply in_map_iff. exists (o, q). split; auto.
  - apply co_out. rewrite comp_fst, in_map_iff. intros [o' [E Ho']].
    destruct (disjoint_in n _ o o' D) as [X|X].
    + apply (in_map fst) in Hi; auto.
    + auto.
    + subst; lia.
    + lia.
Qed.
Lemma co_comp_out P c k : (forall o q, In (o, q) P -> k <> (o + c)%nat) -> co (comp P c) k = 0.
Proof.
  intros H. apply co_out. rewrite comp_fst, in_map_iff. intros [o [E Ho]].
  apply in_map_iff in Ho. destruct Ho as [[o' q] [E' Hi]]. simpl in E'. subst. eapply H; eauto.
Qed.

(** The residuals: one per component, weight [w c], reference [d c]. *)
Definition comp_resids (m : nat) (P : list (nat * R)) (w d : vec) : list resid :=
  map (fun c => {| rw := w c; rl := comp P c; rd := d c |}) (seq 0 m).

Lemma lsum_seq m (f : nat -> R) : lsum f (seq 0 m) = sumn m f.
Proof.
  induction m; auto. rewrite seq_S, lsum_app, IHm. simpl. ring.
Qed.

Lemma quad_comp m P w d x : quad (comp_resids m P w d) x =
  sumn m (fun c => / 2 * w c * (lsum (fun p => snd p * x (fst p + c)%nat) P - d c)^2).
Proof.
  unfold quad, comp_resids. rewrite lsum_map, lsum_seq. apply sumn_ext. intros; simpl. rewrite lf_comp. reflexivity.
Qed.
Lemma quad_hess_at m n P w d o1 q1 o2 q2 a b :
  disjoint_ranges n (map fst P) -> (m <= n)%nat -> In (o1, q1) P -> In (o2, q2) P -> (a < m)%nat -> (b < m)%nat ->
  quad_hess (comp_resids m P w d) (o1 + a) (o2 + b) = if Nat.eqb a b then w a * q1 * q2 else 0.
Proof.
  intros D L H1 H2 Ha Hb. unfold quad_hess, comp_resids. rewrite lsum_map, lsum_seq. simpl.
  rewrite (sumn_single _ _ a); auto.
  - rewrite (co_comp n P o1 q1), (co_comp n P o2 q2); auto; try lia.
    rewrite Nat.eqb_refl, (Nat.eqb_sym b a). destruct (Nat.eqb a b); ring.
  - intros c Hc Hn. rewrite (co_comp n P o1 q1); auto; try lia.
    destruct (Nat.eqb_spec a c); [congruence|ring].
Qed.
Lemma quad_hess_out m P w d j k :
  (forall o1 q1 o2 q2 c, In (o1, q1) P -> In (o2, q2) P -> (c < m)%nat -> (j, k) <> (o1 + c, o2 + c)%nat) ->
  quad_hess (comp_resids m P w d) j k = 0.
Proof.
  intros H. unfold quad_hess, comp_resids. rewrite lsum_map, lsum_seq. simpl.
  rewrite (sumn_ext _ _ (fun _ => 0)); [apply sumn_0|]. intros c Hc.
  destruct (in_dec Nat.eq_dec j (map fst (comp P c))) as [I|N]; [|rewrite co_out; auto; ring].
  destruct (in_dec Nat.eq_dec k (map fst (comp P c))) as [I'|N]; [|rewrite (co_out _ k); auto; ring].
  exfalso. rewrite comp_fst, in_map_iff in I, I'. destruct I as [o1 [E1 I]]. destruct I' as [o2 [E2 I']].
  apply in_map_iff in I. destruct I as [[o1' q1] [? I]]. apply in_map_iff in I'. destruct I' as [[o2' q2] [? I']].
  simpl in *; subst. exact (H _ _ _ _ _ I I' Hc eq_refl).
Qed.
Lemma quad_grad_at m n P w d x o q a :
  disjoint_ranges n (map fst P) -> (m <= n)%nat -> In (o, q) P -> (a < m)%nat ->
  quad_grad (comp_resids m P w d) x (o + a) = w a * (lsum (fun p => snd p * x (fst p + a)%nat) P - d a) * q.
Proof.
  intros D L Hi Ha. unfold quad_grad, comp_resids. rewrite lsum_map, lsum_seq. simpl.
  rewrite (sumn_single _ _ a); auto.
  - rewrite (co_comp n P o q), Nat.eqb_refl, lf_comp; auto; lia.
  - intros c Hc Hn. rewrite (co_comp n P o q); auto; try lia.
    destruct (Nat.eqb_spec a c); [congruence|ring].
Qed.
Lemma quad_grad_out m P w d x k :
  (forall o q c, In (o, q) P -> (c < m)%nat -> k <> (o + c)%nat) ->
  quad_grad (comp_resids m P w d) x k = 0.
Proof.
  intros H. unfold quad_grad, comp_resids. rewrite lsum_map, lsum_seq. simpl.
  rewrite (sumn_ext _ _ (fun _ => 0)); [apply sumn_0|]. intros c Hc.
  rewrite co_comp_out; [ring|]. intros; eapply H; eauto.
Qed.

(** ** Loops of writes *)
Definition writes (F : mat) (W : nat -> nat -> bool) (f : mat -> mat) : Prop :=
  forall H i j, f H i j = if W i j then F i j else H i j.
Lemma writes_comp F W1 W2 f g : writes F W1 f -> writes F W2 g ->
  writes F (fun i j => W2 i j || W1 i j) (fun H => g (f H)).
Proof. intros A B H i j. rewrite B. destruct (W2 i j); simpl; auto. Qed.
Lemma writes_fold {A} F (W : A -> nat -> nat -> bool) (f : A -> mat -> mat) l :
  (forall a, In a l -> writes F (W a) (f a)) ->
  writes F (fun i j => existsb (fun a => W a i j) l) (fun H => fold_left (fun H a => f a H) l H).
Proof.
  induction l as [|a l IH]; intros Hl H i j; simpl; auto.
  rewrite IH by (intros; apply Hl; simpl; auto).
  rewrite (Hl a (or_introl eq_refl)). destruct (existsb _ l), (W a i j); auto.
Qed.
Definition blk (m r c i j : nat) : bool := in_range r m i && in_range c m j.
Lemma in_range_spec o n i : in_range o n i = true <-> (o <= i < o + n)%nat.
Proof. unfold in_range. rewrite andb_true_iff, Nat.leb_le, Nat.ltb_lt. tauto. Qed.
Lemma blk_spec m r c i j : blk m r c i j = true <-> exists a b, (a < m)%nat /\ (b < m)%nat /\ i = (r + a)%nat /\ j = (c + b)%nat.
Proof.
  unfold blk. rewrite andb_true_iff, !in_range_spec. split.
  - intros. exists (i - r)%nat, (j - c)%nat. lia.
  - intros [a [b H]]. lia.
Qed.
Lemma writes_block F m r c f :
  (forall a b, (a < m)%nat -> (b < m)%nat -> f a b = F (r + a)%nat (c + b)%nat) ->
  writes F (blk m r c) (fun H => set_block H r c m m f).
Proof.
  intros E H i j. unfold set_block. fold (blk m r c i j). destruct (blk m r c i j) eqn:B; auto.
  apply blk_spec in B. destruct B as [a [b [Ha [Hb [-> ->]]]]].
  rewrite E by lia. f_equal; lia.
Qed.
Lemma writes_block_copy F m r c f :
  (forall a b, (a < m)%nat -> (b < m)%nat -> f a b = F (r + a)%nat (c + b)%nat) ->
  (forall a b, (a < m)%nat -> (b < m)%nat -> f a b = F (c + a)%nat (r + b)%nat) ->
  writes F (fun i j => blk m c r i j || blk m r c i j)
    (fun H => let H := set_block H r c m m f in set_block H c r m m (block_of H r c)).
Proof.
  intros E E' H i j. cbv zeta. unfold set_block at 1. fold (blk m c r i j). destruct (blk m c r i j) eqn:B; simpl.
  - apply blk_spec in B. destruct B as [a [b [Ha [Hb [-> ->]]]]]. unfold block_of.
    rewrite (writes_block F m r c f E).
    replace (c + a - c)%nat with a by lia. replace (r + b - r)%nat with b by lia.
    assert (T : blk m r c (r + a) (c + b) = true). { apply blk_spec. exists a, b. lia. }
    rewrite T. rewrite <- E by auto. rewrite <- E' by auto. reflexivity.
  - apply (writes_block F m r c f E).
Qed.
Lemma writes_pairs {A} F (o : A -> nat) m (diag : A -> mat -> mat) (off : A -> A -> mat -> mat) l :
  (forall a, In a l -> writes F (blk m (o a) (o a)) (diag a)) ->
  (forall a b, In a l -> In b l -> writes F (fun i j => blk m (o b) (o a) i j || blk m (o a) (o b) i j) (off a b)) ->
  exists W, writes F W (pair_loop diag off l) /\
    forall a b i j, In a l -> In b l -> blk m (o a) (o b) i j = true -> W i j = true.
Proof.
  induction l as [|a l IH]; intros Hd Ho.
  - exists (fun _ _ => false). split. { intros H i j; reflexivity. } intros; contradiction.
  - destruct IH as [W [HW CW]]; try (intros; simpl in *; auto; fail).
    pose proof (writes_comp F _ _ _ _ (Hd a (or_introl eq_refl))
      (writes_fold F _ (off a) l (fun b Hb => Ho a b (or_introl eq_refl) (or_intror Hb)))) as H1.
    pose proof (writes_comp F _ _ _ _ H1 HW) as H2. simpl in H2.
    eexists. split. { exact H2. }
    intros x y i j Hx Hy B. cbv beta.
    destruct Hx as [<-|Hx]; destruct Hy as [<-|Hy].
    + rewrite B. rewrite !orb_true_r; auto.
    + apply orb_true_iff; right. apply orb_true_iff; left. apply existsb_exists. exists y. split; auto. rewrite B, orb_true_r; auto.
    + apply orb_true_iff; right. apply orb_true_iff; left. apply existsb_exists. exists x. split; auto. rewrite B; auto.
    + rewrite (CW x y); auto.
Qed.

Lemma in_identity_block r c n p : In p (identity_block r c n) <-> exists i, (i < n)%nat /\ p = (r + i, c + i)%nat.
Proof.
  unfold identity_block. rewrite in_map_iff. split.
  - intros [i [<- H]]. apply in_seq in H. exists i. split; [lia|auto].
  - intros [i [H ->]]. exists i. split; auto. apply in_seq; lia.
Qed.
Lemma in_dense_block r c n m p : In p (dense_block r c n m) <-> exists i j, (i < n)%nat /\ (j < m)%nat /\ p = (r + i, c + j)%nat.
Proof.
  unfold dense_block. rewrite in_flat_map. split.
  - intros [i [H Hj]]. apply in_map_iff in Hj. destruct Hj as [j [<- Hj]]. apply in_seq in H, Hj. exists i, j. repeat split; auto; lia.
  - intros [i [j [H [Hj ->]]]]. exists i. rewrite in_seq. split; [lia|]. apply in_map_iff. exists j. rewrite in_seq. split; auto; lia.
Qed.
Lemma in_pair_list {A} (o : A -> nat) (ib : nat -> nat -> list (nat * nat)) l p :
  In p (pair_list (fun a => ib (o a) (o a)) (fun a b => ib (o a) (o b) ++ ib (o b) (o a)) l) <->
  exists a b, In a l /\ In b l /\ In p (ib (o a) (o b)).
Proof.
  induction l as [|a l IH]; simpl.
  - split; [contradiction|]. intros [a [b [[] _]]].
  - rewrite !in_app_iff, in_flat_map, IH. split.
    + intros [H|[[b [Hb H]]|[x [y [Hx [Hy H]]]]]].
      * exists a, a; auto.
      * apply in_app_or in H. destruct H; [exists a, b|exists b, a]; auto.
      * exists x, y; auto.
    + intros [x [y [[<-|Hx] [[<-|Hy] H]]]]; auto.
      * right; left. exists y. split; auto. apply in_or_app; auto.
      * right; left. exists x. split; auto. apply in_or_app; auto.
      * right; right. exists x, y; auto.
Qed.

(** Final step: a matrix zero outside the pattern, overwritten on a superset of the
    pattern with values of [F], is [F] when [F] is zero outside the pattern. *)
Lemma writes_total F W f pat H : writes F W f -> zero_outside pat F -> zero_outside pat H ->
  (forall i j, In (i, j) pat -> W i j = true) -> f H = F.
Proof.
  intros A ZF ZH C. apply functional_extensionality; intros i. apply functional_extensionality; intros j.
  rewrite A. destruct (W i j) eqn:E; auto.
  assert (N : ~ In (i, j) pat). { intros I. rewrite (C i j I) in E. discriminate. }
  rewrite ZF, ZH; auto.
Qed.

(** Same for vectors. *)
Definition vwrites (F : vec) (W : nat -> bool) (f : vec -> vec) : Prop :=
  forall g i, f g i = if W i then F i else g i.
Lemma vwrites_comp F W1 W2 f g : vwrites F W1 f -> vwrites F W2 g ->
  vwrites F (fun i => W2 i || W1 i) (fun H => g (f H)).
Proof. intros A B H i. rewrite B. destruct (W2 i); simpl; auto. Qed.
Lemma vwrites_fold {A} F (W : A -> nat -> bool) (f : A -> vec -> vec) l :
  (forall a, In a l -> vwrites F (W a) (f a)) ->
  vwrites F (fun i => existsb (fun a => W a i) l) (fun H => fold_left (fun H a => f a H) l H).
Proof.
  induction l as [|a l IH]; intros Hl H i; simpl; auto.
  rewrite IH by (intros; apply Hl; simpl; auto).
  rewrite (Hl a (or_introl eq_refl)). destruct (existsb _ l), (W a i); auto.
Qed.
Lemma vwrites_seg F o n f : (forall a, (a < n)%nat -> f a = F (o + a)%nat) ->
  vwrites F (in_range o n) (fun g => set_seg g o n f).
Proof.
  intros E g i. unfold set_seg. destruct (in_range o n i) eqn:B; auto.
  apply in_range_spec in B. rewrite E by lia. f_equal; lia.
Qed.
Lemma vwrites_total F W f sup g : vwrites F W f -> vzero_outside sup F -> vzero_outside sup g ->
  (forall i, In i sup -> W i = true) -> f g = F.
Proof.
  intros A ZF ZH C. apply functional_extensionality; intros i.
  rewrite A. destruct (W i) eqn:E; auto.
  assert (N : ~ In i sup). { intros I. rewrite (C i I) in E. discriminate. }
  rewrite ZF, ZH; auto.
Qed.

(** Single entries are 1x1 blocks. *)
Lemma mset_block H i j v : mset H i j v = set_block H i j 1 1 (fun _ _ => v).
Proof.
  apply functional_extensionality; intros a. apply functional_extensionality; intros b.
  unfold mset, set_block, in_range.
  destruct (Nat.eqb_spec a i), (Nat.eqb_spec b j), (Nat.leb_spec i a), (Nat.leb_spec j b),
    (Nat.ltb_spec a (i + 1)), (Nat.ltb_spec b (j + 1)); simpl; auto; lia.
Qed.
Lemma vset_seg g i v : vset g i v = set_seg g i 1 (fun _ => v).
Proof.
  apply functional_extensionality; intros a. unfold vset, set_seg, in_range.
  destruct (Nat.eqb_spec a i), (Nat.leb_spec i a), (Nat.ltb_spec a (i + 1)); simpl; auto; lia.
Qed.
