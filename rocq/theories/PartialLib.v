(** Calculus of partial derivatives used by the proofs (no model here). *)
From Coq Require Import Reals List Arith Lia Lra Bool FunctionalExtensionality.
From Coquelicot Require Import Coquelicot.
From Verif Require Import Spec.
Import ListNotations.
Local Open Scope R_scope.

Ltac req := match goal with |- @eq _ ?a ?b => change (@eq R a b) end.

Definition ind (i k : nat) : R := if Nat.eqb i k then 1 else 0.

Lemma ind_refl i : ind i i = 1.
Proof. unfold ind. rewrite Nat.eqb_refl. reflexivity. Qed.
Lemma ind_neq i k : i <> k -> ind i k = 0.
Proof. intros. unfold ind. apply Nat.eqb_neq in H. rewrite H. reflexivity. Qed.

Lemma vset_same x k : vset x k (x k) = x.
Proof. apply functional_extensionality. intros i. unfold vset. destruct (Nat.eqb_spec i k); subst; auto. Qed.

Lemma partial_eq f x k d d' : partial f x k d -> d = d' -> partial f x k d'.
Proof. intros; subst; auto. Qed.
Lemma partial_ext f g x k d : (forall y, f y = g y) -> partial f x k d -> partial g x k d.
Proof. intros E H. unfold partial in *. eapply is_derive_ext; [|exact H]. intros; simpl; apply E. Qed.

Lemma partial_const (c : R) x k : partial (fun _ => c) x k 0.
Proof. unfold partial. exact (is_derive_const (K:=R_AbsRing) (V:=R_NormedModule) c (x k)). Qed.
Lemma partial_var i x k : partial (fun y => y i) x k (ind i k).
Proof.
  unfold partial, vset, ind. destruct (Nat.eqb_spec i k).
  - exact (is_derive_id (K:=R_AbsRing) (x k)).
  - exact (is_derive_const (K:=R_AbsRing) (V:=R_NormedModule) (x i) (x k)).
Qed.
Lemma partial_plus f g x k a b : partial f x k a -> partial g x k b -> partial (fun y => f y + g y) x k (a + b).
Proof. intros; unfold partial in *. apply (is_derive_plus (K:=R_AbsRing) (V:=R_NormedModule) (fun t => f (vset x k t)) (fun t => g (vset x k t))); auto. Qed.
Lemma partial_minus f g x k a b : partial f x k a -> partial g x k b -> partial (fun y => f y - g y) x k (a - b).
Proof. intros; unfold partial in *. apply (is_derive_minus (K:=R_AbsRing) (V:=R_NormedModule) (fun t => f (vset x k t)) (fun t => g (vset x k t))); auto. Qed.
Lemma partial_opp f x k a : partial f x k a -> partial (fun y => - f y) x k (- a).
Proof. intros; unfold partial in *. apply (is_derive_opp (K:=R_AbsRing) (V:=R_NormedModule) (fun t => f (vset x k t))); auto. Qed.

Lemma partial_mult f g x k a b :
  partial f x k a -> partial g x k b -> partial (fun y => f y * g y) x k (a * g x + f x * b).
Proof.
  intros Hf Hg. unfold partial in *.
  evar_last.
  { apply (is_derive_mult (K:=R_AbsRing) (fun t => f (vset x k t)) (fun t => g (vset x k t)) (x k) a b Hf Hg).
    intros; simpl; unfold mult; simpl; req; ring. }
  unfold plus, mult; simpl. rewrite !vset_same. reflexivity.
Qed.
Lemma partial_comp (h h' : R -> R) f x k a : is_derive h (f x) (h' (f x)) ->
  partial f x k a -> partial (fun y => h (f y)) x k (a * h' (f x)).
Proof.
  intros Hh Hf. unfold partial in *.
  evar_last.
  { apply (is_derive_comp h (fun t => f (vset x k t))); [|exact Hf].
    rewrite vset_same. exact Hh. }
  unfold scal; simpl; unfold mult; simpl. reflexivity.
Qed.
Lemma partial_div f g x k a b : g x <> 0 ->
  partial f x k a -> partial g x k b -> partial (fun y => f y / g y) x k ((a * g x - f x * b) / (g x)^2).
Proof.
  intros Hn Hf Hg. unfold partial in *.
  evar_last.
  { apply (is_derive_div (fun t => f (vset x k t)) (fun t => g (vset x k t)) (x k) a b Hf Hg).
    rewrite vset_same. auto. }
  simpl. rewrite !vset_same. f_equal.
Qed.
Lemma partial_pow f x k a n : partial f x k a ->
  partial (fun y => (f y)^n) x k (INR n * (f x)^(pred n) * a).
Proof.
  intros Hf. unfold partial in *.
  evar_last.
  { apply (is_derive_pow (fun t => f (vset x k t)) n (x k) a Hf). }
  rewrite !vset_same. ring.
Qed.

Lemma sumn_ext n f g : (forall i, (i < n)%nat -> f i = g i) -> sumn n f = sumn n g.
Proof. induction n; simpl; intros; auto. rewrite IHn, H; auto. Qed.
Lemma sumn_0 n : sumn n (fun _ => 0) = 0.
Proof. induction n; simpl; lra. Qed.
Lemma sumn_plus n f g : sumn n (fun i => f i + g i) = sumn n f + sumn n g.
Proof. induction n; simpl; lra. Qed.
Lemma sumn_scal n c f : sumn n (fun i => c * f i) = c * sumn n f.
Proof. induction n; simpl; [ring|]. rewrite IHn; ring. Qed.
Lemma sumn_single n f j : (j < n)%nat -> (forall i, (i < n)%nat -> i <> j -> f i = 0) -> sumn n f = f j.
Proof.
  revert j. induction n; simpl; intros; [lia|].
  destruct (Nat.eq_dec j n).
  - subst. rewrite (sumn_ext n f (fun _ => 0)), sumn_0; [ring|]. intros; apply H0; lia.
  - rewrite (IHn j); [|lia|intros; apply H0; lia]. rewrite (H0 n); [ring|lia|lia].
Qed.
Lemma partial_sumn n (f : nat -> vec -> R) x k (d : nat -> R) :
  (forall i, (i < n)%nat -> partial (f i) x k (d i)) -> partial (fun y => sumn n (fun i => f i y)) x k (sumn n d).
Proof.
  induction n; simpl; intros. apply partial_const.
  apply partial_plus; auto.
Qed.

(** Compute a partial derivative by structure; [known] closes the [is_derive]
    side conditions of opaque scalar functions. *)
Ltac deriv known :=
  lazymatch goal with
  | |- partial (fun y => _ + _) _ _ _ => simple eapply partial_plus; deriv known
  | |- partial (fun y => _ - _) _ _ _ => simple eapply partial_minus; deriv known
  | |- partial (fun y => _ * _) _ _ _ => simple eapply partial_mult; deriv known
  | |- partial (fun y => - _) _ _ _ => simple eapply partial_opp; deriv known
  | |- partial (fun y => _ ^ _) _ _ _ => simple eapply partial_pow; deriv known
  | |- partial (fun y => sumn _ _) _ _ _ => simple eapply partial_sumn; intros; deriv known
  | |- _ => first [ simple apply partial_const
                  | simple apply partial_var
                  | lazymatch goal with
                    | |- partial (fun y => ?h _) _ _ _ => simple eapply (partial_comp h); [known | deriv known]
                    end ]
  end.

Lemma hessian_of_gradient f g x H :
  (forall y k, partial f y k (g y k)) ->
  (forall j k, partial (fun y => g y j) x k (H j k)) ->
  is_hessian f x H.
Proof. intros. exists g. split; auto. Qed.

Lemma weighted_gradient m l (f : vec -> vec) (J : mat) x k :
  is_jacobian m f x J -> partial (fun y => weighted m l (f y)) x k (sumn m (fun i => l i * J i k)).
Proof.
  intros H. unfold weighted. apply partial_sumn. intros.
  eapply partial_eq.
  { unfold partial. apply is_derive_scal. apply H; auto. }
  simpl. reflexivity.
Qed.

Lemma weighted_hessian m l (f : vec -> vec) (J : vec -> mat) x H :
  (forall y, is_jacobian m f y (J y)) ->
  (forall j k, partial (fun y => sumn m (fun i => l i * J y i j)) x k (H j k)) ->
  is_hessian (fun y => weighted m l (f y)) x H.
Proof.
  intros HJ HH. exists (fun y k => sumn m (fun i => l i * J y i k)). split; auto.
  intros y k. apply weighted_gradient. auto.
Qed.

Lemma weighted_mixed m l (f : vec -> vec -> vec) (J : vec -> vec -> mat) x u H :
  (forall y w, is_jacobian m (fun z => f z w) y (J y w)) ->
  (forall j k, partial (fun w => sumn m (fun i => l i * J x w i j)) u k (H j k)) ->
  is_mixed_hessian (fun y w => weighted m l (f y w)) x u H.
Proof.
  intros HJ HH. exists (fun y w k => sumn m (fun i => l i * J y w i k)). split; auto.
  intros y w k. apply (weighted_gradient m l (fun z => f z w)). auto.
Qed.

(** Case analysis on all index comparisons of the goal. *)
Ltac eqbs :=
  repeat match goal with
  | |- context [Nat.eqb ?a ?b] =>
      let H := fresh "E" in destruct (Nat.eqb_spec a b) as [H|H]; try (exfalso; lia)
  end.

Ltac notin :=
  simpl in *;
  let HH := fresh in intro HH;
  repeat match goal with
  | HH : _ \/ _ |- _ => destruct HH as [HH|HH]
  | HH : (_, _) = (_, _) |- _ => injection HH; clear HH; intros
  | HH : False |- _ => destruct HH
  end; try lia.

(** Use the hypothesis that a matrix is zero outside its pattern at the entry in the goal. *)
Ltac zero_entry :=
  repeat match goal with
  | Z : zero_outside _ ?M |- context [?M ?i ?k] =>
      let Q := fresh in assert (Q : M i k = 0) by (apply Z; notin); rewrite Q; clear Q
  | Z : vzero_outside _ ?M |- context [?M ?k] =>
      let Q := fresh in assert (Q : M k = 0) by (apply Z; notin); rewrite Q; clear Q
  end.

Lemma reach_inv {S} (C : constraint_class S) (other : S -> S -> Prop) (P : S -> Prop) s0 :
  P s0 ->
  (forall s t x u, P s -> P (fst (c_eval C s t x u))) ->
  (forall s t x u J, P s -> P (fst (c_sjac C s t x u J))) ->
  (forall s t x u J, P s -> P (fst (c_cjac C s t x u J))) ->
  (forall s t x u l H, P s -> P (fst (c_shess C s t x u l H))) ->
  (forall s t x u l H, P s -> P (fst (c_chess C s t x u l H))) ->
  (forall s t x u l H, P s -> P (fst (c_mhess C s t x u l H))) ->
  (forall s s', P s -> other s s' -> P s') ->
  forall s, reach C other s0 s -> P s.
Proof. intros ? ? ? ? ? ? ? ? s R. induction R; eauto. Qed.

Lemma kreach_inv {S} (C : cost_class S) (other : S -> S -> Prop) (P : S -> Prop) s0 :
  P s0 ->
  (forall s t x u, P s -> P (fst (k_eval C s t x u))) ->
  (forall s t x u g, P s -> P (fst (k_sgrad C s t x u g))) ->
  (forall s t x u g, P s -> P (fst (k_cgrad C s t x u g))) ->
  (forall s t x u H, P s -> P (fst (k_shess C s t x u H))) ->
  (forall s t x u H, P s -> P (fst (k_chess C s t x u H))) ->
  (forall s t x u H, P s -> P (fst (k_mhess C s t x u H))) ->
  (forall s s', P s -> other s s' -> P s') ->
  forall s, kreach C other s0 s -> P s.
Proof. intros ? ? ? ? ? ? ? ? s R. induction R; eauto. Qed.
