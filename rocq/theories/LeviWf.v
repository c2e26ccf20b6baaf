(** Proof side of C45: well formed trees, where they are smooth, and the calculus used. *)
From Coq Require Import String Reals List Arith Lia Lra Bool QArith Qabs Qreals ZArith FunctionalExtensionality.
From Coquelicot Require Import Coquelicot.
From Verif Require Import Spec PartialLib SpecDerivatives LeviExpr.
Import ListNotations.
Local Open Scope R_scope.
Set Implicit Arguments.

Lemma expr_ind' (P : expr -> Prop) :
  (forall r c m, P (EConst r c m)) -> (forall r c, P (ENull r c)) -> (forall r c, P (EIdent r c)) ->
  (forall r c i j n, P (ESingle r c i j n)) -> (forall r c i1 j1 n1 i2 j2 n2, P (ETwo r c i1 j1 n1 i2 j2 n2)) ->
  (forall u, P (EVar u)) -> (forall u a, P a -> P (EAsVar u a)) -> (forall k, P (EUser k)) ->
  (forall a b, P a -> P b -> P (ESum a b)) -> (forall a b, P a -> P b -> P (ESub a b)) -> (forall a, P a -> P (ENeg a)) ->
  (forall ls rs a b, P a -> P b -> P (EProd ls rs a b)) -> (forall a q, P a -> P (EPow a q)) ->
  (forall a b, P a -> P b -> P (EDiv a b)) -> (forall a, P a -> P (ESkew a)) -> (forall a, P a -> P (EVee a)) ->
  (forall a, P a -> P (ETransp a)) -> (forall a i, P a -> P (ERow a i)) -> (forall a j, P a -> P (ECol a j)) ->
  (forall a i j, P a -> P (EElem a i j)) -> (forall a i j r c, P a -> P (EBlock a i j r c)) ->
  (forall l, List.Forall P l -> P (EByRows l)) -> (forall l, List.Forall P l -> P (EByCols l)) ->
  (forall a b, P a -> P b -> P (EHorz a b)) -> (forall a b, P a -> P b -> P (EVert a b)) ->
  (forall r d ds svs b, List.Forall P ds -> List.Forall P svs -> P b -> P (EMpd r d ds svs b)) ->
  forall e, P e.
Proof.
  intros. revert e. fix IH 1.
  assert (L : forall l, (fix go (l : list expr) : Prop := match l with [] => True | a :: r => P a /\ go r end) l -> List.Forall P l).
  { induction l; intros F; constructor; [exact (proj1 F)|apply IHl; exact (proj2 F)]. }
  intros [ ]; [apply H|apply H0|apply H1|apply H2|apply H3|apply H4|apply H5|apply H6|apply H7|apply H8|apply H9|apply H10|apply H11
    |apply H12|apply H13|apply H14|apply H15|apply H16|apply H17|apply H18|apply H19|apply H20|apply H21|apply H22|apply H23|apply H24].
  all: try apply IH.
  all: apply L; match goal with |- _ ?l => induction l as [|x l' Hl]; [exact I|split; [apply IH|exact Hl]] end.
Qed.

(** ** Calculus along one variable *)
Definition dpart (rho : env) (v : nat) (F : env -> R) (j : nat) (d : R) : Prop :=
  partial (fun x => F (env_set rho v x)) (rho v) j d.

Lemma env_set_id rho v : env_set rho v (rho v) = rho.
Proof. apply functional_extensionality; intros u. unfold env_set. destruct (Nat.eqb_spec u v); subst; auto. Qed.

Section Dpart.
Variables (rho : env) (v j : nat).
Lemma dpart_eq F d d' : dpart rho v F j d -> d = d' -> dpart rho v F j d'.
Proof. intros; subst; auto. Qed.
Lemma dpart_ext F G d : (forall r, F r = G r) -> dpart rho v F j d -> dpart rho v G j d.
Proof. intros E. apply partial_ext. intros; apply E. Qed.
Lemma dpart_const F : (forall x, F (env_set rho v x) = F rho) -> dpart rho v F j 0.
Proof. intros E. unfold dpart. apply (partial_ext (fun _ => F rho)); [intros; rewrite E; auto|]. apply partial_const. Qed.
Lemma dpart_plus F G a b : dpart rho v F j a -> dpart rho v G j b -> dpart rho v (fun r => F r + G r) j (a + b).
Proof. apply partial_plus. Qed.
Lemma dpart_minus F G a b : dpart rho v F j a -> dpart rho v G j b -> dpart rho v (fun r => F r - G r) j (a - b).
Proof. apply partial_minus. Qed.
Lemma dpart_opp F a : dpart rho v F j a -> dpart rho v (fun r => - F r) j (- a).
Proof. apply partial_opp. Qed.
Lemma dpart_mult F G a b : dpart rho v F j a -> dpart rho v G j b -> dpart rho v (fun r => F r * G r) j (a * G rho + F rho * b).
Proof.
  intros A B. eapply partial_eq; [apply partial_mult; [exact A|exact B]|].
  cbv beta. rewrite env_set_id. reflexivity.
Qed.
Lemma dpart_comp (h h' : R -> R) F a : is_derive h (F rho) (h' (F rho)) -> dpart rho v F j a ->
  dpart rho v (fun r => h (F r)) j (a * h' (F rho)).
Proof.
  intros Hh A. eapply partial_eq.
  - apply (partial_comp h h' (fun x => F (env_set rho v x))); [rewrite env_set_id; exact Hh|exact A].
  - cbv beta. rewrite env_set_id. reflexivity.
Qed.
Lemma dpart_sumn n (F : nat -> env -> R) (d : nat -> R) : (forall k, (k < n)%nat -> dpart rho v (F k) j (d k)) ->
  dpart rho v (fun r => sumn n (fun k => F k r)) j (sumn n d).
Proof. intros E. apply (partial_sumn n (fun k x => F k (env_set rho v x))). exact E. Qed.
Lemma dpart_var i : dpart rho v (fun r => r v i) j (if (i =? j)%nat then 1 else 0).
Proof.
  unfold dpart. eapply (partial_ext (fun x => x i)); [|apply partial_var].
  intros. unfold env_set. rewrite Nat.eqb_refl. reflexivity.
Qed.
End Dpart.

(** ** Powers *)
Lemma qint_spec q : match qint q with Some z => (q == inject_Z z)%Q | None => True end.
Proof.
  unfold qint. destruct (Z.eqb_spec (Qnum q mod Zpos (Qden q)) 0) as [E|]; auto.
  unfold Qeq, inject_Z; cbn. rewrite Z.mul_1_r.
  pose proof (Z.div_mod (Qnum q) (Zpos (Qden q)) ltac:(discriminate)). lia.
Qed.
Lemma qint_int q z : (q == inject_Z z)%Q -> qint q = Some z.
Proof.
  unfold Qeq, inject_Z; cbn. intros E. rewrite Z.mul_1_r in E.
  unfold qint. rewrite E, Z.mod_mul, Z.div_mul by discriminate. reflexivity.
Qed.
Lemma qint_none q : qint q = None -> forall z, ~ (q == inject_Z z)%Q.
Proof. intros E z H. apply qint_int in H. congruence. Qed.
Lemma qint_eq p q : (p == q)%Q -> qint p = qint q.
Proof.
  intros E. destruct (qint q) eqn:Q.
  - pose proof (qint_spec q) as S. rewrite Q in S. apply qint_int. rewrite E. exact S.
  - destruct (qint p) eqn:P; auto. pose proof (qint_spec p) as S. rewrite P in S.
    exfalso. apply (@qint_none q Q z). rewrite <- E. exact S.
Qed.
Lemma rpow_eq x p q : (p == q)%Q -> rpow x p = rpow x q.
Proof. intros E. unfold rpow. rewrite (qint_eq E), (Qeq_eqR _ _ E). reflexivity. Qed.
Lemma pow_dom_eq x p q : (p == q)%Q -> pow_dom x p -> pow_dom x q.
Proof. intros E. unfold pow_dom. rewrite (qint_eq E). auto. Qed.
Lemma qint_pred q : qint (q - 1) = match qint q with Some z => Some (z - 1)%Z | None => None end.
Proof.
  destruct (qint q) eqn:Q.
  - pose proof (qint_spec q) as S. rewrite Q in S. apply qint_int.
    rewrite S. unfold Qeq, Qminus, Qplus, Qopp, inject_Z; cbn. lia.
  - destruct (qint (q - 1)) eqn:P; auto. pose proof (qint_spec (q - 1)) as S. rewrite P in S.
    exfalso. apply (@qint_none q Q (z + 1)%Z). setoid_replace q with (q - 1 + 1)%Q by ring. rewrite S.
    unfold Qeq, Qplus, inject_Z; cbn. lia.
Qed.
Lemma div_rpow x y : x / y = x * rpow y (-1 # 1).
Proof. unfold rpow. change (qint (-1 # 1)) with (Some (-1)%Z). cbn [powerRZ]. rewrite Pos2Nat.inj_1, pow_1. reflexivity. Qed.

Lemma is_derive_powerRZ x z : (1 <= z)%Z \/ x <> 0 -> is_derive (fun t => powerRZ t z) x (IZR z * powerRZ x (z - 1)).
Proof.
  intros D. destruct z as [|p|p].
  - cbn. rewrite Rmult_0_l. exact (is_derive_const (K:=R_AbsRing) (V:=R_NormedModule) 1 x).
  - cbn [powerRZ]. destruct (Pos2Nat.is_succ p) as [m Em]. rewrite Em.
    auto_derive; auto. cbn [Nat.pred].
    assert (E : (Zpos p - 1)%Z = Z.of_nat m) by lia. rewrite E, <- pow_powerRZ.
    change (IZR (Zpos p)) with (IPR p). rewrite <- INR_IPR, Em. change (match m with 0%nat => 1 | S _ => INR m + 1 end) with (INR (S m)). ring.
  - destruct D as [D|D]; [lia|]. cbn [powerRZ].
    destruct (Pos2Nat.is_succ p) as [m Em]. rewrite Em.
    assert (N : x ^ m <> 0) by (apply pow_nonzero; auto).
    auto_derive; [cbn [pow]; apply Rmult_integral_contrapositive_currified; auto|]. cbn [Nat.pred].
    replace (Zneg p - 1)%Z with (Zneg (p + 1)) by lia. cbn [powerRZ].
    rewrite Pos2Nat.inj_add, Pos2Nat.inj_1.
    change (IZR (Z.neg p)) with (- IPR p). rewrite <- INR_IPR.
    rewrite Em. rewrite Nat.add_1_r. try change (match m with 0%nat => 1 | S _ => INR m + 1 end) with (INR (S m)). cbn [pow]. field. auto.
Qed.
Lemma is_derive_rpow x q : pow_dom x q -> is_derive (fun t => rpow t q) x (Q2R q * rpow x (q - 1)).
Proof.
  intros D. unfold pow_dom in D. unfold rpow. rewrite qint_pred. destruct (qint q) eqn:Q.
  - pose proof (qint_spec q) as S. rewrite Q in S.
    evar_last; [apply is_derive_powerRZ; exact D|]. f_equal.
    rewrite (Qeq_eqR _ _ S). unfold Q2R, inject_Z; cbn. field.
  - unfold Rpower. evar_last.
    { apply (is_derive_comp exp (fun t => Q2R q * ln t)); [apply is_derive_exp|].
      apply (is_derive_scal (fun t => ln t)). apply is_derive_ln. exact D. }
    unfold scal; cbn; unfold mult; cbn.
    rewrite Q2R_minus. replace (Q2R 1) with 1 by (unfold Q2R; cbn; field).
    replace ((Q2R q - 1) * ln x) with (Q2R q * ln x + - ln x) by ring.
    rewrite exp_plus, exp_Ropp, exp_ln by exact D. field. lra.
Qed.
Lemma good_exponent_pred q : good_exponent q -> good_exponent (q - 1).
Proof.
  intros G n N H.
  assert (E : (q - 1 - inject_Z (Z.of_nat n) == q - inject_Z (Z.of_nat (S n)))%Q).
  { rewrite Nat2Z.inj_succ. unfold Z.succ. rewrite inject_Z_plus. change (inject_Z 1) with 1%Q. ring. }
  rewrite E in H. apply G in H; [|lia].
  rewrite H. rewrite Nat2Z.inj_succ. unfold Z.succ. rewrite inject_Z_plus. change (inject_Z 1) with 1%Q. ring.
Qed.
