(** Matrices with their sizes, and the product in which a 1x1 operand multiplies every entry. *)
From Coq Require Import Reals List Arith Lia Lra Bool Setoid Morphisms.
From Verif Require Import Spec PartialLib.
Local Open Scope R_scope.

Record smat := mkM { mr : nat; mc : nat; mf : nat -> nat -> R }.
Definition sc (A : smat) : bool := ((mr A =? 1) && (mc A =? 1))%nat.
Definition meq (A B : smat) : Prop :=
  mr A = mr B /\ mc A = mc B /\ forall i j, (i < mr A)%nat -> (j < mc A)%nat -> mf A i j = mf B i j.
Definition mtimes (A B : smat) : smat :=
  if sc A then mkM (mr B) (mc B) (fun i j => mf A 0 0 * mf B i j)
  else if sc B then mkM (mr A) (mc A) (fun i j => mf A i j * mf B 0 0)
  else mkM (mr A) (mc B) (fun i j => sumn (Nat.min (mc A) (mr B)) (fun k => mf A i k * mf B k j)).
Definition mfits (A B : smat) : Prop := sc A = true \/ sc B = true \/ mc A = mr B.
Definition mplus (A B : smat) : smat := mkM (mr A) (mc A) (fun i j => mf A i j + mf B i j).
Definition mminus (A B : smat) : smat := mkM (mr A) (mc A) (fun i j => mf A i j - mf B i j).
Definition mopp (A : smat) : smat := mkM (mr A) (mc A) (fun i j => - mf A i j).

Lemma sc_true A : sc A = true <-> mr A = 1%nat /\ mc A = 1%nat.
Proof. unfold sc. rewrite andb_true_iff, !Nat.eqb_eq. tauto. Qed.
Lemma sc_false A : sc A = false <-> ~ (mr A = 1%nat /\ mc A = 1%nat).
Proof. rewrite <- sc_true. destruct (sc A); split; congruence. Qed.

Lemma meq_refl A : meq A A.
Proof. repeat split; auto. Qed.
Lemma meq_sym A B : meq A B -> meq B A.
Proof. intros (R & C & V). repeat split; auto. intros. symmetry. apply V; lia. Qed.
Lemma meq_trans A B C : meq A B -> meq B C -> meq A C.
Proof. intros (R & C1 & V) (R' & C' & V'). repeat split; try congruence. intros. rewrite V, V' by lia. reflexivity. Qed.
#[global] Instance meq_equiv : Equivalence meq.
Proof. split; [exact meq_refl|exact meq_sym|exact meq_trans]. Qed.
#[global] Instance sc_meq : Proper (meq ==> eq) sc.
Proof. intros A B (R & C & V). unfold sc. rewrite R, C. reflexivity. Qed.
#[global] Instance mr_meq : Proper (meq ==> eq) mr.
Proof. intros A B (R & C & V). exact R. Qed.
#[global] Instance mc_meq : Proper (meq ==> eq) mc.
Proof. intros A B (R & C & V). exact C. Qed.
#[global] Instance mfits_meq : Proper (meq ==> meq ==> iff) mfits.
Proof. intros A B E A' B' E'. unfold mfits. rewrite E, E'. tauto. Qed.
#[global] Instance mtimes_meq : Proper (meq ==> meq ==> meq) mtimes.
Proof.
  intros A A' E B B' E'. unfold mtimes. rewrite <- (sc_meq _ _ E), <- (sc_meq _ _ E').
  destruct E as (R & C & V), E' as (R' & C' & V').
  destruct (sc A) eqn:SA; [apply sc_true in SA|destruct (sc B) eqn:SB; [apply sc_true in SB|]]; unfold meq; cbn; repeat split; auto; intros.
  - rewrite V, V' by lia. reflexivity.
  - rewrite V, V' by lia. reflexivity.
  - rewrite C, R'. apply sumn_ext. intros. rewrite V, V' by lia. reflexivity.
Qed.
#[global] Instance mopp_meq : Proper (meq ==> meq) mopp.
Proof. intros A A' (R & C & V). unfold meq; cbn. repeat split; auto. intros. rewrite V; auto. Qed.
Lemma mplus_meq A A' B B' : mr A = mr B -> mc A = mc B -> meq A A' -> meq B B' -> meq (mplus A B) (mplus A' B').
Proof. intros E1 E2 (R & C & V) (R' & C' & V'). unfold meq; cbn. repeat split; auto. intros. rewrite V, V' by lia. reflexivity. Qed.
Lemma mminus_meq A A' B B' : mr A = mr B -> mc A = mc B -> meq A A' -> meq B B' -> meq (mminus A B) (mminus A' B').
Proof. intros E1 E2 (R & C & V) (R' & C' & V'). unfold meq; cbn. repeat split; auto. intros. rewrite V, V' by lia. reflexivity. Qed.

Lemma mtimes_scal_comm A B : sc A = true -> meq (mtimes A B) (mtimes B A).
Proof.
  intros S. unfold mtimes. rewrite S. apply sc_true in S. destruct (sc B) eqn:SB; [apply sc_true in SB|]; unfold meq; cbn; repeat split; try lia.
  - intros i j ? ?. replace i with 0%nat by lia. replace j with 0%nat by lia. ring.
  - intros. ring.
Qed.
Lemma sumn_swap n m (f : nat -> nat -> R) : sumn n (fun i => sumn m (fun j => f i j)) = sumn m (fun j => sumn n (fun i => f i j)).
Proof. induction n; cbn [sumn]; [symmetry; apply sumn_0|]. rewrite IHn, <- sumn_plus. reflexivity. Qed.
Lemma sumn_1 (f : nat -> R) : sumn 1 f = f 0%nat.
Proof. cbn. ring. Qed.
(** With fitting sizes the product is rows x columns. *)
Lemma mtimes_mat A B : mc A = mr B ->
  meq (mtimes A B) (mkM (mr A) (mc B) (fun i j => sumn (mc A) (fun k => mf A i k * mf B k j))).
Proof.
  intros F. unfold mtimes. destruct (sc A) eqn:SA; [apply sc_true in SA|destruct (sc B) eqn:SB; [apply sc_true in SB|]]; unfold meq; cbn.
  - repeat split; try lia. intros. replace i with 0%nat by lia. rewrite (proj2 SA), sumn_1. reflexivity.
  - repeat split; try lia. intros. replace j with 0%nat by lia. rewrite F, (proj1 SB), sumn_1. reflexivity.
  - repeat split; auto. intros. rewrite Nat.min_l by lia. reflexivity.
Qed.
Lemma mtimes_scal A B : sc A = true -> mtimes A B = mkM (mr B) (mc B) (fun i j => mf A 0 0 * mf B i j).
Proof. intros S. unfold mtimes. rewrite S. reflexivity. Qed.
Lemma mtimes_scal_r A B : sc B = true -> meq (mtimes A B) (mkM (mr A) (mc A) (fun i j => mf B 0 0 * mf A i j)).
Proof. intros S. rewrite <- (mtimes_scal_comm B A S). rewrite mtimes_scal by auto. reflexivity. Qed.

(** Products of three. *)
Lemma massoc_s1 A B C : sc A = true -> mfits B C -> meq (mtimes (mtimes A B) C) (mtimes A (mtimes B C)).
Proof.
  intros S F. rewrite !(mtimes_scal A) by auto. destruct (sc B) eqn:SB.
  - rewrite (mtimes_scal B) by auto. rewrite mtimes_scal by (unfold sc in *; cbn; auto). unfold meq; cbn. repeat split; auto. intros; ring.
  - destruct (sc C) eqn:SC.
    + rewrite (mtimes_scal_r _ C) by auto. cbn. unfold meq.
      destruct (mtimes_scal_r B C SC) as (R & C' & V). cbn in R, C', V. cbn. rewrite R, C'. repeat split; auto.
      intros. rewrite V by lia. ring.
    + destruct F as [F|[F|F]]; try congruence.
      rewrite (mtimes_mat (mkM _ _ _) C) by (cbn; auto). cbn.
      destruct (mtimes_mat B C F) as (R & C' & V). cbn in R, C', V. unfold meq; cbn. rewrite R, C'. repeat split; auto.
      intros. rewrite V by lia. rewrite <- sumn_scal. apply sumn_ext. intros; ring.
Qed.
Lemma massoc_s2 A B C : sc B = true -> mfits A C -> meq (mtimes (mtimes A B) C) (mtimes A (mtimes B C)).
Proof.
  intros S F. rewrite <- (mtimes_scal_comm B A S), (massoc_s1 B A C S F), !(mtimes_scal B) by auto.
  destruct (sc A) eqn:SA.
  - rewrite !(mtimes_scal A) by auto. unfold meq; cbn. repeat split; auto. intros; ring.
  - destruct (sc C) eqn:SC.
    + assert (SX : sc (mkM (mr C) (mc C) (fun i j => mf B 0 0 * mf C i j)) = true) by exact SC.
      rewrite (mtimes_scal_r A _ SX). destruct (mtimes_scal_r A C SC) as (R & C' & V). cbn in R, C', V.
      unfold meq; cbn. rewrite R, C'. repeat split; auto. intros. rewrite V by lia. ring.
    + destruct F as [F|[F|F]]; try congruence.
      rewrite (mtimes_mat A (mkM _ _ _)) by (cbn; auto). cbn.
      destruct (mtimes_mat A C F) as (R & C' & V). cbn in R, C', V. unfold meq; cbn. rewrite R, C'. repeat split; auto.
      intros. rewrite V by lia. rewrite <- sumn_scal. apply sumn_ext. intros; ring.
Qed.
Lemma massoc_s3 A B C : sc C = true -> mfits A B -> meq (mtimes (mtimes A B) C) (mtimes A (mtimes B C)).
Proof.
  intros S F. rewrite <- (mtimes_scal_comm C _ S), <- (mtimes_scal_comm C B S), <- (massoc_s1 C A B S F).
  rewrite (mtimes_scal_comm C A S). apply massoc_s2; auto.
Qed.
Lemma massoc_mat A B C : mc A = mr B -> mc B = mr C -> meq (mtimes (mtimes A B) C) (mtimes A (mtimes B C)).
Proof.
  intros F G. rewrite (mtimes_mat A B F), (mtimes_mat B C G).
  rewrite (mtimes_mat (mkM _ _ _) C), (mtimes_mat A (mkM _ _ _)) by (cbn; auto). cbn.
  unfold meq; cbn. repeat split; auto. intros.
  erewrite sumn_ext; [|intros k K; rewrite Rmult_comm, <- sumn_scal; reflexivity].
  rewrite sumn_swap. apply sumn_ext. intros k K. rewrite <- sumn_scal. apply sumn_ext. intros; ring.
Qed.
Lemma mr_mat A B : mc A = mr B -> mr (mtimes A B) = mr A.
Proof. intros F. exact (proj1 (mtimes_mat A B F)). Qed.
Lemma mc_mat A B : mc A = mr B -> mc (mtimes A B) = mc B.
Proof. intros F. exact (proj1 (proj2 (mtimes_mat A B F))). Qed.
Lemma sc_scal A B : sc A = true -> sc (mtimes A B) = sc B.
Proof. intros S. rewrite mtimes_scal by auto. reflexivity. Qed.
Lemma mopp_mtimes_l A B : meq (mtimes (mopp A) B) (mopp (mtimes A B)).
Proof.
  unfold mtimes. change (sc (mopp A)) with (sc A). destruct (sc A); [|destruct (sc B)]; unfold meq; cbn; repeat split; auto; intros; try ring.
  rewrite <- Ropp_mult_distr_l_reverse || idtac.
  replace (- sumn (Nat.min (mc A) (mr B)) (fun k => mf A i k * mf B k j)) with (-1 * sumn (Nat.min (mc A) (mr B)) (fun k => mf A i k * mf B k j)) by ring.
  rewrite <- sumn_scal. apply sumn_ext. intros; ring.
Qed.
Lemma mopp_mtimes_r A B : meq (mtimes A (mopp B)) (mopp (mtimes A B)).
Proof.
  unfold mtimes. change (sc (mopp B)) with (sc B). destruct (sc A); [|destruct (sc B)]; unfold meq; cbn; repeat split; auto; intros; try ring.
  replace (- sumn (Nat.min (mc A) (mr B)) (fun k => mf A i k * mf B k j)) with (-1 * sumn (Nat.min (mc A) (mr B)) (fun k => mf A i k * mf B k j)) by ring.
  rewrite <- sumn_scal. apply sumn_ext. intros; ring.
Qed.
Lemma mtimes_plus_l A B C : mr A = mr B -> mc A = mc B -> meq (mtimes (mplus A B) C) (mplus (mtimes A C) (mtimes B C)).
Proof.
  intros R C'. assert (SB : sc B = sc A) by (unfold sc; rewrite R, C'; reflexivity).
  unfold mtimes. change (sc (mplus A B)) with (sc A). rewrite SB. destruct (sc A); [|destruct (sc C)]; unfold meq; cbn; repeat split; auto; intros; try ring.
  rewrite C', <- sumn_plus. apply sumn_ext. intros; ring.
Qed.
Lemma mtimes_minus_l A B C : mr A = mr B -> mc A = mc B -> meq (mtimes (mminus A B) C) (mminus (mtimes A C) (mtimes B C)).
Proof.
  intros R C'. assert (SB : sc B = sc A) by (unfold sc; rewrite R, C'; reflexivity).
  unfold mtimes. change (sc (mminus A B)) with (sc A). rewrite SB. destruct (sc A); [|destruct (sc C)]; unfold meq; cbn; repeat split; auto; intros; try ring.
  rewrite C'. unfold Rminus. replace (- sumn (Nat.min (mc B) (mr C)) (fun k => mf B i k * mf C k j)) with (-1 * sumn (Nat.min (mc B) (mr C)) (fun k => mf B i k * mf C k j)) by ring.
  rewrite <- sumn_scal, <- sumn_plus. apply sumn_ext. intros; ring.
Qed.
(** Identities. *)
Definition mident (n : nat) : smat := mkM n n (fun i j => if (i =? j)%nat then 1 else 0).
Lemma mtimes_ident_r A n : mc A = n \/ n = 1%nat -> meq (mtimes A (mident n)) A.
Proof.
  intros [E|E].
  - rewrite mtimes_mat by (cbn; auto). unfold meq; cbn. repeat split; auto. intros.
    subst n; rewrite (sumn_single _ _ j); try lia; [rewrite Nat.eqb_refl; ring|].
    intros k K N. apply Nat.eqb_neq in N. rewrite N. ring.
  - subst. rewrite mtimes_scal_r by reflexivity. unfold meq; cbn. repeat split; auto. intros; ring.
Qed.
Lemma mtimes_ident_l A n : mr A = n \/ n = 1%nat -> meq (mtimes (mident n) A) A.
Proof.
  intros [E|E].
  - rewrite mtimes_mat by (cbn; auto). unfold meq; cbn. repeat split; auto. intros.
    subst n; rewrite (sumn_single _ _ i); try lia; [rewrite Nat.eqb_refl; ring|].
    intros k K N. apply not_eq_sym, Nat.eqb_neq in N. rewrite N. ring.
  - subst. rewrite mtimes_scal by reflexivity. unfold meq; cbn. repeat split; auto. intros; ring.
Qed.
