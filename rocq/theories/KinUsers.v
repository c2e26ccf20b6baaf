(** A formula without expressions of the planner has the same meaning whatever these are. *)
From Coq Require Import Reals List Arith Lia Lra Bool FunctionalExtensionality.
From Coquelicot Require Import Coquelicot.
From Verif Require Import Spec PartialLib SpecDerivatives LeviBuildProofs KinLib.
Import ListNotations.
Local Open Scope R_scope.

Section Users.
Variable vdim urows ucols : nat -> nat.
Variable ue ue' : nat -> env -> mat.
Notation none := (users (fun _ => false)).
Lemma users_meaning f : none f = true -> forall rho i j, meaning vdim urows ucols ue rho f i j = meaning vdim urows ucols ue' rho f i j.
Proof.
  induction f using formula_ind'; cbn [users]; intros U rho i0 j0; try discriminate U; try (apply andb_prop in U; destruct U as [U1 U2]);
    cbn [meaning]; rewrite ?IHf by auto; rewrite ?IHf1, ?IHf2 by auto; try reflexivity.
  - destruct (_ && _)%bool; [reflexivity|]. destruct (_ && _)%bool; [reflexivity|]. apply sumn_ext. intros k Hk. rewrite IHf1, IHf2 by auto. reflexivity.
  - f_equal. apply map_ext_in. intros f I. rewrite Forall_forall in H. rewrite forallb_forall in U. apply H; auto.
  - f_equal. apply map_ext_in. intros f I. rewrite Forall_forall in H. rewrite forallb_forall in U. apply H; auto.
  - apply Derive_ext. intros t. apply IHf; auto.
Qed.
Lemma users_wf f : none f = true -> well_formed vdim urows ucols ue f -> well_formed vdim urows ucols ue' f.
Proof.
  induction f using formula_ind'; cbn [users]; intros U; try discriminate U; try (apply andb_prop in U; destruct U as [U1 U2]);
    cbn [well_formed]; try tauto.
  - intros (W & C & R0 & D & I). repeat (split; [auto|]). intros rho x i Hi. rewrite <- !(users_meaning f U). apply I; auto.
  - intros (N & W & F). split; [exact N|]. split; [|exact F]. clear N F. induction l as [|f l IH]; [exact Logic.I|]. cbn [map all_of fold_right forallb] in *.
    apply andb_prop in U. destruct U. inversion H; subst. destruct W. split; [auto|apply IH; auto].
  - intros (N & W & F). split; [exact N|]. split; [|exact F]. clear N F. induction l as [|f l IH]; [exact Logic.I|]. cbn [map all_of fold_right forallb] in *.
    apply andb_prop in U. destruct U. inversion H; subst. destruct W. split; [auto|apply IH; auto].
Qed.
End Users.
