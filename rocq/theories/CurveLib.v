(** Functions of several groups of variables that can be differentiated along curves (used for C70). *)
From Coq Require Import Reals List Arith Lia Lra Bool FunctionalExtensionality.
From Coquelicot Require Import Coquelicot.
From Verif Require Import Spec PartialLib SpecQuaternion SpecDerivatives RigidCalc.
Local Open Scope R_scope.

Section Curves.
Variable vars : nat.                (* the groups of variables are 0 .. vars - 1 *)
Variable dim : nat -> nat.
Variable single : nat -> bool.      (* the groups that move along one coordinate at a time *)
Definition dot (g d : nat -> nat -> R) : R := sumn vars (fun v => sumn (dim v) (fun k => g v k * d v k)).
Definition one_coordinate (c : R -> env) (t0 : R) (v : nat) : Prop :=
  (forall t, c t v = c t0 v) \/ exists j a, (j < dim v)%nat /\ forall t, c t v = vset (c t0 v) j (a t).
Definition curve (c : R -> env) (t0 : R) (d : nat -> nat -> R) : Prop :=
  (forall v k, (k < dim v)%nat -> is_derive (fun t => c t v k) t0 (d v k)) /\ forall v, single v = true -> one_coordinate c t0 v.
Definition grad_at (f : env -> R) (rho : env) (g : nat -> nat -> R) : Prop :=
  forall c t0 d, c t0 = rho -> curve c t0 d -> is_derive (fun t => f (c t)) t0 (dot g d).
Definition good1 (f : env -> R) : Prop := exists g : nat -> nat -> env -> R, forall rho, grad_at f rho (fun v k => g v k rho).
Definition good2 (f : env -> R) : Prop := exists (g : nat -> nat -> env -> R) (h : nat -> nat -> nat -> nat -> env -> R),
  (forall rho, grad_at f rho (fun v k => g v k rho)) /\ (forall v k rho, grad_at (g v k) rho (fun u j => h v k u j rho)) /\
  forall v k u j rho, h v k u j rho = h u j v k rho.

Lemma sumn_scal_r n c f : sumn n (fun i => f i * c) = sumn n f * c.
Proof. rewrite Rmult_comm, <- sumn_scal. apply sumn_ext. intros. ring. Qed.
Lemma dot_plus g h d : dot (fun v k => g v k + h v k) d = dot g d + dot h d.
Proof.
  unfold dot. rewrite <- sumn_plus. apply sumn_ext. intros v _. rewrite <- sumn_plus. apply sumn_ext. intros. ring.
Qed.
Lemma dot_sym g d : dot g d = dot d g.
Proof. unfold dot. apply sumn_ext. intros v _. apply sumn_ext. intros. ring. Qed.
Lemma dot_scal c g d : dot (fun v k => c * g v k) d = c * dot g d.
Proof. unfold dot. rewrite <- sumn_scal. apply sumn_ext. intros v _. rewrite <- sumn_scal. apply sumn_ext. intros. ring. Qed.
Lemma dot_0 d : dot (fun _ _ => 0) d = 0.
Proof. unfold dot. rewrite (sumn_ext _ _ (fun _ => 0)); [apply sumn_0|]. intros v _. rewrite (sumn_ext _ _ (fun _ => 0)); [apply sumn_0|]. intros. ring. Qed.
Lemma dot_group v g d : (v < vars)%nat -> dot (fun u k => if (u =? v)%nat then g k else 0) d = sumn (dim v) (fun k => g k * d v k).
Proof.
  intros Hv. unfold dot. rewrite (sumn_single vars _ v Hv).
  - rewrite Nat.eqb_refl. reflexivity.
  - intros u _ N. apply Nat.eqb_neq in N. rewrite N. rewrite (sumn_ext _ _ (fun _ => 0)); [apply sumn_0|]. intros. ring.
Qed.
Lemma dot_entry v j d : (v < vars)%nat -> (j < dim v)%nat -> dot (fun u k => if (u =? v)%nat then delta k j else 0) d = d v j.
Proof.
  intros Hv Hj. rewrite dot_group by exact Hv. rewrite (sumn_single _ _ j Hj); unfold delta.
  - rewrite Nat.eqb_refl. ring.
  - intros i _ N. apply Nat.eqb_neq in N. rewrite N. ring.
Qed.
Lemma grad_ext f h rho g : (forall rho, f rho = h rho) -> grad_at f rho g -> grad_at h rho g.
Proof. intros E G c t0 d C0 C. eapply is_derive_ext; [|apply (G c t0 d C0 C)]. intros t. apply E. Qed.
Lemma good1_ext f h : (forall rho, f rho = h rho) -> good1 f -> good1 h.
Proof. intros E (g & G). exists g. intros rho. eapply grad_ext; [exact E|apply G]. Qed.
Lemma good2_ext f h : (forall rho, f rho = h rho) -> good2 f -> good2 h.
Proof. intros E (g & h' & G & G'). exists g, h'. split; [|exact G']. intros rho. eapply grad_ext; [exact E|apply G]. Qed.
(** ** Closure *)
Lemma grad_const c rho : grad_at (fun _ => c) rho (fun _ _ => 0).
Proof. intros w t0 d _ _. rewrite dot_0. exact (D_const c t0). Qed.
Lemma grad_plus f h rho g g' : grad_at f rho g -> grad_at h rho g' -> grad_at (fun r => f r + h r) rho (fun v k => g v k + g' v k).
Proof. intros F H c t0 d C0 C. rewrite dot_plus. apply (D_plus (fun t => f (c t)) (fun t => h (c t))); [apply F|apply H]; auto. Qed.
Lemma grad_mult f h rho g g' : grad_at f rho g -> grad_at h rho g' -> grad_at (fun r => f r * h r) rho (fun v k => h rho * g v k + f rho * g' v k).
Proof.
  intros F H c t0 d C0 C. rewrite dot_plus, !dot_scal. eapply D_eq; [apply (D_mult (fun t => f (c t)) (fun t => h (c t))); [apply F|apply H]; eauto|].
  cbv beta. rewrite C0. ring.
Qed.
Lemma grad_proj v j rho : (v < vars)%nat -> (j < dim v)%nat -> grad_at (fun r => r v j) rho (fun u k => if (u =? v)%nat then delta k j else 0).
Proof. intros Hv Hj c t0 d C0 C. rewrite dot_entry by auto. apply C. exact Hj. Qed.
Lemma good1_const c : good1 (fun _ => c). Proof. exists (fun _ _ _ => 0). intros rho. apply grad_const. Qed.
Lemma good2_const c : good2 (fun _ => c). Proof. exists (fun _ _ _ => 0), (fun _ _ _ _ _ => 0). split; [intros rho; apply grad_const|]. split; [intros; apply (grad_const 0)|reflexivity]. Qed.
Lemma good1_proj v j : (v < vars)%nat -> (j < dim v)%nat -> good1 (fun r => r v j).
Proof. intros Hv Hj. exists (fun u k _ => if (u =? v)%nat then delta k j else 0). intros rho. apply grad_proj; auto. Qed.
Lemma good2_proj v j : (v < vars)%nat -> (j < dim v)%nat -> good2 (fun r => r v j).
Proof. intros Hv Hj. exists (fun u k _ => if (u =? v)%nat then delta k j else 0). exists (fun _ _ _ _ _ => 0). split; [intros rho; apply grad_proj; auto|]. split; [intros; apply grad_const|reflexivity]. Qed.
Lemma good1_plus f h : good1 f -> good1 h -> good1 (fun r => f r + h r).
Proof. intros (g & F) (g' & H). exists (fun v k r => g v k r + g' v k r). intros rho. apply (grad_plus f h); auto. Qed.
Lemma good2_1 f : good2 f -> good1 f. Proof. intros (g & h & G & _). exists g. exact G. Qed.
Lemma good1_mult f h : good1 f -> good1 h -> good1 (fun r => f r * h r).
Proof. intros (g & F) (g' & H). exists (fun v k r => h r * g v k r + f r * g' v k r). intros rho. apply (grad_mult f h); auto. Qed.
Lemma good2_plus f h : good2 f -> good2 h -> good2 (fun r => f r + h r).
Proof.
  intros (g & f2 & F & F' & FS) (g' & h2 & H & H' & HS). exists (fun v k r => g v k r + g' v k r), (fun v k u j r => f2 v k u j r + h2 v k u j r).
  split; [intros rho; apply (grad_plus f h); auto|]. split; [intros v k rho; apply (grad_plus (g v k) (g' v k) rho (fun u j => f2 v k u j rho) (fun u j => h2 v k u j rho)); auto|].
  intros. rewrite FS, HS. reflexivity.
Qed.
Lemma good2_mult f h : good2 f -> good2 h -> good2 (fun r => f r * h r).
Proof.
  intros (g & f2 & F & F' & FS) (g' & h2 & H & H' & HS).
  exists (fun v k r => h r * g v k r + f r * g' v k r), (fun v k u j r => (g v k r * g' u j r + h r * f2 v k u j r) + (g' v k r * g u j r + f r * h2 v k u j r)).
  split; [intros rho; apply (grad_mult f h); auto|]. split.
  - intros v k rho. apply (grad_plus (fun r => h r * g v k r) (fun r => f r * g' v k r) rho (fun u j => g v k rho * g' u j rho + h rho * f2 v k u j rho) (fun u j => g' v k rho * g u j rho + f rho * h2 v k u j rho)).
    + apply (grad_mult h (g v k) rho (fun u j => g' u j rho) (fun u j => f2 v k u j rho)); auto.
    + apply (grad_mult f (g' v k) rho (fun u j => g u j rho) (fun u j => h2 v k u j rho)); auto.
  - intros. rewrite (FS v k u j), (HS v k u j). ring.
Qed.
Lemma good2_sum n (f : nat -> env -> R) : (forall i, (i < n)%nat -> good2 (f i)) -> good2 (fun r => sumn n (fun i => f i r)).
Proof.
  induction n as [|n IH]; intros H; [apply (good2_const 0)|]. cbn [sumn]. apply good2_plus; [apply IH; intros; apply H; lia|apply H; lia].
Qed.
Definition has_grad (f : env -> R) (rho : env) : Prop := exists g, grad_at f rho g.
Lemma has_plus f h rho : has_grad f rho -> has_grad h rho -> has_grad (fun r => f r + h r) rho.
Proof. intros (g & F) (g' & H). eexists. apply (grad_plus f h); eauto. Qed.
Lemma has_mult f h rho : has_grad f rho -> has_grad h rho -> has_grad (fun r => f r * h r) rho.
Proof. intros (g & F) (g' & H). eexists. apply (grad_mult f h); eauto. Qed.
Lemma has_sum n (f : nat -> env -> R) rho : (forall i, (i < n)%nat -> has_grad (f i) rho) -> has_grad (fun r => sumn n (fun i => f i r)) rho.
Proof.
  induction n as [|n IH]; intros H; [exists (fun _ _ => 0); exact (grad_const 0 rho)|]. cbn [sumn]. apply has_plus; [apply IH; intros; apply H; lia|apply H; lia].
Qed.
Lemma good1_has f rho : good1 f -> has_grad f rho. Proof. intros (g & G). eexists. apply G. Qed.
(** ** Leaves: functions of one group that moves along one coordinate *)
Lemma grad_leaf v (phi : vec -> R) rho (g : nat -> R) : (v < vars)%nat -> single v = true -> (forall j, (j < dim v)%nat -> partial phi (rho v) j (g j)) ->
  grad_at (fun r => phi (r v)) rho (fun u k => if (u =? v)%nat then g k else 0).
Proof.
  intros Hv S P c t0 d C0 [D O]. rewrite dot_group by exact Hv. destruct (O v S) as [K|(j & a & Hj & E)].
  - rewrite (sumn_ext _ _ (fun _ => 0)).
    + rewrite sumn_0. eapply is_derive_ext; [|exact (D_const (phi (c t0 v)) t0)]. intros t. cbv beta. rewrite (K t). reflexivity.
    + intros k Hk. replace (d v k) with 0; [ring|]. apply (D_unique (fun t => c t v k) t0); [|apply D; exact Hk]. eapply is_derive_ext; [|exact (D_const (c t0 v k) t0)]. intros t. cbv beta. rewrite (K t). reflexivity.
  - assert (DA : is_derive a t0 (d v j)).
    { eapply is_derive_ext; [|apply (D v j Hj)]. intros t. cbv beta. rewrite E. unfold vset. rewrite Nat.eqb_refl. reflexivity. }
    assert (A0 : a t0 = rho v j). { rewrite <- C0. rewrite (E t0). unfold vset. rewrite Nat.eqb_refl. reflexivity. }
    rewrite (sumn_single _ _ j Hj).
    + apply is_derive_ext with (f := fun t => phi (vset (rho v) j (a t))); [intros t; rewrite <- C0; rewrite (E t); reflexivity|].
      specialize (P j Hj). unfold partial in P. rewrite <- A0 in P. eapply D_eq; [apply (is_derive_comp (fun x => phi (vset (rho v) j x)) a t0 _ _ P DA)|]. apply Rmult_comm.
    + intros k Hk N. replace (d v k) with 0; [ring|]. apply (D_unique (fun t => c t v k) t0); [|apply D; exact Hk].
      eapply is_derive_ext; [|exact (D_const (c t0 v k) t0)]. intros t. cbv beta. rewrite (E t). unfold vset. apply Nat.eqb_neq in N. rewrite N. reflexivity.
Qed.
Lemma good2_leaf v (phi : vec -> R) (g : nat -> vec -> R) (h : nat -> nat -> vec -> R) : (v < vars)%nat -> single v = true ->
  (forall s j, (j < dim v)%nat -> partial phi s j (g j s)) -> (forall s k j, (k < dim v)%nat -> (j < dim v)%nat -> partial (g k) s j (h k j s)) ->
  (forall s k j, (k < dim v)%nat -> (j < dim v)%nat -> h k j s = h j k s) -> good2 (fun r => phi (r v)).
Proof.
  intros Hv S P Q Y. exists (fun u k r => if (u =? v)%nat then if (k <? dim v)%nat then g k (r v) else 0 else 0).
  exists (fun u k w j r => if (u =? v)%nat && (w =? v)%nat && (k <? dim v)%nat && (j <? dim v)%nat then h k j (r v) else 0). split; [|split].
  - intros rho. apply (grad_leaf v phi rho (fun k => if (k <? dim v)%nat then g k (rho v) else 0) Hv S). intros j Hj. apply Nat.ltb_lt in Hj as L. rewrite L. apply P. exact Hj.
  - intros u k rho. destruct (u =? v)%nat; cbn [andb]; [|apply grad_const]. destruct (Nat.ltb_spec k (dim v)) as [Hk|Hk].
    + pose proof (grad_leaf v (g k) rho (fun j => if (j <? dim v)%nat then h k j (rho v) else 0) Hv S) as G.
      match type of G with ?A -> grad_at _ _ ?e => match goal with |- grad_at _ _ ?e' => replace e' with e; [apply G|] end end.
      * intros j Hj. apply Nat.ltb_lt in Hj as L. rewrite L. apply Q; auto.
      * apply functional_extensionality. intros w. apply functional_extensionality. intros j. destruct (w =? v)%nat; reflexivity.
    + match goal with |- grad_at _ _ ?e' => replace e' with (fun _ _ : nat => 0); [apply grad_const|] end.
      apply functional_extensionality. intros w. apply functional_extensionality. intros j. rewrite andb_false_r. reflexivity.
  - intros u k w j rho. destruct (u =? v)%nat, (w =? v)%nat; cbn [andb]; try reflexivity. destruct (Nat.ltb_spec k (dim v)), (Nat.ltb_spec j (dim v)); cbn [andb]; try reflexivity. apply Y; auto.
Qed.
(** ** Partial derivatives *)
Definition pd (f : env -> R) (v k : nat) (rho : env) : R := Derive (fun x => f (at_entry rho v k x)) (rho v k).
Lemma at_entry_same rho v k : at_entry rho v k (rho v k) = rho.
Proof. apply functional_extensionality. intros u. unfold at_entry, env_set. destruct (Nat.eqb_spec u v) as [->|N]; [apply vset_same|reflexivity]. Qed.
Lemma entry_curve rho v j : (j < dim v)%nat -> curve (at_entry rho v j) (rho v j) (fun u k => if (u =? v)%nat then delta k j else 0).
Proof.
  intros Hj. split.
  - intros u k _. unfold at_entry, env_set. destruct (Nat.eqb_spec u v) as [->|N]; [|exact (D_const (rho u k) _)]. unfold vset, delta. destruct (Nat.eqb_spec k j) as [->|N].
    + apply (@is_derive_id R_AbsRing).
    + exact (D_const (rho v k) _).
  - intros u _. destruct (Nat.eq_dec u v) as [->|N].
    + right. exists j, (fun t => t). split; [exact Hj|]. intros t. rewrite at_entry_same. unfold at_entry, env_set. rewrite Nat.eqb_refl. reflexivity.
    + left. intros t. unfold at_entry, env_set. apply Nat.eqb_neq in N. rewrite N. reflexivity.
Qed.
Lemma pd_is f rho g v j : (v < vars)%nat -> (j < dim v)%nat -> grad_at f rho g -> pd f v j rho = g v j.
Proof.
  intros Hv Hj G. unfold pd. apply is_derive_unique. eapply D_eq; [apply (G (at_entry rho v j) (rho v j) _ (at_entry_same rho v j) (entry_curve rho v j Hj))|].
  unfold dot. rewrite (sumn_single vars _ v Hv).
  - rewrite Nat.eqb_refl, (sumn_single _ _ j Hj); unfold delta; [rewrite Nat.eqb_refl; ring|]. intros i _ N. apply Nat.eqb_neq in N. rewrite N. ring.
  - intros u _ N. apply Nat.eqb_neq in N. rewrite N. rewrite (sumn_ext _ _ (fun _ => 0)); [apply sumn_0|]. intros. ring.
Qed.
Lemma grad_pd f rho : has_grad f rho -> grad_at f rho (fun v k => pd f v k rho).
Proof.
  intros (g & G) c t0 d C0 C. eapply D_eq; [apply (G c t0 d C0 C)|]. unfold dot. apply sumn_ext. intros v Hv. apply sumn_ext. intros k Hk. rewrite (pd_is f rho g v k Hv Hk G). reflexivity.
Qed.
Lemma good1_pd f v k : (v < vars)%nat -> (k < dim v)%nat -> good2 f -> good1 (pd f v k).
Proof.
  intros Hv Hk (g & h & G & G' & _). exists (h v k). intros rho. eapply grad_ext; [|apply (G' v k rho)]. intros rho'. symmetry. exact (pd_is f rho' (fun v k => g v k rho') v k Hv Hk (G rho')).
Qed.
Lemma pd_ext f h v k rho : (forall rho, f rho = h rho) -> pd f v k rho = pd h v k rho.
Proof. intros E. unfold pd. apply Derive_ext. intros t. apply E. Qed.
Lemma pd_swap f v k u j rho : (v < vars)%nat -> (k < dim v)%nat -> (u < vars)%nat -> (j < dim u)%nat -> good2 f -> pd (pd f v k) u j rho = pd (pd f u j) v k rho.
Proof.
  intros Hv Hk Hu Hj (g & h & G & G' & Y).
  rewrite (pd_ext _ (g v k) u j rho) by (intros rho'; exact (pd_is f rho' (fun v k => g v k rho') v k Hv Hk (G rho'))).
  rewrite (pd_ext _ (g u j) v k rho) by (intros rho'; exact (pd_is f rho' (fun v k => g v k rho') u j Hu Hj (G rho'))).
  rewrite (pd_is (g v k) rho (fun u j => h v k u j rho) u j Hu Hj (G' v k rho)), (pd_is (g u j) rho (fun v k => h u j v k rho) v k Hv Hk (G' u j rho)). apply Y.
Qed.
Section At.
Variables (u j : nat) (rho : env).
Hypothesis Hu : (u < vars)%nat.
Hypothesis Hj : (j < dim u)%nat.
Lemma pd_plus f h : has_grad f rho -> has_grad h rho -> pd (fun r => f r + h r) u j rho = pd f u j rho + pd h u j rho.
Proof. intros (g & F) (g' & H). rewrite (pd_is _ _ _ u j Hu Hj (grad_plus _ _ _ _ _ F H)), (pd_is _ _ _ u j Hu Hj F), (pd_is _ _ _ u j Hu Hj H). reflexivity. Qed.
Lemma pd_mult f h : has_grad f rho -> has_grad h rho -> pd (fun r => f r * h r) u j rho = pd f u j rho * h rho + f rho * pd h u j rho.
Proof. intros (g & F) (g' & H). rewrite (pd_is _ _ _ u j Hu Hj (grad_mult _ _ _ _ _ F H)), (pd_is _ _ _ u j Hu Hj F), (pd_is _ _ _ u j Hu Hj H). ring. Qed.
Lemma pd_const c : pd (fun _ => c) u j rho = 0.
Proof. unfold pd. apply Derive_const. Qed.
Lemma pd_sum n (f : nat -> env -> R) : (forall i, (i < n)%nat -> has_grad (f i) rho) -> pd (fun r => sumn n (fun i => f i r)) u j rho = sumn n (fun i => pd (f i) u j rho).
Proof.
  induction n as [|n IH]; intros H; [exact (pd_const 0)|]. cbn [sumn]. rewrite (pd_plus (fun r => sumn n (fun i => f i r)) (f n)).
  - rewrite IH by (intros; apply H; lia). reflexivity.
  - apply has_sum. intros. apply H. lia.
  - apply H. lia.
Qed.
End At.
End Curves.
