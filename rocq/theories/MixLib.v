(** Functions of two real variables whose mixed second derivatives exist and agree, on a set U. *)
From Coq Require Import Reals List Arith Lia Lra FunctionalExtensionality.
From Coquelicot Require Import Coquelicot.
From Verif Require Import Spec PartialLib SpecRigid Rigid RigidCalc KinTree KinMotion.
Import ListNotations.
Local Open Scope R_scope.

Definition mix (U : R -> R -> Prop) (h : R -> R -> R) : Prop :=
  exists D1 D2 M : R -> R -> R, forall x y, U x y ->
    is_derive (fun t => h t y) x (D1 x y) /\ is_derive (fun t => h x t) y (D2 x y) /\
    is_derive (fun t => D1 x t) y (M x y) /\ is_derive (fun t => D2 t y) x (M x y).

Section Mix.
Variable U : R -> R -> Prop.
Lemma mix_ext h k : (forall x y, h x y = k x y) -> mix U h -> mix U k.
Proof.
  intros E (D1 & D2 & M & H). exists D1, D2, M. intros x y I. destruct (H x y I) as (A & B & C & D).
  split; [eapply is_derive_ext; [intros t; apply E|exact A]|]. split; [eapply is_derive_ext; [intros t; apply E|exact B]|]. auto.
Qed.
Lemma mix_const c : mix U (fun _ _ => c).
Proof. exists (fun _ _ => 0), (fun _ _ => 0), (fun _ _ => 0). intros x y _. split; [apply D_const|]. split; [apply D_const|]. split; apply D_const. Qed.
Lemma mix_left (f : R -> R) : (forall x, ex_derive f x) -> mix U (fun x _ => f x).
Proof.
  intros E. exists (fun x _ => Derive f x), (fun _ _ => 0), (fun _ _ => 0). intros x y _.
  split; [apply Derive_correct, E|]. split; [apply D_const|]. split; apply D_const.
Qed.
Lemma mix_right (f : R -> R) : (forall x, ex_derive f x) -> mix U (fun _ y => f y).
Proof.
  intros E. exists (fun _ _ => 0), (fun _ y => Derive f y), (fun _ _ => 0). intros x y _.
  split; [apply D_const|]. split; [apply Derive_correct, E|]. split; apply D_const.
Qed.
Lemma mix_plus h k : mix U h -> mix U k -> mix U (fun x y => h x y + k x y).
Proof.
  intros (D1 & D2 & M & H) (E1 & E2 & N & K). exists (fun x y => D1 x y + E1 x y), (fun x y => D2 x y + E2 x y), (fun x y => M x y + N x y).
  intros x y I. destruct (H x y I) as (A & B & C & D). destruct (K x y I) as (A' & B' & C' & D').
  split; [apply (D_plus _ _ _ _ _ A A')|]. split; [apply (D_plus _ _ _ _ _ B B')|]. split; [apply (D_plus _ _ _ _ _ C C')|apply (D_plus _ _ _ _ _ D D')].
Qed.
Lemma mix_mult h k : mix U h -> mix U k -> mix U (fun x y => h x y * k x y).
Proof.
  intros (D1 & D2 & M & H) (E1 & E2 & N & K).
  exists (fun x y => D1 x y * k x y + h x y * E1 x y), (fun x y => D2 x y * k x y + h x y * E2 x y),
    (fun x y => M x y * k x y + D1 x y * E2 x y + (D2 x y * E1 x y + h x y * N x y)).
  intros x y I. destruct (H x y I) as (A & B & C & D). destruct (K x y I) as (A' & B' & C' & D').
  split; [apply (D_mult _ _ _ _ _ A A')|]. split; [apply (D_mult _ _ _ _ _ B B')|].
  split.
  - apply (D_plus _ _ _ _ _ (D_mult _ _ _ _ _ C B') (D_mult _ _ _ _ _ B C')).
  - eapply D_eq; [apply (D_plus _ _ _ _ _ (D_mult _ _ _ _ _ D A') (D_mult _ _ _ _ _ A D'))|]. cbv beta. ring.
Qed.
Lemma mix_opp h : mix U h -> mix U (fun x y => - h x y).
Proof. intros H. apply mix_ext with (h := fun x y => (-1) * h x y); [intros; ring|]. apply mix_mult; [apply mix_const|exact H]. Qed.
Lemma mix_inv h : (forall x y, U x y -> h x y <> 0) -> mix U h -> mix U (fun x y => / h x y).
Proof.
  intros NZ (D1 & D2 & M & H).
  assert (IV : forall (f : R -> R) (x d : R), is_derive f x d -> f x <> 0 -> is_derive (fun t => / f t) x (- (d * (/ f x * / f x)))).
  { intros f x d D Z. eapply D_eq; [apply (is_derive_inv _ _ _ D Z)|]. field. exact Z. }
  exists (fun x y => - (D1 x y * (/ h x y * / h x y))), (fun x y => - (D2 x y * (/ h x y * / h x y))),
    (fun x y => - (M x y * (/ h x y * / h x y)) + 2 * D1 x y * D2 x y * (/ h x y * / h x y * / h x y)).
  intros x y I. destruct (H x y I) as (A & B & C & D). pose proof (NZ x y I) as Z.
  split; [apply (IV (fun t => h t y) x _ A Z)|]. split; [apply (IV (fun t => h x t) y _ B Z)|]. split.
  - pose proof (IV (fun t => h x t) y _ B Z) as Q. eapply D_eq; [apply (D_opp _ _ _ (D_mult _ _ _ _ _ C (D_mult _ _ _ _ _ Q Q)))|]. cbv beta. ring.
  - pose proof (IV (fun t => h t y) x _ A Z) as Q. eapply D_eq; [apply (D_opp _ _ _ (D_mult _ _ _ _ _ D (D_mult _ _ _ _ _ Q Q)))|]. cbv beta. ring.
Qed.
(** The mixed derivatives agree, however they are computed. *)
Lemma mix_sym h (g1 g2 : R -> R -> R) x y a b : mix U h -> U x y -> locally x (fun t => U t y) -> locally y (fun t => U x t) ->
  (forall t, U x t -> is_derive (fun z => h z t) x (g1 x t)) -> (forall t, U t y -> is_derive (fun z => h t z) y (g2 t y)) ->
  is_derive (fun t => g1 x t) y a -> is_derive (fun t => g2 t y) x b -> a = b.
Proof.
  intros (D1 & D2 & M & H) I LX LY G1 G2 DA DB. destruct (H x y I) as (_ & _ & C & D).
  transitivity (M x y); [|symmetry].
  - apply (D_unique (fun t => g1 x t) y); [exact DA|]. eapply is_derive_ext_loc; [|exact C].
    apply (filter_imp (fun t => U x t)); [|exact LY]. intros t Ut. apply (D_unique (fun z => h z t) x); [apply (H x t Ut)|apply G1; exact Ut].
  - apply (D_unique (fun t => g2 t y) x); [exact DB|]. eapply is_derive_ext_loc; [|exact D].
    apply (filter_imp (fun t => U t y)); [|exact LX]. intros t Ut. apply (D_unique (fun z => h t z) y); [apply (H t y Ut)|apply G2; exact Ut].
Qed.

(** ** Transforms *)
Definition vmix (p : R -> R -> v3) : Prop := mix U (fun x y => vx (p x y)) /\ mix U (fun x y => vy (p x y)) /\ mix U (fun x y => vz (p x y)).
Definition mmix (A : R -> R -> m3) : Prop :=
  (mix U (fun x y => a00 (A x y)) /\ mix U (fun x y => a01 (A x y)) /\ mix U (fun x y => a02 (A x y))) /\
  (mix U (fun x y => a10 (A x y)) /\ mix U (fun x y => a11 (A x y)) /\ mix U (fun x y => a12 (A x y))) /\
  (mix U (fun x y => a20 (A x y)) /\ mix U (fun x y => a21 (A x y)) /\ mix U (fun x y => a22 (A x y))).
Definition pmix (P : R -> R -> pose) : Prop := mmix (fun x y => rot (P x y)) /\ vmix (fun x y => pos (P x y)).
Lemma mmix_mm A B : mmix A -> mmix B -> mmix (fun x y => mm (A x y) (B x y)).
Proof.
  intros ((A0&A1&A2)&(A3&A4&A5)&(A6&A7&A8)) ((B0&B1&B2)&(B3&B4&B5)&(B6&B7&B8)).
  assert (Q : forall a b c d e f, mix U a -> mix U b -> mix U c -> mix U d -> mix U e -> mix U f -> mix U (fun x y => a x y * b x y + c x y * d x y + e x y * f x y))
    by (intros; apply mix_plus; [apply mix_plus|]; apply mix_mult; auto).
  split; [split; [|split]|split; [split; [|split]|split; [|split]]]; cbn; apply Q; auto.
Qed.
Lemma vmix_mv A b : mmix A -> vmix b -> vmix (fun x y => mv (A x y) (b x y)).
Proof.
  intros ((A0&A1&A2)&(A3&A4&A5)&(A6&A7&A8)) (B0&B1&B2).
  assert (Q : forall a b c d e f, mix U a -> mix U b -> mix U c -> mix U d -> mix U e -> mix U f -> mix U (fun x y => a x y * b x y + c x y * d x y + e x y * f x y))
    by (intros; apply mix_plus; [apply mix_plus|]; apply mix_mult; auto).
  split; [|split]; cbn; apply Q; auto.
Qed.
Lemma vmix_add a b : vmix a -> vmix b -> vmix (fun x y => vadd (a x y) (b x y)).
Proof. intros (A0&A1&A2) (B0&B1&B2). split; [|split]; cbn; apply mix_plus; auto. Qed.
Lemma vmix_const p : vmix (fun _ _ => p).
Proof. split; [|split]; apply mix_const. Qed.
Lemma mmix_const p : mmix (fun _ _ => p).
Proof. split; [split; [|split]|split; [split; [|split]|split; [|split]]]; apply mix_const. Qed.
Lemma pmix_const p : pmix (fun _ _ => p).
Proof. split; [apply mmix_const|apply vmix_const]. Qed.
Lemma pmix_mul P Q : pmix P -> pmix Q -> pmix (fun x y => pmul (P x y) (Q x y)).
Proof. intros [A B] [C D]. split; cbn [rot pos pmul]; [apply mmix_mm; auto|]. apply vmix_add; [apply vmix_mv; auto|auto]. Qed.
Lemma pmix_left P : (forall x, exists s, moves P x s) -> pmix (fun x _ => P x).
Proof.
  intros H. split; [split; [split; [|split]|split; [split; [|split]|split; [|split]]]|split; [|split]]; apply mix_left; intros x;
    destruct (H x) as (s & ((A0&A1&A2)&(A3&A4&A5)&(A6&A7&A8)) & (B0&B1&B2)); eexists; eassumption.
Qed.
Lemma pmix_right P : (forall x, exists s, moves P x s) -> pmix (fun _ y => P y).
Proof.
  intros H. split; [split; [split; [|split]|split; [split; [|split]|split; [|split]]]|split; [|split]]; apply mix_right; intros x;
    destruct (H x) as (s & ((A0&A1&A2)&(A3&A4&A5)&(A6&A7&A8)) & (B0&B1&B2)); eexists; eassumption.
Qed.
Lemma pmix_ext P Q : (forall x y, P x y = Q x y) -> pmix P -> pmix Q.
Proof.
  intros E [((A0&A1&A2)&(A3&A4&A5)&(A6&A7&A8)) (B0&B1&B2)].
  assert (X : forall f : pose -> R, mix U (fun x y => f (P x y)) -> mix U (fun x y => f (Q x y))) by (intros f; apply mix_ext; intros; rewrite E; reflexivity).
  split; [split; [split; [|split]|split; [split; [|split]|split; [|split]]]|split; [|split]].
  - apply (X (fun p => a00 (rot p)) A0). - apply (X (fun p => a01 (rot p)) A1). - apply (X (fun p => a02 (rot p)) A2).
  - apply (X (fun p => a10 (rot p)) A3). - apply (X (fun p => a11 (rot p)) A4). - apply (X (fun p => a12 (rot p)) A5).
  - apply (X (fun p => a20 (rot p)) A6). - apply (X (fun p => a21 (rot p)) A7). - apply (X (fun p => a22 (rot p)) A8).
  - apply (X (fun p => vx (pos p)) B0). - apply (X (fun p => vy (pos p)) B1). - apply (X (fun p => vz (pos p)) B2).
Qed.
Lemma vmix_ent p i : vmix p -> mix U (fun x y => vent (p x y) i).
Proof. intros (A & B & C). destruct i as [|[|[|i]]]; cbn [vent]; auto. apply mix_const. Qed.
Lemma mmix_ent A i j : mmix A -> mix U (fun x y => ment (A x y) i j).
Proof.
  intros ((A0&A1&A2)&(A3&A4&A5)&(A6&A7&A8)). destruct i as [|[|[|i]]]; destruct j as [|[|[|j]]]; cbn [ment]; auto; apply mix_const.
Qed.

(** ** The relative transforms, two joints being moved *)
Variable r : robot.
Variable place : vec -> nat -> pose.
Variable up : nat -> nat -> option (nat * nat).
Variable depth : nat -> nat -> nat.
Hypothesis rok : robot_ok r.
Hypothesis plc : placement r place.
Hypothesis trav : forall b, (b < r_links r)%nat -> traversal r b (up b) (depth b).
Lemma rel_mix s i j f g : i <> j -> frame_ok r f -> frame_ok r g -> pmix (fun x y => relative r place (vset (vset s i x) j y) f g).
Proof.
  intros N F G. pose proof (fl_lt r rok f F) as Hf. pose proof (fl_lt r rok g G) as Hg.
  eapply pmix_ext; [intros x y; symmetry; apply (rel_rl r place rok plc); exact F|].
  apply pmix_mul; [apply pmix_const|]. apply pmix_mul; [|apply pmix_const].
  destruct (path_exists r (frame_link r f) (up (frame_link r f)) (depth (frame_link r f)) (trav _ Hf) Hf (frame_link r g) Hg) as (l & P & _).
  revert Hg P. generalize (frame_link r g) as t. generalize dependent (frame_link r f). intros b Hb t Ht P. clear F G f g.
  induction P as [|t p k l Nt Ut P IH].
  - eapply pmix_ext; [intros x y; symmetry; apply (rl_same r place plc); exact Hb|]. apply pmix_const.
  - destruct (trav b Hb t Ht Nt) as (p' & k' & jt & U' & E & C & Hp & D). rewrite Ut in U'. injection U' as <- <-.
    assert (Npt : p <> t) by (intros ->; lia).
    eapply pmix_ext; [intros x y; apply (rl_mul r place plc); exact Hp|]. apply pmix_mul; [apply IH; exact Hp|].
    destruct (edge_moves r place rok plc s p t k jt E C Npt Hp Ht) as [_ O].
    destruct (Nat.eq_dec k i) as [->|Ni]; [|destruct (Nat.eq_dec k j) as [->|Nj]].
    + eapply pmix_ext; [intros x y; symmetry; rewrite vset_comm by exact N; reflexivity|].
      apply pmix_ext with (P := fun x y => rl place (vset s i x) p t).
      { intros x y. rewrite vset_comm by auto. destruct (edge_moves r place rok plc (vset s i x) p t i jt E C Npt Hp Ht) as [_ O']. symmetry. apply O'. auto. }
      apply (pmix_left (fun x => rl place (vset s i x) p t)). intros x. exists (axis_of jt t).
      destruct (edge_moves r place rok plc (vset s i x) p t i jt E C Npt Hp Ht) as [M' _]. rewrite vset_at in M'.
      eapply moves_ext; [|exact M']. intros z. cbv beta. rewrite vset_vset. reflexivity.
    + apply pmix_ext with (P := fun x y => rl place (vset s j y) p t).
      { intros x y. rewrite vset_comm by auto. destruct (edge_moves r place rok plc (vset s j y) p t j jt E C Npt Hp Ht) as [_ O']. symmetry. apply O'. auto. }
      apply (pmix_right (fun x => rl place (vset s j x) p t)). intros x. exists (axis_of jt t).
      destruct (edge_moves r place rok plc (vset s j x) p t j jt E C Npt Hp Ht) as [M' _]. rewrite vset_at in M'.
      eapply moves_ext; [|exact M']. intros z. cbv beta. rewrite vset_vset. reflexivity.
    + apply pmix_ext with (P := fun x y => rl place s p t); [|apply pmix_const].
      intros x y. destruct (edge_moves r place rok plc (vset s i x) p t k jt E C Npt Hp Ht) as [_ O']. rewrite O' by auto. rewrite O by auto. reflexivity.
Qed.
End Mix.
