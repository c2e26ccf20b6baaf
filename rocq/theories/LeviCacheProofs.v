(** Invariants of the evaluation cache (C44). *)
From Coq Require Import List Arith ZArith Bool Lia.
From Verif Require Import SpecExpressions LeviCache.
Import ListNotations.

Section Lists.
Context {A : Type}.
Lemma set_at_length (l : list A) i a : length (set_at l i a) = length l.
Proof. revert i; induction l as [|x l IH]; intros [|i]; cbn; auto. Qed.
Lemma set_at_eq (l : list A) i a : i < length l -> nth_error (set_at l i a) i = Some a.
Proof. revert i; induction l as [|x l IH]; intros [|i] H; cbn in *; try lia; auto. apply IH; lia. Qed.
Lemma set_at_ne (l : list A) i j a : i <> j -> nth_error (set_at l i a) j = nth_error l j.
Proof. revert i j; induction l as [|x l IH]; intros [|i] [|j] H; cbn; auto; try congruence. Qed.
Lemma nth_lt (l : list A) n x : nth_error l n = Some x -> n < length l.
Proof. intros H. apply nth_error_Some. congruence. Qed.
Lemma nth_ex (l : list A) n : n < length l -> exists x, nth_error l n = Some x.
Proof. intros H. destruct (nth_error l n) eqn:E; eauto. apply nth_error_None in E. lia. Qed.
Lemma NoDup_app_l (l m : list A) : NoDup (l ++ m) -> NoDup l.
Proof. induction l as [|a l IH]; cbn; intros H; [constructor|]. inversion H; subst. constructor; auto. intros X; apply H2; apply in_or_app; auto. Qed.
Lemma NoDup_app_r (l m : list A) : NoDup (l ++ m) -> NoDup m.
Proof. induction l as [|a l IH]; cbn; intros H; auto. inversion H; auto. Qed.
Lemma NoDup_app_d (l m : list A) a : NoDup (l ++ m) -> In a l -> In a m -> False.
Proof. induction l as [|b l IH]; cbn; intros H X Y; [contradiction|]. inversion H; subst. destruct X as [->|X]; auto. apply H2, in_or_app; auto. Qed.
Lemma NoDup_app_i (l m : list A) : NoDup l -> NoDup m -> (forall a, In a l -> In a m -> False) -> NoDup (l ++ m).
Proof.
  induction l as [|b l IH]; cbn; intros H X Y; auto. inversion H; subst. constructor.
  - intros Z. apply in_app_or in Z. destruct Z; eauto.
  - apply IH; eauto.
Qed.
End Lists.

Section Proofs.
Context {V : Type} (garbage : V).
Notation node := (node V). Notation heap := (heap V).

Lemma upd_length (h : heap) n f : length (upd h n f) = length h.
Proof. revert n; induction h as [|x h IH]; intros [|n]; cbn; auto. Qed.
Lemma upd_eq (h : heap) n f : nth_error (upd h n f) n = option_map f (nth_error h n).
Proof. revert n; induction h as [|x h IH]; intros [|n]; cbn; auto. Qed.
Lemma upd_ne (h : heap) n m f : n <> m -> nth_error (upd h n f) m = nth_error h m.
Proof. revert n m; induction h as [|x h IH]; intros [|n] [|m] H; cbn; auto; congruence. Qed.

Definition is_leaf (k : kind V) : bool := match k with KVar | KMutable | KConst => true | _ => false end.

(** ** Values *)
Fixpoint val (fuel : nat) (h : heap) (n : nat) : V :=
  match fuel with
  | O => garbage
  | S fuel =>
    match nth_error h n with
    | None => garbage
    | Some x =>
      match nkind x with
      | KVar | KMutable | KConst => buffer x
      | KOp f => f (map (fun c => val fuel h (fst c)) (children x))
      | KFrom _ => nth 0 (map (fun c => val fuel h (fst c)) (children x)) garbage
      end
    end
  end.
Definition value (h : heap) (n : nat) : V := val (S n) h n.

Definition below (h : heap) : Prop := forall n x, nth_error h n = Some x -> forall c, In c (children x) -> fst c < n.
Lemma val_fuel h : below h -> forall f1 f2 n, n < f1 -> n < f2 -> val f1 h n = val f2 h n.
Proof.
  intros B. induction f1 as [|f1 IH]; intros [|f2] n H1 H2; try lia. cbn [val].
  destruct (nth_error h n) as [x|] eqn:E; [|reflexivity].
  assert (M : map (fun c => val f1 h (fst c)) (children x) = map (fun c => val f2 h (fst c)) (children x)).
  { apply map_ext_in. intros c Hc. pose proof (B n x E c Hc). apply IH; lia. }
  rewrite M. reflexivity.
Qed.
Lemma value_unfold h n x : below h -> nth_error h n = Some x ->
  value h n = match nkind x with
              | KVar | KMutable | KConst => buffer x
              | KOp f => f (map (fun c => value h (fst c)) (children x))
              | KFrom _ => nth 0 (map (fun c => value h (fst c)) (children x)) garbage
              end.
Proof.
  intros B E. unfold value at 1. cbn [val]. rewrite E.
  assert (M : map (fun c => val n h (fst c)) (children x) = map (fun c => value h (fst c)) (children x)).
  { apply map_ext_in. intros c Hc. pose proof (B n x E c Hc). apply val_fuel; auto; lia. }
  rewrite M. reflexivity.
Qed.

(** ** Newness as a relation *)
Inductive isnew (h : heap) : nat -> nat -> Prop :=
| new_reg n i x r : nth_error h n = Some x -> nth_error (register x) i = Some r -> r <> counter x -> isnew h n i
| new_dep n i x c : nth_error h n = Some x -> In c (deps x) -> fst c <> n -> isnew h (fst c) (snd c) -> isnew h n i.
Definition dirty (h : heap) (n : nat) : Prop := exists x c, nth_error h n = Some x /\ In c (deps x) /\ fst c <> n /\ isnew h (fst c) (snd c).
Lemma dirty_new h n i : dirty h n -> isnew h n i.
Proof. intros (x & c & A & B & C & D). eapply new_dep; eauto. Qed.
Lemma isnew_inv h n i x : nth_error h n = Some x -> isnew h n i -> dirty h n \/ exists r, nth_error (register x) i = Some r /\ r <> counter x.
Proof.
  intros E H. inversion H; subst.
  - right. exists r. rewrite E in H0. injection H0 as <-. auto.
  - left. exists x0, c. auto.
Qed.

(** ** The invariant *)
Definition extra := list (bool * handle).
Definition liveb (h : heap) (n : nat) : Prop := exists x : node, nth_error h n = Some x /\ alive x = true.
Lemma live_liveb h n : liveb h n -> exists x, live h n = Some x /\ nth_error h n = Some x /\ alive x = true.
Proof. intros (x & A & B). exists x. unfold live. rewrite A, B. auto. Qed.
Lemma live_some (h : heap) n x : live h n = Some x -> nth_error h n = Some x /\ alive x = true.
Proof. unfold live. destruct (nth_error h n) as [y|]; [|discriminate]. destruct (alive y) eqn:E; [|discriminate]. intros [= <-]. auto. Qed.
Lemma some_live (h : heap) n x : nth_error h n = Some x -> alive x = true -> live h n = Some x.
Proof. unfold live. intros -> ->. reflexivity. Qed.

Definition own (x : node) : list handle := children x ++ deps x.
Definition holds (h : heap) (W : extra) (c : handle) : Prop :=
  In c (map snd W) \/ exists n x, nth_error h n = Some x /\ alive x = true /\ In c (own x).

Record inv (h : heap) (W : extra) : Prop := {
  i_lt : below h;
  i_dlt : forall n x, nth_error h n = Some x -> forall c, In c (deps x) -> fst c < n \/ (nkind x = KMutable /\ fst c = n);
  i_leafc : forall n x, nth_error h n = Some x -> is_leaf (nkind x) = true -> children x = [];
  i_leafd : forall n x, nth_error h n = Some x -> is_leaf (nkind x) = true -> map fst (deps x) = match nkind x with KMutable => [n] | _ => [] end;
  i_cover : forall n x, nth_error h n = Some x -> is_leaf (nkind x) = false -> forall c y e, In c (children x) ->
     nth_error h (fst c) = Some y -> In e (exports (fst c) y) -> In e (map fst (deps x));
  i_from : forall n x, nth_error h n = Some x -> is_leaf (nkind x) = false -> forall e, In e (map fst (deps x)) ->
     exists c y, In c (children x) /\ nth_error h (fst c) = Some y /\ In e (exports (fst c) y);
  i_alive : forall n x, nth_error h n = Some x -> alive x = true -> forall c, In c (children x) -> liveb h (fst c);
  i_strong : forall c, In (true, c) W -> liveb h (fst c);
  i_w : NoDup (map snd W);
  i_n : forall n x, nth_error h n = Some x -> alive x = true -> NoDup (own x);
  i_nn : forall n m x y c, nth_error h n = Some x -> nth_error h m = Some y -> alive x = true -> alive y = true -> n <> m ->
     In c (own x) -> In c (own y) -> False;
  i_nw : forall n x c, nth_error h n = Some x -> alive x = true -> In c (own x) -> In c (map snd W) -> False;
  i_slot : forall c, holds h W c -> exists y, nth_error h (fst c) = Some y /\ snd c < length (register y) /\ ~ In (snd c) (bin y);
  i_bin : forall n x, nth_error h n = Some x -> NoDup (bin x) /\ forall i, In i (bin x) -> i < length (register x);
  i_reg : forall n x i r, nth_error h n = Some x -> nth_error (register x) i = Some r -> (r <= counter x)%Z;
  i_comp : forall n x i, nth_error h n = Some x -> is_leaf (nkind x) = false -> nth_error (register x) i = Some (counter x) -> computed x = true;
  i_val : forall n x, nth_error h n = Some x -> alive x = true -> is_leaf (nkind x) = false -> computed x = true -> ~ dirty h n -> buffer x = value h n
}.

Lemma exports_in h W n x e : inv h W -> nth_error h n = Some x -> In e (exports n x) -> e = n \/ In e (map fst (deps x)).
Proof.
  intros I E H. unfold exports in H. destruct (nkind x); auto.
  - destruct H as [->|[]]; auto.
  - apply in_app_or in H. destruct H as [H|[->|[]]]; auto. destruct dependent; [auto | destruct H].
Qed.
(** The registrars of an object in use are in use. *)
Lemma deps_alive h W : inv h W -> forall n x, nth_error h n = Some x -> alive x = true -> forall e, In e (map fst (deps x)) -> liveb h e.
Proof.
  intros I n. induction n as [n IH] using lt_wf_ind. intros x E A e He.
  destruct (is_leaf (nkind x)) eqn:L.
  - rewrite (i_leafd _ _ I _ _ E L) in He. destruct (nkind x); cbn in He; try contradiction. destruct He as [<-|[]]. exists x; auto.
  - destruct (i_from _ _ I _ _ E L e He) as (c & y & Hc & Ey & X).
    pose proof (i_alive _ _ I _ _ E A c Hc) as (y' & Ey' & Ay). rewrite Ey in Ey'; injection Ey' as <-.
    destruct (exports_in _ _ _ _ _ I Ey X) as [->|X2]; [exists y; auto|].
    apply (IH (fst c) (i_lt _ _ I _ _ E c Hc) y Ey Ay e X2).
Qed.

(** ** Bumps: what asking for news changes *)
Definition bumped (x y : node) : Prop :=
  nkind y = nkind x /\ children y = children x /\ deps y = deps x /\ register y = register x /\ bin y = bin x /\ buffer y = buffer x /\
  alive y = alive x /\ computed y = false /\ (counter x < counter y)%Z.
Definition bump (h h' : heap) : Prop :=
  length h' = length h /\
  forall n x, nth_error h n = Some x -> nth_error h' n = Some x \/ (dirty h n /\ exists y, nth_error h' n = Some y /\ bumped x y).
Lemma bump_back h h' n y : bump h h' -> nth_error h' n = Some y ->
  exists x, nth_error h n = Some x /\ (y = x \/ (dirty h n /\ bumped x y)).
Proof.
  intros (L & B) E. assert (n < length h) by (rewrite <- L; eapply nth_lt; eauto).
  destruct (nth_ex h n H) as (x & Ex). exists x. split; auto. destruct (B n x Ex) as [B1|(D & z & Ez & Bz)].
  - left; congruence. - right. rewrite E in Ez; injection Ez as <-. auto.
Qed.
Lemma bump_refl h : bump h h. Proof. split; auto. Qed.
Section Bump.
Context (h h' : heap) (B : bump h h') (R : forall n x i r, nth_error h n = Some x -> nth_error (register x) i = Some r -> (r <= counter x)%Z).
Lemma bump_new n i : isnew h n i -> isnew h' n i.
Proof.
  induction 1 as [n i x r E Er N | n i x c E Hc N _ IH].
  - destruct (proj2 B n x E) as [E'|(_ & y & E' & X)]; [eapply new_reg; eauto|].
    destruct X as (_ & _ & _ & X & _ & _ & _ & _ & X2). eapply new_reg; eauto; [rewrite X; eauto|].
    pose proof (R _ _ _ _ E Er). lia.
  - destruct (proj2 B n x E) as [E'|(_ & y & E' & X)]; eapply new_dep; eauto. destruct X as (_ & _ & -> & _). exact Hc.
Qed.
Lemma bump_new_rev n i : isnew h' n i -> isnew h n i.
Proof.
  induction 1 as [n i y r E Er N | n i y c E Hc N _ IH];
    destruct (bump_back _ _ _ _ B E) as (x & Ex & [->|(D & X)]); try (apply dirty_new; assumption).
  - eapply new_reg; eauto.
  - eapply new_dep; eauto.
Qed.
Lemma bump_dirty n : dirty h n <-> dirty h' n.
Proof.
  split; intros (x & c & E & Hc & N & H).
  - destruct (proj2 B n x E) as [E'|(_ & y & E' & X)].
    + exists x, c. repeat split; auto. apply bump_new; auto.
    + exists y, c. destruct X as (_ & _ & -> & _). repeat split; auto. apply bump_new; auto.
  - destruct (bump_back _ _ _ _ B E) as (y & Ey & [->|(D & X)]); [|exact D].
    exists y, c. repeat split; auto. apply bump_new_rev; auto.
Qed.
End Bump.
Lemma bumped_static x y : bumped x y -> nkind y = nkind x /\ children y = children x /\ deps y = deps x /\ register y = register x /\ bin y = bin x /\ buffer y = buffer x /\ alive y = alive x.
Proof. intros (A1 & A2 & A3 & A4 & A5 & A6 & A7 & _). auto 10. Qed.
Lemma bump_nth h h' n y : bump h h' -> nth_error h' n = Some y -> exists x, nth_error h n = Some x /\
  nkind y = nkind x /\ children y = children x /\ deps y = deps x /\ register y = register x /\ bin y = bin x /\ buffer y = buffer x /\ alive y = alive x.
Proof. intros B E. destruct (bump_back _ _ _ _ B E) as (x & Ex & [->|(_ & X)]); exists x; split; auto 10. apply bumped_static; auto. Qed.
Lemma bump_nth_fw h h' n x : bump h h' -> nth_error h n = Some x -> exists y, nth_error h' n = Some y /\
  nkind y = nkind x /\ children y = children x /\ deps y = deps x /\ register y = register x /\ bin y = bin x /\ buffer y = buffer x /\ alive y = alive x.
Proof. intros B E. destruct (proj2 B _ _ E) as [E'|(_ & y & E' & X)]; [exists x; auto 10|]. exists y. split; auto. apply bumped_static; auto. Qed.

(** Values depend on the kinds, the operands and the buffers of the leaves only. *)
Lemma value_same h h' : below h -> below h' -> length h' = length h ->
  (forall n x, nth_error h n = Some x -> exists y, nth_error h' n = Some y /\ nkind y = nkind x /\ map fst (children y) = map fst (children x) /\ (is_leaf (nkind x) = true -> buffer y = buffer x)) ->
  forall n, value h' n = value h n.
Proof.
  intros B B' L S n. induction n as [n IH] using lt_wf_ind.
  destruct (nth_error h n) as [x|] eqn:E.
  - destruct (S n x E) as (y & Ey & K & C & Bf). rewrite (value_unfold h n x B E), (value_unfold h' n y B' Ey), K.
    assert (M : map (fun c => value h' (fst c)) (children y) = map (fun c => value h (fst c)) (children x)).
    { transitivity (map (value h') (map fst (children y))); [now rewrite map_map|]. rewrite C.
      rewrite map_map. apply map_ext_in. intros c Hc. apply IH. apply (B n x E c Hc). }
    destruct (nkind x) eqn:KX; cbn [is_leaf] in *; rewrite ?M; auto.
  - assert (E' : nth_error h' n = None) by (apply nth_error_None; rewrite L; now apply nth_error_None).
    unfold value. cbn [val]. now rewrite E, E'.
Qed.

(** Same objects, operands, ids; the data of the cache may differ. *)
Definition static (x y : node) : Prop :=
  nkind y = nkind x /\ children y = children x /\ deps y = deps x /\ bin y = bin x /\ alive y = alive x /\ length (register y) = length (register x) /\
  (is_leaf (nkind x) = true -> buffer y = buffer x).
Definition statics (h h' : heap) : Prop :=
  length h' = length h /\ forall n x, nth_error h n = Some x -> exists y, nth_error h' n = Some y /\ static x y.
Lemma statics_back h h' n y : statics h h' -> nth_error h' n = Some y -> exists x, nth_error h n = Some x /\ static x y.
Proof.
  intros (L & S) E. assert (n < length h) by (rewrite <- L; eapply nth_lt; eauto). destruct (nth_ex h n H) as (x & Ex).
  exists x; split; auto. destruct (S n x Ex) as (z & Ez & X). rewrite E in Ez; injection Ez as <-; auto.
Qed.
Lemma statics_refl h : statics h h. Proof. split; auto. intros n x E. exists x; split; auto. repeat split; auto. Qed.
Lemma statics_trans h1 h2 h3 : statics h1 h2 -> statics h2 h3 -> statics h1 h3.
Proof.
  intros (L1 & S1) (L2 & S2). split; [congruence|]. intros n x E. destruct (S1 n x E) as (y & Ey & A1 & A2 & A3 & A4 & A5 & A6 & A7).
  destruct (S2 n y Ey) as (z & Ez & B1 & B2 & B3 & B4 & B5 & B6 & B7). exists z. split; auto.
  unfold static. rewrite B1, B2, B3, B4, B5, B6. repeat split; auto. intros L. rewrite B7, A7; auto. congruence.
Qed.
Lemma statics_below h h' : statics h h' -> below h -> below h'.
Proof. intros S B n y E c Hc. destruct (statics_back _ _ _ _ S E) as (x & Ex & A1 & A2 & _). rewrite A2 in Hc. eapply B; eauto. Qed.
Lemma statics_value h h' n : statics h h' -> below h -> value h' n = value h n.
Proof.
  intros S B. apply value_same; auto; [eapply statics_below; eauto | apply S |].
  intros m x E. destruct (proj2 S m x E) as (y & Ey & A1 & A2 & A3 & A4 & A5 & A6 & A7). exists y. rewrite A2. auto.
Qed.
Lemma bump_statics h h' : bump h h' -> statics h h'.
Proof.
  intros B. split; [apply B|]. intros n x E. destruct (bump_nth_fw _ _ _ _ B E) as (y & Ey & A1 & A2 & A3 & A4 & A5 & A6 & A7).
  exists y; split; auto. unfold static. rewrite A4. auto 10.
Qed.
(** All but the last three fields follow from the static part. *)
Definition shape (x y : node) : Prop :=
  nkind y = nkind x /\ children y = children x /\ deps y = deps x /\ bin y = bin x /\ alive y = alive x /\ length (register y) = length (register x).
Definition shapes (h h' : heap) : Prop :=
  length h' = length h /\ forall n x, nth_error h n = Some x -> exists y, nth_error h' n = Some y /\ shape x y.
Lemma shapes_back h h' n y : shapes h h' -> nth_error h' n = Some y -> exists x, nth_error h n = Some x /\ shape x y.
Proof.
  intros (L & S) E. assert (n < length h) by (rewrite <- L; eapply nth_lt; eauto). destruct (nth_ex h n H) as (x & Ex).
  exists x; split; auto. destruct (S n x Ex) as (z & Ez & X). rewrite E in Ez; injection Ez as <-; auto.
Qed.
Lemma shapes_below h h' : shapes h h' -> below h -> below h'.
Proof. intros S B n y E c Hc. destruct (shapes_back _ _ _ _ S E) as (x & Ex & A1 & A2 & _). rewrite A2 in Hc. eapply B; eauto. Qed.
Lemma inv_shapes h h' W : shapes h h' -> inv h W ->
  (forall n x i r, nth_error h' n = Some x -> nth_error (register x) i = Some r -> (r <= counter x)%Z) ->
  (forall n x i, nth_error h' n = Some x -> is_leaf (nkind x) = false -> nth_error (register x) i = Some (counter x) -> computed x = true) ->
  (forall n x, nth_error h' n = Some x -> alive x = true -> is_leaf (nkind x) = false -> computed x = true -> ~ dirty h' n -> buffer x = value h' n) ->
  inv h' W.
Proof.
  intros S I P1 P2 P3.
  assert (BK := fun n y => shapes_back h h' n y S). assert (FW := proj2 S).
  assert (LV : forall m, liveb h m -> liveb h' m).
  { intros m (x & E & A). destruct (FW _ _ E) as (y & Ey & A1 & A2 & A3 & A4 & A5 & A6). exists y. split; congruence. }
  assert (EX : forall n x y, shape x y -> exports n y = exports n x).
  { intros n x y (A1 & A2 & A3 & A4 & A5 & A6). unfold exports. rewrite A1, A3. reflexivity. }
  constructor; auto.
  - eapply shapes_below; eauto. apply I.
  - intros n y E c Hc. destruct (BK n y E) as (x & Ex & A1 & A2 & A3 & _). rewrite A3 in Hc. rewrite A1. eapply i_dlt; eauto.
  - intros n y E L. destruct (BK n y E) as (x & Ex & A1 & A2 & A3 & _). rewrite A1 in L. rewrite A2. eapply i_leafc; eauto.
  - intros n y E L. destruct (BK n y E) as (x & Ex & A1 & A2 & A3 & _). rewrite A1 in *. rewrite A3. eapply i_leafd; eauto.
  - intros n y E L c z e Hc Ez He. destruct (BK n y E) as (x & Ex & A1 & A2 & A3 & _). destruct (BK _ z Ez) as (z' & Ez' & Z).
    rewrite (EX _ _ _ Z) in He. rewrite A1 in L. rewrite A2 in Hc. rewrite A3. eapply i_cover; eauto.
  - intros n y E L e He. destruct (BK n y E) as (x & Ex & A1 & A2 & A3 & _). rewrite A1 in L. rewrite A3 in He.
    destruct (i_from _ _ I _ _ Ex L e He) as (c & z & Hc & Ez & X). destruct (FW _ _ Ez) as (z' & Ez' & Z).
    exists c, z'. rewrite A2, (EX _ _ _ Z). auto.
  - intros n y E A c Hc. destruct (BK n y E) as (x & Ex & A1 & A2 & A3 & A4 & A5 & _). rewrite A2 in Hc. rewrite A5 in A. apply LV. eapply i_alive; eauto.
  - intros c Hc. apply LV. eapply i_strong; eauto.
  - apply I.
  - intros n y E A. destruct (BK n y E) as (x & Ex & A1 & A2 & A3 & A4 & A5 & _). rewrite A5 in A. unfold own. rewrite A2, A3. eapply i_n; eauto.
  - intros n m x y c E1 E2 L1 L2 N H1 H2. destruct (BK _ _ E1) as (x' & Ex & A1 & A2 & A3 & A4 & A5 & _). destruct (BK _ _ E2) as (y' & Ey & B1 & B2 & B3 & B4 & B5 & _).
    unfold own in *. rewrite A2, A3 in H1. rewrite B2, B3 in H2. rewrite A5 in L1. rewrite B5 in L2. eapply (i_nn _ _ I n m); eauto.
  - intros n x c E A H1 H2. destruct (BK _ _ E) as (x' & Ex & A1 & A2 & A3 & A4 & A5 & _). unfold own in *. rewrite A2, A3 in H1. rewrite A5 in A. eapply (i_nw _ _ I n); eauto.
  - intros c Hc. assert (H0 : holds h W c).
    { destruct Hc as [Hc|(n & x & E & A & X)]; [left; auto|]. right. destruct (BK _ _ E) as (x' & Ex & A1 & A2 & A3 & A4 & A5 & _).
      exists n, x'. unfold own in *. rewrite A2, A3 in X. rewrite A5 in A. auto. }
    destruct (i_slot _ _ I c H0) as (y & Ey & Y1 & Y2). destruct (FW _ _ Ey) as (y' & Ey' & B1 & B2 & B3 & B4 & B5 & B6).
    exists y'. rewrite B4, B6. auto.
  - intros n y E. destruct (BK _ _ E) as (x & Ex & A1 & A2 & A3 & A4 & A5 & A6). rewrite A4, A6. eapply i_bin; eauto.
Qed.
Lemma statics_shapes h h' : statics h h' -> shapes h h'.
Proof. intros (L & S). split; auto. intros n x E. destruct (S n x E) as (y & Ey & A1 & A2 & A3 & A4 & A5 & A6 & _). exists y. split; auto. repeat split; auto. Qed.
Lemma inv_statics h h' W : statics h h' -> inv h W ->
  (forall n x i r, nth_error h' n = Some x -> nth_error (register x) i = Some r -> (r <= counter x)%Z) ->
  (forall n x i, nth_error h' n = Some x -> is_leaf (nkind x) = false -> nth_error (register x) i = Some (counter x) -> computed x = true) ->
  (forall n x, nth_error h' n = Some x -> alive x = true -> is_leaf (nkind x) = false -> computed x = true -> ~ dirty h' n -> buffer x = value h' n) ->
  inv h' W.
Proof. intros S. apply inv_shapes, statics_shapes, S. Qed.
Lemma inv_bump h h' W : bump h h' -> inv h W -> inv h' W.
Proof.
  intros B I. apply (inv_statics h h' W (bump_statics _ _ B) I).
  - intros n y i r E Er. destruct (bump_back _ _ _ _ B E) as (x & Ex & [->|(_ & X)]); [eapply i_reg; eauto|].
    destruct X as (_ & _ & _ & X1 & _ & _ & _ & _ & X2). rewrite X1 in Er. pose proof (i_reg _ _ I _ _ _ _ Ex Er). lia.
  - intros n y i E L Er. destruct (bump_back _ _ _ _ B E) as (x & Ex & [->|(_ & X)]); [eapply i_comp; eauto|].
    destruct X as (_ & _ & _ & X1 & _ & _ & _ & _ & X2). rewrite X1 in Er. pose proof (i_reg _ _ I _ _ _ _ Ex Er). lia.
  - intros n y E A L C D. rewrite (statics_value h h') by (try apply bump_statics; auto; apply I).
    destruct (bump_back _ _ _ _ B E) as (x & Ex & [->|(_ & X)]).
    + eapply i_val; eauto. intros D'. apply D. apply (bump_dirty h h'); auto. apply (i_reg _ _ I).
    + destruct X as (_ & _ & _ & _ & _ & _ & _ & X & _). congruence.
Qed.
Lemma bump_trans h1 h2 h3 W : inv h1 W -> bump h1 h2 -> bump h2 h3 -> bump h1 h3.
Proof.
  intros I B1 B2. split; [rewrite (proj1 B2); apply B1|]. intros n x E.
  destruct (proj2 B1 n x E) as [E2|(D & y & Ey & X)].
  - destruct (proj2 B2 n x E2) as [E3|(D & z & Ez & Z)]; auto. right. split; eauto. apply (bump_dirty h1 h2); auto. apply (i_reg _ _ I).
  - right. split; auto. destruct (proj2 B2 n y Ey) as [E3|(D2 & z & Ez & Z)]; eauto. exists z. split; auto.
    destruct X as (A1 & A2 & A3 & A4 & A5 & A6 & A7 & A8 & A9), Z as (C1 & C2 & C3 & C4 & C5 & C6 & C7 & C8 & C9).
    unfold bumped. rewrite C1, C2, C3, C4, C5, C6, C7. repeat split; auto. lia.
Qed.
Lemma bump_live h h' n : bump h h' -> liveb h n -> liveb h' n.
Proof. intros B (x & E & A). destruct (bump_nth_fw _ _ _ _ B E) as (y & Ey & _ & _ & _ & _ & _ & _ & X). exists y; split; congruence. Qed.
Lemma holds_statics h h' W c : statics h h' -> holds h W c -> holds h' W c.
Proof.
  intros S [H|(n & x & E & A & H)]; [left; auto|]. right. destruct (proj2 S _ _ E) as (y & Ey & A1 & A2 & A3 & A4 & A5 & _).
  exists n, y. unfold own in *. rewrite A2, A3. repeat split; auto. congruence.
Qed.

(** ** Asking for news *)
Lemma isNew_spec W : forall fuel h c, inv h W -> holds h W c -> liveb h (fst c) -> fst c < fuel ->
  exists h' b, isNew fuel h c = Some (h', b) /\ (b = true <-> isnew h (fst c) (snd c)) /\ bump h h' /\
    (forall m, fst c < m -> nth_error h' m = nth_error h m) /\
    (dirty h (fst c) -> forall y i r, nth_error h' (fst c) = Some y -> computed y = false /\ (nth_error (register y) i = Some r -> (r < counter y)%Z)) /\
    (~ dirty h (fst c) -> nth_error h' (fst c) = nth_error h (fst c)).
Proof.
  induction fuel as [|fuel IH]; intros h c I H L F; [lia|]. cbn [isNew].
  destruct (live_liveb _ _ L) as (x & Lx & Ex & Ax). rewrite Lx. set (n := fst c) in *.
  assert (Q : forall l h0, inv h0 W -> bump h h0 -> (forall m, n <= m -> nth_error h0 m = nth_error h m) -> (forall d, In d l -> In d (deps x)) ->
    exists h1 b, any_new (isNew fuel) n h0 l = Some (h1, b) /\ inv h1 W /\ bump h h1 /\ (forall m, n <= m -> nth_error h1 m = nth_error h m) /\
      (b = true -> dirty h n) /\ (b = false -> forall d, In d l -> fst d <> n -> ~ isnew h (fst d) (snd d))).
  { induction l as [|d l IHl]; intros h0 I0 B0 U0 Hl; cbn [any_new].
    - exists h0, false. repeat (split; [solve [reflexivity | assumption | discriminate]|]). intros _ d [].
    - destruct (Nat.eqb_spec (fst d) n) as [EQ|NE].
      + destruct (IHl h0 I0 B0 U0) as (h1 & b & -> & A1 & A2 & A3 & A4 & A5); [intros; apply Hl; right; auto|].
        exists h1, b. repeat (split; [solve [reflexivity | assumption | discriminate]|]). intros Eb d' [<-|Hd] Nd; [congruence | auto].
      + assert (Hd : In d (deps x)) by (apply Hl; left; auto).
        assert (LT : fst d < n) by (destruct (i_dlt _ _ I _ _ Ex d Hd) as [|[_ X]]; [auto | contradiction]).
        assert (Ld : liveb h0 (fst d)) by (eapply bump_live; eauto; eapply deps_alive; eauto; apply in_map; auto).
        assert (Hh : holds h0 W d). { apply (holds_statics h); [apply bump_statics; auto|]. right. exists n, x. unfold own. repeat split; auto. apply in_or_app; auto. }
        destruct (IH h0 d I0 Hh Ld ltac:(lia)) as (h1 & b & E1 & Eb & B1 & U1 & _). rewrite E1.
        assert (I1 : inv h1 W) by (eapply inv_bump; eauto). assert (B01 : bump h h1) by (eapply bump_trans; eauto).
        assert (U01 : forall m, n <= m -> nth_error h1 m = nth_error h m) by (intros m Hm; rewrite U1 by lia; auto).
        destruct b.
        * exists h1, true. repeat (split; [solve [reflexivity | assumption]|]). split; [|discriminate]. intros _. exists x, d. repeat split; auto.
          apply (bump_new_rev h h0); auto. now apply Eb.
        * destruct (IHl h1 I1 B01 U01) as (h2 & b & -> & A1 & A2 & A3 & A4 & A5); [intros; apply Hl; right; auto|].
          exists h2, b. repeat (split; [solve [reflexivity | assumption]|]). intros Ef d' [<-|Hd'] Nd; [|auto].
          intros X. apply (bump_new h h0) in X; auto; [|apply (i_reg _ _ I)]. apply Eb in X. discriminate. }
  destruct (Q (deps x) h I (bump_refl h) (fun m _ => eq_refl) (fun d Hd => Hd)) as (h1 & b & -> & I1 & B1 & U1 & T & Fl).
  assert (Ex1 : nth_error h1 n = Some x) by (rewrite U1; auto).
  destruct (i_slot _ _ I c H) as (x' & Ex' & Sl & _). fold n in Ex'. rewrite Ex in Ex'; injection Ex' as <-.
  destruct (nth_ex _ _ Sl) as (r & Er).
  destruct b.
  - assert (D := T eq_refl). pose proof (i_reg _ _ I _ _ _ _ Ex Er) as LE.
    assert (E2 : nth_error (upd h1 n reset) n = Some (reset x)) by (rewrite upd_eq, Ex1; reflexivity).
    rewrite (some_live _ _ _ E2 Ax). cbn [reset register counter]. rewrite Er.
    exists (upd h1 n reset), true. assert (NE : (r =? counter x + 1)%Z = false) by (apply Z.eqb_neq; lia). rewrite NE.
    split; [reflexivity|]. split; [split; auto; intros _; apply dirty_new; auto|]. split; [|split; [|split]].
    + apply (bump_trans h h1 _ W I B1). split; [apply upd_length|]. intros m z Ez. destruct (Nat.eq_dec m n) as [->|N].
      * right. split; [apply (bump_dirty h h1); auto; apply (i_reg _ _ I)|]. exists (reset x). split; auto.
        rewrite Ex1 in Ez; injection Ez as <-. unfold bumped, reset; cbn. repeat split; auto. lia.
      * left. rewrite upd_ne; auto.
    + intros m Hm. rewrite upd_ne by lia. apply U1. lia.
    + intros _ y i r0 Ey. rewrite E2 in Ey; injection Ey as <-. cbn. split; auto. intros Hr. pose proof (i_reg _ _ I _ _ _ _ Ex Hr). lia.
    + contradiction.
  - rewrite (some_live _ _ _ Ex1 Ax), Er. exists h1, (negb (r =? counter x)%Z). split; [reflexivity|].
    assert (ND : ~ dirty h n). { intros (x' & d & E' & Hd & N & X). rewrite Ex in E'; injection E' as <-. apply (Fl eq_refl d Hd N X). }
    split; [|split; [auto|split; [intros; apply U1; lia|split; [contradiction|intros; rewrite U1; auto]]]].
    rewrite negb_true_iff, Z.eqb_neq. split.
    + intros N. eapply new_reg; eauto.
    + intros X. destruct (isnew_inv _ _ _ _ Ex X) as [D|(r' & Er' & N)]; [contradiction|]. congruence.
Qed.
End Proofs.
