(** Evaluation through the cache returns the value (C44). *)
From Coq Require Import List Arith ZArith Bool Lia.
From Verif Require Import SpecExpressions LeviCache LeviCacheProofs.
Import ListNotations.

Section Eval.
Context {V : Type} (garbage : V).
Notation node := (node V). Notation heap := (heap V).
Notation value := (value garbage). Notation inv := (inv garbage).

Lemma upd_upd (h : heap) n f g : upd (upd h n f) n g = upd h n (fun x => g (f x)).
Proof. revert n; induction h as [|x h IH]; intros [|n]; cbn; auto. f_equal; auto. Qed.
Lemma upd_ext (h : heap) n f g : (forall x, nth_error h n = Some x -> f x = g x) -> upd h n f = upd h n g.
Proof. revert n; induction h as [|x h IH]; intros [|n] H; cbn; auto; f_equal; auto. Qed.
Lemma upd_id (h : heap) n f : (forall x, nth_error h n = Some x -> f x = x) -> upd h n f = h.
Proof. revert n; induction h as [|x h IH]; intros [|n] H; cbn; auto; f_equal; auto. Qed.

(** ** Marks in the registers *)
Definition marked (M : list handle) (m : nat) (x y : node) : Prop :=
  nkind y = nkind x /\ children y = children x /\ deps y = deps x /\ counter y = counter x /\ computed y = computed x /\ bin y = bin x /\
  buffer y = buffer x /\ alive y = alive x /\ length (register y) = length (register x) /\
  (forall j r, nth_error (register y) j = Some r -> (In (m, j) M /\ r = counter x) \/ nth_error (register x) j = Some r) /\
  (forall j, ~ In (m, j) M -> nth_error (register y) j = nth_error (register x) j) /\
  (forall j, In (m, j) M -> j < length (register x) -> nth_error (register y) j = Some (counter x)).
Definition marks (M : list handle) (h h' : heap) : Prop :=
  length h' = length h /\ forall m x, nth_error h m = Some x -> exists y, nth_error h' m = Some y /\ marked M m x y.
Lemma marks_back M h h' m y : marks M h h' -> nth_error h' m = Some y -> exists x, nth_error h m = Some x /\ marked M m x y.
Proof.
  intros (L & S) E. assert (m < length h) by (rewrite <- L; eapply nth_lt; eauto). destruct (nth_ex h m H) as (x & Ex).
  exists x; split; auto. destruct (S m x Ex) as (z & Ez & X). rewrite E in Ez; injection Ez as <-; auto.
Qed.
Lemma marks_nil h : marks [] h h.
Proof. split; auto. intros m x E. exists x; split; auto. repeat split; auto. intros j []. Qed.
Lemma marks_trans M1 M2 h1 h2 h3 : marks M1 h1 h2 -> marks M2 h2 h3 -> marks (M1 ++ M2) h1 h3.
Proof.
  intros (L1 & S1) (L2 & S2). split; [congruence|]. intros m x E.
  destruct (S1 m x E) as (y & Ey & A1 & A2 & A3 & A4 & A5 & A6 & A7 & A8 & A9 & A10 & A11 & A12).
  destruct (S2 m y Ey) as (z & Ez & B1 & B2 & B3 & B4 & B5 & B6 & B7 & B8 & B9 & B10 & B11 & B12).
  exists z. split; auto. unfold marked. rewrite B1, B2, B3, B4, B5, B6, B7, B8, B9.
  repeat (split; [assumption|]). split; [|split].
  - intros j r H. destruct (B10 j r H) as [(H1 & H2)|H1].
    + left. split; [apply in_or_app; auto | congruence].
    + destruct (A10 j r H1) as [(H2 & H3)|H2]; auto. left; split; auto. apply in_or_app; auto.
  - intros j N. rewrite B11, A11; auto; intros X; apply N, in_or_app; auto.
  - intros j H LT. destruct (in_dec (fun a b => match a, b return {a = b} + {a <> b} with (a1, a2), (b1, b2) => ltac:(decide equality; apply Nat.eq_dec) end) (m, j) M2) as [H2|H2].
    + rewrite B12; [congruence | auto | lia].
    + rewrite B11 by auto. apply A12; auto. apply in_app_or in H. destruct H; [auto|contradiction].
Qed.
Lemma marks_one h n i x : nth_error h n = Some x -> i < length (register x) -> marks [(n, i)] h (upd h n (fun z => put i (counter z) z)).
Proof.
  intros E L. split; [apply upd_length|]. intros m y Ey. destruct (Nat.eq_dec n m) as [<-|N].
  - exists (put i (counter y) y). rewrite upd_eq, Ey. split; [reflexivity|]. rewrite E in Ey; injection Ey as <-.
    unfold marked, put, set_register; cbn [nkind children deps counter computed bin buffer alive register]. repeat (split; [reflexivity|]).
    split; [apply set_at_length|]. split; [|split].
    + intros j r H. destruct (Nat.eq_dec i j) as [<-|Nj].
      * rewrite set_at_eq in H by auto. injection H as <-. left; split; auto. left; auto.
      * rewrite set_at_ne in H by auto. auto.
    + intros j Nj. apply set_at_ne. intros ->. apply Nj. left; auto.
    + intros j [[= <-]|[]] Lj. apply set_at_eq; auto.
  - exists y. rewrite upd_ne by auto. split; auto. unfold marked. repeat (split; [reflexivity|]). split; [auto|split; auto].
    intros j [[= -> _]|[]]. contradiction.
Qed.
Lemma marks_slot M h h' c : marks M h h' -> (exists x, live h (fst c) = Some x /\ snd c < length (register x)) -> exists x, live h' (fst c) = Some x /\ snd c < length (register x).
Proof.
  intros (_ & S) (x & L & H). apply live_some in L as (E & A). destruct (S _ _ E) as (y & Ey & A1 & A2 & A3 & A4 & A5 & A6 & A7 & A8 & A9 & _).
  exists y. split; [apply some_live; congruence | lia].
Qed.
Lemma checkAll_spec l : forall h, (forall c, In c l -> exists x, live h (fst c) = Some x /\ snd c < length (register x)) ->
  exists h', checkAll h l = Some h' /\ marks l h h' /\ forall m, ~ In m (map fst l) -> nth_error h' m = nth_error h m.
Proof.
  induction l as [|c l IH]; intros h H; cbn [checkAll].
  - exists h. split; auto. split; auto. apply marks_nil.
  - destruct (H c (or_introl eq_refl)) as (x & Lx & Sx). unfold checkID. rewrite Lx. apply Nat.ltb_lt in Sx as Sx'. rewrite Sx'.
    pose proof (marks_one h (fst c) (snd c) x (proj1 (live_some _ _ _ Lx)) Sx) as M1.
    destruct (IH (upd h (fst c) (fun z => put (snd c) (counter z) z))) as (h' & -> & M2 & U).
    { intros d Hd. eapply marks_slot; eauto. apply H. right; auto. }
    exists h'. split; auto. split; [|intros m N; rewrite U, upd_ne; auto; intros X; apply N; cbn; auto]. replace (c :: l) with ([(fst c, snd c)] ++ l) by (destruct c; reflexivity). eapply marks_trans; eauto.
Qed.

(** ** The step that fills the cache *)
(** A handle through which one evaluates: not one of a dependency. *)
Definition usable (h : heap) (W : extra) (c : handle) : Prop :=
  holds h W c /\ forall m x, nth_error h m = Some x -> alive x = true -> ~ In c (deps x).
Lemma usable_W h W c : inv h W -> In c (map snd W) -> usable h W c.
Proof. intros I H. split; [left; auto|]. intros m x E A X. eapply (i_nw _ _ _ I); eauto. unfold own; apply in_or_app; auto. Qed.
Lemma usable_child h W n x c : inv h W -> nth_error h n = Some x -> alive x = true -> In c (children x) -> usable h W c.
Proof.
  intros I E A H. split.
  - right. exists n, x. repeat split; auto. apply in_or_app; auto.
  - intros m y Ey Ay X. destruct (Nat.eq_dec m n) as [->|N].
    + rewrite E in Ey; injection Ey as <-. pose proof (i_n _ _ _ I _ _ E A) as ND. eapply NoDup_app_d; eauto.
    + apply (i_nn _ _ _ I m n y x c); auto; unfold own; apply in_or_app; auto.
Qed.
Lemma usable_statics h h' W c : statics h h' -> usable h W c -> usable h' W c.
Proof.
  intros S (H & U). split; [eapply holds_statics; eauto|]. intros m y E A. destruct (statics_back _ _ _ _ S E) as (x & Ex & A1 & A2 & A3 & A4 & A5 & _).
  rewrite A3. apply (U m x Ex). congruence.
Qed.

Definition news_shrink (h h' : heap) : Prop := forall m j, isnew h' m j -> isnew h m j.
Definition kept (h h' : heap) : Prop := forall m x y, nth_error h m = Some x -> nth_error h' m = Some y -> ~ dirty h m -> is_leaf (nkind x) = false -> computed x = true -> computed y = true.
Definition settled (h : heap) (m : nat) : Prop := ~ dirty h m /\ forall x, nth_error h m = Some x -> is_leaf (nkind x) = false -> computed x = true.
Lemma shrink_dirty h h' m : statics h h' -> news_shrink h h' -> dirty h' m -> dirty h m.
Proof.
  intros S N (y & c & E & Hc & Ne & X). destruct (statics_back _ _ _ _ S E) as (x & Ex & A1 & A2 & A3 & _). rewrite A3 in Hc.
  exists x, c. repeat split; auto.
Qed.
Lemma settled_later h h' m : statics h h' -> news_shrink h h' -> kept h h' -> settled h m -> settled h' m.
Proof.
  intros S N K (D & C). split; [intros X; apply D; eapply shrink_dirty; eauto|].
  intros y Ey L. destruct (statics_back _ _ _ _ S Ey) as (x & Ex & A1 & _). rewrite A1 in L. eapply K; eauto.
Qed.
(** When an object is settled so are its dependencies. *)
Lemma settled_dep h W m x e : inv h W -> nth_error h m = Some x -> alive x = true -> ~ dirty h m -> In e (map fst (deps x)) -> e <> m -> settled h e.
Proof.
  intros I E A D He N. apply in_map_iff in He as (c & <- & Hc). split.
  - intros X. apply D. exists x, c. repeat split; auto. apply dirty_new; auto.
  - intros y Ey L. destruct (i_slot _ _ _ I c) as (y' & Ey' & S1 & _). { right. exists m, x. repeat split; auto. apply in_or_app; auto. }
    rewrite Ey in Ey'; injection Ey' as <-. destruct (nth_ex _ _ S1) as (r & Er).
    destruct (Z.eq_dec r (counter y)) as [->|Nr]; [eapply i_comp; eauto|].
    exfalso. apply D. exists x, c. repeat split; auto. eapply new_reg; eauto.
Qed.

Section Fill.
Context (h h' : heap) (W : extra) (n i : nat) (x : node) (v : V).
Hypothesis I : inv h W.
Hypothesis E : nth_error h n = Some x.
Hypothesis A : alive x = true.
Hypothesis U : usable h W (n, i).
Hypothesis Hv : v = value h n.
Hypothesis Hdirty : dirty h n -> forall j r, nth_error (register x) j = Some r -> r <> counter x.
Hypothesis Hdeps : forall e, In e (map fst (deps x)) -> e <> n -> settled h e.
Hypothesis Hm : marks ((n, i) :: deps x) (upd h n (fun z => set_computed (set_buffer v z))) h'.

Lemma fill_fw m y : nth_error h m = Some y -> exists z, nth_error h' m = Some z /\ marked ((n, i) :: deps x) m (if Nat.eq_dec m n then set_computed (set_buffer v y) else y) z.
Proof.
  intros Ey. destruct (Nat.eq_dec m n) as [->|N].
  - apply (proj2 Hm). rewrite upd_eq, Ey. reflexivity.
  - apply (proj2 Hm). rewrite upd_ne; auto.
Qed.
Lemma fill_statics : statics h h'.
Proof.
  split; [rewrite (proj1 Hm); apply upd_length|]. intros m y Ey. destruct (fill_fw m y Ey) as (z & Ez & B). exists z. split; auto.
  destruct B as (B1 & B2 & B3 & B4 & B5 & B6 & B7 & B8 & B9 & _).
  destruct (Nat.eq_dec m n) as [->|N]; unfold static; cbn [set_computed set_buffer nkind children deps bin alive register buffer] in *; repeat (split; [assumption|]); intros L.
  - rewrite B7, Hv. rewrite (value_unfold _ h n y (i_lt _ _ _ I) Ey). destruct (nkind y); cbn in L; auto; discriminate.
  - assumption.
Qed.
Lemma fill_counter m y z : nth_error h m = Some y -> nth_error h' m = Some z -> counter z = counter y.
Proof.
  intros Ey Ez. destruct (fill_fw m y Ey) as (z' & Ez' & B). rewrite Ez in Ez'; injection Ez' as <-.
  destruct B as (_ & _ & _ & B & _). destruct (Nat.eq_dec m n); cbn in B; auto.
Qed.
Lemma fill_reg m y z j r : nth_error h m = Some y -> nth_error h' m = Some z -> nth_error (register z) j = Some r ->
  (In (m, j) ((n, i) :: deps x) /\ r = counter y) \/ nth_error (register y) j = Some r.
Proof.
  intros Ey Ez Er. destruct (fill_fw m y Ey) as (z' & Ez' & B). rewrite Ez in Ez'; injection Ez' as <-.
  destruct B as (_ & _ & _ & _ & _ & _ & _ & _ & _ & B & _). destruct (Nat.eq_dec m n); apply B in Er; cbn [set_computed set_buffer counter register] in Er; auto.
Qed.
Lemma fill_same m y z j : nth_error h m = Some y -> nth_error h' m = Some z -> ~ In (m, j) ((n, i) :: deps x) -> nth_error (register z) j = nth_error (register y) j.
Proof.
  intros Ey Ez N. destruct (fill_fw m y Ey) as (z' & Ez' & B). rewrite Ez in Ez'; injection Ez' as <-.
  destruct B as (_ & _ & _ & _ & _ & _ & _ & _ & _ & _ & B & _). specialize (B j N). destruct (Nat.eq_dec m n); cbn in B; auto.
Qed.
Lemma fill_set m y z j : nth_error h m = Some y -> nth_error h' m = Some z -> In (m, j) ((n, i) :: deps x) -> j < length (register y) -> nth_error (register z) j = Some (counter z).
Proof.
  intros Ey Ez N L. rewrite (fill_counter m y z Ey Ez). destruct (fill_fw m y Ey) as (z' & Ez' & B). rewrite Ez in Ez'; injection Ez' as <-.
  destruct B as (_ & _ & _ & _ & _ & _ & _ & _ & _ & _ & _ & B). specialize (B j N). destruct (Nat.eq_dec m n); cbn in B; auto.
Qed.
Lemma fill_computed m y z : nth_error h m = Some y -> nth_error h' m = Some z -> m <> n -> computed z = computed y /\ buffer z = buffer y.
Proof.
  intros Ey Ez N. destruct (fill_fw m y Ey) as (z' & Ez' & B). rewrite Ez in Ez'; injection Ez' as <-.
  destruct B as (_ & _ & _ & _ & B1 & _ & B2 & _). destruct (Nat.eq_dec m n); [contradiction|auto].
Qed.
Lemma fill_n z : nth_error h' n = Some z -> computed z = true /\ buffer z = v.
Proof.
  intros Ez. destruct (fill_fw n x E) as (z' & Ez' & B). rewrite Ez in Ez'; injection Ez' as <-.
  destruct B as (_ & _ & _ & _ & B1 & _ & B2 & _). destruct (Nat.eq_dec n n); [cbn in *; auto|contradiction].
Qed.
Lemma fill_shrink : news_shrink h h'.
Proof.
  intros m j H. induction H as [m j z r Ez Er N | m j z c Ez Hc N _ IH]; destruct (statics_back _ _ _ _ fill_statics Ez) as (y & Ey & A1 & A2 & A3 & _).
  - destruct (fill_reg _ _ _ _ _ Ey Ez Er) as [(_ & X)|X]; rewrite (fill_counter _ _ _ Ey Ez) in N; [contradiction|]. eapply new_reg; eauto.
  - rewrite A3 in Hc. eapply new_dep; eauto.
Qed.
Lemma fill_clean : ~ dirty h' n.
Proof.
  intros (z & c & Ez & Hc & N & X). destruct (statics_back _ _ _ _ fill_statics Ez) as (y & Ey & A1 & A2 & A3 & _).
  rewrite E in Ey; injection Ey as <-. rewrite A3 in Hc.
  destruct (i_slot _ _ _ I c) as (d & Ed & S1 & _). { right. exists n, x. repeat split; auto. apply in_or_app; auto. }
  destruct (proj2 fill_statics _ _ Ed) as (d' & Ed' & _).
  destruct (isnew_inv _ _ _ _ Ed' X) as [D|(r & Er & Nr)].
  - apply (proj1 (Hdeps (fst c) (in_map _ _ _ Hc) N)). eapply shrink_dirty; eauto using fill_statics, fill_shrink.
  - rewrite (fill_set _ _ _ (snd c) Ed Ed') in Er; auto; [congruence|]. right. now destruct c.
Qed.
(** Nothing else stops being out of date. *)
Lemma fill_keeps_dirty m : forall y, nth_error h m = Some y -> alive y = true -> m <> n -> dirty h m -> dirty h' m.
Proof.
  induction m as [m IH] using lt_wf_ind. intros y Ey Ay N (y' & e & Ey' & He & Ne & X). rewrite Ey in Ey'; injection Ey' as <-.
  destruct (proj2 fill_statics _ _ Ey) as (z & Ez & A1 & A2 & A3 & _).
  assert (Le : liveb h (fst e)) by (eapply deps_alive; eauto; apply in_map; auto). destruct Le as (d & Ed & Ad).
  assert (LT : fst e < m) by (destruct (i_dlt _ _ _ I _ _ Ey e He) as [|[_ Q]]; [auto|contradiction]).
  destruct (proj2 fill_statics _ _ Ed) as (d' & Ed' & _).
  assert (NM : ~ In (fst e, snd e) ((n, i) :: deps x)).
  { intros [Q|Q].
    - apply (proj2 U m y Ey Ay). rewrite Q. now destruct e.
    - apply (i_nn _ _ _ I m n y x e Ey E Ay A N); unfold own; apply in_or_app; right; auto. now destruct e. }
  assert (R : forall r, nth_error (register d) (snd e) = Some r -> r <> counter d -> isnew h' (fst e) (snd e)).
  { intros r Er Nr. eapply new_reg; [exact Ed'| |]. rewrite (fill_same _ _ _ _ Ed Ed' NM). exact Er. now rewrite (fill_counter _ _ _ Ed Ed'). }
  exists z, e. rewrite A3. repeat split; auto.
  destruct (isnew_inv _ _ _ _ Ed X) as [D|(r & Er & Nr)]; [|eauto].
  destruct (Nat.eq_dec (fst e) n) as [EQ|NE].
  - destruct (i_slot _ _ _ I e) as (d2 & Ed2 & S1 & _). { right. exists m, y. repeat split; auto. apply in_or_app; auto. }
    rewrite Ed in Ed2; injection Ed2 as <-. destruct (nth_ex _ _ S1) as (r & Er). apply (R r Er).
    assert (d = x) by congruence. subst d. rewrite EQ in D. eapply Hdirty; eauto.
  - apply dirty_new. eapply IH; eauto.
Qed.
Lemma fill_inv : inv h' W.
Proof.
  assert (BK := fun m z => statics_back h h' m z fill_statics).
  apply (inv_statics garbage h h' W fill_statics I).
  - intros m z j r Ez Er. destruct (BK m z Ez) as (y & Ey & _). rewrite (fill_counter _ _ _ Ey Ez).
    destruct (fill_reg _ _ _ _ _ Ey Ez Er) as [(_ & ->)|X]; [lia|]. eapply i_reg; eauto.
  - intros m z j Ez L Er. destruct (BK m z Ez) as (y & Ey & A1 & _). destruct (Nat.eq_dec m n) as [->|N]; [apply (fill_n z Ez)|].
    destruct (fill_computed _ _ _ Ey Ez N) as (-> & _). rewrite A1 in L. rewrite (fill_counter _ _ _ Ey Ez) in Er.
    destruct (fill_reg _ _ _ _ _ Ey Ez Er) as [(X & _)|X]; [|eapply i_comp; eauto].
    destruct X as [[= Q _]|X]; [congruence|]. apply (Hdeps m); auto. apply in_map_iff. exists (m, j); auto.
  - intros m z Ez Az L C D. rewrite (statics_value garbage h h') by (try apply fill_statics; apply I).
    destruct (BK m z Ez) as (y & Ey & A1 & A2 & A3 & A4 & A5 & _). destruct (Nat.eq_dec m n) as [->|N]; [rewrite <- Hv; apply (fill_n z Ez)|].
    destruct (fill_computed _ _ _ Ey Ez N) as (C1 & ->). rewrite A1 in L. rewrite A5 in Az. rewrite C1 in C. eapply i_val; eauto.
    intros D2. apply D. eapply fill_keeps_dirty; eauto.
Qed.
Lemma fill_kept : kept h h'.
Proof.
  intros m y z Ey Ez D L C. destruct (Nat.eq_dec m n) as [->|N]; [apply (fill_n z Ez)|].
  destruct (fill_computed _ _ _ Ey Ez N) as (-> & _). exact C.
Qed.
Lemma fill_settled : settled h' n.
Proof. split; [apply fill_clean|]. intros z Ez _. apply (fill_n z Ez). Qed.
End Fill.

(** ** Evaluation *)
Definition evolves (h h' : heap) (n : nat) : Prop := statics h h' /\ news_shrink h h' /\ kept h h' /\ forall m, n < m -> nth_error h' m = nth_error h m.
Lemma evolves_refl h n : evolves h h n.
Proof. repeat split; auto. { intros m x E. exists x; split; auto. repeat split; auto. } { intros m j; auto. } intros m x y E1 E2 _ _. congruence. Qed.
Lemma evolves_trans h1 h2 h3 n1 n2 n : evolves h1 h2 n1 -> evolves h2 h3 n2 -> n1 <= n -> n2 <= n -> evolves h1 h3 n.
Proof.
  intros (S1 & N1 & K1 & U1) (S2 & N2 & K2 & U2) L1 L2. split; [eapply statics_trans; eauto|]. split; [intros m j H; auto|]. split.
  - intros m x z Ex Ez D L C. destruct (proj2 S1 _ _ Ex) as (y & Ey & A1 & _). apply (K2 m y z Ey Ez).
    + intros D2. apply D. eapply shrink_dirty; eauto.
    + congruence.
    + eapply K1; eauto.
  - intros m H. rewrite U2, U1; auto; lia.
Qed.
Lemma bump_evolves h h' W n : inv h W -> bump h h' -> (forall m, n < m -> nth_error h' m = nth_error h m) -> evolves h h' n.
Proof.
  intros I B U. split; [apply bump_statics; auto|]. split; [intros m j; apply bump_new_rev; auto|]. split; auto.
  intros m x y Ex Ey D L C. destruct (proj2 B m x Ex) as [E|(X & _)]; [congruence|contradiction].
Qed.
Lemma settled_evolves h h' n m : evolves h h' n -> settled h m -> settled h' m.
Proof. intros (S & N & K & _). apply settled_later; auto. Qed.
Lemma statics_live (h h' : heap) m : statics h h' -> liveb h m -> liveb h' m.
Proof. intros S (x & E & A). destruct (proj2 S _ _ E) as (y & Ey & A1 & A2 & A3 & A4 & A5 & _). exists y; split; congruence. Qed.

Lemma evalList_spec W (rec : heap -> handle -> option (heap * V)) n x :
  forall (Hrec : forall h c, inv h W -> usable h W c -> liveb h (fst c) -> fst c < n ->
     exists h', rec h c = Some (h', value h (fst c)) /\ inv h' W /\ evolves h h' (fst c) /\ settled h' (fst c)),
  forall l h, inv h W -> nth_error h n = Some x -> alive x = true -> (forall c, In c l -> In c (children x)) -> 0 < n ->
  exists h', evalList rec h l = Some (h', map (fun c => value h (fst c)) l) /\ inv h' W /\ evolves h h' (n - 1) /\ forall c, In c l -> settled h' (fst c).
Proof.
  intros Hrec. induction l as [|c l IH]; intros h I E A Hl P; cbn [evalList].
  - exists h. split; [reflexivity|]. split; [assumption|]. split; [apply evolves_refl|]. intros ? [].
  - assert (Hc : In c (children x)) by (apply Hl; left; auto). pose proof (i_lt _ _ _ I _ _ E c Hc) as LT.
    destruct (Hrec h c I (usable_child _ _ _ _ _ I E A Hc) (i_alive _ _ _ I _ _ E A c Hc) LT) as (h1 & -> & I1 & V1 & S1).
    destruct (IH h1 I1) as (h2 & -> & I2 & V2 & S2); auto.
    { destruct V1 as (_ & _ & _ & U). rewrite U; auto. }
    { intros d Hd. apply Hl; right; auto. }
    exists h2. split; [|split; [auto|split]].
    + do 2 f_equal. cbn [map]. f_equal. apply map_ext. intros d. apply statics_value; [apply V1 | apply I].
    + eapply evolves_trans; eauto; lia.
    + intros d [<-|Hd]; [|auto]. eapply settled_evolves; eauto.
Qed.
Lemma nonleaf_pos h W n x : inv h W -> nth_error h n = Some x -> (exists c, In c (children x)) -> 0 < n.
Proof. intros I E (c & Hc). pose proof (i_lt _ _ _ I _ _ E c Hc). lia. Qed.

Lemma evaluateID_spec W : forall fuel h c, inv h W -> usable h W c -> liveb h (fst c) -> fst c < fuel ->
  exists h', evaluateID garbage fuel h c = Some (h', value h (fst c)) /\ inv h' W /\ evolves h h' (fst c) /\ settled h' (fst c).
Proof.
  induction fuel as [|fuel IH]; intros h c I U L F; [lia|]. cbn [evaluateID]. cbv zeta.
  destruct (live_liveb _ _ L) as (x & Lx & Ex & Ax). rewrite Lx. set (n := fst c) in *.
  destruct (i_slot _ _ _ I c (proj1 U)) as (x' & Ex' & Sl & _). fold n in Ex'. rewrite Ex in Ex'; injection Ex' as <-.
  apply Nat.ltb_lt in Sl as Sl'. rewrite Sl'.
  destruct (isNew_spec garbage W (S n) h c I (proj1 U) L (Nat.lt_succ_diag_r _)) as (h1 & b & -> & Hb & B1 & U1 & Dy & Dn). fold n in U1, Dy, Dn, Hb.
  assert (I1 : inv h1 W) by (eapply inv_bump; eauto).
  assert (V1 : evolves h h1 n) by (eapply bump_evolves; eauto).
  assert (DD : dirty h n <-> dirty h1 n) by (apply bump_dirty; auto; apply (i_reg _ _ _ I)).
  assert (VV : forall m, value h1 m = value h m) by (intros m; apply statics_value; [apply V1 | apply I]).
  destruct (bump_nth_fw _ _ _ _ B1 Ex) as (y & Ey & A1 & A2 & A3 & A4 & A5 & A6 & A7).
  assert (Ay : alive y = true) by congruence. rewrite (some_live _ _ _ Ey Ay).
  assert (U' : usable h1 W (n, snd c)). { replace (n, snd c) with c by (destruct c; reflexivity). eapply usable_statics; eauto; apply V1. }
  assert (LF : forall k, is_leaf (nkind k) = true -> forall g m, below g -> nth_error g m = Some k -> buffer k = value g m).
  { intros k Lk g m Bg Ek. rewrite (value_unfold _ g m k Bg Ek). destruct (nkind k); cbn in Lk; auto; discriminate. }
  assert (SLT : forall g k, statics h1 g -> nth_error g n = Some k -> snd c < length (register k)).
  { intros g k Sg Ek. destruct (statics_back _ _ _ _ Sg Ek) as (k' & Ek' & _ & _ & _ & _ & _ & Q & _). rewrite Ey in Ek'; injection Ek' as <-. rewrite Q, A4. auto. }
  (* the end of both branches that fill the cache *)
  assert (FIN : forall h2, inv h2 W -> evolves h1 h2 n -> nth_error h2 n = Some y -> (forall e, In e (map fst (deps y)) -> e <> n -> settled h2 e) ->
     exists h4, checkAll (upd (upd h2 n (fun z => set_computed (set_buffer (value h2 n) z))) n (fun z => put (snd c) (counter z) z)) (deps y) = Some h4 /\
       inv h4 W /\ evolves h h4 n /\ settled h4 n).
  { intros h2 I2 V2 Ey2 Hd. set (g := upd h2 n (fun z => set_computed (set_buffer (value h2 n) z))).
    assert (Eg : nth_error g n = Some (set_computed (set_buffer (value h2 n) y))) by (unfold g; rewrite upd_eq, Ey2; reflexivity).
    assert (M1 := marks_one g n (snd c) _ Eg (SLT h2 y (proj1 V2) Ey2)).
    destruct (checkAll_spec (deps y) (upd g n (fun z => put (snd c) (counter z) z))) as (h4 & C4 & M4 & U4).
    { intros d Hd'. eapply marks_slot; [exact M1|].
      destruct (i_slot _ _ _ I2 d) as (k & Ek & Sk & _). { right. exists n, y. repeat split; auto. apply in_or_app; auto. }
      destruct (deps_alive _ _ _ I2 n y Ey2 Ay (fst d) (in_map _ _ _ Hd')) as (k' & Ek' & Ak). rewrite Ek in Ek'; injection Ek' as <-.
      destruct (Nat.eq_dec n (fst d)) as [EQ|NE].
      - rewrite <- EQ in *. exists (set_computed (set_buffer (value h2 n) y)). split; [apply some_live; auto|]. cbn. assert (k = y) by congruence. subst; auto.
      - exists k. split; [apply some_live; auto; unfold g; rewrite upd_ne; auto | auto]. }
    exists h4. split; [exact C4|].
    assert (MM : marks ((n, snd c) :: deps y) g h4) by (apply (marks_trans [(n, snd c)] (deps y) _ _ _ M1 M4)).
    assert (HD : dirty h2 n -> forall j r, nth_error (register y) j = Some r -> r <> counter y).
    { intros D j r Er. assert (D1 : dirty h n) by (apply DD; eapply shrink_dirty; eauto; apply V2).
      destruct (Dy D1 y j r Ey) as (_ & Q). specialize (Q Er). lia. }
    assert (U2 : usable h2 W (n, snd c)) by (eapply usable_statics; eauto; apply V2).
    split; [eapply (fill_inv h2 h4 W n (snd c) y (value h2 n)); eauto|].
    assert (V4 : evolves h2 h4 n).
    { split; [eapply (fill_statics h2 h4 W n (snd c) y (value h2 n)); eauto|]. split; [eapply (fill_shrink h2 h4 W n (snd c) y (value h2 n)); eauto|].
      split; [eapply (fill_kept h2 h4 n (snd c) y (value h2 n)); eauto|].
      intros m Hm. rewrite U4.
      - rewrite upd_ne by lia. unfold g. rewrite upd_ne by lia. reflexivity.
      - intros Q. apply in_map_iff in Q as (d & <- & Hd'). destruct (i_dlt _ _ _ I2 _ _ Ey2 d Hd') as [|[_ Q]]; lia. }
    split; [apply (evolves_trans h h1 h4 n n n V1); auto; apply (evolves_trans h1 h2 h4 n n n V2); auto|].
    eapply (fill_settled h2 h4 W n (snd c) y (value h2 n)); eauto. }
  destruct b.
  - destruct (computed y) eqn:Cy.
    + (* already computed *)
      assert (ND : ~ dirty h n). { intros D. destruct (Dy D y 0 0%Z Ey) as (Q & _). congruence. }
      assert (BV : buffer y = value h1 n).
      { destruct (is_leaf (nkind y)) eqn:LE; [eapply LF; eauto; apply I1|]. eapply i_val; eauto. intros D; apply ND, DD; auto. }
      destruct (FIN h1 I1 (evolves_refl h1 n) Ey) as (h4 & C4 & I4 & V4 & S4).
      { intros e He Ne. eapply settled_dep; eauto. intros D; apply ND, DD; auto. }
      exists h4. rewrite <- (VV n), <- BV. rewrite (upd_id h1) in C4.
      * rewrite C4. auto.
      * intros k Ek. rewrite Ey in Ek; injection Ek as <-. rewrite <- BV. clear - Cy. destruct y; cbn in *; subst; reflexivity.
    + (* evaluate *)
      assert (EV : exists h2, evaluate garbage (evaluateID garbage fuel) h1 n y = Some (if is_leaf (nkind y) then h2 else upd h2 n (set_buffer (value h n)), value h n) /\
         inv h2 W /\ evolves h1 h2 n /\ nth_error h2 n = Some y /\ (forall e, In e (map fst (deps y)) -> e <> n -> settled h2 e)).
      { assert (NL : is_leaf (nkind y) = false -> exists h2, evalList (evaluateID garbage fuel) h1 (children y) = Some (h2, map (fun k => value h1 (fst k)) (children y)) /\
           inv h2 W /\ evolves h1 h2 n /\ nth_error h2 n = Some y /\ (forall e, In e (map fst (deps y)) -> e <> n -> settled h2 e)).
        { intros LE. destruct (children y) as [|k0 l0] eqn:CH.
          - exists h1. split; [reflexivity|]. split; [assumption|]. split; [apply evolves_refl|]. split; [assumption|]. intros e He. exfalso.
            destruct (i_from _ _ _ I1 _ _ Ey LE e He) as (k & z & Q & _). rewrite CH in Q. destruct Q.
          - rewrite <- CH. assert (P : 0 < n) by (eapply nonleaf_pos; eauto; rewrite CH; exists k0; left; auto).
            destruct (evalList_spec W (evaluateID garbage fuel) n y) with (l := children y) (h := h1) as (h2 & E2 & I2 & V2 & S2); auto.
            { intros g d Ig Ug Lg Hlt. apply IH; auto. lia. }
            exists h2. split; [exact E2|]. split; [auto|]. assert (EVn : evolves h1 h2 n) by (eapply evolves_trans; [apply (evolves_refl h1 n)|exact V2|lia|lia]).
            split; [exact EVn|]. assert (E2n : nth_error h2 n = Some y) by (destruct V2 as (_ & _ & _ & Q); rewrite Q by lia; auto). split; [auto|].
            intros e He Ne. destruct (i_from _ _ _ I2 _ _ E2n LE e He) as (k & z & Hk & Ez & X).
            destruct (exports_in _ _ _ _ _ _ I2 Ez X) as [->|X2]; [apply S2; auto|].
            destruct (Nat.eq_dec e (fst k)) as [->|Nk]; [apply S2; auto|].
            destruct (i_alive _ _ _ I2 _ _ E2n Ay k Hk) as (z' & Ez' & Az). rewrite Ez in Ez'; injection Ez' as <-.
            eapply settled_dep; eauto. apply S2; auto. }
        assert (VN := value_unfold garbage h1 n y (i_lt _ _ _ I1) Ey). rewrite VV in VN. unfold evaluate.
        destruct (nkind y) eqn:K; cbn [is_leaf].
        1-3: exists h1; rewrite VN; split; [reflexivity|]; split; [assumption|]; split; [apply evolves_refl|]; split; [assumption|]; intros e He Ne; exfalso; rewrite (i_leafd _ _ _ I1 _ _ Ey ltac:(rewrite K; reflexivity)), K in He; cbn in He; intuition congruence.
        - destruct (NL eq_refl) as (h2 & -> & Q). exists h2. rewrite VN. auto.
        - destruct (NL eq_refl) as (h2 & -> & Q). exists h2. rewrite VN. auto. }
      destruct EV as (h2 & -> & I2 & V2 & E2 & D2). destruct (FIN h2 I2 V2 E2 D2) as (h4 & C4 & I4 & V4 & S4).
      assert (VN : value h2 n = value h n) by (rewrite <- VV; apply statics_value; [apply V2 | apply I1]). rewrite VN in C4.
      exists h4. rewrite upd_upd in C4.
      replace (upd (if is_leaf (nkind y) then h2 else upd h2 n (set_buffer (value h n))) n (fun z => set_computed (put (snd c) (counter z) z)))
        with (upd h2 n (fun z => put (snd c) (counter (set_computed (set_buffer (value h n) z))) (set_computed (set_buffer (value h n) z)))).
      * rewrite C4. auto.
      * destruct (is_leaf (nkind y)) eqn:LE.
        -- apply upd_ext. intros k Ek. rewrite E2 in Ek; injection Ek as <-. rewrite <- VN. rewrite <- (LF y LE h2 n (i_lt _ _ _ I2) E2). destruct y; reflexivity.
        -- rewrite upd_upd. reflexivity.
  - (* up to date *)
    assert (NN : ~ isnew h n (snd c)) by (intros Q; apply Hb in Q; discriminate).
    assert (ND : ~ dirty h n) by (intros D; apply NN, dirty_new; auto).
    assert (E1 : nth_error h1 n = nth_error h n) by auto. rewrite Ex, Ey in E1. injection E1 as ->.
    assert (ST : settled h1 n).
    { split; [intros D; apply ND, DD; auto|]. intros k Ek LE. rewrite Ey in Ek; injection Ek as <-.
      destruct (nth_ex _ _ Sl) as (r & Er). destruct (Z.eq_dec r (counter x)) as [->|Nr]; [eapply i_comp; eauto|]. exfalso; apply NN; eapply new_reg; eauto. }
    exists h1. split; [|auto]. do 2 f_equal. rewrite <- VV. destruct (is_leaf (nkind x)) eqn:LE; [eapply LF; eauto; apply I1|].
    eapply i_val; eauto; apply ST; auto.
Qed.
End Eval.
