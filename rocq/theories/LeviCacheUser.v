(** The calls of the user keep the invariant (C44). *)
From Coq Require Import List Arith ZArith Bool Lia Permutation.
From Verif Require Import SpecExpressions LeviCache LeviCacheProofs LeviCacheEval.
Import ListNotations.

Section User.
Context {V : Type} (garbage : V).
Notation node := (node V). Notation heap := (heap V).
Notation value := (value garbage). Notation inv := (inv garbage).

Lemma dirty_transfer2 (h h' : heap) W : inv h W ->
  (forall m x e, nth_error h m = Some x -> alive x = true -> In e (deps x) -> fst e <> m ->
     exists y e', nth_error h' m = Some y /\ In e' (deps y) /\ fst e' = fst e /\ (e' = e \/ isnew h' (fst e') (snd e'))) ->
  (forall m x e d r, nth_error h m = Some x -> alive x = true -> In e (deps x) -> fst e <> m -> nth_error h (fst e) = Some d ->
     nth_error (register d) (snd e) = Some r -> r <> counter d -> isnew h' (fst e) (snd e)) ->
  forall m x, nth_error h m = Some x -> alive x = true -> dirty h m -> dirty h' m.
Proof.
  intros I D R. induction m as [m IH] using lt_wf_ind. intros x E A (x' & e & E' & He & Ne & X). rewrite E in E'; injection E' as <-.
  destruct (D m x e E A He Ne) as (y & e' & Ey & Dy & Fe & [->|Q]); [|exists y, e'; rewrite Fe in *; repeat split; auto].
  exists y, e. repeat split; auto.
  destruct (deps_alive _ _ _ I _ _ E A (fst e) (in_map _ _ _ He)) as (d & Ed & Ad).
  assert (LT : fst e < m) by (destruct (i_dlt _ _ _ I _ _ E e He) as [|[_ Q]]; [auto|contradiction]).
  destruct (isnew_inv _ _ _ _ Ed X) as [Q|(r & Er & Nr)]; [apply dirty_new; eapply IH; eauto | apply (R m x e d r); auto].
Qed.

Lemma dirty_transfer (h h' : heap) W : inv h W ->
  (forall m x, nth_error h m = Some x -> alive x = true -> exists y, nth_error h' m = Some y /\ deps y = deps x) ->
  (forall m x e d r, nth_error h m = Some x -> alive x = true -> In e (deps x) -> fst e <> m -> nth_error h (fst e) = Some d ->
     nth_error (register d) (snd e) = Some r -> r <> counter d -> isnew h' (fst e) (snd e)) ->
  forall m x, nth_error h m = Some x -> alive x = true -> dirty h m -> dirty h' m.
Proof.
  intros I D R. apply (dirty_transfer2 h h' W I); auto. intros m x e E A He _. destruct (D m x E A) as (y & Ey & Dy). exists y, e. rewrite Dy. auto.
Qed.

(** ** Changes of registers, bins and of what is alive *)
Definition same (x y : node) : Prop :=
  nkind y = nkind x /\ children y = children x /\ deps y = deps x /\ counter y = counter x /\ computed y = computed x /\ buffer y = buffer x /\
  (alive y = true -> alive x = true).
Definition sames (h h' : heap) : Prop := length h' = length h /\ forall n x, nth_error h n = Some x -> exists y, nth_error h' n = Some y /\ same x y.
Lemma sames_back (h h' : heap) n y : sames h h' -> nth_error h' n = Some y -> exists x, nth_error h n = Some x /\ same x y.
Proof.
  intros (L & S) E. assert (n < length h) by (rewrite <- L; eapply nth_lt; eauto). destruct (nth_ex h n H) as (x & Ex).
  exists x; split; auto. destruct (S n x Ex) as (z & Ez & X). rewrite E in Ez; injection Ez as <-; auto.
Qed.
Lemma inv_change (h h' : heap) W W' : sames h h' -> inv h W ->
  (forall n x, nth_error h' n = Some x -> alive x = true -> forall c, In c (children x) -> liveb h' (fst c)) ->
  (forall c, In (true, c) W' -> liveb h' (fst c)) ->
  NoDup (map snd W') ->
  (forall n x c, nth_error h' n = Some x -> alive x = true -> In c (own x) -> In c (map snd W') -> False) ->
  (forall c, holds h' W' c -> exists y, nth_error h' (fst c) = Some y /\ snd c < length (register y) /\ ~ In (snd c) (bin y)) ->
  (forall n x, nth_error h' n = Some x -> NoDup (bin x) /\ forall i, In i (bin x) -> i < length (register x)) ->
  (forall n x i r, nth_error h' n = Some x -> nth_error (register x) i = Some r -> (r <= counter x)%Z) ->
  (forall n x i, nth_error h' n = Some x -> is_leaf (nkind x) = false -> nth_error (register x) i = Some (counter x) -> computed x = true) ->
  (forall n x y, nth_error h n = Some x -> nth_error h' n = Some y -> alive y = true -> dirty h n -> dirty h' n) ->
  inv h' W'.
Proof.
  intros S I P1 P2 P3 P4 P5 P6 P7 P8 P9. assert (BK := fun n y => sames_back h h' n y S). assert (FW := proj2 S).
  assert (EX : forall n x y, same x y -> exports n y = exports n x) by (intros n x y (A1 & A2 & A3 & _); unfold exports; rewrite A1, A3; reflexivity).
  assert (BL : below h'). { intros n y E c Hc. destruct (BK _ _ E) as (x & Ex & A1 & A2 & _). rewrite A2 in Hc. eapply (i_lt _ _ _ I); eauto. }
  constructor; auto.
  - intros n y E c Hc. destruct (BK n y E) as (x & Ex & A1 & A2 & A3 & _). rewrite A3 in Hc. rewrite A1. eapply i_dlt; eauto.
  - intros n y E L. destruct (BK n y E) as (x & Ex & A1 & A2 & A3 & _). rewrite A1 in L. rewrite A2. eapply i_leafc; eauto.
  - intros n y E L. destruct (BK n y E) as (x & Ex & A1 & A2 & A3 & _). rewrite A1 in *. rewrite A3. eapply i_leafd; eauto.
  - intros n y E L c z e Hc Ez He. destruct (BK n y E) as (x & Ex & A1 & A2 & A3 & _). destruct (BK _ z Ez) as (z' & Ez' & Z).
    rewrite (EX _ _ _ Z) in He. rewrite A1 in L. rewrite A2 in Hc. rewrite A3. eapply i_cover; eauto.
  - intros n y E L e He. destruct (BK n y E) as (x & Ex & A1 & A2 & A3 & _). rewrite A1 in L. rewrite A3 in He.
    destruct (i_from _ _ _ I _ _ Ex L e He) as (c & z & Hc & Ez & X). destruct (FW _ _ Ez) as (z' & Ez' & Z).
    exists c, z'. rewrite A2, (EX _ _ _ Z). auto.
  - intros n y E A. destruct (BK n y E) as (x & Ex & A1 & A2 & A3 & A4 & A5 & A6 & A7). unfold own. rewrite A2, A3. eapply i_n; eauto.
  - intros n m x y c E1 E2 L1 L2 N H1 H2. destruct (BK _ _ E1) as (x' & Ex & A1 & A2 & A3 & A4 & A5 & A6 & A7). destruct (BK _ _ E2) as (y' & Ey & B1 & B2 & B3 & B4 & B5 & B6 & B7).
    unfold own in *. rewrite A2, A3 in H1. rewrite B2, B3 in H2. eapply (i_nn _ _ _ I n m); eauto.
  - intros n y E A L C D. destruct (BK n y E) as (x & Ex & A1 & A2 & A3 & A4 & A5 & A6 & A7). rewrite A6.
    rewrite (value_same garbage h h' (i_lt _ _ _ I) BL (proj1 S)).
    + apply (i_val _ _ _ I n x Ex); try congruence; auto. intros D2. apply D. eapply P9; eauto.
    + intros m z Ez. destruct (FW _ _ Ez) as (z' & Ez' & B1 & B2 & B3 & B4 & B5 & B6 & _). exists z'. rewrite B2. auto.
Qed.

(** One slot of one register. *)
Lemma inv_slot (h : heap) W W' n i (x x' : node) : inv h W -> nth_error h n = Some x ->
  same x x' -> alive x' = alive x ->
  (forall j, j <> i -> nth_error (register x') j = nth_error (register x) j) ->
  nth_error (register x') i = Some (counter x - 1)%Z ->
  (NoDup (bin x') /\ forall j, In j (bin x') -> j < length (register x')) ->
  (forall c, In (true, c) W' -> liveb h (fst c)) -> NoDup (map snd W') ->
  (forall m y c, nth_error h m = Some y -> alive y = true -> In c (own y) -> In c (map snd W') -> False) ->
  (forall m y, nth_error h m = Some y -> alive y = true -> ~ In (n, i) (deps y)) ->
  (forall c, holds h W' c -> fst c <> n -> holds h W c) ->
  (forall j, holds h W' (n, j) -> j < length (register x') /\ ~ In j (bin x')) ->
  inv (upd h n (fun _ => x')) W'.
Proof.
  intros I E S Al R Ri B P1 P2 P3 P4 P5 P6. set (h' := upd h n (fun _ => x')).
  assert (En : nth_error h' n = Some x') by (unfold h'; rewrite upd_eq, E; reflexivity).
  assert (Em : forall m, m <> n -> nth_error h' m = nth_error h m) by (intros; unfold h'; apply upd_ne; auto).
  assert (SS : sames h h').
  { split; [apply upd_length|]. intros m y Ey. destruct (Nat.eq_dec m n) as [->|N].
    - exists x'. split; auto. congruence.
    - exists y. rewrite Em; auto. split; auto. repeat split; auto. }
  assert (LV : forall m, liveb h m <-> liveb h' m).
  { intros m. unfold liveb. destruct (Nat.eq_dec m n) as [->|N]; [|rewrite Em by auto; tauto]. rewrite En, E. split; intros (y & [= <-] & Q); eexists; split; eauto; congruence. }
  assert (AL : forall m y, nth_error h' m = Some y -> alive y = true -> exists z, nth_error h m = Some z /\ alive z = true /\ own z = own y /\ children z = children y /\ deps z = deps y).
  { intros m y Ey Ay. destruct (sames_back _ _ _ _ SS Ey) as (z & Ez & B1 & B2 & B3 & B4 & B5 & B6 & B7). exists z. unfold own. rewrite B2, B3. auto. }
  assert (HH : forall c, holds h' W' c -> holds h W' c).
  { intros c [H|(m & y & Ey & Ay & H)]; [left; auto|]. destruct (AL m y Ey Ay) as (z & Ez & Az & Oz & _). right. exists m, z. rewrite Oz. auto. }
  destruct S as (S1 & S2 & S3 & S4 & S5 & S6 & S7).
  apply (inv_change h h' W W' SS I).
  - intros m y Ey Ay c Hc. destruct (AL m y Ey Ay) as (z & Ez & Az & _ & Cz & _). apply LV. rewrite <- Cz in Hc. eapply i_alive; eauto.
  - intros c Hc. apply LV; auto.
  - auto.
  - intros m y c Ey Ay Hc Hw. destruct (AL m y Ey Ay) as (z & Ez & Az & Oz & _). rewrite <- Oz in Hc. eapply P3; eauto.
  - intros c Hc. apply HH in Hc. destruct (Nat.eq_dec (fst c) n) as [EQ|N].
    + exists x'. rewrite EQ. split; auto. apply P6. rewrite <- EQ. now destruct c.
    + rewrite Em by auto. apply (i_slot _ _ _ I c). auto.
  - intros m y Ey. destruct (Nat.eq_dec m n) as [->|N]; [rewrite En in Ey; injection Ey as <-; auto|]. rewrite Em in Ey by auto. eapply i_bin; eauto.
  - intros m y j r Ey Er. destruct (Nat.eq_dec m n) as [->|N].
    + rewrite En in Ey; injection Ey as <-. rewrite S4. destruct (Nat.eq_dec j i) as [->|Nj]; [rewrite Ri in Er; injection Er as <-; lia|].
      rewrite R in Er by auto. eapply i_reg; eauto.
    + rewrite Em in Ey by auto. eapply i_reg; eauto.
  - intros m y j Ey L Er. destruct (Nat.eq_dec m n) as [->|N].
    + rewrite En in Ey; injection Ey as <-. rewrite S5, S4 in *. destruct (Nat.eq_dec j i) as [->|Nj]; [rewrite Ri in Er; injection Er; lia|].
      rewrite R in Er by auto. rewrite S1 in L. eapply i_comp; eauto.
    + rewrite Em in Ey by auto. eapply i_comp; eauto.
  - intros m y z Ey Ez Az D. apply (dirty_transfer h h' W I) with (x := y); auto.
    + intros k w Ek Ak. destruct (proj2 SS _ _ Ek) as (u & Eu & _ & _ & Du & _). eauto.
    + intros k w e d r Ek Ak He Ne Ed Er Nr. assert (NE : e <> (n, i)) by (intros ->; apply (P4 k w Ek Ak He)).
      destruct (Nat.eq_dec (fst e) n) as [EQ|N].
      * rewrite EQ in *. rewrite E in Ed; injection Ed as <-. eapply new_reg; [exact En| |rewrite S4; exact Nr]. rewrite R; auto. intros Q. apply NE. destruct e; cbn in *; congruence.
      * apply (new_reg h' _ _ d r); auto. rewrite Em; auto.
    + destruct (sames_back _ _ _ _ SS Ez) as (w & Ew & _ & _ & _ & _ & _ & _ & Q). rewrite Ey in Ew; injection Ew as <-. auto.
Qed.

(** ** What survives every call *)
Definition frame (x y : node) : Prop := nkind y = nkind x /\ children y = children x /\ (is_leaf (nkind x) = true -> buffer y = buffer x).
Definition frames (h h' : heap) : Prop := length h <= length h' /\ forall n x, nth_error h n = Some x -> exists y, nth_error h' n = Some y /\ frame x y.
Lemma frames_refl (h : heap) : frames h h. Proof. split; auto. intros n x E; exists x; split; auto. repeat split; auto. Qed.
Lemma frames_trans (h1 h2 h3 : heap) : frames h1 h2 -> frames h2 h3 -> frames h1 h3.
Proof.
  intros (L1 & S1) (L2 & S2). split; [lia|]. intros n x E. destruct (S1 n x E) as (y & Ey & A1 & A2 & A3).
  destruct (S2 n y Ey) as (z & Ez & B1 & B2 & B3). exists z. split; auto. unfold frame. rewrite B1, B2. repeat split; auto. intros L. rewrite B3, A3; auto. congruence.
Qed.
Lemma sames_frames (h h' : heap) : sames h h' -> frames h h'.
Proof. intros (L & S). split; [lia|]. intros n x E. destruct (S n x E) as (y & Ey & A1 & A2 & A3 & A4 & A5 & A6 & _). exists y; split; auto. repeat split; auto. Qed.
Lemma statics_frames (h h' : heap) : statics h h' -> frames h h'.
Proof. intros (L & S). split; [lia|]. intros n x E. destruct (S n x E) as (y & Ey & A1 & A2 & A3 & A4 & A5 & A6 & A7). exists y; split; auto. repeat split; auto. Qed.
Lemma upd_frames (h : heap) n f : (forall x, frame x (f x)) -> frames h (upd h n f).
Proof.
  intros H. split; [rewrite upd_length; lia|]. intros m x E. destruct (Nat.eq_dec m n) as [->|N].
  - exists (f x). rewrite upd_eq, E. auto.
  - exists x. rewrite upd_ne by auto. split; auto. repeat split; auto.
Qed.
(** Same objects alive. *)
Definition alike (h h' : heap) : Prop := length h' = length h /\ forall n x, nth_error h n = Some x -> exists y, nth_error h' n = Some y /\ same x y /\ alive y = alive x.
Lemma alike_refl (h : heap) : alike h h. Proof. split; auto. intros n x E; exists x; split; auto. repeat split; auto. Qed.
Lemma alike_trans (h1 h2 h3 : heap) : alike h1 h2 -> alike h2 h3 -> alike h1 h3.
Proof.
  intros (L1 & S1) (L2 & S2). split; [congruence|]. intros n x E. destruct (S1 n x E) as (y & Ey & (A1 & A2 & A3 & A4 & A5 & A6 & A7) & A8).
  destruct (S2 n y Ey) as (z & Ez & (B1 & B2 & B3 & B4 & B5 & B6 & B7) & B8). exists z. split; auto. unfold same. rewrite B1, B2, B3, B4, B5, B6, B8. repeat split; auto.
Qed.
Lemma alike_sames (h h' : heap) : alike h h' -> sames h h'.
Proof. intros (L & S). split; auto. intros n x E. destruct (S n x E) as (y & Ey & A & _). eauto. Qed.
Lemma alike_live (h h' : heap) n : alike h h' -> liveb h n -> liveb h' n.
Proof. intros (L & S) (x & E & A). destruct (S n x E) as (y & Ey & _ & B). exists y; split; congruence. Qed.
Lemma alike_upd (h : heap) n x x' : nth_error h n = Some x -> same x x' -> alive x' = alive x -> alike h (upd h n (fun _ => x')).
Proof.
  intros E S A. split; [apply upd_length|]. intros m y Ey. destruct (Nat.eq_dec m n) as [->|N].
  - exists x'. rewrite upd_eq, E. split; auto. rewrite E in Ey; injection Ey as <-. auto.
  - exists y. rewrite upd_ne by auto. split; auto. repeat split; auto.
Qed.

(** ** Ids *)
Lemma fresh_id_spec (h : heap) W n x : inv h W -> nth_error h n = Some x ->
  let (x', i) := fresh_id x in
  same x x' /\ alive x' = alive x /\ (forall j, j <> i -> nth_error (register x') j = nth_error (register x) j) /\
  nth_error (register x') i = Some (counter x - 1)%Z /\ i < length (register x') /\ ~ In i (bin x') /\ ~ holds h W (n, i) /\
  (NoDup (bin x') /\ forall j, In j (bin x') -> j < length (register x')) /\
  (forall j, In j (bin x') -> In j (bin x)) /\ length (register x) <= length (register x').
Proof.
  intros I E. destruct (i_bin _ _ _ I _ _ E) as (ND & RG). unfold fresh_id. destruct (bin x) as [|i r] eqn:B.
  - unfold set_register, same; cbn [nkind children deps counter computed register bin buffer alive]. rewrite B.
    rewrite app_length. cbn [length]. split; [repeat split; auto|]. split; [auto|]. split.
    { intros j N. destruct (Nat.lt_ge_cases j (length (register x))); [apply nth_error_app1; auto|].
      transitivity (@None Z); [apply nth_error_None; rewrite app_length; cbn; lia | symmetry; apply nth_error_None; lia]. }
    split; [rewrite nth_error_app2, Nat.sub_diag by lia; reflexivity|]. split; [lia|]. split; [auto|]. split.
    { intros H. destruct (i_slot _ _ _ I _ H) as (y & Ey & L & _). cbn in *. rewrite E in Ey; injection Ey as <-. lia. }
    split; [split; [constructor | intros j []]|]. split; [auto|lia].
  - unfold set_bin, put, set_register, same; cbn [nkind children deps counter computed register bin buffer alive]. rewrite set_at_length.
    inversion ND; subst. assert (L : i < length (register x)) by (apply RG; left; auto).
    split; [repeat split; auto|]. split; [auto|]. split; [intros j N; apply set_at_ne; auto|]. split; [apply set_at_eq; auto|]. split; [auto|]. split; [auto|]. split.
    { intros H. destruct (i_slot _ _ _ I _ H) as (y & Ey & _ & Q). cbn in *. rewrite E in Ey; injection Ey as <-. apply Q. rewrite B. left; auto. }
    split; [split; [auto | intros j Hj; apply RG; right; auto]|]. split; [intros j Hj; right; auto|lia].
Qed.
Lemma alloc_spec (h : heap) W n : inv h W -> liveb h n -> forall b, exists h' i, getNewCallerID h n = Some (h', (n, i)) /\ inv h' ((b, (n, i)) :: W) /\ alike h h' /\
  (forall x, nth_error h' n = Some x -> nth_error (register x) i = Some (counter x - 1)%Z) /\ forall m x y j, nth_error h m = Some x -> nth_error h' m = Some y -> (m, j) <> (n, i) -> nth_error (register y) j = nth_error (register x) j.
Proof.
  intros I L b. destruct (live_liveb _ _ L) as (x & Lx & E & A). unfold getNewCallerID. rewrite Lx.
  pose proof (fresh_id_spec h W n x I E) as F. destruct (fresh_id x) as (x', i). destruct F as (S & Al & R & Ri & Li & Bi & NH & B & Bs & Ll).
  exists (upd h n (fun _ => x')), i. split; [reflexivity|]. split; [|split; [eapply alike_upd; eauto|]]; cycle 1.
  { split.
    - intros y Ey. rewrite upd_eq, E in Ey. cbn in Ey. injection Ey as <-. destruct S as (_ & _ & _ & -> & _). exact Ri.
    - intros m y z j Ey Ez N. destruct (Nat.eq_dec m n) as [->|Nm].
      + rewrite upd_eq, E in Ez. cbn in Ez. injection Ez as <-. rewrite E in Ey; injection Ey as <-. apply R. congruence.
      + rewrite upd_ne in Ez by auto. congruence. }
  assert (NW : ~ In (n, i) (map snd W)) by (intros Q; apply NH; left; auto).
  assert (NO : forall m y, nth_error h m = Some y -> alive y = true -> ~ In (n, i) (own y)) by (intros m y Ey Ay Q; apply NH; right; exists m, y; auto).
  apply (inv_slot h W _ n i x x' I E); auto.
  - intros c [[= -> <-]|Hc]; [auto | eapply i_strong; eauto].
  - cbn. constructor; auto. apply I.
  - intros m y c Ey Ay Hc [<-|Hw]; [eapply NO; eauto | eapply (i_nw _ _ _ I); eauto].
  - intros m y Ey Ay Q. apply (NO m y Ey Ay). apply in_or_app; auto.
  - intros c [[Q|Q]|Q] N; [cbn in Q; subst; contradiction | left; auto | right; auto].
  - intros j Hj. destruct (Nat.eq_dec j i) as [->|N]; [auto|].
    assert (Hj' : holds h W (n, j)) by (destruct Hj as [[[= Q]|Q]|Q]; [congruence | left; auto | right; auto]).
    destruct (i_slot _ _ _ I _ Hj') as (y & Ey & Q1 & Q2). cbn in *. rewrite E in Ey; injection Ey as <-. split; [lia | intros Q; apply Q2; auto].
Qed.
Lemma delete_spec (h : heap) W b c : inv h ((b, c) :: W) -> liveb h (fst c) -> exists h', deleteID h c = Some h' /\ inv h' W /\ alike h h'.
Proof.
  intros I L. destruct (live_liveb _ _ L) as (x & Lx & E & A). unfold deleteID. rewrite Lx.
  destruct (i_slot _ _ _ I c) as (x' & Ex' & Sl & Nb); [left; left; reflexivity|]. rewrite E in Ex'; injection Ex' as <-.
  apply Nat.ltb_lt in Sl as Sl'. rewrite Sl'. destruct c as (n, i). cbn [fst snd] in *.
  set (x' := set_bin (put i (counter x - 1)%Z x) (i :: bin x)).
  assert (S : same x x') by (unfold x', same; cbn; repeat split; auto).
  assert (EQ : upd h n (fun z => set_bin (put i (counter z - 1)%Z z) (i :: bin z)) = upd h n (fun _ => x')).
  { apply upd_ext. intros z Ez. rewrite E in Ez; injection Ez as <-. reflexivity. }
  rewrite EQ. eexists; split; [reflexivity|]. split; [|apply (alike_upd h n x x'); auto].
  destruct (i_bin _ _ _ I _ _ E) as (ND & RG).
  apply (inv_slot h _ W n i x x' I E); auto; unfold x'; cbn [set_bin put set_register register bin].
  - intros j N. apply set_at_ne; auto.
  - apply set_at_eq; auto.
  - rewrite set_at_length. split; [constructor; auto|]. intros j [<-|Hj]; auto.
  - intros c Hc. eapply (i_strong _ _ _ I). right; eauto.
  - pose proof (i_w _ _ _ I) as Q. cbn in Q. inversion Q; auto.
  - intros m y c Ey Ay Hc Hw. eapply (i_nw _ _ _ I); eauto. right; auto.
  - intros m y Ey Ay Q. eapply (i_nw _ _ _ I m y (n, i)); eauto; [apply in_or_app; auto | left; auto].
  - intros c [Q|Q] _; [left; right; auto | right; auto].
  - intros j Hj. rewrite set_at_length. assert (H2 : holds h ((b, (n, i)) :: W) (n, j)) by (destruct Hj as [Q|Q]; [left; right; auto | right; auto]).
    destruct (i_slot _ _ _ I _ H2) as (y & Ey & Q1 & Q2). cbn in *. rewrite E in Ey; injection Ey as <-. split; auto.
    intros [<-|Q]; [|auto]. pose proof (i_w _ _ _ I) as Q. cbn in Q. inversion Q; subst.
    destruct Hj as [Hj|(m & y & Ey & Ay & Hj)]; [auto|]. eapply (i_nw _ _ _ I m y (n, i)); eauto. left; auto.
Qed.
Lemma inv_perm (h : heap) W W' : Permutation W W' -> inv h W -> inv h W'.
Proof.
  intros P I. assert (PS : Permutation (map snd W) (map snd W')) by (apply Permutation_map; auto).
  destruct I; constructor; auto.
  - intros c Hc. apply i_strong. eapply Permutation_in; [apply Permutation_sym; eauto|auto].
  - eapply Permutation_NoDup; eauto.
  - intros n x c E A H1 H2. eapply i_nw; eauto. eapply Permutation_in; [apply Permutation_sym; eauto|auto].
  - intros c [H|H]; apply i_slot; [left|right; auto]. eapply Permutation_in; [apply Permutation_sym; eauto|auto].
Qed.
(** Fewer things in hand. *)
Lemma inv_weaken (h : heap) W W' : inv h W -> (forall b c, In (b, c) W' -> In (b, c) W) -> NoDup (map snd W') -> inv h W'.
Proof.
  intros I S N. assert (S2 : forall c, In c (map snd W') -> In c (map snd W)).
  { intros c H. apply in_map_iff in H as ((b, c') & <- & H). apply in_map_iff. exists (b, c'). auto. }
  destruct I; constructor; auto.
  - intros n x c E A H1 H2. eapply i_nw; eauto.
  - intros c [H|H]; apply i_slot; [left; auto|right; auto].
Qed.
Lemma copyAll_spec l : forall h W b, inv h W -> (forall n, In n l -> liveb h n) ->
  exists h' cs, copyAll h l = Some (h', cs) /\ map fst cs = l /\ inv h' (map (pair b) cs ++ W) /\ alike h h' /\
    (forall c, In c cs -> exists d r, nth_error h' (fst c) = Some d /\ nth_error (register d) (snd c) = Some r /\ r <> counter d) /\
    (forall m x y j, nth_error h m = Some x -> nth_error h' m = Some y -> In (m, j) (map snd W) -> nth_error (register y) j = nth_error (register x) j).
Proof.
  induction l as [|n l IH]; intros h W b I L; cbn [copyAll].
  - exists h, []. repeat (split; [solve [reflexivity | assumption | apply alike_refl]|]). split; [intros c []|congruence].
  - destruct (alloc_spec h W n I (L n (or_introl eq_refl)) b) as (h1 & i & -> & I1 & A1 & N1 & K1).
    destruct (IH h1 _ b I1) as (h2 & cs & -> & M & I2 & A2 & N2 & K2). { intros m Hm. eapply alike_live; eauto. apply L; right; auto. }
    exists h2, ((n, i) :: cs). split; [reflexivity|]. split; [cbn; congruence|]. split; [|split; [eapply alike_trans; eauto|split]].
    + eapply inv_perm; [|exact I2]. cbn. apply Permutation_sym, Permutation_middle.
    + intros c [<-|Hc]; [|auto]. cbn [fst snd]. destruct (alike_live _ _ n A1 (L n (or_introl eq_refl))) as (x1 & E1 & _).
      destruct (proj2 A2 _ _ E1) as (x2 & E2 & (_ & _ & _ & C2 & _) & _).
      exists x2, (counter x1 - 1)%Z. split; auto. split; [rewrite (K2 _ _ _ i E1 E2); [auto | left; reflexivity]|]. lia.
    + intros m x y j Ex Ey Hj. destruct (proj2 A1 _ _ Ex) as (z & Ez & _). rewrite (K2 _ _ _ _ Ez Ey), (K1 _ _ _ _ Ex Ez); auto; [|right; auto].
      intros [= -> ->]. pose proof (i_w _ _ _ I1) as ND. cbn in ND. inversion ND; auto.
Qed.
Lemma addDependencies_spec l : forall h W (acc : list handle), inv h (map (pair false) acc ++ W) -> (forall n, In n l -> liveb h n) ->
  exists h' acc', addDependencies h acc l = Some (h', acc') /\ inv h' (map (pair false) acc' ++ W) /\ alike h h' /\
    (forall e, In e (map fst acc') <-> In e (map fst acc) \/ In e l).
Proof.
  induction l as [|n l IH]; intros h W acc I L; cbn [addDependencies].
  - exists h, acc. repeat (split; [solve [reflexivity | assumption | apply alike_refl]|]). intros e. cbn. tauto.
  - destruct (existsb (fun c => fst c =? n) acc) eqn:EX.
    + destruct (IH h W acc I) as (h' & acc' & -> & I' & A & Q). { intros m Hm; apply L; right; auto. }
      exists h', acc'. repeat (split; [solve [reflexivity | assumption]|]). intros e. rewrite Q. cbn. split; [tauto|]. intros [H|[<-|H]]; auto.
      left. apply existsb_exists in EX as (c & Hc & X). apply Nat.eqb_eq in X. subst. apply in_map; auto.
    + destruct (alloc_spec h _ n I (L n (or_introl eq_refl)) false) as (h1 & i & -> & I1 & A1 & _).
      destruct (IH h1 W (acc ++ [(n, i) : handle])) as (h2 & acc' & -> & I2 & A2 & Q).
      { eapply inv_perm; [|exact I1]. rewrite map_app, <- app_assoc. cbn. apply Permutation_middle. }
      { intros m Hm. eapply alike_live; eauto. apply L; right; auto. }
      exists h2, acc'. split; [reflexivity|]. split; [auto|]. split; [eapply alike_trans; eauto|]. intros e. rewrite Q, map_app, in_app_iff. cbn. tauto.
Qed.
Lemma addAll_spec args : forall h W (acc : list handle), inv h (map (pair false) acc ++ W) -> (forall n, In n args -> liveb h n) ->
  exists h' acc', addAll h acc args = Some (h', acc') /\ inv h' (map (pair false) acc' ++ W) /\ alike h h' /\
    (forall e, In e (map fst acc') <-> In e (map fst acc) \/ exists n x, In n args /\ nth_error h n = Some x /\ In e (exports n x)).
Proof.
  induction args as [|n args IH]; intros h W acc I L; cbn [addAll].
  - exists h, acc. repeat (split; [solve [reflexivity | assumption | apply alike_refl]|]). intros e. split; [tauto|]. intros [H|(n & x & [] & _)]; auto.
  - assert (Ln := L n (or_introl eq_refl)). destruct (live_liveb _ _ Ln) as (x & -> & Ex & Ax).
    destruct (addDependencies_spec (exports n x) h W acc I) as (h1 & acc1 & -> & I1 & A1 & Q1).
    { intros e He. destruct (exports_in _ _ _ _ _ _ I Ex He) as [->|Q]; [auto|]. eapply deps_alive; eauto. }
    destruct (IH h1 W acc1 I1) as (h2 & acc2 & -> & I2 & A2 & Q2). { intros m Hm. eapply alike_live; eauto. apply L; right; auto. }
    exists h2, acc2. split; [reflexivity|]. split; [auto|]. split; [eapply alike_trans; eauto|].
    assert (EXP : forall m y z, nth_error h m = Some y -> nth_error h1 m = Some z -> exports m z = exports m y).
    { intros m y z Ey Ez. destruct (proj2 A1 _ _ Ey) as (z' & Ez' & (B1 & B2 & B3 & _) & _). rewrite Ez in Ez'; injection Ez' as <-. unfold exports. rewrite B1, B3. auto. }
    intros e. rewrite Q2, Q1. split.
    + intros [[H|H]|(m & y & Hm & Ey & He)]; auto.
      * right. exists n, x. repeat split; auto. left; auto.
      * destruct (sames_back _ _ _ _ (alike_sames _ _ A1) Ey) as (z & Ez & _). right. exists m, z. rewrite <- (EXP m z y Ez Ey). repeat split; auto. right; auto.
    + intros [H|(m & y & [<-|Hm] & Ey & He)]; auto.
      * rewrite Ex in Ey; injection Ey as <-. auto.
      * destruct (proj2 A1 _ _ Ey) as (z & Ez & _). right. exists m, z. rewrite (EXP m y z Ey Ez). auto.
Qed.

(** ** A new object *)
Lemma value_app (h : heap) x0 n : below h -> n < length h -> value (h ++ [x0]) n = value h n.
Proof.
  intros B. unfold LeviCacheProofs.value.
  assert (G : forall f m, m < length h -> val garbage f (h ++ [x0]) m = val garbage f h m).
  { induction f as [|f IH]; intros m Hm; cbn [val]; [reflexivity|]. rewrite nth_error_app1 by auto.
    destruct (nth_error h m) as [x|] eqn:E; [|reflexivity].
    assert (M : map (fun c => val garbage f (h ++ [x0]) (fst c)) (children x) = map (fun c => val garbage f h (fst c)) (children x)).
    { apply map_ext_in. intros c Hc. apply IH. pose proof (B m x E c Hc). lia. }
    rewrite M. reflexivity. }
  intros H. apply G; auto.
Qed.
Lemma inv_append (h : heap) W0 W (x0 : node) : inv h W0 ->
  (forall b c, In (b, c) W -> In (b, c) W0) -> NoDup (map snd W) ->
  (forall c, In c (children x0) -> liveb h (fst c)) ->
  (forall c, In c (deps x0) -> fst c < length h \/ (nkind x0 = KMutable /\ fst c = length h)) ->
  (is_leaf (nkind x0) = true -> children x0 = [] /\ map fst (deps x0) = match nkind x0 with KMutable => [length h] | _ => [] end) ->
  (is_leaf (nkind x0) = false -> forall e, In e (map fst (deps x0)) <-> exists c y, In c (children x0) /\ nth_error h (fst c) = Some y /\ In e (exports (fst c) y)) ->
  NoDup (own x0) ->
  (forall c, In c (own x0) -> (In c (map snd W0) /\ ~ In c (map snd W)) \/ (fst c = length h /\ snd c < length (register x0))) ->
  bin x0 = [] -> computed x0 = false -> (forall r, In r (register x0) -> (r < counter x0)%Z) ->
  inv (h ++ [x0]) W.
Proof.
  intros I P1 P2 P3 P4 P5 P6 P7 P8 P9 P10 P11. set (n0 := length h). set (h' := h ++ [x0]).
  assert (E0 : nth_error h' n0 = Some x0) by (unfold h', n0; rewrite nth_error_app2, Nat.sub_diag by lia; reflexivity).
  assert (EO : forall m, m < n0 -> nth_error h' m = nth_error h m) by (intros; apply nth_error_app1; auto).
  assert (CS : forall m y, nth_error h' m = Some y -> (m = n0 /\ y = x0) \/ (m < n0 /\ nth_error h m = Some y)).
  { intros m y Ey. assert (L := nth_lt _ _ _ Ey). unfold h' in L. rewrite app_length in L. cbn in L. fold n0 in L.
    destruct (Nat.eq_dec m n0) as [->|N]; [left; split; congruence|right]. split; [lia|]. rewrite <- EO by lia. auto. }
  assert (LV : forall m, liveb h m -> liveb h' m). { intros m (y & Ey & Ay). exists y. split; auto. rewrite EO; auto. eapply nth_lt; eauto. }
  assert (S2 : forall c, In c (map snd W) -> In c (map snd W0)).
  { intros c H. apply in_map_iff in H as ((b, c') & <- & H). apply in_map_iff. exists (b, c'). auto. }
  assert (HLT : forall c, holds h W0 c -> fst c < n0) by (intros c Hc; destruct (i_slot _ _ _ I c Hc) as (y & Ey & _); eapply nth_lt; eauto).
  assert (CLT : forall c, In c (children x0) -> fst c < n0) by (intros c Hc; destruct (P3 c Hc) as (y & Ey & _); eapply nth_lt; eauto).
  assert (BL : below h').
  { intros m y Ey c Hc. destruct (CS m y Ey) as [(-> & ->)|(Lm & Ey')]; [auto|]. eapply (i_lt _ _ _ I); eauto. }
  assert (X : forall m y c, nth_error h m = Some y -> alive y = true -> In c (own y) -> In c (own x0) -> False).
  { intros m y c Ey Ay H1 H2. destruct (P8 c H2) as [(Q & _)|(Q & _)]; [eapply (i_nw _ _ _ I); eauto|].
    assert (fst c < n0) by (apply HLT; right; exists m, y; auto). unfold n0 in *; lia. }
  constructor; auto.
  - intros m y Ey c Hc. destruct (CS m y Ey) as [(-> & ->)|(Lm & Ey')]; [auto|]. eapply i_dlt; eauto.
  - intros m y Ey L. destruct (CS m y Ey) as [(-> & ->)|(Lm & Ey')]; [apply P5; auto|]. eapply i_leafc; eauto.
  - intros m y Ey L. destruct (CS m y Ey) as [(-> & ->)|(Lm & Ey')]; [apply P5; auto|]. eapply i_leafd; eauto.
  - intros m y Ey L c z e Hc Ez He. destruct (CS m y Ey) as [(-> & ->)|(Lm & Ey')].
    + apply P6; auto. exists c, z. rewrite EO in Ez by auto. auto.
    + assert (fst c < m) by (eapply (i_lt _ _ _ I); eauto). rewrite EO in Ez by lia. eapply i_cover; eauto.
  - intros m y Ey L e He. destruct (CS m y Ey) as [(-> & ->)|(Lm & Ey')].
    + apply P6 in He; auto. destruct He as (c & z & Hc & Ez & X2). exists c, z. rewrite EO by auto. auto.
    + destruct (i_from _ _ _ I _ _ Ey' L e He) as (c & z & Hc & Ez & X2). exists c, z. rewrite EO; auto. eapply nth_lt; eauto.
  - intros m y Ey A c Hc. destruct (CS m y Ey) as [(-> & ->)|(Lm & Ey')]; apply LV; [auto|]. eapply i_alive; eauto.
  - intros c Hc. apply LV. eapply i_strong; eauto.
  - intros m y Ey A. destruct (CS m y Ey) as [(-> & ->)|(Lm & Ey')]; [auto|]. eapply i_n; eauto.
  - intros m1 m2 y1 y2 c Ey1 Ey2 Ay1 Ay2 N H1 H2. destruct (CS _ _ Ey1) as [(-> & ->)|(Lm & Ey1')], (CS _ _ Ey2) as [(-> & ->)|(Lm2 & Ey2')]; eauto.
    + eapply (i_nn _ _ _ I m1 m2); eauto.
  - intros m y c Ey Ay H1 H2. destruct (CS _ _ Ey) as [(-> & ->)|(Lm & Ey')].
    + destruct (P8 c H1) as [(_ & Q)|(Q & _)]; [auto|]. assert (fst c < n0) by (apply HLT; left; auto). unfold n0 in *; lia.
    + eapply (i_nw _ _ _ I); eauto.
  - intros c [Hc|(m & y & Ey & Ay & Hc)].
    + assert (H : holds h W0 c) by (left; auto). rewrite EO by auto. apply (i_slot _ _ _ I); auto.
    + destruct (CS _ _ Ey) as [(-> & ->)|(Lm & Ey')].
      * destruct (P8 c Hc) as [(Q & _)|(Q & Q2)].
        -- assert (H : holds h W0 c) by (left; auto). rewrite EO by auto. apply (i_slot _ _ _ I); auto.
        -- exists x0. rewrite Q. fold n0. split; auto. split; auto. rewrite P9. auto.
      * assert (H : holds h W0 c) by (right; eauto). rewrite EO by auto. apply (i_slot _ _ _ I); auto.
  - intros m y Ey. destruct (CS _ _ Ey) as [(-> & ->)|(Lm & Ey')]; [|eapply i_bin; eauto]. rewrite P9. split; [constructor|intros i []].
  - intros m y j r Ey Er. destruct (CS _ _ Ey) as [(-> & ->)|(Lm & Ey')]; [|eapply i_reg; eauto]. apply nth_error_In in Er. apply P11 in Er. lia.
  - intros m y j Ey L Er. destruct (CS _ _ Ey) as [(-> & ->)|(Lm & Ey')]; [|eapply i_comp; eauto]. apply nth_error_In in Er. apply P11 in Er. lia.
  - intros m y Ey A L C D. destruct (CS _ _ Ey) as [(-> & ->)|(Lm & Ey')]; [congruence|].
    pose proof (value_app h x0 m (i_lt _ _ _ I) Lm) as VA. fold h' in VA. rewrite VA. eapply i_val; eauto. intros D2. apply D.
    apply (dirty_transfer h h' W0 I) with (x := y); auto.
    + intros k z Ek Ak. exists z. rewrite EO; auto. eapply nth_lt; eauto.
    + intros k z e d r Ek Ak He Ne Ed Er Nr. eapply new_reg; eauto. rewrite EO; eauto. eapply nth_lt; eauto.
Qed.
Lemma app_frames (h : heap) x0 : frames h (h ++ [x0]).
Proof. split; [rewrite app_length; lia|]. intros n x E. exists x. rewrite nth_error_app1 by (eapply nth_lt; eauto). split; auto. repeat split; auto. Qed.

Lemma construct_spec (h : heap) W k args : inv h W -> is_leaf k = false -> (forall n, In n args -> liveb h n) ->
  exists h' x, construct garbage h k args = Some (h', length h) /\ inv h' W /\ frames h h' /\ nth_error h' (length h) = Some x /\ alive x = true /\
    nkind x = k /\ map fst (children x) = args.
Proof.
  intros I LF L. unfold construct.
  destruct (copyAll_spec args h W true I L) as (h1 & cs & -> & M & I1 & A1 & _).
  destruct (addAll_spec args h1 (map (pair true) cs ++ W) [] I1) as (h2 & ds & -> & I2 & A2 & Q). { intros n Hn. eapply alike_live; eauto. }
  set (x0 := mkNode k cs ds 0 false [] [] garbage true).
  assert (LEN : length h2 = length h) by (rewrite (proj1 A2); apply A1).
  exists (h2 ++ [x0]), x0. rewrite LEN. split; [reflexivity|].
  assert (ND : NoDup (ds ++ cs ++ map snd W)).
  { pose proof (i_w _ _ _ I2) as ND. rewrite !map_app, !map_map in ND. cbn in ND. rewrite !map_id in ND. exact ND. }
  split; [|split; [|split; [rewrite <- LEN, nth_error_app2, Nat.sub_diag by lia; reflexivity|repeat split; auto]]].
  - apply (inv_append h2 _ W x0 I2); cbn [children deps nkind register counter bin computed].
    + intros b c H. apply in_or_app; right. apply in_or_app; auto.
    + apply NoDup_app_r in ND. apply NoDup_app_r in ND. auto.
    + intros c Hc. eapply alike_live; eauto. eapply alike_live; eauto. apply L. rewrite <- M. apply in_map; auto.
    + intros c Hc. left. destruct (i_slot _ _ _ I2 c) as (y & Ey & _); [|eapply nth_lt; eauto]. left. rewrite map_app, map_map. apply in_or_app; left. cbn. rewrite map_id. auto.
    + unfold x0; cbn. rewrite LF. discriminate.
    + intros _ e. unfold x0; cbn [deps children]. rewrite Q. cbn.
      assert (EXP : forall m y z, nth_error h1 m = Some y -> nth_error h2 m = Some z -> exports m z = exports m y).
      { intros m y z Ey Ez. destruct (proj2 A2 _ _ Ey) as (z' & Ez' & (B1 & B2 & B3 & _) & _). rewrite Ez in Ez'; injection Ez' as <-. unfold exports. rewrite B1, B3. auto. }
      split.
      * intros [[]|(n & x & Hn & Ex & He)]. rewrite <- M in Hn. apply in_map_iff in Hn as (c & <- & Hc). destruct (proj2 A2 _ _ Ex) as (z & Ez & _).
        exists c, z. rewrite (EXP _ _ _ Ex Ez). auto.
      * intros (c & z & Hc & Ez & He). right. destruct (sames_back _ _ _ _ (alike_sames _ _ A2) Ez) as (y & Ey & _). exists (fst c), y.
        rewrite <- (EXP _ _ _ Ey Ez). repeat split; auto. rewrite <- M. apply in_map; auto.
    + unfold own, x0; cbn. apply (Permutation_NoDup (l := ds ++ cs)); [apply Permutation_app_comm|]. rewrite app_assoc in ND. apply NoDup_app_l in ND. auto.
    + unfold own, x0; cbn [children deps]. intros c Hc. left. rewrite !map_app, !map_map. cbn. rewrite !map_id. split; [rewrite !in_app_iff; apply in_app_or in Hc; tauto|].
      intros Hw. rewrite app_assoc in ND. eapply NoDup_app_d; eauto. apply in_or_app. apply in_app_or in Hc; tauto.
    + reflexivity.
    + reflexivity.
    + intros r [].
  - eapply frames_trans; [|apply app_frames]. eapply frames_trans; apply sames_frames, alike_sames; eauto.
Qed.
Lemma construct_leaf_spec (h : heap) W k v : inv h W -> is_leaf k = true ->
  exists h' x, construct_leaf h k v = (h', length h) /\ inv h' W /\ frames h h' /\ nth_error h' (length h) = Some x /\ alive x = true /\ nkind x = k /\ buffer x = v /\ h' = h ++ [x].
Proof.
  intros I LF. unfold construct_leaf. eexists; eexists. split; [reflexivity|]. split; [|split; [apply app_frames|]].
  - apply (inv_append h W W); auto; try exact (i_w _ _ _ I); destruct k; cbn in LF; try discriminate; cbn [children deps nkind register counter bin computed own map fst snd app]; auto.
    all: try solve [intros c []].
    all: try solve [intros c [<-|[]]; cbn; auto].
    all: try solve [constructor; [intros [] | constructor]].
    all: try solve [constructor].
    intros r [<-|[]]. lia.
  - rewrite nth_error_app2, Nat.sub_diag by lia. split; [reflexivity|]. destruct k; cbn in LF; try discriminate; auto.
Qed.

Lemma live_upd_iff (h : heap) n f m : (forall x, alive (f x) = alive x) -> liveb h m <-> liveb (upd h n f) m.
Proof.
  intros F. unfold liveb. destruct (Nat.eq_dec m n) as [->|N].
  - rewrite upd_eq. destruct (nth_error h n) as [x|]; cbn; split; intros (y & E & A); try discriminate; injection E as <-; eexists; split; eauto; congruence.
  - rewrite upd_ne by auto. tauto.
Qed.
(** ** Assignment *)
Lemma assign_spec h W n (x : node) v : inv h W -> nth_error h n = Some x ->
  match nkind x with KVar | KMutable | KFrom _ => True | _ => False end ->
  inv (upd h n (fun y => reset (set_buffer v y))) W.
Proof.
  intros I E K. set (h' := upd h n (fun y => reset (set_buffer v y))).
  assert (En : nth_error h' n = Some (reset (set_buffer v x))) by (unfold h'; rewrite upd_eq, E; reflexivity).
  assert (Em : forall m, m <> n -> nth_error h' m = nth_error h m) by (intros; unfold h'; apply upd_ne; auto).
  assert (SH : shapes h h').
  { split; [apply upd_length|]. intros m y Ey. destruct (Nat.eq_dec m n) as [->|N].
    - rewrite E in Ey; injection Ey as <-. exists (reset (set_buffer v x)). split; auto. repeat split; auto.
    - exists y. rewrite Em; auto. split; auto. repeat split; auto. }
  assert (BL := shapes_below _ _ SH (i_lt _ _ _ I)).
  assert (NEWN : forall j, (exists r, nth_error (register x) j = Some r) -> isnew h' n j).
  { intros j (r & Er). eapply new_reg; [exact En|exact Er|]. cbn. pose proof (i_reg _ _ _ I _ _ _ _ E Er). lia. }
  assert (DT : forall m y, nth_error h m = Some y -> alive y = true -> dirty h m -> dirty h' m).
  { apply (dirty_transfer h h' W I).
    - intros m y Ey Ay. destruct (proj2 SH _ _ Ey) as (z & Ez & _ & _ & Dz & _). eauto.
    - intros m y e d r Ey Ay He Ne Ed Er Nr. destruct (Nat.eq_dec (fst e) n) as [EQ|N].
      + rewrite EQ in *. apply NEWN. rewrite E in Ed; injection Ed as <-. eauto.
      + apply (new_reg h' _ _ d r); auto. rewrite Em; auto. }
  set (hot := fun m (y : node) => is_leaf (nkind y) = false /\ exists d, In d (map fst (deps y)) /\ d <> m /\ (d = n \/ dirty h' d)).
  assert (HD : forall m y, nth_error h m = Some y -> alive y = true -> hot m y -> dirty h' m).
  { intros m y Ey Ay (_ & d & Hd & Nd & Q). apply in_map_iff in Hd as (e & <- & He). destruct (proj2 SH _ _ Ey) as (z & Ez & _ & _ & Dz & _).
    exists z, e. rewrite Dz. repeat split; auto. destruct Q as [Q|Q]; [|apply dirty_new; auto].
    destruct (i_slot _ _ _ I e) as (k & Ek & Sk & _). { right. exists m, y. repeat split; auto. apply in_or_app; auto. }
    rewrite Q in *. rewrite E in Ek; injection Ek as <-. apply NEWN. apply nth_ex; auto. }
  assert (MAIN : forall m y, nth_error h m = Some y -> alive y = true -> value h' m = value h m \/ m = n \/ hot m y).
  { induction m as [m IH] using lt_wf_ind. intros y Ey Ay. destruct (Nat.eq_dec m n) as [->|N]; [auto|].
    assert (Ey' : nth_error h' m = Some y) by (rewrite Em; auto).
    destruct (is_leaf (nkind y)) eqn:LF.
    { left. rewrite (value_unfold _ _ _ _ BL Ey'), (value_unfold _ _ _ _ (i_lt _ _ _ I) Ey). destruct (nkind y); cbn in LF; auto; discriminate. }
    assert (Q : forall l, (forall c, In c l -> In c (children y)) ->
       map (fun c => value h' (fst c)) l = map (fun c => value h (fst c)) l \/ exists c z, In c l /\ nth_error h (fst c) = Some z /\ alive z = true /\ (fst c = n \/ hot (fst c) z)).
    { induction l as [|c l IHl]; intros Hl; [left; reflexivity|].
      destruct IHl as [Q|(d & z & Hd & Q)]; [intros d Hd; apply Hl; right; auto| |right; exists d, z; split; [right; auto|auto]].
      assert (Hc := Hl c (or_introl eq_refl)). destruct (i_alive _ _ _ I _ _ Ey Ay c Hc) as (z & Ez & Az).
      destruct (IH (fst c) (i_lt _ _ _ I _ _ Ey c Hc) z Ez Az) as [Q2|Q2].
      - left. cbn [map]. f_equal; auto.
      - right. exists c, z. split; [left; auto|auto]. }
    destruct (Q (children y) (fun c Hc => Hc)) as [Q1|(c & z & Hc & Ez & Az & Q1)].
    - left. rewrite (value_unfold _ _ _ _ BL Ey'), (value_unfold _ _ _ _ (i_lt _ _ _ I) Ey). rewrite Q1. reflexivity.
    - right; right. split; auto. pose proof (i_lt _ _ _ I _ _ Ey c Hc) as LT. destruct Q1 as [Q1|Q1].
      + exists n. assert (z = x) by congruence. subst z. split; [|auto]. apply (i_cover _ _ _ I _ _ Ey LF c x n Hc Ez). rewrite Q1. unfold exports.
        destruct (nkind x) eqn:KX; try contradiction.
        * left; auto.
        * rewrite (i_leafd _ _ _ I _ _ E) by (rewrite KX; auto). rewrite KX. left; auto.
        * apply in_or_app; right; left; auto.
      + pose proof (HD _ _ Ez Az Q1) as DC. destruct Q1 as (LZ & d & Hd & Nd & Q1).
        destruct (nkind z) eqn:KZ; cbn in LZ; try discriminate.
        * exists d. assert (d < fst c). { apply in_map_iff in Hd as (e & <- & He). destruct (i_dlt _ _ _ I _ _ Ez e He) as [|[Q2 _]]; [auto|congruence]. }
          split; [|split; [lia|auto]]. apply (i_cover _ _ _ I _ _ Ey LF c z d Hc Ez). unfold exports. rewrite KZ. auto.
        * exists (fst c). split; [|split; [lia|auto]]. apply (i_cover _ _ _ I _ _ Ey LF c z _ Hc Ez). unfold exports. rewrite KZ. apply in_or_app; right; left; auto. }
  apply (inv_shapes garbage h h' W SH I).
  - intros m y j r Ey Er. destruct (Nat.eq_dec m n) as [->|N].
    + rewrite En in Ey; injection Ey as <-. cbn in *. pose proof (i_reg _ _ _ I _ _ _ _ E Er). lia.
    + rewrite Em in Ey by auto. eapply i_reg; eauto.
  - intros m y j Ey L Er. destruct (Nat.eq_dec m n) as [->|N].
    + rewrite En in Ey; injection Ey as <-. cbn in *. pose proof (i_reg _ _ _ I _ _ _ _ E Er). lia.
    + rewrite Em in Ey by auto. eapply i_comp; eauto.
  - intros m y Ey A L C D. destruct (Nat.eq_dec m n) as [->|N]; [rewrite En in Ey; injection Ey as <-; discriminate|].
    rewrite Em in Ey by auto. destruct (MAIN m y Ey A) as [->|[Q|Q]]; [|contradiction|exfalso; eauto].
    eapply i_val; eauto.
Qed.

(** ** Release *)
Lemma kill_spec h W n (x : node) : inv h W -> nth_error h n = Some x -> alive x = true ->
  (forall c, In (true, c) W -> fst c <> n) -> (forall m y c, nth_error h m = Some y -> alive y = true -> In c (children y) -> fst c <> n) ->
  inv (upd h n kill) (map (pair true) (children x) ++ map (pair false) (deps x) ++ W).
Proof.
  intros I E A P1 P2. set (h' := upd h n kill). set (W' := map (pair true) (children x) ++ map (pair false) (deps x) ++ W).
  assert (MW : @map (bool * (nat * nat)) (nat * nat) snd W' = own x ++ map snd W). { change (map snd W' = own x ++ map snd W). unfold W', own. rewrite !map_app, !map_map. cbn. rewrite !map_id. apply app_assoc. }
  assert (En : nth_error h' n = Some (kill x)) by (unfold h'; rewrite upd_eq, E; reflexivity).
  assert (Em : forall m, m <> n -> nth_error h' m = nth_error h m) by (intros; unfold h'; apply upd_ne; auto).
  assert (SS : sames h h').
  { split; [apply upd_length|]. intros m y Ey. destruct (Nat.eq_dec m n) as [->|N].
    - rewrite E in Ey; injection Ey as <-. exists (kill x). split; auto. repeat split; auto.
    - exists y. rewrite Em; auto. split; auto. repeat split; auto. }
  assert (LV : forall m, m <> n -> liveb h m -> liveb h' m) by (intros m N (y & Ey & Ay); exists y; rewrite Em; auto).
  assert (AL : forall m y, nth_error h' m = Some y -> alive y = true -> m <> n /\ nth_error h m = Some y).
  { intros m y Ey Ay. destruct (Nat.eq_dec m n) as [->|N]; [rewrite En in Ey; injection Ey as <-; discriminate|]. rewrite Em in Ey by auto. auto. }
  assert (OK : forall c, In c (own x) -> In c (map snd W) -> False) by (intros c H1 H2; eapply (i_nw _ _ _ I); eauto).
  apply (inv_change h h' W W' SS I).
  - intros m y Ey Ay c Hc. destruct (AL m y Ey Ay) as (N & Ey'). apply LV; [eapply P2; eauto|]. eapply i_alive; eauto.
  - intros c Hc. unfold W' in Hc. rewrite !in_app_iff in Hc. destruct Hc as [Hc|[Hc|Hc]].
    + apply in_map_iff in Hc as (d & [= <-] & Hd). apply LV; [eapply P2; eauto|]. eapply i_alive; eauto.
    + apply in_map_iff in Hc as (d & [=] & _).
    + apply LV; [eapply P1; eauto|]. eapply i_strong; eauto.
  - refine (eq_ind_r (fun l : list (nat * nat) => NoDup l) _ MW). apply NoDup_app_i; [eapply i_n; eauto | apply I | auto].
  - intros m y c Ey Ay H1 H2. destruct (AL m y Ey Ay) as (N & Ey'). pose proof (eq_ind _ (fun l : list (nat * nat) => In c l) H2 _ MW) as H3. clear H2. rename H3 into H2. apply in_app_or in H2. destruct H2 as [H2|H2].
    + apply (i_nn _ _ _ I m n y x c); auto.
    + eapply (i_nw _ _ _ I); eauto.
  - intros c Hc. assert (H : holds h W c).
    { destruct Hc as [Hc|(m & y & Ey & Ay & Hc)].
      - pose proof (eq_ind _ (fun l : list (nat * nat) => In c l) Hc _ MW) as H3. apply in_app_or in H3. destruct H3 as [H3|H3]; [right; exists n, x; auto | left; auto].
      - destruct (AL m y Ey Ay) as (N & Ey'). right. exists m, y. auto. }
    destruct (i_slot _ _ _ I c H) as (y & Ey & Q). destruct (Nat.eq_dec (fst c) n) as [EQ|N].
    + exists (kill x). rewrite EQ in *. rewrite E in Ey; injection Ey as <-. auto.
    + exists y. rewrite Em; auto.
  - intros m y Ey. destruct (Nat.eq_dec m n) as [->|N]; [rewrite En in Ey; injection Ey as <-; apply (i_bin _ _ _ I _ _ E)|]. rewrite Em in Ey by auto. eapply i_bin; eauto.
  - intros m y j r Ey Er. destruct (Nat.eq_dec m n) as [->|N]; [rewrite En in Ey; injection Ey as <-; apply (i_reg _ _ _ I _ _ _ _ E Er)|]. rewrite Em in Ey by auto. eapply i_reg; eauto.
  - intros m y j Ey L Er. destruct (Nat.eq_dec m n) as [->|N]; [rewrite En in Ey; injection Ey as <-; apply (i_comp _ _ _ I _ _ _ E L Er)|]. rewrite Em in Ey by auto. eapply i_comp; eauto.
  - intros m y z Ey Ez Az D. apply (dirty_transfer h h' W I) with (x := y); auto.
    + intros k w Ek Ak. destruct (proj2 SS _ _ Ek) as (u & Eu & _ & _ & Du & _). eauto.
    + intros k w e d r Ek Ak He Ne Ed Er Nr. destruct (Nat.eq_dec (fst e) n) as [EQ|N].
      * rewrite EQ in *. rewrite E in Ed; injection Ed as <-. eapply new_reg; eauto.
      * apply (new_reg h' _ _ d r); auto. rewrite Em; auto.
    + destruct (AL m z Ez Az) as (N & Ez'). congruence.
Qed.
Definition hands (us : list (option handle)) : extra := flat_map (fun o => match o with Some c => [(true, c)] | None => [] end) us.
Lemma hands_in us c : In (true, c) (hands us) <-> In (Some c) us.
Proof.
  unfold hands. rewrite in_flat_map. split.
  - intros (o & H & Q). destruct o as [d|]; cbn in Q; [|contradiction]. destruct Q as [[= <-]|[]]. auto.
  - intros H. exists (Some c). split; auto. left; auto.
Qed.
Definition busy (h : heap) : nat := list_sum (map (fun x => if alive x then length (children x) + length (deps x) else 0) h).
Lemma busy_alike h h' : alike h h' -> busy h' = busy h.
Proof.
  revert h'. unfold busy. induction h as [|x h IH]; intros h' (L & S); destruct h' as [|y h']; cbn in L; try lia.
  cbn [map list_sum fold_right]. destruct (S 0 x eq_refl) as (y' & [= <-] & (_ & -> & -> & _) & ->). unfold list_sum in IH. f_equal. apply IH.
  split; [lia|]. intros n z E. apply (S (Datatypes.S n) z E).
Qed.
Lemma busy_kill h n (x : node) : nth_error h n = Some x -> alive x = true -> busy h = busy (upd h n kill) + (length (children x) + length (deps x)).
Proof.
  revert n. unfold busy. induction h as [|y h IH]; intros [|n] E A; cbn in E; try discriminate; cbn [upd map list_sum fold_right].
  - injection E as ->. rewrite A. cbn [kill alive]. lia.
  - unfold list_sum in IH. rewrite (IH n E A). lia.
Qed.
Lemma referenced_false us h work n : referenced us h work n = false ->
  (forall c, In (true, c) (hands us ++ work) -> fst c <> n) /\ (forall m (y : node) c, nth_error h m = Some y -> alive y = true -> In c (children y) -> fst c <> n).
Proof.
  unfold referenced, owned, strong. rewrite !orb_false_iff. intros ((H1 & H2) & H3). split.
  - intros c Hc EQ. apply in_app_or in Hc as [Hc|Hc].
    + apply hands_in in Hc. assert (Q : existsb (fun o => match o with Some c => fst c =? n | None => false end) us = true).
      { apply existsb_exists. exists (Some c). split; auto. apply Nat.eqb_eq; auto. } congruence.
    + assert (Q : existsb (fun c => fst c =? n) (map snd (filter fst work)) = true).
      { apply existsb_exists. exists c. split; [|apply Nat.eqb_eq; auto]. apply in_map_iff. exists (true, c). split; auto. apply filter_In. auto. } congruence.
  - intros m y c Ey Ay Hc EQ. assert (Q : existsb (fun x => alive x && existsb (fun c => fst c =? n) (children x)) h = true).
    { apply existsb_exists. exists y. split; [eapply nth_error_In; eauto|]. rewrite Ay. apply existsb_exists. exists c. split; auto. apply Nat.eqb_eq; auto. } congruence.
Qed.
Lemma release_spec us : forall fuel h work, inv h (hands us ++ work) -> length work + busy h <= fuel ->
  exists h', release fuel us h work = Some h' /\ inv h' (hands us) /\ frames h h'.
Proof.
  induction fuel as [|fuel IH]; intros h work I F.
  - destruct work as [|[b c] r]; cbn in F; [|lia]. exists h. cbn. rewrite app_nil_r in I. auto using frames_refl.
  - destruct work as [|[b c] r]; [exists h; cbn; rewrite app_nil_r in I; auto using frames_refl|].
    cbn [release]. cbn [length] in F. assert (I' : inv h ((b, c) :: hands us ++ r)) by (eapply inv_perm; [apply Permutation_sym, Permutation_middle|auto]).
    destruct b.
    + destruct (delete_spec h _ true c I') as (h1 & -> & I1 & A1). { apply (i_strong _ _ _ I'). left; auto. }
      assert (FR : frames h h1) by (apply sames_frames, alike_sames; auto).
      destruct (referenced us h1 r (fst c)) eqn:RF.
      * destruct (IH h1 r I1) as (h2 & -> & I2 & F2). { rewrite (busy_alike _ _ A1). lia. } exists h2. split; [reflexivity|]. split; [assumption|]. eapply frames_trans; eauto.
      * assert (L1 : liveb h1 (fst c)) by (eapply alike_live; eauto; apply (i_strong _ _ _ I'); left; auto).
        destruct (live_liveb _ _ L1) as (x & -> & Ex & Ax). destruct (referenced_false _ _ _ _ RF) as (R1 & R2).
        destruct (IH (upd h1 (fst c) kill) (map (pair true) (children x) ++ map (pair false) (deps x) ++ r)) as (h2 & -> & I2 & F2).
        { eapply inv_perm; [|apply (kill_spec h1 (hands us ++ r) (fst c) x I1 Ex Ax R1 R2)].
          rewrite !app_assoc. apply Permutation_app_tail. rewrite <- (app_assoc (hands us)). apply Permutation_app_comm. }
        { rewrite !app_length, !map_length. pose proof (busy_kill _ _ _ Ex Ax). rewrite (busy_alike _ _ A1) in H. lia. }
        exists h2. split; [reflexivity|]. split; [assumption|]. (eapply frames_trans; [exact FR|]; eapply frames_trans; [|exact F2]; apply upd_frames; intros y; repeat split; auto).
    + destruct (live h (fst c)) as [x|] eqn:Lx.
      * destruct (delete_spec h _ false c I') as (h1 & -> & I1 & A1). { apply live_some in Lx. exists x; auto. }
        destruct (IH h1 r I1) as (h2 & -> & I2 & F2). { rewrite (busy_alike _ _ A1). lia. } exists h2.
        assert (FR : frames h h1) by (apply sames_frames, alike_sames; auto). split; [reflexivity|]. split; [assumption|]. eapply frames_trans; eauto.
      * apply IH; [|lia]. eapply inv_weaken; [exact I'| |]. { intros b d H; right; auto. } pose proof (i_w _ _ _ I') as Q. cbn in Q. inversion Q; auto.
Qed.
End User.
