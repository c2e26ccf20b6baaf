(** C29, C30: the position reference generator. *)
From Coq Require Import Reals List Arith Bool Lra Lia.
From Verif Require Import SpecState SpecGeometry SpecReference PosRef.
Import ListNotations.
Local Open Scope R_scope.

Lemma isInRange_spec r t : isInRange r t = true <-> in_range r t.
Proof.
  unfold isInRange, in_range. destruct (anyTime r); cbn; [tauto|].
  destruct Rle_dec, Rle_dec; cbn; split; intros H; auto; try discriminate; destruct H as [H|H]; try discriminate; lra.
Qed.

Lemma find_last_some l t e : find_last l t = Some e <-> last_active l t e.
Proof.
  unfold find_last, last_active. revert e. induction l as [|x l IH] using rev_ind; intros e.
  - cbn. split; [discriminate|]. intros (i & H & _). destruct i; discriminate.
  - rewrite rev_app_distr. cbn [rev app find]. destruct (isInRange (activeRange x) t) eqn:E.
    + split.
      * intros H. injection H as <-. exists (length l). rewrite nth_error_app2, Nat.sub_diag by lia. cbn.
        apply isInRange_spec in E. repeat split; auto.
        intros j e' Hj He. rewrite nth_error_app2 in He by lia. destruct (j - length l)%nat eqn:D; [lia|]. cbn in He. destruct n; discriminate.
      * intros (i & Hi & Hr & Hmax). f_equal.
        destruct (lt_eq_lt_dec i (length l)) as [[C|C]|C].
        -- exfalso. apply (Hmax (length l) x); auto; [|apply isInRange_spec; auto].
           rewrite nth_error_app2, Nat.sub_diag by lia. reflexivity.
        -- subst. rewrite nth_error_app2, Nat.sub_diag in Hi by lia. cbn in Hi. congruence.
        -- rewrite nth_error_app2 in Hi by lia. destruct (i - length l)%nat eqn:D; [lia|]. destruct n; discriminate.
    + rewrite IH. assert (Hx : ~ in_range (activeRange x) t) by (rewrite <- isInRange_spec; congruence). split.
      * intros (i & Hi & Hr & Hmax). exists i. assert (i < length l)%nat by (apply nth_error_Some; congruence).
        rewrite nth_error_app1 by lia. repeat split; auto. intros j e' Hj He.
        destruct (lt_dec j (length l)); [apply (Hmax j e' Hj); rewrite nth_error_app1 in He by lia; auto|].
        rewrite nth_error_app2 in He by lia. destruct (j - length l)%nat as [|[|n0]]; cbn in He; try discriminate. injection He as <-. auto.
      * intros (i & Hi & Hr & Hmax). exists i. destruct (lt_dec i (length l)) as [C|C].
        -- rewrite nth_error_app1 in Hi by lia. repeat split; auto. intros j e' Hj He. apply (Hmax j e' Hj).
           rewrite nth_error_app1; auto. apply nth_error_Some; congruence.
        -- exfalso. rewrite nth_error_app2 in Hi by lia. destruct (i - length l)%nat as [|[|n0]]; cbn in Hi; try discriminate.
           injection Hi as <-. auto.
Qed.
Lemma find_last_none l t : find_last l t = None <-> none_active l t.
Proof.
  unfold find_last, none_active. split.
  - intros H e He Hr. apply isInRange_spec in Hr. apply in_rev in He. pose proof (find_none _ _ H e He). cbn in *. congruence.
  - intros H. destruct (find _ _) as [e|] eqn:E; auto. apply find_some in E as (E1 & E2).
    apply in_rev in E1. exfalso. apply (H e E1). apply isInRange_spec; auto.
Qed.

(** C29: the reference. [dp] is a default constructed position. *)
Theorem C29_reference : forall dp l t,
  (forall e, last_active l t e -> reference_get dp l t = (desiredPosition e, true)) /\
  (none_active l t -> reference_get dp l t = (dp, true)) /\
  ((exists e, last_active l t e) \/ none_active l t).
Proof.
  intros dp l t. unfold reference_get. split; [|split].
  - intros e He. apply find_last_some in He. destruct l; [discriminate|]. rewrite He. reflexivity.
  - intros H. apply find_last_none in H. destruct l; [reflexivity|]. rewrite H. reflexivity.
  - destruct (find_last l t) as [e|] eqn:E; [left; exists e; apply find_last_some; auto | right; apply find_last_none; auto].
Qed.
(** The weight of a proper interval. *)
Theorem C29_weight : forall f l t e, last_active l t e -> anyTime (activeRange e) = false ->
  initTime (activeRange e) < endTime (activeRange e) ->
  exists a, 0 <= a <= 1 /\ t = initTime (activeRange e) + a * (endTime (activeRange e) - initTime (activeRange e)) /\
    weight_get f l t = (Some ((px f * a + 1)^2, (py f * a + 1)^2, (pz f * a + 1)^2), true).
Proof.
  intros f l t e He Hany Hlt.
  assert (Hr : in_range (activeRange e) t) by (destruct He as (? & ? & ? & ?); auto).
  unfold in_range in Hr. rewrite Hany in Hr. destruct Hr as [|Hr]; [discriminate|].
  apply find_last_some in He. unfold weight_get. rewrite He.
  set (i := initTime _) in *. set (en := endTime _) in *.
  exists ((t - i)/(en - i)). destruct Req_EM_T; [lra|]. repeat split.
  - apply Rmult_le_reg_r with (en - i); [lra|]. unfold Rdiv. rewrite Rmult_assoc, Rinv_l by lra. lra.
  - apply Rmult_le_reg_r with (en - i); [lra|]. unfold Rdiv. rewrite Rmult_assoc, Rinv_l by lra. lra.
  - field. lra.
  - f_equal. f_equal. f_equal; [f_equal|]; ring.
Qed.
Theorem C29_weight_zero_iff_inactive : forall f l t, (0 <= px f /\ 0 <= py f /\ 0 <= pz f) ->
  (forall e, In e l -> anyTime (activeRange e) = false /\ initTime (activeRange e) < endTime (activeRange e)) ->
  (weight_get f l t = (Some zero3, true) <-> none_active l t).
Proof.
  intros f l t Hf Hl. split.
  - intros H. apply find_last_none. destruct (find_last l t) as [e|] eqn:E; auto. exfalso.
    pose proof (proj1 (find_last_some l t e) E) as He.
    destruct (Hl e) as (Ha & Hlt). { destruct He as (i & Hi & _). eapply nth_error_In; eauto. }
    destruct (C29_weight f l t e He Ha Hlt) as (a & Ha01 & _ & W). rewrite W in H. injection H. intros _ _ H0.
    assert (1 <= px f * a + 1) by (assert (0 <= px f * a) by (apply Rmult_le_pos; lra); lra).
    assert (px f * a + 1 = 0); [|lra]. nra.
  - intros H. apply find_last_none in H. unfold weight_get. rewrite H. reflexivity.
Qed.
(** With non-negative factors the weight never decreases along a range. *)
Theorem C29_weight_increasing : forall f l t t' e w w',
  (0 <= px f /\ 0 <= py f /\ 0 <= pz f) -> t <= t' -> last_active l t e -> last_active l t' e ->
  anyTime (activeRange e) = false -> initTime (activeRange e) < endTime (activeRange e) ->
  weight_get f l t = (Some w, true) -> weight_get f l t' = (Some w', true) ->
  1 <= px w <= px w' /\ 1 <= py w <= py w' /\ 1 <= pz w <= pz w'.
Proof.
  intros f l t t' e w w' Hf Ht He He' Ha Hlt W W'.
  destruct (C29_weight f l t e He Ha Hlt) as (a & A1 & A2 & A3).
  destruct (C29_weight f l t' e He' Ha Hlt) as (b & B1 & B2 & B3).
  rewrite A3 in W. rewrite B3 in W'. injection W as <-. injection W' as <-. cbn [px py pz fst snd].
  assert (a <= b). { apply Rmult_le_reg_r with (endTime (activeRange e) - initTime (activeRange e)); lra. }
  assert (M : forall k, 0 <= k -> 1 <= (k * a + 1)^2 <= (k * b + 1)^2).
  { intros k Hk. assert (0 <= k * a) by (apply Rmult_le_pos; lra).
    assert (k * a <= k * b) by (apply Rmult_le_compat_l; lra). split; nra. }
  destruct Hf as (F0 & F1 & F2). pose proof (M _ F0). pose proof (M _ F1). pose proof (M _ F2). lra.
Qed.
(** Finding: a range of zero length that contains the time divides by zero. *)
Theorem C29_instant_range_divides_by_zero : forall f l t e, last_active l t e ->
  initTime (activeRange e) = endTime (activeRange e) -> fst (weight_get f l t) = None.
Proof.
  intros f l t e He Heq. apply find_last_some in He. unfold weight_get. rewrite He. cbn [fst].
  destruct Req_EM_T; auto; lra.
Qed.
Definition l_ex : list timed := [mkTimed (1,2,3) (mkRange 0 2 false); mkTimed (4,5,6) (mkRange 1 3 false)].
Example C29_example : last_active l_ex 1.5 (mkTimed (4,5,6) (mkRange 1 3 false)) /\ none_active l_ex 4 /\
  last_active l_ex 0.5 (mkTimed (1,2,3) (mkRange 0 2 false)).
Proof.
  unfold l_ex. split; [|split].
  - exists 1%nat. repeat split; [right; cbn; lra|]. intros j e' Hj H. destruct j as [|[|[|]]]; try lia; discriminate.
  - intros e [<-|[<-|[]]] [H|H]; cbn in H; try discriminate; lra.
  - exists 0%nat. repeat split; [right; cbn; lra|]. intros j e' Hj H. destruct j as [|[|[|]]]; try lia; try discriminate.
    injection H as <-. intros [H|H]; cbn in H; try discriminate; lra.
Qed.
Print Assumptions C29_reference.
Print Assumptions C29_weight.
Print Assumptions C29_weight_zero_iff_inactive.
Print Assumptions C29_weight_increasing.

(** C30.  The list of elements of a generator after a history of edits, written
    without any sharing. *)
Definition edit (l : list timed) (o : op) : list timed :=
  match o with
  | Init n _ => repeat zeroElement n
  | Write i e => replace_nth i e l
  | Resize n => resized n zeroElement l
  end.
Definition contents (l0 : list timed) (ops : list op) : list timed := fold_left edit ops l0.
Definition legal1 (l : list timed) (o : op) : Prop := match o with Write i _ => (i < length l)%nat | _ => True end.
Fixpoint legal (l : list timed) (ops : list op) : Prop :=
  match ops with [] => True | o :: r => legal1 l o /\ legal (edit l o) r end.
(** The edits made before the next init. *)
Fixpoint until_init (ops : list op) : list op :=
  match ops with Init _ _ :: _ => [] | o :: r => o :: until_init r | [] => [] end.

Definition wf (w : world) : Prop := (g_data (snd w) < length (fst w))%nat /\
  (forall o, g_weight (snd w) = Some o -> w_data o = g_data (snd w)) /\
  (forall o, g_position (snd w) = Some o -> p_data o = g_data (snd w)).
Lemma replace_length {A} i (a : A) l : length (replace_nth i a l) = length l.
Proof. revert i. induction l; intros [|i]; cbn; auto. Qed.
Lemma nth_replace_same {A} i (a d : A) l : (i < length l)%nat -> nth i (replace_nth i a l) d = a.
Proof. revert i. induction l; intros [|i] H; cbn in *; try lia; auto. apply IHl. lia. Qed.
Lemma nth_replace_other {A} i j (a d : A) l : i <> j -> nth j (replace_nth i a l) d = nth j l d.
Proof. revert i j. induction l; intros [|i] [|j] H; cbn; auto; try lia. Qed.

Definition cur (w : world) : list timed := heap_get (fst w) (g_data (snd w)).
Lemma step_ok w o : wf w ->
  (legal1 (cur w) o -> exists w', step w o = Some w' /\ wf w' /\ cur w' = edit (cur w) o /\
     (length (fst w) <= length (fst w'))%nat /\
     (forall d, (d < length (fst w))%nat -> d <> g_data (snd w) -> heap_get (fst w') d = heap_get (fst w) d) /\
     match o with
     | Init _ _ => (forall d, (d < length (fst w))%nat -> heap_get (fst w') d = heap_get (fst w) d) /\ (length (fst w) <= g_data (snd w'))%nat
     | _ => snd w' = snd w
     end) /\
  (~ legal1 (cur w) o -> step w o = None).
Proof.
  destruct w as [h g]. intros (H1 & H2 & H3). unfold cur in *. cbn [fst snd] in *. destruct o as [n f|i e|n]; cbn [legal1 step edit].
  - split; [|tauto]. intros _. eexists. split; [reflexivity|]. cbn [init fst snd g_data].
    assert (E : forall d, (d < length h)%nat -> heap_get (h ++ [repeat zeroElement n]) d = heap_get h d).
    { intros d Hd. unfold heap_get. apply app_nth1. auto. }
    repeat split; cbn [fst snd g_data g_weight g_position]; try rewrite app_length; cbn [length]; try lia; auto.
    + intros o Ho. injection Ho as <-. reflexivity.
    + intros o Ho. injection Ho as <-. reflexivity.
    + unfold heap_get. rewrite app_nth2, Nat.sub_diag by lia. reflexivity.
  - unfold write_at. destruct (Nat.ltb_spec i (length (heap_get h (g_data g)))); split; intros L; try lia; auto.
    eexists. split; [reflexivity|]. cbn [fst snd]. unfold wf. cbn [fst snd]. rewrite replace_length.
    repeat split; auto; try (intros; unfold heap_get; apply nth_replace_other; lia).
    unfold heap_get at 1. apply nth_replace_same. auto.
  - split; [|tauto]. intros _. eexists. split; [reflexivity|]. cbn [resize fst snd]. unfold wf. cbn [fst snd]. rewrite replace_length.
    repeat split; auto; try (intros; unfold heap_get; apply nth_replace_other; lia).
    unfold heap_get at 1. apply nth_replace_same. auto.
Qed.

Lemma run_ok w ops : wf w -> legal (cur w) ops ->
  exists w', run w ops = Some w' /\ wf w' /\ cur w' = contents (cur w) ops.
Proof.
  revert w. induction ops as [|o ops IH]; intros w Hw Hl; cbn [run].
  - exists w. auto.
  - destruct Hl as (L1 & L2). destruct (proj1 (step_ok w o Hw) L1) as (w' & E & Hw' & C & _).
    rewrite E. destruct (IH w' Hw') as (w'' & ? & ? & ?); [rewrite C; auto|].
    exists w''. split; [auto|split; [auto|]]. unfold contents. cbn [fold_left]. rewrite <- C. auto.
Qed.
Lemma run_illegal w ops : wf w -> ~ legal (cur w) ops -> run w ops = None.
Proof.
  revert w. induction ops as [|o ops IH]; intros w Hw Hl; cbn [run legal] in *; [tauto|].
  assert (D : legal1 (cur w) o \/ ~ legal1 (cur w) o).
  { destruct o as [| i e |]; cbn; auto. destruct (lt_dec i (length (cur w))); auto. }
  destruct D as [D|D].
  - destruct (proj1 (step_ok w o Hw) D) as (w' & E & Hw' & C & _). rewrite E. apply IH; auto. rewrite C. tauto.
  - rewrite (proj2 (step_ok w o Hw) D). reflexivity.
Qed.
Lemma run_old w ops w' d : wf w -> run w ops = Some w' -> (d < length (fst w))%nat -> d <> g_data (snd w) ->
  heap_get (fst w') d = heap_get (fst w) d.
Proof.
  revert w. induction ops as [|o ops IH]; intros w Hw Hr Hd Hne; cbn [run] in Hr; [congruence|].
  destruct (step w o) as [w1|] eqn:E; [|discriminate].
  assert (D : legal1 (cur w) o). { destruct o; cbn; auto. destruct (lt_dec i (length (cur w))) as [|n]; auto.
    rewrite (proj2 (step_ok w (Write i e) Hw) n) in E. discriminate. }
  destruct (proj1 (step_ok w o Hw) D) as (w1' & E' & Hw1 & C & Hlen & Hold & Hg). rewrite E in E'. injection E' as <-.
  rewrite (IH w1 Hw1 Hr); [apply Hold; auto | lia |]. destruct o; [lia | rewrite Hg; auto | rewrite Hg; auto].
Qed.
Lemma run_handle w ops w' : wf w -> run w ops = Some w' ->
  heap_get (fst w') (g_data (snd w)) = contents (cur w) (until_init ops).
Proof.
  revert w. induction ops as [|o ops IH]; intros w Hw Hr; cbn [run] in Hr.
  - injection Hr as <-. reflexivity.
  - destruct (step w o) as [w1|] eqn:E; [|discriminate].
    assert (D : legal1 (cur w) o). { destruct o; cbn; auto. destruct (lt_dec i (length (cur w))) as [|n]; auto.
      rewrite (proj2 (step_ok w (Write i e) Hw) n) in E. discriminate. }
    destruct (proj1 (step_ok w o Hw) D) as (w1' & E' & Hw1 & C & Hlen & Hold & Hg). rewrite E in E'. injection E' as <-.
    destruct o as [n f|i e|n]; cbn [until_init].
    + destruct Hg as (Hg1 & Hg2). rewrite (run_old w1 ops w' (g_data (snd w)) Hw1 Hr).
      * rewrite Hg1; [reflexivity|]. apply Hw.
      * destruct Hw. lia.
      * destruct Hw. lia.
    + rewrite <- Hg. rewrite (IH w1 Hw1 Hr). unfold contents. cbn [fold_left]. rewrite <- C. reflexivity.
    + rewrite <- Hg. rewrite (IH w1 Hw1 Hr). unfold contents. cbn [fold_left]. rewrite <- C. reflexivity.
Qed.

Lemma wf_newInit n f : wf (newInit n f).
Proof. repeat split; cbn; intros; try (injection H as <-); auto. Qed.
Lemma wf_newDefault : wf newDefault.
Proof. repeat split; cbn; intros; try discriminate; auto. Qed.

(** Every history from a constructed generator: it is defined exactly when no
    access is out of bounds; the objects handed out after [ops1] (if any) see the
    edits of [ops2] up to the next init, and none after it, whatever [ops2]. *)
Theorem C30_shared_elements : forall n f ops1 ops2 w1 w2 p q,
  run (newInit n f) ops1 = Some w1 -> run w1 ops2 = Some w2 ->
  g_position (snd w1) = Some p -> g_weight (snd w1) = Some q ->
  let seen := contents (contents (repeat zeroElement n) ops1) (until_init ops2) in
  (forall dp t, query_reference dp w2 p t = reference_get dp seen t) /\
  (forall t, query_weight w2 q t = weight_get (w_factors q) seen t).
Proof.
  intros n f ops1 ops2 w1 w2 p q R1 R2 Hp Hq seen.
  assert (L : legal (repeat zeroElement n) ops1 \/ ~ legal (repeat zeroElement n) ops1).
  { clear. generalize (repeat zeroElement n). induction ops1 as [|o ops IH]; intros l; cbn; auto.
    assert (D : legal1 l o \/ ~ legal1 l o).
    { destruct o as [|i e|]; cbn; auto. destruct (lt_dec i (length l)); auto. }
    specialize (IH (edit l o)). tauto. }
  change (repeat zeroElement n) with (cur (newInit n f)) in L.
  destruct L as [L|L]; [|rewrite (run_illegal _ _ (wf_newInit n f) L) in R1; discriminate].
  destruct (run_ok _ _ (wf_newInit n f) L) as (w' & R1' & Hw1 & C). rewrite R1 in R1'. injection R1' as <-.
  pose proof (run_handle w1 ops2 w2 Hw1 R2) as H. rewrite C in H. destruct Hw1 as (_ & Wq & Wp).
  specialize (Wq _ Hq). specialize (Wp _ Hp).
  split; intros; unfold query_reference, query_weight; rewrite ?Wp, ?Wq, H; reflexivity.
Qed.
Theorem C30_defined_iff_in_bounds : forall n f ops,
  (exists w, run (newInit n f) ops = Some w) <-> legal (repeat zeroElement n) ops.
Proof.
  intros. change (repeat zeroElement n) with (cur (newInit n f)). split.
  - intros (w & R). 
    assert (D : forall l, legal l ops \/ ~ legal l ops).
    { clear. induction ops as [|o ops IH]; intros l; cbn; auto.
      assert (D : legal1 l o \/ ~ legal1 l o).
      { destruct o as [|i e|]; cbn; auto. destruct (lt_dec i (length l)); auto. }
      specialize (IH (edit l o)). tauto. }
    destruct (D (cur (newInit n f))) as [|L]; auto. rewrite (run_illegal _ _ (wf_newInit n f) L) in R. discriminate.
  - intros L. destruct (run_ok _ _ (wf_newInit n f) L) as (w & ? & _). exists w. auto.
Qed.
(** Reading back through the generator. *)
Theorem C30_read_back : forall n f ops w i, run (newInit n f) ops = Some w ->
  read_at w i = nth_error (contents (repeat zeroElement n) ops) i.
Proof.
  intros n f ops w i R.
  change (repeat zeroElement n) with (cur (newInit n f)).
  assert (L : legal (cur (newInit n f)) ops) by (apply (C30_defined_iff_in_bounds n f ops); exists w; auto).
  destruct (run_ok _ _ (wf_newInit n f) L) as (w' & R' & _ & C). rewrite R in R'. injection R' as <-.
  unfold read_at. fold (cur w). rewrite C. reflexivity.
Qed.
(** Finding: a default constructed generator hands out null objects until init. *)
Theorem C30_default_constructed_has_no_objects : forall ops w, (forall n f, ~ In (Init n f) ops) ->
  run newDefault ops = Some w -> g_position (snd w) = None /\ g_weight (snd w) = None.
Proof.
  intros ops. assert (G : forall w0 w, (forall n f, ~ In (Init n f) ops) -> run w0 ops = Some w -> snd w = snd w0).
  { induction ops as [|o ops IH]; intros w0 w Hn R; cbn [run] in R; [congruence|].
    destruct (step w0 o) as [w1|] eqn:E; [|discriminate].
    rewrite (IH w1 w); auto. 2: { intros n f H. apply (Hn n f). right; auto. }
    destruct w0 as [h g], o as [n f|i e|n]; cbn [step write_at resize] in E.
    - exfalso. apply (Hn n f). left; auto.
    - destruct (Nat.ltb _ _); [|discriminate]. inversion E; subst; reflexivity.
    - inversion E; subst; reflexivity. }
  intros w Hn R. rewrite (G newDefault w Hn R). auto.
Qed.
Example C30_example : legal (repeat zeroElement 2) [Write 1 zeroElement; Resize 5; Write 4 zeroElement; Init 1 (0,0,0); Write 0 zeroElement].
Proof. cbn. repeat split; lia. Qed.
Print Assumptions C30_shared_elements.
Print Assumptions C30_defined_iff_in_bounds.
Print Assumptions C30_read_back.
