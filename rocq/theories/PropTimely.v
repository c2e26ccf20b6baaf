(** C38: the kinematics of the closest time knot. *)
From Coq Require Import Reals List Arith Bool Lra Lia.
From Verif Require Import SpecTimely Timely.
Import ListNotations.
Local Open Scope R_scope.

Section Search.
Variable tol : R.
Variable ts : list R.
Hypothesis Htol : 0 < tol.

Lemma at_in : forall i k, (i < length ts)%nat -> exists t, nth_error ts i = Some t /\ at_ ts i k = k (Some t).
Proof.
  intros i k H. unfold at_. destruct (nth_error ts i) eqn:E.
  - eexists; split; reflexivity.
  - apply nth_error_None in E; lia.
Qed.
Lemma checkEq : forall t a, checkDoublesAreEqual tol (Some t) (Some a) = true -> Rabs (t - a) < tol.
Proof. intros t a; unfold checkDoublesAreEqual, minus_n. destruct (Rlt_dec (Rabs (t - a)) tol); intros; [assumption | discriminate]. Qed.
Lemma ltn : forall a b, lt_n (Some a) (Some b) = true <-> a < b.
Proof. intros; unfold lt_n; destruct (Rlt_dec a b); split; intros; try lra; try reflexivity; discriminate. Qed.
Lemma ltn_f : forall a b, lt_n (Some a) (Some b) = false <-> b <= a.
Proof. intros; unfold lt_n; destruct (Rlt_dec a b); split; intros; try lra; try reflexivity; discriminate. Qed.
Lemma len_ : forall a b, le_n (Some a) (Some b) = true <-> a <= b.
Proof. intros; unfold le_n; destruct (Rle_dec a b); split; intros; try lra; try reflexivity; discriminate. Qed.
Lemma len_f : forall a b, le_n (Some a) (Some b) = false <-> b < a.
Proof. intros; unfold le_n; destruct (Rle_dec a b); split; intros; try lra; try reflexivity; discriminate. Qed.

Definition good (t : R) (o : outcome) : Prop := exists i, o = Idx i /\ (i < length ts)%nat /\
  (sorted ts -> nearest ts t i \/ within tol ts t i).

Lemma nth_bound : forall i (a : R), nth_error ts i = Some a -> (i < length ts)%nat.
Proof. intros; apply nth_error_Some; congruence. Qed.

(** Between two consecutive knots, the nearer of the two is the nearest. *)
Lemma between : forall t k a b, sorted ts -> nth_error ts k = Some a -> nth_error ts (k + 1) = Some b -> a <= t <= b ->
  forall i, i = (if le_n (Some (b - t)) (Some (t - a)) then (k + 1)%nat else k) -> nearest ts t i.
Proof.
  intros t k a b S Ha Hb Ht i Hi.
  assert (F : forall j tj, nth_error ts j = Some tj -> tj <= a \/ b <= tj).
  { intros j tj Hj. destruct (le_lt_dec j k); [left; eapply S; eassumption | right; eapply (S (k+1)%nat j); [lia | eassumption..]]. }
  destruct (le_n (Some (b - t)) (Some (t - a))) eqn:E; [apply len_ in E | apply len_f in E]; subst i.
  - exists b; split; [assumption|]. intros j tj Hj. rewrite (Rabs_left1 (t - b)) by lra.
    destruct (F j tj Hj); [rewrite Rabs_right by lra | rewrite Rabs_left1 by lra]; lra.
  - exists a; split; [assumption|]. intros j tj Hj. rewrite (Rabs_right (t - a)) by lra.
    destruct (F j tj Hj); [rewrite Rabs_right by lra | rewrite Rabs_left1 by lra]; lra.
Qed.

(** The loop: knots [i] and [j - 1] bracket the time. *)
Lemma bsearch_good : forall fuel t i j mid, (j - i < fuel)%nat -> (j <= length ts)%nat ->
  (forall a, nth_error ts 0 = Some a -> a < t) -> (forall a, nth_error ts (length ts - 1) = Some a -> t < a) ->
  (sorted ts -> (i < j)%nat /\ (forall a, nth_error ts i = Some a -> a <= t) /\ (forall a, nth_error ts (j - 1) = Some a -> t <= a)) ->
  (mid < length ts)%nat ->
  good t (bsearch tol ts fuel (Some t) i j mid).
Proof.
  induction fuel as [|f IH]; intros t i j mid F HJ H0 HL Inv HM; [lia|].
  cbn [bsearch]. destruct (Nat.ltb i j) eqn:EIJ.
  2:{ exists mid; split; [reflexivity|]; split; [assumption|]. intros S. apply Nat.ltb_ge in EIJ. destruct (Inv S); lia. }
  apply Nat.ltb_lt in EIJ. cbv zeta. set (m := Nat.div (i + j) 2).
  assert (M : (i <= m < j)%nat).
  { unfold m; pose proof (Nat.div_mod (i + j) 2 ltac:(lia)); pose proof (Nat.mod_upper_bound (i + j) 2 ltac:(lia)); lia. }
  match goal with |- good t (at_ ts m ?k) => destruct (at_in m k ltac:(lia)) as [tm [Em ->]] end.
  destruct (checkDoublesAreEqual tol (Some t) (Some tm)) eqn:EC.
  { apply checkEq in EC. exists m; split; [reflexivity|]; split; [lia|]; intros _; right; exists tm; split; assumption. }
  destruct (lt_n (Some t) (Some tm)) eqn:EL.
  - apply ltn in EL. destruct m as [|m'] eqn:EM.
    { exfalso. specialize (H0 _ Em). lra. }
    cbn [pred_at].
    match goal with |- good t (at_ ts m' ?k) => destruct (at_in m' k ltac:(lia)) as [tp [Ep ->]] end.
    destruct (lt_n (Some tp) (Some t)) eqn:EP.
    + apply ltn in EP. eexists; split; [reflexivity|].
      split; [destruct (le_n _ _); lia|].
      intros S; left. eapply (between t m' tp tm S Ep); [replace (m' + 1)%nat with (Datatypes.S m') by lia; exact Em | lra|].
      unfold minus_n; destruct (le_n _ _); lia.
    + apply ltn_f in EP. apply IH; [lia | lia | assumption | assumption | | lia].
      intros S. destruct (Inv S) as (I1 & I2 & I3).
      assert (Hlt : (i < Datatypes.S m')%nat).
      { destruct (Nat.eq_dec i (Datatypes.S m')) as [E|]; [exfalso; specialize (I2 tm); rewrite E in I2; specialize (I2 Em); lra | lia]. }
      split; [exact Hlt|]. split; [exact I2|].
      replace (Datatypes.S m' - 1)%nat with m' by lia. intros a Ha; rewrite Ha in Ep; inversion Ep; lra.
  - apply ltn_f in EL.
    assert (ML : (m + 1 < length ts)%nat).
    { destruct (Nat.eq_dec m (length ts - 1)) as [E|]; [exfalso; specialize (HL tm); rewrite <- E in HL; specialize (HL Em); lra | lia]. }
    match goal with |- good t (at_ ts (m + 1) ?k) => destruct (at_in (m + 1) k ML) as [tn [En ->]] end.
    destruct (lt_n (Some t) (Some tn)) eqn:EN.
    + apply ltn in EN. eexists; split; [reflexivity|].
      split; [destruct (le_n _ _); lia|].
      intros S; left. eapply (between t m tm tn S Em En); [lra|]. unfold minus_n; reflexivity.
    + apply ltn_f in EN. apply IH; [lia | lia | assumption | assumption | | lia].
      intros S. destruct (Inv S) as (I1 & I2 & I3).
      assert (Hlt : (m + 1 < j)%nat).
      { destruct (Nat.eq_dec (m + 1) j) as [E|]; [|lia]. exfalso.
        specialize (I3 tm). replace (j - 1)%nat with m in I3 by lia. specialize (I3 Em).
        (* time = tm is caught by the equality test *)
        unfold checkDoublesAreEqual, minus_n in EC. destruct (Rlt_dec (Rabs (t - tm)) tol) as [|N]; [discriminate|].
        apply N. replace (t - tm) with 0 by lra. rewrite Rabs_R0. exact Htol. }
      split; [exact Hlt|]. split; [intros a Ha; rewrite Ha in En; inversion En; lra | exact I3].
Qed.

(** For every non-empty list of knots, every finite time and whatever the previous index:
    the search ends, with an index in the list. *)
Lemma getClosest_good : forall t prev, ts <> [] -> (prev < length ts)%nat -> good t (getClosestIndex tol ts prev (Some t)).
Proof.
  intros t prev N P. unfold getClosestIndex.
  assert (L : (0 < length ts)%nat) by (destruct ts; [congruence | cbn [length]; lia]).
  match goal with |- good t (at_ ts 0 ?k) => destruct (at_in 0 k L) as [t0 [E0 ->]] end.
  destruct (le_n (Some t) (Some t0)) eqn:C0.
  { apply len_ in C0. exists 0%nat; split; [reflexivity|]; split; [assumption|]. intros S; left. exists t0; split; [assumption|].
    intros j tj Hj. pose proof (S 0%nat j t0 tj ltac:(lia) E0 Hj). rewrite !Rabs_left1 by lra; lra. }
  apply len_f in C0.
  match goal with |- good t (at_ ts _ ?k) => destruct (at_in (length ts - 1) k ltac:(lia)) as [tl [El ->]] end.
  destruct (le_n (Some tl) (Some t)) eqn:CL.
  { apply len_ in CL. exists (length ts - 1)%nat; split; [reflexivity|]; split; [lia|]. intros S; left. exists tl; split; [assumption|].
    intros j tj Hj. pose proof (nth_bound _ _ Hj). pose proof (S j (length ts - 1)%nat tj tl ltac:(lia) Hj El). rewrite !Rabs_right by lra; lra. }
  apply len_f in CL.
  match goal with |- good t (at_ ts prev ?k) => destruct (at_in prev k P) as [tp [Ep ->]] end.
  destruct (checkDoublesAreEqual tol (Some t) (Some tp)) eqn:CP.
  { apply checkEq in CP. exists prev; split; [reflexivity|]; split; [assumption|]. intros _; right; exists tp; split; assumption. }
  cbv zeta.
  assert (G : good t (bsearch tol ts (S (length ts)) (Some t) 0 (length ts) 0)).
  { apply bsearch_good; [lia | lia | intros a Ha; rewrite Ha in E0; inversion E0; lra
      | intros a Ha; rewrite Ha in El; inversion El; lra | | assumption].
    intros _. split; [assumption|]. split; intros a Ha; [rewrite Ha in E0; inversion E0; lra | rewrite Ha in El; inversion El; lra]. }
  destruct (Nat.ltb (prev + 1) (length ts)) eqn:CN; [|exact G].
  apply Nat.ltb_lt in CN.
  match goal with |- good t (at_ ts _ ?k) => destruct (at_in (prev + 1) k CN) as [tn [En ->]] end.
  destruct (checkDoublesAreEqual tol (Some t) (Some tn)) eqn:CQ; [|exact G].
  apply checkEq in CQ. exists (prev + 1)%nat; split; [reflexivity|]; split; [assumption|]. intros _; right; exists tn; split; assumption.
Qed.
End Search.

(** ** C38 *)
(** The index search: for every list of knots (sorted or not), every finite time and every
    previous index inside the list, it terminates with an index of the list; when the list
    is sorted the index is of a nearest knot, or of one closer than the tolerance. *)
Theorem C38_closest_index : forall tol ts prev t, 0 < tol -> ts <> [] -> (prev < length ts)%nat ->
  exists i, getClosestIndex tol ts prev (Some t) = Idx i /\ (i < length ts)%nat /\
    (sorted ts -> nearest ts t i \/ within tol ts t i).
Proof. intros tol ts prev t T N P. apply (getClosest_good tol ts T t prev N P). Qed.

(** Away from the knots by more than the tolerance the answer is a nearest knot. *)
Corollary C38_nearest_unless_within_tolerance : forall tol ts prev t, 0 < tol -> ts <> [] -> (prev < length ts)%nat ->
  sorted ts -> (forall k, In k ts -> tol <= Rabs (t - k)) ->
  exists i, getClosestIndex tol ts prev (Some t) = Idx i /\ nearest ts t i.
Proof.
  intros tol ts prev t T N P S A. destruct (C38_closest_index tol ts prev t T N P) as (i & E & L & G).
  exists i; split; [exact E|]. destruct (G S) as [H | (ti & E1 & H)]; [exact H|].
  apply nth_error_In in E1. specialize (A ti E1). lra.
Qed.
(** If the knots are further apart than twice the tolerance, the answer is a nearest knot without exception. *)
Theorem C38_nearest_for_separated_knots : forall tol ts prev t, 0 < tol -> ts <> [] -> (prev < length ts)%nat ->
  sorted ts -> (forall i j a b, i <> j -> nth_error ts i = Some a -> nth_error ts j = Some b -> 2 * tol <= Rabs (a - b)) ->
  exists i, getClosestIndex tol ts prev (Some t) = Idx i /\ nearest ts t i.
Proof.
  intros tol ts prev t T N P S A. destruct (C38_closest_index tol ts prev t T N P) as (i & E & L & G).
  exists i; split; [exact E|]. destruct (G S) as [H | (ti & E1 & H)]; [exact H|].
  exists ti; split; [exact E1|]. intros j tj Hj. destruct (Nat.eq_dec i j) as [->|D].
  - rewrite E1 in Hj; inversion Hj; lra.
  - pose proof (A i j ti tj D E1 Hj) as K. revert H K. unfold Rabs. repeat destruct (Rcase_abs _); lra.
Qed.

(** *** Histories of the object *)
Inductive op := SetTimings (valid : bool) (l : list R) | Get (t : R).
Definition times (o : timely) : list R := map fst (m_pointerContainer o).
Definition objects (o : timely) : list nat := map snd (m_pointerContainer o).
(** [None]: a read outside the container happened. *)
Fixpoint exec (tol : R) (o : timely) (l : list op) : option timely :=
  match l with
  | [] => Some o
  | SetTimings v ts :: r => exec tol (fst (setTimings v ts o)) r
  | Get t :: r => match get tol (Some t) o with Some (o', _) => exec tol o' r | None => None end
  end.
(** What the container holds after setting the timings: the new ones, then the ones of the
    earlier calls beyond their number. *)
Lemma assign_times : forall ts c n, map fst (fst (assign ts c n)) = ts ++ skipn (length ts) (map fst c).
Proof.
  induction ts as [|t ts IH]; intros c n; cbn [assign length skipn app]; [reflexivity|].
  destruct c as [|[x p] c]; [specialize (IH [] (S n)); destruct (assign ts [] (S n)) | specialize (IH c n); destruct (assign ts c n)];
    cbn [fst map] in *; rewrite IH; [rewrite skipn_nil|]; reflexivity.
Qed.
Lemma assign_objects : forall ts c n extra c' n', assign ts c n = (c', n') -> extra = (length ts - length c)%nat ->
  map snd c' = map snd c ++ seq n extra /\ n' = (n + extra)%nat.
Proof.
  induction ts as [|t ts IH]; intros c n extra c' n' E X; cbn [assign length] in *.
  - inversion E; subst. rewrite app_nil_r; split; [reflexivity | lia].
  - destruct c as [|[x p] c].
    + destruct (assign ts [] (S n)) as [c2 n2] eqn:A. inversion E; subst.
      destruct (IH [] (S n) (length ts) c2 n' A ltac:(cbn [length]; lia)) as [B1 B2].
      cbn [map app] in B1. cbn [length]; rewrite Nat.sub_0_r. cbn [map snd app seq]. split; [f_equal; exact B1 | lia].
    + destruct (assign ts c n) as [c2 n2] eqn:A. inversion E; subst.
      destruct (IH c n (length ts - length c)%nat c2 n' A eq_refl) as [B1 B2].
      cbn [map snd length app]. split; [f_equal; exact B1 | exact B2].
Qed.

(** The invariant of every history: the previous index is inside the container, and
    kinematics object [k + 1] belongs to knot [k], for ever. *)
Definition inv (o : timely) : Prop :=
  (m_pointerContainer o = [] \/ (m_previousIndex o < length (m_pointerContainer o))%nat) /\
  objects o = seq 1 (length (m_pointerContainer o)) /\ nextObject o = S (length (m_pointerContainer o)) /\
  (m_pointerContainer o <> [] -> m_timingsSet o = true) /\
  (m_pointerContainer o = [] -> m_previousIndex o = 0%nat).
Lemma inv_new : inv timely_new.
Proof. unfold inv, timely_new, objects; cbn. repeat split; auto; congruence. Qed.
Lemma inv_setTimings : forall v ts o, inv o -> inv (fst (setTimings v ts o)).
Proof.
  intros v ts o (I1 & I2 & I3 & I4 & I5). unfold setTimings. destruct v; [|repeat split; assumption]. cbn [negb].
  destruct (assign ts (m_pointerContainer o) (nextObject o)) as [c n] eqn:A.
  destruct (assign_objects _ _ _ _ _ _ A eq_refl) as [B1 B2].
  cbn [fst]. unfold inv, objects; cbn [m_pointerContainer m_previousIndex m_timingsSet nextObject].
  assert (LC : length c = (length (m_pointerContainer o) + (length ts - length (m_pointerContainer o)))%nat).
  { rewrite <- (map_length snd c), B1, app_length, map_length, seq_length; reflexivity. }
  split; [|split; [|split; [|split]]].
  - destruct I1 as [E|L]; [|right; lia]. rewrite (I5 E). destruct c; [now left | right; cbn [length]; lia].
  - rewrite B1. unfold objects in I2; rewrite I2, I3, LC.
    rewrite seq_app. f_equal.
  - rewrite B2, I3, LC. lia.
  - reflexivity.
  - intros E; apply I5. rewrite E in LC; cbn [length] in LC. destruct (m_pointerContainer o); [reflexivity | cbn [length] in LC; lia].
Qed.
Lemma inv_get : forall tol o t, 0 < tol -> inv o ->
  (m_timingsSet o = true /\ m_pointerContainer o = [] /\ get tol (Some t) o = None) \/
  (m_timingsSet o = false /\ get tol (Some t) o = Some (o, 0%nat)) \/
  (exists i, (i < length (m_pointerContainer o))%nat /\ get tol (Some t) o = Some (mkTimely (m_pointerContainer o) true i (nextObject o), S i) /\
     (sorted (times o) -> nearest (times o) t i \/ within tol (times o) t i)).
Proof.
  intros tol o t T (I1 & I2 & I3 & I4 & I5). unfold get.
  destruct (m_timingsSet o) eqn:ES; [|right; left; split; reflexivity].
  destruct (m_pointerContainer o) as [|k c] eqn:EC; [left; split; [reflexivity|]; split; reflexivity|]. right; right.
  rewrite <- EC in *.
  destruct (C38_closest_index tol (map fst (m_pointerContainer o)) (m_previousIndex o) t T) as (i & E & L & G).
  - rewrite EC; discriminate.
  - rewrite map_length. destruct I1 as [H|H]; [rewrite H in EC; discriminate | exact H].
  - rewrite map_length in L. exists i; split; [exact L|]. rewrite E.
    destruct (nth_error (m_pointerContainer o) i) as [[ti p]|] eqn:EN; [|apply nth_error_None in EN; lia].
    split; [|exact G].
    assert (P : nth_error (objects o) i = Some p) by (unfold objects; apply (map_nth_error snd) in EN; exact EN).
    rewrite I2 in P. apply nth_error_nth with (d := 0%nat) in P. rewrite seq_nth in P by exact L. subst p. reflexivity.
Qed.
Lemma inv_exec : forall tol l o o', 0 < tol -> inv o -> exec tol o l = Some o' -> inv o'.
Proof.
  induction l as [|a l IH]; intros o o' T I E; cbn [exec] in E.
  - inversion E; subst; exact I.
  - destruct a as [v ts|t].
    + apply (IH _ _ T (inv_setTimings v ts o I) E).
    + destruct (inv_get tol o t T I) as [(_ & _ & G) | [(_ & G) | (i & L & G & _)]]; rewrite G in E; [discriminate| |].
      * apply (IH _ _ T I E).
      * apply (IH _ _ T) in E; [exact E|]. destruct I as (I1 & I2 & I3 & I4 & I5).
        unfold inv, objects; cbn [m_pointerContainer m_previousIndex m_timingsSet nextObject].
        repeat split; try assumption; [right; exact L|]. intros H; rewrite H in L; cbn [length] in L; lia.
Qed.
(** Whatever the history, a query at a finite time: before the timings are set it returns the
    template; afterwards, with at least one knot ever set, it returns the object of knot [i]
    (object [i + 1], created once), nearest in the container if this is sorted; it reads
    outside the container only when every timings vector was empty. *)
Theorem C38_history : forall tol l o t, 0 < tol -> exec tol timely_new l = Some o ->
  (m_timingsSet o = false /\ get tol (Some t) o = Some (o, 0%nat)) \/
  (m_timingsSet o = true /\ times o = [] /\ get tol (Some t) o = None) \/
  (exists i o', (i < length (times o))%nat /\ get tol (Some t) o = Some (o', S i) /\ times o' = times o /\
     (sorted (times o) -> nearest (times o) t i \/ within tol (times o) t i)).
Proof.
  intros tol l o t T E. pose proof (inv_exec tol l _ _ T inv_new E) as I.
  destruct (inv_get tol o t T I) as [(A & B & G) | [H | (i & L & G & S)]].
  - right; left. unfold times; rewrite B. repeat split; assumption.
  - now left.
  - right; right. exists i. eexists. unfold times in *; rewrite map_length. split; [exact L|]. split; [exact G|]. split; [reflexivity | exact S].
Qed.
(** Setting the timings: the knots become the given ones followed by what earlier, longer
    timings left behind. *)
Theorem C38_timings_stored : forall ts o,
  times (fst (setTimings true ts o)) = ts ++ skipn (length ts) (times o).
Proof.
  intros ts o; unfold setTimings; cbn [negb]. pose proof (assign_times ts (m_pointerContainer o) (nextObject o)) as H.
  destruct (assign ts (m_pointerContainer o) (nextObject o)); exact H.
Qed.
Corollary C38_timings_exact_if_not_fewer : forall ts o, (length (times o) <= length ts)%nat ->
  times (fst (setTimings true ts o)) = ts.
Proof. intros ts o H; rewrite C38_timings_stored, skipn_all2 by exact H; apply app_nil_r. Qed.
Theorem C38_failed_timings_change_nothing : forall ts o, setTimings false ts o = (o, false).
Proof. reflexivity. Qed.

Lemma sorted_cons : forall a l, Forall (fun b => a <= b) l -> sorted l -> sorted (a :: l).
Proof.
  intros a l F S [|i] [|j] x y H X Y; cbn [nth_error] in *; try lia.
  - inversion X; inversion Y; lra.
  - inversion X; subst. rewrite Forall_forall in F. apply F. eapply nth_error_In; exact Y.
  - eapply (S i j); [lia | eassumption..].
Qed.
Lemma sorted_nil : sorted [].
Proof. intros i j a b H A; destruct i; discriminate. Qed.
(** Findings. *)
(** Fewer timings than before: stale knots stay, and a query beyond the last timing is
    answered with the object of a knot that is not among the timings. *)
Theorem C38_stale_knots_refuted : exists l o o', exec (1/10) timely_new l = Some o /\
  (exists ts, last l (Get 0) = SetTimings true ts /\ ts = [0; 10] /\ sorted ts) /\
  get (1/10) (Some 21) o = Some (o', 3%nat).
Proof.
  pose (o := mkTimely [(0, 1%nat); (10, 2%nat); (20, 3%nat)] true 0 4).
  exists [SetTimings true [0; 10; 20]; SetTimings true [0; 10]], o, (mkTimely [(0, 1%nat); (10, 2%nat); (20, 3%nat)] true 2 4).
  split; [reflexivity|]. split.
  - exists [0; 10]; repeat split. repeat (apply sorted_cons; [repeat constructor; lra|]). apply sorted_nil.
  - unfold get, o; cbn [m_timingsSet m_pointerContainer m_previousIndex map fst getClosestIndex at_ nth_error length Nat.sub].
    unfold getClosestIndex, at_; cbn [nth_error length Nat.sub].
    unfold le_n. destruct (Rle_dec 21 0); [lra|]. destruct (Rle_dec 20 21); [|lra]. reflexivity.
Qed.
(** A time that is not a number walks off the end of the container. *)
Theorem C38_nan_query_out_of_bounds_refuted : forall tol t0, getClosestIndex tol [t0; t0 + 1] 0 None = OutOfBounds.
Proof. intros. reflexivity. Qed.
(** Empty timings: the first query reads outside. *)
Theorem C38_empty_timings_out_of_bounds_refuted : forall tol t, get tol (Some t) (fst (setTimings true [] timely_new)) = None.
Proof. reflexivity. Qed.

Example C38_nonvacuous : exists o o', exec (1/10) timely_new [SetTimings true [0; 1; 2]; Get 2] = Some o /\
  sorted (times o) /\ get (1/10) (Some (9/10)) o = Some (o', 2%nat).
Proof.
  exists (mkTimely [(0, 1%nat); (1, 2%nat); (2, 3%nat)] true 2 4), (mkTimely [(0, 1%nat); (1, 2%nat); (2, 3%nat)] true 1 4).
  split; [|split].
  - cbn [exec]. unfold setTimings, get; cbn [negb assign m_pointerContainer timely_new nextObject fst m_timingsSet m_previousIndex map].
    unfold getClosestIndex, at_; cbn [nth_error length Nat.sub]. unfold le_n. destruct (Rle_dec 2 0); [lra|]. destruct (Rle_dec 2 2); [reflexivity | lra].
  - cbn. repeat (apply sorted_cons; [repeat constructor; lra|]). apply sorted_nil.
  - unfold get; cbn [m_timingsSet m_pointerContainer m_previousIndex map fst].
    unfold getClosestIndex, at_; cbn [nth_error length Nat.sub]. unfold le_n. destruct (Rle_dec (9/10) 0); [lra|]. destruct (Rle_dec 2 (9/10)); [lra|].
    unfold checkDoublesAreEqual, minus_n. destruct (Rlt_dec (Rabs (9/10 - 2)) (1/10)) as [H|H]; [exfalso; revert H; unfold Rabs; destruct (Rcase_abs _); lra|].
    cbn [Nat.ltb Nat.leb Nat.add bsearch]. cbn [Nat.div Nat.divmod fst Nat.add].
    unfold at_; cbn [nth_error]. unfold checkDoublesAreEqual, minus_n.
    destruct (Rlt_dec (Rabs (9/10 - 1)) (1/10)) as [K|K]; [reflexivity|]. unfold lt_n. destruct (Rlt_dec (9/10) 1); [|lra].
    cbn [pred_at nth_error at_]. unfold at_; cbn [nth_error]. destruct (Rlt_dec 0 (9/10)); [|lra]. unfold le_n.
    destruct (Rle_dec (1 - 9/10) (9/10 - 0)); [reflexivity | lra].
Qed.

Print Assumptions C38_closest_index.
Print Assumptions C38_history.
Print Assumptions C38_stale_knots_refuted.
