From Coq Require Import Reals String List Arith Bool Lia.
From Verif Require Import SpecLayout Labeller.
Import ListNotations.
Local Open Scope nat_scope.

(** [consistent A L]: the labeller [L] represents the declarations [A]. *)
Definition consistent (A : list (string * nat)) (L : labeller) : Prop :=
  NoDup (map fst A) /\
  lab_size L = total A /\
  labelsList L = map fst A /\
  length (labelMap L) = length A /\
  (forall k n d, nth_error A k = Some (n, d) ->
     map_find (labelMap L) n = Some (total (firstn k A), d)) /\
  (forall n, ~ In n (map fst A) -> map_find (labelMap L) n = None).

Lemma existsb_eqb n l : existsb (String.eqb n) l = true <-> In n l.
Proof.
  rewrite existsb_exists. split.
  - intros [x [H1 H2]]. apply String.eqb_eq in H2. now subst.
  - intros H. exists n. split; auto. apply String.eqb_refl.
Qed.

Lemma total_app A B : total (A ++ B) = total A + total B.
Proof. unfold total. rewrite map_app, list_sum_app. reflexivity. Qed.

Lemma consistent_find A L n : consistent A L ->
  (exists r, map_find (labelMap L) n = Some r) <-> In n (map fst A).
Proof.
  intros (ND & Hs & Hl & Hm & Hf & Hn). split.
  - intros [r Hr]. destruct (in_dec string_dec n (map fst A)); auto.
    rewrite Hn in Hr; auto. discriminate.
  - intros Hin. apply in_map_iff in Hin. destruct Hin as [[n' d] [E Hin]].
    cbn in E; subst n'. apply In_nth_error in Hin. destruct Hin as [k Hk].
    eexists. eapply Hf, Hk.
Qed.

Lemma add_body_new A L n d : consistent A L -> ~ In n (map fst A) ->
  add_body L n d =
  (mkLab (fullVector L ++ repeat 0%R d) ((n, (lab_size L, d)) :: labelMap L) (labelsList L ++ [n]),
   true, (lab_size L, d)).
Proof.
  intros C Hn. unfold add_body, map_insert, lab_size.
  destruct C as (ND & Hs & Hl & Hm & Hf & Hnone).
  rewrite Hnone by auto. reflexivity.
Qed.

Lemma add_body_dup A L n d : consistent A L -> In n (map fst A) ->
  add_body L n d = (L, false, (lab_size L, d)).
Proof.
  intros C Hin. unfold add_body, map_insert, lab_size.
  apply (consistent_find _ _ n C) in Hin. destruct Hin as [r Hr].
  rewrite Hr. reflexivity.
Qed.

Lemma consistent_add A L n d : consistent A L ->
  consistent (declare A n d) (fst (fst (add_body L n d))).
Proof.
  intros C. unfold declare.
  destruct (existsb (String.eqb n) (map fst A)) eqn:E.
  - apply existsb_eqb in E. rewrite (add_body_dup A L n d C E). exact C.
  - assert (Hn : ~ In n (map fst A)).
    { intros H. apply existsb_eqb in H. congruence. }
    rewrite (add_body_new A L n d C Hn). cbn [fst].
    destruct C as (ND & Hs & Hl & Hm & Hf & Hnone).
    unfold consistent. cbn [fullVector labelMap labelsList].
    repeat split.
    + rewrite map_app. cbn. apply NoDup_Add with (a := n) (l := map fst A).
      * pose proof (Add_app n (map fst A) []) as H. rewrite app_nil_r in H. exact H.
      * split; auto.
    + unfold lab_size in *. cbn. rewrite app_length, repeat_length, total_app, Hs.
      unfold total; cbn. lia.
    + rewrite map_app, Hl. reflexivity.
    + cbn. rewrite app_length, Hm. cbn. lia.
    + intros k m e Hk. cbn [map_find].
      destruct (le_lt_dec (length A) k) as [Hge|Hlt].
      * rewrite nth_error_app2 in Hk by lia.
        destruct (k - length A) as [|j] eqn:Ej; cbn in Hk.
        -- injection Hk as <- <-. rewrite String.eqb_refl.
           rewrite firstn_app, Ej, firstn_all2 by lia. cbn. rewrite app_nil_r, <- Hs.
           reflexivity.
        -- destruct j; discriminate.
      * rewrite nth_error_app1 in Hk by lia.
        assert (Hin : In m (map fst A)).
        { apply in_map_iff. exists (m, e). split; auto. eapply nth_error_In, Hk. }
        destruct (String.eqb n m) eqn:Enm.
        { apply String.eqb_eq in Enm. subst. contradiction. }
        rewrite (Hf _ _ _ Hk). rewrite firstn_app.
        replace (k - length A) with 0 by lia. cbn. now rewrite app_nil_r.
    + intros m Hm'. cbn [map_find].
      destruct (String.eqb n m) eqn:Enm.
      { apply String.eqb_eq in Enm. subst. exfalso. apply Hm'.
        rewrite map_app. apply in_or_app. right. cbn. auto. }
      apply Hnone. intros H. apply Hm'. rewrite map_app. apply in_or_app. auto.
Qed.

Lemma consistent_values A L v : consistent A L -> length v = lab_size L ->
  consistent A (mkLab v (labelMap L) (labelsList L)).
Proof.
  intros (ND & Hs & Hl & Hm & Hf & Hn) Hv.
  unfold consistent, lab_size in *; cbn in *. rewrite Hv. repeat split; auto.
Qed.

Lemma write_at_length v off vs : off + length vs <= length v ->
  length (write_at v off vs) = length v.
Proof.
  intros. unfold write_at. rewrite !app_length, firstn_length, skipn_length. lia.
Qed.

Lemma nth_total A k n d : nth_error A k = Some (n, d) ->
  total (firstn k A) + d <= total A.
Proof.
  intros H. rewrite <- (firstn_skipn k A) at 2. rewrite total_app.
  destruct (skipn k A) as [|p l] eqn:E.
  - assert (length A <= k).
    { pose proof (skipn_length k A) as HL. rewrite E in HL. cbn in HL. lia. }
    apply nth_error_None in H0. congruence.
  - assert (p = (n, d)).
    { rewrite <- (firstn_skipn k A) in H.
      assert (k < length A). { apply nth_error_Some. rewrite firstn_skipn in H. congruence. }
      rewrite nth_error_app2 in H by (rewrite firstn_length; lia).
      rewrite firstn_length in H. replace (k - Nat.min k (length A)) with 0 in H by lia.
      rewrite E in H. cbn in H. congruence. }
    subst. unfold total. cbn. lia.
Qed.

Lemma label_span_fits A L n : consistent A L ->
  fst (label_span L n) + snd (label_span L n) <= lab_size L.
Proof.
  intros C. unfold label_span.
  destruct (map_find (labelMap L) n) as [r|] eqn:E; cbn; [|lia].
  assert (Hin : In n (map fst A)) by (apply (consistent_find A L n C); eauto).
  destruct C as (ND & Hs & Hl & Hm & Hf & Hn).
  apply in_map_iff in Hin. destruct Hin as [[n' d] [E' Hin]]. cbn in E'; subst n'.
  apply In_nth_error in Hin. destruct Hin as [k Hk].
  rewrite (Hf _ _ _ Hk) in E. injection E as <-. cbn. rewrite Hs.
  eapply nth_total, Hk.
Qed.

Lemma consistent_step A L c L' : consistent A L -> lab_step L c = Some L' ->
  consistent (declared_step A c) L'.
Proof.
  intros C H. destruct c; cbn in H |- *.
  - injection H as <-. pose proof (consistent_add A L name dim C) as H.
    unfold addLabel. destruct (add_body L name dim) as [[L' ok] r]. exact H.
  - injection H as <-. pose proof (consistent_add A L name dim C) as H.
    unfold addLabelAndGetIndexRange. destruct (add_body L name dim) as [[L' ok] r]. exact H.
  - injection H as <-. unfold consistent, lab_clear, lab_size. cbn.
    repeat split; auto.
    + constructor.
    + intros k n d Hk. destruct k; discriminate.
  - injection H as <-. apply consistent_values; auto. now rewrite map_length.
  - unfold write_index in H. destruct (i <? lab_size L) eqn:E; [|discriminate].
    injection H as <-. apply Nat.ltb_lt in E. apply consistent_values; auto.
    apply write_at_length. cbn. unfold lab_size in E. lia.
  - unfold write_label in H. destruct (length vs =? snd (label_span L name)) eqn:E; [|discriminate].
    injection H as <-. apply Nat.eqb_eq in E. apply consistent_values; auto.
    apply write_at_length. rewrite E. apply (label_span_fits A), C.
  - unfold lab_assign in H. destruct (length vs =? lab_size L) eqn:E; [|discriminate].
    injection H as <-. apply Nat.eqb_eq in E. apply consistent_values; auto.
Qed.

Lemma consistent_init : consistent [] lab_init.
Proof.
  unfold consistent, lab_init, lab_size. cbn. repeat split; auto.
  - constructor.
  - intros k n d Hk. destruct k; discriminate.
Qed.

Lemma consistent_run_gen h : forall A L L', consistent A L -> lab_run L h = Some L' ->
  consistent (fold_left declared_step h A) L'.
Proof.
  induction h as [|c h IH]; intros A L L' C H; cbn in *.
  - injection H as <-. exact C.
  - destruct (lab_step L c) as [L1|] eqn:E; [|discriminate].
    eapply IH; [|exact H]. eapply consistent_step; eauto.
Qed.

Lemma consistent_run h L : lab_run lab_init h = Some L -> consistent (declared h) L.
Proof. apply consistent_run_gen, consistent_init. Qed.

(** Entries and ranges. *)
Lemma entry_owner A i : i < total A ->
  exists k n d, nth_error A k = Some (n, d) /\ in_label_range i (total (firstn k A), d).
Proof.
  induction A as [|[n d] A IH] using rev_ind; intros Hi.
  - cbn in Hi. lia.
  - rewrite total_app in Hi. change (total [(n,d)]) with (d + 0) in Hi.
    destruct (lt_dec i (total A)) as [H|H].
    + destruct (IH H) as (k & n' & d' & Hk & Hr).
      assert (k < length A) by (apply nth_error_Some; congruence).
      exists k, n', d'. rewrite nth_error_app1 by auto. split; auto.
      rewrite firstn_app. replace (k - length A) with 0 by lia. cbn [firstn].
      now rewrite app_nil_r.
    + exists (length A), n, d. rewrite nth_error_app2, Nat.sub_diag by lia.
      split; [reflexivity|]. rewrite firstn_app, Nat.sub_diag, firstn_all. cbn [firstn].
      rewrite app_nil_r. unfold in_label_range; cbn. lia.
Qed.

Lemma ranges_ordered A j k n d n' d' : j < k ->
  nth_error A j = Some (n, d) -> nth_error A k = Some (n', d') ->
  total (firstn j A) + d <= total (firstn k A).
Proof.
  intros Hjk Hj Hk.
  assert (nth_error (firstn k A) j = Some (n, d)).
  { rewrite <- Hj. clear - Hjk. revert k j Hjk. induction A as [|a A IH]; intros [|k] [|j] H; cbn; auto; try lia.
    apply IH. lia. }
  pose proof (nth_total _ _ _ _ H) as H1.
  rewrite firstn_firstn, Nat.min_l in H1 by lia. exact H1.
Qed.

Lemma entry_owner_unique A L i n1 r1 n2 r2 : consistent A L ->
  getIndexRange L n1 = Some r1 -> getIndexRange L n2 = Some r2 ->
  in_label_range i r1 -> in_label_range i r2 -> n1 = n2.
Proof.
  intros C H1 H2 I1 I2. unfold getIndexRange in *.
  assert (G : forall n r, map_find (labelMap L) n = Some r ->
     exists k d, nth_error A k = Some (n, d) /\ r = (total (firstn k A), d)).
  { intros n r Hr. assert (Hin : In n (map fst A)) by (apply (consistent_find A L n C); eauto).
    destruct C as (ND & Hs & Hl & Hm & Hf & Hn).
    apply in_map_iff in Hin. destruct Hin as [[n' d] [E' Hin]]. cbn in E'; subst n'.
    apply In_nth_error in Hin. destruct Hin as [k Hk].
    exists k, d. split; auto. rewrite (Hf _ _ _ Hk) in Hr. congruence. }
  destruct (G _ _ H1) as (k1 & d1 & E1 & ->).
  destruct (G _ _ H2) as (k2 & d2 & E2 & ->).
  unfold in_label_range in *. cbn in *.
  destruct (lt_eq_lt_dec k1 k2) as [[Hlt| ->]|Hlt].
  - pose proof (ranges_ordered A k1 k2 _ _ _ _ Hlt E1 E2). lia.
  - congruence.
  - pose proof (ranges_ordered A k2 k1 _ _ _ _ Hlt E2 E1). lia.
Qed.

(** Reads and writes. *)
Lemma nth_write_at v off vs i : off + length vs <= length v ->
  nth_error (write_at v off vs) i =
  if (off <=? i) && (i <? off + length vs) then nth_error vs (i - off) else nth_error v i.
Proof.
  intros Hf. unfold write_at.
  assert (Hl : length (firstn off v) = off) by (rewrite firstn_length; lia).
  destruct (off <=? i) eqn:E1; cbn [andb].
  - apply Nat.leb_le in E1. rewrite nth_error_app2 by lia. rewrite Hl.
    destruct (i <? off + length vs) eqn:E2.
    + apply Nat.ltb_lt in E2. rewrite nth_error_app1 by lia. reflexivity.
    + apply Nat.ltb_ge in E2. rewrite nth_error_app2 by lia.
      rewrite <- (firstn_skipn (off + length vs) v) at 2.
      rewrite nth_error_app2 by (rewrite firstn_length; lia).
      f_equal. rewrite firstn_length. lia.
  - apply Nat.leb_gt in E1. rewrite nth_error_app1 by lia.
    rewrite <- (firstn_skipn off v) at 2. rewrite nth_error_app1 by lia. reflexivity.
Qed.

Lemma segment_length v r : fst r + snd r <= length v -> length (segment v r) = snd r.
Proof. intros. unfold segment. rewrite firstn_length, skipn_length. lia. Qed.

Lemma nth_firstn {A} (l : list A) n i : i < n -> nth_error (firstn n l) i = nth_error l i.
Proof. revert n i. induction l; intros [|n] [|i] H; cbn; auto; try lia. apply IHl. lia. Qed.
Lemma nth_skipn {A} (l : list A) n i : nth_error (skipn n l) i = nth_error l (n + i).
Proof. revert n. induction l; intros [|n]; cbn; auto. now destruct i. Qed.

Lemma nth_segment v r i : i < snd r -> nth_error (segment v r) i = nth_error v (fst r + i).
Proof. intros. unfold segment. rewrite nth_firstn by auto. apply nth_skipn. Qed.

Lemma nth_ext_err {A} (l l' : list A) : (forall i, nth_error l i = nth_error l' i) -> l = l'.
Proof.
  revert l'. induction l as [|a l IH]; intros [|b l'] H; auto.
  - specialize (H 0). discriminate.
  - specialize (H 0). discriminate.
  - f_equal.
    + specialize (H 0). cbn in H. congruence.
    + apply IH. intros i. exact (H (S i)).
Qed.

Lemma segment_ext v v' r : fst r + snd r <= length v -> fst r + snd r <= length v' ->
  (forall i, in_label_range i r -> nth_error v i = nth_error v' i) -> segment v r = segment v' r.
Proof.
  intros H1 H2 H. apply nth_ext_err. intros i.
  destruct (lt_dec i (snd r)) as [Hi|Hi].
  - rewrite !nth_segment by auto. apply H. unfold in_label_range. lia.
  - assert (nth_error (segment v r) i = None) as -> by (apply nth_error_None; rewrite segment_length; lia).
    symmetry. apply nth_error_None. rewrite segment_length; lia.
Qed.

(** ** Consequences used in the property file *)
Lemma add_effects A L n d : consistent A L -> ~ In n (map fst A) ->
  let L' := fst (addLabel L n d) in
  L' = fst (addLabelAndGetIndexRange L n d) /\
  (forall i, i < lab_size L -> read_index L' i = read_index L i) /\
  (forall i, lab_size L <= i < lab_size L + d -> read_index L' i = Some 0%R) /\
  lab_size L' = lab_size L + d /\
  (forall m, m <> n -> getIndexRange L' m = getIndexRange L m /\ read_label L' m = read_label L m) /\
  read_label L' n = repeat 0%R d.
Proof.
  intros C Hn. unfold addLabel, addLabelAndGetIndexRange. rewrite (add_body_new A L n d C Hn).
  cbn [fst]. unfold read_index, lab_size, getIndexRange, read_label. cbn [fullVector labelMap].
  assert (RE : forall m, m <> n -> map_find ((n, (length (fullVector L), d)) :: labelMap L) m = map_find (labelMap L) m).
  { intros m Hm. cbn [map_find]. destruct (String.eqb n m) eqn:E; auto. apply String.eqb_eq in E. congruence. }
  repeat split.
  - intros i Hi. now rewrite nth_error_app1.
  - intros i Hi. rewrite nth_error_app2 by lia. rewrite nth_error_repeat; auto. lia.
  - now rewrite app_length, repeat_length.
  - now apply RE.
  - unfold label_span. cbn [labelMap]. rewrite RE by auto.
    pose proof (label_span_fits A L m C) as F. unfold label_span, lab_size in F.
    apply segment_ext.
    + rewrite app_length. destruct (map_find (labelMap L) m); cbn [fst snd] in *; lia.
    + exact F.
    + intros i Hi. apply nth_error_app1. unfold in_label_range in Hi.
      destruct (map_find (labelMap L) m) as [r|]; cbn [fst snd] in *; lia.
  - unfold label_span. cbn [labelMap map_find]. rewrite String.eqb_refl.
    unfold segment. cbn [fst snd]. rewrite skipn_app, skipn_all, Nat.sub_diag. cbn [app skipn].
    rewrite firstn_all2; auto. rewrite repeat_length. lia.
Qed.

Lemma write_label_effects A L n vs L' : consistent A L -> write_label L n vs = Some L' ->
  (In n (map fst A) -> read_label L' n = vs) /\
  (forall m, getIndexRange L' m = getIndexRange L m) /\ listOfLabels L' = listOfLabels L /\
  lab_size L' = lab_size L /\
  (forall i, ~ in_label_range i (label_span L n) -> read_index L' i = read_index L i) /\
  (forall m, m <> n -> read_label L' m = read_label L m).
Proof.
  intros C H. unfold write_label in H.
  destruct (length vs =? snd (label_span L n)) eqn:E; [|discriminate]. injection H as <-.
  apply Nat.eqb_eq in E. pose proof (label_span_fits A L n C) as F. unfold lab_size in F.
  assert (RI : forall i, ~ in_label_range i (label_span L n) ->
     nth_error (write_at (fullVector L) (fst (label_span L n)) vs) i = nth_error (fullVector L) i).
  { intros i Hi. rewrite nth_write_at by lia. unfold in_label_range in Hi.
    destruct (fst (label_span L n) <=? i) eqn:E1; cbn [andb]; auto.
    destruct (i <? fst (label_span L n) + length vs) eqn:E2; auto.
    apply Nat.leb_le in E1. apply Nat.ltb_lt in E2. lia. }
  repeat split.
  - intros _. unfold read_label. match goal with |- segment _ ?r = _ => change r with (label_span L n) end. cbn [fullVector].
    apply nth_ext_err. intros i. destruct (lt_dec i (length vs)) as [Hi|Hi].
    + rewrite nth_segment by lia. rewrite nth_write_at by lia.
      replace (fst (label_span L n) <=? fst (label_span L n) + i) with true by (symmetry; apply Nat.leb_le; lia).
      replace (fst (label_span L n) + i <? fst (label_span L n) + length vs) with true by (symmetry; apply Nat.ltb_lt; lia).
      cbn [andb]. f_equal. lia.
    + assert (nth_error vs i = None) as -> by (apply nth_error_None; lia).
      apply nth_error_None. rewrite segment_length; [lia|]. rewrite write_at_length; lia.
  - unfold lab_size. cbn [fullVector]. apply write_at_length. lia.
  - intros i Hi. exact (RI i Hi).
  - intros m Hm. unfold read_label. match goal with |- segment _ ?r = _ => change r with (label_span L m) end. cbn [fullVector].
    pose proof (label_span_fits A L m C) as Fm. unfold lab_size in Fm.
    apply segment_ext; auto.
    + rewrite write_at_length; lia.
    + intros i Hi. apply RI. intros Hi'.
      unfold label_span in Hi, Hi'.
      destruct (map_find (labelMap L) m) as [rm|] eqn:Em; [|unfold in_label_range in Hi; cbn in Hi; lia].
      destruct (map_find (labelMap L) n) as [rn|] eqn:En; [|unfold in_label_range in Hi'; cbn in Hi'; lia].
      apply Hm. eapply entry_owner_unique; eauto.
Qed.
