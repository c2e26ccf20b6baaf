(** Proofs about SetMinContactPointToZero. *)
From Coq Require Import Reals ZArith List Arith Bool Lra Lia.
From Verif Require Import SpecState SpecGeometry SpecUtilities GroundModel.
Import ListNotations.
Local Open Scope R_scope.

Lemma add3_raise_pz h p : pz (raise h p) = pz p + h.
Proof. destruct p as [[x y] z]. reflexivity. Qed.
Lemma raise_raise a b p : raise a (raise b p) = raise (b + a) p.
Proof. destruct p as [[x y] z]. unfold raise. cbn. repeat (f_equal; try ring). Qed.
Lemma raise_0 p : raise 0 p = p.
Proof. destruct p as [[x y] z]. unfold raise. cbn. repeat (f_equal; try ring). Qed.

Lemma tapply_shift M b d p : tapply (M, raise d b) p = raise d (tapply (M, b) p).
Proof.
  destruct M as [[[[a1 a2] a3] [[b1 b2] b3]] [[c1 c2] c3]], b as [[x y] z], p as [[u v] w].
  unfold tapply, raise. cbn. repeat (f_equal; try ring).
Qed.
Lemma compose_shift M b d T p : tapply (compose (M, raise d b) T) p = raise d (tapply (compose (M, b) T) p).
Proof. unfold compose. cbn [fst snd]. rewrite tapply_shift. apply tapply_shift. Qed.

(** Two states with the same kinematics up to a height. *)
Definition shifted (d : R) (s s' : state M3) : Prop :=
  baseRotation s' = baseRotation s /\ jointsConfiguration s' = jointsConfiguration s /\ basePosition s' = raise d (basePosition s).
Lemma shifted_points rob lp rp d s s' : shifted d s s' -> true_points rob lp rp s' = map (raise d) (true_points rob lp rp s).
Proof.
  intros (H1 & H2 & H3). unfold true_points, world_left, world_right, base_of. rewrite H1, H2, H3, map_app, !map_map.
  f_equal; apply map_ext; intros p; apply compose_shift.
Qed.
Lemma shifted_com rob d s s' : shifted d s s' -> world_com rob s' = raise d (world_com rob s).
Proof. intros (H1 & H2 & H3). unfold world_com, base_of. rewrite H1, H2, H3. apply tapply_shift. Qed.
Lemma shifted_lowest rob lp rp d s s' h : shifted d s s' -> lowest h (true_points rob lp rp s) -> lowest (h + d) (true_points rob lp rp s').
Proof.
  intros Hs ((p & Hp & Hz) & Hm). rewrite (shifted_points _ _ _ _ _ _ Hs). split.
  - exists (raise d p). split; [apply in_map; auto|]. rewrite add3_raise_pz. lra.
  - intros q Hq. apply in_map_iff in Hq as (p' & <- & Hp'). rewrite add3_raise_pz. specialize (Hm p' Hp'). lra.
Qed.

Lemma Rmin_dec a b : {Rmin a b = a} + {Rmin a b = b}.
Proof. unfold Rmin. destruct Rle_dec; auto. Qed.
Lemma lower_min z m : lower z m = Rmin m z.
Proof. unfold lower, Rmin. destruct Rlt_dec, Rle_dec; lra. Qed.

(** The loop. *)
Lemma place_spec tl tr : forall lp rp ls rs m0, length lp = length rp -> length ls = length lp -> length rs = length lp ->
  exists ls' rs' m, place tl tr lp rp ls rs m0 = Some (ls', rs', m) /\
    map pointForce ls' = map pointForce ls /\ map pointForce rs' = map pointForce rs /\
    map pointPosition ls' = map (tapply tl) lp /\ map pointPosition rs' = map (tapply tr) rp /\
    m <= m0 /\ (forall p, In p (map (tapply tl) lp ++ map (tapply tr) rp) -> m <= pz p) /\
    (m = m0 \/ exists p, In p (map (tapply tl) lp ++ map (tapply tr) rp) /\ pz p = m).
Proof.
  induction lp as [|p lp IH]; intros rp ls rs m0 H1 H2 H3.
  - destruct rp, ls, rs; try discriminate. exists [], [], m0. cbn. repeat split; auto; try lra. contradiction.
  - destruct rp as [|q rp], ls as [|l ls], rs as [|r rs]; try discriminate.
    cbn [length] in *. cbn [place pointPosition set_position].
    destruct (IH rp ls rs (lower (pz (tapply tr q)) (lower (pz (tapply tl p)) m0))) as (ls' & rs' & m & E & F1 & F2 & P1 & P2 & M1 & M2 & M3); try lia.
    rewrite E. eexists _, _, m. split; [reflexivity|]. cbn [map pointForce pointPosition set_position].
    rewrite F1, F2, P1, P2. repeat (split; [reflexivity|]). rewrite !lower_min in *.
    pose proof (Rmin_l (Rmin m0 (pz (tapply tl p))) (pz (tapply tr q))).
    pose proof (Rmin_r (Rmin m0 (pz (tapply tl p))) (pz (tapply tr q))).
    pose proof (Rmin_l m0 (pz (tapply tl p))). pose proof (Rmin_r m0 (pz (tapply tl p))).
    split; [lra|]. split.
    + intros x [<-|Hx]; [lra|]. apply in_app_iff in Hx as [Hx|[<-|Hx]]; [|lra|]; apply M2, in_app_iff; auto.
    + destruct M3 as [->|(x & Hx & Hz)].
      * destruct (Rmin_dec (Rmin m0 (pz (tapply tl p))) (pz (tapply tr q))) as [->| ->].
        { destruct (Rmin_dec m0 (pz (tapply tl p))) as [->| ->]; auto. right. exists (tapply tl p). split; [left|]; auto. }
        right. exists (tapply tr q). split; auto. right. apply in_app_iff. right. left. auto.
      * right. exists x. split; auto. apply in_app_iff in Hx as [Hx|Hx]; cbn [app]; right; apply in_app_iff; cbn; auto.
Qed.

Lemma lowest_unique h h' ps : lowest h ps -> lowest h' ps -> h = h'.
Proof. intros ((p & Hp & Hz) & Hm) ((q & Hq & Hz') & Hm'). specialize (Hm q Hq). specialize (Hm' p Hp). lra. Qed.
Lemma lowest_exists ps : ps <> [] -> exists h, lowest h ps.
Proof.
  induction ps as [|p ps IH]; [congruence|]. intros _. destruct ps as [|q ps].
  - exists (pz p). split; [exists p; cbn; auto|]. intros ? [<-|[]]. lra.
  - destruct IH as (h & (x & Hx & Hz) & Hm); [discriminate|]. exists (Rmin (pz p) h). split.
    + destruct (Rmin_dec (pz p) h) as [->| ->]; [exists p; cbn; auto | exists x; cbn in *; auto].
    + intros y [<-|Hy]; [apply Rmin_l|]. apply Rle_trans with h; [apply Rmin_r | auto].
Qed.

Section Ground.
Variable rob : robot. Variable accepts : list R -> bool. Variable lp rp : list V3.
Hypothesis Hlen : length lp = length rp.
Hypothesis Hne : lp <> [].

(** Everything but the base height, the CoM and the positions of the points. *)
Definition same_rest (s s' : state M3) : Prop :=
  map pointForce (leftContactPointsState s') = map pointForce (leftContactPointsState s) /\
  map pointForce (rightContactPointsState s') = map pointForce (rightContactPointsState s) /\
  momentumInCoM s' = momentumInCoM s /\ baseRotation s' = baseRotation s /\
  jointsConfiguration s' = jointsConfiguration s /\ stateTime s' = stateTime s /\
  px (basePosition s') = px (basePosition s) /\ py (basePosition s') = py (basePosition s).

Definition good (s s' : state M3) : Prop :=
  same_rest s s' /\
  (exists h, 0 <= h <= 1/100000000 /\ lowest h (recorded_points s')) /\
  recorded_points s' = map (raise (2/100000000)) (true_points rob lp rp s') /\
  comPosition s' = raise (2/100000000) (world_com rob s').
Definition stops (s : state M3) : Prop :=
  exists k s', (forall fuel, (k <= fuel)%nat -> impl rob accepts lp rp fuel s = Some (Done s')) /\ good s s'.

Definition ok (s : state M3) : Prop :=
  accepts (jointsConfiguration s) = true /\ length (leftContactPointsState s) = length lp /\
  length (rightContactPointsState s) = length lp.

Lemma same_rest_trans a b c : same_rest a b -> same_rest b c -> same_rest a c.
Proof. unfold same_rest. intuition congruence. Qed.

(** One call. *)
Lemma impl_step s h : ok s -> lowest h (true_points rob lp rp s) ->
  (0 <= h <= 1/100000000 /\ exists s', (forall fuel, impl rob accepts lp rp (S fuel) s = Some (Done s')) /\ good s s') \/
  (~ 0 <= h <= 1/100000000 /\ exists s1, (forall fuel, impl rob accepts lp rp (S fuel) s = impl rob accepts lp rp fuel s1) /\
     ok s1 /\ same_rest s s1 /\
     lowest (h - 99/100 * Rmin 1 h + (if Rlt_dec h 0 then 1/100000000 else 0)) (true_points rob lp rp s1)).
Proof.
  intros (Ha & Hl & Hr) Hh.
  destruct (place_spec (world_left rob s) (world_right rob s) lp rp (leftContactPointsState s) (rightContactPointsState s) 1 Hlen Hl Hr)
    as (ls & rs & m & E & F1 & F2 & P1 & P2 & M1 & M2 & M3).
  change (map (tapply (world_left rob s)) lp ++ map (tapply (world_right rob s)) rp) with (true_points rob lp rp s) in *.
  assert (Em : m = Rmin 1 h).
  { destruct Hh as ((p & Hp & Hz) & Hm). destruct M3 as [->|(x & Hx & Hz')].
    - specialize (M2 p Hp). unfold Rmin; destruct Rle_dec; lra.
    - pose proof (M2 p Hp). pose proof (Hm x Hx). unfold Rmin; destruct Rle_dec; lra. }
  assert (Eimpl : forall fuel, impl rob accepts lp rp (S fuel) s =
    let '(x, y, z) := basePosition s in
    let s2 := set_points ls rs (set_com (world_com rob s) s) in
    if Rlt_dec m 0 then impl rob accepts lp rp fuel (set_base (x, y, z - 99/100 * m + 1/100000000) s2)
    else if Rlt_dec (1/100000000) m then impl rob accepts lp rp fuel (set_base (x, y, z - 99/100 * m) s2)
    else Some (Done (set_base (x, y, z - 2/100000000) s2))).
  { intros fuel. cbn [impl]. rewrite Ha. cbn [negb leftContactPointsState rightContactPointsState set_com]. rewrite E.
    cbn [basePosition set_points set_com]. destruct (basePosition s) as [[x y] z]. reflexivity. }
  destruct (basePosition s) as [[x y] z] eqn:Eb. cbv zeta beta iota in Eimpl.
  set (s2 := set_points ls rs (set_com (world_com rob s) s)) in *.
  assert (Hsh : forall d z', z' = z + d -> shifted d s (set_base (x, y, z') s2)).
  { intros d z' ->. unfold shifted. cbn [baseRotation jointsConfiguration basePosition set_base s2 set_points set_com].
    rewrite Eb. repeat split; auto. unfold raise. cbn. repeat (f_equal; try ring). }
  assert (Hsr : forall z', same_rest s (set_base (x, y, z') s2)).
  { intros z'. unfold same_rest.
    cbn [baseRotation jointsConfiguration basePosition momentumInCoM leftContactPointsState rightContactPointsState stateTime set_base s2 set_points set_com].
    rewrite Eb, F1, F2. repeat split; auto. }
  assert (Hok : forall z', ok (set_base (x, y, z') s2)).
  { intros z'. unfold ok.
    cbn [jointsConfiguration leftContactPointsState rightContactPointsState set_base s2 set_points set_com].
    repeat split; auto.
    - rewrite <- (map_length pointPosition), P1, map_length. auto.
    - rewrite <- (map_length pointPosition), P2, map_length. auto. }
  destruct (Rlt_dec m 0) as [C1|C1]; [|destruct (Rlt_dec (1/100000000) m) as [C2|C2]].
  - right. assert (h < 0) by (unfold Rmin in Em; destruct Rle_dec; lra). split; [lra|].
    exists (set_base (x, y, z - 99/100 * m + 1/100000000) s2). split; [auto|]. split; [auto|]. split; [auto|].
    destruct (Rlt_dec h 0); [|lra]. rewrite <- Em.
    replace (h - 99/100*m + 1/100000000) with (h + (1/100000000 - 99/100*m)) by ring.
    eapply shifted_lowest; [apply Hsh; ring | auto].
  - right. assert (1/100000000 < h) by (unfold Rmin in Em; destruct Rle_dec; lra). split; [lra|].
    exists (set_base (x, y, z - 99/100 * m) s2). split; [auto|]. split; [auto|]. split; [auto|].
    destruct (Rlt_dec h 0); [lra|]. rewrite <- Em.
    replace (h - 99/100*m + 0) with (h + (- (99/100*m))) by ring.
    eapply shifted_lowest; [apply Hsh; ring | auto].
  - left. assert (Emh : m = h) by (unfold Rmin in Em; destruct Rle_dec; lra). split; [lra|].
    exists (set_base (x, y, z - 2/100000000) s2). split; [auto|].
    assert (Hd : shifted (- (2/100000000)) s (set_base (x, y, z - 2/100000000) s2)) by (apply Hsh; ring).
    assert (Erec : recorded_points (set_base (x, y, z - 2/100000000) s2) = true_points rob lp rp s).
    { unfold recorded_points. cbn [leftContactPointsState rightContactPointsState set_base s2 set_points set_com]. rewrite P1, P2. reflexivity. }
    split; [auto|]. split; [|split].
    + exists h. split; [lra|]. rewrite Erec. auto.
    + rewrite Erec, (shifted_points _ _ _ _ _ _ Hd), map_map.
      rewrite <- (map_id (true_points rob lp rp s)) at 1. apply map_ext. intros p. rewrite raise_raise.
      replace (- (2/100000000) + 2/100000000) with 0 by ring. symmetry. apply raise_0.
    + rewrite (shifted_com _ _ _ _ Hd), raise_raise. cbn [comPosition set_base s2 set_points set_com].
      replace (- (2/100000000) + 2/100000000) with 0 by ring. symmetry. apply raise_0.
Qed.

Lemma stops_step s s1 : (forall fuel, impl rob accepts lp rp (S fuel) s = impl rob accepts lp rp fuel s1) -> same_rest s s1 -> stops s1 -> stops s.
Proof.
  intros H Hr (k & s' & Hk & Hg & Hrest). exists (S k), s'. split.
  - intros fuel Hf. destruct fuel; [lia|]. rewrite H. apply Hk. lia.
  - split; auto. eapply same_rest_trans; eauto.
Qed.
Lemma stops_done s s' : (forall fuel, impl rob accepts lp rp (S fuel) s = Some (Done s')) -> good s s' -> stops s.
Proof. intros H Hg. exists 1%nat, s'. split; auto. intros fuel Hf. destruct fuel; [lia | apply H]. Qed.

Lemma stops_small : forall k s h, ok s -> lowest h (true_points rob lp rp s) -> 0 <= h <= 1 -> h <= 1/100000000 * 100 ^ k -> stops s.
Proof.
  induction k as [|k IH]; intros s h Hok Hh H01 Hk.
  - destruct (impl_step s h Hok Hh) as [(_ & s' & H1 & H2)|(C & _)]; [eapply stops_done; eauto|]. cbn in Hk. lra.
  - destruct (impl_step s h Hok Hh) as [(_ & s' & H1 & H2)|(C & s1 & H1 & H2 & H3 & H4)]; [eapply stops_done; eauto|].
    apply (stops_step s s1); auto. eapply IH; eauto; destruct (Rlt_dec h 0); try lra;
    rewrite Rmin_right by lra; cbn [pow] in Hk; lra.
Qed.
Lemma pow_large x : exists k, x <= 1/100000000 * 100 ^ k.
Proof.
  destruct (Pow_x_infinity 100) with (b := Rabs x * 100000000) as (k & Hk).
  { rewrite Rabs_right; lra. }
  exists k. specialize (Hk k (le_n k)). rewrite Rabs_right in Hk by (apply Rle_ge, pow_le; lra).
  pose proof (Rle_abs x). lra.
Qed.
Lemma stops_big : forall k s h, ok s -> lowest h (true_points rob lp rp s) -> 0 <= h -> h <= 1 + 99/100 * INR k -> stops s.
Proof.
  induction k as [|k IH]; intros s h Hok Hh H0 Hk.
  - destruct (pow_large 1) as (n & Hn). eapply (stops_small n); eauto; cbn [INR] in Hk; lra.
  - destruct (Rle_dec h 1) as [C|C].
    + destruct (pow_large 1) as (n & Hn). eapply (stops_small n); eauto; lra.
    + destruct (impl_step s h Hok Hh) as [(_ & s' & H1 & H2)|(_ & s1 & H1 & H2 & H3 & H4)]; [eapply stops_done; eauto|].
      apply (stops_step s s1); auto. rewrite S_INR in Hk. eapply IH; eauto; destruct (Rlt_dec h 0); try lra;
      rewrite Rmin_left by lra; lra.
Qed.
Lemma stops_negative : forall k s h, ok s -> lowest h (true_points rob lp rp s) -> h < 0 -> - h <= 1/100000000 * 100 ^ k -> stops s.
Proof.
  induction k as [|k IH]; intros s h Hok Hh H0 Hk;
  (destruct (impl_step s h Hok Hh) as [(? & _)|(_ & s1 & H1 & H2 & H3 & H4)]; [lra|]);
  apply (stops_step s s1); auto; rewrite Rmin_right in H4 by lra; destruct (Rlt_dec h 0); try lra.
  - cbn [pow] in Hk. eapply (stops_small 1); eauto; cbn [pow]; lra.
  - match type of H4 with lowest ?x _ => set (h1 := x) in * end.
    destruct (Rlt_dec h1 0) as [C|C].
    + eapply IH; eauto. unfold h1. cbn [pow] in Hk. lra.
    + eapply (stops_small 1 s1 h1); eauto; unfold h1; cbn [pow]; try lra. unfold h1 in C. lra.
Qed.

Lemma INR_unbounded x : exists k, x < INR k.
Proof.
  exists (Z.to_nat (up x)). destruct (archimed x) as (H & _). rewrite INR_IZR_INZ.
  destruct (Z_le_gt_dec 0 (up x)) as [C|C].
  - rewrite Z2Nat.id by auto. lra.
  - apply Rlt_le_trans with (IZR (up x)); [lra|]. apply IZR_le. lia.
Qed.
Lemma stops_always s : ok s -> stops s.
Proof.
  intros Hok. destruct (lowest_exists (true_points rob lp rp s)) as (h & Hh).
  { unfold true_points. destruct lp; [congruence|]. discriminate. }
  destruct (Rlt_dec h 0).
  - destruct (pow_large (- h)) as (k & Hk). eapply stops_negative; eauto.
  - destruct (INR_unbounded (2 * h)) as (k & Hk). eapply (stops_big k); eauto; try lra.
Qed.
End Ground.

(** Without contact points the recursion never ends. *)
Lemma impl_no_points rob accepts : forall fuel s, accepts (jointsConfiguration s) = true -> impl rob accepts [] [] fuel s = None.
Proof.
  induction fuel as [|fuel IH]; intros s Ha; auto. cbn [impl place]. rewrite Ha. cbn [negb].
  destruct (basePosition _) as [[x y] z]. destruct (Rlt_dec 1 0); [lra|]. destruct (Rlt_dec (1/100000000) 1); [|lra].
  apply IH. exact Ha.
Qed.
