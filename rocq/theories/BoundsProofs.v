(** The bounds computed by the solver on its own variable structure. *)
From Coq Require Import Reals String List Arith Bool Lra Lia.
From Verif Require Import SpecLayout SpecState SpecSettings SpecBounds SettingsModel Labeller LabellerProofs Layout LayoutProofs BoundsModel.
Import ListNotations.
Local Open Scope nat_scope.

Lemma overwrite_mid {X} (a b c d vs : list X) o : o = length (a ++ b) -> length vs = length c ->
  overwrite (a ++ b ++ c ++ d) o vs = a ++ b ++ vs ++ d.
Proof.
  intros -> H. unfold overwrite. rewrite (app_assoc a b (c ++ d)). set (p := a ++ b).
  rewrite firstn_app, Nat.sub_diag, firstn_all. cbn [firstn].
  rewrite app_nil_r, H. rewrite (app_assoc p c d), <- app_length, skipn_app, Nat.sub_diag, skipn_all. cbn [skipn app].
  unfold p. now rewrite <- app_assoc.
Qed.

(** Writing in a block: the block [b1 ++ b2 ++ b3] sits after [a]. *)
Lemma set_in_mid a b1 b2 b3 d o s k vs : o = length a -> k = length b1 -> length vs = length b2 ->
  s = length (b1 ++ b2 ++ b3) ->
  set_in (Some (o, s)) k vs (a ++ (b1 ++ b2 ++ b3) ++ d) = Some (a ++ (b1 ++ vs ++ b3) ++ d).
Proof.
  intros -> -> H ->. unfold set_in.
  assert (E : (length b1 + length vs <=? length (b1 ++ b2 ++ b3)) &&
              (length a + length (b1 ++ b2 ++ b3) <=? length (a ++ (b1 ++ b2 ++ b3) ++ d)) = true).
  { apply andb_true_iff; split; apply Nat.leb_le; rewrite !app_length; lia. }
  rewrite E. f_equal. rewrite <- !app_assoc. rewrite (overwrite_mid a b1 b2 (b3 ++ d) vs); auto. now rewrite app_length.
Qed.

Lemma concat_repeat_length {X} (b : list X) m : length (concat (repeat b m)) = m * length b.
Proof. induction m; cbn [repeat concat]; auto. rewrite app_length, IHm. lia. Qed.

Ltac block a b1 b2 b3 d :=
  match goal with |- context [set_in (Some (?o, ?s)) ?k ?vs ?v] =>
    rewrite (set_in_mid a b1 b2 b3 d o s k vs); [cbn [app bind] | rewrite ?app_length; cbn [length]; try lia | reflexivity | reflexivity | reflexivity]
  end.

(** The block of one point. *)
Lemma pointBounds_ok f v minf pinf o : forall m s as_ acl acu ds dcl dcu,
  length as_ = o + 6 * s -> length acl = o + 6 * s -> length acu = o + 6 * s ->
  pointBounds f v
    (map (fun i => Some (o + 6 * i + 3, 3)) (seq s m)) (map (fun i => Some (o + 6 * i, 3)) (seq s m))
    (map (fun i => Some (o + 6 * i + 3, 3)) (seq s m)) (map (fun i => Some (o + 6 * i, 3)) (seq s m))
    (as_ ++ concat (repeat (repeat minf 6) m) ++ ds, acl ++ concat (repeat (repeat minf 6) m) ++ dcl,
     acu ++ concat (repeat (repeat pinf 6) m) ++ dcu)
  = Some (as_ ++ concat (repeat ([minf; minf; Fin 0] ++ [minf; minf; Fin 0]) m) ++ ds,
          acl ++ concat (repeat (ld3 (neg3 v) ++ ld3 (neg3 f)) m) ++ dcl,
          acu ++ concat (repeat (ld3 v ++ ld3 f) m) ++ dcu).
Proof.
  destruct f as [[f0 f1] f2], v as [[v0 v1] v2].
  induction m; intros s as_ acl acu ds dcl dcu H1 H2 H3; [reflexivity|].
  cbn [seq map repeat concat]. rewrite <- !app_assoc.
  cbn [pointBounds neg3 third top2 ld3]. cbn [app repeat].
  set (SD := concat (repeat [minf; minf; minf; minf; minf; minf] m) ++ ds).
  set (CD := concat (repeat [minf; minf; minf; minf; minf; minf] m) ++ dcl).
  set (UD := concat (repeat [pinf; pinf; pinf; pinf; pinf; pinf] m) ++ dcu).
  replace (as_ ++ minf :: minf :: minf :: minf :: minf :: minf :: SD) with
          ((as_ ++ [minf; minf; minf]) ++ ([minf; minf] ++ [minf] ++ []) ++ SD) by (rewrite <- app_assoc; reflexivity).
  rewrite (set_in_mid (as_ ++ [minf; minf; minf]) [minf; minf] [minf] [] SD) by (rewrite ?app_length; cbn [length]; auto; lia).
  cbn [bind].
  replace ((as_ ++ [minf; minf; minf]) ++ ([minf; minf] ++ [Fin 0] ++ []) ++ SD) with
          (as_ ++ ([minf; minf] ++ [minf] ++ []) ++ ([minf; minf; Fin 0] ++ SD)) by (rewrite <- !app_assoc; reflexivity).
  rewrite (set_in_mid as_ [minf; minf] [minf] []) by (cbn [length]; auto; lia).
  cbn [bind].
  replace (acl ++ minf :: minf :: minf :: minf :: minf :: minf :: CD) with
          ((acl ++ [minf; minf; minf]) ++ ([minf; minf] ++ [minf] ++ []) ++ CD) by (rewrite <- app_assoc; reflexivity).
  rewrite (set_in_mid (acl ++ [minf; minf; minf]) [minf; minf] [minf] [] CD) by (rewrite ?app_length; cbn [length]; auto; lia).
  cbn [bind].
  replace (acu ++ pinf :: pinf :: pinf :: pinf :: pinf :: pinf :: UD) with
          ((acu ++ [pinf; pinf; pinf]) ++ ([pinf; pinf] ++ [pinf] ++ []) ++ UD) by (rewrite <- app_assoc; reflexivity).
  rewrite (set_in_mid (acu ++ [pinf; pinf; pinf]) [pinf; pinf] [pinf] [] UD) by (rewrite ?app_length; cbn [length]; auto; lia).
  cbn [bind].
  change ([minf; minf] ++ [dneg f2] ++ []) with ([] ++ [minf; minf] ++ [dneg f2]).
  rewrite (set_in_mid (acl ++ [minf; minf; minf]) [] [minf; minf] [dneg f2] CD) by (rewrite ?app_length; cbn [length]; auto; lia).
  cbn [bind].
  change ([pinf; pinf] ++ [f2] ++ []) with ([] ++ [pinf; pinf] ++ [f2]).
  rewrite (set_in_mid (acu ++ [pinf; pinf; pinf]) [] [pinf; pinf] [f2] UD) by (rewrite ?app_length; cbn [length]; auto; lia).
  cbn [bind].
  replace ((acl ++ [minf; minf; minf]) ++ ([] ++ [dneg f0; dneg f1] ++ [dneg f2]) ++ CD) with
          (acl ++ ([] ++ [minf; minf; minf] ++ []) ++ ([dneg f0; dneg f1; dneg f2] ++ CD)) by (rewrite <- !app_assoc; reflexivity).
  rewrite (set_in_mid acl [] [minf; minf; minf] []) by (cbn [length]; auto; lia).
  cbn [bind].
  replace ((acu ++ [pinf; pinf; pinf]) ++ ([] ++ [f0; f1] ++ [f2]) ++ UD) with
          (acu ++ ([] ++ [pinf; pinf; pinf] ++ []) ++ ([f0; f1; f2] ++ UD)) by (rewrite <- !app_assoc; reflexivity).
  rewrite (set_in_mid acu [] [pinf; pinf; pinf] []) by (cbn [length]; auto; lia).
  cbn [bind].
  unfold SD, CD, UD.
  specialize (IHm (S s) (as_ ++ [minf; minf; Fin 0; minf; minf; Fin 0])
    (acl ++ [dneg v0; dneg v1; dneg v2; dneg f0; dneg f1; dneg f2]) (acu ++ [v0; v1; v2; f0; f1; f2]) ds dcl dcu).
  rewrite !app_length in IHm. cbn [length] in IHm.
  specialize (IHm ltac:(lia) ltac:(lia) ltac:(lia)).
  cbn [repeat app neg3 ld3] in IHm |- *. rewrite <- !app_assoc in IHm. cbn [app] in IHm. exact IHm.
Qed.

Lemma freezePoints_ok o (bl bu : list dbl) : length bl = 6 -> length bu = 6 ->
  forall m s (rp : list range) acl acu dcl dcu,
  length rp = m -> length acl = o + 6 * s -> length acu = o + 6 * s ->
  freezePoints rp
    (map (fun i => Some (o + 6 * i + 3, 3)) (seq s m)) (map (fun i => Some (o + 6 * i, 3)) (seq s m))
    (acl ++ concat (repeat bl m) ++ dcl, acu ++ concat (repeat bu m) ++ dcu)
  = Some (acl ++ concat (repeat (ld3 zeroD3 ++ ld3 zeroD3) m) ++ dcl, acu ++ concat (repeat (ld3 zeroD3 ++ ld3 zeroD3) m) ++ dcu).
Proof.
  intros Hl Hu.
  destruct bl as [|a0 [|a1 [|a2 [|a3 [|a4 [|a5 [|]]]]]]]; try discriminate.
  destruct bu as [|b0 [|b1 [|b2 [|b3 [|b4 [|b5 [|]]]]]]]; try discriminate.
  induction m; intros s rp acl acu dcl dcu Hr H1 H2.
  { destruct rp; [reflexivity | discriminate]. }
  destruct rp as [|r rp]; [discriminate|]. injection Hr as Hr.
  cbn [seq map repeat concat]. rewrite <- !app_assoc.
  cbn [freezePoints ld3 zeroD3 app].
  set (CD := concat (repeat [a0; a1; a2; a3; a4; a5] m) ++ dcl).
  set (UD := concat (repeat [b0; b1; b2; b3; b4; b5] m) ++ dcu).
  set (z := Fin 0).
  change (acl ++ a0 :: a1 :: a2 :: a3 :: a4 :: a5 :: CD) with (acl ++ ([] ++ [a0; a1; a2] ++ []) ++ (a3 :: a4 :: a5 :: CD)).
  rewrite (set_in_mid acl [] [a0; a1; a2] []) by (cbn [length]; auto; lia). cbn [bind].
  change (acu ++ b0 :: b1 :: b2 :: b3 :: b4 :: b5 :: UD) with (acu ++ ([] ++ [b0; b1; b2] ++ []) ++ (b3 :: b4 :: b5 :: UD)).
  rewrite (set_in_mid acu [] [b0; b1; b2] []) by (cbn [length]; auto; lia). cbn [bind].
  replace (acl ++ ([] ++ [z; z; z] ++ []) ++ a3 :: a4 :: a5 :: CD) with ((acl ++ [z; z; z]) ++ ([] ++ [a3; a4; a5] ++ []) ++ CD)
    by (rewrite <- !app_assoc; reflexivity).
  rewrite (set_in_mid (acl ++ [z; z; z]) [] [a3; a4; a5] []) by (rewrite ?app_length; cbn [length]; auto; lia). cbn [bind].
  replace (acu ++ ([] ++ [z; z; z] ++ []) ++ b3 :: b4 :: b5 :: UD) with ((acu ++ [z; z; z]) ++ ([] ++ [b3; b4; b5] ++ []) ++ UD)
    by (rewrite <- !app_assoc; reflexivity).
  rewrite (set_in_mid (acu ++ [z; z; z]) [] [b3; b4; b5] []) by (rewrite ?app_length; cbn [length]; auto; lia). cbn [bind].
  unfold CD, UD.
  specialize (IHm (S s) rp (acl ++ [z; z; z; z; z; z]) (acu ++ [z; z; z; z; z; z]) dcl dcu Hr).
  rewrite !app_length in IHm. cbn [length] in IHm.
  specialize (IHm ltac:(lia) ltac:(lia)).
  cbn [repeat app ld3 zeroD3] in IHm |- *. fold z in IHm. repeat rewrite <- app_assoc in IHm. rewrite <- !app_assoc. cbn [app] in IHm |- *. exact IHm.
Qed.

Lemma jointBounds_ok o minf pinf : forall limits j size alo aup,
  size = j + length limits -> length alo = o + j -> length aup = o + j ->
  jointBounds (Some (o, size)) j limits (alo ++ repeat minf (length limits), aup ++ repeat pinf (length limits))
  = Some (alo ++ map fst limits, aup ++ map snd limits).
Proof.
  induction limits as [|p limits IH]; intros j size alo aup Hs H1 H2; [reflexivity|].
  cbn [length repeat jointBounds map] in *.
  assert (G : forall a (x y : dbl) d, length a = o + j -> length d = length limits ->
    set_in (Some (o, size)) j [y] (a ++ x :: d) = Some (a ++ y :: d)).
  { intros a x y d Ha Hd. unfold set_in. rewrite app_length. cbn [length]. rewrite Ha, Hd.
    rewrite (proj2 (Nat.leb_le (j + 1) size)) by lia. rewrite (proj2 (Nat.leb_le (o + size) (o + j + S (length limits)))) by lia.
    cbn [andb]. f_equal. rewrite <- Ha. change (a ++ x :: d) with ([] ++ a ++ [x] ++ d). now rewrite (overwrite_mid [] a [x] d [y]). }
  rewrite G by (auto; apply repeat_length). cbn [bind]. rewrite G by (auto; apply repeat_length). cbn [bind].
  specialize (IH (S j) size (alo ++ [fst p]) (aup ++ [snd p])).
  rewrite !app_length, <- !app_assoc in IH. cbn [length app] in IH. apply IH; lia.
Qed.

Lemma points_split {X} n (b : list X) : points n b = concat (repeat b n) ++ concat (repeat b n).
Proof. unfold points. replace (2 * n) with (n + n) by lia. now rewrite repeat_app, concat_app. Qed.

Lemma repeat_blocks {X} (x : X) m k : repeat x (m * k) = concat (repeat (repeat x k) m).
Proof. induction m; cbn [Nat.mul repeat concat]; auto. now rewrite repeat_app, IHm. Qed.

(** What setBounds computes on the documented layout. *)
Definition expected (minf pinf : dbl) (n : nat) (st : settings) (force : D3) : bounds :=
  let a := maximumAngularMomentum st in let v := velocityMaximumDerivative st in
  let sl := state_lower minf n a [minf; minf; minimumCoMHeight st] (jointsLimits st) in
  let su := state_upper pinf n a (repeat pinf 3) (jointsLimits st) in
  let jv := jointsVelocityLimits st in
  let sw := dmul (horizon st) (activeControlPercentage st) in
  let traj := constrainTargetCoMPosition st && desiredCoMTrajectory st in
  let tol := constrainTargetCoMPosition st && targetCoMPositionTolerance st in
  mkBounds (mkVB sl sl sl sw (Some (12 * n + 6, 3)) (-1) traj tol) (mkVB su su su sw (Some (12 * n + 6, 3)) 1 traj tol)
    (mkVB (control_box minf n (neg3 v) (neg3 force) (map fst jv)) (control_box minf n zeroD3 zeroD3 (map fst jv))
          (control_box minf n (neg3 v) (neg3 force) (map fst jv)) sw None 0 false false)
    (mkVB (control_box pinf n v force (map snd jv)) (control_box pinf n zeroD3 zeroD3 (map snd jv))
          (control_box pinf n v force (map snd jv)) sw None 0 false false).

Lemma setBounds_layout minf pinf n dofs st force :
  length (jointsLimits st) = dofs -> length (jointsVelocityLimits st) = dofs ->
  setBounds minf pinf (12 * n + 16 + dofs) (12 * n + 7 + dofs) (layout dofs n) st force = Some (expected minf pinf n st force).
Proof.
  intros HJ HV. unfold setBounds, layout. cbn [vr_left vr_right r_com r_momentum r_joints r_jointsVel foot_layout
    positionPoints forcePoints forceControlPoints velocityControlPoints].
  set (B x m := concat (repeat (repeat x 6) m) : list dbl).
  assert (ES : forall x : dbl, repeat x (12 * n + 16 + dofs) = B x n ++ (B x n ++ repeat x 6 ++ repeat x 3 ++ repeat x 7 ++ repeat x dofs)).
  { intros x. unfold B. rewrite <- !repeat_blocks. rewrite <- !repeat_app. f_equal. lia. }
  assert (EC : forall x : dbl, repeat x (12 * n + 7 + dofs) = B x n ++ (B x n ++ repeat x 7 ++ repeat x dofs)).
  { intros x. unfold B. rewrite <- !repeat_blocks. rewrite <- !repeat_app. f_equal. lia. }
  rewrite !ES, !EC.
  set (v := velocityMaximumDerivative st).
  change (B minf n ++ (B minf n ++ repeat minf 6 ++ repeat minf 3 ++ repeat minf 7 ++ repeat minf dofs)) with
    ([] ++ B minf n ++ (B minf n ++ repeat minf 6 ++ repeat minf 3 ++ repeat minf 7 ++ repeat minf dofs)).
  change (B minf n ++ (B minf n ++ repeat minf 7 ++ repeat minf dofs)) with ([] ++ B minf n ++ (B minf n ++ repeat minf 7 ++ repeat minf dofs)).
  change (B pinf n ++ (B pinf n ++ repeat pinf 7 ++ repeat pinf dofs)) with ([] ++ B pinf n ++ (B pinf n ++ repeat pinf 7 ++ repeat pinf dofs)).
  unfold B at 1 3 5.
  rewrite (pointBounds_ok force v minf pinf 0 n 0) by reflexivity. cbn [bind].
  cbn [app]. unfold B at 1 2 3.
  set (PS := concat (repeat [minf; minf; Fin 0; minf; minf; Fin 0] n)).
  set (PL := concat (repeat (ld3 (neg3 v) ++ ld3 (neg3 force)) n)).
  set (PU := concat (repeat (ld3 v ++ ld3 force) n)).
  assert (LS : length PS = 6 * n + 6 * 0) by (unfold PS; rewrite concat_repeat_length; cbn [length]; lia).
  assert (LL : length PL = 6 * n + 6 * 0).
  { unfold PL; rewrite concat_repeat_length, app_length. destruct v as [[] ], force as [[] ]. cbn [neg3 ld3 length]. lia. }
  assert (LU : length PU = 6 * n + 6 * 0).
  { unfold PU; rewrite concat_repeat_length, app_length. destruct v as [[] ], force as [[] ]. cbn [ld3 length]. lia. }
  rewrite (pointBounds_ok force v minf pinf (6 * n) n 0 PS PL PU _ _ _ LS LL LU). cbn [bind app].
  fold PS PL PU.
  set (SD := repeat minf 7 ++ repeat minf dofs).
  replace (PS ++ PS ++ repeat minf 6 ++ repeat minf 3 ++ SD) with
    ((PS ++ PS ++ repeat minf 6) ++ ([minf; minf] ++ [minf] ++ []) ++ SD)
    by (rewrite <- !app_assoc; reflexivity).
  rewrite (set_in_mid (PS ++ PS ++ repeat minf 6) [minf; minf] [minf] [] SD) by (rewrite ?app_length; cbn [length repeat]; auto; lia).
  cbn [bind].
  replace ((PS ++ PS ++ repeat minf 6) ++ ([minf; minf] ++ [minimumCoMHeight st] ++ []) ++ SD) with
    ((PS ++ PS) ++ (repeat minf 3 ++ repeat minf 3 ++ []) ++ ([minf; minf; minimumCoMHeight st] ++ SD)) by (rewrite <- !app_assoc; reflexivity).
  rewrite (set_in_mid (PS ++ PS) (repeat minf 3) (repeat minf 3) []) by (rewrite ?app_length; cbn [length repeat]; auto; lia).
  cbn [bind].
  replace (B pinf n ++ B pinf n ++ repeat pinf 6 ++ repeat pinf 3 ++ repeat pinf 7 ++ repeat pinf dofs) with
    ((B pinf n ++ B pinf n) ++ (repeat pinf 3 ++ repeat pinf 3 ++ []) ++ (repeat pinf 3 ++ repeat pinf 7 ++ repeat pinf dofs))
    by (rewrite <- !app_assoc; reflexivity).
  assert (LB : length (B pinf n) = 6 * n) by (unfold B; rewrite concat_repeat_length, repeat_length; lia).
  rewrite (set_in_mid (B pinf n ++ B pinf n) (repeat pinf 3) (repeat pinf 3) []) by (rewrite ?app_length; cbn [length repeat]; auto; lia).
  cbn [bind]. unfold SD. set (a := maximumAngularMomentum st).
  match goal with |- context [jointBounds _ 0 (jointsLimits st) (?lo, ?up)] =>
    replace lo with ((PS ++ PS ++ [minf; minf; minf; dneg a; dneg a; dneg a] ++ [minf; minf; minimumCoMHeight st] ++ repeat minf 7) ++ repeat minf (length (jointsLimits st)))
      by (rewrite HJ, <- !app_assoc; reflexivity);
    replace up with ((B pinf n ++ B pinf n ++ [pinf; pinf; pinf; a; a; a] ++ repeat pinf 3 ++ repeat pinf 7) ++ repeat pinf (length (jointsLimits st)))
      by (rewrite HJ, <- !app_assoc; reflexivity) end.
  rewrite (jointBounds_ok (12 * n + 16)) by (rewrite ?app_length; cbn [length repeat]; lia). cbn [bind].
  match goal with |- context [jointBounds _ 0 (jointsVelocityLimits st) (?lo, ?up)] =>
    replace lo with ((PL ++ PL ++ repeat minf 7) ++ repeat minf (length (jointsVelocityLimits st)))
      by (rewrite HV, <- !app_assoc; reflexivity);
    replace up with ((PU ++ PU ++ repeat pinf 7) ++ repeat pinf (length (jointsVelocityLimits st)))
      by (rewrite HV, <- !app_assoc; reflexivity) end.
  rewrite (jointBounds_ok (12 * n + 7)) by (rewrite ?app_length; cbn [length repeat]; lia). cbn [bind].
  set (jl := map fst (jointsVelocityLimits st)). set (ju := map snd (jointsVelocityLimits st)).
  rewrite <- !(app_assoc PL), <- !(app_assoc PU).
  assert (L6 : forall x y : D3, length (ld3 x ++ ld3 y) = 6) by (intros [[] ] [[] ]; reflexivity).
  match goal with |- context [freezePoints ?rp _ _ (?lo, ?up)] =>
    change lo with ([] ++ concat (repeat (ld3 (neg3 v) ++ ld3 (neg3 force)) n) ++ (PL ++ repeat minf 7 ++ jl));
    change up with ([] ++ concat (repeat (ld3 v ++ ld3 force) n) ++ (PU ++ repeat pinf 7 ++ ju)) end.
  rewrite (freezePoints_ok 0 _ _ (L6 _ _) (L6 _ _) n 0) by (rewrite ?map_length, ?seq_length; reflexivity).
  set (Z := concat (repeat (ld3 zeroD3 ++ ld3 zeroD3) n)).
  assert (LZ : length Z = 6 * n + 6 * 0) by (unfold Z; rewrite concat_repeat_length, L6; lia).
  cbn [bind app]. unfold PL at 1, PU at 1.
  rewrite (freezePoints_ok (6 * n) _ _ (L6 _ _) (L6 _ _) n 0 _ Z Z) by (rewrite ?map_length, ?seq_length; auto).
  fold Z. cbn [bind]. unfold expected, control_box, state_lower, state_upper. rewrite !points_split.
  fold Z. fold v. fold PL PU. fold a. fold jl ju.
  change (repeat minf 3 ++ repeat minf 4 ++ jl) with (repeat minf 7 ++ jl).
  change (repeat pinf 3 ++ repeat pinf 4 ++ ju) with (repeat pinf 7 ++ ju).
  change (concat (repeat ([minf; minf; Fin 0] ++ [minf; minf; Fin 0]) n)) with PS.
  change (concat (repeat (repeat pinf 3 ++ repeat pinf 3) n)) with (B pinf n).
  rewrite <- !app_assoc. reflexivity.
Qed.
