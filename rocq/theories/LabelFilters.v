(** The label filters of the costs and constraints on the solver's variable
    structure, and the construction of the cost / constraint configurations from
    it. *)
From Coq Require Import Reals String List Arith Bool Lia Lra.
From Coq Require Import Decimal DecimalString DecimalNat.
From Verif Require Import SpecLayout SpecState Labeller LabellerProofs Layout LayoutProofs.
Import ListNotations.
Local Open Scope nat_scope.

Definition is_upper (a : Ascii.ascii) : bool :=
  let n := Ascii.nat_of_ascii a in (65 <=? n) && (n <=? 90).

Lemma contains_uint a p d : is_upper a = true ->
  contains (String a p) (NilEmpty.string_of_uint d) = false.
Proof.
  intros Ha.
  assert (G : forall c, is_upper c = false -> Ascii.eqb a c = false).
  { intros c Hc. destruct (Ascii.eqb a c) eqn:E; auto. apply Ascii.eqb_eq in E. congruence. }
  induction d; cbn [NilEmpty.string_of_uint contains is_prefix]; auto;
    rewrite G by reflexivity; cbn [andb orb]; exact IHd.
Qed.

Lemma contains_decimal a p i : is_upper a = true -> contains (String a p) (decimal i) = false.
Proof. apply contains_uint. Qed.

Ltac filt := intros; match goal with t : stag |- _ => destruct t as [[] ?|[] ?| | | | |] end;
  cbn; rewrite ?contains_decimal by reflexivity; reflexivity.

Definition is_force (lft : bool) (t : stag) : bool := match t with SF b _ => Bool.eqb b lft | _ => false end.
Definition is_pos (lft : bool) (t : stag) : bool := match t with SP b _ => Bool.eqb b lft | _ => false end.
Definition is_anypos (t : stag) : bool := match t with SP _ _ => true | _ => false end.

Lemma contains_LP t : contains "LeftPositionPoint" (sname t) = is_pos true t. Proof. filt. Qed.
Lemma contains_RP t : contains "RightPositionPoint" (sname t) = is_pos false t. Proof. filt. Qed.
Lemma contains_LF t : contains "LeftForcePoint" (sname t) = is_force true t. Proof. filt. Qed.
Lemma contains_RF t : contains "RightForcePoint" (sname t) = is_force false t. Proof. filt. Qed.
Lemma contains_P t : contains "PositionPoint" (sname t) = is_anypos t. Proof. filt. Qed.

Lemma filter_map_comm {A B} (f : B -> bool) (h : A -> bool) (g : A -> B) l :
  (forall a, f (g a) = h a) -> filter f (map g l) = map g (filter h l).
Proof. intros E. induction l; cbn; auto. rewrite E, IHl. destruct (h a); reflexivity. Qed.

Lemma filter_flat_one {A B} (h : B -> bool) (f : A -> list B) (g : A -> B) l :
  (forall a, filter h (f a) = [g a]) -> filter h (flat_map f l) = map g l.
Proof. intros E. induction l; cbn; auto. rewrite filter_app, E, IHl. reflexivity. Qed.
Lemma filter_flat_none {A B} (h : B -> bool) (f : A -> list B) l :
  (forall a, filter h (f a) = []) -> filter h (flat_map f l) = [].
Proof. intros E. induction l; cbn; auto. rewrite filter_app, E, IHl. reflexivity. Qed.

Lemma tags_pos_left n : filter (is_pos true) (stags n) = map (SP true) (seq 0 n).
Proof.
  unfold stags. rewrite !filter_app.
  rewrite (filter_flat_one _ _ (SP true)), filter_flat_none by reflexivity. cbn. apply app_nil_r.
Qed.
Lemma tags_pos_right n : filter (is_pos false) (stags n) = map (SP false) (seq 0 n).
Proof.
  unfold stags. rewrite !filter_app.
  rewrite (filter_flat_none (is_pos false) (fun i => [SF true i; SP true i])), (filter_flat_one _ _ (SP false)) by reflexivity. cbn. apply app_nil_r.
Qed.
Lemma tags_anypos n : filter is_anypos (stags n) = map (SP true) (seq 0 n) ++ map (SP false) (seq 0 n).
Proof.
  unfold stags. rewrite !filter_app.
  rewrite (filter_flat_one is_anypos _ (SP true)), (filter_flat_one is_anypos _ (SP false)) by reflexivity. cbn. now rewrite app_nil_r.
Qed.
Lemma tags_force_left n : filter (is_force true) (stags n) = map (SF true) (seq 0 n).
Proof.
  unfold stags. rewrite !filter_app.
  rewrite (filter_flat_one _ _ (SF true)), filter_flat_none by reflexivity. cbn. apply app_nil_r.
Qed.
Lemma tags_force_right n : filter (is_force false) (stags n) = map (SF false) (seq 0 n).
Proof.
  unfold stags. rewrite !filter_app.
  rewrite (filter_flat_none (is_force false) (fun i => [SF true i; SP true i])), (filter_flat_one _ _ (SF false)) by reflexivity. cbn. apply app_nil_r.
Qed.

(** Range of each state label. *)
Lemma lookup_mid A L A1 n d A2 : consistent A L -> A = A1 ++ (n, d) :: A2 ->
  getIndexRange L n = Some (total A1, d).
Proof.
  intros (_ & _ & _ & _ & Hf & _) E. unfold getIndexRange.
  rewrite (Hf (length A1) n d).
  - rewrite E, firstn_app, Nat.sub_diag, firstn_all. cbn [firstn]. now rewrite app_nil_r.
  - rewrite E, nth_error_app2, Nat.sub_diag by lia. reflexivity.
Qed.

Lemma seq_split n i : i < n -> seq 0 n = seq 0 i ++ i :: seq (S i) (n - S i).
Proof.
  intros H. replace n with (i + S (n - S i)) at 1 by lia. rewrite seq_app. reflexivity.
Qed.

Definition soff (n : nat) (t : stag) : nat :=
  match t with
  | SF true i => 6 * i | SP true i => 6 * i + 3
  | SF false i => 6 * n + 6 * i | SP false i => 6 * n + 6 * i + 3
  | SMom => 12 * n | SCom => 12 * n + 6 | SBase => 12 * n + 9 | SQuat => 12 * n + 12 | SJoint => 12 * n + 16
  end.
Definition ssize (dofs : nat) (t : stag) : nat :=
  match t with SF _ _ | SP _ _ | SCom | SBase => 3 | SMom => 6 | SQuat => 4 | SJoint => dofs end.
Definition stag_ok (n : nat) (t : stag) : Prop := match t with SF _ i | SP _ i => i < n | _ => True end.

Ltac tot := rewrite ?total_app, ?total_fstate, ?total_fcontrol, ?seq_length;
  unfold total; cbn [map list_sum fold_right snd]; lia.

Lemma state_lookup dofs n L t : consistent (state_decl dofs n) L -> stag_ok n t ->
  getIndexRange L (sname t) = Some (soff n t, ssize dofs t).
Proof.
  intros C Ht.
  set (FL := flat_map (fstate "Left")). set (FR := flat_map (fstate "Right")).
  set (rest := [("Momentum", 6); ("CoMPosition", 3); ("BasePosition", 3); ("BaseQuaternion", 4); ("JointsPosition", dofs)]%string).
  assert (HD : state_decl dofs n = FL (seq 0 n) ++ FR (seq 0 n) ++ rest) by reflexivity.
  destruct t as [[] i|[] i| | | | |]; cbn [stag_ok] in Ht.
  - erewrite (lookup_mid _ L (FL (seq 0 i)) _ 3 _ C).
    2:{ rewrite HD, (seq_split n i Ht) at 1. unfold FL at 1. rewrite flat_map_app. cbn [flat_map fstate app].
        rewrite <- !app_assoc. cbn [app]. reflexivity. }
    unfold FL. cbn [soff ssize]. f_equal. f_equal. tot.
  - erewrite (lookup_mid _ L (FL (seq 0 n) ++ FR (seq 0 i)) _ 3 _ C).
    2:{ rewrite HD, (seq_split n i Ht) at 1. 
        rewrite (seq_split n i Ht) at 1. unfold FR at 1. rewrite flat_map_app. cbn [flat_map fstate app].
        rewrite <- !app_assoc. cbn [app]. rewrite <- (seq_split n i Ht). reflexivity. }
    unfold FL, FR. cbn [soff ssize]. f_equal. f_equal. tot.
  - erewrite (lookup_mid _ L (FL (seq 0 i) ++ [(("LeftForcePoint" ++ decimal i)%string, 3)]) _ 3 _ C).
    2:{ rewrite HD, (seq_split n i Ht) at 1. unfold FL at 1. rewrite flat_map_app. cbn [flat_map fstate app].
        rewrite <- !app_assoc. cbn [app]. reflexivity. }
    unfold FL. cbn [soff ssize]. f_equal. f_equal. tot.
  - erewrite (lookup_mid _ L (FL (seq 0 n) ++ FR (seq 0 i) ++ [(("RightForcePoint" ++ decimal i)%string, 3)]) _ 3 _ C).
    2:{ rewrite HD, (seq_split n i Ht) at 1.
        rewrite (seq_split n i Ht) at 1. unfold FR at 1. rewrite flat_map_app. cbn [flat_map fstate app].
        rewrite <- !app_assoc. cbn [app]. rewrite <- (seq_split n i Ht). reflexivity. }
    unfold FL, FR. cbn [soff ssize]. f_equal. f_equal. tot.
  - erewrite (lookup_mid _ L (FL (seq 0 n) ++ FR (seq 0 n)) _ 6 _ C).
    2:{ rewrite HD, <- !app_assoc. reflexivity. } unfold FL, FR. cbn [soff ssize]. f_equal. f_equal. tot.
  - erewrite (lookup_mid _ L (FL (seq 0 n) ++ FR (seq 0 n) ++ [("Momentum"%string, 6)]) _ 3 _ C).
    2:{ rewrite HD, <- !app_assoc. reflexivity. } unfold FL, FR. cbn [soff ssize]. f_equal. f_equal. tot.
  - erewrite (lookup_mid _ L (FL (seq 0 n) ++ FR (seq 0 n) ++ [("Momentum", 6); ("CoMPosition", 3)]%string) _ 3 _ C).
    2:{ rewrite HD, <- !app_assoc. reflexivity. } unfold FL, FR. cbn [soff ssize]. f_equal. f_equal. tot.
  - erewrite (lookup_mid _ L (FL (seq 0 n) ++ FR (seq 0 n) ++ [("Momentum", 6); ("CoMPosition", 3); ("BasePosition", 3)]%string) _ 4 _ C).
    2:{ rewrite HD, <- !app_assoc. reflexivity. } unfold FL, FR. cbn [soff ssize]. f_equal. f_equal. tot.
  - erewrite (lookup_mid _ L (FL (seq 0 n) ++ FR (seq 0 n) ++ [("Momentum", 6); ("CoMPosition", 3); ("BasePosition", 3); ("BaseQuaternion", 4)]%string) _ dofs _ C).
    2:{ rewrite HD, <- !app_assoc. reflexivity. } unfold FL, FR. cbn [soff ssize]. f_equal. f_equal. tot.
Qed.

Definition coff (n : nat) (t : ctag) : nat :=
  match t with
  | CV true i => 6 * i | CF true i => 6 * i + 3
  | CV false i => 6 * n + 6 * i | CF false i => 6 * n + 6 * i + 3
  | CLin => 12 * n | CQuat => 12 * n + 3 | CJoint => 12 * n + 7
  end.
Definition csize (dofs : nat) (t : ctag) : nat :=
  match t with CV _ _ | CF _ _ | CLin => 3 | CQuat => 4 | CJoint => dofs end.
Definition ctag_ok (n : nat) (t : ctag) : Prop := match t with CV _ i | CF _ i => i < n | _ => True end.

Lemma control_lookup dofs n L t : consistent (control_decl dofs n) L -> ctag_ok n t ->
  getIndexRange L (cname t) = Some (coff n t, csize dofs t).
Proof.
  intros C Ht.
  set (FL := flat_map (fcontrol "Left")). set (FR := flat_map (fcontrol "Right")).
  set (rest := [("BaseLinearVelocity", 3); ("BaseQuaternionDerivative", 4); ("JointsVelocity", dofs)]%string).
  assert (HD : control_decl dofs n = FL (seq 0 n) ++ FR (seq 0 n) ++ rest) by reflexivity.
  destruct t as [[] i|[] i| | |]; cbn [ctag_ok] in Ht.
  - erewrite (lookup_mid _ L (FL (seq 0 i)) _ 3 _ C).
    2:{ rewrite HD, (seq_split n i Ht) at 1. unfold FL at 1. rewrite flat_map_app. cbn [flat_map fcontrol app].
        rewrite <- !app_assoc. cbn [app]. reflexivity. }
    unfold FL. cbn [coff csize]. f_equal. f_equal. tot.
  - erewrite (lookup_mid _ L (FL (seq 0 n) ++ FR (seq 0 i)) _ 3 _ C).
    2:{ rewrite HD, (seq_split n i Ht) at 1. 
        rewrite (seq_split n i Ht) at 1. unfold FR at 1. rewrite flat_map_app. cbn [flat_map fcontrol app].
        rewrite <- !app_assoc. cbn [app]. rewrite <- (seq_split n i Ht). reflexivity. }
    unfold FL, FR. cbn [coff csize]. f_equal. f_equal. tot.
  - erewrite (lookup_mid _ L (FL (seq 0 i) ++ [(("LeftVelocityControlPoint" ++ decimal i)%string, 3)]) _ 3 _ C).
    2:{ rewrite HD, (seq_split n i Ht) at 1. unfold FL at 1. rewrite flat_map_app. cbn [flat_map fcontrol app].
        rewrite <- !app_assoc. cbn [app]. reflexivity. }
    unfold FL. cbn [coff csize]. f_equal. f_equal. tot.
  - erewrite (lookup_mid _ L (FL (seq 0 n) ++ FR (seq 0 i) ++ [(("RightVelocityControlPoint" ++ decimal i)%string, 3)]) _ 3 _ C).
    2:{ rewrite HD, (seq_split n i Ht) at 1.
        rewrite (seq_split n i Ht) at 1. unfold FR at 1. rewrite flat_map_app. cbn [flat_map fcontrol app].
        rewrite <- !app_assoc. cbn [app]. rewrite <- (seq_split n i Ht). reflexivity. }
    unfold FL, FR. cbn [coff csize]. f_equal. f_equal. tot.
  - erewrite (lookup_mid _ L (FL (seq 0 n) ++ FR (seq 0 n)) _ 3 _ C).
    2:{ rewrite HD, <- !app_assoc. reflexivity. } unfold FL, FR. cbn [coff csize]. f_equal. f_equal. tot.
  - erewrite (lookup_mid _ L (FL (seq 0 n) ++ FR (seq 0 n) ++ [("BaseLinearVelocity"%string, 3)]) _ 4 _ C).
    2:{ rewrite HD, <- !app_assoc. reflexivity. } unfold FL, FR. cbn [coff csize]. f_equal. f_equal. tot.
  - erewrite (lookup_mid _ L (FL (seq 0 n) ++ FR (seq 0 n) ++ [("BaseLinearVelocity", 3); ("BaseQuaternionDerivative", 4)]%string) _ dofs _ C).
    2:{ rewrite HD, <- !app_assoc. reflexivity. } unfold FL, FR. cbn [coff csize]. f_equal. f_equal. tot.
Qed.
