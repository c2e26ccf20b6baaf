(** Lemmas on the loops and formulas of KinModel.v. *)
From Coq Require Import Reals List Arith Lia Lra Bool FunctionalExtensionality.
From Coq Require Cantor.
From Coquelicot Require Import Coquelicot.
From Verif Require Import Spec PartialLib SpecRigid SpecDerivatives Rigid RigidCalc KinTree KinModel.
Import ListNotations.
Local Open Scope R_scope.

Lemma decode_code k : decode (code k) = k.
Proof. destruct k as [[] f g|[] f g c|f g|f g|f g|f g|f|f|n|n]; unfold decode, code, quad; rewrite !Cantor.cancel_of_to; reflexivity. Qed.

(** ** put *)
Lemma put_some {A} (l : list A) i a : (i < length l)%nat -> exists l', put l i a = Some l' /\ length l' = length l /\
  forall k, nth_error l' k = if (k =? i)%nat then Some a else nth_error l k.
Proof.
  revert i; induction l as [|x l IH]; intros i Hi; [cbn in Hi; lia|]. destruct i as [|i]; cbn [put].
  - exists (a :: l). split; [reflexivity|split; [reflexivity|]]. intros [|k]; reflexivity.
  - destruct (IH i ltac:(cbn in Hi; lia)) as (l' & -> & L & N). exists (x :: l'). split; [reflexivity|split; [cbn; lia|]].
    intros [|k]; [reflexivity|]. apply N.
Qed.

(** ** walk *)
Fixpoint foldo {A B} (f : A -> B -> option A) (l : list B) (a : A) : option A :=
  match l with [] => Some a | x :: l => match f a x with Some a' => foldo f l a' | None => None end end.
Lemma walk_path {A} up b (step : nat -> nat -> nat -> A -> option A) t l : path up b t l -> forall fuel acc, (length l < fuel)%nat ->
  walk up b step fuel t acc = foldo (fun a x => step (fst (fst x)) (snd (fst x)) (snd x) a) l acc.
Proof.
  induction 1 as [|t p i l N U P IH]; intros n acc L; (destruct n as [|n]; [cbn in L; lia|]); cbn [walk foldo].
  - rewrite Nat.eqb_refl. reflexivity.
  - apply Nat.eqb_neq in N. rewrite N, U. cbn [fst snd]. destruct (step t p i acc); [|reflexivity]. apply IH. cbn in L; lia.
Qed.
Lemma fold_put {A} (F : nat -> nat -> A) (l : list (nat * nat * nat)) : NoDup (map snd l) -> forall A0, (forall c p i, In (c, p, i) l -> (i < length A0)%nat) ->
  exists A', foldo (fun a x => put a (snd x) (F (fst (fst x)) (snd x))) l A0 = Some A' /\ length A' = length A0 /\
    (forall c p i, In (c, p, i) l -> nth_error A' i = Some (F c i)) /\
    (forall i, (forall c p, ~ In (c, p, i) l) -> nth_error A' i = nth_error A0 i).
Proof.
  induction l as [|[[c p] i] l IH]; intros ND A0 B.
  { exists A0. cbn. repeat split; auto. intros; contradiction. }
  cbn [map snd] in ND. inversion ND as [|? ? NI ND']; subst. cbn [foldo fst snd].
  destruct (put_some A0 i (F c i)) as (A1 & -> & L1 & N1); [eapply B; left; reflexivity|].
  destruct (IH ND' A1) as (A' & E & L & I & O). { intros c' p' i' H. rewrite L1. eapply B. right; eauto. }
  exists A'. split; [exact E|]. split; [lia|]. split.
  - intros c' p' i' [H|H]; [|eapply I; eauto]. injection H as <- <- <-. rewrite O.
    + rewrite N1, Nat.eqb_refl. reflexivity.
    + intros c'' p'' H. apply NI. apply in_map_iff. exists (c'', p'', i). auto.
  - intros k H. rewrite O; [|intros c' p' H'; apply (H c' p'); right; auto]. rewrite N1.
    destruct (Nat.eqb_spec k i) as [->|]; [|reflexivity]. exfalso. apply (H c p). left; auto.
Qed.
Lemma fold_put_nz {A} (F : nat -> nat -> A) (l : list (nat * nat * nat)) : forall A0 nz, 
  foldo (fun a x => match put (fst a) (snd x) (F (fst (fst x)) (snd x)) with Some A' => Some (A', snd a ++ [snd x]) | None => None end) l (A0, nz)
  = match foldo (fun a x => put a (snd x) (F (fst (fst x)) (snd x))) l A0 with Some A' => Some (A', nz ++ map snd l) | None => None end.
Proof.
  induction l as [|[[c p] i] l IH]; intros A0 nz; cbn [foldo fst snd map].
  - rewrite app_nil_r. reflexivity.
  - destruct (put A0 i (F c i)) as [A1|]; [|reflexivity]. rewrite IH, <- app_assoc. reflexivity.
Qed.
Lemma fill_spec value cols nz i k : fill value cols nz i k = if existsb (Nat.eqb k) nz then value (nth k cols (FNull 6 1)) i 0%nat else 0.
Proof.
  unfold fill. enough (H : forall (buf : mat), fold_left (fun buf j => fun i k => if (k =? j)%nat then value (nth j cols (FNull 6 1)) i 0%nat else buf i k) nz buf i k
    = if existsb (Nat.eqb k) nz then value (nth k cols (FNull 6 1)) i 0%nat else buf i k) by apply H.
  induction nz as [|j nz IH]; intros buf; cbn [fold_left existsb]; [reflexivity|]. rewrite IH.
  destruct (Nat.eqb_spec k j) as [->|]; cbn [orb]; [|reflexivity]. destruct (existsb (Nat.eqb j) nz); reflexivity.
Qed.

(** ** Paths *)
Section Paths.
Variable r : robot.
Variable b : nat.
Variable up : nat -> option (nat * nat).
Variable depth : nat -> nat.
Hypothesis trav : traversal r b up depth.
Hypothesis Hb : (b < r_links r)%nat.
Notation links := (r_links r).
Lemma path_nodup_children t l : path up b t l -> (t < links)%nat -> NoDup (map (fun x => fst (fst x)) l).
Proof.
  intros P. induction P as [|t p i l N U P IH]; intros Ht; [constructor|].
  destruct (trav t Ht N) as (p' & i' & j & U' & E & C & Hp & D). rewrite U in U'. injection U' as <- <-.
  cbn [map fst]. constructor; [|auto]. intros I. apply in_map_iff in I. destruct I as ([[c q] k] & <- & I). cbn [fst] in *.
  destruct (path_step r b up depth trav Hb _ _ _ _ _ P Hp I) as (_ & _ & _ & L & _). lia.
Qed.
Lemma path_nodup t l : path up b t l -> (t < links)%nat -> NoDup (map snd l).
Proof.
  intros P. induction P as [|t p i l N U P IH]; intros Ht; [constructor|].
  destruct (trav t Ht N) as (p' & i' & j & U' & E & C & Hp & D). rewrite U in U'. injection U' as <- <-.
  cbn [map snd]. constructor; [|auto]. intros I. apply in_map_iff in I. destruct I as ([[c q] k] & Q & I). cbn [snd] in Q. subst k.
  eapply (path_joint_fresh r b up depth trav Hb t p i l); eauto. econstructor; eauto.
Qed.
Lemma path_short t l : path up b t l -> (t < links)%nat -> (length l <= links)%nat.
Proof.
  intros P Ht. rewrite <- (map_length (fun x => fst (fst x))), <- (seq_length links 0). apply NoDup_incl_length; [eapply path_nodup_children; eauto|].
  intros c I. apply in_map_iff in I. destruct I as ([[c' q] k] & <- & I). cbn [fst]. apply in_seq.
  destruct (path_step r b up depth trav Hb _ _ _ _ _ P Ht I). lia.
Qed.
Lemma path_in_dec (l : list (nat * nat * nat)) i : (exists c p, In (c, p, i) l) \/ (forall c p, ~ In (c, p, i) l).
Proof.
  induction l as [|[[c p] k] l IH]; [right; intros c p H; contradiction|]. destruct (Nat.eq_dec k i) as [->|N].
  - left. exists c, p. left; reflexivity.
  - destruct IH as [(c' & p' & H)|H]; [left; exists c', p'; right; auto|]. right. intros c' p' [E|E]; [congruence|]. eapply H; eauto.
Qed.
End Paths.
Lemma existsb_path (l : list (nat * nat * nat)) i : existsb (Nat.eqb i) (map snd l) = true <-> exists c p, In (c, p, i) l.
Proof.
  rewrite existsb_exists. split.
  - intros (k & I & E). apply Nat.eqb_eq in E. subst k. apply in_map_iff in I. destruct I as ([[c p] k] & Q & I). cbn in Q. subst k. eauto.
  - intros (c & p & I). exists i. split; [|apply Nat.eqb_refl]. apply in_map_iff. exists (c, p, i). auto.
Qed.

(** ** Meaning of the formulas *)
Section Den.
Variable vdim : nat -> nat.
Variables urows ucols : nat -> nat.
Variable ue : nat -> env -> mat.
Notation FR := (frows vdim urows ucols).
Notation FC := (fcols vdim urows ucols).
Notation M := (meaning vdim urows ucols ue).
Notation WF := (well_formed vdim urows ucols ue).
(** [F] is well formed, of size n x m, and has the entries of A in the state rho. *)
Definition den (rho : env) (F : formula) (n m : nat) (A : mat) : Prop :=
  WF F /\ FR F = n /\ FC F = m /\ forall i j, (i < n)%nat -> (j < m)%nat -> M rho F i j = A i j.
Lemma den_ext rho F n m A B : den rho F n m A -> (forall i j, (i < n)%nat -> (j < m)%nat -> A i j = B i j) -> den rho F n m B.
Proof. intros (W & R & C & V) E. split; [|split; [|split]]; auto. intros. rewrite V; auto. Qed.
Lemma frows_mul F G : FR (FMul F G) = if ((FR F =? 1) && (FC F =? 1))%nat then FR G else FR F.
Proof. reflexivity. Qed.
Lemma fcols_mul F G : FC (FMul F G) = if ((FR F =? 1) && (FC F =? 1))%nat then FC G else if ((FR G =? 1) && (FC G =? 1))%nat then FC F else FC G.
Proof. reflexivity. Qed.
Lemma meaning_mul rho F G i j : M rho (FMul F G) i j =
  if ((FR F =? 1) && (FC F =? 1))%nat then M rho F 0 0 * M rho G i j
  else if ((FR G =? 1) && (FC G =? 1))%nat then M rho F i j * M rho G 0 0
  else sumn (FC F) (fun k => M rho F i k * M rho G k j).
Proof. reflexivity. Qed.
Lemma wf_mul F G : WF (FMul F G) = (WF F /\ WF G /\ ((FR F = 1%nat /\ FC F = 1%nat) \/ (FR G = 1%nat /\ FC G = 1%nat) \/ FC F = FR G)).
Proof. reflexivity. Qed.
Lemma den_mul rho F G n k m A B : den rho F n k A -> den rho G k m B -> den rho (FMul F G) n m (fun i j => sumn k (fun l => A i l * B l j)).
Proof.
  intros (W & R & C & V) (W' & R' & C' & V'). unfold den. rewrite frows_mul, fcols_mul, wf_mul, R, C, R', C'.
  split; [split; [auto|split; [auto|right; right; reflexivity]]|].
  split; [|split].
  - destruct (Nat.eqb_spec n 1), (Nat.eqb_spec k 1); cbn [andb]; cbv iota; lia.
  - destruct (Nat.eqb_spec n 1), (Nat.eqb_spec k 1), (Nat.eqb_spec m 1); cbn [andb]; cbv iota; lia.
  - intros i j Hi Hj. rewrite meaning_mul, R, C, R', C'. clear R C R' C'. destruct (Nat.eqb_spec n 1), (Nat.eqb_spec k 1), (Nat.eqb_spec m 1); cbn [andb]; cbv iota; subst;
      try (assert (i = 0)%nat by lia; subst i); try (assert (j = 0)%nat by lia; subst j);
      try (apply sumn_ext; intros l Hl; rewrite V, V' by lia; reflexivity);
      rewrite V, V' by lia; unfold sumn; lra.
Qed.
Lemma den_const rho n m A : den rho (FConst n m A) n m A.
Proof. unfold den. cbn. auto. Qed.
Lemma den_null rho n m : den rho (FNull n m) n m (fun _ _ => 0).
Proof. unfold den. cbn. auto. Qed.
Lemma den_ident rho n : den rho (FIdent n) n n (fun i j => if (i =? j)%nat then 1 else 0).
Proof. unfold den. cbn. auto. Qed.
Lemma den_user rho k : den rho (FUser k) (urows k) (ucols k) (ue k rho).
Proof. unfold den. cbn. auto. Qed.
Lemma den_col rho F n m A c : den rho F n m A -> (c < m)%nat -> den rho (FCol F c) n 1 (fun i _ => A i c).
Proof. intros (W & R & C & V) H. unfold den. cbn. rewrite C. split; [auto|split; [auto|split; [auto|]]]. intros i j Hi Hj. apply V; auto. Qed.
Lemma den_block rho F n m A i0 j0 n' m' : den rho F n m A -> (i0 + n' <= n)%nat -> (j0 + m' <= m)%nat ->
  den rho (FBlock F i0 j0 n' m') n' m' (fun i j => A (i0 + i)%nat (j0 + j)%nat).
Proof.
  intros (W & R & C & V) H H'. unfold den. cbn. rewrite C, R. split; [auto|split; [auto|split; [auto|]]]. intros i j Hi Hj. apply V; lia.
Qed.
Lemma den_add rho F G n m A B : den rho F n m A -> den rho G n m B -> den rho (FAdd F G) n m (fun i j => A i j + B i j).
Proof.
  intros (W & R & C & V) (W' & R' & C' & V'). unfold den. cbn. rewrite R, R', C, C'. split; [auto|split; [auto|split; [auto|]]].
  intros i j Hi Hj. rewrite V, V'; auto.
Qed.
Lemma den_neg rho F n m A : den rho F n m A -> den rho (FNeg F) n m (fun i j => - A i j).
Proof. intros (W & R & C & V). unfold den. cbn. split; [auto|split; [auto|split; [auto|]]]. intros i j Hi Hj. rewrite V; auto. Qed.
Lemma den_transp rho F n m A : den rho F n m A -> den rho (FTransp F) m n (fun i j => A j i).
Proof. intros (W & R & C & V). unfold den. cbn. split; [auto|split; [auto|split; [auto|]]]. intros i j Hi Hj. rewrite V; auto. Qed.
Lemma den_elem rho F n m A i j : den rho F n m A -> (i < n)%nat -> (j < m)%nat -> den rho (FElem F i j) 1 1 (fun _ _ => A i j).
Proof. intros (W & R & C & V) Hi Hj. unfold den. cbn. rewrite R, C. split; [auto|split; [auto|split; [auto|]]]. auto. Qed.
Lemma den_horz rho F G n m m' A B : den rho F n m A -> den rho G n m' B ->
  den rho (FHorz F G) n (m + m') (fun i j => if (j <? m)%nat then A i j else B i (j - m)%nat).
Proof.
  intros (W & R & C & V) (W' & R' & C' & V'). split; [exact (conj W (conj W' (eq_trans R (eq_sym R'))))|]. split; [exact R|].
  split; [change (FC F + FC G = m + m')%nat; lia|]. intros i j Hi Hj.
  change (M rho (FHorz F G) i j) with (if (j <? FC F)%nat then M rho F i j else M rho G i (j - FC F)). rewrite C.
  destruct (Nat.ltb_spec j m); [apply V|apply V']; lia.
Qed.
Lemma den_vert rho F G n n' m A B : den rho F n m A -> den rho G n' m B ->
  den rho (FVert F G) (n + n') m (fun i j => if (i <? n)%nat then A i j else B (i - n)%nat j).
Proof.
  intros (W & R & C & V) (W' & R' & C' & V'). split; [exact (conj W (conj W' (eq_trans C (eq_sym C'))))|].
  split; [change (FR F + FR G = n + n')%nat; lia|]. split; [exact C|]. intros i j Hi Hj.
  change (M rho (FVert F G) i j) with (if (i <? FR F)%nat then M rho F i j else M rho G (i - FR F) j). rewrite R.
  destruct (Nat.ltb_spec i n); [apply V|apply V']; lia.
Qed.
Lemma den_var rho u : den rho (FVar u) (vdim u) 1 (fun i _ => rho u i).
Proof. unfold den. cbn. auto. Qed.
Lemma den_scal rho F G n m (a : R) B : den rho F 1 1 (fun _ _ => a) -> den rho G n m B -> den rho (FMul F G) n m (fun i j => a * B i j).
Proof.
  intros (W & R & C & V) (W' & R' & C' & V'). unfold den. rewrite frows_mul, fcols_mul, wf_mul, R, C, R', C'. cbn [Nat.eqb andb].
  split; [split; [auto|split; [auto|left; auto]]|]. split; [auto|split; [auto|]]. intros i j Hi Hj. rewrite meaning_mul, R, C, V, V' by lia. reflexivity.
Qed.
Lemma den_scal_r rho F G n m (a : R) A : den rho F n m A -> den rho G 1 1 (fun _ _ => a) -> (n <> 1 \/ m <> 1)%nat -> den rho (FMul F G) n m (fun i j => A i j * a).
Proof.
  intros (W & R & C & V) (W' & R' & C' & V') N. unfold den. rewrite frows_mul, fcols_mul, wf_mul, R, C, R', C'. cbn [Nat.eqb andb].
  replace ((n =? 1) && (m =? 1))%nat with false by (symmetry; apply andb_false_iff; rewrite !Nat.eqb_neq; exact N).
  split; [split; [auto|split; [auto|right; left; auto]]|]. split; [auto|split; [auto|]]. intros i j Hi Hj. rewrite meaning_mul, R, C, R', C'.
  replace ((n =? 1) && (m =? 1))%nat with false by (symmetry; apply andb_false_iff; rewrite !Nat.eqb_neq; exact N). cbn [Nat.eqb andb].
  rewrite V, V' by lia. reflexivity.
Qed.
End Den.

(** ** Entries of the 6D products *)
Ltac split6 i := destruct i as [|[|[|[|[|[|i]]]]]]; try lia.
Ltac split3 i := destruct i as [|[|[|i]]]; try lia.
Lemma m6ent_mul A B i j : (i < 6)%nat -> (j < 6)%nat -> m6ent (m6mul A B) i j = sumn 6 (fun k => m6ent A i k * m6ent B k j).
Proof. intros Hi Hj. split6 i; split6 j; cbn; ring. Qed.
Lemma v6ent_mul A x i : (i < 6)%nat -> v6ent (m6v A x) i = sumn 6 (fun k => m6ent A i k * v6ent x k).
Proof. intros Hi. split6 i; cbn; ring. Qed.
Lemma m6ent_I i j : (i < 6)%nat -> (j < 6)%nat -> m6ent m6I i j = if (i =? j)%nat then 1 else 0.
Proof. intros Hi Hj. split6 i; split6 j; reflexivity. Qed.
Lemma ment_0 i j : ment m30 i j = 0.
Proof. destruct i as [|[|[|i]]], j as [|[|[|j]]]; reflexivity. Qed.
Lemma vent_0 i : vent v30 i = 0.
Proof. destruct i as [|[|[|i]]]; reflexivity. Qed.
Lemma m6ent_0 i j : m6ent m60 i j = 0.
Proof. unfold m6ent. destruct (i <? 3)%nat, (j <? 3)%nat; apply ment_0. Qed.
Lemma v6ent_0 i : v6ent v60 i = 0.
Proof. unfold v6ent. destruct (i <? 3)%nat; apply vent_0. Qed.
Lemma ment_mul A B i j : (i < 3)%nat -> (j < 3)%nat -> ment (mm A B) i j = sumn 3 (fun k => ment A i k * ment B k j).
Proof. intros Hi Hj. split3 i; split3 j; cbn; ring. Qed.
Lemma vent_mul A x i : (i < 3)%nat -> vent (mv A x) i = sumn 3 (fun k => ment A i k * vent x k).
Proof. intros Hi. split3 i; cbn; ring. Qed.
Lemma ment_inj A B : (forall i j, (i < 3)%nat -> (j < 3)%nat -> ment A i j = ment B i j) -> A = B.
Proof.
  intros H. destruct A, B. f_equal;
  [exact (H 0%nat 0%nat ltac:(lia) ltac:(lia))|exact (H 0%nat 1%nat ltac:(lia) ltac:(lia))|exact (H 0%nat 2%nat ltac:(lia) ltac:(lia))
  |exact (H 1%nat 0%nat ltac:(lia) ltac:(lia))|exact (H 1%nat 1%nat ltac:(lia) ltac:(lia))|exact (H 1%nat 2%nat ltac:(lia) ltac:(lia))
  |exact (H 2%nat 0%nat ltac:(lia) ltac:(lia))|exact (H 2%nat 1%nat ltac:(lia) ltac:(lia))|exact (H 2%nat 2%nat ltac:(lia) ltac:(lia))].
Qed.
Lemma m6ent_inj A B : (forall i j, (i < 6)%nat -> (j < 6)%nat -> m6ent A i j = m6ent B i j) -> A = B.
Proof.
  intros H. destruct A, B. f_equal; apply ment_inj; intros i j Hi Hj.
  - generalize (H i j ltac:(lia) ltac:(lia)). unfold m6ent. destruct (Nat.ltb_spec i 3), (Nat.ltb_spec j 3); try lia. auto.
  - generalize (H i (3 + j)%nat ltac:(lia) ltac:(lia)). unfold m6ent. destruct (Nat.ltb_spec i 3), (Nat.ltb_spec (3 + j) 3); try lia.
    replace (3 + j - 3)%nat with j by lia. auto.
  - generalize (H (3 + i)%nat j ltac:(lia) ltac:(lia)). unfold m6ent. destruct (Nat.ltb_spec (3 + i) 3), (Nat.ltb_spec j 3); try lia.
    replace (3 + i - 3)%nat with i by lia. auto.
  - generalize (H (3 + i)%nat (3 + j)%nat ltac:(lia) ltac:(lia)). unfold m6ent. destruct (Nat.ltb_spec (3 + i) 3), (Nat.ltb_spec (3 + j) 3); try lia.
    replace (3 + i - 3)%nat with i by lia. replace (3 + j - 3)%nat with j by lia. auto.
Qed.
Lemma v6ent_inj a b : (forall i, (i < 6)%nat -> v6ent a i = v6ent b i) -> a = b.
Proof.
  intros H. destruct a as [[] []], b as [[] []].
  pose proof (H 0%nat ltac:(lia)); pose proof (H 1%nat ltac:(lia)); pose proof (H 2%nat ltac:(lia)); pose proof (H 3%nat ltac:(lia)); pose proof (H 4%nat ltac:(lia)); pose proof (H 5%nat ltac:(lia)).
  cbn in *. congruence.
Qed.

(** ** Leaves *)
Fixpoint users (P : nat -> bool) (f : formula) : bool :=
  match f with
  | FConst _ _ _ | FNull _ _ | FIdent _ | FVar _ => true
  | FUser k => P k
  | FAdd f g | FSub f g | FMul f g | FDiv f g | FHorz f g | FVert f g => users P f && users P g
  | FAsVar _ f | FNeg f | FPow f _ | FSkew f | FVee f | FTransp f | FRow f _ | FCol f _ | FElem f _ _ | FBlock f _ _ _ _ | FDeriv f _ _ => users P f
  | FByRows l | FByCols l => forallb (users P) l
  end.
