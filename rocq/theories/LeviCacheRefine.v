(** Every history of calls means what its trees mean (C44). *)
From Coq Require Import List Arith ZArith Bool Lia Permutation.
From Verif Require Import SpecExpressions LeviCache LeviCacheProofs LeviCacheEval LeviCacheUser.
Import ListNotations.

Section Refine.
Context {V : Type} (garbage : V).
Notation node := (node V). Notation heap := (heap V).
Notation value := (value garbage). Notation inv := (inv garbage).

(** ** Growth of a vector of dependencies *)
Lemma live_upd_deps (h : heap) n ds m : live (upd h n (fun y => set_deps y ds)) m = option_map (fun x => if Nat.eq_dec n m then set_deps x ds else x) (live h m).
Proof.
  unfold live. destruct (Nat.eq_dec n m) as [<-|N].
  - rewrite upd_eq. destruct (nth_error h n) as [x|]; cbn; [|reflexivity]. destruct (alive x); reflexivity.
  - rewrite upd_ne by auto. destruct (nth_error h m) as [x|]; cbn; [|reflexivity]. destruct (alive x); reflexivity.
Qed.
Lemma upd_comm (h : heap) n m f g : n <> m -> upd (upd h n f) m g = upd (upd h m g) n f.
Proof. revert n m; induction h as [|x h IH]; intros [|n] [|m] N; cbn; auto; try lia. f_equal. apply IH. lia. Qed.
Lemma deleteID_comm (h : heap) n ds c : deleteID (upd h n (fun y => set_deps y ds)) c = option_map (fun g => upd g n (fun y => set_deps y ds)) (deleteID h c).
Proof.
  unfold deleteID. rewrite live_upd_deps. destruct (live h (fst c)) as [x|]; cbn [option_map]; [|reflexivity].
  replace (length (register (if Nat.eq_dec n (fst c) then set_deps x ds else x))) with (length (register x)) by (destruct (Nat.eq_dec n (fst c)); reflexivity).
  destruct (snd c <? length (register x)); cbn [option_map]; [|reflexivity]. f_equal.
  destruct (Nat.eq_dec n (fst c)) as [<-|N]; [|apply upd_comm; auto]. rewrite !upd_upd. apply upd_ext. reflexivity.
Qed.
Lemma deleteAll_comm l : forall (h : heap) n ds, deleteAll (upd h n (fun y => set_deps y ds)) l = option_map (fun g => upd g n (fun y => set_deps y ds)) (deleteAll h l).
Proof.
  induction l as [|c l IH]; intros h n ds; cbn [deleteAll]; [reflexivity|]. rewrite deleteID_comm. destruct (deleteID h c); cbn [option_map]; auto.
Qed.
Lemma deleteAll_spec l : forall h W, inv h (map (pair false) l ++ W) -> (forall c, In c l -> liveb h (fst c)) -> exists h', deleteAll h l = Some h' /\ inv h' W /\ alike h h'.
Proof.
  induction l as [|c l IH]; intros h W I L; cbn [deleteAll].
  - exists h. auto using alike_refl.
  - destruct (delete_spec garbage h _ false c I (L c (or_introl eq_refl))) as (h1 & -> & I1 & A1).
    destruct (IH h1 W I1) as (h2 & -> & I2 & A2). { intros d Hd. eapply alike_live; eauto. apply L; right; auto. }
    exists h2. split; [reflexivity|]. split; auto. eapply alike_trans; eauto.
Qed.
Lemma swap_spec h W n (x : node) ds : inv h (map (pair false) ds ++ W) -> nth_error h n = Some x -> alive x = true -> map fst ds = map fst (deps x) ->
  (forall c, In c ds -> exists d r, nth_error h (fst c) = Some d /\ nth_error (register d) (snd c) = Some r /\ r <> counter d) ->
  inv (upd h n (fun y => set_deps y ds)) (map (pair false) (deps x) ++ W).
Proof.
  intros I E A M NW. set (h' := upd h n (fun y => set_deps y ds)). set (W0 := map (pair false) ds ++ W) in *. set (W' := map (pair false) (deps x) ++ W).
  assert (M0 : map snd W0 = ds ++ map snd W) by (unfold W0; rewrite map_app, map_map; cbn; rewrite map_id; reflexivity).
  assert (M1 : map snd W' = deps x ++ map snd W) by (unfold W'; rewrite map_app, map_map; cbn; rewrite map_id; reflexivity).
  assert (ND0 : NoDup (ds ++ map snd W)) by (rewrite <- M0; apply I).
  assert (En : nth_error h' n = Some (set_deps x ds)) by (unfold h'; rewrite upd_eq, E; reflexivity).
  assert (Em : forall m, m <> n -> nth_error h' m = nth_error h m) by (intros; unfold h'; apply upd_ne; auto).
  assert (BK : forall m y, nth_error h' m = Some y -> exists z, nth_error h m = Some z /\ nkind y = nkind z /\ children y = children z /\ map fst (deps y) = map fst (deps z) /\
     counter y = counter z /\ computed y = computed z /\ register y = register z /\ bin y = bin z /\ buffer y = buffer z /\ alive y = alive z /\
     ((m = n /\ z = x /\ deps y = ds) \/ (m <> n /\ deps y = deps z))).
  { intros m y Ey. destruct (Nat.eq_dec m n) as [->|N].
    - rewrite En in Ey; injection Ey as <-. exists x. repeat split; auto.
    - rewrite Em in Ey by auto. exists y. repeat split; auto. }
  assert (FW : forall m y, nth_error h m = Some y -> exists z, nth_error h' m = Some z /\ nkind z = nkind y /\ children z = children y /\ map fst (deps z) = map fst (deps y) /\ register z = register y /\ counter z = counter y /\ alive z = alive y /\ bin z = bin y /\ buffer z = buffer y).
  { intros m y Ey. destruct (Nat.eq_dec m n) as [->|N].
    - rewrite E in Ey; injection Ey as <-. exists (set_deps x ds). repeat split; auto.
    - exists y. rewrite Em by auto. repeat split; auto. }
  assert (LV : forall m, liveb h m -> liveb h' m) by (intros m (y & Ey & Ay); destruct (FW m y Ey) as (z & Ez & _ & _ & _ & _ & _ & Az & _); exists z; split; congruence).
  assert (EX : forall m (y z : node), nkind y = nkind z -> map fst (deps y) = map fst (deps z) -> exports m y = exports m z) by (intros m y z Q1 Q2; unfold exports; rewrite Q1, Q2; reflexivity).
  assert (OX : forall c, In c (own x) -> In c (map snd W0) -> False) by (intros c H1 H2; eapply (i_nw _ _ _ I); eauto).
  assert (OD : forall c, In c (deps x) -> In c (own x)) by (intros; apply in_or_app; auto).
  assert (OC : forall c, In c (children x) -> In c (own x)) by (intros; apply in_or_app; auto).
  assert (IW : forall c, In c (map snd W') -> In c (deps x) \/ In c (map snd W)) by (intros c Hc; rewrite M1 in Hc; apply in_app_or; auto).
  assert (W0r : forall c, In c (map snd W) -> In c (map snd W0)) by (intros; rewrite M0; apply in_or_app; auto).
  assert (W0l : forall c, In c ds -> In c (map snd W0)) by (intros; rewrite M0; apply in_or_app; auto).
  assert (BL : below h') by (intros m y Ey c Hc; destruct (BK m y Ey) as (z & Ez & _ & Cz & _); rewrite Cz in Hc; eapply (i_lt _ _ _ I); eauto).
  assert (OWN : forall m y c, nth_error h' m = Some y -> In c (own y) -> exists z, nth_error h m = Some z /\ alive y = alive z /\ (In c (own z) /\ (m = n -> In c (children x)) \/ (m = n /\ In c ds))).
  { intros m y c Ey Hc. destruct (BK m y Ey) as (z & Ez & _ & Cz & _ & _ & _ & _ & _ & _ & Az & Q). exists z. split; auto. split; auto.
    unfold own in *. rewrite Cz in Hc. apply in_app_or in Hc. destruct Q as [(-> & -> & Dy)|(N & Dy)]; rewrite Dy in Hc.
    - destruct Hc as [Hc|Hc]; [left|right; auto]. split; [apply in_or_app; auto | auto].
    - left. split; [apply in_or_app; auto|]. congruence. }
  constructor; auto.
  - intros m y Ey c Hc. destruct (BK m y Ey) as (z & Ez & Kz & _ & Mz & _). rewrite Kz.
    assert (Q : In (fst c) (map fst (deps z))) by (rewrite <- Mz; apply in_map; auto). apply in_map_iff in Q as (e & <- & He). eapply (i_dlt _ _ _ I); eauto.
  - intros m y Ey L. destruct (BK m y Ey) as (z & Ez & Kz & Cz & _). rewrite Kz in L. rewrite Cz. eapply i_leafc; eauto.
  - intros m y Ey L. destruct (BK m y Ey) as (z & Ez & Kz & Cz & Mz & _). rewrite Kz in *. rewrite Mz. eapply i_leafd; eauto.
  - intros m y Ey L c k e Hc Ek He. destruct (BK m y Ey) as (z & Ez & Kz & Cz & Mz & _). destruct (BK _ k Ek) as (k' & Ek' & Kk & _ & Mk & _).
    rewrite (EX _ k k' Kk Mk) in He. rewrite Kz in L. rewrite Cz in Hc. rewrite Mz. eapply i_cover; eauto.
  - intros m y Ey L e He. destruct (BK m y Ey) as (z & Ez & Kz & Cz & Mz & _). rewrite Kz in L. rewrite Mz in He.
    destruct (i_from _ _ _ I _ _ Ez L e He) as (c & k & Hc & Ek & Q). destruct (FW _ _ Ek) as (k' & Ek' & Kk & _ & Mk & _).
    exists c, k'. rewrite Cz, (EX _ k' k Kk Mk). auto.
  - intros m y Ey A' c Hc. destruct (BK m y Ey) as (z & Ez & _ & Cz & _ & _ & _ & _ & _ & _ & Az & _). apply LV. rewrite Cz in Hc. apply (i_alive _ _ _ I m z Ez); auto; congruence.
  - intros c Hc. apply LV. eapply (i_strong _ _ _ I). unfold W', W0 in *. apply in_or_app. right. apply in_app_or in Hc as [Hc|Hc]; auto. apply in_map_iff in Hc as (d & [=] & _).
  - refine (eq_ind_r (fun l : list (nat * nat) => NoDup l) _ M1). apply NoDup_app_i.
    + pose proof (i_n _ _ _ I _ _ E A) as Q. apply NoDup_app_r in Q. auto.
    + apply NoDup_app_r in ND0. auto.
    + intros c H1 H2. eapply OX; eauto.
  - intros m y Ey Ay. destruct (BK m y Ey) as (z & Ez & _ & Cz & _ & _ & _ & _ & _ & _ & Az & Q). unfold own. rewrite Cz. destruct Q as [(-> & -> & ->)|(N & ->)].
    + apply NoDup_app_i.
      * pose proof (i_n _ _ _ I _ _ E A) as Q. apply NoDup_app_l in Q. auto.
      * apply NoDup_app_l in ND0. auto.
      * intros c H1 H2. eapply OX; eauto.
    + apply (i_n _ _ _ I _ _ Ez). congruence.
  - intros m1 m2 y1 y2 c Ey1 Ey2 Ay1 Ay2 N H1 H2.
    destruct (OWN _ _ _ Ey1 H1) as (z1 & Ez1 & Az1 & Q1). destruct (OWN _ _ _ Ey2 H2) as (z2 & Ez2 & Az2 & Q2).
    destruct Q1 as [(Q1 & _)|(-> & Q1)], Q2 as [(Q2 & _)|(-> & Q2)].
    + apply (i_nn _ _ _ I m1 m2 z1 z2 c); auto; congruence.
    + apply (i_nw _ _ _ I m1 z1 c Ez1); auto. congruence.
    + apply (i_nw _ _ _ I m2 z2 c Ez2); auto. congruence.
    + congruence.
  - intros m y c Ey Ay H1 H2. destruct (OWN _ _ _ Ey H1) as (z & Ez & Az & Q). apply IW in H2. assert (Az' : alive z = true) by congruence. destruct Q as [(Q & Q')|(-> & Q)], H2 as [H2|H2].
    + destruct (Nat.eq_dec m n) as [->|N].
      * pose proof (i_n _ _ _ I _ _ E A) as ND. eapply NoDup_app_d; eauto.
      * apply (i_nn _ _ _ I m n z x c); auto.
    + apply (i_nw _ _ _ I m z c Ez); auto.
    + eapply OX; eauto.
    + eapply NoDup_app_d; eauto.
  - intros c Hc. assert (H : holds h W0 c).
    { destruct Hc as [Hc|(m & y & Ey & Ay & Hc)].
      - apply IW in Hc as [Hc|Hc]; [right; exists n, x; auto | left; auto].
      - destruct (OWN _ _ _ Ey Hc) as (z & Ez & Az & [(Q & _)|(-> & Q)]); [right; exists m, z; repeat split; auto; congruence | left; auto]. }
    destruct (i_slot _ _ _ I c H) as (y & Ey & Q). 
    destruct (FW _ _ Ey) as (z & Ez & Z1 & Z2 & Z3 & Z4 & Z5 & Z6 & Z7 & Z8). exists z. rewrite Z4, Z7. auto.
  - intros m y Ey. destruct (BK m y Ey) as (z & Ez & _ & _ & _ & _ & _ & Rz & Bz & _). rewrite Rz, Bz. eapply i_bin; eauto.
  - intros m y j r Ey Er. destruct (BK m y Ey) as (z & Ez & _ & _ & _ & Cz & _ & Rz & Bz & _). rewrite Rz in Er. rewrite Cz. eapply i_reg; eauto.
  - intros m y j Ey L Er. destruct (BK m y Ey) as (z & Ez & Kz & _ & _ & Cz & Pz & Rz & Bz & _). rewrite Rz, Cz in Er. rewrite Pz. eapply i_comp; eauto. congruence.
  - intros m y Ey Ay L C D. destruct (BK m y Ey) as (z & Ez & Kz & Chz & _ & Cz & Pz & Rz & Bz & Uz & Az & _). rewrite Uz.
    rewrite (value_same garbage h h' (i_lt _ _ _ I) BL).
    + apply (i_val _ _ _ I m z Ez); try congruence. intros D2. apply D. apply (dirty_transfer2 garbage h h' W0 I) with (x := z); auto; try congruence.
      * intros k w e Ek Ak He Ne. destruct (FW _ _ Ek) as (w' & Ew' & _ & _ & Mw & _). destruct (Nat.eq_dec k n) as [->|N].
        -- rewrite E in Ek; injection Ek as <-. rewrite En in Ew'; injection Ew' as <-. cbn in Mw.
           assert (Q : In (fst e) (map fst ds)) by (rewrite M; apply in_map; auto). apply in_map_iff in Q as (e' & Fe & He').
           exists (set_deps x ds), e'. repeat split; auto. right. destruct (NW e' He') as (d & r & Ed & Er & Nr). destruct (FW _ _ Ed) as (d' & Ed' & _ & _ & _ & Rd & Cd & _).
           apply (new_reg _ _ _ d' r); auto; congruence.
        -- exists w, e. rewrite Em by auto. auto.
      * intros k w e d r Ek Ak He Ne Ed Er Nr. destruct (FW _ _ Ed) as (d' & Ed' & _ & _ & _ & Rd & Cd & _). apply (new_reg _ _ _ d' r); auto; congruence.
    + unfold h'. apply upd_length.
    + intros k w Ek. destruct (FW _ _ Ek) as (w' & Ew' & Kw & Cw & _ & _ & _ & _ & _ & Uw). exists w'. rewrite Cw. auto.
Qed.
Lemma relocate_spec h W n : inv h W -> exists h', relocate h n = Some h' /\ inv h' W /\ frames h h'.
Proof.
  intros I. unfold relocate. destruct (live h n) as [x|] eqn:Lx; [|exists h; auto using frames_refl]. apply live_some in Lx as (E & A).
  destruct (copyAll_spec garbage (map fst (deps x)) h W false I) as (h1 & ds & -> & M & I1 & A1 & N1 & _).
  { intros e He. eapply deps_alive; eauto. }
  destruct (proj2 A1 _ _ E) as (x1 & E1 & (S1 & S2 & S3 & _) & Al). rewrite A in Al.
  assert (SW := swap_spec h1 W n x1 ds I1 E1 Al). rewrite S3 in SW. specialize (SW M).
  specialize (SW N1).
  destruct (deleteAll_spec (deps x) _ _ SW) as (h2 & E2 & I2 & A2).
  { intros c Hc. apply (live_upd_iff h1 n (fun y => set_deps y ds)); [reflexivity|]. eapply alike_live; eauto. eapply deps_alive; eauto. apply in_map; auto. }
  rewrite deleteAll_comm in E2. destruct (deleteAll h1 (deps x)) as [g|]; [|discriminate]. injection E2 as <-.
  exists (upd g n (fun y => set_deps y ds)). split; [reflexivity|]. split; [assumption|].
  eapply frames_trans; [apply sames_frames, alike_sames, A1|]. eapply frames_trans; [|apply sames_frames, alike_sames, A2].
  apply upd_frames. intros y. repeat split; auto.
Qed.

(** ** Objects that stand for a tree *)
Inductive rep (vm : list nat) (h : heap) : nat -> tree V -> Prop :=
| r_var n x y : nth_error vm x = Some n -> nth_error h n = Some y -> (nkind y = KVar \/ nkind y = KMutable) -> rep vm h n (TVar x)
| r_const n y : nth_error h n = Some y -> nkind y = KConst -> rep vm h n (TConst (buffer y))
| r_op n y f args : nth_error h n = Some y -> nkind y = KOp f -> reps vm h (map fst (children y)) args -> rep vm h n (TOp f args)
| r_from n y b c t : nth_error h n = Some y -> nkind y = KFrom b -> map fst (children y) = [c] -> rep vm h c t -> rep vm h n (TFrom t)
with reps (vm : list nat) (h : heap) : list nat -> list (tree V) -> Prop :=
| r_nil : reps vm h [] []
| r_cons c t cs ts : rep vm h c t -> reps vm h cs ts -> reps vm h (c :: cs) (t :: ts).
Scheme rep_mind := Induction for rep Sort Prop with reps_mind := Induction for reps Sort Prop.

Lemma rep_later vm h ext h' : frames h h' -> forall n t, rep vm h n t -> rep (vm ++ ext) h' n t.
Proof.
  intros (_ & F). apply (rep_mind vm h (fun n t _ => rep (vm ++ ext) h' n t) (fun l ts _ => reps (vm ++ ext) h' l ts)).
  - intros n x y E Ey K. destruct (F _ _ Ey) as (z & Ez & A1 & A2 & A3). eapply r_var; eauto; [|rewrite A1; auto].
    rewrite nth_error_app1; auto. eapply nth_lt; eauto.
  - intros n y Ey K. destruct (F _ _ Ey) as (z & Ez & A1 & A2 & A3). rewrite <- A3 by (rewrite K; reflexivity). apply r_const; [auto|congruence].
  - intros n y f args Ey K _ IH. destruct (F _ _ Ey) as (z & Ez & A1 & A2 & A3). eapply r_op; [exact Ez | rewrite A1; exact K | rewrite A2; exact IH].
  - intros n y b c t Ey K C _ IH. destruct (F _ _ Ey) as (z & Ez & A1 & A2 & A3). eapply r_from; [exact Ez | rewrite A1; exact K | rewrite A2; exact C | exact IH].
  - constructor.
  - intros. constructor; auto.
Qed.
Lemma rep_keep vm h h' n t : frames h h' -> rep vm h n t -> rep vm h' n t.
Proof. intros F R. rewrite <- (app_nil_r vm). apply (rep_later vm h [] h' F n t R). Qed.
Definition vars_ok (vm : list nat) (h : heap) (vs : list V) : Prop :=
  length vm = length vs /\ NoDup vm /\
  forall x n, nth_error vm x = Some n -> exists y, nth_error h n = Some y /\ (nkind y = KVar \/ nkind y = KMutable) /\ nth_error vs x = Some (buffer y).
Lemma rep_value dflt vm h vs : below h -> vars_ok vm h vs -> forall n t, rep vm h n t -> value h n = meaning vs dflt t.
Proof.
  intros B (_ & _ & VO). apply (rep_mind vm h (fun n t _ => value h n = meaning vs dflt t) (fun l ts _ => map (value h) l = map (meaning vs dflt) ts)).
  - intros n x y E Ey K. rewrite (value_unfold garbage h n y B Ey). destruct (VO x n E) as (y' & Ey' & _ & Q). rewrite Ey in Ey'; injection Ey' as <-.
    cbn. rewrite (nth_error_nth _ _ _ Q). destruct K as [-> | ->]; reflexivity.
  - intros n y Ey K. rewrite (value_unfold garbage h n y B Ey), K. reflexivity.
  - intros n y f args Ey K _ IH. rewrite (value_unfold garbage h n y B Ey), K. cbn. rewrite <- IH, map_map. reflexivity.
  - intros n y b c t Ey K C _ IH. rewrite (value_unfold garbage h n y B Ey), K. cbn. rewrite <- IH.
    transitivity (nth 0 (map (value h) (map fst (children y))) garbage); [now rewrite map_map|]. rewrite C. reflexivity.
  - reflexivity.
  - intros. cbn. f_equal; auto.
Qed.
Lemma vars_later vm h vs h' : frames h h' -> vars_ok vm h vs -> vars_ok vm h' vs.
Proof.
  intros (_ & F) (L & N & VO). split; auto. split; auto. intros x n E. destruct (VO x n E) as (y & Ey & K & Q).
  destruct (F _ _ Ey) as (z & Ez & A1 & A2 & A3). exists z. rewrite A1, A3 by (destruct K as [-> | ->]; reflexivity). auto.
Qed.

Definition standing (vm : list nat) (h : heap) (o : option handle) (t : option (tree V)) : Prop :=
  match o, t with Some c, Some t => rep vm h (fst c) t | None, None => True | _, _ => False end.
Definition related (s : ustate V) (ms : meaning_state V) : Prop :=
  inv (mem s) (hands (handles s)) /\
  exists vm, Forall2 (standing vm (mem s)) (handles s) (trees ms) /\ vars_ok vm (mem s) (variables ms).

Lemma F2_nth {A B} (P : A -> B -> Prop) l m : Forall2 P l m -> forall k, match nth_error l k, nth_error m k with Some a, Some b => P a b | None, None => True | _, _ => False end.
Proof. induction 1; intros [|k]; cbn; auto. apply IHForall2. Qed.
Lemma standing_handle vm s ms : Forall2 (standing vm (mem s)) (handles s) (trees ms) -> forall k,
  match handle_of s k, tree_of ms k with Some c, Some t => rep vm (mem s) (fst c) t /\ In (Some c) (handles s) | None, None => True | _, _ => False end.
Proof.
  intros F k. pose proof (F2_nth _ _ _ F k) as Q. unfold handle_of, tree_of.
  destruct (nth_error (handles s) k) as [[c|]|] eqn:E1, (nth_error (trees ms) k) as [[t|]|]; cbn in Q; auto; try contradiction. split; auto. eapply nth_error_In; eauto.
Qed.
Lemma standing_later vm ext h h' us ts : frames h h' -> Forall2 (standing vm h) us ts -> Forall2 (standing (vm ++ ext) h') us ts.
Proof.
  intros F. induction 1 as [|o t us ts H _ IH]; constructor; auto. destruct o as [c|], t as [t|]; cbn in *; auto. eapply rep_later; eauto.
Qed.
Lemma standing_keep vm h h' us ts : frames h h' -> Forall2 (standing vm h) us ts -> Forall2 (standing vm h') us ts.
Proof. intros F R. rewrite <- (app_nil_r vm). apply (standing_later vm [] h h' us ts F R). Qed.
Lemma hands_app us vs : hands (us ++ vs) = hands us ++ hands vs.
Proof. unfold hands. apply flat_map_app. Qed.
Lemma hands_live s ms c : related s ms -> In (Some c) (handles s) -> liveb (mem s) (fst c).
Proof. intros (I & _) H. apply (i_strong _ _ _ I). apply hands_in; auto. Qed.
(** A new handle. *)
Lemma hand_spec us h n : inv h (hands us) -> liveb h n -> forall g, exists h1 i, hand (mkU g us) h n = Some (mkU h1 (us ++ [Some (n, i)])) /\
  inv h1 (hands (us ++ [Some (n, i)])) /\ frames h h1.
Proof.
  intros I L g. unfold hand. destruct (alloc_spec garbage h _ n I L true) as (h1 & i & -> & I1 & A1 & _). exists h1, i. split; [reflexivity|]. split.
  - rewrite hands_app. cbn. eapply inv_perm; [|exact I1]. apply Permutation_cons_append.
  - apply sames_frames, alike_sames; auto.
Qed.
Lemma F2_snoc {A B} (P : A -> B -> Prop) l m a b : Forall2 P l m -> P a b -> Forall2 P (l ++ [a]) (m ++ [b]).
Proof. intros F H. apply Forall2_app; auto. Qed.
Lemma hands_drop us k c : nth_error us k = Some (Some c) -> Permutation (hands us) ((true, c) :: hands (set_at us k None)).
Proof.
  revert k; induction us as [|o us IH]; intros [|k] E; cbn in E; try discriminate.
  - injection E as ->. cbn. reflexivity.
  - specialize (IH k E). cbn [set_at]. unfold hands in *. cbn [flat_map]. eapply perm_trans; [apply Permutation_app_head, IH|]. destruct o; cbn; [apply perm_swap | reflexivity].
Qed.
Lemma F2_set {A B} (P : A -> B -> Prop) l m : Forall2 P l m -> forall k a b, P a b -> Forall2 P (set_at l k a) (set_at m k b).
Proof. induction 1; intros [|k] a b H1; cbn; constructor; auto. Qed.
Lemma busy_size (h : heap) : busy h <= size_of h.
Proof. unfold busy, size_of, list_sum. induction h as [|x h IH]; cbn; [lia|]. destruct (alive x); lia. Qed.
Lemma nodes_trees vm s ms : Forall2 (standing vm (mem s)) (handles s) (trees ms) -> forall l,
  match nodes_of s l, trees_of ms l with
  | Some ns, Some ts => reps vm (mem s) ns ts /\ forall n, In n ns -> exists c, In (Some c) (handles s) /\ fst c = n
  | None, None => True | _, _ => False end.
Proof.
  intros F. induction l as [|k l IH]; cbn; [split; [constructor|intros n []]|].
  pose proof (standing_handle vm s ms F k) as Q. destruct (handle_of s k) as [c|], (tree_of ms k) as [t|]; try contradiction; auto.
  destruct (nodes_of s l), (trees_of ms l); try contradiction; auto. destruct Q as (Q1 & Q2), IH as (I1 & I2). split; [constructor; auto|].
  intros n [<-|Hn]; eauto.
Qed.

Theorem step_refines dflt s ms c : related s ms ->
  exists s', step garbage s c = Some (s', snd (mean dflt ms c)) /\ related s' (fst (mean dflt ms c)).
Proof.
  intros R. destruct R as (I & vm & F & VO). pose proof (conj I (ex_intro (fun vm => _ /\ _) vm (conj F VO)) : related s ms) as R0.
  destruct s as (h, us). cbn [mem handles] in *.
  (* new leaves *)
  assert (LEAF : forall k v, is_leaf k = true -> (k = KVar \/ k = KMutable \/ k = KConst) ->
    exists s', (let (h1, n) := construct_leaf h k v in match hand (mkU h us) h1 n with Some s1 => Some (s1, @None V) | None => None end) = Some (s', None) /\
      related s' (match k with KConst => add ms (TConst v) | _ => mkMeaning (trees ms ++ [Some (TVar (length (variables ms)))]) (variables ms ++ [v]) end)).
  { intros k v LK HK. destruct (construct_leaf_spec garbage h _ k v I LK) as (h1 & x & -> & I1 & F1 & Ex & Ax & Kx & Bx & H1).
    destruct (hand_spec us h1 (length h) I1) with (g := h) as (h2 & i & -> & I2 & F2); [exists x; auto|]. eexists. split; [reflexivity|].
    destruct (proj2 F2 _ _ Ex) as (y & Ey & Y1 & Y2 & Y3). assert (LX : is_leaf (nkind x) = true) by (rewrite Kx; auto).
    assert (FF : frames h h2) by exact (frames_trans h h1 h2 F1 F2).
    assert (VO' : vars_ok vm h2 (variables ms)) by (apply (vars_later vm h _ h2 FF VO)).
    assert (VARS : k = KVar \/ k = KMutable -> related (mkU h2 (us ++ [Some (length h, i)])) (mkMeaning (trees ms ++ [Some (TVar (length (variables ms)))]) (variables ms ++ [v]))).
    { intros Kk. assert (Ky : nkind y = KVar \/ nkind y = KMutable) by (rewrite Y1, Kx; exact Kk).
      split; [exact I2|]. exists (vm ++ [length h]). cbn [mem handles trees variables].
      destruct VO' as (L & ND & VO2), VO as (_ & _ & VO1).
      assert (LAST : nth_error (vm ++ [length h]) (length (variables ms)) = Some (length h)) by (rewrite <- L, nth_error_app2, Nat.sub_diag by lia; reflexivity).
      split; [|split; [|split]].
      - apply F2_snoc; [apply (standing_later vm _ h h2 _ _ FF F)|]. cbn. eapply r_var; eauto.
      - rewrite !app_length. cbn. lia.
      - apply NoDup_app_i; [auto|constructor; [intros []|constructor]|]. intros n Hn [<-|[]]. apply In_nth_error in Hn as (j & Hj).
        destruct (VO1 _ _ Hj) as (z & Ez & _). apply nth_lt in Ez. lia.
      - intros j n E. destruct (Nat.lt_ge_cases j (length vm)) as [LT|GE].
        + rewrite nth_error_app1 in E by auto. destruct (VO2 j n E) as (z & Ez & K & Q). exists z. split; [auto|]. split; [auto|]. rewrite nth_error_app1; [auto|lia].
        + assert (j = length (variables ms)) by (apply nth_lt in E; rewrite app_length in E; cbn in E; lia). subst j. rewrite LAST in E. injection E as <-.
          exists y. split; [auto|]. split; [auto|]. rewrite nth_error_app2, Nat.sub_diag by lia. cbn. rewrite Y3, Bx; auto. }
    destruct HK as [HK | [HK | HK] ]; subst k; [apply VARS; auto | apply VARS; auto |].
    split; [exact I2|]. exists vm. cbn [mem handles trees variables]. split; [|exact VO'].
    apply F2_snoc; [replace vm with (vm ++ []) by apply app_nil_r; apply (standing_later vm _ h h2 _ _ FF F)|].
    cbn. replace v with (buffer y) by (rewrite Y3; auto). apply r_const; auto. congruence. }
  (* a new handle to something *)
  assert (KEEP : forall h1 n t, frames h h1 -> inv h1 (hands us) -> liveb h1 n -> rep vm h1 n t ->
    exists s', match hand (mkU h us) h1 n with Some s1 => Some (s1, @None V) | None => None end = Some (s', None) /\ related s' (add ms t)).
  { intros h1 n t F1 I1 L1 R1. destruct (hand_spec us h1 n I1 L1 h) as (h2 & i & -> & I2 & F2). eexists. split; [reflexivity|]. split; [exact I2|]. exists vm.
    cbn [mem handles trees variables add]. assert (FF : frames h h2) by exact (frames_trans h h1 h2 F1 F2). split; [|apply (vars_later vm h _ h2 FF VO)].
    apply F2_snoc; [apply (standing_keep vm h h2 _ _ FF F)|]. cbn. apply (rep_keep vm h1 h2 n t F2 R1). }
  assert (SAME : forall h1, frames h h1 -> inv h1 (hands us) -> related (mkU h1 us) ms).
  { intros h1 F1 I1. split; [exact I1|]. exists vm. cbn [mem handles]. split; [|apply (vars_later vm h _ h1 F1 VO)].
    apply (standing_keep vm h h1 _ _ F1 F). }
  assert (SH := standing_handle vm (mkU h us) ms F). cbn [mem handles] in SH.
  assert (LV : forall d, In (Some d) us -> liveb h (fst d)) by (intros d Hd; apply (hands_live (mkU h us) ms d R0 Hd)).
  destruct c as [x|x|x|f args|b k|k|k|k x|k|k|n]; cbn [step mean fst snd mem handles].
  - destruct (LEAF KVar x eq_refl) as (s' & E & Q); [auto|]. exists s'. split; [|exact Q]. revert E. destruct (construct_leaf h KVar x). auto.
  - destruct (LEAF KMutable x eq_refl) as (s' & E & Q); [auto|]. exists s'. split; [|exact Q]. revert E. destruct (construct_leaf h KMutable x). auto.
  - destruct (LEAF KConst x eq_refl) as (s' & E & Q); [auto|]. exists s'. split; [|exact Q]. revert E. destruct (construct_leaf h KConst x). auto.
  - pose proof (nodes_trees vm (mkU h us) ms F args) as Q. destruct (nodes_of (mkU h us) args) as [ns|], (trees_of ms args) as [ts|]; try contradiction; [|eauto].
    destruct Q as (Q1 & Q2). cbn [mem handles] in *.
    destruct (construct_spec garbage h _ (KOp f) ns I eq_refl) as (h1 & x & -> & I1 & F1 & Ex & Ax & Kx & Cx).
    { intros n Hn. destruct (Q2 n Hn) as (d & Hd & <-). auto. }
    apply KEEP; auto; [exists x; auto|]. eapply r_op; eauto. rewrite Cx.
    clear - Q1 F1. induction Q1; constructor; auto. eapply rep_keep; eauto.
  - specialize (SH k). destruct (handle_of (mkU h us) k) as [d|], (tree_of ms k) as [t|]; try contradiction; [|eauto]. destruct SH as (Q1 & Q2).
    destruct (construct_spec garbage h _ (KFrom b) [fst d] I eq_refl) as (h1 & x & -> & I1 & F1 & Ex & Ax & Kx & Cx).
    { intros n [<-|[]]. auto. }
    apply KEEP; auto; [exists x; auto|]. eapply r_from; eauto. eapply rep_keep; eauto.
  - specialize (SH k). destruct (handle_of (mkU h us) k) as [d|], (tree_of ms k) as [t|]; try contradiction; [|eauto]. destruct SH as (Q1 & Q2).
    apply KEEP; auto using frames_refl.
  - pose proof (F2_nth _ _ _ F k) as Q. unfold handle_of; cbn [handles].
    assert (KE : forall A (l : list (option A)), nth_error l k = None \/ nth_error l k = Some None -> set_at l k None = l).
    { clear. intros A l. revert k. induction l as [|o l IH]; intros [|k] [H|H]; cbn in *; auto; try discriminate; f_equal; auto. injection H as ->. reflexivity. }
    destruct (nth_error us k) as [[d|]|] eqn:EU.
    + destruct (release_spec garbage (set_at us k None) (S (size_of h)) h [(true, d)]) as (h1 & -> & I1 & F1).
      { eapply inv_perm; [|exact I]. eapply perm_trans; [apply (hands_drop us k d EU)|]. apply Permutation_cons_append. }
      { cbn. pose proof (busy_size h). lia. }
      eexists. split; [reflexivity|]. split; [exact I1|]. exists vm. cbn [mem handles trees variables]. split; [|apply (vars_later vm h _ h1 F1 VO)].
      apply F2_set; [|exact Logic.I]. apply (standing_keep vm h h1 _ _ F1 F).
    + destruct (nth_error (trees ms) k) as [[t|]|] eqn:ET; try contradiction. rewrite KE by auto. destruct ms; eauto.
    + destruct (nth_error (trees ms) k) as [[t|]|] eqn:ET; try contradiction. rewrite KE by auto. destruct ms; eauto.
  - specialize (SH k). destruct (handle_of (mkU h us) k) as [d|], (tree_of ms k) as [t|]; try contradiction; [|eauto]. destruct SH as (Q1 & Q2).
    destruct (live_liveb _ _ (LV d Q2)) as (y & -> & Ey & Ay).
    assert (AS : match nkind y with KVar | KMutable | KFrom _ => True | _ => False end -> inv (upd h (fst d) (fun y => reset (set_buffer x y))) (hands us)) by (intros K; eapply assign_spec; eauto).
    assert (ASV : forall j, t = TVar j -> nth_error vm j = Some (fst d) -> nkind y = KVar \/ nkind y = KMutable ->
       related (mkU (upd h (fst d) (fun y => reset (set_buffer x y))) us) (mkMeaning (trees ms) (set_at (variables ms) j x))).
    { intros j -> Ej K. split; [apply AS; destruct K as [-> | ->]; exact Logic.I|]. exists vm. cbn [mem handles trees variables].
      set (h1 := upd h (fst d) (fun y => reset (set_buffer x y))).
      assert (E1 : nth_error h1 (fst d) = Some (reset (set_buffer x y))) by (unfold h1; rewrite upd_eq, Ey; reflexivity).
      assert (RP : forall n t, rep vm h n t -> rep vm h1 n t).
      { apply (rep_mind vm h (fun n t _ => rep vm h1 n t) (fun l ts _ => reps vm h1 l ts)).
        - intros n z w E Ew Kw. destruct (Nat.eq_dec n (fst d)) as [->|N]; [eapply r_var; eauto|]. eapply r_var; eauto. unfold h1. rewrite upd_ne; auto.
        - intros n w Ew Kw. assert (n <> fst d) by (intros ->; rewrite Ey in Ew; injection Ew as <-; destruct K; congruence). apply r_const; auto. unfold h1. rewrite upd_ne; auto.
        - intros n w f args Ew Kw _ IH. assert (n <> fst d) by (intros ->; rewrite Ey in Ew; injection Ew as <-; destruct K; congruence). eapply r_op; eauto. unfold h1. rewrite upd_ne; auto.
        - intros n w b c t0 Ew Kw Cw _ IH. assert (n <> fst d) by (intros ->; rewrite Ey in Ew; injection Ew as <-; destruct K; congruence). eapply r_from; eauto. unfold h1. rewrite upd_ne; auto.
        - constructor.
        - intros. constructor; auto. }
      split.
      - clear - F RP. induction F as [|o t us ts H _ IH]; constructor; auto. destruct o, t; cbn in *; auto.
      - destruct VO as (L & ND & VO1). split; [rewrite set_at_length; auto|]. split; auto. intros j2 n E. destruct (VO1 j2 n E) as (w & Ew & Kw & Q).
        destruct (Nat.eq_dec j2 j) as [->|N].
        + rewrite Ej in E; injection E as <-. rewrite Ey in Ew; injection Ew as <-. exists (reset (set_buffer x y)). split; auto. split; [exact Kw|]. apply set_at_eq. eapply nth_lt; eauto.
        + exists w. assert (n <> fst d). { intros ->. apply N. rewrite NoDup_nth_error in ND. apply ND; [eapply nth_lt; eauto|congruence]. }
          unfold h1. rewrite upd_ne by auto. rewrite set_at_ne by auto. auto. }
    inversion Q1; subst; match goal with H : nth_error h (fst d) = Some ?w |- _ => rewrite Ey in H; injection H as <- end.
    + match goal with H : nkind y = KVar \/ nkind y = KMutable |- _ => pose proof H as K end. destruct K as [K|K]; rewrite K; eexists; split; [reflexivity|eapply ASV; eauto | reflexivity | eapply ASV; eauto].
    + match goal with H : nkind y = _ |- _ => rewrite H end. eauto.
    + match goal with H : nkind y = _ |- _ => rewrite H end. eauto.
    + match goal with H : nkind y = KFrom _ |- _ => rewrite H in *; rename H into KY end. eexists. split; [reflexivity|]. apply SAME; [|apply AS; exact Logic.I].
      split; [rewrite upd_length; lia|]. intros n w Ew. destruct (Nat.eq_dec n (fst d)) as [->|N].
      * rewrite Ey in Ew; injection Ew as <-. exists (reset (set_buffer x y)). rewrite upd_eq, Ey. split; auto. repeat split; auto. rewrite KY. discriminate.
      * exists w. rewrite upd_ne by auto. split; auto. repeat split; auto.
  - specialize (SH k). destruct (handle_of (mkU h us) k) as [d|], (tree_of ms k) as [t|]; try contradiction; [|eauto]. destruct SH as (Q1 & Q2).
    destruct (isNew_spec garbage _ (S (fst d)) h d I) as (h1 & b & -> & _ & B1 & _); auto.
    { left. apply in_map_iff. exists (true, d). split; auto. apply hands_in; auto. }
    eexists. split; [reflexivity|]. apply SAME; [apply statics_frames, bump_statics; auto | eapply inv_bump; eauto].
  - specialize (SH k). destruct (handle_of (mkU h us) k) as [d|], (tree_of ms k) as [t|]; try contradiction; [|eauto]. destruct SH as (Q1 & Q2).
    destruct (evaluateID_spec garbage _ (S (fst d)) h d I) as (h1 & -> & I1 & (S1 & _) & _); auto.
    { apply (usable_W garbage); auto. apply in_map_iff. exists (true, d). split; auto. apply hands_in; auto. }
    eexists. split; [rewrite (rep_value dflt vm h (variables ms) (i_lt _ _ _ I) VO _ _ Q1); reflexivity|]. apply SAME; auto. apply statics_frames; auto.
  - destruct (relocate_spec h _ n I) as (h1 & -> & I1 & F1). eexists. split; [reflexivity|]. apply SAME; auto.
Qed.
Theorem run_refines dflt : forall cs s ms, related s ms ->
  exists s', runC garbage s cs = Some (s', snd (means dflt ms cs)) /\ related s' (fst (means dflt ms cs)).
Proof.
  induction cs as [|c cs IH]; intros s ms R; cbn [runC means]; [exists s; auto|].
  destruct (step_refines dflt s ms c R) as (s1 & -> & R1). destruct (mean dflt ms c) as (ms1, o) eqn:EM. cbn [fst snd] in R1.
  destruct (IH s1 ms1 R1) as (s2 & E2 & R2). destruct (means dflt ms1 cs) as (ms2, os) eqn:E3. cbn [fst snd] in *. rewrite E2. eauto.
Qed.
Lemma related_start : related start (mkMeaning [] []).
Proof.
  split.
  - assert (N : forall n (x : node), nth_error (@nil node) n = Some x -> False) by (intros [|n] x E; discriminate E).
    unfold start; cbn. constructor; cbn; intros; try contradiction; try (exfalso; eapply N; eassumption).
    + intros n x E. exfalso; eauto.
    + constructor.
    + destruct H as [[]|(n & x & E & _)]. exfalso; eauto.
  - exists []. split; [constructor|]. split; [reflexivity|]. split; [constructor|]. intros [|x] n E; discriminate E.
Qed.
End Refine.
