(** Two image updates that see the same do the same: a simulation between two instances of the image update. *)
From Coq Require Import List ZArith QArith Bool Arith Lia.
From Verif Require Import Util StatModel FsetModel ImgModel ImgProofs.
Import ListNotations.

Section Sim.
Context {Patch W1 W2 : Type}.
Variables (cf : config) (G1 : geom Patch W1) (G2 : geom Patch W2) (R : W1 -> W2 -> Prop) (U : W1 -> nat -> Prop).
(** the two see the same, as far as slots in use ([U]) are concerned, and keep doing so *)
Record alike : Prop := {
  al_begin : forall a b, R a b -> R (g_begin G1 a) (g_begin G2 b);
  al_begin_u : forall a i, U a i -> U (g_begin G1 a) i;
  al_pre : forall a b i c, R a b -> U a i -> g_pre G1 a i c = g_pre G2 b i c;
  al_update : forall a b i c, R a b -> U a i -> R (g_update G1 a i c) (g_update G2 b i c);
  al_update_u : forall a i c j, U a j -> U (g_update G1 a i c) j;
  al_negative : forall a b i, R a b -> U a i -> g_negative G1 a i = g_negative G2 b i;
  al_tracked : forall a b i c, R a b -> U a i -> g_tracked G1 a i c = g_tracked G2 b i c;
  al_drop : forall a b i, R a b -> U a i -> R (g_drop G1 a i) (g_drop G2 b i);
  al_drop_u : forall a i j, U a j -> j <> i -> U (g_drop G1 a i) j;
  al_repatch : forall a b i, R a b -> U a i -> g_repatch G1 a i = g_repatch G2 b i;
  al_patched : forall a b i, R a b -> U a i -> R (g_patched G1 a i) (g_patched G2 b i);
  al_patched_u : forall a i j, U a j -> U (g_patched G1 a i) j;
  al_cands : forall a b c, R a b -> g_cands G1 a c = g_cands G2 b c;
  al_proj : forall a b c, R a b -> g_proj G1 a c = g_proj G2 b c;
  al_choose : forall a b c, R a b -> g_choose G1 a c = g_choose G2 b c;
  al_new : forall a b i c, R a b -> R (g_new G1 a i c) (g_new G2 b i c);
  al_end : forall a b, R a b -> R (g_end G1 a) (g_end G2 b) }.
Hypothesis AL : alike.

Record same (x : ist Patch W1) (y : ist Patch W2) : Prop := {
  sm_fs : i_fs x = i_fs y; sm_st : i_st x = i_st y; sm_id : i_id x = i_id y; sm_cc : i_cc x = i_cc y; sm_log : i_log x = i_log y; sm_w : R (i_w x) (i_w y) }.
Record tied (x : ist Patch W1) (y : ist Patch W2) : Prop := { td_same : same x y; td_use : forall i, slot_valid x i = true -> U (i_w x) i }.
Lemma same_valid x y i : same x y -> slot_valid x i = slot_valid y i. Proof. intros [F _ _ _ _ _]. unfold slot_valid. now rewrite F. Qed.
Lemma same_cam x y i : same x y -> slot_cam x i = slot_cam y i. Proof. intros [F _ _ _ _ _]. unfold slot_cam. now rewrite F. Qed.
Lemma same_nmax x y : same x y -> nmax x = nmax y. Proof. intros [F _ _ _ _ _]. unfold nmax. now rewrite F. Qed.
Lemma same_active x y : same x y -> active cf x = active cf y. Proof. intros S. unfold active. now rewrite (sm_cc _ _ S), (sm_id _ _ S), (same_cam _ _ _ S). Qed.
Lemma same_stat x y i : same x y -> stat_of x i = stat_of y i. Proof. intros [_ F _ _ _ _]. unfold stat_of. now rewrite F. Qed.

Lemma tied_fields x y x' y' : i_fs x' = i_fs x -> i_w x' = i_w x -> i_w y' = i_w y -> tied x y -> i_fs x' = i_fs y' -> i_st x' = i_st y' -> i_id x' = i_id y' -> i_cc x' = i_cc y' -> i_log x' = i_log y' -> tied x' y'.
Proof.
  intros A B C [S V] H1 H2 H3 H4 H5. constructor; [constructor; auto; rewrite B, C; apply (sm_w _ _ S)|].
  intros i. unfold slot_valid. rewrite A, B. apply V.
Qed.
Ltac fields S := destruct (td_same _ _ S) as [? ? ? ? ? ?].
Lemma tied_put x y i c s : tied x y -> tied (put_status i c s x) (put_status i c s y).
Proof. intros S. fields S. apply (tied_fields x y); try reflexivity; auto; cbn; congruence. Qed.
Lemma tied_emit x y e : tied x y -> tied (emit e x) (emit e y).
Proof. intros S. fields S. apply (tied_fields x y); try reflexivity; auto; cbn; congruence. Qed.
Lemma tied_advance x y : tied x y -> tied (advance cf x) (advance cf y).
Proof.
  intros S. fields S. unfold advance. rewrite sm_cc0. destruct (_ || _); apply (tied_fields x y); try reflexivity; auto; cbn; congruence.
Qed.
Lemma tied_remove x y i : tied x y -> slot_valid x i = true -> tied (remove G1 i x) (remove G2 i y).
Proof.
  intros S V. fields S. pose proof (td_use _ _ S) as T. constructor.
  - constructor; cbn [remove emit with_w with_fs i_fs i_st i_id i_cc i_log i_w]; auto; try congruence. apply (al_drop AL); auto.
  - intros j Vj. rewrite valid_remove in Vj. apply andb_true_iff in Vj as [Vj Nj]. apply negb_true_iff, Nat.eqb_neq in Nj. cbn [remove emit with_w i_w]. apply (al_drop_u AL); auto.
Qed.
Lemma tied_fold {A} (f : ist Patch W1 -> A -> ist Patch W1) g l : (forall x y a, tied x y -> tied (f x a) (g y a)) -> forall x y, tied x y -> tied (fold_left f l x) (fold_left g l y).
Proof. intros K. induction l as [|a l IH]; intros x y S; [exact S|]. cbn [fold_left]. apply IH. now apply K. Qed.
Lemma tied_round t x y : tied x y -> fst (pre_round cf G1 t x) = fst (pre_round cf G2 t y) /\ tied (snd (pre_round cf G1 t x)) (snd (pre_round cf G2 t y)) /\
  (fst (pre_round cf G1 t x) = true -> slot_valid (snd (pre_round cf G1 t x)) (i_id (snd (pre_round cf G1 t x))) = true).
Proof.
  intros S. fields S. pose proof (td_same _ _ S) as Q. unfold pre_round. rewrite <- (same_valid _ _ _ Q), <- sm_id0, <- (same_active _ _ Q), <- sm_cc0.
  destruct (slot_valid x (i_id x)) eqn:V; [|split; [reflexivity|split; [exact S|discriminate]]].
  rewrite <- (al_pre AL _ _ _ (active cf x) sm_w0 (td_use _ _ S _ V)).
  set (x1 := if (i_cc x =? 0)%nat then _ else x). set (y1 := if (i_cc x =? 0)%nat then _ else y).
  assert (T : tied x1 y1 /\ i_fs x1 = i_fs x /\ i_id x1 = i_id x).
  { unfold x1, y1. destruct (i_cc x =? 0)%nat; [|auto]. split; [|split; reflexivity]. apply tied_emit. apply (tied_fields x y); try reflexivity; auto. cbn. now rewrite sm_st0. }
  destruct T as (T & T1 & T2). apply (tied_emit _ _ (EvVisit (i_id x) (active cf x))) in T.
  destruct (g_pre G1 (i_w x) (i_id x) (active cf x)); cbn [fst snd]; (split; [reflexivity|]); (split; [|try discriminate]).
  1-2: now apply tied_put.
  - exact T.
  - intros _. cbn [emit i_id]. rewrite T2. unfold slot_valid in *. cbn [emit i_fs]. now rewrite T1.
Qed.
Inductive rtied {A B} (Q : A -> B -> Prop) : res A -> res B -> Prop :=
| rt_ok a b : Q a b -> rtied Q (Ok a) (Ok b)
| rt_ub : rtied Q UB UB
| rt_fuel : rtied Q OutOfFuel OutOfFuel.
Lemma rtied_bind {A B C D} (Q : A -> B -> Prop) (Q' : C -> D -> Prop) r s f g : rtied Q r s -> (forall a b, Q a b -> rtied Q' (f a) (g b)) -> rtied Q' (rbind r f) (rbind s g).
Proof. intros [a b H| |] K; cbn [rbind]; [now apply K|constructor|constructor]. Qed.
Lemma tied_pre t fuel : forall x y, tied x y ->
  rtied (fun p q => fst p = fst q /\ tied (snd p) (snd q) /\ (fst p = true -> slot_valid (snd p) (i_id (snd p)) = true)) (pre_process cf G1 fuel t x) (pre_process cf G2 fuel t y).
Proof.
  induction fuel as [|k IH]; intros x y S; fields S; cbn [pre_process]; rewrite <- sm_id0, <- (same_nmax _ _ (td_same _ _ S)); (destruct (i_id x <? nmax x)%nat; [|constructor; cbn; split; [reflexivity|split; [exact S|discriminate]]]).
  - constructor.
  - destruct (tied_round t x y S) as (E & T & V). destruct (pre_round cf G1 t x) as [b x'], (pre_round cf G2 t y) as [b' y']. cbn [fst snd] in *. subst b'.
    destruct b; [constructor; auto|]. apply IH. now apply tied_advance.
Qed.
Lemma tied_negative x y : tied x y -> tied (remove_negative cf G1 x) (remove_negative cf G2 y).
Proof.
  intros S. unfold remove_negative. rewrite <- (same_nmax _ _ (td_same _ _ S)). destruct (c_rmneg cf); [|exact S]. apply tied_fold; [|exact S].
  intros a b i T. rewrite <- (same_valid _ _ _ (td_same _ _ T)). destruct (slot_valid a i) eqn:V; [|exact T]. cbn [andb].
  rewrite <- (al_negative AL _ _ _ (sm_w _ _ (td_same _ _ T)) (td_use _ _ T _ V)). destruct (g_negative G1 _ i); [now apply tied_remove|exact T].
Qed.
Lemma tied_post x y : tied x y -> tied (post_process cf G1 x) (post_process cf G2 y).
Proof.
  intros S. unfold post_process. rewrite <- (same_active _ _ (td_same _ _ S)). pose proof (tied_negative _ _ S) as T. fields T. apply tied_advance.
  rewrite <- (same_valid _ _ _ (td_same _ _ T)), <- sm_id0. destruct (slot_valid (remove_negative cf G1 x) _) eqn:V; [|exact T].
  rewrite <- (al_tracked AL _ _ _ _ sm_w0 (td_use _ _ T _ V)). now apply tied_put.
Qed.
Lemma tied_measure x y : tied x y -> slot_valid x (i_id x) = true ->
  tied (emit (EvUpdate (i_id x) (active cf x)) (with_w (g_update G1 (i_w x) (i_id x) (active cf x)) x)) (emit (EvUpdate (i_id y) (active cf y)) (with_w (g_update G2 (i_w y) (i_id y) (active cf y)) y)).
Proof.
  intros S V. fields S. rewrite <- sm_id0, <- (same_active _ _ (td_same _ _ S)). apply tied_emit. constructor.
  - constructor; cbn [with_w i_fs i_st i_id i_cc i_log i_w]; auto. apply (al_update AL); auto. now apply (td_use _ _ S).
  - intros i Vi. cbn [with_w i_w]. apply (al_update_u AL). now apply (td_use _ _ S).
Qed.
Lemma tied_drive t fuel : forall x y, tied x y -> rtied tied (drive cf G1 fuel t x) (drive cf G2 fuel t y).
Proof.
  induction fuel as [|k IH]; intros x y S; cbn [drive].
  all: eapply rtied_bind; [apply (tied_pre t _ x y S)|]; intros [b x'] [b' y'] (E & T & V); cbn [fst snd] in *; subst b'.
  - destruct b; [constructor|now constructor].
  - destruct b; [|now constructor]. apply IH, tied_post, tied_measure; auto.
Qed.
Lemma tied_repatch x y i : tied x y -> tied (repatch G1 x i) (repatch G2 y i).
Proof.
  intros S. fields S. unfold repatch, status_of. rewrite <- (same_valid _ _ _ (td_same _ _ S)), <- (same_stat _ _ _ (td_same _ _ S)), <- (same_cam _ _ _ (td_same _ _ S)).
  destruct (slot_valid x i) eqn:V; [|exact S]. cbn [andb]. destruct (tstatus_eqb _ _); [|exact S].
  rewrite <- (al_repatch AL _ _ _ sm_w0 (td_use _ _ S _ V)). destruct (g_repatch G1 (i_w x) i) as [p|]; [|exact S]. constructor.
  - constructor; cbn [with_w with_fs i_fs i_st i_id i_cc i_log i_w]; auto; try congruence. apply (al_patched AL); auto. now apply (td_use _ _ S).
  - intros j Vj. cbn [with_w with_fs i_w]. apply (al_patched_u AL). apply (td_use _ _ S). unfold slot_valid in *. cbn [with_w with_fs i_fs fs_slots] in Vj.
    destruct (Nat.eq_dec j i) as [->|N]; [rewrite nth_error_upd_nth_eq in Vj|now rewrite nth_error_upd_nth_ne in Vj by auto]. destruct (nth_error (fs_slots (i_fs x)) i); [|discriminate]. exact Vj.
Qed.
Lemma tied_bad x y : tied x y -> tied (remove_bad cf G1 x) (remove_bad cf G2 y).
Proof.
  intros S. unfold remove_bad. rewrite <- (same_nmax _ _ (td_same _ _ S)). apply tied_fold; [|exact S].
  intros a b i T. rewrite <- (same_valid _ _ _ (td_same _ _ T)), <- (same_stat _ _ _ (td_same _ _ T)). destruct (slot_valid a i) eqn:V; [|exact T]. cbn [andb]. destruct (negb _); [now apply tied_remove|exact T].
Qed.
Lemma tied_force fuel : forall req fac i x y, tied x y -> rtied tied (force cf G1 fuel req fac i x) (force cf G2 fuel req fac i y).
Proof.
  induction fuel as [|k IH]; intros req fac i x y S; fields S; cbn [force]; unfold enough; rewrite <- (same_nmax _ _ (td_same _ _ S)), <- sm_fs0; (destruct (_ <=? _)%Z; [now constructor|]).
  - constructor.
  - assert (T : tied (force_one cf G1 fac i x) (force_one cf G2 fac i y)).
    { unfold force_one. rewrite <- (same_valid _ _ _ (td_same _ _ S)), <- (same_stat _ _ _ (td_same _ _ S)). destruct (slot_valid x i) eqn:V; [|exact S]. cbn [andb]. destruct (_ && _); [now apply tied_remove|exact S]. }
    destruct (_ =? nmax x)%nat; now apply IH.
Qed.
Lemma tied_prune fuel tr x y : tied x y -> rtied tied (prune cf G1 fuel tr x) (prune cf G2 fuel tr y).
Proof.
  intros S. unfold prune. pose proof (tied_bad _ _ S) as T. unfold required_free. rewrite <- (same_nmax _ _ (td_same _ _ T)). destruct (to_int _); [now apply tied_force|constructor].
Qed.
Lemma same_init t cam x y i : same x y -> same (init_new G1 t cam x i) (init_new G2 t cam y i).
Proof. intros [? ? ? ? ? ?]. constructor; cbn [init_new put_status emit with_w with_st i_fs i_st i_id i_cc i_log i_w]; auto; try congruence. now apply (al_new AL). Qed.
Lemma same_inits t cam l : forall x y, same x y -> same (fold_left (init_new G1 t cam) l x) (fold_left (init_new G2 t cam) l y).
Proof. induction l as [|i l IH]; intros x y S; [exact S|]. cbn [fold_left]. now apply IH, same_init. Qed.
Lemma same_camera t r q cam : rtied same r q -> rtied same (add_camera cf G1 t r cam) (add_camera cf G2 t q cam).
Proof.
  intros T. unfold add_camera. apply (rtied_bind _ _ _ _ _ _ T). intros x y S. destruct S as [H1 H2 H3 H4 H5 H6].
  rewrite <- (al_cands AL _ _ _ H6), <- (al_proj AL _ _ _ H6), <- (al_choose AL _ _ _ H6), <- H1.
  assert (E : add_params cf y cam = add_params cf x cam) by (unfold add_params, quota, nmax; now rewrite H1). rewrite E.
  destruct (add_best _ _ _ _ (i_fs x)) as [a| |]; cbn [rbind]; [|constructor|constructor]. constructor. apply same_inits. constructor; cbn [with_fs i_fs i_st i_id i_cc i_log i_w]; auto.
Qed.
Lemma same_add t x y : same x y -> rtied same (add_features cf G1 t x) (add_features cf G2 t y).
Proof.
  intros S. unfold add_features. rewrite <- (same_nmax _ _ S), <- (sm_fs _ _ S). destruct (Qltb _ _); [|now constructor].
  assert (K : forall l r q, rtied same r q -> rtied same (fold_left (add_camera cf G1 t) l r) (fold_left (add_camera cf G2 t) l q)).
  { induction l as [|c l IH]; intros r q T; [exact T|]. cbn [fold_left]. now apply IH, same_camera. }
  apply K. now constructor.
Qed.
Lemma same_post t fuel x y : tied x y -> rtied same (common_post cf G1 fuel t x) (common_post cf G2 fuel t y).
Proof.
  intros S. unfold common_post. assert (C : count_now_tracked x = count_now_tracked y).
  { unfold count_now_tracked. rewrite <- (same_nmax _ _ (td_same _ _ S)). f_equal. apply filter_ext. intros i. now rewrite (same_valid _ _ _ (td_same _ _ S)), (same_stat _ _ _ (td_same _ _ S)). }
  rewrite <- C, <- (same_nmax _ _ (td_same _ _ S)).
  eapply rtied_bind; [apply tied_prune, tied_fold; [intros; now apply tied_repatch|exact S]|]. intros a b T.
  eapply rtied_bind; [apply same_add, (td_same _ _ T)|]. intros c d [? ? ? ? ? ?]. constructor. constructor; cbn [with_w i_fs i_st i_id i_cc i_log i_w]; auto. now apply (al_end AL).
Qed.
Lemma same_update t fuel x y : tied x y -> rtied same (image_update cf G1 fuel t x) (image_update cf G2 fuel t y).
Proof.
  intros S. fields S. unfold image_update. eapply rtied_bind; [apply tied_drive|intros a b T; now apply same_post]. constructor.
  - constructor; cbn [begin_update i_fs i_st i_id i_cc i_log i_w]; auto. now apply (al_begin AL).
  - intros i V. cbn [begin_update i_w]. apply (al_begin_u AL). now apply (td_use _ _ S).
Qed.
End Sim.
