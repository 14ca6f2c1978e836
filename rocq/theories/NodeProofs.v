(** Proofs about the node callbacks. *)
From Coq Require Import List ZArith Bool Arith Lia Permutation.
From Verif Require Import NodeModel NodeSpec.
Import ListNotations.
Local Open Scope Z_scope.

Section Proofs.
Context {V Qt Cov Img F : Type}.
Notation event := (event V Qt Cov Img).
Notation action := (action V Qt Cov Img).
Notation ops_t := (filter_ops V Qt Cov Img F).
Notation node := (node V Qt Cov Img F).
Variables (cfg : node_config Qt) (ops : ops_t).

Definition phase_of (n : node) : phase V Qt :=
  match n_state n with
  | Initialized => Running
  | WaitForInitUsingAccel => Waiting None
  | WaitForInitExternalPose => Waiting (Some (n_pos n, n_att n))
  end.

Lemma run_app : forall es1 es2 (n : node),
  run cfg ops n (es1 ++ es2) =
  (fst (run cfg ops (fst (run cfg ops n es1)) es2),
   snd (run cfg ops n es1) ++ snd (run cfg ops (fst (run cfg ops n es1)) es2)).
Proof.
  induction es1 as [|e es1 IH]; intros es2 n.
  - cbn. now destruct (run cfg ops n es2).
  - cbn [run app]. rewrite IH. cbn [fst snd]. now rewrite app_assoc.
Qed.

Lemma run_snoc : forall es e (n : node),
  run cfg ops n (es ++ [e]) =
  (fst (step cfg ops (fst (run cfg ops n es)) e),
   snd (run cfg ops n es) ++ snd (step cfg ops (fst (run cfg ops n es)) e)).
Proof. intros. rewrite run_app. cbn [run fst snd]. now rewrite app_nil_r. Qed.

(** updateAndPublish keeps everything but the filter and the message bookkeeping *)
Lemma uap_frame : forall (n : node),
  n_state (fst (update_and_publish ops n)) = n_state n /\
  n_pos (fst (update_and_publish ops n)) = n_pos n /\
  n_att (fst (update_and_publish ops n)) = n_att n /\
  n_imgs (fst (update_and_publish ops n)) = n_imgs n /\
  n_pose (fst (update_and_publish ops n)) = n_pose n.
Proof.
  intros n. unfold update_and_publish. destruct (initialized n); [|auto].
  destruct (f_last_image ops (n_filter n)); cbn [n_filter with_filter];
    match goal with |- context [if ?b then _ else _] => destruct b end; cbn; auto.
Qed.

Lemma after_add_frame : forall f a (n : node),
  n_state (fst (after_add ops f a n)) = n_state n /\
  n_pos (fst (after_add ops f a n)) = n_pos n /\
  n_att (fst (after_add ops f a n)) = n_att n /\
  n_imgs (fst (after_add ops f a n)) = n_imgs n /\
  n_pose (fst (after_add ops f a n)) = n_pose n.
Proof. intros. unfold after_add. cbn [fst]. apply (uap_frame (with_filter f n)). Qed.

Lemma after_add_snd : forall f a (n : node),
  snd (after_add ops f a n) = a :: snd (update_and_publish ops (with_filter f n)).
Proof. reflexivity. Qed.

(** the effects of updateAndPublish *)
Lemma uap_actions : forall (n : node) a, In a (snd (update_and_publish ops n)) ->
  is_init a = false /\ is_measurement a = false.
Proof.
  intros n a. unfold update_and_publish. destruct (initialized n); [|intros []].
  destruct (f_last_image ops (n_filter n)); cbn [n_filter with_filter];
    match goal with |- context [if ?b then _ else _] => destruct b end; cbn;
    intuition (subst; auto).
Qed.

Lemma phase_frame : forall (n n' : node), n_state n = n_state n' -> n_pos n = n_pos n' ->
  n_att n = n_att n' -> phase_of n = phase_of n'.
Proof. intros n n' A B C. unfold phase_of. now rewrite A, B, C. Qed.

Lemma phase_after_add : forall f a (n : node), phase_of (fst (after_add ops f a n)) = phase_of n.
Proof. intros. destruct (after_add_frame f a n) as (A & B & C & _). now apply phase_frame. Qed.

Lemma phase_initialized : forall n : node, initialized n = true <-> phase_of n = Running.
Proof.
  intros n. unfold initialized, phase_of. destruct (n_state n); split; auto; discriminate.
Qed.

Lemma img_callback_phase : forall cam img t (n : node),
  phase_of (fst (img_callback ops cam img t n)) = phase_of n.
Proof.
  intros cam img t n. unfold img_callback. destruct img as [im|]; [|reflexivity].
  destruct (initialized n); [|reflexivity]. cbn zeta.
  match goal with |- context [if ?b then after_add _ _ _ _ else _] => destruct b end;
    [now rewrite phase_after_add|reflexivity].
Qed.

Lemma step_phase : forall (n : node) e,
  phase_of (fst (step cfg ops n e)) = next_phase (c_inverted cfg) (phase_of n) e.
Proof.
  intros n e. destruct e as [acc gyr t|cam img t|p q t|p q c t|v t| |p q]; cbn [step].
  - unfold imu_callback. destruct (n_state n) eqn:E; cbn [fst].
    + unfold phase_of. now rewrite E.
    + unfold phase_of. now rewrite E.
    + rewrite phase_after_add. unfold phase_of. now rewrite E.
  - assert (next_phase (c_inverted cfg) (phase_of n) (Image cam img t) = phase_of n) as ->
      by (destruct (phase_of n); reflexivity).
    unfold img_entry. destruct cam as [|[|cam]]; [apply img_callback_phase| |reflexivity].
    destruct (1 <? c_cams cfg)%nat; [apply img_callback_phase|reflexivity].
  - assert (next_phase (c_inverted cfg) (phase_of n) (Pose p q t) = phase_of n) as ->
      by (destruct (phase_of n); reflexivity).
    unfold pose_callback. destruct (initialized n); [now rewrite phase_after_add|reflexivity].
  - assert (next_phase (c_inverted cfg) (phase_of n) (Odometry p q c t) = phase_of n) as ->
      by (destruct (phase_of n); reflexivity).
    unfold odometry_callback. destruct (initialized n); [now rewrite phase_after_add|reflexivity].
  - assert (next_phase (c_inverted cfg) (phase_of n) (Velocity v t) = phase_of n) as ->
      by (destruct (phase_of n); reflexivity).
    unfold velocity_callback. destruct (initialized n); [now rewrite phase_after_add|reflexivity].
  - unfold request_reset, initialized, phase_of. destruct (n_state n) eqn:E; cbn; rewrite ?E; reflexivity.
  - unfold request_reset_to_pose, initialized, phase_of.
    destruct (n_state n) eqn:E; cbn; rewrite ?E; reflexivity.
Qed.

Lemma run_phase_from : forall es (n : node),
  phase_of (fst (run cfg ops n es)) = fold_left (next_phase (c_inverted cfg)) es (phase_of n).
Proof.
  induction es as [|e es IH]; intros n; cbn [run fst fold_left]; [reflexivity|].
  now rewrite IH, step_phase.
Qed.

Variables (f0 : F) (p0 : V) (q0 : Qt) (pm0 : pose_meas V Qt Cov).
Let n0 : node := node_init cfg f0 p0 q0 pm0.

Lemma run_phase : forall es, phase_of (fst (run cfg ops n0 es)) = phase_after (c_inverted cfg) es.
Proof. intros. rewrite run_phase_from. reflexivity. Qed.

(** C45 *)
Definition state_of (n : node) (p : phase V Qt) : Prop := phase_of n = p.

Lemma waiting_step : forall (n : node) e from, phase_of n = Waiting from ->
  snd (step cfg ops n e) = match e with Imu acc _ t => [initialisation from acc t] | _ => [] end /\
  ((forall acc gyr t, e <> Imu acc gyr t) -> n_filter (fst (step cfg ops n e)) = n_filter n).
Proof.
  intros n e from H.
  assert (I : initialized n = false).
  { destruct (initialized n) eqn:I; [|reflexivity]. apply phase_initialized in I. congruence. }
  destruct e as [acc gyr t|cam img t|p q t|p q c t|v t| |p q]; cbn [step].
  - split; [|intros K; now elim (K acc gyr t)].
    unfold imu_callback. unfold phase_of in H. destruct (n_state n); try discriminate;
      injection H as <-; reflexivity.
  - assert (K : forall cam, img_callback ops cam img t n = (n, []))
      by (intros c; unfold img_callback; destruct img; [now rewrite I|reflexivity]).
    unfold img_entry. destruct cam as [|[|cam]]; rewrite ?K; [auto| |auto].
    destruct (1 <? c_cams cfg)%nat; rewrite ?K; auto.
  - unfold pose_callback. rewrite I. auto.
  - unfold odometry_callback. rewrite I. auto.
  - unfold velocity_callback. rewrite I. auto.
  - unfold request_reset. rewrite I. auto.
  - unfold request_reset_to_pose. rewrite I. auto.
Qed.

Lemma img_callback_no_init : forall cam img t (n : node) a,
  In a (snd (img_callback ops cam img t n)) -> is_init a = false.
Proof.
  intros cam img t n a. unfold img_callback. destruct img as [im|]; [|intros []].
  destruct (initialized n); [|intros []]. cbn zeta.
  match goal with |- context [if ?b then after_add _ _ _ _ else _] => destruct b end; [|intros []].
  rewrite after_add_snd. intros [<-|K]; [reflexivity|now apply uap_actions in K].
Qed.

Lemma running_no_init : forall (n : node) e a, phase_of n = Running ->
  In a (snd (step cfg ops n e)) -> is_init a = false.
Proof.
  intros n e a H.
  assert (I : initialized n = true) by now apply phase_initialized.
  destruct e as [acc gyr t|cam img t|p q t|p q c t|v t| |p q]; cbn [step].
  - unfold imu_callback. unfold initialized in I. destruct (n_state n); try discriminate.
    rewrite after_add_snd. intros [<-|K]; [reflexivity|now apply uap_actions in K].
  - unfold img_entry. destruct cam as [|[|cam]]; [apply img_callback_no_init| |intros []].
    destruct (1 <? c_cams cfg)%nat; [apply img_callback_no_init|intros []].
  - unfold pose_callback. rewrite I, after_add_snd.
    intros [<-|K]; [reflexivity|now apply uap_actions in K].
  - unfold odometry_callback. rewrite I, after_add_snd.
    intros [<-|K]; [reflexivity|now apply uap_actions in K].
  - unfold velocity_callback. rewrite I, after_add_snd.
    intros [<-|K]; [reflexivity|now apply uap_actions in K].
  - intros [].
  - intros [].
Qed.

(** which measurement each message hands over when the node is running *)
Lemma uap_no_measurement : forall n : node, filter is_measurement (snd (update_and_publish ops n)) = [].
Proof.
  intros n. unfold update_and_publish. destruct (initialized n); [|reflexivity].
  destruct (f_last_image ops (n_filter n)); cbn [n_filter with_filter];
    match goal with |- context [if ?b then _ else _] => destruct b end; reflexivity.
Qed.

Lemma running_measurement : forall (n : node) e, phase_of n = Running ->
  match e with
  | Imu acc gyr t => filter is_measurement (snd (step cfg ops n e)) = [AddPrediction acc gyr t]
  | Velocity v t => filter is_measurement (snd (step cfg ops n e)) = [AddVelocity v t]
  | Odometry p q c t => filter is_measurement (snd (step cfg ops n e)) =
      [AddPose {| pm_pos := p; pm_att := c_inverted cfg q; pm_cov := c |} (t + c_offset cfg)]
  | Pose p q t => filter is_measurement (snd (step cfg ops n e)) =
      [AddPose {| pm_pos := p; pm_att := c_inverted cfg q; pm_cov := pm_cov (n_pose n) |}
         (t + c_offset cfg)]
  | _ => True
  end.
Proof.
  intros n e H.
  assert (I : initialized n = true) by now apply phase_initialized.
  destruct e as [acc gyr t|cam img t|p q t|p q c t|v t| |p q]; cbn [step]; try exact Logic.I.
  - unfold imu_callback. unfold initialized in I. destruct (n_state n); try discriminate.
    rewrite after_add_snd. cbn [filter is_measurement]. now rewrite uap_no_measurement.
  - unfold pose_callback. rewrite I, after_add_snd. cbn [filter is_measurement].
    now rewrite uap_no_measurement.
  - unfold odometry_callback. rewrite I, after_add_snd. cbn [filter is_measurement].
    now rewrite uap_no_measurement.
  - unfold velocity_callback. rewrite I, after_add_snd. cbn [filter is_measurement].
    now rewrite uap_no_measurement.
Qed.

(** the effects account for the filter *)
Lemma uap_effects : forall n : node,
  n_filter (fst (update_and_publish ops n)) =
  fold_left (effect ops) (snd (update_and_publish ops n)) (n_filter n).
Proof.
  intros n. unfold update_and_publish. destruct (initialized n); [|reflexivity].
  destruct (f_last_image ops (n_filter n)); cbn [n_filter with_filter];
    match goal with |- context [if ?b then _ else _] => destruct b end; reflexivity.
Qed.

Lemma after_add_effects : forall a (n : node),
  n_filter (fst (after_add ops (effect ops (n_filter n) a) a n)) =
  fold_left (effect ops) (snd (after_add ops (effect ops (n_filter n) a) a n)) (n_filter n).
Proof.
  intros a n. unfold after_add. cbn [fst snd fold_left]. rewrite uap_effects. reflexivity.
Qed.

Lemma after_add_effects' : forall a f g (n : node), n_filter n = g -> effect ops g a = f ->
  n_filter (fst (after_add ops f a n)) = fold_left (effect ops) (snd (after_add ops f a n)) g.
Proof. intros a f g n <- <-. apply after_add_effects. Qed.

Lemma step_effects : forall (n : node) e,
  n_filter (fst (step cfg ops n e)) = fold_left (effect ops) (snd (step cfg ops n e)) (n_filter n).
Proof.
  intros n e.
  assert (K : forall cam img t, n_filter (fst (img_callback ops cam img t n)) =
    fold_left (effect ops) (snd (img_callback ops cam img t n)) (n_filter n)).
  { intros cam img t. unfold img_callback. destruct img as [im|]; [|reflexivity].
    destruct (initialized n); [|reflexivity]. cbn zeta.
    match goal with |- context [if ?b then after_add _ _ _ _ else _] => destruct b end; [|reflexivity].
    now apply after_add_effects'. }
  destruct e as [acc gyr t|cam img t|p q t|p q c t|v t| |p q]; cbn [step].
  - unfold imu_callback. destruct (n_state n); try reflexivity.
    now apply after_add_effects'.
  - unfold img_entry. destruct cam as [|[|cam]]; [apply K| |reflexivity].
    destruct (1 <? c_cams cfg)%nat; [apply K|reflexivity].
  - unfold pose_callback. destruct (initialized n); [|reflexivity].
    now apply after_add_effects'.
  - unfold odometry_callback. destruct (initialized n); [|reflexivity].
    now apply after_add_effects'.
  - unfold velocity_callback. destruct (initialized n); [|reflexivity].
    now apply after_add_effects'.
  - unfold request_reset. destruct (initialized n); reflexivity.
  - unfold request_reset_to_pose. destruct (initialized n); reflexivity.
Qed.

Lemma run_effects : forall es (n : node),
  n_filter (fst (run cfg ops n es)) = fold_left (effect ops) (snd (run cfg ops n es)) (n_filter n).
Proof.
  induction es as [|e es IH]; intros n; cbn [run fst snd]; [reflexivity|].
  now rewrite IH, fold_left_app, step_effects.
Qed.

(** the covariance in the pose measurement is that of the last odometry message received while running *)
Lemma step_pose_cov : forall (n : node) e,
  pm_cov (n_pose (fst (step cfg ops n e))) =
  match phase_of n, e with Running, Odometry _ _ c _ => c | _, _ => pm_cov (n_pose n) end.
Proof.
  intros n e.
  assert (K : forall cam img t, n_pose (fst (img_callback ops cam img t n)) = n_pose n).
  { intros cam img t. unfold img_callback. destruct img as [im|]; [|reflexivity].
    destruct (initialized n); [|reflexivity]. cbn zeta.
    match goal with |- context [if ?b then after_add _ _ _ _ else _] => destruct b end; [|reflexivity].
    match goal with |- context [after_add ops ?f ?a ?m] => destruct (after_add_frame f a m) as (_&_&_&_&E) end.
    now rewrite E. }
  destruct (phase_of n) eqn:P.
  - assert (I : initialized n = false).
    { destruct (initialized n) eqn:I; [|reflexivity]. apply phase_initialized in I. congruence. }
    destruct e as [acc gyr t|cam img t|p q t|p q c t|v t| |p q]; cbn [step].
    + unfold imu_callback. unfold initialized in I. destruct (n_state n); try discriminate; reflexivity.
    + unfold img_entry. destruct cam as [|[|cam]]; rewrite ?K; auto.
      destruct (1 <? c_cams cfg)%nat; rewrite ?K; auto.
    + unfold pose_callback. now rewrite I.
    + unfold odometry_callback. now rewrite I.
    + unfold velocity_callback. now rewrite I.
    + unfold request_reset. now rewrite I.
    + unfold request_reset_to_pose. now rewrite I.
  - assert (I : initialized n = true) by now apply phase_initialized.
    destruct e as [acc gyr t|cam img t|p q t|p q c t|v t| |p q]; cbn [step].
    + unfold imu_callback. unfold initialized in I. destruct (n_state n); try discriminate.
      match goal with |- context [after_add ops ?f ?a ?m] => destruct (after_add_frame f a m) as (_&_&_&_&E) end.
      now rewrite E.
    + unfold img_entry. destruct cam as [|[|cam]]; rewrite ?K; auto.
      destruct (1 <? c_cams cfg)%nat; rewrite ?K; auto.
    + unfold pose_callback. rewrite I. cbn zeta.
      match goal with |- context [after_add ops ?f ?a ?m] => destruct (after_add_frame f a m) as (_&_&_&_&E) end.
      now rewrite E.
    + unfold odometry_callback. rewrite I. cbn zeta.
      match goal with |- context [after_add ops ?f ?a ?m] => destruct (after_add_frame f a m) as (_&_&_&_&E) end.
      now rewrite E.
    + unfold velocity_callback. rewrite I.
      match goal with |- context [after_add ops ?f ?a ?m] => destruct (after_add_frame f a m) as (_&_&_&_&E) end.
      now rewrite E.
    + unfold request_reset. now rewrite I.
    + unfold request_reset_to_pose. now rewrite I.
Qed.

End Proofs.
