(** Theorems about the node: start-up and resets (C45), image synchronisation (C46), publication (C47),
    replay of a log (C52). *)
From Coq Require Import List ZArith Bool Arith Lia Permutation.
From Verif Require Import NodeModel NodeSpec NodeProofs NodeSync NodePub LoadModel LoadSpec LoadProofs
  LockModel LockProofs.
Import ListNotations.
Local Open Scope Z_scope.

(** A small filter for the examples: safe time and time of the newest buffered image. *)
Definition toy : Type := Z * option Z.
Definition toy_ops : filter_ops nat nat nat nat toy := {|
  f_prediction := fun _ _ _ f => f;
  f_images := fun _ t f => (fst f, Some t);
  f_pose := fun _ _ f => f;
  f_velocity := fun _ _ f => f;
  f_reset_pose := fun _ _ t _ => (t, None);
  f_reset_accel := fun _ t _ => (t, None);
  f_last_image := snd;
  f_update := fun t f => (Z.max (fst f) t, snd f);
  f_safe := fst |}.
Definition toy_start : toy := (0, None).
Lemma toy_laws : filter_laws toy_ops toy_start.
Proof.
  split; cbn; try reflexivity; try lia.
  - intros a f; destruct a; cbn; try discriminate; reflexivity.
  - intros a f H L; destruct a; cbn; auto. now elim (H m t).
Qed.
Definition toy_cfg (cams : nat) : node_config nat :=
  {| c_cams := cams; c_offset := 0; c_inverted := fun q => (q + 100)%nat |}.
Definition toy_node (cams : nat) : node nat nat nat nat toy :=
  node_init (toy_cfg cams) toy_start 0%nat 0%nat {| pm_pos := 0%nat; pm_att := 0%nat; pm_cov := 0%nat |}.
Definition ev : Type := event nat nat nat nat.

(** * C45 *)

(** Whatever has been received before ([h]), the phase after it is determined by the messages as in
    [phase_after], and what the node does on the next message [e] is: while waiting, initialise on an IMU
    message, from the requested pose if there is one and from the accelerometer otherwise, and nothing at
    all on any other message, leaving the filter as it is; while running, never initialise. *)
Theorem C45_initialisation_and_resets :
  forall (V Qt Cov Img F : Type) (cfg : node_config Qt) (ops : filter_ops V Qt Cov Img F)
         f0 p0 q0 pm0 h e,
  let n := fst (run cfg ops (node_init cfg f0 p0 q0 pm0) h) in
  match phase_after (c_inverted cfg) h with
  | Waiting from =>
      snd (step cfg ops n e) = match e with Imu acc _ t => [initialisation from acc t] | _ => [] end /\
      ((forall acc gyr t, e <> Imu acc gyr t) -> n_filter (fst (step cfg ops n e)) = n_filter n)
  | Running => forall a, In a (snd (step cfg ops n e)) -> is_init a = false
  end.
Proof.
  intros V Qt Cov Img F cfg ops f0 p0 q0 pm0 h e n.
  pose proof (run_phase cfg ops f0 p0 q0 pm0 h) as P. fold n in P.
  destruct (phase_after (c_inverted cfg) h) as [from|].
  - now apply waiting_step.
  - intros a. now apply running_no_init.
Qed.
Print Assumptions C45_initialisation_and_resets.

(** Reset requests while waiting change nothing at all. *)
Theorem C45_reset_requests_while_waiting_are_ignored :
  forall (V Qt Cov Img F : Type) (cfg : node_config Qt) (ops : filter_ops V Qt Cov Img F)
         f0 p0 q0 pm0 h from p q,
  let n := fst (run cfg ops (node_init cfg f0 p0 q0 pm0) h) in
  phase_after (c_inverted cfg) h = Waiting from ->
  step cfg ops n ResetRequest = (n, []) /\ step cfg ops n (ResetToPose p q) = (n, []).
Proof.
  intros V Qt Cov Img F cfg ops f0 p0 q0 pm0 h from p q n H.
  pose proof (run_phase cfg ops f0 p0 q0 pm0 h) as P. fold n in P. rewrite H in P.
  assert (I : initialized n = false).
  { destruct (initialized n) eqn:I; [|reflexivity]. apply phase_initialized in I. congruence. }
  cbn [step]. unfold request_reset, request_reset_to_pose. rewrite I. auto.
Qed.
Print Assumptions C45_reset_requests_while_waiting_are_ignored.

(** While running each IMU, pose, odometry and velocity message hands exactly one measurement to the
    filter, with the contents of the message; pose measurements are shifted by the time offset. A pose
    message without covariance carries the one that was left by the last odometry message. *)
Theorem C45_measurements_while_running :
  forall (V Qt Cov Img F : Type) (cfg : node_config Qt) (ops : filter_ops V Qt Cov Img F)
         f0 p0 q0 pm0 h e,
  let n := fst (run cfg ops (node_init cfg f0 p0 q0 pm0) h) in
  phase_after (c_inverted cfg) h = Running ->
  match e with
  | Imu acc gyr t => filter is_measurement (snd (step cfg ops n e)) = [AddPrediction acc gyr t]
  | Velocity v t => filter is_measurement (snd (step cfg ops n e)) = [AddVelocity v t]
  | Odometry p q c t => filter is_measurement (snd (step cfg ops n e)) =
      [AddPose {| pm_pos := p; pm_att := c_inverted cfg q; pm_cov := c |} (t + c_offset cfg)]
  | Pose p q t => exists c, filter is_measurement (snd (step cfg ops n e)) =
      [AddPose {| pm_pos := p; pm_att := c_inverted cfg q; pm_cov := c |} (t + c_offset cfg)] /\
      forall h1 p' q' c' t' h2, h = h1 ++ Odometry p' q' c' t' :: h2 ->
        phase_after (c_inverted cfg) h1 = Running ->
        (forall p2 q2 c2 t2, ~ In (Odometry p2 q2 c2 t2) h2) -> c = c'
  | _ => True
  end.
Proof.
  intros V Qt Cov Img F cfg ops f0 p0 q0 pm0 h e n H.
  pose proof (run_phase cfg ops f0 p0 q0 pm0 h) as P. fold n in P. rewrite H in P.
  pose proof (running_measurement cfg ops n e P) as M.
  destruct e as [acc gyr t|cam img t|p q t|p q c t|v t| |p q]; try exact M; try exact I.
  exists (pm_cov (n_pose n)). split; [exact M|].
  intros h1 p' q' c' t' h2 -> P1 N. unfold n. clear - P1 N.
  replace (h1 ++ Odometry p' q' c' t' :: h2) with ((h1 ++ [Odometry p' q' c' t']) ++ h2)
    by now rewrite <- app_assoc.
  rewrite run_app, run_snoc. cbn [fst].
  pose proof (run_phase cfg ops f0 p0 q0 pm0 h1) as R. rewrite P1 in R.
  set (n1 := fst (run cfg ops (node_init cfg f0 p0 q0 pm0) h1)) in *.
  pose proof (step_pose_cov cfg ops n1 (Odometry p' q' c' t')) as S. rewrite R in S.
  refine (eq_trans _ S). clear S R P1. generalize (fst (step cfg ops n1 (Odometry p' q' c' t'))).
  induction h2 as [|e h2 IH]; intros n; [reflexivity|]. cbn [run fst]. rewrite IH.
  - rewrite step_pose_cov. destruct (phase_of n); [reflexivity|].
    destruct e; try reflexivity. exfalso. eapply N. now left.
  - intros p2 q2 c2 t2 K. apply (N p2 q2 c2 t2). now right.
Qed.
Print Assumptions C45_measurements_while_running.

(** The listed effects are all there is: the filter is what they make of the initial one. *)
Theorem C45_effects_are_complete :
  forall (V Qt Cov Img F : Type) (cfg : node_config Qt) (ops : filter_ops V Qt Cov Img F)
         f0 p0 q0 pm0 h,
  let r := run cfg ops (node_init cfg f0 p0 q0 pm0) h in
  n_filter (fst r) = fold_left (effect ops) (snd r) f0.
Proof. intros. unfold r. now rewrite run_effects. Qed.
Print Assumptions C45_effects_are_complete.

(** Several threads: whatever pieces the callbacks are executed in and however the threads are scheduled,
    when no thread is inside a callback the node and its effects are those of running the callbacks one
    after the other, in the order in which they took the mutex; each thread's callbacks keep their order. *)
Theorem C45_callbacks_are_serialised :
  forall (V Qt Cov Img F L : Type) (cfg : node_config Qt) (ops : filter_ops V Qt Cov Img F)
         (n0 : node V Qt Cov Img F) local body queues schedule,
  (forall s e, pieces (body e) s (local e : L) =
     (fst (step cfg ops (fst s) e), snd s ++ snd (step cfg ops (fst s) e))) ->
  let k := machine_run local body (machine_init (n0, []) queues) schedule in
  (forall i t, nth_error (k_threads k) i = Some t -> t_cur t = None) ->
  k_state k = run cfg ops n0 (map snd (k_order k)) /\
  forall i q, nth_error queues i = Some q ->
    exists t, nth_error (k_threads k) i = Some t /\
      q = map snd (filter (fun p => Nat.eqb (fst p) i) (k_order k)) ++ t_queue t.
Proof.
  intros V Qt Cov Img F L cfg ops n0 local body queues schedule B k Hidle.
  set (serial := fun (s : node V Qt Cov Img F * list (action V Qt Cov Img)) e =>
    (fst (step cfg ops (fst s) e), snd s ++ snd (step cfg ops (fst s) e))).
  assert (I : inv serial (n0, []) queues k).
  { apply inv_run; [exact B|]. apply inv_init. }
  destruct I as (HL & HQ & HK). split.
  - assert (E : k_state k = fold_left serial (map snd (k_order k)) (n0, [])).
    { destruct (k_lock k) as [h|]; [|exact (proj2 HK)].
      destruct HK as (_ & t & l & fs & E1 & E2 & _). rewrite (Hidle h t E1) in E2. discriminate. }
    rewrite E. clear. generalize (map snd (k_order k)) as es. intros es.
    induction es as [|e es IH] using rev_ind; [reflexivity|].
    rewrite fold_left_app, IH, run_snoc. reflexivity.
  - intros i q Hq. destruct (nth_error (k_threads k) i) as [t|] eqn:Et.
    + exists t. split; [reflexivity|]. specialize (HQ i t Et). unfold mine in HQ. congruence.
    + apply nth_error_None in Et. rewrite HL in Et. apply nth_error_None in Et. congruence.
Qed.
Print Assumptions C45_callbacks_are_serialised.

(** start, image dropped, IMU initialises from the accelerometer, image used and published, reset to a
    pose, image dropped, second request ignored, IMU initialises from the pose *)
Example C45_example :
  snd (run (toy_cfg 1) toy_ops (toy_node 1)
        ([Image 0 (Some 7%nat) 5; ResetToPose 1%nat 2%nat; Imu 3%nat 4%nat 10; Image 0 (Some 8%nat) 20;
          ResetToPose 5%nat 6%nat; Image 0 (Some 9%nat) 30; ResetRequest; Velocity 1%nat 31;
          Imu 3%nat 4%nat 32] : list ev)) =
  [InitAccel 3%nat 10;
   AddImages {| im_time := 20; im_valid := [true]; im_pyr := [Some 8%nat] |} 20; UpdateSafe 20; Publish 20;
   InitPose 5%nat 106%nat 32].
Proof. reflexivity. Qed.

(** * C46 *)

(** Every image update handed to the filter on message [e] after history [h] is stamped with the time of
    the update and holds one image of every camera; the images are among the most recent arrivals, all of
    which have that time stamp. (So an arrival with another time stamp in between drops what was collected
    before it.) *)
Theorem C46_updates_are_complete_and_consistent :
  forall (V Qt Cov Img F : Type) (cfg : node_config Qt) (ops : filter_ops V Qt Cov Img F)
         f0 p0 q0 pm0 h e m t,
  (0 < c_cams cfg)%nat ->
  In (AddImages m t) (snd (step cfg ops (fst (run cfg ops (node_init cfg f0 p0 q0 pm0) h)) e)) ->
  im_time m = t /\ length (im_pyr m) = c_cams cfg /\
  exists older recent,
    arrivals (c_inverted cfg) (c_cams cfg) (h ++ [e]) = older ++ recent /\
    (forall x, In x recent -> a_time x = t) /\
    forall c, (c < c_cams cfg)%nat -> exists x, In x recent /\ a_cam x = c /\
      nth_error (im_pyr m) c = Some (Some (a_img x)).
Proof.
  intros V Qt Cov Img F cfg ops f0 p0 q0 pm0 h e m t N H.
  set (n := fst (run cfg ops (node_init cfg f0 p0 q0 pm0) h)) in *.
  assert (HU : In (m, t) (updates (snd (step cfg ops n e)))).
  { unfold updates. apply in_flat_map. eexists. split; [exact H|]. now left. }
  destruct (step_feed cfg ops N n e) as (_ & E). rewrite E in HU.
  pose proof (run_phase cfg ops f0 p0 q0 pm0 h) as P. fold n in P. rewrite P in HU.
  destruct (run_feeds cfg ops N h (node_init cfg f0 p0 q0 pm0)) as (E1 & _). fold n in E1.
  change (phase_of (node_init cfg f0 p0 q0 pm0)) with (@Waiting V Qt None) in E1.
  change (n_imgs (node_init cfg f0 p0 q0 pm0)) with (@im_init Img (c_cams cfg)) in E1.
  set (A := arrivals_from (c_inverted cfg) (c_cams cfg) (@Waiting V Qt None) h) in *.
  assert (HS : sync (c_cams cfg) (n_imgs n) (snd (feeds (im_init (c_cams cfg)) A)) A).
  { rewrite E1. apply sync_feeds; [reflexivity|]. intros x Hx. now apply arrivals_cam in Hx. }
  assert (EA : arrivals (c_inverted cfg) (c_cams cfg) (h ++ [e]) =
    A ++ arrival_of cfg (phase_after (c_inverted cfg) h) e).
  { unfold arrivals. rewrite arrivals_from_app. fold A. apply f_equal. rewrite arrivals_from_cons.
    cbn [arrivals_from]. apply app_nil_r. }
  destruct (arrival_of cfg (phase_after (c_inverted cfg) h) e) as [|x l] eqn:EX; [destruct HU|].
  assert (L : l = [] /\ (a_cam x < c_cams cfg)%nat).
  { unfold arrival_of in EX. destruct (phase_after (c_inverted cfg) h); [discriminate|].
    destruct e as [| cam [im|] t'| | | | |]; try discriminate.
    destruct (listens (c_cams cfg) cam) eqn:EL; [|discriminate]. apply listens_true in EL.
    injection EX as <- <-. split; [reflexivity|exact (proj1 EL)]. }
  destruct L as (-> & L). cbn [feeds snd] in HU. rewrite app_nil_r in HU.
  destruct (update_recent (c_cams cfg) _ _ _ _ _ _ HS L HU) as (D & R & ED & HP & Et & Em & HV).
  pose proof (proj1 (all_valid_pending (c_cams cfg) m R HP) HV) as HC.
  destruct HP as (_ & P2 & P3 & P4).
  split; [exact Em|]. split; [exact P2|]. exists D, R. split; [congruence|].
  split; [intros y Hy; rewrite <- Em; now apply P3|].
  intros c Hc. specialize (P4 c Hc). specialize (HC c Hc).
  destruct (last_of c R) as [im|] eqn:EL; [|congruence].
  destruct (last_of_in c im R EL) as (y & Y1 & Y2 & Y3). exists y. rewrite Y3. now destruct P4.
Qed.
Print Assumptions C46_updates_are_complete_and_consistent.

(** The same said about an arrival with another time stamp: only images received after it are used. *)
Theorem C46_another_time_stamp_drops_the_set :
  forall (V Qt Cov Img F : Type) (cfg : node_config Qt) (ops : filter_ops V Qt Cov Img F)
         f0 p0 q0 pm0 h e m t before y after,
  (0 < c_cams cfg)%nat ->
  In (AddImages m t) (snd (step cfg ops (fst (run cfg ops (node_init cfg f0 p0 q0 pm0) h)) e)) ->
  arrivals (c_inverted cfg) (c_cams cfg) (h ++ [e]) = before ++ y :: after -> a_time y <> t ->
  forall c, (c < c_cams cfg)%nat -> exists x, In x after /\ a_cam x = c /\
    nth_error (im_pyr m) c = Some (Some (a_img x)).
Proof.
  intros V Qt Cov Img F cfg ops f0 p0 q0 pm0 h e m t before y after N H EA NT c Hc.
  destruct (C46_updates_are_complete_and_consistent V Qt Cov Img F cfg ops f0 p0 q0 pm0 h e m t N H)
    as (_ & _ & D & R & ED & HR & HC).
  rewrite EA in ED. destruct (rcons_case before y after D R (eq_sym ED)) as [K|(A3 & ->)].
  - elim NT. now apply HR.
  - destruct (HC c Hc) as (x & X1 & X2). exists x. split; [apply in_or_app; now right|exact X2].
Qed.
Print Assumptions C46_another_time_stamp_drops_the_set.

(** Each received image is used at most once: the images in all updates handed over, together with some
    unused ones, are the images of the arrivals, each taken once. *)
Theorem C46_images_are_used_at_most_once :
  forall (V Qt Cov Img F : Type) (cfg : node_config Qt) (ops : filter_ops V Qt Cov Img F)
         f0 p0 q0 pm0 h,
  (0 < c_cams cfg)%nat ->
  let r := run cfg ops (node_init cfg f0 p0 q0 pm0) h in
  exists unused,
    Permutation (flat_map (fun u => images_of (fst u)) (updates (snd r)) ++ unused)
                (map a_img (arrivals (c_inverted cfg) (c_cams cfg) h)).
Proof.
  intros V Qt Cov Img F cfg ops f0 p0 q0 pm0 h N r.
  destruct (run_feeds cfg ops N h (node_init cfg f0 p0 q0 pm0)) as (_ & E2). fold r in E2.
  change (phase_of (node_init cfg f0 p0 q0 pm0)) with (@Waiting V Qt None) in E2.
  change (n_imgs (node_init cfg f0 p0 q0 pm0)) with (@im_init Img (c_cams cfg)) in E2.
  unfold arrivals. set (A := arrivals_from (c_inverted cfg) (c_cams cfg) (@Waiting V Qt None) h) in *.
  destruct (sync_feeds (c_cams cfg) A (im_init (c_cams cfg)) eq_refl) as (D & P & R & EA & _ & _ & HR).
  { intros x Hx. now apply arrivals_cam in Hx. }
  exists (R ++ map a_img P). rewrite E2, app_assoc.
  replace (map a_img A) with (map a_img D ++ map a_img P) by (rewrite <- map_app; congruence).
  now apply Permutation_app_tail.
Qed.
Print Assumptions C46_images_are_used_at_most_once.

(** A complete set is used: when messages [g] bring exactly one image per camera, all with one time stamp
    that differs from that of the arrival before, they lead to exactly one image update, made of them. *)
Theorem C46_complete_sets_are_used :
  forall (V Qt Cov Img F : Type) (cfg : node_config Qt) (ops : filter_ops V Qt Cov Img F)
         f0 p0 q0 pm0 h g batch t,
  (0 < c_cams cfg)%nat ->
  arrivals (c_inverted cfg) (c_cams cfg) (h ++ g) =
    arrivals (c_inverted cfg) (c_cams cfg) h ++ batch ->
  (forall older y, arrivals (c_inverted cfg) (c_cams cfg) h = older ++ [y] -> a_time y <> t) ->
  (forall x, In x batch -> a_time x = t) ->
  Permutation (map a_cam batch) (seq 0 (c_cams cfg)) ->
  exists m,
    updates (snd (run cfg ops (fst (run cfg ops (node_init cfg f0 p0 q0 pm0) h)) g)) = [(m, t)] /\
    im_time m = t /\ length (im_pyr m) = c_cams cfg /\
    forall x, In x batch -> nth_error (im_pyr m) (a_cam x) = Some (Some (a_img x)).
Proof.
  intros V Qt Cov Img F cfg ops f0 p0 q0 pm0 h g batch t N EA HD HT HP.
  set (n := fst (run cfg ops (node_init cfg f0 p0 q0 pm0) h)) in *.
  destruct (run_feeds cfg ops N g n) as (_ & E2). rewrite E2.
  pose proof (run_phase cfg ops f0 p0 q0 pm0 h) as P. fold n in P. rewrite P.
  assert (EB : arrivals_from (c_inverted cfg) (c_cams cfg) (phase_after (c_inverted cfg) h) g = batch).
  { unfold arrivals in EA. rewrite arrivals_from_app in EA. now apply app_inv_head in EA. }
  rewrite EB. clear E2.
  destruct (run_feeds cfg ops N h (node_init cfg f0 p0 q0 pm0)) as (E1 & _). fold n in E1.
  change (phase_of (node_init cfg f0 p0 q0 pm0)) with (@Waiting V Qt None) in E1.
  change (n_imgs (node_init cfg f0 p0 q0 pm0)) with (@im_init Img (c_cams cfg)) in E1.
  unfold arrivals in HD. set (A := arrivals_from (c_inverted cfg) (c_cams cfg) (@Waiting V Qt None) h) in *.
  eapply (feeds_batch (c_cams cfg) batch t (n_imgs n) (snd (feeds (im_init (c_cams cfg)) A)) A); auto.
  rewrite E1. apply sync_feeds; [reflexivity|]. intros x Hx. now apply arrivals_cam in Hx.
Qed.
Print Assumptions C46_complete_sets_are_used.

(** The node listens to two cameras only: with more no image update ever takes place. *)
Theorem C46_three_cameras_never_update :
  forall (V Qt Cov Img F : Type) (cfg : node_config Qt) (ops : filter_ops V Qt Cov Img F)
         f0 p0 q0 pm0 h m t,
  (2 < c_cams cfg)%nat ->
  ~ In (AddImages m t) (snd (run cfg ops (node_init cfg f0 p0 q0 pm0) h)).
Proof.
  intros V Qt Cov Img F cfg ops f0 p0 q0 pm0 h m t N. induction h as [|e h IH] using rev_ind; [intros []|].
  rewrite run_snoc. cbn [snd]. intros H. apply in_app_or in H. destruct H as [H|H]; [now apply IH|].
  apply C46_updates_are_complete_and_consistent in H; [|lia].
  destruct H as (_ & _ & D & R & ED & _ & HC). destruct (HC 2%nat N) as (x & X1 & X2 & _).
  assert (K : In x (arrivals (c_inverted cfg) (c_cams cfg) (h ++ [e])))
    by (rewrite ED; apply in_or_app; now right).
  apply arrivals_cam in K. lia.
Qed.
Print Assumptions C46_three_cameras_never_update.

(** two cameras: a complete pair; a lonely image dropped by the next time stamp; a pair in the other order *)
Example C46_example :
  let h : list ev := [Imu 3%nat 4%nat 10; Image 0 (Some 1%nat) 20; Image 1 (Some 2%nat) 20;
    Image 0 (Some 3%nat) 30; Image 1 (Some 4%nat) 40; Image 1 None 40; Image 0 (Some 5%nat) 40] in
  map (fun u => (im_pyr (fst u), snd u)) (updates (snd (run (toy_cfg 2) toy_ops (toy_node 2) h))) =
    [([Some 1%nat; Some 2%nat], 20); ([Some 5%nat; Some 4%nat], 40)] /\
  length (arrivals (c_inverted (toy_cfg 2)) 2 h) = 5%nat.
Proof. split; reflexivity. Qed.

(** The set collected so far survives a reset: an image received before it can be combined with one
    received after it. *)
Example C46_a_set_can_straddle_a_reset :
  let h : list ev := [Imu 3%nat 4%nat 10; Image 0 (Some 1%nat) 20; ResetRequest; Imu 3%nat 4%nat 15;
    Image 1 (Some 2%nat) 20] in
  map (fun u => (im_pyr (fst u), snd u)) (updates (snd (run (toy_cfg 2) toy_ops (toy_node 2) h))) =
    [([Some 1%nat; Some 2%nat], 20)].
Proof. reflexivity. Qed.

(** * C47 *)

(** For every filter obeying [filter_laws]: a published stamp is later than the time of the initialisation
    and than every stamp published since then, and some image update was handed over before. *)
Theorem C47_published_stamps_strictly_increase :
  forall (V Qt Cov Img F : Type) (cfg : node_config Qt) (ops : filter_ops V Qt Cov Img F)
         f0 p0 q0 pm0 h l1 a l2 t l3,
  filter_laws ops f0 ->
  snd (run cfg ops (node_init cfg f0 p0 q0 pm0) h) = l1 ++ a :: l2 ++ Publish t :: l3 ->
  (forall b, In b l2 -> is_init b = false) ->
  (forall s, a = Publish s -> s < t) /\ (forall s, init_time a = Some s -> s < t).
Proof.
  intros V Qt Cov Img F cfg ops f0 p0 q0 pm0 h l1 a l2 t l3 HL E N.
  destruct (run_good cfg ops f0 HL h p0 q0 pm0) as (R & _). rewrite E in R.
  apply rising_app in R. destruct R as (_ & R).
  change (a :: l2 ++ Publish t :: l3) with ([a] ++ (l2 ++ Publish t :: l3)) in R.
  apply rising_app in R. destruct R as (_ & R).
  apply rising_app in R. destruct R as (R2 & R3). cbn [rising] in R3. destruct R3 as ((d & ED & LD) & _).
  assert (K : forall s, bound (bound None l1) [a] = Some s -> s < t).
  { intros s Es. destruct (bound_no_init l2 _ s N R2 Es) as (d' & ED' & L). rewrite ED' in ED.
    injection ED as ->. lia. }
  split; intros s Hs.
  - apply K. subst a. reflexivity.
  - apply K. destruct a; try discriminate; injection Hs as <-; reflexivity.
Qed.
Print Assumptions C47_published_stamps_strictly_increase.

Theorem C47_nothing_is_published_before_an_image_update :
  forall (V Qt Cov Img F : Type) (cfg : node_config Qt) (ops : filter_ops V Qt Cov Img F)
         f0 p0 q0 pm0 h l1 t l2,
  filter_laws ops f0 ->
  snd (run cfg ops (node_init cfg f0 p0 q0 pm0) h) = l1 ++ Publish t :: l2 ->
  (exists a, In a l1 /\ is_init a = true) /\ exists m t', In (AddImages m t') l1.
Proof.
  intros V Qt Cov Img F cfg ops f0 p0 q0 pm0 h l1 t l2 HL E.
  destruct (run_good cfg ops f0 HL h p0 q0 pm0) as (R & I & _). rewrite E in R, I.
  apply rising_app in R. destruct R as (R1 & R). cbn [rising] in R. destruct R as ((b & EB & _) & _).
  apply images_first_app in I. destruct I as (_ & (I & _)). split.
  - clear - EB R1.
    assert (G : forall (l : list (action V Qt Cov Img)) b0 c, bound b0 l = Some c -> rising b0 l ->
      b0 <> None \/ exists a, In a l /\ is_init a = true).
    { induction l as [|a l IH]; intros b0 c EB0 R; [left; cbn in EB0; congruence|].
      destruct a as [p q s|acc s|acc gyr s|m s|m s|v s|s|s]; cbn in EB0, R;
        try (right; eexists; split; [now left|reflexivity]);
        try (destruct (IH _ _ EB0 R) as [K|(a & K1 & K2)]; [now left|right; exists a; split; [now right|exact K2]]).
      destruct R as ((c0 & -> & _) & R). left. discriminate. }
    destruct (G l1 None b EB R1) as [K|K]; [congruence|exact K].
  - now apply seen_spec.
Qed.
Print Assumptions C47_nothing_is_published_before_an_image_update.

(** A running node publishes on a message exactly when the safe time of the filter advances, and what it
    publishes carries the new safe time; so a state is published once per safe time. *)
Theorem C47_published_iff_the_safe_time_advances :
  forall (V Qt Cov Img F : Type) (cfg : node_config Qt) (ops : filter_ops V Qt Cov Img F)
         f0 p0 q0 pm0 h e t,
  filter_laws ops f0 ->
  phase_after (c_inverted cfg) h = Running ->
  let n := fst (run cfg ops (node_init cfg f0 p0 q0 pm0) h) in
  let n' := fst (step cfg ops n e) in
  In (Publish t) (snd (step cfg ops n e)) <->
  f_safe ops (n_filter n) < f_safe ops (n_filter n') /\ t = f_safe ops (n_filter n').
Proof.
  intros V Qt Cov Img F cfg ops f0 p0 q0 pm0 h e t HL P n n'.
  apply (step_publish cfg ops f0 HL). unfold n. now rewrite run_phase.
Qed.
Print Assumptions C47_published_iff_the_safe_time_advances.

Example C47_example :
  filter is_publication (snd (run (toy_cfg 1) toy_ops (toy_node 1)
    ([Imu 0%nat 0%nat 10; Image 0 (Some 1%nat) 20; Imu 0%nat 0%nat 21; Image 0 (Some 2%nat) 15;
      Image 0 (Some 3%nat) 30; ResetRequest; Imu 0%nat 0%nat 12; Image 0 (Some 3%nat) 14] : list ev))) =
  [Publish 20; Publish 30; Publish 14].
Proof. reflexivity. Qed.

(** * C52 *)

(** Nothing is recorded as long as nothing has been published; from the first message after which
    something has been published on, the records are made at the messages after which the safe time is
    greater than ever since that first message, once each, with the safe time reached. The safe time after
    that first message is never recorded. Whatever the filter does. *)
Theorem C52_records_are_the_advances_of_the_safe_time :
  forall (V Qt Cov Img F : Type) (cfg : node_config Qt) (ops : filter_ops V Qt Cov Img F)
         (lc : load_config F) f0 p0 q0 pm0 log1 es log2,
  let n0 := node_init cfg f0 p0 q0 pm0 in
  carry_law ops lc ->
  published_after cfg ops lc n0 log1 = false ->
  ld_records (load cfg ops lc n0 log1) = [] /\
  (published_after cfg ops lc n0 (log1 ++ [es]) = true ->
   let first := safe_after cfg ops lc n0 (log1 ++ [es]) in
   let later := map (fun k => safe_after cfg ops lc n0 ((log1 ++ [es]) ++ firstn (S k) log2))
                    (seq 0 (length log2)) in
   let records := map fst (ld_records (load cfg ops lc n0 ((log1 ++ [es]) ++ log2))) in
   records = new_maxima first later /\ increasing first records).
Proof.
  intros V Qt Cov Img F cfg ops lc f0 p0 q0 pm0 log1 es log2 n0 HC H0. split.
  - exact (proj2 (not_published cfg ops lc HC f0 p0 q0 pm0 log1 H0)).
  - intros H1 first later records.
    destruct (load_records cfg ops lc HC f0 p0 q0 pm0 log1 es log2 H0 H1) as (_ & _ & R).
    assert (E : records = new_maxima first later) by exact R.
    split; [exact E|]. rewrite E. apply new_maxima_increasing.
Qed.
Print Assumptions C52_records_are_the_advances_of_the_safe_time.

(** Without resets the messages recorded are those of the safe time reached. *)
Theorem C52_without_resets_the_recorded_messages_are_current :
  forall (V Qt Cov Img F : Type) (cfg : node_config Qt) (ops : filter_ops V Qt Cov Img F)
         (lc : load_config F) f0 p0 q0 pm0 log,
  carry_law ops lc -> filter_laws ops f0 -> lc_reset lc <= 0 ->
  (forall es e, In es log -> In e es -> is_reset_request e = false) ->
  forall s stamp, In (s, stamp) (ld_records (load cfg ops lc (node_init cfg f0 p0 q0 pm0) log)) ->
  stamp = Some s.
Proof.
  intros V Qt Cov Img F cfg ops lc f0 p0 q0 pm0 log HC HL HR HN.
  exact (proj2 (load_fresh cfg ops lc HC f0 p0 q0 pm0 HL HR log HN)).
Qed.
Print Assumptions C52_without_resets_the_recorded_messages_are_current.

(** With the reset trigger this fails: the IMU message that re-initialises the filter moves the safe time
    on without publishing, and the loop records the old messages a second time. *)
Definition toy_log : list (list ev) :=
  [[Imu 0%nat 0%nat 10]; [Image 0 (Some 1%nat) 20]; [Image 0 (Some 2%nat) 30]; [Imu 0%nat 0%nat 31];
   [Image 0 (Some 3%nat) 40]].
Definition toy_load (r : Z) : loader nat nat nat nat toy :=
  load (toy_cfg 1) toy_ops {| lc_reset := r; lc_carry := fun f => f |} (toy_node 1) toy_log.

Theorem C52_recorded_messages_are_current_refuted :
  ~ (forall (lc : load_config toy) (log : list (list ev)), carry_law toy_ops lc ->
     forall s stamp, In (s, stamp) (ld_records (load (toy_cfg 1) toy_ops lc (toy_node 1) log)) ->
     stamp = Some s).
Proof.
  intros H. specialize (H {| lc_reset := 5; lc_carry := fun f => f |} toy_log (fun f => eq_refl) 31 (Some 30)).
  assert (K : Some 30 = Some 31); [|discriminate]. apply H. vm_compute. auto.
Qed.
Print Assumptions C52_recorded_messages_are_current_refuted.

Example C52_example :
  ld_records (toy_load 0) = [(30, Some 30); (40, Some 40)] /\
  ld_records (toy_load 5) = [(30, Some 30); (31, Some 30); (40, Some 40)].
Proof. split; reflexivity. Qed.
