(** Model of the callbacks of rovio::RovioNode (/repo/include/rovio/RovioNode.hpp).

    Every callback and both reset requests take the mutex m_filter_ first (lines 444, 479, 489, 535, 551,
    572, 605, 620), so a run of the node is a sequence of callbacks; NodeLockModel.v has the threads and
    the mutex themselves. Times (doubles) are integers, see StatModel.v; they are finite.

    The filter (LWF::FilterBase, not part of /repo) is an arbitrary type [F] with arbitrary functions for
    the calls the node makes. [V], [Qt], [Cov] and [Img] are arbitrary types of vectors, quaternions, pose
    covariances and pixel images: the node only passes them on. *)
From Coq Require Import List ZArith Bool Arith.
Import ListNotations.
Local Open Scope Z_scope.

Section Node.
Context {V Qt Cov Img F : Type}.

(** Messages and service requests. An image that cv_bridge cannot decode (exception, lines 501-506) or
    that is empty (line 509) is [None]. *)
Inductive event :=
| Imu (acc gyr : V) (t : Z)
| Image (cam : nat) (img : option Img) (t : Z)
| Pose (p : V) (q : Qt) (t : Z)
| Odometry (p : V) (q : Qt) (c : Cov) (t : Z)
| Velocity (v : V) (t : Z)
| ResetRequest
| ResetToPose (p : V) (q : Qt).

(** ImgUpdateMeasAuxiliary, ImgUpdate.hpp lines 69-91: [im_pyr] are the pyramids, [None] as long as
    nothing has been computed into them; building the levels from the image is the Pyr area. *)
Record img_meas := { im_time : Z; im_valid : list bool; im_pyr : list (option Img) }.

(** constructor and reset(t), ImgUpdate.hpp lines 72-81: the old pyramids stay in place *)
Definition im_init (n : nat) : img_meas :=
  {| im_time := 0; im_valid := repeat false n; im_pyr := repeat None n |}.
Definition im_reset (t : Z) (m : img_meas) : img_meas :=
  {| im_time := t; im_valid := map (fun _ => false) (im_valid m); im_pyr := im_pyr m |}.
(** areAllValid(), ImgUpdate.hpp lines 82-87 *)
Definition im_all_valid (m : img_meas) : bool := forallb (fun b => b) (im_valid m).

Fixpoint set_at {A : Type} (i : nat) (a : A) (l : list A) : list A :=
  match l, i with
  | [], _ => []
  | _ :: l', O => a :: l'
  | x :: l', S i' => x :: set_at i' a l'
  end.
(** lines 518-519 *)
Definition im_set (cam : nat) (img : Img) (m : img_meas) : img_meas :=
  {| im_time := im_time m; im_valid := set_at cam true (im_valid m);
     im_pyr := set_at cam (Some img) (im_pyr m) |}.

(** PoseUpdateMeas: position, attitude and measured covariance *)
Record pose_meas := { pm_pos : V; pm_att : Qt; pm_cov : Cov }.

(** FilterInitializationState::State, lines 92-101 *)
Inductive init_state := WaitForInitUsingAccel | WaitForInitExternalPose | Initialized.

(** The calls of the filter: addPredictionMeas, addUpdateMeas<0>, <1>, <2>, resetWithPose,
    resetWithAccelerometer, updateSafe, and what the node reads from it: the time of the newest buffered
    image measurement (getLastTime, [None] when it returns false) and safe_.t_. *)
Record filter_ops := {
  f_prediction : V -> V -> Z -> F -> F;
  f_images : img_meas -> Z -> F -> F;
  f_pose : pose_meas -> Z -> F -> F;
  f_velocity : V -> Z -> F -> F;
  f_reset_pose : V -> Qt -> Z -> F -> F;
  f_reset_accel : V -> Z -> F -> F;
  f_last_image : F -> option Z;
  f_update : Z -> F -> F;
  f_safe : F -> Z }.

(** The effects of a callback that can be seen from outside, in order: the calls of the filter and the
    publication of a state, whose messages all carry the stamp safe_.t_. *)
Inductive action :=
| InitPose (p : V) (q : Qt) (t : Z)
| InitAccel (acc : V) (t : Z)
| AddPrediction (acc gyr : V) (t : Z)
| AddImages (m : img_meas) (t : Z)
| AddPose (m : pose_meas) (t : Z)
| AddVelocity (v : V) (t : Z)
| UpdateSafe (t : Z)
| Publish (t : Z).

(** Number of cameras, PoseUpdate::timeOffset_ and the quaternion inverse *)
Record node_config := { c_cams : nat; c_offset : Z; c_inverted : Qt -> Qt }.

(** init_state_ with its pose buffer (lines 87-115), imgUpdateMeas_, poseUpdateMeas_,
    gotFirstMessages_, and the time stamp of the last messages filled in (None: none yet). The members
    predictionMeas_ and velocityUpdateMeas_ are overwritten before each use and left out. *)
Record node := {
  n_filter : F;
  n_state : init_state;
  n_pos : V;
  n_att : Qt;
  n_imgs : img_meas;
  n_pose : pose_meas;
  n_first : bool;
  n_stamp : option Z }.

Definition with_filter (f : F) (n : node) : node :=
  {| n_filter := f; n_state := n_state n; n_pos := n_pos n; n_att := n_att n; n_imgs := n_imgs n;
     n_pose := n_pose n; n_first := n_first n; n_stamp := n_stamp n |}.
Definition with_state (s : init_state) (n : node) : node :=
  {| n_filter := n_filter n; n_state := s; n_pos := n_pos n; n_att := n_att n; n_imgs := n_imgs n;
     n_pose := n_pose n; n_first := n_first n; n_stamp := n_stamp n |}.
Definition with_buffer (p : V) (q : Qt) (n : node) : node :=
  {| n_filter := n_filter n; n_state := n_state n; n_pos := p; n_att := q; n_imgs := n_imgs n;
     n_pose := n_pose n; n_first := n_first n; n_stamp := n_stamp n |}.
Definition with_imgs (m : img_meas) (n : node) : node :=
  {| n_filter := n_filter n; n_state := n_state n; n_pos := n_pos n; n_att := n_att n; n_imgs := m;
     n_pose := n_pose n; n_first := n_first n; n_stamp := n_stamp n |}.
Definition with_pose (m : pose_meas) (n : node) : node :=
  {| n_filter := n_filter n; n_state := n_state n; n_pos := n_pos n; n_att := n_att n;
     n_imgs := n_imgs n; n_pose := m; n_first := n_first n; n_stamp := n_stamp n |}.
(** the messages are filled in and gotFirstMessages_ is set, lines 665-1003 *)
Definition published (t : Z) (n : node) : node :=
  {| n_filter := n_filter n; n_state := n_state n; n_pos := n_pos n; n_att := n_att n;
     n_imgs := n_imgs n; n_pose := n_pose n; n_first := true; n_stamp := Some t |}.

(** Constructor, lines 87-90, 188-215: the node waits for an accelerometer measurement. The contents of
    the pose buffer and of the pose measurement are arbitrary. *)
Definition node_init (cfg : node_config) (f : F) (p : V) (q : Qt) (pm : pose_meas) : node :=
  {| n_filter := f; n_state := WaitForInitUsingAccel; n_pos := p; n_att := q;
     n_imgs := im_init (c_cams cfg); n_pose := pm; n_first := false; n_stamp := None |}.

(** isInitialized(), lines 111-113 *)
Definition initialized (n : node) : bool :=
  match n_state n with Initialized => true | _ => false end.

(** updateAndPublish, lines 633-1006: timing statistics and visualisation left out. The messages of one
    publication are one [Publish]. *)
Definition update_and_publish (ops : filter_ops) (n : node) : node * list action :=
  if initialized n then
    let old := f_safe ops (n_filter n) in
    match f_last_image ops (n_filter n) with
    | Some t =>
        let n' := with_filter (f_update ops t (n_filter n)) n in
        if old <? f_safe ops (n_filter n')
        then (published (f_safe ops (n_filter n')) n', [UpdateSafe t; Publish (f_safe ops (n_filter n'))])
        else (n', [UpdateSafe t])
    | None =>
        if old <? f_safe ops (n_filter n)
        then (published (f_safe ops (n_filter n)) n, [Publish (f_safe ops (n_filter n))])
        else (n, [])
    end
  else (n, []).

Definition after_add (ops : filter_ops) (f : F) (a : action) (n : node) : node * list action :=
  let r := update_and_publish ops (with_filter f n) in (fst r, a :: snd r).

(** imuCallback, lines 443-471 *)
Definition imu_callback (ops : filter_ops) (acc gyr : V) (t : Z) (n : node) : node * list action :=
  match n_state n with
  | Initialized =>
      after_add ops (f_prediction ops acc gyr t (n_filter n)) (AddPrediction acc gyr t) n
  | WaitForInitExternalPose =>
      (with_state Initialized (with_filter (f_reset_pose ops (n_pos n) (n_att n) t (n_filter n)) n),
       [InitPose (n_pos n) (n_att n) t])
  | WaitForInitUsingAccel =>
      (with_state Initialized (with_filter (f_reset_accel ops acc t (n_filter n)) n), [InitAccel acc t])
  end.

(** imgCallback, lines 498-528 *)
Definition img_callback (ops : filter_ops) (cam : nat) (img : option Img) (t : Z) (n : node)
  : node * list action :=
  match img with
  | None => (n, [])
  | Some im =>
      if initialized n then
        let m0 := n_imgs n in
        let m1 := if t =? im_time m0 then m0 else im_reset t m0 in
        let m2 := im_set cam im m1 in
        if im_all_valid m2
        then after_add ops (f_images ops m2 t (n_filter n)) (AddImages m2 t) (with_imgs (im_reset t m2) n)
        else (with_imgs m2 n, [])
      else (n, [])
  end.

(** imgCallback0 and imgCallback1, lines 478-491; no other camera has a subscription (lines 219-220) *)
Definition img_entry (cfg : node_config) (ops : filter_ops) (cam : nat) (img : option Img) (t : Z)
    (n : node) : node * list action :=
  match cam with
  | O => img_callback ops 0 img t n
  | S O => if (1 <? c_cams cfg)%nat then img_callback ops 1 img t n else (n, [])
  | _ => (n, [])
  end.

(** groundtruthCallback, lines 534-545: the covariance in the measurement is not written *)
Definition pose_callback (cfg : node_config) (ops : filter_ops) (p : V) (q : Qt) (t : Z) (n : node)
  : node * list action :=
  if initialized n then
    let m := {| pm_pos := p; pm_att := c_inverted cfg q; pm_cov := pm_cov (n_pose n) |} in
    after_add ops (f_pose ops m (t + c_offset cfg) (n_filter n)) (AddPose m (t + c_offset cfg))
      (with_pose m n)
  else (n, []).

(** groundtruthOdometryCallback, lines 551-566 *)
Definition odometry_callback (cfg : node_config) (ops : filter_ops) (p : V) (q : Qt) (c : Cov) (t : Z)
    (n : node) : node * list action :=
  if initialized n then
    let m := {| pm_pos := p; pm_att := c_inverted cfg q; pm_cov := c |} in
    after_add ops (f_pose ops m (t + c_offset cfg) (n_filter n)) (AddPose m (t + c_offset cfg))
      (with_pose m n)
  else (n, []).

(** velocityCallback, lines 571-579 *)
Definition velocity_callback (ops : filter_ops) (v : V) (t : Z) (n : node) : node * list action :=
  if initialized n
  then after_add ops (f_velocity ops v t (n_filter n)) (AddVelocity v t) n
  else (n, []).

(** requestReset, lines 604-612 *)
Definition request_reset (n : node) : node :=
  if initialized n then with_state WaitForInitUsingAccel n else n.

(** resetToPoseServiceCallback and requestResetToPose, lines 591-599, 619-629 *)
Definition request_reset_to_pose (cfg : node_config) (p : V) (q : Qt) (n : node) : node :=
  if initialized n
  then with_state WaitForInitExternalPose (with_buffer p (c_inverted cfg q) n)
  else n.

Definition step (cfg : node_config) (ops : filter_ops) (n : node) (e : event) : node * list action :=
  match e with
  | Imu acc gyr t => imu_callback ops acc gyr t n
  | Image cam img t => img_entry cfg ops cam img t n
  | Pose p q t => pose_callback cfg ops p q t n
  | Odometry p q c t => odometry_callback cfg ops p q c t n
  | Velocity v t => velocity_callback ops v t n
  | ResetRequest => (request_reset n, [])
  | ResetToPose p q => (request_reset_to_pose cfg p q n, [])
  end.

(** a history of callbacks: the node afterwards and all its effects *)
Fixpoint run (cfg : node_config) (ops : filter_ops) (n : node) (es : list event) : node * list action :=
  match es with
  | [] => (n, [])
  | e :: es' =>
      let r := step cfg ops n e in
      let r' := run cfg ops (fst r) es' in
      (fst r', snd r ++ snd r')
  end.

End Node.

Arguments event : clear implicits.
Arguments img_meas : clear implicits.
Arguments pose_meas : clear implicits.
Arguments filter_ops : clear implicits.
Arguments action : clear implicits.
Arguments node_config : clear implicits.
Arguments node : clear implicits.
