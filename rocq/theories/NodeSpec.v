(** Specifications for the node properties (C45, C46, C47). They speak about the messages received and
    the effects seen from outside. *)
From Coq Require Import List ZArith Bool Arith.
From Verif Require Import NodeModel.
Import ListNotations.
Local Open Scope Z_scope.

Section Spec.
Context {V Qt Cov Img F : Type}.
Notation event := (event V Qt Cov Img).
Notation action := (action V Qt Cov Img).

(** Where the node has to take its initial state from when the next IMU message arrives, or that it is
    running. [inv] turns the orientation of the request into the attitude used by the filter. *)
Inductive phase := Waiting (from : option (V * Qt)) | Running.

(** The phase follows the messages alone: the node starts waiting, an IMU message makes it run, and a
    reset request is honoured only when it is running. *)
Definition next_phase (inv : Qt -> Qt) (p : phase) (e : event) : phase :=
  match p, e with
  | Waiting _, Imu _ _ _ => Running
  | Running, ResetRequest => Waiting None
  | Running, ResetToPose r q => Waiting (Some (r, inv q))
  | _, _ => p
  end.
Definition phase_after (inv : Qt -> Qt) (es : list event) : phase :=
  fold_left (next_phase inv) es (Waiting None).

(** the initialisation due when an IMU message with accelerometer value [acc] arrives at time [t] *)
Definition initialisation (from : option (V * Qt)) (acc : V) (t : Z) : action :=
  match from with
  | Some (r, q) => InitPose r q t
  | None => InitAccel acc t
  end.

(** effects that hand a measurement to the filter or (re)initialise it, and publications *)
Definition is_init (a : action) : bool :=
  match a with InitPose _ _ _ | InitAccel _ _ => true | _ => false end.
Definition is_measurement (a : action) : bool :=
  match a with
  | AddPrediction _ _ _ | AddImages _ _ | AddPose _ _ | AddVelocity _ _ => true
  | _ => false
  end.
Definition is_publication (a : action) : bool := match a with Publish _ => true | _ => false end.

(** what each effect does to the filter *)
Definition effect (ops : filter_ops V Qt Cov Img F) (f : F) (a : action) : F :=
  match a with
  | InitPose p q t => f_reset_pose ops p q t f
  | InitAccel acc t => f_reset_accel ops acc t f
  | AddPrediction acc gyr t => f_prediction ops acc gyr t f
  | AddImages m t => f_images ops m t f
  | AddPose m t => f_pose ops m t f
  | AddVelocity v t => f_velocity ops v t f
  | UpdateSafe t => f_update ops t f
  | Publish _ => f
  end.

(** The images that count: decoded, from a camera the node listens to, received while it is running.
    Camera, image and time stamp. *)
Record arrival := { a_cam : nat; a_img : Img; a_time : Z }.
Definition listens (ncam cam : nat) : bool := (cam <? ncam)%nat && (cam <? 2)%nat.
Fixpoint arrivals_from (inv : Qt -> Qt) (ncam : nat) (p : phase) (es : list event) : list arrival :=
  match es with
  | [] => []
  | e :: es' =>
      match p, e with
      | Running, Image cam (Some im) t =>
          if listens ncam cam
          then {| a_cam := cam; a_img := im; a_time := t |} :: arrivals_from inv ncam (next_phase inv p e) es'
          else arrivals_from inv ncam (next_phase inv p e) es'
      | _, _ => arrivals_from inv ncam (next_phase inv p e) es'
      end
  end.
Definition arrivals (inv : Qt -> Qt) (ncam : nat) (es : list event) : list arrival :=
  arrivals_from inv ncam (Waiting None) es.

(** the image updates among the effects, and the images inside an image update *)
Definition updates (l : list action) : list (img_meas Img * Z) :=
  flat_map (fun a => match a with AddImages m t => [(m, t)] | _ => [] end) l.
Definition images_of (m : img_meas Img) : list Img :=
  flat_map (fun o => match o with Some im => [im] | None => [] end) (im_pyr m).

(** What the node relies on: a filter whose safe time is only changed by initialisation, which sets it,
    and by updateSafe, which never moves it back; and which has no image measurement buffered before one
    is added. [f0] is the filter the node is started with. *)
Record filter_laws (ops : filter_ops V Qt Cov Img F) (f0 : F) : Prop := {
  fl_start : f_last_image ops f0 = None;
  fl_measurement_safe : forall a f, is_measurement a = true -> f_safe ops (effect ops f a) = f_safe ops f;
  fl_reset_pose_safe : forall p q t f, f_safe ops (f_reset_pose ops p q t f) = t;
  fl_reset_accel_safe : forall acc t f, f_safe ops (f_reset_accel ops acc t f) = t;
  fl_update_safe : forall t f, f_safe ops f <= f_safe ops (f_update ops t f);
  fl_images_only : forall a f, (forall m t, a <> AddImages m t) ->
    f_last_image ops f = None -> f_last_image ops (effect ops f a) = None }.

(** time of an initialisation *)
Definition init_time (a : action) : option Z :=
  match a with InitPose _ _ t => Some t | InitAccel _ t => Some t | _ => None end.

End Spec.
Arguments phase : clear implicits.
Arguments arrival : clear implicits.
