(** What "this matrix is the derivative of that map" means for maps into the state space, and the
    well-formedness of states. Independent of the code's Jacobian formulas. *)
From Coq Require Import Reals List ZArith.
From Verif Require Import Geo Lie DistModel DistSpec FiltModel.
Local Open Scope R_scope.

(** Velocity [w] of a curve of states at time 0: vectors move with [w], rotations turn with world-side
    rate [w], the bearing VECTOR moves with M (w0,w1) in the tangent plane, the parameter with w2. [ok] restricts the claim on camera and
    feature segments. *)
Definition moves (n : dims) (ok : seg -> Prop) (c : R -> state) (w : tangent) : Prop :=
  dV (fun t => x_pos (c t)) (w Pos) /\ dV (fun t => x_vel (c t)) (w Vel) /\
  dV (fun t => x_acb (c t)) (w Acb) /\ dV (fun t => x_gyb (c t)) (w Gyb) /\
  dM (fun t => x_att (c t)) (mm (skew (w Att)) (x_att (c 0))) /\
  (forall k, (k < d_cam n)%nat -> ok (Vep k) -> dV (fun t => x_vep (c t) k) (w (Vep k))) /\
  (forall k, (k < d_cam n)%nat -> ok (Vea k) -> dM (fun t => x_vea (c t) k) (mm (skew (w (Vea k))) (x_vea (c 0) k))) /\
  (forall i, (i < d_max n)%nat -> ok (Fea i) ->
     dV (fun t => nor (ft_Q (x_fea (c t) i))) (Mmul (ft_Q (x_fea (c 0) i)) (vx (w (Fea i))) (vy (w (Fea i)))) /\
     dR (fun t => fd_p (ft_d (x_fea (c t) i))) (vz (w (Fea i)))) /\
  (forall k, (k < d_pose n)%nat -> dV (fun t => x_pop (c t) k) (w (Pop k)) /\
     dM (fun t => x_poa (c t) k) (mm (skew (w (Poa k))) (x_poa (c 0) k))).

(** straight line in the tangent space *)
Definition along (v : tangent) (t : R) : tangent := fun s => vscale t (v s).

(** a feature whose distance map is regular at its parameter *)
Definition smooth_fea (f : feat) : Prop :=
  get_distance (ft_d f) <> 0 /\ smooth_param (fd_type (ft_d f)) (fd_p (ft_d f)).

(** the feature belongs to an existing camera *)
Definition usable (n : dims) (x : state) (i : nat) : Prop :=
  (0 <= ft_cam (x_fea x i) < Z.of_nat (d_cam n))%Z /\ smooth_fea (x_fea x i).

Record wf (n : dims) (x : state) : Prop := {
  wf_att : is_rot (x_att x);
  wf_vea : forall c, (c < d_cam n)%nat -> is_rot (x_vea x c);
  wf_aux : forall c, (c < d_cam n)%nat -> is_rot (a_qCM (x_aux x) c);
  wf_poa : forall k, (k < d_pose n)%nat -> is_rot (x_poa x k);
  wf_fea : forall i, (i < d_max n)%nat -> is_rot (ft_Q (x_fea x i)) }.

(** ** Rigid-body vocabulary for the motion claims *)
(** The state's robocentric velocity has the opposite sign of the physical one. *)
Definition world_velocity (x : state) : V3 := vneg (mv (x_att x) (x_vel x)).
Definition body_rate (m : imu) (x : state) : V3 := vsub (i_gyr m) (x_gyb x).
Definition specific_force (m : imu) (x : state) : V3 := vsub (i_acc m) (x_acb x).
(** coordinates, in a camera with extrinsics (q, r), of the world point [p] seen from the IMU pose (W, R) *)
Definition in_camera (q : M3) (r : V3) (p W : V3) (R_ : M3) : V3 := mv q (vsub (mv (mt R_) (vsub p W)) r).
Definition unit (v : V3) : V3 := vscale (/ norm v) v.

(** ** Runs of the prediction *)
Definition step (n : dims) (P : params) (im : imu) (dt : R) (x : state) : state := predict n P im true no_noise dt x.
(** prediction when no IMU sample is available *)
Definition coast (n : dims) (P : params) (dt : R) (x : state) : state := predict n P (no_meas P x) true no_noise dt x.
(** the sample of an IMU standing still: no rotation, the specific force opposes gravity *)
Record still (P : params) (im : imu) (x : state) : Prop := {
  st_vel : x_vel x = v0; st_gyr : i_gyr im = x_gyb x; st_acc : mv (x_att x) (specific_force im x) = vneg (p_g P) }.
Definition same_motion (n : dims) (y x : state) : Prop :=
  x_pos y = x_pos x /\ x_vel y = x_vel x /\ x_acb y = x_acb x /\ x_gyb y = x_gyb x /\ x_att y = x_att x /\
  (forall i, (i < d_max n)%nat -> x_fea y i = x_fea x i) /\ (forall c, MrMC y c = MrMC x c) /\ (forall c, qCM y c = qCM x c).

(** ** Warps *)
Definition mv2 (A : M2) (u : R * R) : R * R := let '((a, b), (c, d)) := A in (a * fst u + b * snd u, c * fst u + d * snd u).
(** change of the bearing of feature [i] alone *)
Definition bump (i : nat) (u : R * R) : tangent := fun s => match s with Fea j => if (j =? i)%nat then (fst u, snd u, 0) else v0 | _ => v0 end.
