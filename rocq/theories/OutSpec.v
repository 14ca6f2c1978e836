(** Specification vocabulary for the output transforms (C53, C54, C68-C70). *)
From Coq Require Import Reals List ZArith.
From Verif Require Import Geo Lie DistModel DistSpec FiltModel FiltSpec OutModel.
Local Open Scope R_scope.

(** A motion of the IMU starting at the state's pose with the state's velocity and the last measured
    rate (less the bias): position curve [Wt], attitude curve [At] (IMU to world). *)
Record imu_motion (x : state) (Wt : R -> V3) (At : R -> M3) : Prop := {
  im_pos : Wt 0 = x_pos x; im_att : At 0 = x_att x;
  im_vel : dV Wt (world_velocity x);
  im_ror : dM At (mm (x_att x) (skew (vsub (a_wmeas (x_aux x)) (x_gyb x)))) }.

(** IMU coordinates of a point given in the frame of a camera with extrinsics (q, r) *)
Definition in_imu (q : M3) (r p : V3) : V3 := vadd r (mv (mt q) p).

(** the same direction in the state space, seen with the opposite sign on all camera rotations *)
Definition flip_vea (tv : tangent) : tangent := fun s => match s with Vea k => vneg (tv (Vea k)) | _ => tv s end.
(** the direction whose camera-0 part is replaced by the one of camera [c] *)
Definition as_cam0 (c : nat) (tv : tangent) : tangent := fun s => match s with Vep 0 => tv (Vep c) | Vea 0 => tv (Vea c) | _ => tv s end.

(** what setFromVector has to deliver *)
Definition good_frame (frame : V3 -> M3) : Prop := forall v, v <> v0 -> is_rot (frame v) /\ nor (frame v) = unit v.

(** bearing and parameter of an optional feature *)
Definition bearing (g : option feat) : V3 := match g with Some f => nor (ft_Q f) | None => v0 end.
Definition param (g : option feat) : R := match g with Some f => fd_p (ft_d f) | None => 0 end.

(** rotation of the covariance of a vector given in IMU coordinates into a frame with rotation [q] *)
Definition rotate_cov (q c : M3) : M3 := mm (mm q c) (mt q).
