(** Specification vocabulary for initialisation, resets and the pose and velocity updates. *)
From Coq Require Import Reals List.
From Verif Require Import Geo Lie FiltModel FiltSpec UpdModel.
Import ListNotations.
Local Open Scope R_scope.

(** [axis] picks a unit vector perpendicular to a unit vector *)
Definition good_axis (axis : V3 -> V3) : Prop := forall u, dot u u = 1 -> dot (axis u) (axis u) = 1 /\ dot (axis u) u = 0.

(** A rigid transform: rotation and translation, applied to a point *)
Definition apply (q : M3) (r : V3) (p : V3) : V3 := vadd (mv q p) r.

(** The pose an external tracker with alignment (qWI, IrIW) and body mounting (qVM, MrMV) would report
    for an IMU at W with attitude A: position of V in I, and rotation from I to V. *)
Definition tracker_pos (qWI : M3) (IrIW MrMV W : V3) (A : M3) : V3 := vadd IrIW (mv (mt qWI) (apply A W MrMV)).
Definition tracker_att (qWI qVM A : M3) : M3 := mm qVM (mm (mt A) qWI).

(** the two pose states of the update are not the same one *)
Definition distinct_idx (c : pcfg) : Prop := match inertial c, body c with Some i, Some j => i <> j | _, _ => True end.
Definition idx_in (n : dims) (o : option nat) : Prop := match o with Some i => (i < d_pose n)%nat | None => True end.
(** directions that do not touch the IMU pose *)
Definition no_pose_dir (tv : tangent) : Prop := tv Pos = v0 /\ tv Att = v0.

(** position given by the last pose reset of a history *)
Fixpoint last_reset_pos (p0 : V3) (l : list fop) : V3 :=
  match l with [] => p0 | OReset_pose W _ :: l => last_reset_pos W l | _ :: l => last_reset_pos p0 l end.
(** everything but the pose and the extrinsics *)
Definition same_rest (y x : state) : Prop :=
  x_vel y = x_vel x /\ x_acb y = x_acb x /\ x_gyb y = x_gyb x /\ x_vep y = x_vep x /\ x_vea y = x_vea x /\ x_fea y = x_fea x /\
  x_pop y = x_pop x /\ x_poa y = x_poa x /\ a_calib (x_aux y) = a_calib (x_aux x) /\ a_timerI (x_aux y) = a_timerI (x_aux x).
