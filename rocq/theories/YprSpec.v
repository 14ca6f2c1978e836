(** Specification: yaw, pitch and roll are the angles of successive rotations about z, y and x. *)
From Coq Require Import Reals.
From Verif Require Import Geo Lie YprModel.
Local Open Scope R_scope.

Definition rot_z (a : R) : M3 := ((cos a, - sin a, 0), (sin a, cos a, 0), (0, 0, 1)).
Definition rot_y (a : R) : M3 := ((cos a, 0, sin a), (0, 1, 0), (- sin a, 0, cos a)).
Definition rot_x (a : R) : M3 := ((1, 0, 0), (0, cos a, - sin a), (0, sin a, cos a)).
Definition attitude (a : ypr) : M3 := mm (rot_z (a_yaw a)) (mm (rot_y (a_pitch a)) (rot_x (a_roll a))).

(** [f] gives, near 0, the angles of the attitude [C] turned by the increment [t w] (the increment of the
    attitude element: a rotation vector in the frame the attitude maps into) *)
Definition follows (f : R -> ypr) (w : V3) (C : M3) : Prop :=
  exists eps, 0 < eps /\ forall t, Rabs t < eps -> attitude (f t) = mm (expm (vscale t w)) C.
