(** Model of the yaw-pitch-roll output (/repo/include/rovio/CoordinateTransform/YprOutput.hpp) over the
    reals. kindr is not part of the repository: its Zyx Euler angles are any three angles whose elementary
    rotations about z, y and x multiply to the attitude (which of the equivalent triples it picks is left
    open), and its mapping from local angular velocity to their rates is the matrix kindr documents. *)
From Coq Require Import Reals.
From Verif Require Import Geo.
Local Open Scope R_scope.

(** YprOutput, lines 46-54: yaw, pitch, roll *)
Record ypr := { a_yaw : R; a_pitch : R; a_roll : R }.
Definition ypr_vec (a : ypr) : V3 := (a_yaw a, a_pitch a, a_roll a).

(** kindr::EulerAnglesZyxD::getMappingFromLocalAngularVelocityToDiff(), used in line 68 *)
Definition local_rate_to_diff (a : ypr) : M3 :=
  let p := a_pitch a in let r := a_roll a in
  ((0, sin r / cos p, cos r / cos p),
   (0, cos r, - sin r),
   (1, sin r * (sin p / cos p), cos r * (sin p / cos p))).
(** AttitudeToYprCT::jacTransform, lines 66-69, at the attitude [C] with the angles [a] *)
Definition jac_ypr (a : ypr) (C : M3) : M3 := mm (local_rate_to_diff a) (mt C).
