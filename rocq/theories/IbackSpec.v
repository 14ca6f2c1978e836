(** Vocabulary for the double-precision back-projection. *)
From Coq Require Import ZArith Reals.
From Flocq Require Import Core BinarySingleNaN.
From Verif Require Import IeeeModel IcamModel IcamSpec IbackModel.
Local Open Scope R_scope.

Definition nowhere : g64 * g64 * g64 := (B754_nan, B754_nan, B754_nan).
(** a bearing of length one, up to about four units of the last bit, that points forward *)
Definition unit_forward (b : g64 * g64 * g64) : Prop :=
  let '(x, y, z) := b in
  is_finite x = true /\ is_finite y = true /\ is_finite z = true /\ 0 < val64 z /\
  Rabs (val64 x * val64 x + val64 y * val64 y + val64 z * val64 z - 1) <= / 2 ^ 49.
(** no distortion: all coefficients of the radial-tangential model are zero *)
Definition undistorted (c : camera64) : Prop :=
  c_model c = Radtan64 /\ at_most 0 (c_k1 c) /\ at_most 0 (c_k2 c) /\ at_most 0 (c_k3 c) /\ at_most 0 (c_p1 c) /\ at_most 0 (c_p2 c).
(** focal lengths of at least one pixel *)
Definition has_focal_length (c : camera64) : Prop := 1 <= val64 (c_fx c) /\ 1 <= val64 (c_fy c).
(** the pixel lies within the first 4094 pixels and at most 3/2 focal lengths from the principal point *)
Definition near_axis (c : camera64) (u v : f32) : Prop :=
  is_finite u = true /\ is_finite v = true /\ Rabs (B2R u) <= 4094 /\ Rabs (B2R v) <= 4094 /\
  Rabs (B2R u - val64 (c_cx c)) <= 3 / 2 * val64 (c_fx c) /\ Rabs (B2R v - val64 (c_cy c)) <= 3 / 2 * val64 (c_fy c).
(** no distortion in the radial-tangential or double-sphere model *)
Definition distortion_free (c : camera64) : Prop :=
  (c_model c = Radtan64 \/ c_model c = DoubleSphere64) /\ at_most 0 (c_k1 c) /\ at_most 0 (c_k2 c) /\ at_most 0 (c_k3 c) /\ at_most 0 (c_k4 c) /\ at_most 0 (c_p1 c) /\ at_most 0 (c_p2 c).
