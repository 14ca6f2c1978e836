(** Vocabulary for the double-precision projection. *)
From Coq Require Import ZArith Reals.
From Flocq Require Import Core BinarySingleNaN.
From Verif Require Import IeeeModel IeeeSpec IcamModel.
Local Open Scope R_scope.

Definition val64 (x : g64) : R := B2R x.
(** a finite double of magnitude at most [b] *)
Definition at_most (b : R) (x : g64) : Prop := is_finite x = true /\ Rabs (val64 x) <= b.
(** calibrations without absurd numbers; the double sphere model with non-negative offset and alpha in the unit interval *)
Definition moderate (c : camera64) : Prop :=
  at_most (2 ^ 100) (c_k1 c) /\ at_most (2 ^ 100) (c_k2 c) /\ at_most (2 ^ 100) (c_k3 c) /\ at_most (2 ^ 100) (c_k4 c) /\
  at_most (2 ^ 100) (c_p1 c) /\ at_most (2 ^ 100) (c_p2 c) /\
  at_most (2 ^ 100) (c_fx c) /\ at_most (2 ^ 100) (c_fy c) /\ at_most (2 ^ 100) (c_cx c) /\ at_most (2 ^ 100) (c_cy c) /\
  (c_model c = DoubleSphere64 -> 0 <= val64 (c_k1 c) /\ 0 <= val64 (c_k2 c) <= 1).
(** the library's arc tangent stays within two *)
Definition good_atan (f : g64 -> g64) : Prop := forall x, is_nan x = false -> at_most 2 (f x).
(** the bearing is not within 2^-100 of the image plane's horizon *)
Definition in_front (vx vy vz : g64) : Prop := at_most 2 vx /\ at_most 2 vy /\ at_most 2 vz /\ / 2 ^ 100 <= val64 vz.

(** the radial-tangential distortion with real coefficients, and the pixel it gives *)
Definition exact_radtan (c : camera64) (x y : R) : R * R :=
  let r2 := x * x + y * y in
  let radial := 1 + val64 (c_k1 c) * r2 + val64 (c_k2 c) * (r2 * r2) + val64 (c_k3 c) * (r2 * r2 * r2) in
  (x * radial + 2 * val64 (c_p1 c) * (x * y) + val64 (c_p2 c) * (r2 + 2 * (x * x)),
   y * radial + val64 (c_p1 c) * (r2 + 2 * (y * y)) + 2 * val64 (c_p2 c) * (x * y)).
Definition exact_u (c : camera64) (x y : R) : R := val64 (c_fx c) * fst (exact_radtan c x y) + val64 (c_cx c).
Definition exact_v (c : camera64) (x y : R) : R := val64 (c_fy c) * snd (exact_radtan c x y) + val64 (c_cy c).
(** coefficients of a usual calibration *)
Definition usual (c : camera64) : Prop :=
  at_most 1 (c_k1 c) /\ at_most 1 (c_k2 c) /\ at_most 1 (c_k3 c) /\ at_most 1 (c_p1 c) /\ at_most 1 (c_p2 c) /\
  at_most 4096 (c_fx c) /\ at_most 4096 (c_fy c) /\ at_most 4096 (c_cx c) /\ at_most 4096 (c_cy c).
