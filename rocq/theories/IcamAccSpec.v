(** The exact projections of the other two camera models. *)
From Coq Require Import ZArith Reals Ratan.
From Flocq Require Import Core BinarySingleNaN.
From Verif Require Import IeeeModel IeeeSpec IcamModel IcamSpec.
Local Open Scope R_scope.

(** the double-sphere model *)
Definition exact_sphere (c : camera64) (x y : R) : R * R :=
  let r2 := x * x + y * y in
  let d1 := sqrt (r2 + 1) in
  let e := val64 (c_k1 c) * d1 + 1 in
  let d2 := sqrt (r2 + e * e) in
  let s := / (val64 (c_k2 c) * d2 + (1 - val64 (c_k2 c)) * e) in
  (x * s, y * s).
(** the equidistant model *)
Definition exact_equi (c : camera64) (x y : R) : R * R :=
  let r := sqrt (x * x + y * y) in
  let t := atan r in
  let td := t * (1 + val64 (c_k1 c) * t ^ 2 + val64 (c_k2 c) * t ^ 4 + val64 (c_k3 c) * t ^ 6 + val64 (c_k4 c) * t ^ 8) in
  (x * (td / r), y * (td / r)).
Definition exact_of (c : camera64) (x y : R) : R * R :=
  match c_model c with Radtan64 => exact_radtan c x y | Equidist64 => exact_equi c x y | DoubleSphere64 => exact_sphere c x y end.
(** the exact pixel *)
Definition exact_pixel (c : camera64) (x y : R) : R * R :=
  (val64 (c_fx c) * fst (exact_of c x y) + val64 (c_cx c), val64 (c_fy c) * snd (exact_of c x y) + val64 (c_cy c)).
(** a library arc tangent that is off by no more than about an ulp *)
Definition accurate_atan (f : g64 -> g64) : Prop := forall x, is_finite x = true -> 0 <= val64 x ->
  is_finite (f x) = true /\ Rabs (val64 (f x) - atan (val64 x)) <= / 2 ^ 52 * val64 x.
(** what the double-sphere and the equidistant models need in addition *)
Definition usual_model (c : camera64) : Prop :=
  at_most 1 (c_k4 c) /\ (c_model c = DoubleSphere64 -> 0 <= val64 (c_k1 c) /\ 0 <= val64 (c_k2 c)).
