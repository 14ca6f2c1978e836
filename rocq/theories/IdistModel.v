(** The inverse distance parametrisation of rovio::FeatureDistance (/repo/src/FeatureDistance.cpp) in IEEE-754 double
    precision, rounding to nearest even. The logarithmic and hyperbolic ones call exp, log, sinh and asinh, whose rounding
    is up to the C library: they are only modelled over the reals (DistModel). *)
From Coq Require Import ZArith Bool.
From Flocq Require Import Core BinarySingleNaN.
From Verif Require Import IeeeModel StampModel.
Local Open Scope Z_scope.

(** the literal 1e-6: the double nearest to 10^-6, and the int literal 0 converted *)
Definition micro64 : g64 := div64 one64 (g64_of_Z 1000000).
Definition zero64 : g64 := g64_of_Z 0.
(** makeNonZero, lines 151-160; comparisons with NaN are false *)
Definition non_zero64 (p : g64) : g64 :=
  if Bltb p micro64 then
    if Bleb zero64 p then micro64
    else if Bltb (Bopp micro64) p then Bopp micro64 else p
  else p.
(** setParameterInverse, lines 162-164: the parameter for the distance [d] *)
Definition inverse_param (d : g64) : g64 := div64 one64 (non_zero64 d).
(** getDistanceInverse, lines 166-169 *)
Definition inverse_distance (p : g64) : g64 := div64 one64 (non_zero64 p).
(** getDistanceDerivativeInverse, lines 171-174 *)
Definition inverse_distance_derivative (p : g64) : g64 :=
  let q := non_zero64 p in div64 (Bopp one64) (mul64 q q).
(** getParameterDerivativeInverse, lines 176-179 *)
Definition inverse_param_derivative (p : g64) : g64 :=
  let q := non_zero64 p in mul64 (Bopp q) q.
(** getParameterDerivativeCombinedInverse, lines 181-184 *)
Definition inverse_combined_derivative (p : g64) : g64 :=
  mul64 (g64_of_Z (-2)) (non_zero64 p).
