(** The conversion to float of the numbers in the point cloud message (/repo/include/rovio/RovioNode.hpp 911, 930-931, 938 and 948;
    the patch pixels of lines 984-987 are floats already). [MsgModel] leaves it as a parameter. *)
From Coq Require Import ZArith Reals.
From Flocq Require Import Core Binary Bits.
From Flocq Require BinarySingleNaN.

(** to the nearest float, ties to even *)
Definition rnd32 (r : R) : R := round radix2 (FLT_exp (-149) 24) ZnearestE r.
Definition prec32 : (0 < 24)%Z := eq_refl.
Definition emax32 : (24 < 128)%Z := eq_refl.
(** static_cast<float> and Eigen's cast<float> of a double of value [r]; out of range the result is infinite *)
Definition float_of (r : R) : binary32 :=
  let x := rnd32 r in
  if Rlt_bool (Rabs x) (bpow radix2 128)
  then binary_normalize 24 128 prec32 emax32 BinarySingleNaN.mode_NE (Ztrunc (scaled_mantissa radix2 (FLT_exp (-149) 24) x)) (cexp radix2 (FLT_exp (-149) 24) x) (Rlt_bool r 0)
  else B754_infinity 24 128 (Rlt_bool r 0).
(** the 32 bits memcpy'd into the message *)
Definition bits32 (r : R) : Z := bits_of_b32 (float_of r).
