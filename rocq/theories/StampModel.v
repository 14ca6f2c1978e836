(** Time stamps: ROS messages carry seconds and nanoseconds as unsigned 32-bit integers; the node turns them into the
    double-precision filter time with toSec() (/repo/include/rovio/RovioNode.hpp 446, 452, 457, 510, 541, 562, 576) and
    stamps everything it publishes with ros::Time(t) (lines 693-977). The two conversions are those of roscpp's time
    library: toSec() is "(double)sec + 1e-9*(double)nsec", and ros::Time(t) takes the floor of t as seconds and
    boost::math::round of (t - sec)*1e9 as nanoseconds, carries a full second over, and throws outside the range of sec.
    IEEE-754 double precision; the compiler may contract the multiply-add of toSec(). *)
From Coq Require Import ZArith Bool.
From Flocq Require Import Core BinarySingleNaN.
From Verif Require Import IeeeModel.
Local Open Scope Z_scope.

(** ros::Time *)
Record stamp := { sec : Z; nsec : Z }.
Definition div64 (x y : g64) : g64 := @Bdiv 53 1024 q53 q1024 mode_NE x y.
Definition fma64 (x y z : g64) : g64 := @Bfma 53 1024 q53 q1024 mode_NE x y z.
(** the literals 1e9 and 1e-9, the double nearest to 10^-9 *)
Definition giga64 : g64 := g64_of_Z 1000000000.
Definition nano64 : g64 := div64 one64 giga64.
(** toSec() *)
Definition to_sec (fuse : bool) (s : stamp) : g64 :=
  if fuse then fma64 nano64 (g64_of_Z (nsec s)) (g64_of_Z (sec s))
  else add64 (g64_of_Z (sec s)) (mul64 nano64 (g64_of_Z (nsec s))).

(** floor of a finite double; [None] for infinities and NaN *)
Definition floor64 (x : g64) : option Z :=
  match x with
  | B754_zero _ => Some 0
  | B754_finite s m k _ => Some (if 0 <=? k then cond_Zopp s (Zpos m) * 2 ^ k else cond_Zopp s (Zpos m) / 2 ^ (- k))
  | _ => None
  end.
(** ros::Time(t); [rd] is boost::math::round followed by the conversion to uint32_t; [None]: exception *)
Definition from_sec (rd : g64 -> Z) (t : g64) : option stamp :=
  match floor64 t with
  | Some z =>
    if (0 <=? z) && (z <=? 4294967295) then
      let n := rd (mul64 (sub64 t (g64_of_Z z)) giga64) in
      Some {| sec := (z + n / 1000000000) mod 4294967296; nsec := n mod 1000000000 |}
    else None
  | None => None
  end.
(** the time between two measurements, as the filter sees it *)
Definition interval (t1 t2 : g64) : g64 := sub64 t2 t1.
(** rounding to the nearest integer, halves up: one possible [rd] *)
Definition round_up64 (x : g64) : Z :=
  match x with
  | B754_finite s m k _ => if 0 <=? k then cond_Zopp s (Zpos m) * 2 ^ k else (2 * cond_Zopp s (Zpos m) + 2 ^ (- k)) / (2 * 2 ^ (- k))
  | _ => 0
  end.
