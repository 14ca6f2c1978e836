(** Camera::bearingToPixel with its Jacobian in double precision (/repo/src/Camera.cpp 261-299). *)
From Coq Require Import ZArith Bool.
From Flocq Require Import Core BinarySingleNaN.
From Verif Require Import IeeeModel StampModel IcamModel IbackModel IbjacModel.
Local Open Scope Z_scope.

(** the rows of a 2x3 matrix *)
Record mat64_23 := { j00 : g64; j01 : g64; j02 : g64; j10 : g64; j11 : g64; j12 : g64 }.

Section Proj.
Variables (cz : nat -> contraction) (atan64 : g64 -> g64) (c : camera64).

(** lines 261-286; [None]: it returns false. pow(z,2) is the product z*z, as compilers expand it; the products J3*J2 and (J3*J2)*J1
    are sums of two products per coefficient, the zeros of J3 and J1 included. *)
Definition to_pixel_jac64 (vx vy vz : g64) : option ((f32 * f32) * mat64_23) :=
  if Bleb vz (B754_zero false) then None
  else
    let o := g64_of_Z 0 in
    let a := div64 one64 vz in
    let bx := div64 (opp64 vx) (mul64 vz vz) in let by' := div64 (opp64 vy) (mul64 vz vz) in
    let '(d, m) := distort_jac64 cz atan64 c (div64 vx vz) (div64 vy vz) in
    let p00 := sop (cz 36) (c_fx c) (m00 m) o (m10 m) in let p01 := sop (cz 37) (c_fx c) (m01 m) o (m11 m) in
    let p10 := sop (cz 38) o (m00 m) (c_fy c) (m10 m) in let p11 := sop (cz 39) o (m01 m) (c_fy c) (m11 m) in
    Some ((narrow (mac (cz 34) (c_fx c) (fst d) (c_cx c)), narrow (mac (cz 35) (c_fy c) (snd d) (c_cy c))),
      {| j00 := sop (cz 40) p00 a p01 o; j01 := sop (cz 41) p00 o p01 a; j02 := sop (cz 42) p00 bx p01 by';
         j10 := sop (cz 43) p10 a p11 o; j11 := sop (cz 44) p10 o p11 a; j12 := sop (cz 45) p10 bx p11 by' |}).
(** bearingToPixel of a unit vector with the Jacobian in its tangent plane, lines 292-299. The columns [m1], [m2] of the 3x2 tangent
    basis come from the vector's own getM, which is not part of the repository. Each coefficient adds the first product to the sum of the
    other two, as Eigen unrolls it. [None]: it returns false, with nothing meaningful in J. *)
Definition dot64 (k : nat) (a b c : g64) (m : g64 * g64 * g64) : g64 :=
  let '(u1, u2, u3) := m in mac (cz (k + 1)) a u1 (sop (cz k) b u2 c u3).
Definition to_pixel_tangent64 (vx vy vz : g64) (m1 m2 : g64 * g64 * g64) : option ((f32 * f32) * mat64) :=
  match to_pixel_jac64 vx vy vz with
  | None => None
  | Some (uv, j) => Some (uv, {| m00 := dot64 46 (j00 j) (j01 j) (j02 j) m1; m01 := dot64 48 (j00 j) (j01 j) (j02 j) m2;
                                 m10 := dot64 50 (j10 j) (j11 j) (j12 j) m1; m11 := dot64 52 (j10 j) (j11 j) (j12 j) m2 |})
  end.
End Proj.
