(** The distortions with their Jacobians in double precision (/repo/src/Camera.cpp 92-105, 129-163, 183-210), and
    pixelToBearing with the camera's own distortion. *)
From Coq Require Import ZArith Bool.
From Flocq Require Import Core BinarySingleNaN.
From Verif Require Import IeeeModel StampModel IcamModel IbackModel.
Local Open Scope Z_scope.

Definition eye64 : mat64 := {| m00 := one64; m01 := g64_of_Z 0; m10 := g64_of_Z 0; m11 := one64 |}.

Section Jac.
Variables (cz : nat -> contraction) (atan64 : g64 -> g64) (c : camera64).

(** distortEquidist with Jacobian, lines 129-163 *)
Definition equidist_jac64 (x y : g64) : (g64 * g64) * mat64 :=
  let r := sqrt64 (sop (cz 0) x x y y) in
  if Bltb r nano10 then ((x, y), eye64)
  else
    let rx := mul64 (div64 one64 r) x in let ry := mul64 (div64 one64 r) y in
    let th := atan64 r in
    let thr := div64 one64 (mac (cz 5) r r one64) in
    let th2 := mul64 th th in let th4 := mul64 th2 th2 in let th6 := mul64 th2 th4 in let th8 := mul64 th2 th6 in
    let thd := mul64 th (mac (cz 4) (c_k4 c) th8 (mac (cz 3) (c_k3 c) th6 (mac (cz 2) (c_k2 c) th4 (mac (cz 1) (c_k1 c) th2 one64)))) in
    let thdth := mac (cz 9) (mul64 (g64_of_Z 9) (c_k4 c)) th8 (mac (cz 8) (mul64 (g64_of_Z 7) (c_k3 c)) th6
      (mac (cz 7) (mul64 (g64_of_Z 5) (c_k2 c)) th4 (mac (cz 6) (mul64 (g64_of_Z 3) (c_k1 c)) th2 one64))) in
    let s := div64 thd r in
    let sr := sub64 (div64 (mul64 thdth thr) r) (div64 thd (mul64 r r)) in
    ((mul64 x s, mul64 y s),
     {| m00 := mac (cz 12) (mul64 x sr) rx s; m01 := mul64 (mul64 x sr) ry; m10 := mul64 (mul64 y sr) rx; m11 := mac (cz 13) (mul64 y sr) ry s |}).
(** distortDoubleSphere with Jacobian, lines 183-210; repeated expressions are taken to be evaluated the same way each time *)
Definition sphere_jac64 (x y : g64) : (g64 * g64) * mat64 :=
  let r2 := sop (cz 0) x x y y in
  if Bltb r2 nano10_2 then ((x, y), eye64)
  else
    let d1 := sqrt64 (add64 r2 one64) in
    let e := mac (cz 1) (c_k1 c) d1 one64 in
    let d2 := sqrt64 (mac (cz 2) e e r2) in
    let s := div64 one64 (sop (cz 3) (c_k2 c) d2 (sub64 one64 (c_k2 c)) e) in
    let d1x := div64 x d1 in let d1y := div64 y d1 in
    let d2x := div64 (mac (cz 6) (mul64 d1x (c_k1 c)) e x) d2 in let d2y := div64 (mac (cz 7) (mul64 d1y (c_k1 c)) e y) d2 in
    let ax := dop (cz 8) d2x (c_k2 c) (mul64 d1x (c_k1 c)) (sub64 (c_k2 c) one64) in
    let ay := dop (cz 9) d2y (c_k2 c) (mul64 d1y (c_k1 c)) (sub64 (c_k2 c) one64) in
    ((mul64 x s, mul64 y s),
     {| m00 := mac (cz 10) (mul64 (mul64 (opp64 x) ax) s) s s; m01 := mul64 (mul64 (mul64 (opp64 s) s) x) ay;
        m10 := mul64 (mul64 (mul64 (opp64 s) s) y) ax; m11 := mac (cz 11) (mul64 (mul64 (opp64 y) ay) s) s s |}).
(** Camera::distort with Jacobian, lines 229-244 *)
Definition distort_jac64 (x y : g64) : (g64 * g64) * mat64 :=
  match c_model c with Radtan64 => radtan_jac64 cz c x y | Equidist64 => equidist_jac64 x y | DoubleSphere64 => sphere_jac64 x y end.
(** pixelToBearing of a camera *)
Definition pixel_bearing64 (u v : f32) : option (g64 * g64 * g64) := to_bearing64 cz distort_jac64 c u v.
End Jac.
