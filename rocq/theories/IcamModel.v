(** Camera::bearingToPixel in double precision (/repo/src/Camera.cpp 246-259) with the three distortions
    (lines 82-90, 106-127, 161-181). The compiler may contract products into sums; [cz] tells what it does
    at each sum. What the library's atan returns is a parameter. *)
From Coq Require Import ZArith Bool.
From Flocq Require Import Core BinarySingleNaN.
From Verif Require Import IeeeModel StampModel.
Local Open Scope Z_scope.

Definition sqrt64 (x : g64) : g64 := @Bsqrt 53 1024 q53 q1024 mode_NE x.
(** a*b + c *)
Definition mac (k : contraction) (a b c : g64) : g64 := match k with Plain => add64 (mul64 a b) c | _ => fma64 a b c end.
(** a*x + b*y *)
Definition sop (k : contraction) (a x b y : g64) : g64 :=
  match k with
  | Plain => add64 (mul64 a x) (mul64 b y)
  | FuseFirst => fma64 a x (mul64 b y)
  | FuseSecond => fma64 b y (mul64 a x)
  end.
Definition two64 : g64 := g64_of_Z 2.
(** the literals 1e-8 and 1e-16 *)
Definition nano10 : g64 := div64 one64 (g64_of_Z 100000000).
Definition nano10_2 : g64 := div64 one64 (g64_of_Z 10000000000000000).

Inductive model64 := Radtan64 | Equidist64 | DoubleSphere64.
Record camera64 := { c_model : model64; c_k1 : g64; c_k2 : g64; c_k3 : g64; c_k4 : g64; c_p1 : g64; c_p2 : g64; c_fx : g64; c_fy : g64; c_cx : g64; c_cy : g64 }.

Section Dist.
Variables (cz : nat -> contraction) (atan64 : g64 -> g64) (c : camera64).

(** distortRadtan, lines 82-90 *)
Definition radtan64 (x y : g64) : g64 * g64 :=
  let x2 := mul64 x x in let y2 := mul64 y y in let xy := mul64 x y in
  let r2 := sop (cz 0) x x y y in
  let kr := mac (cz 3) (mac (cz 2) (mac (cz 1) (c_k3 c) r2 (c_k2 c)) r2 (c_k1 c)) r2 one64 in
  (mac (cz 6) (c_p2 c) (mac (cz 5) two64 x2 r2) (sop (cz 4) x kr (mul64 (c_p1 c) two64) xy),
   mac (cz 9) (mul64 (c_p2 c) two64) xy (sop (cz 7) y kr (c_p1 c) (mac (cz 8) two64 y2 r2))).
(** distortEquidist, lines 106-127 *)
Definition equidist64 (x y : g64) : g64 * g64 :=
  let r := sqrt64 (sop (cz 0) x x y y) in
  if Bltb r nano10 then (x, y)
  else
    let th := atan64 r in
    let th2 := mul64 th th in let th4 := mul64 th2 th2 in let th6 := mul64 th2 th4 in let th8 := mul64 th2 th6 in
    let thd := mul64 th (mac (cz 4) (c_k4 c) th8 (mac (cz 3) (c_k3 c) th6 (mac (cz 2) (c_k2 c) th4 (mac (cz 1) (c_k1 c) th2 one64)))) in
    let s := div64 thd r in
    (mul64 x s, mul64 y s).
(** distortDoubleSphere, lines 163-181; the repeated k1_*d1+1.0 is taken to be evaluated the same way each time *)
Definition sphere64 (x y : g64) : g64 * g64 :=
  let r2 := sop (cz 0) x x y y in
  if Bltb r2 nano10_2 then (x, y)
  else
    let d1 := sqrt64 (add64 r2 one64) in
    let e := mac (cz 1) (c_k1 c) d1 one64 in
    let d2 := sqrt64 (mac (cz 2) e e r2) in
    let s := div64 one64 (sop (cz 3) (c_k2 c) d2 (sub64 one64 (c_k2 c)) e) in
    (mul64 x s, mul64 y s).
Definition distort64 (x y : g64) : g64 * g64 :=
  match c_model c with Radtan64 => radtan64 x y | Equidist64 => equidist64 x y | DoubleSphere64 => sphere64 x y end.

(** bearingToPixel, lines 246-259; [None]: it returns false *)
Definition to_pixel64 (vx vy vz : g64) : option (f32 * f32) :=
  if Bleb vz (B754_zero false) then None
  else let d := distort64 (div64 vx vz) (div64 vy vz) in
       Some (narrow (mac (cz 10) (c_fx c) (fst d) (c_cx c)), narrow (mac (cz 11) (c_fy c) (snd d) (c_cy c))).
End Dist.
