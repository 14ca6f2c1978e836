(** Camera::pixelToBearing in double precision (/repo/src/Camera.cpp 301-331). Which products the compiler contracts
    into sums is given by [cz]. The distortion with its Jacobian is a parameter of the loop; the
    radial-tangential one (lines 92-104) is given. *)
From Coq Require Import ZArith Bool.
From Flocq Require Import Core BinarySingleNaN.
From Verif Require Import IeeeModel StampModel IcamModel.
Local Open Scope Z_scope.

Definition opp64 (x : g64) : g64 := Bopp x.
(** a*x - b*y *)
Definition dop (k : contraction) (a x b y : g64) : g64 :=
  match k with
  | Plain => sub64 (mul64 a x) (mul64 b y)
  | FuseFirst => fma64 a x (opp64 (mul64 b y))
  | FuseSecond => fma64 (opp64 b) y (mul64 a x)
  end.
Definition four64 : g64 := g64_of_Z 4.
Definition six64 : g64 := g64_of_Z 6.
(** the literal 1e-10 (line 309) *)
Definition tolerance64 : g64 := div64 one64 (g64_of_Z 10000000000).

(** a 2x2 matrix, row by row *)
Record mat64 := { m00 : g64; m01 : g64; m10 : g64; m11 : g64 }.

Section Back.
Variables (cz : nat -> contraction).

(** distortRadtan with Jacobian, lines 92-104 *)
Definition radtan_jac64 (c : camera64) (x y : g64) : (g64 * g64) * mat64 :=
  let x2 := mul64 x x in let y2 := mul64 y y in let xy := mul64 x y in
  let r2 := sop (cz 0) x x y y in
  let kr := mac (cz 3) (mac (cz 2) (mac (cz 1) (c_k3 c) r2 (c_k2 c)) r2 (c_k1 c)) r2 one64 in
  let twok1 := mul64 two64 (c_k1 c) in let fourk2 := mul64 four64 (c_k2 c) in let sixk3 := mul64 six64 (c_k3 c) in
  let j00 := mac (cz 24) (mul64 six64 (c_p2 c)) x (mac (cz 23) (mul64 two64 (c_p1 c)) y
     (mac (cz 22) (mul64 (mul64 sixk3 x2) r2) r2 (mac (cz 21) (mul64 fourk2 x2) r2 (mac (cz 20) twok1 x2 kr)))) in
  let j01 := mac (cz 28) (mul64 two64 (c_p2 c)) y (mac (cz 27) (mul64 two64 (c_p1 c)) x
     (mac (cz 26) (mul64 (mul64 sixk3 xy) r2) r2 (sop (cz 25) twok1 xy (mul64 fourk2 xy) r2))) in
  let j11 := mac (cz 33) (mul64 two64 (c_p2 c)) x (mac (cz 32) (mul64 six64 (c_p1 c)) y
     (mac (cz 31) (mul64 (mul64 sixk3 y2) r2) r2 (mac (cz 30) (mul64 fourk2 y2) r2 (mac (cz 29) twok1 y2 kr)))) in
  (radtan64 cz c x y, {| m00 := j00; m01 := j01; m10 := j01; m11 := j11 |}).

(** Eigen: the product of two 2x2 matrices, the transpose, the inverse (1/determinant times the adjugate), matrix times vector *)
Definition mmul64 (k : nat) (a b : mat64) : mat64 :=
  {| m00 := sop (cz k) (m00 a) (m00 b) (m01 a) (m10 b); m01 := sop (cz (k + 1)) (m00 a) (m01 b) (m01 a) (m11 b);
     m10 := sop (cz (k + 2)) (m10 a) (m00 b) (m11 a) (m10 b); m11 := sop (cz (k + 3)) (m10 a) (m01 b) (m11 a) (m11 b) |}.
Definition trans64 (a : mat64) : mat64 := {| m00 := m00 a; m01 := m10 a; m10 := m01 a; m11 := m11 a |}.
Definition inv64 (a : mat64) : mat64 :=
  let d := div64 one64 (dop (cz 44) (m00 a) (m11 a) (m10 a) (m01 a)) in
  {| m00 := mul64 (m11 a) d; m01 := mul64 (opp64 (m01 a)) d; m10 := mul64 (opp64 (m10 a)) d; m11 := mul64 (m00 a) d |}.
Definition mvec64 (a : mat64) (x y : g64) : g64 * g64 :=
  (sop (cz 49) (m00 a) x (m01 a) y, sop (cz 50) (m10 a) x (m11 a) y).
(** lines 318-319 *)
Definition step64 (j : mat64) (ex ey : g64) : g64 * g64 :=
  mvec64 (mmul64 45 (inv64 (mmul64 40 (trans64 j) j)) (trans64 j)) ex ey.

(** the loop, lines 316-325; [None]: no success within the iterations *)
Fixpoint undistort64 (dist : g64 -> g64 -> (g64 * g64) * mat64) (n : nat) (yx yy bx by_ : g64) : option (g64 * g64) :=
  match n with
  | O => None
  | S n =>
    let '(t, j) := dist bx by_ in
    let ex := sub64 yx (fst t) in let ey := sub64 yy (snd t) in
    let du := step64 j ex ey in
    let bx' := add64 bx (fst du) in let by' := add64 by_ (snd du) in
    if Bleb (sop (cz 51) ex ex ey ey) tolerance64 then Some (bx', by') else undistort64 dist n yx yy bx' by'
  end.
(** Vector3d(x,y,1).normalized(), line 328: the squares are summed from the right *)
Definition normalized64 (x y : g64) : g64 * g64 * g64 :=
  let n := sqrt64 (mac (cz 53) x x (sop (cz 52) y y one64 one64)) in
  (div64 x n, div64 y n, div64 one64 n).
(** pixelToBearing; [None]: it returns false *)
Definition to_bearing64 (dist : g64 -> g64 -> (g64 * g64) * mat64) (c : camera64) (u v : f32) : option (g64 * g64 * g64) :=
  let yx := div64 (sub64 (widen u) (c_cx c)) (c_fx c) in
  let yy := div64 (sub64 (widen v) (c_cy c)) (c_fy c) in
  match undistort64 dist 100 yx yy yx yy with
  | Some (x, y) => Some (normalized64 x y)
  | None => None
  end.
End Back.
