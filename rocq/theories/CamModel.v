(** Model of rovio::Camera (/repo/src/Camera.cpp) over the reals. Floating point rounding and the
    narrowing of pixel coordinates to float are ignored. *)
From Coq Require Import Reals.
Local Open Scope R_scope.

(** Camera.hpp lines 43-64: distortion model, coefficients, intrinsics K_ (only K00, K11, K02, K12
    are ever read; a skew K01 is ignored by the code) *)
Inductive model := RADTAN | EQUIDIST | DS.
Record camera := { ctype : model; k1 : R; k2 : R; k3 : R; k4 : R; p1 : R; p2 : R;
                   fx : R; fy : R; cx : R; cy : R }.

Definition vec2 := (R * R)%type.
(** row major 2x2 matrix J00 J01 J10 J11 *)
Definition mat2 := (R * R * R * R)%type.

(** distortRadtan, lines 82-90 *)
Definition distort_radtan (k : camera) (i : vec2) : vec2 :=
  let (x, y) := i in
  let x2 := x * x in let y2 := y * y in let xy := x * y in let r2 := x2 + y2 in
  let kr := 1 + ((k3 k * r2 + k2 k) * r2 + k1 k) * r2 in
  (x * kr + p1 k * 2 * xy + p2 k * (r2 + 2 * x2),
   y * kr + p1 k * (r2 + 2 * y2) + p2 k * 2 * xy).

(** distortRadtan with Jacobian, lines 92-104 *)
Definition distort_radtan_J (k : camera) (i : vec2) : vec2 * mat2 :=
  let (x, y) := i in
  let x2 := x * x in let y2 := y * y in let xy := x * y in let r2 := x2 + y2 in
  let kr := 1 + ((k3 k * r2 + k2 k) * r2 + k1 k) * r2 in
  let j01 := 2 * k1 k * xy + 4 * k2 k * xy * r2 + 6 * k3 k * xy * r2 * r2 + 2 * p1 k * x + 2 * p2 k * y in
  ((x * kr + p1 k * 2 * xy + p2 k * (r2 + 2 * x2),
    y * kr + p1 k * (r2 + 2 * y2) + p2 k * 2 * xy),
   (kr + 2 * k1 k * x2 + 4 * k2 k * x2 * r2 + 6 * k3 k * x2 * r2 * r2 + 2 * p1 k * y + 6 * p2 k * x,
    j01, j01,
    kr + 2 * k1 k * y2 + 4 * k2 k * y2 * r2 + 6 * k3 k * y2 * r2 * r2 + 6 * p1 k * y + 2 * p2 k * x)).

(** 1e-8 and 1e-16 of the small-radius shortcuts (lines 111, 134, 169, 187) *)
Definition r_min : R := / 100000000.
Definition r2_min : R := / 10000000000000000.

(** the angle polynomial of lines 117-122 / 147-152 *)
Definition thd_of (k : camera) (th : R) : R :=
  let th2 := th * th in let th4 := th2 * th2 in let th6 := th2 * th4 in let th8 := th2 * th6 in
  th * (1 + k1 k * th2 + k2 k * th4 + k3 k * th6 + k4 k * th8).
(** lines 153 *)
Definition thd_th_of (k : camera) (th : R) : R :=
  let th2 := th * th in let th4 := th2 * th2 in let th6 := th2 * th4 in let th8 := th2 * th6 in
  1 + 3 * k1 k * th2 + 5 * k2 k * th4 + 7 * k3 k * th6 + 9 * k4 k * th8.

(** distortEquidist, lines 106-127 *)
Definition distort_equidist (k : camera) (i : vec2) : vec2 :=
  let (x, y) := i in
  let r := sqrt (x * x + y * y) in
  if Rlt_dec r r_min then (x, y)
  else let s := thd_of k (atan r) / r in (x * s, y * s).

(** distortEquidist with Jacobian, lines 129-162 *)
Definition distort_equidist_J (k : camera) (i : vec2) : vec2 * mat2 :=
  let (x, y) := i in
  let r := sqrt (x * x + y * y) in
  if Rlt_dec r r_min then ((x, y), (1, 0, 0, 1))
  else
    let r_x := 1 / r * x in let r_y := 1 / r * y in
    let th := atan r in let th_r := 1 / (r * r + 1) in
    let thd := thd_of k th in let thd_th := thd_th_of k th in
    let s := thd / r in let s_r := thd_th * th_r / r - thd / (r * r) in
    ((x * s, y * s), (s + x * s_r * r_x, x * s_r * r_y, y * s_r * r_x, s + y * s_r * r_y)).

(** lines 175-177: denominator of the double sphere scaling *)
Definition ds_d1 (r2 : R) : R := sqrt (r2 + 1).
Definition ds_d2 (k : camera) (r2 : R) : R :=
  let d1 := ds_d1 r2 in sqrt (r2 + (k1 k * d1 + 1) * (k1 k * d1 + 1)).
Definition ds_den (k : camera) (r2 : R) : R :=
  k2 k * ds_d2 k r2 + (1 - k2 k) * (k1 k * ds_d1 r2 + 1).

(** distortDoubleSphere, lines 164-181 *)
Definition distort_ds (k : camera) (i : vec2) : vec2 :=
  let (x, y) := i in
  let r2 := x * x + y * y in
  if Rlt_dec r2 r2_min then (x, y)
  else let s := 1 / ds_den k r2 in (x * s, y * s).

(** distortDoubleSphere with Jacobian, lines 183-210 *)
Definition distort_ds_J (k : camera) (i : vec2) : vec2 * mat2 :=
  let (x, y) := i in
  let r2 := x * x + y * y in
  if Rlt_dec r2 r2_min then ((x, y), (1, 0, 0, 1))
  else
    let d1 := ds_d1 r2 in let d2 := ds_d2 k r2 in
    let s := 1 / ds_den k r2 in
    let d1dx := x / d1 in let d1dy := y / d1 in
    let d2dx := (x + d1dx * k1 k * (d1 * k1 k + 1)) / d2 in
    let d2dy := (y + d1dy * k1 k * (d1 * k1 k + 1)) / d2 in
    ((x * s, y * s),
     (- x * (d2dx * k2 k - d1dx * k1 k * (k2 k - 1)) * s * s + s,
      - s * s * x * (d2dy * k2 k - d1dy * k1 k * (k2 k - 1)),
      - s * s * y * (d2dx * k2 k - d1dx * k1 k * (k2 k - 1)),
      - y * (d2dy * k2 k - d1dy * k1 k * (k2 k - 1)) * s * s + s)).

(** distort, lines 212-244 *)
Definition distort (k : camera) (i : vec2) : vec2 :=
  match ctype k with RADTAN => distort_radtan k i | EQUIDIST => distort_equidist k i | DS => distort_ds k i end.
Definition distort_J (k : camera) (i : vec2) : vec2 * mat2 :=
  match ctype k with RADTAN => distort_radtan_J k i | EQUIDIST => distort_equidist_J k i | DS => distort_ds_J k i end.

Definition vec3 := (R * R * R)%type.

(** bearingToPixel, lines 246-259; None = returns false *)
Definition bearing_to_pixel (k : camera) (v : vec3) : option vec2 :=
  let '(x, y, z) := v in
  if Rle_dec z 0 then None
  else let (dx, dy) := distort k (x / z, y / z) in
       Some (fx k * dx + cx k, fy k * dy + cy k).

(** row major 2x3 matrix *)
Definition mat23 := ((R * R * R) * (R * R * R))%type.

(** bearingToPixel with Jacobian, lines 261-286: J = J3 * J2 * J1 *)
Definition bearing_to_pixel_J (k : camera) (v : vec3) : option (vec2 * mat23) :=
  let '(x, y, z) := v in
  if Rle_dec z 0 then None
  else
    let a00 := 1 / z in let a02 := - x / z ^ 2 in let a11 := 1 / z in let a12 := - y / z ^ 2 in
    let '((dx, dy), (j00, j01, j10, j11)) := distort_J k (x / z, y / z) in
    Some ((fx k * dx + cx k, fy k * dy + cy k),
          ((fx k * (j00 * a00 + j01 * 0), fx k * (j00 * 0 + j01 * a11), fx k * (j00 * a02 + j01 * a12)),
           (fy k * (j10 * a00 + j11 * 0), fy k * (j10 * 0 + j11 * a11), fy k * (j10 * a02 + j11 * a12)))).

(** bearingToPixel on the manifold, lines 292-299: J2 * M for the 3x2 tangent basis M of the bearing
    (LWF::NormalVectorElement::getM, not part of the repository, hence a parameter [m1],[m2]: its columns) *)
Definition bearing_to_pixel_M (k : camera) (v m1 m2 : vec3) : option (vec2 * mat2) :=
  match bearing_to_pixel_J k v with
  | None => None
  | Some (c, ((a, b, g), (d, e, h))) =>
    let '(u1, u2, u3) := m1 in let '(w1, w2, w3) := m2 in
    Some (c, (a * u1 + b * u2 + g * u3, a * w1 + b * w2 + g * w3,
              d * u1 + e * u2 + h * u3, d * w1 + e * w2 + h * w3))
  end.

(** One Gauss-Newton correction (J^T J)^{-1} J^T e of line 317; None = singular normal matrix, which
    in the program yields infinities or NaN *)
Definition gn_step (J : mat2) (e : vec2) : option vec2 :=
  let '(a, b, c, d) := J in let (e0, e1) := e in
  let h00 := a * a + c * c in let h01 := a * b + c * d in let h11 := b * b + d * d in
  let det := h00 * h11 - h01 * h01 in
  let g0 := a * e0 + c * e1 in let g1 := b * e0 + d * e1 in
  if Req_EM_T det 0 then None
  else Some ((h11 * g0 - h01 * g1) / det, (h00 * g1 - h01 * g0) / det).

Definition tolerance : R := / 10000000000.

(** Outcome of the iteration: [Found ybar] success with the corrected guess, [Bad] success flag set
    but the correction was singular (NaN bearing), [Fail] returns false. *)
Inductive undist := Found (y : vec2) | Bad | Fail.

(** the loop of lines 314-323 with [n] iterations left; a NaN guess never satisfies the test, so a
    singular correction without immediate success can only end in [Fail] *)
Fixpoint undistort (n : nat) (k : camera) (y ybar : vec2) : undist :=
  match n with
  | O => Fail
  | S m =>
    let (yt, J) := distort_J k ybar in
    let e := (fst y - fst yt, snd y - snd yt) in
    let ok := if Rle_dec (fst e * fst e + snd e * snd e) tolerance then true else false in
    match gn_step J e with
    | Some du =>
      let yn := (fst ybar + fst du, snd ybar + snd du) in
      if ok then Found yn else undistort m k y yn
    | None => if ok then Bad else Fail
    end
  end.

(** pixelToBearing, lines 301-331 (max_iter = 100, line 308) *)
Inductive bearing := BOk (v : vec3) | BNaN | BFalse.
Definition normalize3 (v : vec3) : vec3 :=
  let '(x, y, z) := v in let n := sqrt (x * x + y * y + z * z) in (x / n, y / n, z / n).
Definition pixel_to_bearing_n (n : nat) (k : camera) (c : vec2) : bearing :=
  let y := ((fst c - cx k) / fx k, (snd c - cy k) / fy k) in
  match undistort n k y y with
  | Found (a, b) => BOk (normalize3 (a, b, 1))
  | Bad => BNaN
  | Fail => BFalse
  end.
Definition max_iter : nat := 100.
Definition pixel_to_bearing := pixel_to_bearing_n max_iter.
