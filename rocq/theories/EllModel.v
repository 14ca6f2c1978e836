(** Model of FeatureCoordinates::setPixelCov and drawEllipse (/repo/src/FeatureCoordinates.cpp 181-198,
    205-208) over the reals, and of getDepthUncertaintyTau (241-257). Float rounding is not modelled. *)
From Coq Require Import ZArith Reals.
Local Open Scope R_scope.

(** 2x2 matrix cov(0,0), cov(0,1), cov(1,0), cov(1,1) *)
Record cov2 := { v00 : R; v01 : R; v10 : R; v11 : R }.
(** result of es_.compute(cov), line 183: real parts of the eigenvalues and of the columns of the
    eigenvector matrix. The solver (Eigen::EigenSolver) is not modelled; see [solved] in EllSpec. *)
Record eig := { e_l0 : R; e_l1 : R; e_v0 : R * R; e_v1 : R * R }.
(** std::atan2 *)
Definition atan2 (y x : R) : R :=
  if Rlt_dec 0 x then atan (y / x)
  else if Rlt_dec x 0 then (if Rle_dec 0 y then atan (y / x) + PI else atan (y / x) - PI)
  else if Rlt_dec 0 y then PI / 2 else if Rlt_dec y 0 then - (PI / 2) else 0.
(** sigma1_, sigma2_, sigmaAngle_, eigenVector1_, eigenVector2_ *)
Record ellipse := { el_s1 : R; el_s2 : R; el_angle : R; el_v1 : R * R; el_v2 : R * R }.
(** the square roots of lines 185-186: not a number for negative arguments *)
Definition root (x : R) : option R := if Rlt_dec x 0 then None else Some (sqrt x).
(** setPixelCov, lines 181-198; [None]: a standard deviation is not a number *)
Definition set_pixel_cov (e : eig) : option ellipse :=
  let angle := atan2 (snd (e_v0 e)) (fst (e_v0 e)) in
  match root (e_l0 e), root (e_l1 e) with
  | Some s1, Some s2 =>
    Some (if Rlt_dec s1 s2
          then {| el_s1 := s2; el_s2 := s1; el_angle := angle + / 2 * PI; el_v1 := e_v1 e; el_v2 := e_v0 e |}
          else {| el_s1 := s1; el_s2 := s2; el_angle := angle; el_v1 := e_v0 e; el_v2 := e_v1 e |})
  | _, _ => None
  end.
(** half axes passed to cv::ellipse: max(int(scaleFactor*sigma+0.5),1), line 207. The arguments are not
    negative, where the conversion to int rounds down; overflow of int is not modelled. *)
Definition half_axis (scale sigma : R) : Z := Z.max (Int_part (scale * sigma + / 2)) 1.
(** point of the curve drawn by cv::ellipse for half axes [a],[b] and rotation [angle], relative to the
    centre, at the parameter [t] *)
Definition curve (a b angle t : R) : R * R :=
  (a * cos t * cos angle - b * sin t * sin angle, a * cos t * sin angle + b * sin t * cos angle).
(** the curve for exact half axes *)
Definition ellipse_curve (scale : R) (el : ellipse) (t : R) : R * R := curve (scale * el_s1 el) (scale * el_s2 el) (el_angle el) t.

(** ** getDepthUncertaintyTau, lines 241-257 *)
Record vec := { vx : R; vy : R; vz : R }.
Definition dot (a b : vec) : R := vx a * vx b + vy a * vy b + vz a * vz b.
Definition norm (a : vec) : R := sqrt (dot a a).
Definition sub (a b : vec) : vec := {| vx := vx a - vx b; vy := vy a - vy b; vz := vz a - vz b |}.
Definition scale (k : R) (a : vec) : vec := {| vx := k * vx a; vy := k * vy a; vz := k * vz a |}.
(** the angles alpha (line 251) and beta (line 252); a division by zero gives not a number, which is not
    modelled (the theorems assume a baseline and a point off the second centre) *)
Definition tau_alpha (f t : vec) : R := acos (dot f t / norm t).
Definition tau_beta (f t : vec) (d : R) : R := let a := sub (scale d f) t in acos (dot a (scale (-1) t) / (norm t * norm a)).
(** d_plus (line 255) *)
Definition d_plus (f t : vec) (d err : R) : R :=
  let beta := tau_beta f t d + err in norm t * sin beta / sin (PI - tau_alpha f t - beta).
Definition tau (f t : vec) (d err : R) : R := d_plus f t d err - d.
