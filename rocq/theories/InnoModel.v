(** Model of the innovation of the image update and of its Jacobians: include/rovio/ImgUpdate.hpp
    381-387 (noise), 406-440 (evalInnovation), 545-583 (jacState, jacNoise), 725-732 (noise per
    measurement), and of the pixel output CoordinateTransform/PixelOutput.hpp 58-66. Coordinates are
    reals; the conversion of pixel coordinates to float is not modelled. *)
From Coq Require Import Reals ZArith List Bool Arith.
From Verif Require Import Geo Lie DistModel FiltModel OutModel CamModel.
Import ListNotations.
Local Open Scope R_scope.

(** activeCamID, ImgUpdate.hpp 409, 549 *)
Definition active_cam (n : dims) (x : state) (i cc : nat) : nat := ((cc + fcam x i) mod d_cam n)%nat.

(** featureOutput_.c().get_c() after the transfer to camera [k], lines 410-412, 436-437. [None]: the
    transfer has no finite result or the bearing cannot be projected (get_c then prints an error and
    returns whatever the object held). *)
Definition predicted (cams : nat -> camera) (frame : V3 -> M3) (dold : fdist) (k i : nat) (x : state) : option vec2 :=
  match transfer frame k x i dold with
  | Some g => bearing_to_pixel (cams k) (nor (ft_Q g))
  | None => None
  end.
(** c_J_ of lines 555, 565: Jacobian of the pixel in the tangent plane of the transferred bearing *)
Definition pixel_jac (cams : nat -> camera) (frame : V3 -> M3) (dold : fdist) (k i : nat) (x : state) : option mat2 :=
  match transfer frame k x i dold with
  | Some g => option_map snd (bearing_to_pixel_M (cams k) (nor (ft_Q g)) (M1 (ft_Q g)) (M2c (ft_Q g)))
  | None => None
  end.

(** evalInnovation without useDirectMethod_, lines 434-439: measured minus predicted pixel plus noise *)
Definition innovation_pix (cams : nat -> camera) (frame : V3 -> M3) (dold : fdist) (k i : nat) (meas nz : vec2) (x : state) : option vec2 :=
  match predicted cams frame dold k i x with
  | Some c => Some (fst meas - fst c + fst nz, snd meas - snd c + snd nz)
  | None => None
  end.

(** a 2x3 block of the 2 x D Jacobian: its two rows *)
Definition block2 := (V3 * V3)%type.
(** - (2x2 matrix) * (upper two rows of a 3x3 block) *)
Definition neg_times (J : mat2) (B : M3) : block2 :=
  let '(a, b, c, d) := J in
  (vneg (vadd (vscale a (r0 B)) (vscale b (r1 B))), vneg (vadd (vscale c (r0 B)) (vscale d (r1 B)))).
Definition mul22 (A J : mat2) : mat2 :=
  let '(a, b, c, d) := A in let '(e, f, g, h) := J in
  (a * e + b * g, a * f + b * h, c * e + d * g, c * f + d * h).
Definition mul2v (A : mat2) (v : vec2) : vec2 :=
  let '(a, b, c, d) := A in (a * fst v + b * snd v, c * fst v + d * snd v).

(** jacState without useDirectMethod_, lines 563-566 *)
Definition jac_pix (cams : nat -> camera) (frame : V3 -> M3) (dold : fdist) (ign : bool) (k i : nat) (x : state) : option (seg -> block2) :=
  option_map (fun J s => neg_times J (transfer_jac frame ign k x i s)) (pixel_jac cams frame dold k i x).

(** getLinearAlignEquationsReduced (AlignModel.v) as far as it matters here: A_red_, b_red_ or failure,
    as a function of the camera image used and of the predicted pixel *)
Definition equations := nat -> vec2 -> option (mat2 * vec2).
(** evalInnovation with useDirectMethod_, lines 414-432; the flag is cancelIteration_ *)
Definition innovation_direct (cams : nat -> camera) (frame : V3 -> M3) (dold : fdist) (eqs : equations) (k i : nat) (nz : vec2) (x : state)
  : vec2 * bool :=
  match predicted cams frame dold k i x with
  | Some c => match eqs k c with
              | Some (_, b) => ((fst b + fst nz, snd b + snd nz), false)
              | None => (nz, true)
              end
  | None => (nz, true)
  end.
(** jacState with useDirectMethod_, lines 552-561. An unprojectable bearing is not in the frame, so the
    equations fail. *)
Definition zero_block : seg -> block2 := fun _ => (v0, v0).
Definition jac_direct (cams : nat -> camera) (frame : V3 -> M3) (dold : fdist) (eqs : equations) (ign : bool) (k i : nat) (x : state)
  : (seg -> block2) * bool :=
  match predicted cams frame dold k i x, pixel_jac cams frame dold k i x with
  | Some c, Some J => match eqs k c with
              | Some (A, _) => ((fun s => neg_times (mul22 A J) (transfer_jac frame ign k x i s)), false)
              | None => (zero_block, true)
              end
  | _, _ => (zero_block, true)
  end.
(** jacNoise, lines 580-583 *)
Definition jac_noise : mat2 := (1, 0, 0, 1).

(** 2 x D matrix times a tangent vector *)
Definition row2_mul (n : dims) (row : seg -> block2) (v : tangent) : vec2 :=
  fold_right (fun s acc => (dot (fst (row s)) (v s) + fst acc, dot (snd (row s)) (v s) + snd acc)) (0, 0) (segs n).

(** updnoiP_: set by refreshProperties (lines 381-387) and again before every direct measurement
    (lines 725-732); [cc] is the camera counter, 0 for the camera the feature belongs to *)
Record noise_cfg := { n_direct : bool; n_int : R; n_pix : R; n_off : R }.
Definition update_noise (cf : noise_cfg) (cc : nat) : mat2 :=
  let v := if n_direct cf then (if (cc =? 0)%nat then n_int cf else n_int cf * n_off cf) else n_pix cf in
  (v, 0, 0, v).

(** PixelOutputCT, PixelOutput.hpp 58-66, after TransformFeatureOutputCT: covariance of the predicted
    pixel, ImgUpdate.hpp 687 and 696-698: J (F P F^T)_{2x2} J^T. [Pf] is the upper left 2x2 block of
    featureOutputCov_. *)
Definition pixel_cov (J Pf : mat2) : mat2 :=
  let '(a, b, c, d) := J in mul22 (mul22 J Pf) (a, c, b, d).
