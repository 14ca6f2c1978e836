(** Model of the initialisation of a new feature in ImgUpdate::commonPostProcess
    (/repo/include/rovio/ImgUpdate.hpp 997-1048): distance, covariance and stereo initialisation. Drawing
    and the statistics (lines 999-1001, see C01-C03) are left out; the configured relative variance, which
    lines 1003/1006 carry through a float, is kept as the real number it is; the alignment in the other image and its acceptance (lines 1014-1027, see C33 and C78) enter
    as their outcome: the bearing of the accepted coordinates. *)
From Coq Require Import Reals Bool Arith.
From Verif Require Import Geo DistModel MultiModel FiltModel CovModel.
Local Open Scope R_scope.

(** nCam_, doStereoInitialization_, initCovFeature_ (3x3, distance parameter first) *)
Record bcfg := { b_ncam : nat; b_stereo : bool; b_cov : mat }.
(** lines 1003-1006: entry (0,0) of initCovFeature_ for this feature *)
Definition scaled_cov (cf : bcfg) (d : fdist) : mat :=
  fun i j => if (i =? 0)%nat && (j =? 0)%nat then b_cov cf 0%nat 0%nat * (parameter_derivative d * get_distance d) ^ 2 else b_cov cf i j.
(** line 1013 *)
Definition other_cam (cf : bcfg) (cam : nat) : nat := ((cam + 1) mod b_ncam cf)%nat.
(** the arguments of getDepthFromTriangulation, line 1032 *)
Definition baseline (x : state) (cam other : nat) : V3 := mv (qCM x other) (vsub (MrMC x cam) (MrMC x other)).
Definition relative_rot (x : state) (cam other : nat) : M3 := mm (qCM x other) (mt (qCM x cam)).
(** lines 1002-1047 for one feature of camera [cam] with bearing [nor1] and distance type [t]: [D] is the
    dimension of the covariance, [id] the first index of the feature in it, [p0] the median parameter,
    [seen] the bearing of the accepted alignment in the other camera. Result: distance ([None]: not a
    number) and covariance. *)
Definition init_feature (cf : bcfg) (x : state) (D id cam : nat) (t : dtype) (p0 : R) (nor1 : V3) (seen : option V3) (cov : mat) : option fdist * mat :=
  let d := {| fd_type := t; fd_p := p0 |} in
  let cov1 := reset_feature D id (scaled_cov cf d) cov in
  if (1 <? b_ncam cf)%nat && b_stereo cf then
    match seen with
    | Some nor2 =>
      let o := other_cam cf cam in
      let (ok, d') := triangulate nor1 nor2 (baseline x cam o) (relative_rot x cam o) d (1 / 100) in
      if ok then (d', reset_feature D id (b_cov cf) cov1) else (d', cov1)
    | None => (Some d, cov1)
    end
  else (Some d, cov1).
