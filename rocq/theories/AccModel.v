(** Model of the tests a feature measurement has to pass: the in-frame gate before the update
    (/repo/include/rovio/ImgUpdate.hpp 690-692), the tests after the patch alignment (732-755), the outlier
    check of the iterated update (extraOutlierCheck, 477-537) and the status after the update (826-850).
    Patches are extracted over Q, errors are over R (float rounding is not modelled). Drawing and
    printing are left out. *)
From Coq Require Import List ZArith QArith Qreals Reals Bool Arith.
From Verif Require Import PatchModel PyrModel AvgModel.
Import ListNotations.
Local Open Scope R_scope.

(** patchRejectionTh_, discriminativeSamplingDistance_, discriminativeSamplingGain_, startLevel_,
    endLevel_, patch size, nCam_ *)
Record acfg := { k_th : R; k_dist : Q; k_gain : R; k_s : nat; k_e : nat; k_n : nat; k_ncam : nat }.
(** a coordinate: result of isInFront() and what the extraction needs *)
Definition spot := (bool * coord)%type.
Definition spot_in (near : warp -> bool) (cf : acfg) (py : pyramid) (p : spot) : bool :=
  ml_in_frame near (k_n cf) py (fst p) (snd p) (k_s cf) false.
(** extractMultilevelPatchFromImage(..., false) and computeAverageDifference with the stored patch:
    lines 498-499, 518-519, 735-736; [None] is a read outside an image or of a missing level *)
Definition spot_error (near : warp -> bool) (cf : acfg) (py : pyramid) (patch : patches) (p : spot) : option R :=
  bind (ml_extract near (k_n cf) py (snd p) (k_s cf) false) (fun Bs =>
  average_difference (k_n cf) (map (map Q2R) Bs) patch (k_e cf) (k_s cf)).
Definition Rltb (a b : R) : bool := if Rlt_dec a b then true else false.
(** d.setZero(); d(i%2) = (i/2*2-1)*discriminativeSamplingDistance_, lines 513-514: the first two
    components (the third one stays 0) *)
Definition sample_step (dist : Q) (i : nat) : Q * Q :=
  let v := (inject_Z (Z.of_nat (i / 2) * 2 - 1) * dist)%Q in
  match (i mod 2)%nat with O => (v, 0%Q) | _ => (0%Q, v) end.
(** isAboveThreshold, lines 520-521 *)
Definition above (cf : acfg) (avg e : R) : bool :=
  (negb (Rltb 1 (k_gain cf)) && Rltb (k_th cf) e) || (Rltb 1 (k_gain cf) && Rltb (k_gain cf * avg) e).
(** lines 510-528: number of samples above; [at_step] is featureOutput_ boxPlus d *)
Fixpoint count_above (near : warp -> bool) (cf : acfg) (py : pyramid) (patch : patches) (at_step : Q * Q -> spot) (avg : R) (is : list nat) (k : nat) : option nat :=
  match is with
  | [] => Some k
  | i :: r =>
    let p := at_step (sample_step (k_dist cf) i) in
    if spot_in near cf py p then
      bind (spot_error near cf py patch p) (fun e =>
      count_above near cf py patch at_step avg r (if above cf avg e then S k else k))
    else count_above near cf py patch at_step avg r k
  end.
(** extraOutlierCheck, lines 477-537: the result; [here] are the predicted coordinates in the camera of
    pyramid [py] *)
Definition outlier_check (near : warp -> bool) (cf : acfg) (converged : bool) (py : pyramid) (patch : patches) (here : spot) (at_step : Q * Q -> spot) : option bool :=
  if negb converged then Some false
  else if Rle_dec 0 (k_th cf) then
    if negb (spot_in near cf py here) then Some false
    else bind (spot_error near cf py patch here) (fun avg =>
      if Rltb (k_th cf) avg then Some false
      else if negb (Qle_bool (k_dist cf) 0) then
        bind (count_above near cf py patch at_step avg (seq 0 4) 0) (fun k => Some (negb (k <? 2)%nat))
      else Some true)
  else Some true.

(** lines 730-755: [aligned] is the result of align2DAdaptive *)
Definition aligned_ok (near : warp -> bool) (cf : acfg) (py : pyramid) (patch : patches) (aligned : option spot) : option bool :=
  match aligned with
  | None => Some false
  | Some p =>
    if spot_in near cf py p then
      bind (if Rle_dec 0 (k_th cf) then spot_error near cf py patch p else Some 0) (fun avg =>
      Some (negb ((if Rle_dec 0 (k_th cf) then true else false) && Rltb (k_th cf) avg)))
    else Some false
  end.

(** activeCamID, line 666 *)
Definition active_camera (cf : acfg) (counter cam : nat) : nat := ((counter + cam) mod k_ncam cf)%nat.
(** line 690: the image of the feature's own camera before this one; [there] are the coordinates in
    the active camera *)
Definition gate (near : warp -> bool) (cf : acfg) (prev : nat -> pyramid) (cam : nat) (there : spot) : bool := spot_in near cf (prev cam) there.
(** line 826-827: update accepted, and in frame of the current image of the feature's own camera *)
Definition tracked (near : warp -> bool) (cf : acfg) (accepted : bool) (cur : nat -> pyramid) (cam : nat) (there : spot) : bool := accepted && spot_in near cf (cur cam) there.
