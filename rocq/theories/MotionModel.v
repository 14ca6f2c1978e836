(** Model of the visual motion detection and of the trigger of the zero velocity updates:
    /repo/include/rovio/ImgUpdate.hpp 586-629 (commonPreProcess) and 1071-1082 (end of
    commonPostProcess), /repo/include/rovio/ImuPrediction.hpp 150-155 (timers).
    Patches are extracted from the images over Q (PatchModel, PyrModel), scores and errors are over R;
    float rounding is not modelled. *)
From Coq Require Import List ZArith QArith Qreals Reals Bool Arith.
From Verif Require Import PatchModel PyrModel GradModel AvgModel.
Import ListNotations.
Local Open Scope R_scope.

(** tempCoordinates_ = ...; tempCoordinates_.set_warp_identity(), lines 613-614 *)
Definition upright (q : coord) : coord := {| q_c := q_c q; q_warp := Some id_warp; q_wid := true; q_cam := q_cam q |}.
(** mlpTemp1_ after extractMultilevelPatchFromImage with border: one fresh patch per level; what the
    patches held before does not matter (C25) *)
Definition as_patch (n : nat) (junk : hess) (Bs : list (list Q)) : mlp :=
  map (fun B => (store n (new_patch junk) (map Q2R B) true, true)) Bs.
(** the n x n pixels (patch_) of the levels *)
Definition inner_of (n : nat) (Bs : list (list Q)) : patches := map (fun B => inner_r n (map Q2R B)) Bs.
(** avgError/std::sqrt(e1_) > pixelCoordinateMotionTh_, line 620; for e1_ = 0 the quotient is infinite
    (greater than the finite threshold) or, for avgError = 0, not a number (comparison false) *)
Definition exceeds (err e1 th : R) : bool :=
  if Req_EM_T e1 0 then (if Rlt_dec 0 err then true else false)
  else if Rlt_dec th (err / sqrt e1) then true else false.
(** body of the loop for a valid feature, lines 612-623: [Some None] not in frame, [Some (Some b)] in
    frame and [b] in motion, [None] a read outside an image; [e] is endLevel_, [s] is startLevel_ *)
Definition visit (near : warp -> bool) (n e s : nat) (th : R) (junk : hess) (prev cur : pyramid) (front : bool) (q : coord) : option (option bool) :=
  let q' := upright q in
  if ml_in_frame near n prev front q' s true then
    bind (ml_extract near n prev q' s true) (fun Bs =>
    bind (ml_score n (as_patch n junk Bs) e s) (fun g =>
    bind (ml_extract near n cur q' s true) (fun Cs =>
    bind (average_difference n (inner_of n Bs) (inner_of n Cs) e s) (fun err =>
    Some (Some (exceeds err (g_e1 g) th))))))
  else Some None.

(** what the loop reads of a slot: isValid_, camID_, isInFront() of the coordinates, coordinates *)
Record mslot := { sl_valid : bool; sl_cam : nat; sl_front : bool; sl_q : coord }.
(** loop over the slots, lines 607-625: (totCountInFrame, totCountInMotion) *)
Fixpoint count_motion (near : warp -> bool) (n e s : nat) (th : R) (junk : hess) (prev cur : nat -> pyramid) (sl : list mslot) (c : nat * nat) : option (nat * nat) :=
  match sl with
  | [] => Some c
  | f :: r =>
    if sl_valid f then
      bind (visit near n e s th junk (prev (sl_cam f)) (cur (sl_cam f)) (sl_front f) (sl_q f)) (fun v =>
      count_motion near n e s th junk prev cur r
        match v with None => c | Some true => (S (fst c), S (snd c)) | Some false => (S (fst c), snd c) end)
    else count_motion near n e s th junk prev cur r c
  end.
(** rateOfMovingFeaturesTh_/totCountInMotion*totCountInFrame < 1.0 || totCountInFrame < min, line 626.
    With no moving feature the quotient is plus or minus infinity (or not a number for a zero rate) and
    the product with 0 is not a number *)
Definition rate_below (rate : R) (inframe moving : nat) : bool :=
  match moving with
  | O => if Rlt_dec rate 0 then (0 <? inframe)%nat else false
  | _ => if Rlt_dec (rate / INR moving * INR inframe) 1 then true else false
  end.
Definition reports (rate : R) (min : Z) (c : nat * nat) : bool :=
  rate_below rate (fst c) (snd c) || (Z.of_nat (fst c) <? min)%Z.

(** parameters: doVisualMotionDetection_, isZeroVelocityUpdateEnabled_, minTimeForZeroVelocityUpdate_,
    rateOfMovingFeaturesTh_, minFeatureCountForNoMotionDetection_, pixelCoordinateMotionTh_, patch size,
    endLevel_, startLevel_ *)
Record mcfg := { c_visual : bool; c_zvu : bool; c_min : R; c_rate : R; c_cnt : Z; c_th : R; c_n : nat; c_e : nat; c_s : nat }.
(** decision for one image: lines 607-628 *)
Definition image_motion (near : warp -> bool) (junk : hess) (cf : mcfg) (prev cur : nat -> pyramid) (sl : list mslot) : option bool :=
  bind (count_motion near (c_n cf) (c_e cf) (c_s cf) (c_th cf) junk prev cur sl (0, 0)%nat) (fun c => Some (reports (c_rate cf) (c_cnt cf) c)).

(** timers, imageCounter_ and prevPyr_ of a filter state *)
Record mstate := { t_inertial : R; t_visual : R; t_images : nat; t_prev : nat -> pyramid }.
(** constructors: StateAuxiliary FilterStates.hpp 68-69, FilterState 556 *)
Definition mstart (none : nat -> pyramid) : mstate := {| t_inertial := 0; t_visual := 0; t_images := 0; t_prev := none |}.
(** a prediction over [dt] with the result of detectInertialMotion, or an image update with the
    pyramids of the image and the slots as they are before the update *)
Inductive mev := Predict (dt : R) (inertial : bool) | Image (cur : nat -> pyramid) (sl : list mslot).
(** ImuPrediction.hpp 150-155; ImgUpdate.hpp 595, 607, 626-628, 1071-1074 *)
Definition mstep (near : warp -> bool) (junk : hess) (cf : mcfg) (m : mstate) (e : mev) : option mstate :=
  match e with
  | Predict dt b => Some {| t_inertial := if b then 0 else t_inertial m + dt; t_visual := t_visual m + dt; t_images := t_images m; t_prev := t_prev m |}
  | Image cur sl =>
    let k := S (t_images m) in
    let done (b : bool) := Some {| t_inertial := t_inertial m; t_visual := if b then 0 else t_visual m; t_images := k; t_prev := cur |} in
    if c_visual cf && (1 <? k)%nat then bind (image_motion near junk cf (t_prev m) cur sl) done else done false
  end.
(** whether a zero velocity update is made at the end of the image update, lines 1077-1079 *)
Definition zero_velocity (cf : mcfg) (m : mstate) : bool :=
  c_zvu cf && c_visual cf && (if Rlt_dec (c_min cf) (t_visual m) then true else false) && (if Rlt_dec (c_min cf) (t_inertial m) then true else false).
Fixpoint mrun (near : warp -> bool) (junk : hess) (cf : mcfg) (m : mstate) (h : list mev) : option mstate :=
  match h with [] => Some m | e :: r => bind (mstep near junk cf m e) (fun m' => mrun near junk cf m' r) end.
