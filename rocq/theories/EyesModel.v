(** What the image update hands to the routines that look at images. ImgUpdate.hpp 607-625 (motion detection),
    660-755 (search), 805-830 (tracked?), 900-920 (patches), 984-1040 (new features): the features in use, their
    transfer to other cameras with its covariance, and the extrinsics of the cameras. Neither position nor
    attitude, velocity, biases or external poses are read. *)
From Coq Require Import Reals List ZArith QArith Bool Arith.
From Verif Require Import Util Geo Lie DistModel FiltModel OutModel CamModel InnoModel UpdModel CovModel BornModel SlotModel.
From Verif Require Import StatModel FsetModel ImgModel LinkModel.
Import ListNotations.
Local Open Scope R_scope.

(** transformFeatureOutputCT_.transformCovMat, lines 688 and LWF CoordinateTransform: J P J^T; [ign]:
    ignoreDistanceOutput_ *)
Definition out_cov (n : dims) (frame : V3 -> M3) (ign : bool) (k i : nat) (x : state) (P : bmat) : M3 :=
  msum (segs n) (fun s => msum (segs n) (fun t => mm (mm (transfer_jac frame ign k x i s) (P s t)) (mt (transfer_jac frame ign k x i t)))).

(** A feature in use: its coordinates, distance and warp; featureOutput_ for a camera (lines 687, 809, 1016),
    which depends on what the distance object held before, and featureOutputCov_ (line 688) *)
Record glance := { gl_fea : feat; gl_there : fdist -> nat -> option feat; gl_cov : bool -> nat -> M3 }.
(** the features in use (fsm_.isValid_) and the extrinsics (updateMultiCameraExtrinsics, lines 602, 658, 897; line 1034) *)
Record outlook := { o_slots : nat -> option glance; o_qCM : nat -> M3; o_MrMC : nat -> V3 }.
Definition outlook_of (n : dims) (frame : V3 -> M3) (F : kf) : outlook := {|
  o_slots i := if k_used F i then Some {| gl_fea := x_fea (k_x F) i; gl_there d c := transfer frame c (k_x F) i d; gl_cov g c := out_cov n frame g c i (k_x F) (k_P F) |} else None;
  o_qCM := qCM (k_x F); o_MrMC := MrMC (k_x F) |}.

Section Eyes.
Context {Patch H : Type}.
(** the routines that look at an image; as in [sight], but given the outlook only *)
Record eyes := {
  e_moving : outlook -> H -> bool;
  e_pre : outlook -> H -> nat -> nat -> pre_result;
  e_meas : outlook -> H -> nat -> nat -> option (fdist * (vec2 + equations) * list (list R) * nat);
  e_tracked : outlook -> H -> nat -> nat -> bool;
  e_patch : outlook -> H -> nat -> option Patch;
  e_cands : outlook -> H -> nat -> list (cand Patch);
  e_proj : outlook -> H -> nat -> feature Patch -> option (Q * Q);
  e_choose : outlook -> H -> nat -> nat -> nat -> nat;
  e_new : outlook -> H -> nat -> nat -> M3 * dtype * option V3;
  e_hidden : hop -> outlook -> H -> H }.
Definition looking (n : dims) (frame : V3 -> M3) (e : eyes) : sight Patch H :=
  let o := outlook_of n frame in {|
  s_moving F := e_moving e (o F); s_pre F := e_pre e (o F); s_meas F := e_meas e (o F); s_tracked F := e_tracked e (o F);
  s_patch F := e_patch e (o F); s_cands F := e_cands e (o F); s_proj F := e_proj e (o F); s_choose F := e_choose e (o F);
  s_new F := e_new e (o F); s_hidden p F := e_hidden e p (o F) |}.
End Eyes.
Arguments eyes Patch H : clear implicits.
