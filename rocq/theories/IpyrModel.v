(** Levels of the image pyramid in IEEE-754 arithmetic: the centre table and the level coordinates of
    rovio::ImagePyramid (/repo/include/rovio/ImagePyramid.hpp 81-129), and the in-frame check and extraction of
    rovio::MultilevelPatch (/repo/include/rovio/MultilevelPatch.hpp 190-210). Operations of cv::Point2f: sums and
    differences in float; a product with a double is computed in double and converted to float. pow(0.5, e) is
    the exact power. *)
From Coq Require Import List ZArith Bool.
From Flocq Require Import Core BinarySingleNaN.
From Verif Require Import PyrModel IeeeModel.
Import ListNotations.
Local Open Scope Z_scope.

(** pow(0.5, -e) *)
Definition pow64 (e : Z) : g64 := binary_normalize 53 1024 q53 q1024 mode_NE 1 e false.
(** one coordinate of centers_[i], lines 83, 87-88, 91-92: float minus the double product, converted to float;
    [n] is the edge of the image whose parity is used *)
Fixpoint center32 (usecv : bool) (n : Z) (i : nat) : f32 :=
  match i with
  | O => f32_of_Z 0
  | S k => narrow (sub64 (widen (center32 usecv n k)) (mul64 (pow64 (Z.of_nat (S k) - 2)) (widen (f32_of_Z (size_at n k mod 2 + (if usecv then 1 else 0))))))
  end.
(** one coordinate of levelTranformCoordinates from level 0 to level [l], line 120 *)
Definition level32 (ct : nat -> f32) (c : f32) (l : nat) : f32 :=
  add32 (narrow (mul64 (widen (sub32 (ct 0%nat) (ct l))) (pow64 (- Z.of_nat l)))) (narrow (mul64 (widen c) (pow64 (- Z.of_nat l)))).

(** images and centre table *)
Record ipyr := { ip_img : nat -> bimage; ip_cx : nat -> f32; ip_cy : nat -> f32 }.
(** computeFromImage, lines 81-95, of an image with [w] columns and [h] rows: x uses the rows, y the columns, as
    written. The contents of the levels are arbitrary. *)
Definition ibuilt (usecv : bool) (w h : Z) (py : ipyr) : Prop :=
  (forall l, bcols (ip_img py l) = size_at w l /\ brows (ip_img py l) = size_at h l) /\
  (forall l, ip_cx py l = center32 usecv h l) /\ (forall l, ip_cy py l = center32 usecv w l).

(** isMultilevelPatchInFrame, MultilevelPatch.hpp 190-194, of a coordinate in front of the camera whose warp is
    available: only level [l] is looked at. The warp and whether it is near the identity are the same on all
    levels. *)
Definition ml_accepts (k : contraction) (n : nat) (py : ipyr) (ident : bool) (w : fwarp) (cx cy : f32) (l : nat) (border : bool) : option bool :=
  accepts k n (ip_img py l) ident w (level32 (ip_cx py) cx l) (level32 (ip_cy py) cy l) border.
(** extractMultilevelPatchFromImage, lines 204-210: levels 0 .. l *)
Definition ml_extracts (k : contraction) (fuse : bool) (n : nat) (py : ipyr) (ident : bool) (w : fwarp) (cx cy : f32) (l : nat) (border : bool)
  : option (list (list f32)) :=
  collect (map (fun i => extracts k fuse n (ip_img py i) ident w (level32 (ip_cx py) cx i) (level32 (ip_cy py) cy i) border) (seq 0 (S l))).
