(** Model of rovio::ImagePyramid (/repo/include/rovio/ImagePyramid.hpp) and of the in-frame test and
    extraction of rovio::MultilevelPatch (/repo/include/rovio/MultilevelPatch.hpp 128-210).
    Coordinates are rationals (rounding to float is not modelled here). *)
From Coq Require Import List ZArith QArith Qround Bool.
From Verif Require Import PatchModel.
Import ListNotations.

(** ** half-sampling of 8 bit images *)
Record gray := { gc : Z; gr : Z; gp : Z -> Z -> Z }.
Definition grd (im : gray) (u v : Z) : option Z :=
  if (0 <=? u)%Z && (u <? gc im)%Z && (0 <=? v)%Z && (v <? gr im)%Z then Some (gp im u v) else None.

(** halfSample, pixel (x,y) of the output, lines 51-57 (the sum is an int and the operands are
    non-negative, so / is the floor); [None] = read outside the input *)
Definition half_pixel (im : gray) (x y : Z) : option Z :=
  bind (grd im (2 * x) (2 * y)) (fun a => bind (grd im (2 * x + 1) (2 * y)) (fun b =>
  bind (grd im (2 * x) (2 * y + 1)) (fun c => bind (grd im (2 * x + 1) (2 * y + 1)) (fun d =>
  Some ((a + b + c + d) / 4)%Z)))).
(** halfSample, lines 44-60 *)
Definition half_sample (im : gray) : gray :=
  {| gc := (gc im / 2)%Z; gr := (gr im / 2)%Z;
     gp := fun x y => match half_pixel im x y with Some v => v | None => 0%Z end |}.
(** imgs_[l] of computeFromImage with useCv = false, lines 82-86 *)
Fixpoint level_image (im : gray) (l : nat) : gray :=
  match l with O => im | S k => half_sample (level_image im k) end.

(** ** centre table, lines 83, 87-88, 91-92: size of the source image (w columns, h rows);
    each level has half the size of the previous one, rounded down. x uses rows, y uses cols, as written. *)
Local Open Scope Q_scope.
Definition size_at (n : Z) (l : nat) : Z := (n / 2 ^ Z.of_nat l)%Z.
(** pow(0.5,2-i) *)
Definition half_pow (e : Z) : Q := Qpower (1 # 2) e.
Definition shift (usecv : bool) (n : Z) (i : nat) : Q :=
  half_pow (2 - Z.of_nat i) * inject_Z (size_at n (pred i) mod 2 + (if usecv then 1 else 0)).
Fixpoint center1 (usecv : bool) (n : Z) (i : nat) : Q :=
  match i with O => 0 | S k => center1 usecv n k - shift usecv n i end.
Definition centers (usecv : bool) (w h : Z) (i : nat) : Q * Q := (center1 usecv h i, center1 usecv w i).

(** ** what levelTranformCoordinates uses of FeatureCoordinates: pixel, warp if it can be computed,
    identity flag, whether a camera is attached *)
Record coord := { q_c : Q * Q; q_warp : option warp; q_wid : bool; q_cam : bool }.
Definition id_warp : warp := {| w00 := 1; w01 := 0; w10 := 0; w11 := 1 |}.

(** levelTranformCoordinates, lines 116-129; [ct] is centers_. The output starts as a fresh object
    (identity warp, flag set); set_warp_c clears the flag. The assertion on the level range is not
    modelled. *)
Definition level_c (ct : nat -> Q * Q) (c : Q * Q) (l1 l2 : nat) : Q * Q :=
  let k := half_pow (Z.of_nat l2) in let m := half_pow (Z.of_nat l2 - Z.of_nat l1) in
  ((fst (ct l1) - fst (ct l2)) * k + fst c * m, (snd (ct l1) - snd (ct l2)) * k + snd c * m).
Definition level_transform (ct : nat -> Q * Q) (q : coord) (l1 l2 : nat) : coord :=
  let c := level_c ct (q_c q) l1 l2 in
  match q_cam q, q_warp q with
  | true, Some w => {| q_c := c; q_warp := Some w; q_wid := false; q_cam := false |}
  | _, _ => {| q_c := c; q_warp := Some id_warp; q_wid := true; q_cam := false |}
  end.

(** isNearIdentityWarping (FeatureCoordinates.cpp 177-179), [near] is the matrix test *)
Definition near_id (near : warp -> bool) (q : coord) : bool :=
  q_wid q || match q_warp q with Some w => near w | None => false end.
Definition warp_of (q : coord) : warp := match q_warp q with Some w => w | None => id_warp end.

(** pyramid: images and centre table *)
Record pyramid := { py_img : nat -> image; py_ct : nat -> Q * Q }.

(** Patch::isPatchInFrame / extractPatchFromImage at a level coordinate *)
Definition level_in_frame (near : warp -> bool) (n : nat) (py : pyramid) (q : coord) (l : nat) (b : bool) : bool :=
  let q' := level_transform (py_ct py) q 0 l in
  in_frame (fun x => x) n (py_img py l) (near_id near q') (warp_of q') (fst (q_c q')) (snd (q_c q')) b.
Definition level_extract (near : warp -> bool) (n : nat) (py : pyramid) (q : coord) (l : nat) (b : bool) : option (list Q) :=
  let q' := level_transform (py_ct py) q 0 l in
  extract (fun x => x) n (py_img py l) (near_id near q') (warp_of q') (fst (q_c q')) (snd (q_c q')) b.

(** isMultilevelPatchInFrame, MultilevelPatch.hpp 190-194; [front] is the result of isInFront() *)
Definition ml_in_frame (near : warp -> bool) (n : nat) (py : pyramid) (front : bool) (q : coord) (l : nat) (b : bool) : bool :=
  if front && match q_warp q with Some _ => true | None => false end then level_in_frame near n py q l b else false.
(** extractMultilevelPatchFromImage, lines 204-210: levels 0 .. l *)
Definition ml_extract (near : warp -> bool) (n : nat) (py : pyramid) (q : coord) (l : nat) (b : bool) : option (list (list Q)) :=
  seqo (map (fun i => level_extract near n py q i b) (seq 0 (S l))).

(** a pyramid built by computeFromImage: level sizes are halved, the centre table is the one above.
    The contents of the images are arbitrary (with useCv they come from cv::pyrDown). *)
Definition built (usecv : bool) (py : pyramid) : Prop :=
  exists w h, (0 <= w)%Z /\ (0 <= h)%Z /\
  (forall l, cols (py_img py l) = size_at w l /\ rows (py_img py l) = size_at h l) /\
  (forall l, py_ct py l = centers usecv w h l).

(** detectFastCorners, ImagePyramid.hpp 139-163. The keypoints of cv::FastFeatureDetector are an arbitrary
    list of pixel coordinates of the level; the result is what is appended to the candidates. *)
Definition keep_keypoint (im : image) (valid_radius : Q) (p : Q * Q) : bool :=
  let xd := fst p - inject_Z (cols im) / 2 in let yd := snd p - inject_Z (rows im) / 2 in
  let m := valid_radius * inject_Z (Z.min (cols im) (rows im)) in
  Qle_bool (xd * xd + yd * yd) (m * m).
Definition detect (py : pyramid) (l : nat) (valid_radius : Q) (kps : list (Q * Q)) : list (Q * Q) :=
  map (fun p => level_c (py_ct py) p l 0) (filter (keep_keypoint (py_img py l) valid_radius) kps).

(** ** drawing: pixels written by Patch::drawPatch (Patch.hpp 145-168) relative to the image: row, column *)
Definition draw_patch (n : nat) (b : bool) (cx cy stretch : Z) : list (Z * Z) :=
  let k := (Z.of_nat n + 2 * (if b then 1 else 0))%Z in
  flat_map (fun y => flat_map (fun x => flat_map (fun i => map (fun j =>
    (cx + x * stretch + j, cy + y * stretch + i)%Z) (zrange stretch)) (zrange stretch)) (zrange k)) (zrange k).
(** drawMultilevelPatch, MultilevelPatch.hpp 128-135: corner and stretch of level [l] of [L] levels *)
Definition draw_corner (n : nat) (b : bool) (L l : nat) : Z :=
  ((Z.of_nat (Nat.div2 n) + (if b then 1 else 0)) * (2 ^ Z.of_nat (L - 1) - 2 ^ Z.of_nat l))%Z.
Definition draw_level (n : nat) (b : bool) (L l : nat) (cx cy stretch : Z) : list (Z * Z) :=
  draw_patch n b (cx + draw_corner n b L l)%Z (cy + draw_corner n b L l)%Z (stretch * 2 ^ Z.of_nat l)%Z.
Definition draw_multilevel (n : nat) (b : bool) (valid : nat -> bool) (L : nat) (cx cy stretch : Z) : list (Z * Z) :=
  flat_map (fun l => if valid l then draw_level n b L l cx cy stretch else []) (rev (seq 0 L)).
