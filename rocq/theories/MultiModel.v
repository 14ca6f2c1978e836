(** Model of triangulation (/repo/src/FeatureCoordinates.cpp lines 218-231) and of the transfer of
    features between cameras (/repo/include/rovio/MultiCamera.hpp lines 86-126), over the reals. *)
From Coq Require Import Reals Arith.
From Verif Require Import Geo DistModel.
Local Open Scope R_scope.

(** getDepthFromTriangulation: [nor1], [nor2] bearings of the two coordinate objects, [r] = C2rC2C1,
    [q] = qC2C1, [d] the distance object written on success. The flag is the return value. *)
Definition triangulate (nor1 nor2 r : V3) (q : M3) (d : fdist) (min_d : R) : bool * option fdist :=
  let v1 := mv q nor1 in
  let v2 := nor2 in
  let a := 1 - dot v1 v2 ^ 2 in
  if Rlt_dec a (/ 1000000) then (false, Some d)
  else
    let dist := - dot v1 (mv (madd m1 (mneg (outer v2 v2))) r) / a in
    if Rlt_dec dist min_d then (false, Some d)
    else (true, set_parameter d dist).

(** the extrinsics of MultiCamera: position BrBC and orientation qCB per camera (lines 41-42) *)
Record extrinsics := { BrBC : nat -> V3; qCB : nat -> M3 }.

(** setFromVector of LWF::NormalVectorElement (not in the repository): direction of the vector *)
Definition set_from_vector (v : V3) : V3 := vscale (/ norm v) v.

(** what transformFeature computes: camera index, bearing, distance object *)
Record feat := { f_cam : nat; f_nor : V3; f_dist : fdist }.

(** transformFeature; [None] = non-finite distance parameter. [dout] is the distance object passed
    in as output: it keeps its parametrisation when the cameras differ (line 98). *)
Definition transform_feature (e : extrinsics) (i : nat) (f : feat) (dout : fdist) : option feat :=
  if Nat.eqb (f_cam f) i then Some f
  else
    let j := f_cam f in
    let qDC := mm (qCB e i) (mt (qCB e j)) in
    let CrCD := mv (qCB e j) (vsub (BrBC e i) (BrBC e j)) in
    let CrCP := vscale (get_distance (f_dist f)) (f_nor f) in
    let DrDP := mv qDC (vsub CrCP CrCD) in
    match set_parameter dout (norm DrDP) with
    | Some d => Some {| f_cam := i; f_nor := set_from_vector DrDP; f_dist := d |}
    | None => None
    end.
