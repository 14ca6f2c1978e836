(** Model of the feature element of the filter state: RobocentricFeatureElement
    (/repo/include/rovio/RobocentricFeatureElement.hpp 60-99), i.e. how increments are added to a feature
    and differences taken, on top of the lazy coordinates (CoordModel). The 2-dimensional increments of a
    bearing are those of LWF::NormalVectorElement (lightweight_filtering, not part of the repository). *)
From Coq Require Import Reals Bool.
From Verif Require Import Geo Lie DistModel FiltModel CoordModel.
Local Open Scope R_scope.

Definition coords := fc (R * R) M3 M2.
(** lines 47-48 *)
Record elem := { el_co : coords; el_d : fdist }.

(** NormalVectorElement::boxPlus (LWF): q = exp(N u) q *)
Definition nor_plus (Q : M3) (u : R * R) : M3 := mm (expm (Nmul Q (fst u) (snd u))) Q.
(** NormalVectorElement::getRotationFromTwoNormals (LWF): the rotation vector from [a] to [b]; [p] is
    perpendicular to [a] *)
Definition rot_between (a b p : V3) : V3 :=
  let cr := cross a b in
  let c := dot a b in
  if Rlt_dec (norm cr) (/ 1000000) then if Rlt_dec 0 c then cr else vscale PI p
  else vscale (acos c / norm cr) cr.
(** NormalVectorElement::boxMinus (LWF): [Q] minus [Q0] *)
Definition nor_minus (Q Q0 : M3) : R * R :=
  let w := rot_between (nor Q0) (nor Q) (perp1 Q0) in (dot (perp1 Q0) w, dot (perp2 Q0) w).

(** get_nor of FeatureCoordinates.cpp 68-73: the cached or computed bearing, and the object with its cache
    updated. [None] = failed assertion on a null camera. *)
Definition read_nor (s : coords) : option (coords * M3) := match com_nor s with Some (s1, _) => Some (s1, nor_ s1) | None => None end.

(** boxPlus, lines 60-68, into another object: the result takes the coordinates as they are before the
    bearing is read (line 62). Result: this object (its cache may change) and the output. *)
Definition box_plus_to (e : elem) (v : V3) : option (elem * elem) :=
  match read_nor (el_co e) with
  | None => None
  | Some (s1, n) =>
    Some ({| el_co := s1; el_d := el_d e |},
          {| el_co := set_nor (nor_plus n (vx v, vy v)) false (el_co e);
             el_d := {| fd_type := fd_type (el_d e); fd_p := fd_p (el_d e) + vz v |} |})
  end.
(** boxPlus into the object itself *)
Definition box_plus_in_place (e : elem) (v : V3) : option elem :=
  match read_nor (el_co e) with
  | None => None
  | Some (s1, n) =>
    Some {| el_co := set_nor (nor_plus n (vx v, vy v)) false s1;
            el_d := {| fd_type := fd_type (el_d e); fd_p := fd_p (el_d e) + vz v |} |}
  end.
(** boxMinus, lines 69-73: [e] minus [e0] *)
Definition box_minus (e e0 : elem) : option V3 :=
  match read_nor (el_co e), read_nor (el_co e0) with
  | Some (_, n), Some (_, n0) => let d := nor_minus n n0 in Some (fst d, snd d, fd_p (el_d e) - fd_p (el_d e0))
  | _, _ => None
  end.
(** setIdentity, lines 82-87 (NormalVectorElement::setIdentity: the identity rotation); the warp is reset
    because of the default argument of set_nor, and then set to the identity *)
Definition set_identity (mI : M2) (e : elem) : elem :=
  {| el_co := set_warp_identity mI (set_nor m1 true (el_co e)); el_d := {| fd_type := fd_type (el_d e); fd_p := 1 |} |}.
