(** Model of ImgUpdate::drawVirtualHorizon (/repo/include/rovio/ImgUpdate.hpp 1085-1120) over the reals:
    the filled part of the disc. The other lines and circles are fixed and left out. *)
From Coq Require Import ZArith Reals Bool.
From Verif Require Import Geo FiltModel EllModel.
Local Open Scope R_scope.

(** Vg, line 1101: direction of gravity in the camera *)
Definition gravity (x : state) (c : nat) : V3 := mv (mm (qCM x c) (mt (x_att x))) (0, 0, -1).
(** lines 1102-1103 *)
Definition roll (g : V3) : R := atan2 (Geo.vy g) (Geo.vx g) - / 2 * PI.
Definition pitch (g : V3) : R := acos (Geo.dot g (0, 0, 1)) - / 2 * PI.
(** pitchOffsetAngle, lines 1104-1105; asin outside [-1,1] is not a number *)
Definition arc_asin (a : R) : option R := if Rle_dec (Rabs a) 1 then Some (asin a) else None.
Definition pitch_offset (g : V3) : option R := option_map Ropp (arc_asin (pitch g / PI * 180 / 10 * 5 / 30)).
(** conversion of the angles in degrees to the int parameters of cv::ellipse2Poly, line 1110: towards zero *)
Definition to_deg (x : R) : Z := if Rlt_dec x 0 then (- Int_part (- x))%Z else Int_part x.
(** arc of the polygon in degrees, line 1110. [None]: a number that is not a number is converted to int,
    which is undefined *)
Definition horizon_arc (g : V3) : option (Z * Z) :=
  option_map (fun o => (to_deg ((roll g - o) / PI * 180), to_deg ((roll g + o) / PI * 180 + 180))) (pitch_offset g).
(** point of the circle around rollCenter with radius 30 at an angle in degrees, lines 1095, 1110 (the
    rounding of the points to pixels is left out) *)
Definition disc_point (t : R) : R * R := (40 + 30 * cos (t * PI / 180), 40 + 30 * sin (t * PI / 180)).
Definition horizon (x : state) (c : nat) : option (Z * Z) := horizon_arc (gravity x c).
