(** Vocabulary for C82. *)
From Coq Require Import ZArith Reals.
From Verif Require Import Geo FiltModel HorModel.
Local Open Scope R_scope.

(** optical axis of camera [c] in the world (z up) *)
Definition optical_axis (x : state) (c : nat) : V3 := mv (x_att x) (mv (mt (qCM x c)) (0, 0, 1)).
(** [e] is the angle of the optical axis above the horizontal plane *)
Definition elevation (x : state) (c : nat) (e : R) : Prop := - (PI / 2) <= e <= PI / 2 /\ sin e = Geo.vz (optical_axis x c).
(** direction "down" of the world in the camera, and its part in the image plane *)
Definition down (x : state) (c : nat) : V3 := mv (qCM x c) (mv (mt (x_att x)) (0, 0, -1)).
Definition image_down (x : state) (c : nat) : R * R :=
  let g := down x c in let k := sqrt (Geo.vx g ^ 2 + Geo.vy g ^ 2) in (Geo.vx g / k, Geo.vy g / k).
(** how far a point of the display lies below the centre of the disc, in the direction down *)
Definition below_centre (x : state) (c : nat) (p : R * R) : R :=
  (fst p - 40) * fst (image_down x c) + (snd p - 40) * snd (image_down x c).
(** 5 pixels for 10 degrees *)
Definition pixels (e : R) : R := e * 180 / PI * (5 / 10).
(** one degree on the circle of radius 30 *)
Definition slack : R := 30 * (PI / 180).
