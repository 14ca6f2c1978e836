(** Vocabulary for C84. *)
From Coq Require Import Reals List String.
From Verif Require Import CamModel CalModel.
Import ListNotations.
Local Open Scope R_scope.

(** The camera that a file describes: the usual meaning of the calibration formats (camera_matrix by rows;
    plumb_bob k1 k2 p1 p2 k3; equidistant k1 k2 k3 k4; ds xi alpha), only for complete files. Extra
    coefficients have no meaning. *)
Inductive describes : yaml -> camera -> Prop :=
| d_radtan f0 sk c0 a f1 c1 g h w K' a1 a2 q1 q2 a3 D' rd :
  describes {| y_model := Some "plumb_bob"%string; y_K := map Some [f0; sk; c0; a; f1; c1; g; h; w] ++ K'; y_D := map Some [a1; a2; q1; q2; a3] ++ D'; y_radius := rd |}
            {| ctype := RADTAN; k1 := a1; k2 := a2; k3 := a3; k4 := 0; p1 := q1; p2 := q2; fx := f0; fy := f1; cx := c0; cy := c1 |}
| d_equidist f0 sk c0 a f1 c1 g h w K' a1 a2 a3 a4 D' rd :
  describes {| y_model := Some "equidistant"%string; y_K := map Some [f0; sk; c0; a; f1; c1; g; h; w] ++ K'; y_D := map Some [a1; a2; a3; a4] ++ D'; y_radius := rd |}
            {| ctype := EQUIDIST; k1 := a1; k2 := a2; k3 := a3; k4 := a4; p1 := 0; p2 := 0; fx := f0; fy := f1; cx := c0; cy := c1 |}
| d_ds f0 sk c0 a f1 c1 g h w K' xi alpha D' rd : rd <> Some None ->
  describes {| y_model := Some "ds"%string; y_K := map Some [f0; sk; c0; a; f1; c1; g; h; w] ++ K'; y_D := map Some [xi; alpha] ++ D'; y_radius := rd |}
            {| ctype := DS; k1 := xi; k2 := alpha; k3 := 0; k4 := 0; p1 := 0; p2 := 0; fx := f0; fy := f1; cx := c0; cy := c1 |}.

(** two cameras behave alike: same pixels, same Jacobians, same bearings *)
Definition same_camera (a b : camera) : Prop :=
  (forall v, bearing_to_pixel a v = bearing_to_pixel b v) /\ (forall v, bearing_to_pixel_J a v = bearing_to_pixel_J b v) /\ (forall p, pixel_to_bearing a p = pixel_to_bearing b p).
Definition known_model (y : yaml) : Prop := In (y_model y) (map Some ["plumb_bob"; "equidistant"; "ds"]%string).
(** the viewing direction is in front of the camera *)
Definition depth_pos (v : vec3) : Prop := 0 < snd v.
(** multiplication of a distorted point with the camera matrix (by rows) whose last row is (0,0,1) *)
Definition times (K : nat -> R) (d : R * R) : R * R := (K 0%nat * fst d + K 1%nat * snd d + K 2%nat, K 3%nat * fst d + K 4%nat * snd d + K 5%nat).
