(** Model of the input callbacks of rovio::Scene (/repo/src/Scene.cpp): mouse and special keys. Rotations
    are matrices (Geo.v), boxPlus turns by the exponential map on the left, fix() keeps a rotation as it
    is; int overflow of the pixel differences is not modelled. *)
From Coq Require Import List ZArith Reals Bool.
From Verif Require Import Geo Lie ViewModel.
Import ListNotations.
Local Open Scope R_scope.

(** W_r_WC_, q_CW_, enableMouseMotion_, mMousePos_ *)
Record viewer := { v_pos : V3; v_att : M3; v_drag : bool; v_mouse : Z * Z }.
(** constructor, lines 298-304: the mouse position is computed from a width and a height that are only set
    in init (lines 338-339), so it is any pair of numbers *)
Definition viewer_init (garbage : Z * Z) : viewer :=
  {| v_pos := v0; v_att := m1; v_drag := false; v_mouse := garbage |}.

(** what glut reports: a button (0 is GLUT_LEFT_BUTTON) going down (0, GLUT_DOWN) or up (1, GLUT_UP), the
    mouse moving with a button held, a special key *)
Inductive event :=
| Button (button state : Z) (x y : Z)
| Motion (x y : Z)
| Special (key : Z).

(** MouseCB, lines 487-497 *)
Definition mouse_cb (button state x y : Z) (v : viewer) : viewer :=
  let v1 := if (button =? 0)%Z && (state =? 0)%Z
            then {| v_pos := v_pos v; v_att := v_att v; v_drag := true; v_mouse := (x, y) |} else v in
  if (button =? 0)%Z && (state =? 1)%Z
  then {| v_pos := v_pos v1; v_att := v_att v1; v_drag := false; v_mouse := v_mouse v1 |} else v1.
(** MotionCB, lines 469-486 *)
Definition motion_cb (x y : Z) (v : viewer) : viewer :=
  if v_drag v then
    let dx := (x - fst (v_mouse v))%Z in
    let dy := (y - snd (v_mouse v))%Z in
    {| v_pos := v_pos v; v_att := mm (expm (IZR dy / 50, IZR dx / 50, 0)) (v_att v); v_drag := true; v_mouse := (x, y) |}
  else v.
(** SpecialKeyboardCB, lines 451-456, with the callbacks of lines 312-317 *)
Definition special_cb (step : R) (key : Z) (v : viewer) : viewer :=
  {| v_pos := key_move key step (v_att v) (v_pos v); v_att := v_att v; v_drag := v_drag v; v_mouse := v_mouse v |}.
Definition handle (step : R) (v : viewer) (e : event) : viewer :=
  match e with
  | Button b s x y => mouse_cb b s x y v
  | Motion x y => motion_cb x y v
  | Special k => special_cb step k v
  end.
Definition run (step : R) (v : viewer) (es : list event) : viewer := fold_left (handle step) es v.
