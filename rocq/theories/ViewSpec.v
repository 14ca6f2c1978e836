(** Vocabulary for the view. *)
From Coq Require Import List ZArith Reals Bool.
From Verif Require Import Geo DistModel SceneModel SceneSpec ViewModel.
Import ListNotations.
Local Open Scope R_scope.

Definition af_id : affine := {| af_rot := m1; af_pos := v0 |}.

(** OpenGL: a point is kept when its clip coordinates satisfy these; then it is divided by w *)
Definition kept (c : R * R * R * R) : Prop :=
  let '(x, y, z, w) := c in 0 < w /\ - w <= x <= w /\ - w <= y <= w /\ - w <= z <= w.
Definition ndc (c : R * R * R * R) : V3 := let '(x, y, z, w) := c in (x / w, y / w, z / w).
Definition clip_w (c : R * R * R * R) : R := snd c.
(** twice the signed area of a triangle on the screen: positive when counter-clockwise *)
Definition screen_area (a b c : V3) : R :=
  (vx b - vx a) * (vy c - vy a) - (vx c - vx a) * (vy b - vy a).

(** a camera with a positive opening angle below 180 degrees looking along -z *)
Definition usable (k : pers) : Prop :=
  0 < p_fov k < PI /\ 0 < p_width k /\ 0 < p_height k /\ p_far k < p_near k < 0.

(** a point of an object, in camera coordinates *)
Definition in_camera (WrWC : V3) (qCW : M3) (WrWB : V3) (qBW : M3) (p : V3) : V3 :=
  mv qCW (vsub (vadd (mv (mt qBW) p) WrWB) WrWC).
(** the camera, in object coordinates *)
Definition camera_in_object (WrWC WrWB : V3) (qBW : M3) : V3 := mv qBW (vsub WrWC WrWB).

(** slots whose lines belong to camera [cam] *)
Definition shown (cam : nat) (s : slot) : bool := s_valid s && Nat.eqb (s_cam s) cam && s_warp s.
(** corner [k] of the patch: at the feature's distance along its direction *)
Definition corner (s : slot) (k : nat) : V3 := vscale (get_distance (s_dist s)) (s_corner s k).
(** outline of the patch as four segments, and the depth bar *)
Definition outline (s : slot) : list (V3 * V3) :=
  let c := corner s in
  [(c 0%nat, c 1%nat); (c 1%nat, c 3%nat); (c 3%nat, c 2%nat); (c 2%nat, c 0%nat)].
Definition depth_bar (s : slot) : V3 * V3 :=
  (vscale (d_far s) (s_bearing s), vscale (d_near s) (s_bearing s)).
