(** Model of the view of rovio::Scene (/repo/include/rovio/Scene.hpp, /repo/src/Scene.cpp) and of
    RovioScene::drawScene (/repo/include/rovio/RovioScene.hpp). Single precision numbers are real numbers;
    rotations are matrices (kindr converts them), see Geo.v. *)
From Coq Require Import List ZArith Reals Bool.
From Verif Require Import Geo DistModel SceneModel.
Import ListNotations.
Local Open Scope R_scope.

(** 4x4 matrices with last row (0,0,0,1), as rotation part and translation part *)
Record affine := { af_rot : M3; af_pos : V3 }.
Definition af_mul (a b : affine) : affine :=
  {| af_rot := mm (af_rot a) (af_rot b); af_pos := vadd (mv (af_rot a) (af_pos b)) (af_pos a) |}.
Definition af_apply (a : affine) (p : V3) : V3 := vadd (mv (af_rot a) p) (af_pos a).

(** Scene.hpp lines 75-80 *)
Definition init_transform (v : V3) (q : M3) : affine := {| af_rot := q; af_pos := vneg (mv q v) |}.
(** Scene.hpp lines 82-87; GetWorldTrans, Scene.cpp lines 264-266, applies it to W_r_WB_ and q_BW_ *)
Definition init_inverse_transform (v : V3) (q : M3) : affine := {| af_rot := mt q; af_pos := v |}.

(** PersProjInfo, Scene.hpp lines 42-48 *)
Record pers := { p_fov : R; p_width : R; p_height : R; p_near : R; p_far : R }.
(** Scene::init, Scene.cpp lines 337-341 *)
Definition pers_init : pers :=
  {| p_fov := PI / 2; p_width := 1280; p_height := 960; p_near := - (1 / 10); p_far := -100 |}.
(** InitPersProjTransform, Scene.hpp lines 89-100, times the column (p,1): the clip coordinates x,y,z,w *)
Definition clip (k : pers) (p : V3) : R * R * R * R :=
  let ar := p_width k / p_height k in
  let zr := p_far k - p_near k in
  let th := tan (p_fov k / 2) in
  (1 / (th * ar) * vx p, 1 / th * vy p,
   (- p_near k - p_far k) / zr * vz p + 2 * p_far k * p_near k / zr, - vz p).
(** RenderSceneCB, Scene.cpp lines 396-397, 410-411, and shader.vs: the clip coordinates of the vertex [p]
    of an object at (W_r_WB, q_BW) seen from the camera at (W_r_WC, q_CW) *)
Definition render (k : pers) (WrWC : V3) (qCW : M3) (WrWB : V3) (qBW : M3) (p : V3) : R * R * R * R :=
  clip k (af_apply (af_mul (init_transform WrWC qCW) (init_inverse_transform WrWB qBW)) p).

(** glFrontFace(GL_CW) and glCullFace(GL_BACK), Scene.cpp lines 329-330, with face culling enabled by
    loadOptions, lines 288-293: a triangle with signed screen area [a] (positive when counter-clockwise)
    is rasterised *)
Definition rasterised (cull : bool) (a : R) : Prop := if cull then a < 0 else a <> 0.

(** special keys, Scene.cpp lines 312-317 *)
Definition key_move (key : Z) (step : R) (q : M3) (v : V3) : V3 :=
  match key with
  | 101%Z => vsub v (vscale step (mv (mt q) (0, 0, 1)))
  | 103%Z => vadd v (vscale step (mv (mt q) (0, 0, 1)))
  | 100%Z => vsub v (vscale step (mv (mt q) (1, 0, 0)))
  | 102%Z => vadd v (vscale step (mv (mt q) (1, 0, 0)))
  | 104%Z => vadd v (vscale step (mv (mt q) (0, 1, 0)))
  | 105%Z => vsub v (vscale step (mv (mt q) (0, 1, 0)))
  | _ => v
  end.

(** EulerAnglesYpr(angle,0,0) as a rotation matrix *)
Definition yaw (a : R) : M3 := ((cos a, - sin a, 0), (sin a, cos a, 0), (0, 0, 1)).
(** setYDown, Scene.cpp lines 436-450. The loop runs for angle = 0, step, 2 step, ... <= 2 pi; its sums are
    taken exact. For step <= 0 it does not end, which is outside the model. *)
Definition height_of_down (q : M3) (a : R) : R := vz (mv (mt (mm (yaw a) q)) (0, -1, 0)).
Definition sampled (step : R) : list R :=
  map (fun k => INR k * step) (seq 0 (S (Z.to_nat (Int_part (2 * PI / step))))).
Definition y_down_angle (q : M3) (step : R) : R :=
  snd (fold_left (fun (s : R * R) a =>
         if Rlt_dec (height_of_down q a) (fst s) then (height_of_down q a, a) else s)
         (sampled step) (1, 0)).
Definition set_y_down (q : M3) (step : R) : M3 := mm (yaw (y_down_angle q step)) q.

(** RovioScene. One feature slot as drawScene sees it: validity, camera, distance parameter with its entry
    of the covariance, whether com_warp_nor succeeds, bearing vector and the four patch corner bearings
    (index y*2+x). *)
Record slot := {
  s_valid : bool; s_cam : nat; s_dist : fdist; s_sigma : R; s_warp : bool;
  s_bearing : V3; s_corner : nat -> V3 }.
(** lines 144-150 *)
Definition d_far (s : slot) : R :=
  let d := dist_of (fd_type (s_dist s)) (fd_p (s_dist s) - s_sigma s) in
  match fd_type (s_dist s) with
  | INVERSE => if Rlt_dec 1000 d then 1000 else if Rle_dec d 0 then 1000 else d
  | _ => d
  end.
Definition d_near (s : slot) : R :=
  dist_of (fd_type (s_dist s)) (fd_p (s_dist s) - s_sigma s + 2 * s_sigma s).
(** line 160 *)
Definition corner_vec (s : slot) (k : nat) : V3 := vscale (get_distance (s_dist s)) (s_corner s k).

(** the objects of one camera (mpLines_, mpDepthVar_) and of one slot (mpPatches_ with draw_) *)
Record drawing := {
  g_lines : scene_object; g_depth : scene_object; g_patches : nat -> scene_object * bool }.
Definition upd {A} (f : nat -> A) (i : nat) (a : A) : nat -> A := fun j => if Nat.eqb j i then a else f j.
(** lines 202-207: the four corners are overwritten in place, then the buffers are refilled *)
Definition place_corners (c : nat -> V3) (o : scene_object) : scene_object :=
  {| o_vertices := match o_vertices o with _ :: _ :: _ :: _ :: r => c 0%nat :: c 1%nat :: c 2%nat :: c 3%nat :: r | l => l end;
     o_indices := o_indices o; o_vbo := o_vbo o; o_ibo := o_ibo o; o_mode := o_mode o; o_cull := o_cull o |}.
(** lines 142-217 for one slot and one camera; colours and textures left out. makeTexturedRectangle never
    fails (C51). *)
Definition draw_slot (cam : nat) (i : nat) (s : slot) (g : drawing) : drawing :=
  let g' :=
    if s_valid s && Nat.eqb (s_cam s) cam then
      if s_warp s then
        let c := corner_vec s in
        let d := s_dist s in
        {| g_lines := prolonge [c 0%nat] (prolonge [c 2%nat] (prolonge [c 2%nat] (prolonge [c 3%nat]
             (prolonge [c 3%nat] (prolonge [c 1%nat] (prolonge [c 1%nat] (prolonge [c 0%nat] (g_lines g))))))));
           g_depth := prolonge [vscale (d_near s) (s_bearing s)]
                        (prolonge [vscale (d_far s) (s_bearing s)] (g_depth g));
           g_patches := upd (g_patches g) i
             (allocate_buffer (place_corners c (match make_textured_rectangle 1 1 (clear (fst (g_patches g i))) with
                                                | Some o => o | None => fst (g_patches g i) end)), true) |}
      else
        {| g_lines := g_lines g; g_depth := g_depth g;
           g_patches := upd (g_patches g) i (fst (g_patches g i), false) |}
    else g in
  (* line 156: the continue of a failed warp skips the two allocations of lines 213 and 216 *)
  if s_valid s && Nat.eqb (s_cam s) cam && negb (s_warp s) then g'
  else {| g_lines := allocate_buffer (g_lines g'); g_depth := allocate_buffer (g_depth g');
          g_patches := g_patches g' |}.
Definition draw_camera (cam : nat) (slots : list slot) (g : drawing) : drawing :=
  fold_left (fun g is => draw_slot cam (fst is) (snd is) g) (combine (seq 0 (length slots)) slots)
    {| g_lines := clear (g_lines g); g_depth := clear (g_depth g); g_patches := g_patches g |}.
(** drawScene, lines 114-219: the line objects of each camera, and the patches handed from camera to
    camera *)
Definition hide (g : nat -> scene_object * bool) : nat -> scene_object * bool := fun i => (fst (g i), false).
Fixpoint draw_cameras (cam n : nat) (slots : list slot) (lines depth : nat -> scene_object)
  (patches : nat -> scene_object * bool) : (nat -> scene_object) * (nat -> scene_object) * (nat -> scene_object * bool) :=
  match n with
  | O => (lines, depth, patches)
  | S n' =>
      let g := draw_camera cam slots {| g_lines := lines cam; g_depth := depth cam; g_patches := patches |} in
      draw_cameras (S cam) n' slots (upd lines cam (g_lines g)) (upd depth cam (g_depth g)) (g_patches g)
  end.
Definition draw_scene (nCam : nat) (slots : list slot) (lines depth : nat -> scene_object)
  (patches : nat -> scene_object * bool) :=
  draw_cameras 0 nCam slots lines depth (hide patches).
