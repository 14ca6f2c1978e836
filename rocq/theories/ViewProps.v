(** C72: view transforms and projection. C73: moving the view. C74: drawing the filter state. *)
From Coq Require Import List ZArith Reals Bool Lia Lra.
From Verif Require Import Geo DistModel DistProofs SceneModel SceneSpec SceneProofs SceneGeo SceneGeo2
  ViewModel ViewSpec ViewProofs ViewMove ViewDraw.
Import ListNotations.
Local Open Scope R_scope.

(** C72 *)
Theorem C72_view_transforms_are_inverse : forall v q, is_rot q ->
  af_mul (init_transform v q) (init_inverse_transform v q) = af_id /\
  af_mul (init_inverse_transform v q) (init_transform v q) = af_id.
Proof. exact transforms_invert. Qed.
Print Assumptions C72_view_transforms_are_inverse.

Theorem C72_rendered_point : forall k WrWC qCW WrWB qBW p,
  render k WrWC qCW WrWB qBW p = clip k (mv qCW (vsub (vadd (mv (mt qBW) p) WrWB) WrWC)).
Proof. exact render_eq. Qed.
Print Assumptions C72_rendered_point.

(** What is kept on the screen: exactly the points between the near and the far plane within the opening
    angles. *)
Theorem C72_view_volume : forall k p, usable k ->
  kept (clip k p) <->
  p_far k <= vz p <= p_near k /\
  Rabs (vx p) <= tan (p_fov k / 2) * (p_width k / p_height k) * - vz p /\
  Rabs (vy p) <= tan (p_fov k / 2) * - vz p.
Proof. exact view_volume. Qed.
Print Assumptions C72_view_volume.

Lemma pers_init_usable : usable pers_init.
Proof. unfold usable, pers_init. cbn. pose proof PI_RGT_0. lra. Qed.
(** for the values the scene sets: ninety degrees high, 4:3, from ten centimetres to a hundred metres *)
Example C72_default_volume : forall p, kept (clip pers_init p) <->
  -100 <= vz p <= - (1 / 10) /\ Rabs (vx p) <= 4 / 3 * - vz p /\ Rabs (vy p) <= - vz p.
Proof.
  intro p. rewrite C72_view_volume by apply pers_init_usable. cbn [pers_init p_fov p_width p_height p_near p_far].
  replace (PI / 2 / 2) with (PI / 4) by field. rewrite tan_PI4.
  replace (1 * (1280 / 960) * - vz p) with (4 / 3 * - vz p) by field. rewrite Rmult_1_l. reflexivity.
Qed.

(** The depth test orders points in front of the camera by their distance along the axis. *)
Theorem C72_depth_order : forall k p q, usable k -> vz p < 0 -> vz q < 0 ->
  (vz (ndc (clip k p)) < vz (ndc (clip k q)) <-> - vz p < - vz q).
Proof. exact depth_order. Qed.
Print Assumptions C72_depth_order.

(** A triangle appears counter-clockwise exactly when its right-handed normal points to the camera. *)
Theorem C72_winding : forall k WrWC qCW WrWB qBW (a b c : V3),
  usable k -> is_rot qCW -> is_rot qBW ->
  let r := render k WrWC qCW WrWB qBW in
  0 < clip_w (r a) -> 0 < clip_w (r b) -> 0 < clip_w (r c) ->
  (0 < screen_area (ndc (r a)) (ndc (r b)) (ndc (r c)) <->
   0 < dot (tri_normal (a, b, c)) (vsub (camera_in_object WrWC WrWB qBW) a)).
Proof.
  intros k WrWC qCW WrWB qBW a b c U QC QB r. unfold r. rewrite !render_eq.
  unfold clip_w, clip. cbn [snd]. intros Ha Hb Hc.
  rewrite <- (normal_camera WrWC qCW WrWB qBW a b c QC QB). cbv zeta.
  destruct (area_sign k (in_camera WrWC qCW WrWB qBW a) (in_camera WrWC qCW WrWB qBW b)
    (in_camera WrWC qCW WrWB qBW c) U ltac:(lra) ltac:(lra) ltac:(lra)) as (m & Hm & E).
  unfold clip in E. cbv zeta in E. rewrite E. split; intro H.
  - destruct (Rlt_dec 0 (dot (tri_normal (in_camera WrWC qCW WrWB qBW a, in_camera WrWC qCW WrWB qBW b,
      in_camera WrWC qCW WrWB qBW c)) (vneg (in_camera WrWC qCW WrWB qBW a)))) as [C|C]; [exact C|].
    exfalso. apply Rnot_lt_le in C. apply (Rmult_le_compat_l m) in C; lra.
  - now apply Rmult_lt_0_compat.
Qed.
Print Assumptions C72_winding.

(** With culling on, the sides rasterised are those whose normal points away from the camera: of the full
    cube and the tetrahedron, whose normals point outwards (C51), one sees the inside. *)
Theorem C72_culled_faces : forall k WrWC qCW WrWB qBW (a b c : V3),
  usable k -> is_rot qCW -> is_rot qBW ->
  let r := render k WrWC qCW WrWB qBW in
  0 < clip_w (r a) -> 0 < clip_w (r b) -> 0 < clip_w (r c) ->
  (rasterised true (screen_area (ndc (r a)) (ndc (r b)) (ndc (r c))) <->
   dot (tri_normal (a, b, c)) (vsub (camera_in_object WrWC WrWB qBW) a) < 0).
Proof.
  intros k WrWC qCW WrWB qBW a b c U QC QB r Ha Hb Hc.
  pose proof (C72_winding k WrWC qCW WrWB qBW a c b U QC QB Ha Hc Hb) as W. cbv zeta in W. fold r in W.
  assert (S : screen_area (ndc (r a)) (ndc (r c)) (ndc (r b)) = - screen_area (ndc (r a)) (ndc (r b)) (ndc (r c)))
    by (unfold screen_area; ring).
  assert (N : forall d : V3, dot (tri_normal (a, c, b)) d = - dot (tri_normal (a, b, c)) d)
    by (intro d; unfold tri_normal; clear; geo; ring).
  rewrite S, N in W. unfold rasterised. split; intro H.
  - assert (0 < - screen_area (ndc (r a)) (ndc (r b)) (ndc (r c))) as H' by lra. apply W in H'. lra.
  - assert (0 < - dot (tri_normal (a, b, c)) (vsub (camera_in_object WrWC WrWB qBW) a)) as H' by lra. apply W in H'. lra.
Qed.
Print Assumptions C72_culled_faces.

Lemma in_camera_shift (p : V3) : in_camera v0 m1 (0, 0, -3) m1 p = (vx p, vy p, vz p - 3).
Proof.
  unfold in_camera. rewrite mt_1, !mv_m1. destruct p as [[x y] z].
  unfold vsub, vadd, v0, vx, vy, vz. cbn [fst snd]. apply f_equal2; [apply f_equal2|]; lra.
Qed.
Lemma cube_culls l o o' : make_cube_full l o = Some o' -> o_cull o' = true.
Proof.
  unfold make_cube_full. destruct (calc_normals _) as [x|]; cbn [option_map]; intro A; [|discriminate].
  apply some_inj in A. subst o'. reflexivity.
Qed.
Lemma near_side_dot : 0 < dot (tri_normal (v_of 1 (-1, -1, 1)%Z, v_of 1 (1, 1, 1)%Z, v_of 1 (-1, 1, 1)%Z))
      (vsub (camera_in_object v0 (0, 0, -3) m1) (v_of 1 (-1, -1, 1)%Z)).
Proof.
  unfold camera_in_object. rewrite mv_m1.
  unfold v_of, tri_normal, v0, cross, vsub, dot, vx, vy, vz. cbn [fst snd]. lra.
Qed.
Lemma near_side_kept (x y : Z) : (-1 <= x <= 1)%Z -> (-1 <= y <= 1)%Z ->
      kept (render pers_init v0 m1 (0, 0, -3) m1 (v_of 1 (x, y, 1)%Z)).
Proof.
  intros [Hx1 Hx2] [Hy1 Hy2]. rewrite render_eq, in_camera_shift. apply C72_default_volume.
  unfold v_of, vx, vy, vz. cbn [fst snd]. apply IZR_le in Hx1, Hx2, Hy1, Hy2.
  split; [lra|]. split; apply Rabs_le; lra.
Qed.
Lemma near_side_in : In (v_of 1 (-1, -1, 1)%Z, v_of 1 (1, 1, 1)%Z, v_of 1 (-1, 1, 1)%Z)
  (map (map3 (v_of (/ 2 * 2))) tri_cube).
Proof.
  replace (/ 2 * 2) with 1 by field.
  change (v_of 1 (-1, -1, 1)%Z, v_of 1 (1, 1, 1)%Z, v_of 1 (-1, 1, 1)%Z)
      with (map3 (v_of 1) ((-1, -1, 1)%Z, (1, 1, 1)%Z, (-1, 1, 1)%Z)).
  apply in_map. apply in_dec_true. vm_compute. reflexivity.
Qed.
(** so a cube two metres in front of the camera does not show the side facing it *)
Theorem C72_near_side_is_shown_refuted : exists o t,
  make_cube_full 2 object_init = Some o /\ o_cull o = true /\ In t (drawn_triangles o) /\
  let '(a, b, c) := t in
  let r := render pers_init v0 m1 (0, 0, -3) m1 in
  0 < dot (tri_normal t) (vsub (camera_in_object v0 (0, 0, -3) m1) a) /\
  kept (r a) /\ kept (r b) /\ kept (r c) /\
  ~ rasterised (o_cull o) (screen_area (ndc (r a)) (ndc (r b)) (ndc (r c))).
Proof.
  destruct (cube_triangles 2 object_init) as (o & A & B & C). exists o.
  exists (v_of 1 (-1, -1, 1)%Z, v_of 1 (1, 1, 1)%Z, v_of 1 (-1, 1, 1)%Z).
  pose proof (cube_culls _ _ _ A) as CU.
  split; [exact A|]. split; [exact CU|]. split; [rewrite C; exact near_side_in|].
  cbv zeta. rewrite CU. pose proof near_side_dot as D. pose proof near_side_kept as K.
  assert (KW : forall c, kept c -> 0 < clip_w c) by (intros [[[x y] z] w] Q; exact (proj1 Q)).
  pose proof (K (-1)%Z (-1)%Z ltac:(lia) ltac:(lia)) as K1. pose proof (K 1%Z 1%Z ltac:(lia) ltac:(lia)) as K2.
  pose proof (K (-1)%Z 1%Z ltac:(lia) ltac:(lia)) as K3.
  split; [exact D|]. split; [exact K1|]. split; [exact K2|]. split; [exact K3|].
  intro R. apply (C72_culled_faces pers_init v0 m1 (0, 0, -3) m1 _ _ _ pers_init_usable rot_1 rot_1
    (KW _ K1) (KW _ K2) (KW _ K3)) in R. lra.
Qed.
Print Assumptions C72_near_side_is_shown_refuted.

(** C73. [setFromVectors] of kindr is any rotation that turns the direction of its first argument to that of
    its second. *)
Theorem C73_set_view_centres_target : forall k pos target q,
  usable k -> is_rot q -> pos <> target ->
  mv q (vsub target pos) = vscale (norm (vsub target pos)) (0, 0, -1) ->
  let c := clip k (af_apply (init_transform pos q) target) in
  0 < clip_w c /\ clip_w c = norm (vsub target pos) /\ vx (ndc c) = 0 /\ vy (ndc c) = 0.
Proof.
  intros k pos target q U Q N E. cbv zeta. rewrite init_transform_apply, E.
  assert (P : 0 < norm (vsub target pos)).
  { destruct (norm_nonneg (vsub target pos)) as [P|P]; [exact P|]. exfalso. apply N. symmetry in P.
    apply norm_zero in P. unfold vsub, v0 in P. injection P. intros P3 P2 P1.
    destruct pos as [[a1 a2] a3], target as [[b1 b2] b3]. unfold vx, vy, vz in *. cbn [fst snd] in *. repeat f_equal; lra. }
  unfold clip_w, clip, ndc, vscale, vx, vy, vz. cbn [fst snd]. split; [lra|]. split; [lra|].
  split; unfold Rdiv; ring.
Qed.
Print Assumptions C73_set_view_centres_target.

(** Turning the view upright keeps the position and the viewing direction, tries the angles 0, step,
    2 step, ... up to a full turn and picks the one that puts the camera's down axis lowest. *)
Theorem C73_set_y_down : forall q step, is_rot q -> 0 < step ->
  exists a, set_y_down q step = mm (yaw a) q /\
    (exists k : nat, a = INR k * step /\ a <= 2 * PI) /\
    is_rot (set_y_down q step) /\
    (forall w, mv (mt (set_y_down q step)) (0, 0, w) = mv (mt q) (0, 0, w)) /\
    forall k : nat, INR k * step <= 2 * PI ->
      vz (mv (mt (set_y_down q step)) (0, -1, 0)) <= vz (mv (mt (mm (yaw (INR k * step)) q)) (0, -1, 0)).
Proof.
  intros q step Q H. exists (y_down_angle q step). split; [reflexivity|].
  destruct (y_down_min q step Q) as [A B]. split; [now apply sampled_iff|].
  split; [apply rot_mm; [apply yaw_rot | exact Q]|]. split; [intro w; now apply yaw_axis|].
  intros k K. apply (B (INR k * step)). now apply sampled_in.
Qed.
Print Assumptions C73_set_y_down.

(** The result is upright up to half a step: no turn about the viewing direction lowers the down axis by more
    than the factor cos(step/2). *)
Theorem C73_set_y_down_accuracy : forall q step a, is_rot q -> 0 < step <= PI ->
  let low := fun r : M3 => vz (mv (mt r) (0, -1, 0)) in
  low (mm (yaw a) q) <= 0 ->
  low (set_y_down q step) <= cos (step / 2) * low (mm (yaw a) q).
Proof. intros q step a Q H low. apply y_down_bound; assumption. Qed.
Print Assumptions C73_set_y_down_accuracy.

(** The keys shift every point by a step along one camera axis; opposite keys cancel. *)
Theorem C73_keys_move_along_camera_axes : forall s q v p, is_rot q ->
  let cam := fun v => af_apply (init_transform v q) p in
  cam (key_move 101 s q v) = vadd (cam v) (0, 0, s) /\ cam (key_move 103 s q v) = vadd (cam v) (0, 0, - s) /\
  cam (key_move 100 s q v) = vadd (cam v) (s, 0, 0) /\ cam (key_move 102 s q v) = vadd (cam v) (- s, 0, 0) /\
  cam (key_move 104 s q v) = vadd (cam v) (0, - s, 0) /\ cam (key_move 105 s q v) = vadd (cam v) (0, s, 0) /\
  key_move 103 s q (key_move 101 s q v) = v /\ key_move 102 s q (key_move 100 s q v) = v /\
  key_move 105 s q (key_move 104 s q v) = v.
Proof.
  intros s q v p Q cam. unfold cam. rewrite !init_transform_apply.
  split; [apply (key_moves 101); exact Q|]. split; [apply (key_moves 103); exact Q|].
  split; [apply (key_moves 100); exact Q|]. split; [apply (key_moves 102); exact Q|].
  split; [apply (key_moves 104); exact Q|]. split; [apply (key_moves 105); exact Q|].
  unfold key_move.
  assert (E1 : forall e : V3, vadd (vsub v (vscale s e)) (vscale s e) = v) by (intro; clear; veq).
  assert (E2 : forall e : V3, vsub (vadd v (vscale s e)) (vscale s e) = v) by (intro; clear; veq).
  rewrite !E1, E2. auto.
Qed.
Print Assumptions C73_keys_move_along_camera_axes.

(** C74. After drawing, the line objects of each camera show the outlines and depth bars of exactly the valid
    features of that camera whose patch corners exist. *)
Theorem C74_lines_show_the_features : forall nCam slots lines depth patches cam, (cam < nCam)%nat ->
  let '(ls, ds, _) := draw_scene nCam slots lines depth patches in
  drawn_segments (ls cam) = flat_map outline (filter (shown cam) slots) /\
  drawn_segments (ds cam) = map depth_bar (filter (shown cam) slots) /\
  o_mode (ls cam) = o_mode (lines cam) /\ o_mode (ds cam) = o_mode (depth cam).
Proof.
  intros nCam slots lines depth patches cam H. unfold draw_scene.
  pose proof (cameras_lines slots nCam 0 lines depth (hide patches) cam) as C.
  destruct (draw_cameras 0 nCam slots lines depth (hide patches)) as [[ls ds] p].
  apply C. lia.
Qed.
Print Assumptions C74_lines_show_the_features.

(** Slot i's patch is drawn exactly when the slot holds a valid feature of one of the cameras with existing
    corners; it then covers the quadrilateral of these corners, from both sides. *)
Theorem C74_patches_show_the_features : forall nCam slots lines depth patches i s,
  nth_error slots i = Some s ->
  let '(_, _, p) := draw_scene nCam slots lines depth patches in
  (snd (p i) = true <-> s_valid s = true /\ (s_cam s < nCam)%nat /\ s_warp s = true) /\
  (snd (p i) = true ->
     let c := corner s in
     drawn_triangles (fst (p i)) = [(c 0%nat, c 1%nat, c 2%nat); (c 3%nat, c 1%nat, c 2%nat)] /\
     o_mode (fst (p i)) = GL_TRIANGLES /\ o_cull (fst (p i)) = false).
Proof.
  intros nCam slots lines depth patches i s H. unfold draw_scene.
  pose proof (cameras_patches slots i s H nCam 0 lines depth (hide patches)) as C.
  destruct (draw_cameras 0 nCam slots lines depth (hide patches)) as [[ls ds] p].
  destruct C as (C1 & C2 & C3).
  assert (G : snd (p i) = true -> s_valid s = true /\ (s_cam s < nCam)%nat /\ s_warp s = true).
  { intro D. destruct (s_valid s) eqn:V.
    - destruct (Nat.lt_ge_cases (s_cam s) nCam) as [L|L].
      + destruct (s_warp s) eqn:W; [auto|]. rewrite C2 in D; [discriminate | repeat split; auto; lia].
      + rewrite C3 in D by (right; right; lia). discriminate D.
    - rewrite C3 in D by now left. discriminate D. }
  split.
  - split; [exact G|]. intros (V & L & W). apply C1. repeat split; auto; lia.
  - intro D. destruct (G D) as (V & L & W). apply C1. repeat split; auto; lia.
Qed.
Print Assumptions C74_patches_show_the_features.

(** The depth bar contains the feature, for inverse distances if it is at most a kilometre away. *)
Theorem C74_depth_bar_contains_the_feature : forall s,
  0 <= s_sigma s -> (fd_type (s_dist s) = INVERSE -> / 1000 <= fd_p (s_dist s)) ->
  on_segment (depth_bar s) (vscale (get_distance (s_dist s)) (s_bearing s)).
Proof.
  intros s Hs Hp.
  assert (B : (d_near s <= get_distance (s_dist s) <= d_far s) \/ (d_far s <= get_distance (s_dist s) <= d_near s)).
  { unfold get_distance. destruct (s_dist s) as [t p] eqn:E. cbn [fd_type fd_p] in *.
    assert (M : t <> INVERSE -> d_far s <= dist_of t p <= d_near s).
    { intro T. unfold d_far, d_near. rewrite E. cbn [fd_type fd_p].
      replace (match t with INVERSE => _ | _ => dist_of t (p - s_sigma s) end) with (dist_of t (p - s_sigma s))
        by (destruct t; [reflexivity | contradiction | reflexivity | reflexivity]).
      split; apply dist_mono; try assumption; lra. }
    destruct t; [right; apply M; discriminate | left | right; apply M; discriminate | right; apply M; discriminate].
    specialize (Hp eq_refl). pose proof (inverse_bar p (s_sigma s) Hp Hs) as I. cbv zeta in I.
    unfold d_near, d_far in *. rewrite E. cbn [s_dist s_sigma fd_type fd_p] in *.
    assert (dist_of INVERSE p = 1 / p).
    { cbn [dist_of]. rewrite mnz_self; [reflexivity|]. rewrite Rabs_pos_eq; lra. }
    lra. }
  unfold on_segment, depth_bar. cbn [fst snd].
  set (d := get_distance (s_dist s)) in *. set (n := d_near s) in *. set (f := d_far s) in *. clearbody d n f.
  generalize (s_bearing s). intro v. clear - B.
  destruct (Req_dec n f) as [E|E].
  - exists 0. split; [lra|]. assert (d = f) by lra. subst d. clear. veq.
  - exists ((d - f) / (n - f)). split.
    + assert (Q : forall a b, 0 < b -> 0 <= a <= b -> 0 <= a / b <= 1).
      { intros a b Hb Ha. split; [apply Rmult_le_pos; [lra|left; now apply Rinv_0_lt_compat]|].
        apply (Rmult_le_reg_r b); [lra|]. unfold Rdiv. rewrite Rmult_assoc, Rinv_l by lra. lra. }
      destruct B as [B|B]; [|apply Q; lra].
      replace ((d - f) / (n - f)) with ((f - d) / (f - n)) by (field; lra). apply Q; lra.
    + set (u := (d - f) / (n - f)).
      assert (H : d = (1 - u) * f + u * n) by (unfold u; field; lra).
      clearbody u. rewrite H. clear. veq.
Qed.
Print Assumptions C74_depth_bar_contains_the_feature.

(** The bar is drawn from the variance, not the standard deviation of the distance ... *)
Theorem C74_bar_is_one_standard_deviation_refuted : exists s,
  fd_type (s_dist s) = REGULAR /\ 0 <= s_sigma s /\ d_near s - get_distance (s_dist s) <> sqrt (s_sigma s).
Proof.
  exists {| s_valid := true; s_cam := 0; s_dist := {| fd_type := REGULAR; fd_p := 10 |}; s_sigma := 4; s_warp := true;
            s_bearing := (0, 0, 1); s_corner := fun _ => (0, 0, 1) |}.
  unfold d_near, get_distance. cbn. split; [reflexivity|]. split; [lra|].
  replace 4 with (2 * 2) by lra. rewrite sqrt_square by lra. lra.
Qed.
Print Assumptions C74_bar_is_one_standard_deviation_refuted.

(** ... and for other than inverse and logarithmic distances it can reach behind the camera. *)
Theorem C74_bar_stays_in_front_refuted : exists s,
  fd_type (s_dist s) = REGULAR /\ 0 <= s_sigma s /\ 0 < get_distance (s_dist s) /\ d_far s < 0.
Proof.
  exists {| s_valid := true; s_cam := 0; s_dist := {| fd_type := REGULAR; fd_p := 1 |}; s_sigma := 2; s_warp := true;
            s_bearing := (0, 0, 1); s_corner := fun _ => (0, 0, 1) |}.
  unfold d_far, get_distance. cbn. split; [reflexivity|]. lra.
Qed.
Print Assumptions C74_bar_stays_in_front_refuted.

Theorem C74_inverse_bar_stays_in_front : forall s,
  0 <= s_sigma s -> fd_type (s_dist s) = INVERSE -> / 1000 <= fd_p (s_dist s) -> 0 < d_near s /\ 0 < d_far s <= 1000.
Proof.
  intros s Hs T Hp. pose proof (inverse_bar (fd_p (s_dist s)) (s_sigma s) Hp Hs) as I. cbv zeta in I.
  unfold d_near, d_far in *. cbn [s_dist s_sigma fd_type fd_p] in I. rewrite T. lra.
Qed.
Print Assumptions C74_inverse_bar_stays_in_front.

(** two cameras; slot 0 valid in camera 1, slot 1 without corners, slot 2 invalid *)
Example C74_two_cameras :
  let s v c w := {| s_valid := v; s_cam := c; s_dist := {| fd_type := REGULAR; fd_p := 1 |}; s_sigma := 0; s_warp := w;
                    s_bearing := (0, 0, 1); s_corner := fun _ => (0, 0, 1) |} in
  let slots := [s true 1%nat true; s true 0%nat false; s false 0%nat true] in
  filter (shown 0) slots = [] /\ filter (shown 1) slots = [s true 1%nat true].
Proof. split; reflexivity. Qed.
