(** C17-C20: camera model. *)
From Coq Require Import Reals Lra Psatz Lia.
From Verif Require Import CamModel CamSpec CamProofs CamUndist.
Local Open Scope R_scope.

(** ** C17 *)
Theorem C17_fails_iff_behind : forall k v, bearing_to_pixel k v = None <-> depth v <= 0.
Proof. exact project_fails. Qed.
Theorem C17_scale_invariant : forall k v s, 0 < s -> bearing_to_pixel k (scale3 s v) = bearing_to_pixel k v.
Proof. exact project_scale. Qed.

Definition pinhole : camera :=
  {| ctype := RADTAN; k1 := 0; k2 := 0; k3 := 0; k4 := 0; p1 := 0; p2 := 0; fx := 400; fy := 300; cx := 320; cy := 240 |}.
Example C17_ex : bearing_to_pixel pinhole (1, 2, 4) = Some (420, 390).
Proof.
  cbn. destruct (Rle_dec 4 0); [lra|]. f_equal. f_equal; field.
Qed.

(** ** C18 *)
(** The value returned with the Jacobian is the plain value. *)
Theorem C18_same_value : forall k i, fst (distort_J k i) = distort k i.
Proof. exact distort_value. Qed.
(** Derivative of the distortion along every differentiable curve ... *)
Theorem C18_distort_jacobian : forall k i, regular k i -> jacobian_at (distort k) i (snd (distort_J k i)).
Proof. exact distort_jac. Qed.
(** ... in particular the four partial derivatives. *)
Theorem C18_distort_coordinate_derivatives : forall k x y a b c d, regular k (x, y) -> snd (distort_J k (x, y)) = (a, b, c, d) ->
  derivable_pt_lim (fun s => fst (distort k (s, y))) x a /\ derivable_pt_lim (fun s => fst (distort k (x, s))) y b /\
  derivable_pt_lim (fun s => snd (distort k (s, y))) x c /\ derivable_pt_lim (fun s => snd (distort k (x, s))) y d.
Proof. intros k x y a b c d H E. apply jacobian_partials. rewrite <- E. apply distort_jac, H. Qed.
Theorem C18_projection_value : forall k v, option_map fst (bearing_to_pixel_J k v) = bearing_to_pixel k v.
Proof. exact project_J_value. Qed.
Theorem C18_projection_jacobian : forall k x y z c J, regular k (x / z, y / z) ->
  bearing_to_pixel_J k (x, y, z) = Some (c, J) -> jacobian3_at (pixel k) (x, y, z) J.
Proof. exact project_jac. Qed.
(** The 2x2 Jacobian in a tangent basis [m1],[m2] is the derivative of the pixel along every curve of
    bearings whose velocity is al*m1 + be*m2. *)
Theorem C18_tangent_jacobian : forall k x y z m1 m2 c a b d e (n1 n2 n3 : R -> R) t al be,
  regular k (x / z, y / z) ->
  bearing_to_pixel_M k (x, y, z) m1 m2 = Some (c, (a, b, d, e)) ->
  n1 t = x -> n2 t = y -> n3 t = z ->
  (let '(u1, u2, u3) := m1 in let '(w1, w2, w3) := m2 in
   derivable_pt_lim n1 t (al * u1 + be * w1) /\ derivable_pt_lim n2 t (al * u2 + be * w2) /\ derivable_pt_lim n3 t (al * u3 + be * w3)) ->
  derivable_pt_lim (fun s => fst (pixel k (n1 s, n2 s, n3 s))) t (a * al + b * be) /\
  derivable_pt_lim (fun s => snd (pixel k (n1 s, n2 s, n3 s))) t (d * al + e * be).
Proof. exact project_jac_M. Qed.

Definition ds_cam : camera :=
  {| ctype := DS; k1 := 1 / 2; k2 := 1 / 2; k3 := 0; k4 := 0; p1 := 0; p2 := 0; fx := 400; fy := 300; cx := 320; cy := 240 |}.
Example C18_ex_ds : regular ds_cam (1, 2).
Proof.
  right. cbn [fst snd]. split; [unfold r2_min; lra|].
  assert (H : 1 < ds_den ds_cam (1 * 1 + 2 * 2)) by (apply ds_den_gt; cbn; lra). lra.
Qed.
Example C18_ex_eq : regular {| ctype := EQUIDIST; k1 := 1; k2 := -2; k3 := 3; k4 := 4; p1 := 0; p2 := 0; fx := 400; fy := 300; cx := 320; cy := 240 |} (3, 4).
Proof.
  cbn [regular ctype fst snd]. replace (3 * 3 + 4 * 4) with (5 * 5) by ring. rewrite sqrt_square by lra. unfold r_min. lra.
Qed.
Example C18_ex_rt : exists J, bearing_to_pixel_J {| ctype := RADTAN; k1 := 1; k2 := 0; k3 := 0; k4 := 0; p1 := 1; p2 := 2; fx := 2; fy := 1; cx := 0; cy := 0 |} (1, 0, 1) = Some ((16, 1), J) /\
  fst (fst (fst J)) = 32.
Proof.
  cbn. destruct (Rle_dec 1 0); [lra|]. eexists. split; [f_equal; f_equal; f_equal; field|]. cbn. field.
Qed.

(** ** C19 *)
(** On success: unit bearing in front of the camera, the last guess [g] reprojects within the
    tolerance, and the returned direction is [g] plus the exact Newton correction. *)
Theorem C19_success_sound : forall n k c v, pixel_to_bearing_n n k c = BOk v ->
  let y := ((fst c - cx k) / fx k, (snd c - cy k) / fy k) in
  norm3 v = 1 /\ 0 < depth v /\
  exists g du lam, let yt := distort k g in
    (fst y - fst yt) * (fst y - fst yt) + (snd y - snd yt) * (snd y - snd yt) <= tolerance /\
    (let '(a, b, p, q) := snd (distort_J k g) in
     a * fst du + b * snd du = fst y - fst yt /\ p * fst du + q * snd du = snd y - snd yt) /\
    0 < lam /\ scale3 lam v = (fst g + fst du, snd g + snd du, 1).
Proof. exact backproject_success. Qed.
(** Without distortion back-projection succeeds and is exactly inverted by the projection. *)
Theorem C19_undistorted_exact : forall k c, no_distortion k -> fx k <> 0 -> fy k <> 0 ->
  exists v, pixel_to_bearing k c = BOk v /\ bearing_to_pixel k v = Some c.
Proof. intros k c H1 H2 H3. apply backproject_exact; auto. unfold max_iter. lia. Qed.
Example C19_ex : no_distortion pinhole /\ fx pinhole <> 0 /\ fy pinhole <> 0.
Proof. cbn. repeat split; lra. Qed.
(** Success can be reported together with an undefined (NaN) bearing: singular distortion Jacobian at
    the solution. *)
Theorem C19_success_with_undefined_bearing_refuted :
  exists k c, fx k <> 0 /\ fy k <> 0 /\ pixel_to_bearing k c = BNaN.
Proof. exists fold_cam, (150, 50). cbn [fx fy fold_cam]. split; [lra|]. split; [lra|]. exact backproject_nan. Qed.

(** ** C20 *)
Theorem C20_equidistant_limit : forall k e, 0 < e ->
  exists d, 0 < d /\ forall r, 0 < r < d -> Rabs (equidist_scale k r - 1) < e.
Proof. exact equidist_limit. Qed.
Theorem C20_double_sphere_limit : forall k, 0 < 1 + k1 k -> forall e, 0 < e ->
  exists d, 0 < d /\ forall r2, 0 < r2 < d -> Rabs (1 / ds_den k r2 - 1 / (1 + k1 k)) < e.
Proof. exact ds_limit. Qed.
(** The double sphere model jumps at the border of the shortcut. *)
Theorem C20_double_sphere_continuous_refuted : forall k, 0 < k1 k -> 0 <= k2 k <= 1 ->
  ~ continuity_pt (fun x => fst (distort_ds k (x, 0))) r_min.
Proof. exact ds_jump_pos. Qed.
Theorem C20_double_sphere_jump : forall k, ds_den k r2_min <> 0 -> ds_den k r2_min <> 1 ->
  ~ continuity_pt (fun x => fst (distort_ds k (x, 0))) r_min.
Proof. exact ds_jump. Qed.
Example C20_ex : 0 < k1 ds_cam /\ 0 <= k2 ds_cam <= 1 /\ 1 / (1 + k1 ds_cam) = 2 / 3.
Proof. cbn. repeat split; try lra. Qed.

Print Assumptions C17_scale_invariant.
Print Assumptions C18_projection_jacobian.
Print Assumptions C19_success_sound.
Print Assumptions C20_double_sphere_continuous_refuted.

Print Assumptions C17_fails_iff_behind.
Print Assumptions C18_same_value.
Print Assumptions C18_distort_jacobian.
Print Assumptions C18_distort_coordinate_derivatives.
Print Assumptions C18_projection_value.
Print Assumptions C18_tangent_jacobian.
Print Assumptions C19_undistorted_exact.
Print Assumptions C19_success_with_undefined_bearing_refuted.
Print Assumptions C20_equidistant_limit.
Print Assumptions C20_double_sphere_limit.
Print Assumptions C20_double_sphere_jump.
