(** C16 (triangulation) and C21 (feature transfer between cameras). *)
From Coq Require Import Reals Lra Psatz Arith.
From Verif Require Import Geo DistModel DistSpec DistProofs MultiModel MultiSpec MultiProofs.
Local Open Scope R_scope.

(** Two rays meeting at distance [d1] from the first and [d2] from the second camera: success with
    exactly [d1] unless it is below the minimum. *)
Theorem C16_meeting_rays : forall nor1 nor2 r q d min_d d1 d2,
  is_rot q -> norm nor1 = 1 -> norm nor2 = 1 ->
  vadd r (vscale d1 (mv q nor1)) = vscale d2 nor2 ->
  / 1000000 <= 1 - dot (mv q nor1) nor2 ^ 2 ->
  triangulate nor1 nor2 r q d min_d =
    if Rlt_dec d1 min_d then (false, Some d) else (true, set_parameter d d1).
Proof. exact tri_exact. Qed.
Theorem C16_nearly_parallel_fails : forall nor1 nor2 r q d min_d,
  1 - dot (mv q nor1) nor2 ^ 2 < / 1000000 -> triangulate nor1 nor2 r q d min_d = (false, Some d).
Proof. exact tri_parallel. Qed.
Theorem C16_failure_keeps_distance : forall nor1 nor2 r q d min_d d',
  triangulate nor1 nor2 r q d min_d = (false, d') -> d' = Some d.
Proof. exact tri_fail_keeps. Qed.
(** Rays that need not meet: the returned distance is the best one, i.e. the point on the first ray
    closest to the line of the second. *)
Theorem C16_closest_point : forall nor1 nor2 r q d min_d d',
  is_rot q -> norm nor1 = 1 -> norm nor2 = 1 ->
  triangulate nor1 nor2 r q d min_d = (true, d') ->
  exists dist mu, d' = set_parameter d dist /\ min_d <= dist /\
    forall s t, norm (vsub (vadd r (vscale dist (mv q nor1))) (vscale mu nor2)) <=
                norm (vsub (vadd r (vscale s (mv q nor1))) (vscale t nor2)).
Proof. exact tri_least_squares. Qed.

Lemma unit_z : norm (0, 0, 1) = 1.
Proof. apply norm_unit. geo. ring. Qed.
Lemma unit_x : norm (1, 0, 0) = 1.
Proof. apply norm_unit. geo. ring. Qed.
Example C16_ex : triangulate (1, 0, 0) (0, 0, 1) (-3, 0, 2) m1 (mk REGULAR) 1 = (true, Some {| fd_type := REGULAR; fd_p := 3 |}).
Proof.
  rewrite (tri_exact _ _ _ _ _ _ 3 2); auto using rot_1, unit_x, unit_z.
  - destruct (Rlt_dec 3 1); [lra|reflexivity].
  - rewrite mv_m1. veq.
  - rewrite mv_m1. geo. lra.
Qed.
(** The triangulated point may lie behind the second camera. *)
Theorem C16_in_front_of_second_camera_refuted :
  exists nor1 nor2 r q d1 d2 d',
    is_rot q /\ norm nor1 = 1 /\ norm nor2 = 1 /\ vadd r (vscale d1 (mv q nor1)) = vscale d2 nor2 /\ d2 < 0 /\
    triangulate nor1 nor2 r q (mk REGULAR) 0 = (true, Some d') /\ get_distance d' = d1.
Proof.
  exists (1, 0, 0), (0, 0, 1), (-1, 0, -1), m1, 1, (-1), {| fd_type := REGULAR; fd_p := 1 |}.
  assert (E : vadd (-1, 0, -1) (vscale 1 (mv m1 (1, 0, 0))) = vscale (-1) (0, 0, 1)) by (rewrite mv_m1; veq).
  repeat split; auto using unit_x, unit_z; try apply rot_1; try lra.
  rewrite (tri_exact _ _ _ _ _ _ 1 (-1)); auto using rot_1, unit_x, unit_z.
  - destruct (Rlt_dec 1 0); [lra|reflexivity].
  - rewrite mv_m1. geo. lra.
Qed.

(** ** C21 *)
Theorem C21_same_camera_identity : forall e f dout, transform_feature e (f_cam f) f dout = Some f.
Proof. exact transfer_same. Qed.
Theorem C21_succeeds : forall e i f dout, rigid e -> representable (fd_type dout) (range_from e i f) ->
  exists g, transform_feature e i f dout = Some g /\ f_cam g = i.
Proof. exact transfer_some. Qed.
(** The 3D point is preserved (and the new bearing is a unit vector). *)
Theorem C21_point_preserved : forall e i f dout g, rigid e -> transform_feature e i f dout = Some g ->
  representable (fd_type dout) (range_from e i f) -> range_from e i f <> 0 ->
  body_point e g = body_point e f /\ (norm (f_nor f) = 1 -> norm (f_nor g) = 1).
Proof. exact transfer_point. Qed.
(** Forth and back returns the original bearing and distance. *)
Theorem C21_forth_and_back : forall e i f dout g dback h, rigid e ->
  norm (f_nor f) = 1 -> 0 < get_distance (f_dist f) ->
  representable (fd_type dout) (range_from e i f) -> range_from e i f <> 0 ->
  representable (fd_type dback) (get_distance (f_dist f)) ->
  transform_feature e i f dout = Some g -> transform_feature e (f_cam f) g dback = Some h ->
  f_cam h = f_cam f /\ f_nor h = f_nor f /\ get_distance (f_dist h) = get_distance (f_dist f).
Proof. exact transfer_back. Qed.

(** two cameras at distance 4 in x, the second turned by 90 degrees about z *)
Definition ex_ext : extrinsics :=
  {| BrBC := fun i => if Nat.eqb i 0 then v0 else (4, 0, 0);
     qCB := fun i => if Nat.eqb i 0 then m1 else ((0, -1, 0), (1, 0, 0), (0, 0, 1)) |}.
Example ex_rigid : rigid ex_ext.
Proof.
  intros i. cbn. destruct (Nat.eqb i 0); [apply rot_1|].
  split; [|split]; veq.
Qed.
Definition ex_feat : feat := {| f_cam := 0; f_nor := (0, 0, 1); f_dist := {| fd_type := REGULAR; fd_p := 3 |} |}.
Example C21_ex : range_from ex_ext 1 ex_feat = 5 /\ norm (f_nor ex_feat) = 1 /\ 0 < get_distance (f_dist ex_feat) /\
  representable INVERSE 5 /\ representable LOG 3.
Proof.
  split; [|split; [apply unit_z|split; [cbn; lra|split; [cbn; rewrite Rabs_pos_eq; lra|cbn; lra]]]].
  unfold range_from, body_point, norm. cbn [BrBC qCB ex_ext f_cam f_nor f_dist ex_feat get_distance dist_of fd_type fd_p Nat.eqb].
  match goal with |- sqrt ?x = _ => replace x with (5 * 5) by (geo; ring) end. apply sqrt_square. lra.
Qed.

(** A negative distance (possible with the regular and inverse parametrisations) does not come back:
    the bearing is reversed and the distance becomes positive. *)
Theorem C21_negative_distance_refuted :
  exists e f g h, rigid e /\ norm (f_nor f) = 1 /\ get_distance (f_dist f) = -1 /\
  transform_feature e 1 f (mk REGULAR) = Some g /\ transform_feature e 0 g (mk REGULAR) = Some h /\
  f_cam h = f_cam f /\ body_point e h = body_point e f /\ f_nor h <> f_nor f /\ get_distance (f_dist h) <> get_distance (f_dist f).
Proof.
  set (e := {| BrBC := fun _ => v0; qCB := fun _ => m1 |}).
  set (f := {| f_cam := 0; f_nor := (0, 0, 1); f_dist := {| fd_type := REGULAR; fd_p := -1 |} |}).
  assert (HR : rigid e) by (intros i; apply rot_1).
  assert (R1 : range_from e 1 f = 1).
  { unfold range_from, norm, body_point, e, f. cbn [BrBC qCB f_cam f_nor f_dist get_distance dist_of fd_type fd_p].
    match goal with |- sqrt ?x = _ => replace x with 1 by (geo; ring) end. apply sqrt_1. }
  destruct (transfer_some e 1 f (mk REGULAR) HR I) as (g&Hg&Cg).
  destruct (transfer_point e 1 f (mk REGULAR) g HR Hg I ltac:(lra)) as [B1 _].
  destruct (transfer_some e 0 g (mk REGULAR) HR I) as (h&Hh&Ch).
  assert (R2 : range_from e 0 g = 1). { unfold range_from. rewrite B1. exact R1. }
  destruct (transfer_point e 0 g (mk REGULAR) h HR Hh I ltac:(lra)) as [B2 _].
  destruct (transfer_spec e 0 g (mk REGULAR) h HR ltac:(rewrite Cg; discriminate) Hh) as (_&N&D).
  exists e, f, g, h. split; [auto|]. split; [apply unit_z|]. split; [reflexivity|]. split; [auto|]. split; [auto|].
  split; [auto|]. split; [congruence|]. rewrite R2 in D. injection D as D. split.
  - intros E. rewrite N, B1 in E.
    assert (P : mv (qCB e 0) (vsub (body_point e f) (BrBC e 0)) = (0, 0, -1)).
    { unfold body_point, e, f. cbn [BrBC qCB f_cam f_nor f_dist get_distance dist_of fd_type fd_p]. veq. }
    rewrite P in E. apply (f_equal vz) in E. unfold set_from_vector in E.
    replace (norm (0, 0, -1)) with 1 in E.
    + cbv [vscale vz snd f f_nor] in E. rewrite Rinv_1 in E. lra.
    + unfold norm. match goal with |- _ = sqrt ?x => replace x with 1 by (geo; ring) end. now rewrite sqrt_1.
  - rewrite <- D. cbn. lra.
Qed.

Print Assumptions C16_meeting_rays.
Print Assumptions C16_closest_point.
Print Assumptions C21_point_preserved.
Print Assumptions C21_forth_and_back.

Print Assumptions C16_nearly_parallel_fails.
Print Assumptions C16_failure_keeps_distance.
Print Assumptions C16_in_front_of_second_camera_refuted.
Print Assumptions C21_same_camera_identity.
Print Assumptions C21_succeeds.
Print Assumptions C21_negative_distance_refuted.
