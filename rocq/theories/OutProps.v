(** C53, C54, C68-C70: the outputs computed from the filter state. *)
From Coq Require Import Reals ZArith List Bool Arith Lia Lra.
From Verif Require Import Geo Lie DistModel DistSpec DistProofs FiltModel FiltSpec FiltProofs FiltJac FiltKin FiltMore UpdModel UpdSpec UpdProofs OutModel OutSpec OutProofs OutMore.
Import ListNotations.
Local Open Scope R_scope.

(** A state with two cameras, online calibration, different lever arms, and two tracked features, the first
    seen by camera 0 and the second by camera 1. *)
Definition ox_n : dims := {| d_cam := 2; d_max := 2; d_pose := 0 |}.
Definition ox_f (c : Z) : feat := {| ft_cam := c; ft_Q := m1; ft_d := {| fd_type := REGULAR; fd_p := 2 |}; ft_track := true; ft_warp := ((1, 0), (0, 1)) |}.
Definition ox_aux : aux :=
  {| a_wmeas := (0, 0, 2); a_west := v0; a_wcov := ((1, 0, 0), (0, 2, 0), (0, 0, 3)); a_calib := true; a_qCM := fun _ => m1; a_MrMC := fun _ => v0; a_timerI := 0; a_timerV := 0 |}.
Definition ox : state :=
  {| x_pos := (1, 2, 3); x_vel := (1, 0, 0); x_acb := v0; x_gyb := (0, 0, 1); x_att := m1;
     x_vep := fun c => match c with 0%nat => v0 | _ => (1, 0, 0) end; x_vea := fun _ => m1;
     x_fea := fun i => ox_f (match i with 0%nat => 0 | _ => 1 end); x_pop := fun _ => v0; x_poa := fun _ => m1; x_aux := ox_aux |}.
Lemma ox_wf : wf ox_n ox.
Proof. constructor; intros; cbn [ox x_att x_vea x_aux x_poa x_fea ox_aux a_qCM ft_Q ox_f]; apply rot_1. Qed.
Lemma ox_usable i : (i < 2)%nat -> usable ox_n ox i.
Proof. intros H. split; [destruct i as [|[|i]]; cbn; lia|]. unfold smooth_fea, get_distance. cbn. split; [lra|exact I]. Qed.
(** a basis for every direction exists *)
Definition ox_axis (u : V3) : V3 :=
  let '(x, y, z) := u in if Req_EM_T (x * x + y * y) 0 then (1, 0, 0) else vscale (/ sqrt (x * x + y * y)) (- y, x, 0).
Lemma ox_good : good_axis ox_axis.
Proof.
  intros [[x y] z] H. unfold ox_axis. destruct (Req_EM_T (x * x + y * y) 0) as [E|E].
  - assert (x = 0 /\ y = 0) as [-> ->] by (split; nra). unfold dot. cbn. split; ring.
  - assert (P : 0 < x * x + y * y) by (pose proof (Rle_0_sqr x); pose proof (Rle_0_sqr y); unfold Rsqr in *; lra).
    assert (S1 : sqrt (x * x + y * y) <> 0) by (intros K; apply sqrt_lt_R0 in P; lra).
    assert (S2 : sqrt (x * x + y * y) * sqrt (x * x + y * y) = x * x + y * y) by (apply sqrt_sqrt; lra).
    set (s := sqrt (x * x + y * y)) in *. unfold dot, vscale. cbn. split; [|field; auto].
    replace (/ s * - y * (/ s * - y) + / s * x * (/ s * x) + / s * 0 * (/ s * 0)) with ((x * x + y * y) * / (s * s)) by (field; auto). rewrite S2. apply Rinv_r. lra.
Qed.
Definition ox_frame (v : V3) : M3 := from_vectors ox_axis (0, 0, 1) v.
Lemma ox_frame_good : good_frame ox_frame.
Proof.
  intros v H. pose proof z_unit as Z.
  destruct (from_vectors_ok ox_axis (0, 0, 1) v ox_good ltac:(rewrite Z; lra) ltac:(intros K; apply H, norm_zero, K)) as [A B].
  split; [exact A|]. unfold nor, ox_frame, unit. unfold unitv in B. rewrite Z in B. replace (vscale (/ 1) (0, 0, 1)) with (0, 0, 1) in B; [exact B|].
  unfold vscale. cbn. rewrite Rinv_1. f_equal; [f_equal; ring|ring].
Qed.

Lemma vadd_id a b : vadd a b = a -> b = v0.
Proof. destruct a as [[a1 a2] a3], b as [[b1 b2] b3]. unfold vadd, v0, vx, vy, vz. cbn. intros K. injection K as K1 K2 K3. f_equal; [f_equal|]; lra. Qed.

(** ** C53. Camera and IMU output. *)
Theorem C53_camera_pose : forall c x p, is_rot (x_att x) ->
  mv (o_att (camera_out c x)) (vsub p (o_pos (camera_out c x))) = in_camera (qCM x c) (MrMC x c) p (x_pos x) (x_att x).
Proof. intros c x p H. apply cam_pose, H. Qed.
(** the reported velocity and rate are those of the camera on any motion the IMU state describes *)
Theorem C53_camera_motion : forall n c x Wt At, wf n x -> (c < d_cam n)%nat -> imu_motion x Wt At ->
  dV (fun t => vadd (Wt t) (mv (At t) (MrMC x c))) (mv (mt (o_att (camera_out c x))) (o_vel (camera_out c x))) /\
  dM (fun t => mm (qCM x c) (mt (At t))) (mneg (mm (skew (o_ror (camera_out c x))) (o_att (camera_out c x)))).
Proof. exact camera_motion. Qed.
Theorem C53_imu_motion : forall x Wt At, is_rot (x_att x) -> imu_motion x Wt At ->
  dV Wt (mv (mt (o_att (imu_out x))) (o_vel (imu_out x))) /\
  dM (fun t => mt (At t)) (mneg (mm (skew (o_ror (imu_out x))) (o_att (imu_out x)))) /\
  o_pos (imu_out x) = Wt 0 /\ mm (o_att (imu_out x)) (At 0) = m1.
Proof.
  intros x Wt At H M. destruct (imu_motion_out x Wt At H M) as [A B]. destruct M as [P0 A0 _ _]. rewrite P0, A0. split; [exact A|split; [exact B|split; [reflexivity|exact (proj1 (proj2 H))]]].
Qed.
(** after a prediction the reported rate is the bias-corrected reading of the sample just used *)
Theorem C53_rate_of_last_sample : forall n P im ip nz dt x, let y := predict n P im ip nz dt x in
  o_ror (imu_out y) = body_rate im y.
Proof. reflexivity. Qed.
Example C53_motion_ex : imu_motion ox (fun t => vadd (x_pos ox) (vscale t (world_velocity ox))) (fun t => mm (x_att ox) (expm (vscale t (0, 0, 1)))).
Proof.
  constructor.
  - now rewrite vscale_0, vadd_0_r.
  - now rewrite vscale_0, expm_0, mm_1_r.
  - apply dV_line.
  - eapply dM_eq; [apply dM_mm; [apply dM_const0|apply dM_expm_0 with (a := (0, 0, 1)); [apply vscale_0|apply dV_scale_line]]|].
    cbv beta. rewrite mm_zero_l, madd_zero_l. do 2 f_equal. cbn. unfold vsub. cbn. f_equal; [f_equal; ring|ring].
Qed.

(** Jacobians *)
Theorem C53_jacobian_pose_rate : forall n x c tv, wf n x -> (c < d_cam n)%nat ->
  dV (fun t => o_pos (camera_out c (boxplus x (along tv t)))) (row_mul n (camera_jac c x OPos) tv) /\
  dV (fun t => o_ror (camera_out c (boxplus x (along tv t)))) (row_mul n (camera_jac c x ORor) tv) /\
  dM (fun t => o_att (camera_out c (boxplus x (along tv t)))) (mm (skew (row_mul n (camera_jac c x OAtt) tv)) (o_att (camera_out c x))).
Proof. intros n x c tv W H. split; [now apply cam_jac_pos|split; [now apply cam_jac_ror|now apply cam_jac_att]]. Qed.
Theorem C53_jacobian_velocity : forall n x c tv, wf n x -> (c < d_cam n)%nat ->
  (c = 0%nat \/ a_calib (x_aux x) = false \/ MrMC x c = MrMC x 0 \/ tv (Vea c) = v0) ->
  dV (fun t => o_vel (camera_out c (boxplus x (along tv t)))) (row_mul n (camera_jac c x OVel) tv).
Proof. intros n x c tv _ Hc. now apply cam_jac_vel_ok. Qed.
(** the size of the error otherwise *)
Theorem C53_jacobian_velocity_error : forall n x c tv, wf n x -> (c < d_cam n)%nat -> a_calib (x_aux x) = true ->
  dV (fun t => o_vel (camera_out c (boxplus x (along tv t))))
    (vadd (row_mul n (camera_jac c x OVel) tv)
          (cross (tv (Vea c)) (mv (qCM x c) (cross (vsub (a_wmeas (x_aux x)) (x_gyb x)) (vsub (MrMC x c) (MrMC x 0)))))).
Proof. intros n x c tv _ Hc C. pose proof (cam_jac_vel n x c tv Hc) as D. unfold vq in D. rewrite C in D. exact D. Qed.
Theorem C53_jacobian_velocity_refuted : exists n x c tv, wf n x /\ (c < d_cam n)%nat /\
  ~ dV (fun t => o_vel (camera_out c (boxplus x (along tv t)))) (row_mul n (camera_jac c x OVel) tv).
Proof.
  exists ox_n, ox, 1%nat, (fun s => match s with Vea 1 => (1, 0, 0) | _ => v0 end). split; [exact ox_wf|]. split; [cbn; lia|]. intros D.
  pose proof (C53_jacobian_velocity_error ox_n ox 1 (fun s => match s with Vea 1 => (1, 0, 0) | _ => v0 end) ox_wf ltac:(cbn; lia) eq_refl) as E.
  pose proof (dV_unique _ _ _ E D) as K.
  apply vadd_id in K. rename K into Z.
  apply (f_equal vz) in Z. revert Z. cbv -[Rplus Rminus Rmult Ropp IZR]. lra.
Qed.
Theorem C53_jacobian_imu : forall n x tv, wf n x ->
  dV (fun t => o_pos (imu_out (boxplus x (along tv t)))) (row_mul n (imu_jac x OPos) tv) /\
  dV (fun t => o_vel (imu_out (boxplus x (along tv t)))) (row_mul n (imu_jac x OVel) tv) /\
  dV (fun t => o_ror (imu_out (boxplus x (along tv t)))) (row_mul n (imu_jac x ORor) tv) /\
  dM (fun t => o_att (imu_out (boxplus x (along tv t)))) (mm (skew (row_mul n (imu_jac x OAtt) tv)) (o_att (imu_out x))).
Proof. exact imu_jac_ok. Qed.
Example C53_ex : wf ox_n ox /\ MrMC ox 1 <> MrMC ox 0 /\ a_calib (x_aux ox) = true.
Proof. split; [exact ox_wf|]. split; [|reflexivity]. cbn. intros K. apply (f_equal vx) in K. cbn in K. lra. Qed.

(** ** C68. Gyroscope noise in the published rate covariance. *)
Theorem C68_imu_rate_noise : forall x cov, post_cov x cov ORor ORor = madd (cov ORor ORor) (a_wcov (x_aux x)) /\
  (forall a b, (a, b) <> (ORor, ORor) -> post_cov x cov a b = cov a b).
Proof. intros x cov. split; [reflexivity|]. intros [] [] H; try reflexivity. now contradict H. Qed.
(** The noise added is that of a gyroscope reading over the last prediction step: for every distribution of
    the rate noise (weights with values) with the configured covariance, a noise value acts like the reading
    error value / sqrt(dt), and the errors have the covariance that is added. *)
Definition weighted (l : list (R * V3)) : M3 := fold_right (fun k m => madd (mscale (fst k) (outer (snd k) (snd k))) m) mzero l.
Definition reading_error (dt : R) (u : V3) : V3 := vscale (/ sqrt dt) u.
Lemma weighted_scale s l : weighted (map (fun k => (fst k, vscale s (snd k))) l) = mscale (s * s) (weighted l).
Proof.
  induction l as [|[w u] l IH]; cbn [weighted map fold_right fst snd]; [unfold mzero; veq|].
  fold (weighted l). fold (weighted (map (fun k => (fst k, vscale s (snd k))) l)). rewrite IH. generalize (weighted l). clear. intro m. veq.
Qed.
Theorem C68_noise_of_the_last_step : forall n P m ip nz dt x (noise : list (R * V3)), 0 < dt ->
  p_attcov P = weighted noise ->
  x_att (predict n P m ip nz dt x) = x_att (predict n P {| i_gyr := vadd (i_gyr m) (reading_error dt (nz Att)); i_acc := i_acc m |} ip no_noise dt x) /\
  forall cov, post_cov (predict n P m ip nz dt x) cov ORor ORor =
    madd (cov ORor ORor) (weighted (map (fun k => (fst k, reading_error dt (snd k))) noise)).
Proof.
  intros n P m ip nz dt x noise D E. split.
  - unfold predict, no_noise, reading_error. cbn [x_att i_gyr]. rewrite vscale_v0, vadd_0_r. f_equal. f_equal. f_equal.
    generalize (i_gyr m) (x_gyb x) (vscale (/ sqrt dt) (nz Att)). clear. intros. veq.
  - intro cov. cbn [post_cov]. f_equal. unfold reading_error. rewrite weighted_scale, <- E. unfold predict. cbn [x_aux a_wcov]. f_equal.
    rewrite <- Rinv_mult. now rewrite sqrt_sqrt by lra.
Qed.
Print Assumptions C68_noise_of_the_last_step.
Example C68_step_ex : exists noise, weighted noise = ((1, 0, 0), (0, 4, 0), (0, 0, 9)).
Proof. exists [(1, (1, 0, 0)); (1, (0, 2, 0)); (1, (0, 0, 3))]. unfold weighted, mzero. cbn [fold_right fst snd]. veq. Qed.
(** in the camera frame the noise should be rotated; nothing is lost only if it is the same on all axes *)
Theorem C68_camera_rate_noise : forall n x c s cov, wf n x -> (c < d_cam n)%nat -> a_wcov (x_aux x) = mscale s m1 ->
  post_cov x cov ORor ORor = madd (cov ORor ORor) (rotate_cov (qCM x c) (a_wcov (x_aux x))).
Proof. intros n x c s cov W H E. cbn [post_cov]. rewrite E, rate_cov_iso; [reflexivity|]. now apply (qCM_rot n). Qed.
Definition ox_turned : state :=
  {| x_pos := x_pos ox; x_vel := x_vel ox; x_acb := x_acb ox; x_gyb := x_gyb ox; x_att := x_att ox; x_vep := x_vep ox; x_vea := fun _ => ((0, -1, 0), (1, 0, 0), (0, 0, 1));
     x_fea := x_fea ox; x_pop := x_pop ox; x_poa := x_poa ox; x_aux := ox_aux |}.
Lemma ox_turned_wf : wf ox_n ox_turned.
Proof.
  constructor; intros; try (cbn [ox_turned ox x_att x_vea x_aux x_poa x_fea ox_aux a_qCM ft_Q ox_f]; apply rot_1).
  cbn [ox_turned x_vea]. unfold is_rot, mm, mt, m1, det3, r0, r1, r2, vx, vy, vz, dot. cbn. repeat split; repeat (match goal with |- (_, _) = (_, _) => f_equal end); ring.
Qed.
Theorem C68_camera_rate_noise_refuted : exists n x c cov, wf n x /\ (c < d_cam n)%nat /\
  post_cov x cov ORor ORor <> madd (cov ORor ORor) (rotate_cov (qCM x c) (a_wcov (x_aux x))).
Proof.
  exists ox_n, ox_turned, 0%nat, (fun _ _ => mzero). split; [exact ox_turned_wf|]. split; [cbn; lia|]. intros K.
  apply (f_equal (fun m => vx (r0 m))) in K. revert K. cbv -[Rplus Rminus Rmult Ropp IZR]. lra.
Qed.
Example C68_ex : wf ox_n ox /\ mscale 2 m1 = mscale 2 m1 /\ wf ox_n ox_turned. Proof. split; [exact ox_wf|split; [reflexivity|exact ox_turned_wf]]. Qed.

(** ** C69. Landmarks and plain feature outputs. *)
(** the landmark, in IMU coordinates, seen from the feature's camera is the feature's ray *)
Theorem C69_landmark_value : forall n x i, wf n x -> usable n x i ->
  mv (qCM x (fcam x i)) (vsub (landmark_out x i) (MrMC x (fcam x i))) = vscale (get_distance (ft_d (x_fea x i))) (nor (ft_Q (x_fea x i))).
Proof. exact lmk_value. Qed.
Theorem C69_landmark_jacobian : forall n x i tv, wf n x -> (i < d_max n)%nat -> usable n x i -> fcam x i = 0%nat \/ a_calib (x_aux x) = false ->
  dV (fun t => landmark_out (boxplus x (along tv t)) i) (row_mul n (landmark_jac x i) tv).
Proof. exact lmk_ok. Qed.
(** for every camera the blocks are the right ones, but they stand in the columns of camera 0 *)
Theorem C69_landmark_jacobian_columns : forall n x i tv, wf n x -> (i < d_max n)%nat -> usable n x i ->
  dV (fun t => landmark_out (boxplus x (along tv t)) i) (row_mul n (landmark_jac x i) (as_cam0 (fcam x i) tv)).
Proof. exact lmk_row_any. Qed.
Theorem C69_landmark_jacobian_refuted : exists n x i tv, wf n x /\ (i < d_max n)%nat /\ usable n x i /\
  ~ dV (fun t => landmark_out (boxplus x (along tv t)) i) (row_mul n (landmark_jac x i) tv).
Proof.
  exists ox_n, ox, 1%nat, (fun s => match s with Vep 1 => (1, 0, 0) | _ => v0 end).
  split; [exact ox_wf|]. split; [cbn; lia|]. split; [apply ox_usable; lia|]. intros D.
  pose proof (C69_landmark_jacobian_columns ox_n ox 1 (fun s => match s with Vep 1 => (1, 0, 0) | _ => v0 end) ox_wf ltac:(cbn; lia) (ox_usable 1 ltac:(lia))) as E.
  pose proof (dV_unique _ _ _ E D) as K. apply (f_equal vx) in K. revert K. cbv -[Rplus Rminus Rmult Ropp Rinv IZR]. lra.
Qed.
(** the plain copy's Jacobian points at the position columns *)
Theorem C69_feature_copy_jacobian_refuted : exists n x i tv, wf n x /\ (i < d_max n)%nat /\ usable n x i /\
  ~ dR (fun t => fd_p (ft_d (feature_out (boxplus x (along tv t)) i))) (vz (row_mul n feature_jac tv)).
Proof.
  exists ox_n, ox, 0%nat, (fun s => match s with Pos => (0, 0, 1) | _ => v0 end).
  split; [exact ox_wf|]. split; [cbn; lia|]. split; [apply ox_usable; lia|]. intros D.
  assert (E : dR (fun t => fd_p (ft_d (feature_out (boxplus ox (along (fun s => match s with Pos => (0, 0, 1) | _ => v0 end) t)) 0))) 0).
  { eapply dR_ext; [|apply (dR_const 2)]. intros t. unfold feature_out, boxplus, along, ox. cbn [x_fea box_fea ft_d fd_p ox_f]. unfold vscale, v0. cbn. ring. }
  pose proof (dR_unique _ _ _ E D) as K. revert K. cbv -[Rplus Rminus Rmult Ropp IZR]. lra.
Qed.
Theorem C69_readable : forall n x i tv, wf n x -> (i < d_max n)%nat -> usable n x i ->
  readable_bea (x_fea x i) = nor (ft_Q (x_fea x i)) /\ readable_dis (x_fea x i) = get_distance (ft_d (x_fea x i)) /\
  dV (fun t => readable_bea (x_fea (boxplus x (along tv t)) i)) (mv (readable_jac_bea (x_fea x i)) (tv (Fea i))) /\
  dR (fun t => readable_dis (x_fea (boxplus x (along tv t)) i)) (dot (readable_jac_dis (x_fea x i)) (tv (Fea i))).
Proof. intros n x i tv W Hi U. split; [reflexivity|]. split; [reflexivity|]. exact (readable_ok n x i tv W Hi U). Qed.
Example C69_ex : usable ox_n ox 0 /\ usable ox_n ox 1 /\ fcam ox 0 = 0%nat /\ fcam ox 1 = 1%nat.
Proof. split; [apply ox_usable; lia|]. split; [apply ox_usable; lia|]. split; reflexivity. Qed.

(** ** C54. Transfer of a feature to another camera. *)
Lemma ox_D : DrDP ox 1 0 = (-1, 0, 2).
Proof. cbv -[Rplus Rminus Rmult Ropp IZR]. repeat (match goal with |- (_, _) = (_, _) => f_equal end); ring. Qed.
Lemma ox_D_nz : DrDP ox 1 0 <> v0. Proof. rewrite ox_D. intros K. apply (f_equal vz) in K. cbn in K. lra. Qed.
(** the point stays where it is *)
Theorem C54_same_point : forall frame n x i k dold, good_frame frame -> wf n x -> (k < d_cam n)%nat -> usable n x i -> k <> fcam x i ->
  DrDP x k i <> v0 -> representable (fd_type dold) (norm (DrDP x k i)) ->
  exists g, transfer frame k x i dold = Some g /\ in_imu (qCM x k) (MrMC x k) (vscale (get_distance (ft_d g)) (nor (ft_Q g))) = landmark_out x i.
Proof. intros frame n x i k dold GF W Hk U NE ND RP. exact (trf_point frame n x i k GF W Hk U NE ND dold RP). Qed.
(** directions that leave the camera rotations alone: the first two rows are the derivative of the bearing *)
Theorem C54_bearing_rows : forall frame n x i k tv dold ign, good_frame frame -> wf n x -> (i < d_max n)%nat -> (k < d_cam n)%nat -> usable n x i -> k <> fcam x i ->
  DrDP x k i <> v0 -> (a_calib (x_aux x) = false \/ forall c, tv (Vea c) = v0) ->
  let row := row_mul n (transfer_jac frame ign k x i) tv in
  exists g, transfer frame k x i dold = Some g /\ dV (fun t => bearing (transfer frame k (boxplus x (along tv t)) i dold)) (Mmul (ft_Q g) (vx row) (vy row)).
Proof.
  intros frame n x i k tv dold ign GF W Hi Hk U NE ND F row. unfold row. rewrite <- (flip_same frame n ign k x i tv F). now apply trf_bearing.
Qed.
(** and the third is the derivative of the distance, which is the parameter of a regular output *)
Theorem C54_distance_row : forall frame n x i k tv dold, good_frame frame -> wf n x -> (i < d_max n)%nat -> (k < d_cam n)%nat -> usable n x i -> k <> fcam x i ->
  DrDP x k i <> v0 -> (a_calib (x_aux x) = false \/ forall c, tv (Vea c) = v0) -> fd_type dold = REGULAR ->
  dR (fun t => param (transfer frame k (boxplus x (along tv t)) i dold)) (vz (row_mul n (transfer_jac frame false k x i) tv)).
Proof.
  intros frame n x i k tv dold GF W Hi Hk U NE ND F T. rewrite <- (flip_same frame n false k x i tv F). now apply trf_param.
Qed.
(** all directions: the camera-rotation columns have the wrong sign, and for a general parametrisation the
    third row lacks the factor of the parameter derivative *)
Theorem C54_all_directions : forall frame n x i k tv dold, good_frame frame -> wf n x -> (i < d_max n)%nat -> (k < d_cam n)%nat -> usable n x i -> k <> fcam x i ->
  DrDP x k i <> v0 -> (fd_type dold = INVERSE -> / 1000000 < norm (DrDP x k i) < 1000000) ->
  let row := row_mul n (transfer_jac frame false k x i) (flip_vea tv) in
  exists g, transfer frame k x i dold = Some g /\
    dV (fun t => bearing (transfer frame k (boxplus x (along tv t)) i dold)) (Mmul (ft_Q g) (vx row) (vy row)) /\
    dR (fun t => param (transfer frame k (boxplus x (along tv t)) i dold)) (parameter_derivative (ft_d g) * vz row).
Proof.
  intros frame n x i k tv dold GF W Hi Hk U NE ND In row.
  destruct (trf_bearing frame n x i k tv GF W Hi Hk U NE ND dold false) as (g & Hg & D).
  destruct (trf_param_any frame n x i k tv dold GF W Hi Hk U NE ND In) as (g' & Hg' & D'). rewrite Hg in Hg'. injection Hg' as <-.
  exists g. split; [exact Hg|split; [exact D|exact D']].
Qed.
Theorem C54_rotation_columns_refuted : forall frame, good_frame frame -> exists n x i k tv dold g, wf n x /\ (i < d_max n)%nat /\ (k < d_cam n)%nat /\ usable n x i /\ k <> fcam x i /\
  DrDP x k i <> v0 /\ fd_type dold = REGULAR /\ transfer frame k x i dold = Some g /\
  let row := row_mul n (transfer_jac frame false k x i) tv in
  ~ dV (fun t => bearing (transfer frame k (boxplus x (along tv t)) i dold)) (Mmul (ft_Q g) (vx row) (vy row)).
Proof.
  intros frame GF. set (tv := fun s => match s with Vea 1 => (0, 1, 0) | _ => v0 end : V3).
  assert (NE : 1%nat <> fcam ox 0) by (cbn; lia).
  destruct (trf_bearing frame ox_n ox 0 1 tv GF ox_wf ltac:(cbn; lia) ltac:(cbn; lia) (ox_usable 0 ltac:(lia)) NE ox_D_nz (mk REGULAR) false) as (g & Hg & D).
  exists ox_n, ox, 0%nat, 1%nat, tv, (mk REGULAR), g.
  split; [exact ox_wf|]. split; [cbn; lia|]. split; [cbn; lia|]. split; [apply ox_usable; lia|]. split; [exact NE|]. split; [exact ox_D_nz|]. split; [reflexivity|]. split; [exact Hg|].
  cbv zeta. intros D'. rewrite (flip_pure frame ox_n false 1 ox 0 tv) in D by (intros [| | | | |j|[|[|j]]|j|j|j] H; try reflexivity; exfalso; now apply (H 1%nat)).
  set (row := row_mul ox_n (transfer_jac frame false 1 ox 0) tv) in *.
  pose proof (trf_unit frame ox_n ox 0 1 tv GF ox_wf ltac:(cbn; lia) ltac:(cbn; lia) (ox_usable 0 ltac:(lia)) NE ox_D_nz false) as DU. cbv beta in DU.
  rewrite (flip_pure frame ox_n false 1 ox 0 tv) in DU by (intros [| | | | |j|[|[|j]]|j|j|j] H; try reflexivity; exfalso; now apply (H 1%nat)). fold row in DU.
  destruct (transfer_some frame ox 0 1 NE ox (mk REGULAR) eq_refl eq_refl ox_D_nz) as (g' & Hg' & _ & HQ & _). rewrite Hg in Hg'. injection Hg' as <-.
  pose proof (dV_unique _ _ _ D D') as K. rewrite HQ in K.
  destruct (Mmul_inj _ _ _ _ _ (proj1 (GF _ ox_D_nz)) K) as [K1 K2].
  assert (Z : Mmul (frame (DrDP ox 1 0)) (vx (vneg row)) (vy (vneg row)) = v0).
  { assert (VN : forall v, vx (vneg v) = - vx v /\ vy (vneg v) = - vy v) by (intros [[? ?] ?]; split; reflexivity). destruct (VN row) as [V1 V2].
    replace (vx (vneg row)) with 0 by lra. replace (vy (vneg row)) with 0 by lra. unfold Mmul. rewrite !vscale_0. apply vadd_0_r. }
  rewrite Z in DU.
  destruct (dV_norm_unit (fun t => DrDP (boxplus ox (along tv t)) 1 0) (cross (0, 1, 0) (-1, 0, 2))) as (dn & DN & En).
  { cbv beta. rewrite (D0 ox 0 1 tv). exact ox_D_nz. }
  { eapply dV_eq; [apply (D_deriv ox_n ox 0 1 tv ox_wf ltac:(cbn; lia) (ox_usable 0 ltac:(lia)))|]. rewrite ox_D. unfold tv.
    cbv -[Rplus Rminus Rmult Ropp IZR]. repeat (match goal with |- (_, _) = (_, _) => f_equal end); ring. }
  pose proof (dV_unique _ _ _ DN DU) as E0. rewrite E0 in En. cbv beta in En. rewrite (D0 ox 0 1 tv), ox_D in En.
  assert (NN : norm (-1, 0, 2) <> 0) by (rewrite <- ox_D; intros Q; apply ox_D_nz, norm_zero, Q).
  unfold unit in En.
  assert (C : dot (-1, 0, 2) (cross (0, 1, 0) (-1, 0, 2)) = 0) by (cbv -[Rplus Rminus Rmult Ropp IZR]; ring).
  rewrite dot_scale_l, C, Rmult_0_r, vscale_0, vsub_0_r in En. apply (f_equal (fun v => norm (-1, 0, 2) * vx v)) in En.
  assert (VX : forall s v, vx (vscale s v) = s * vx v) by reflexivity. rewrite VX, <- Rmult_assoc, Rinv_r in En by exact NN. change (vx v0) with 0 in En. rewrite Rmult_0_r in En.
  revert En. cbn -[norm]. lra.
Qed.
(** with the inverse-distance parametrisation (the default) the third row is not the derivative of the parameter *)
Theorem C54_inverse_parameter_refuted : forall frame, good_frame frame -> exists n x i k tv dold, wf n x /\ (i < d_max n)%nat /\ (k < d_cam n)%nat /\ usable n x i /\ k <> fcam x i /\
  DrDP x k i <> v0 /\ (forall c, tv (Vea c) = v0) /\ fd_type dold = INVERSE /\ / 1000000 < norm (DrDP x k i) < 1000000 /\
  ~ dR (fun t => param (transfer frame k (boxplus x (along tv t)) i dold)) (vz (row_mul n (transfer_jac frame false k x i) tv)).
Proof.
  intros frame GF. set (tv := fun s => match s with Fea 0 => (0, 0, 1) | _ => v0 end : V3).
  assert (NE : 1%nat <> fcam ox 0) by (cbn; lia).
  assert (N5 : norm (DrDP ox 1 0) * norm (DrDP ox 1 0) = 5) by (rewrite norm_sq, ox_D; cbv -[Rplus Rminus Rmult Ropp IZR]; ring).
  assert (NP : 0 <= norm (DrDP ox 1 0)) by apply norm_nonneg.
  assert (NB : / 1000000 < norm (DrDP ox 1 0) < 1000000) by (split; nra).
  exists ox_n, ox, 0%nat, 1%nat, tv, (mk INVERSE).
  split; [exact ox_wf|]. split; [cbn; lia|]. split; [cbn; lia|]. split; [apply ox_usable; lia|]. split; [exact NE|]. split; [exact ox_D_nz|].
  split; [reflexivity|]. split; [reflexivity|]. split; [exact NB|]. intros D'.
  destruct (trf_param_any frame ox_n ox 0 1 tv (mk INVERSE) GF ox_wf ltac:(cbn; lia) ltac:(cbn; lia) (ox_usable 0 ltac:(lia)) NE ox_D_nz ltac:(intros; exact NB)) as (g & Hg & D).
  rewrite (flip_same frame ox_n false 1 ox 0 tv) in D by (right; reflexivity).
  pose proof (trf_norm frame ox_n ox 0 1 tv GF ox_wf ltac:(cbn; lia) ltac:(cbn; lia) (ox_usable 0 ltac:(lia)) NE ox_D_nz) as DN. cbv beta in DN.
  rewrite (flip_same frame ox_n false 1 ox 0 tv) in DN by (right; reflexivity).
  set (row := row_mul ox_n (transfer_jac frame false 1 ox 0) tv) in *.
  pose proof (dR_unique _ _ _ D D') as K.
  assert (VZ : vz row = 2 / norm (DrDP ox 1 0)).
  { apply (dR_unique _ _ _ DN). eapply dR_eq; [apply dR_norm; [cbv beta; rewrite (D0 ox 0 1 tv); exact ox_D_nz|apply (D_deriv ox_n ox 0 1 tv ox_wf ltac:(cbn; lia) (ox_usable 0 ltac:(lia)))]|].
    cbv beta. rewrite (D0 ox 0 1 tv), ox_D. f_equal. unfold tv. cbv -[Rplus Rminus Rmult Ropp IZR]. ring. }
  assert (PN : norm (DrDP ox 1 0) <> 0) by lra.
  destruct (transfer_some frame ox 0 1 NE ox (mk INVERSE) eq_refl eq_refl ox_D_nz) as (g' & Hg' & _ & _ & S & _). rewrite Hg in Hg'. injection Hg' as <-.
  unfold set_parameter, param_of in S. cbn [mk fd_type option_map] in S. injection S as S. rewrite mnz_out in S by (rewrite Rabs_pos_eq; unfold eps; lra).
  unfold parameter_derivative in K. rewrite <- S in K. cbn [fd_type fd_p] in K.
  rewrite mnz_out in K.
  2: { unfold Rdiv. rewrite Rmult_1_l, Rabs_inv, Rabs_pos_eq by lra. unfold eps. apply Rinv_le_contravar; lra. }
  rewrite VZ in K. apply (f_equal (fun z => z * norm (DrDP ox 1 0))) in K.
  replace (- (1 / norm (DrDP ox 1 0)) * (1 / norm (DrDP ox 1 0)) * (2 / norm (DrDP ox 1 0)) * norm (DrDP ox 1 0)) with (- 2 / (norm (DrDP ox 1 0) * norm (DrDP ox 1 0))) in K by (field; exact PN).
  rewrite N5 in K. replace (2 / norm (DrDP ox 1 0) * norm (DrDP ox 1 0)) with 2 in K by (field; exact PN). lra.
Qed.
(** own camera: value unchanged and identity rows *)
Theorem C54_own_camera : forall frame ign n x i k tv dold, (i < d_max n)%nat -> ft_cam (x_fea x i) = Z.of_nat k ->
  (exists g, transfer frame k x i dold = Some g /\ ft_cam g = ft_cam (x_fea x i) /\ ft_Q g = ft_Q (x_fea x i) /\ ft_d g = ft_d (x_fea x i)) /\
  row_mul n (transfer_jac frame ign k x i) tv = tv (Fea i).
Proof.
  intros frame ign n x i k tv dold Hi E. split; [|now apply own_row].
  destruct (own_transfer frame k x i dold E) as (g & H & A & B & C & _). exists g. auto.
Qed.
Example C54_ex : good_frame ox_frame /\ wf ox_n ox /\ usable ox_n ox 0 /\ 1%nat <> fcam ox 0 /\ DrDP ox 1 0 <> v0 /\ representable INVERSE (norm (DrDP ox 1 0)).
Proof.
  split; [exact ox_frame_good|]. split; [exact ox_wf|]. split; [apply ox_usable; lia|]. split; [cbn; lia|]. split; [exact ox_D_nz|].
  assert (N5 : norm (DrDP ox 1 0) * norm (DrDP ox 1 0) = 5) by (rewrite norm_sq, ox_D; cbv -[Rplus Rminus Rmult Ropp IZR]; ring).
  assert (NP : 0 <= norm (DrDP ox 1 0)) by apply norm_nonneg. cbn. rewrite Rabs_pos_eq by exact NP. split; nra.
Qed.

(** ** C70. The tracked patch warp under transfer. *)
Theorem C70_warp_other_camera : forall frame n x i k dold u, good_frame frame -> wf n x -> (i < d_max n)%nat -> (k < d_cam n)%nat -> usable n x i -> k <> fcam x i ->
  DrDP x k i <> v0 -> ft_track (x_fea x i) = true ->
  exists g, transfer frame k x i dold = Some g /\
  dV (fun t => bearing (transfer frame k (boxplus x (along (bump i (mv2 (ft_warp (x_fea x i)) u)) t)) i dold))
     (Mmul (ft_Q g) (fst (mv2 (ft_warp g) u)) (snd (mv2 (ft_warp g) u))).
Proof. exact trf_warp. Qed.
(** to its own camera: unchanged if the stored bearing is in the basis the library would choose for its direction *)
Theorem C70_warp_own_camera : forall frame n k x i dold, good_frame frame -> wf n x -> (i < d_max n)%nat -> usable n x i -> ft_cam (x_fea x i) = Z.of_nat k ->
  ft_track (x_fea x i) = true -> 0 < get_distance (ft_d (x_fea x i)) -> frame (vscale (get_distance (ft_d (x_fea x i))) (nor (ft_Q (x_fea x i)))) = ft_Q (x_fea x i) ->
  transfer frame k x i dold = Some (x_fea x i).
Proof. exact own_warp_same. Qed.
Definition with_Q (x : state) (Q : M3) : state :=
  {| x_pos := x_pos x; x_vel := x_vel x; x_acb := x_acb x; x_gyb := x_gyb x; x_att := x_att x; x_vep := x_vep x; x_vea := x_vea x;
     x_fea := fun i => {| ft_cam := ft_cam (x_fea x i); ft_Q := Q; ft_d := ft_d (x_fea x i); ft_track := ft_track (x_fea x i); ft_warp := ft_warp (x_fea x i) |};
     x_pop := x_pop x; x_poa := x_poa x; x_aux := x_aux x |}.
Definition turn : M3 := ((0, -1, 0), (1, 0, 0), (0, 0, 1)).
Lemma turn_rot : is_rot turn.
Proof. unfold is_rot, turn, mm, mt, m1, det3, r0, r1, r2, vx, vy, vz, dot. cbn. repeat split; repeat (match goal with |- (_, _) = (_, _) => f_equal end); ring. Qed.
Lemma mm_mscale_l s a b : mm (mscale s a) b = mscale s (mm a b). Proof. gv. Qed.
Lemma mm_mscale_r s a b : mm a (mscale s b) = mscale s (mm a b). Proof. gv. Qed.
Lemma mscale_twice s t a : mscale s (mscale t a) = mscale (s * t) a. Proof. gv. Qed.
Lemma mscale_one a : mscale 1 a = a. Proof. gv. Qed.
Ltac nums := cbv -[Rplus Rminus Rmult Ropp IZR]; repeat (match goal with |- (_, _) = (_, _) => f_equal end); ring.
(** The turned basis of the next theorem is one the filter's own updates can leave behind: three steps of a
    quarter turn each bring the bearing back to where it was, with the basis turned about it. *)
Lemma expm_conj Q v : is_rot Q -> mm (expm (mv Q v)) Q = mm Q (expm v).
Proof.
  intros H. unfold expm. rewrite (rot_norm Q v H), !mm_madd_l, !mm_madd_r, mm_1_l, mm_1_r, !mm_mscale_l, !mm_mscale_r.
  rewrite (mm_assoc Q (skew v) (skew v)), (skew_move Q v H), <- (mm_assoc (skew (mv Q v)) Q (skew v)), (skew_move Q v H), mm_assoc. reflexivity.
Qed.
Lemma expm_quarter e : dot e e = 1 -> expm (vscale (PI / 2) e) = madd m1 (madd (skew e) (mm (skew e) (skew e))).
Proof.
  intros H. assert (P : 0 < PI / 2) by (pose proof PI_RGT_0; lra). unfold expm.
  rewrite norm_scale, Rabs_pos_eq by lra. unfold norm. rewrite H, sqrt_1, Rmult_1_r. unfold sinc, cosc.
  destruct (Req_EM_T (PI / 2) 0); [lra|]. rewrite sin_PI2, cos_PI2. generalize dependent (PI / 2). intros r _ Z. clear H.
  assert (S : skew (vscale r e) = mscale r (skew e)) by (clear; gv).
  rewrite S, mm_mscale_l, mm_mscale_r. f_equal. rewrite !mscale_twice. f_equal; [transitivity (mscale 1 (skew e)); [f_equal; field; exact Z|apply mscale_one]|].
  transitivity (mscale 1 (mm (skew e) (skew e))); [f_equal; field; exact Z|apply mscale_one].
Qed.
Lemma box_local f v : is_rot (ft_Q f) -> ft_Q (box_fea f v) = mm (ft_Q f) (expm (vx v, vy v, 0)).
Proof.
  intros H. cbn [box_fea ft_Q]. rewrite <- expm_conj by exact H. apply (f_equal (fun w => mm (expm w) (ft_Q f))). generalize (ft_Q f). clear. unfold Nmul, perp1, perp2. gv.
Qed.
Theorem C70_turned_basis_reached : forall f, is_rot (ft_Q f) ->
  let g := box_fea (box_fea (box_fea f (PI / 2, 0, 0)) (0, PI / 2, 0)) (- (PI / 2), 0, 0) in
  ft_Q g = mm (ft_Q f) turn /\ nor (ft_Q g) = nor (ft_Q f).
Proof.
  intros f H g. unfold g. assert (E : forall f v, is_rot (ft_Q f) -> is_rot (ft_Q (box_fea f v))) by (intros f' v' H'; rewrite box_local by exact H'; apply rot_mm; [exact H'|apply expm_rot]).
  assert (X : mm (mm (mm (ft_Q f) (expm (PI / 2, 0, 0))) (expm (0, PI / 2, 0))) (expm (- (PI / 2), 0, 0)) = mm (ft_Q f) turn).
  { replace (PI / 2, 0, 0) with (vscale (PI / 2) (1, 0, 0)) by (unfold vscale, vx, vy, vz; cbn [fst snd]; f_equal; [f_equal|]; ring).
    replace (0, PI / 2, 0) with (vscale (PI / 2) (0, 1, 0)) by (unfold vscale, vx, vy, vz; cbn [fst snd]; f_equal; [f_equal|]; ring).
    replace (- (PI / 2), 0, 0) with (vscale (PI / 2) (-1, 0, 0)) by (unfold vscale, vx, vy, vz; cbn [fst snd]; f_equal; [f_equal|]; ring).
    rewrite !expm_quarter by (unfold dot; cbn; ring). rewrite <- !mm_assoc. f_equal.
    assert (E1 : madd m1 (madd (skew (1, 0, 0)) (mm (skew (1, 0, 0)) (skew (1, 0, 0)))) = ((1, 0, 0), (0, 0, -1), (0, 1, 0))) by nums.
    assert (E2 : madd m1 (madd (skew (0, 1, 0)) (mm (skew (0, 1, 0)) (skew (0, 1, 0)))) = ((0, 0, 1), (0, 1, 0), (-1, 0, 0))) by nums.
    assert (E3 : madd m1 (madd (skew (-1, 0, 0)) (mm (skew (-1, 0, 0)) (skew (-1, 0, 0)))) = ((1, 0, 0), (0, 0, 1), (0, -1, 0))) by nums.
    rewrite E1, E2, E3. assert (E4 : mm ((0, 0, 1), (0, 1, 0), (-1, 0, 0)) ((1, 0, 0), (0, 0, 1), (0, -1, 0)) = ((0, -1, 0), (0, 0, 1), (-1, 0, 0))) by nums.
    rewrite E4. unfold turn. nums. }
  rewrite !box_local by auto. cbn [vx vy fst snd]. split; [exact X|]. rewrite X, nor_mm. unfold nor. f_equal. cbv -[Rplus Rminus Rmult Ropp IZR]. repeat (match goal with |- (_, _) = (_, _) => f_equal end); ring.
Qed.
(** in general the warp handed to the image alignment is turned against the stored bearing's basis, whatever
    basis the library chooses *)
Theorem C70_warp_own_camera_refuted : forall frame, good_frame frame -> exists n k x i dold g u, wf n x /\ (i < d_max n)%nat /\ usable n x i /\ ft_cam (x_fea x i) = Z.of_nat k /\
  ft_track (x_fea x i) = true /\ 0 < get_distance (ft_d (x_fea x i)) /\ transfer frame k x i dold = Some g /\
  Mmul (ft_Q g) (fst (mv2 (ft_warp g) u)) (snd (mv2 (ft_warp g) u)) <>
  Mmul (ft_Q (x_fea x i)) (fst (mv2 (ft_warp (x_fea x i)) u)) (snd (mv2 (ft_warp (x_fea x i)) u)).
Proof.
  intros frame GF. set (F := frame (0, 0, 2)).
  assert (NZ : (0, 0, 2) <> v0) by (intros K; apply (f_equal vz) in K; cbn in K; lra).
  destruct (GF _ NZ) as [RF NF]. fold F in RF, NF.
  assert (N2 : norm (0, 0, 2) = 2) by (unfold norm; replace (dot (0, 0, 2) (0, 0, 2)) with (2 * 2) by (cbv -[Rplus Rminus Rmult Ropp IZR]; ring); apply sqrt_square; lra).
  assert (NF1 : nor F = (0, 0, 1)).
  { rewrite NF. unfold unit. rewrite N2. unfold vscale. cbn. repeat (match goal with |- (_, _) = (_, _) => f_equal end); field. }
  set (Q := mm F turn). assert (RQ : is_rot Q) by (apply rot_mm; [exact RF|exact turn_rot]).
  assert (NQ : nor Q = (0, 0, 1)). { unfold Q. rewrite nor_mm, <- NF1. unfold nor. f_equal. cbv -[Rplus Rminus Rmult Ropp IZR]. repeat (match goal with |- (_, _) = (_, _) => f_equal end); ring. }
  set (x := with_Q ox Q). assert (W : wf ox_n x).
  { constructor; intros; cbn [x with_Q ox x_att x_vea x_aux x_poa x_fea ox_aux a_qCM ft_Q]; try apply rot_1. exact RQ. }
  assert (U : usable ox_n x 0) by (split; [cbn; lia|unfold smooth_fea, get_distance; cbn; split; [lra|exact I]]).
  destruct (own_warp frame ox_n 0 x 0 (mk REGULAR) (1, 0) GF W ltac:(cbn; lia) U eq_refl eq_refl ltac:(unfold get_distance; cbn; lra)) as (g & Hg & HQ & HW).
  exists ox_n, 0%nat, x, 0%nat, (mk REGULAR), g, (1, 0).
  split; [exact W|]. split; [cbn; lia|]. split; [exact U|]. split; [reflexivity|]. split; [reflexivity|]. split; [unfold get_distance; cbn; lra|]. split; [exact Hg|].
  intros K. assert (ER : ray (x_fea x 0) = (0, 0, 2)).
  { unfold ray. change (ft_Q (x_fea x 0)) with Q. rewrite NQ. cbv -[Rplus Rminus Rmult Ropp IZR]. repeat (match goal with |- (_, _) = (_, _) => f_equal end); ring. }
  rewrite ER in HW. fold F in HW. rewrite <- HW in K. rewrite HQ in K. change (ft_Q (x_fea x 0)) with Q in *.
  set (u1 := fst (mv2 (ft_warp g) (1, 0))) in *. set (u2 := snd (mv2 (ft_warp g) (1, 0))) in *.
  assert (EQ : forall a b, Mmul Q a b = Mmul F (- b) a).
  { intros a b. unfold Mmul, Q, perp1, perp2. rewrite !mv_mm. rewrite <- !mv_neg, <- !mv_scale, <- !mv_add. f_equal. cbv -[Rplus Rminus Rmult Ropp IZR]. repeat (match goal with |- (_, _) = (_, _) => f_equal end). all: ring. }
  rewrite EQ in K. destruct (Mmul_inj F _ _ _ _ RF K) as [K1 K2].
  rewrite EQ in HW. destruct (Mmul_inj F _ _ _ _ RF HW) as [K3 K4]. cbn in K3, K4. lra.
Qed.
Example C70_ex : good_frame ox_frame /\ wf ox_n ox /\ usable ox_n ox 0 /\ ft_track (x_fea ox 0) = true /\ 1%nat <> fcam ox 0 /\ DrDP ox 1 0 <> v0.
Proof. split; [exact ox_frame_good|]. split; [exact ox_wf|]. split; [apply ox_usable; lia|]. split; [reflexivity|]. split; [cbn; lia|exact ox_D_nz]. Qed.

Print Assumptions C53_camera_pose.
Print Assumptions C53_camera_motion.
Print Assumptions C53_imu_motion.
Print Assumptions C53_rate_of_last_sample.
Print Assumptions C53_jacobian_pose_rate.
Print Assumptions C53_jacobian_velocity.
Print Assumptions C53_jacobian_velocity_error.
Print Assumptions C53_jacobian_velocity_refuted.
Print Assumptions C53_jacobian_imu.
Print Assumptions C68_imu_rate_noise.
Print Assumptions C68_camera_rate_noise.
Print Assumptions C68_camera_rate_noise_refuted.
Print Assumptions C69_landmark_value.
Print Assumptions C69_landmark_jacobian.
Print Assumptions C69_landmark_jacobian_columns.
Print Assumptions C69_landmark_jacobian_refuted.
Print Assumptions C69_feature_copy_jacobian_refuted.
Print Assumptions C69_readable.
Print Assumptions C54_same_point.
Print Assumptions C54_bearing_rows.
Print Assumptions C54_distance_row.
Print Assumptions C54_all_directions.
Print Assumptions C54_rotation_columns_refuted.
Print Assumptions C54_inverse_parameter_refuted.
Print Assumptions C54_own_camera.
Print Assumptions C70_warp_other_camera.
Print Assumptions C70_warp_own_camera.
Print Assumptions C70_turned_basis_reached.
Print Assumptions C70_warp_own_camera_refuted.
