(** C41, C42, C61, C62, C63: the IMU-driven prediction and its Jacobians. *)
From Coq Require Import Reals ZArith List Bool Arith Lia Lra.
From Verif Require Import Geo Lie DistModel DistSpec FiltModel FiltSpec FiltProofs FiltJac FiltFull FiltKin FiltMore.
Import ListNotations.
Local Open Scope R_scope.

(** A concrete state: one camera with a lever arm, two features (one not assigned to a camera), one
    pose state, moving and biased. *)
Definition ex_n : dims := {| d_cam := 1; d_max := 2; d_pose := 1 |}.
Definition ex_P : params := {| p_g := (0, 0, - 981 / 100); p_rorTh := / 10; p_accTh := / 2; p_attcov := m1 |}.
Definition ex_im : imu := {| i_gyr := (0, 0, 2); i_acc := (0, 1, 981 / 100) |}.
Definition ex_aux (b : bool) : aux :=
  {| a_wmeas := v0; a_west := v0; a_wcov := m1; a_calib := b; a_qCM := fun _ => m1; a_MrMC := fun _ => v0; a_timerI := 0; a_timerV := 0 |}.
Definition ex_f (c : Z) : feat := {| ft_cam := c; ft_Q := m1; ft_d := {| fd_type := REGULAR; fd_p := 2 |}; ft_track := true; ft_warp := ((1, 2), (3, 4)) |}.
Definition ex_x : state :=
  {| x_pos := (1, 2, 3); x_vel := (1, 0, 0); x_acb := v0; x_gyb := (0, 0, 1); x_att := m1; x_vep := fun _ => (0, 1, 0); x_vea := fun _ => m1;
     x_fea := fun i => ex_f (match i with 0%nat => 0 | _ => -1 end); x_pop := fun _ => v0; x_poa := fun _ => m1; x_aux := ex_aux true |}.
Lemma ex_wf : wf ex_n ex_x.
Proof. constructor; intros; cbn [ex_x x_att x_vea x_aux x_poa x_fea ex_aux a_qCM ft_Q ex_f]; apply rot_1. Qed.
Lemma ex_usable : usable ex_n ex_x 0.
Proof. split; [cbn; lia|]. unfold smooth_fea, get_distance. cbn. split; [lra|exact I]. Qed.

(** ** C41. *)
(** the exact step *)
Theorem C41_position : forall n P im ip dt x, x_pos (predict n P im ip no_noise dt x) = vadd (x_pos x) (vscale dt (world_velocity x)).
Proof. exact pred_pos. Qed.
Theorem C41_attitude : forall n P im ip dt x, x_att (predict n P im ip no_noise dt x) = mm (x_att x) (expm (vscale dt (body_rate im x))).
Proof. exact pred_att. Qed.
(** attitude integration is exact for a constant rate, whatever the number of steps *)
Theorem C41_attitude_steps : forall n P im dt k x,
  x_att (Nat.iter k (step n P im dt) x) = mm (x_att x) (expm (vscale (INR k * dt) (body_rate im x))).
Proof. exact iter_att. Qed.
(** the world velocity changes at the rate of the specific force plus gravity, the attitude at the body rate *)
Theorem C41_acceleration : forall n P im ip x, is_rot (x_att x) ->
  dV (fun dt => world_velocity (predict n P im ip no_noise dt x)) (vadd (mv (x_att x) (specific_force im x)) (p_g P)) /\
  dM (fun dt => x_att (predict n P im ip no_noise dt x)) (mm (x_att x) (skew (body_rate im x))).
Proof. intros n P im ip x H. split; [now apply vel_rate|apply att_rate]. Qed.
Theorem C41_constants : forall n P im ip dt x, let y := predict n P im ip no_noise dt x in
  x_acb y = x_acb x /\ x_gyb y = x_gyb x /\ (forall c, MrMC y c = MrMC x c) /\ (forall c, qCM y c = qCM x c) /\
  (forall k, x_pop y k = x_pop x k) /\ (forall k, x_poa y k = x_poa x k) /\ a_calib (x_aux y) = a_calib (x_aux x).
Proof. exact pred_const. Qed.
(** without measurements *)
Theorem C41_no_measurement : forall n P dt k x, let y := Nat.iter k (coast n P dt) x in
  x_att y = x_att x /\ world_velocity y = world_velocity x /\ x_pos y = vadd (x_pos x) (vscale (INR k * dt) (world_velocity x)).
Proof. exact coast_iter. Qed.
(** an IMU standing still leaves pose, features, patches' warps and extrinsics alone, over any run *)
Theorem C41_standing_still : forall n P im dts x, wf n x -> still P im x ->
  same_motion n (fold_left (fun y dt => predict n P im true no_noise dt y) dts x) x.
Proof. exact still_run. Qed.
(** every run of predictions with any noise keeps all rotations rotations *)
Theorem C41_rotations_stay : forall n P l x, wf n x ->
  wf n (fold_left (fun y s => let '(im, ip, nz, dt) := s in predict n P im ip nz dt y) l x).
Proof. exact wf_run. Qed.
(** the motion timer: runs while both thresholds are respected, restarts otherwise *)
Theorem C41_motion_timer : forall n P im ip dt x,
  let y := predict n P im ip no_noise dt x in let seen : state := if (ip : bool) then y else x in
  (norm (body_rate im seen) <= p_rorTh P /\ norm (vadd (specific_force im seen) (mv (mt (x_att seen)) (p_g P))) <= p_accTh P ->
     a_timerI (x_aux y) = a_timerI (x_aux x) + dt) /\
  (p_rorTh P < norm (body_rate im seen) \/ p_accTh P < norm (vadd (specific_force im seen) (mv (mt (x_att seen)) (p_g P))) ->
     a_timerI (x_aux y) = 0) /\
  a_timerV (x_aux y) = a_timerV (x_aux x) + dt.
Proof.
  intros n P im ip dt x y seen. split; [|split; [|reflexivity]]; intros H.
  - apply timer_quiet. unfold moving, imu_acc_err. fold y. fold seen. fold (body_rate im seen) (specific_force im seen).
    destruct (Rlt_dec _ (norm (body_rate im seen))); [lra|]. destruct (Rlt_dec _ _); [lra|reflexivity].
  - apply timer_moving. unfold moving, imu_acc_err. fold y. fold seen. fold (body_rate im seen) (specific_force im seen).
    destruct (Rlt_dec _ (norm (body_rate im seen))); [reflexivity|]. destruct (Rlt_dec _ _); [reflexivity|lra].
Qed.
(** the speed is not preserved by a rotation at constant world velocity: the velocity step is a plain Euler step *)
Theorem C41_speed_inflation : forall n P im ip dt x, is_rot (x_att x) -> mv (x_att x) (specific_force im x) = vneg (p_g P) ->
  dot (x_vel (predict n P im ip no_noise dt x)) (x_vel (predict n P im ip no_noise dt x)) =
  dot (x_vel x) (x_vel x) + dt * dt * dot (cross (body_rate im x) (x_vel x)) (cross (body_rate im x) (x_vel x)).
Proof. exact speed_step. Qed.
Example C41_ex : x_pos (predict ex_n ex_P ex_im true no_noise (/ 2) ex_x) = (1 / 2, 2, 3).
Proof. rewrite C41_position. unfold world_velocity, ex_x. cbn [x_pos x_att x_vel]. rewrite mv_m1. unfold vadd, vscale, vneg. cbn. repeat (match goal with |- (_, _) = (_, _) => f_equal end); field. Qed.
Example C41_ex_still : exists im x, wf ex_n x /\ still ex_P im x.
Proof.
  exists {| i_gyr := (0, 0, 1); i_acc := (0, 0, 981 / 100) |},
   {| x_pos := (1, 2, 3); x_vel := v0; x_acb := v0; x_gyb := (0, 0, 1); x_att := m1; x_vep := fun _ => (0, 1, 0); x_vea := fun _ => m1;
     x_fea := fun i => ex_f 0; x_pop := fun _ => v0; x_poa := fun _ => m1; x_aux := ex_aux true |}.
  split; [constructor; intros; cbn [x_att x_vea x_aux x_poa x_fea ex_aux a_qCM ft_Q ex_f]; apply rot_1|].
  constructor; try reflexivity. unfold specific_force. cbn [i_acc x_acb x_att ex_P p_g]. rewrite vsub_0_r, mv_m1. unfold vneg. cbn. repeat f_equal; field.
Qed.

(** ** C42. *)
Theorem C42_static_point : forall n P im ip x i c p W R_,
  wf n x -> (i < d_max n)%nat -> cam_of n (x_fea x i) = Some c ->
  let f := x_fea x i in
  0 < get_distance (ft_d f) -> smooth_dist (fd_type (ft_d f)) (fd_p (ft_d f)) ->
  W 0 = x_pos x -> R_ 0 = x_att x -> dV W (world_velocity x) -> dM R_ (mm (R_ 0) (skew (body_rate im x))) ->
  in_camera (qCM x c) (MrMC x c) p (x_pos x) (x_att x) = vscale (get_distance (ft_d f)) (nor (ft_Q f)) ->
  let s := fun t => in_camera (qCM x c) (MrMC x c) p (W t) (R_ t) in
  exists dn dp,
    dV (fun dt => nor (ft_Q (x_fea (predict n P im ip no_noise dt x) i))) dn /\ dV (fun t => unit (s t)) dn /\
    dR (fun dt => fd_p (ft_d (x_fea (predict n P im ip no_noise dt x) i))) dp /\
    dR (fun t => param_fun (fd_type (ft_d f)) (norm (s t))) dp.
Proof. exact feature_follows. Qed.
Example C42_ex : exists p W R_, let x := ex_x in let f := x_fea x 0 in
  cam_of ex_n f = Some 0%nat /\ 0 < get_distance (ft_d f) /\ smooth_dist (fd_type (ft_d f)) (fd_p (ft_d f)) /\
  W 0 = x_pos x /\ R_ 0 = x_att x /\ dV W (world_velocity x) /\ dM R_ (mm (R_ 0) (skew (body_rate ex_im x))) /\
  in_camera (qCM x 0) (MrMC x 0) p (x_pos x) (x_att x) = vscale (get_distance (ft_d f)) (nor (ft_Q f)).
Proof.
  exists (1, 3, 5), (fun t => x_pos (predict ex_n ex_P ex_im true no_noise t ex_x)), (fun t => x_att (predict ex_n ex_P ex_im true no_noise t ex_x)).
  cbv zeta. split; [reflexivity|]. split; [unfold get_distance; cbn; lra|]. split; [exact I|].
  split; [rewrite pred_pos, vscale_0, vadd_0_r; reflexivity|]. split; [rewrite pred_att, vscale_0, expm_0, mm_1_r; reflexivity|].
  split; [apply pos_rate|]. split; [rewrite pred_att, vscale_0, expm_0, mm_1_r; apply att_rate|].
  unfold in_camera, get_distance, nor, qCM, MrMC. cbn [ex_x x_aux ex_aux a_calib x_vea x_vep x_att x_pos x_fea ex_f ft_Q ft_d fd_type fd_p dist_of].
  rewrite mt_1, !mv_m1. unfold vscale, vsub. cbn. repeat (match goal with |- (_, _) = (_, _) => f_equal end); ring.
Qed.

(** ** C61. The Jacobian handed to the Kalman filter is the derivative of the prediction, in every direction. *)
Theorem C61_prediction_jacobian : forall n P im ip x dt, wf n x -> forall tv,
  moves n (fun s => match s with Fea i => usable n x i | _ => True end)
    (fun t => predict n P im ip no_noise dt (boxplus x (along tv t))) (jmul n (jac_state n P im x dt) tv).
Proof. exact jac_state_ok. Qed.
(** a feature without camera is copied by the prediction but gets an all-zero row *)
Theorem C61_unassigned_feature_refuted : exists n P im x dt tv i, wf n x /\ (i < d_max n)%nat /\
  ~ dR (fun t => fd_p (ft_d (x_fea (predict n P im true no_noise dt (boxplus x (along tv t))) i))) (vz (jmul n (jac_state n P im x dt) tv (Fea i))).
Proof.
  exists ex_n, ex_P, ex_im, ex_x, 1, (fun s => (0, 0, 1)), 1%nat. split; [exact ex_wf|]. split; [cbn; lia|]. intros D.
  assert (E : vz (jmul ex_n (jac_state ex_n ex_P ex_im ex_x 1) (fun _ => (0, 0, 1)) (Fea 1)) = 0).
  { unfold jmul. rewrite (row_support ex_n _ _ []); [reflexivity|constructor|intros ? []|]. intros s _ _. reflexivity. }
  rewrite E in D.
  assert (D1 : dR (fun t => fd_p (ft_d (x_fea (predict ex_n ex_P ex_im true no_noise 1 (boxplus ex_x (along (fun _ => (0, 0, 1)) t))) 1))) 1).
  { eapply dR_ext with (f := fun t => 2 + t); [|eapply dR_eq; [apply dR_plus; [apply dR_const|apply dR_id]|ring]].
    intros t. cbn. unfold predict_fea. cbn. ring. }
  pose proof (dR_unique _ _ _ D D1). lra.
Qed.
Example C61_ex : wf ex_n ex_x /\ usable ex_n ex_x 0.
Proof. split; [exact ex_wf|exact ex_usable]. Qed.

(** ** C62. Same for the noise *)
Theorem C62_noise_jacobian : forall n P im ip x dt, wf n x -> forall nu, 0 < dt ->
  moves n (fun s => match s with Fea i => usable n x i | Vep _ | Vea _ => a_calib (x_aux x) = true | _ => True end)
    (fun t => predict n P im ip (along nu t) dt x) (jmul n (jac_noise n P im x dt) nu).
Proof. exact jac_noise_ok. Qed.
(** with extrinsics calibration off the extrinsics part of the state is not driven by its noise, though the Jacobian says so *)
Theorem C62_fixed_extrinsics_refuted : exists n P im x dt nu, wf n x /\ 0 < dt /\ a_calib (x_aux x) = false /\ (0 < d_cam n)%nat /\
  ~ dV (fun t => x_vep (predict n P im true (along nu t) dt x) 0%nat) (jmul n (jac_noise n P im x dt) nu (Vep 0)).
Proof.
  set (x := {| x_pos := v0; x_vel := v0; x_acb := v0; x_gyb := v0; x_att := m1; x_vep := fun _ => (0, 1, 0); x_vea := fun _ => m1;
     x_fea := fun i => ex_f 0; x_pop := fun _ => v0; x_poa := fun _ => m1; x_aux := ex_aux false |}).
  exists ex_n, ex_P, ex_im, x, 1, (fun s => (0, 0, 1)).
  split; [constructor; intros; cbn [x x_att x_vea x_aux x_poa x_fea ex_aux a_qCM ft_Q ex_f]; apply rot_1|]. split; [lra|]. split; [reflexivity|]. split; [cbn; lia|].
  intros D. assert (D1 : dV (fun t => x_vep (predict ex_n ex_P ex_im true (along (fun _ => (0, 0, 1)) t) 1 x) 0%nat) v0) by (cbn [predict x_vep x x_aux ex_aux a_calib]; apply dV_const).
  assert (E : jmul ex_n (jac_noise ex_n ex_P ex_im x 1) (fun _ => (0, 0, 1)) (Vep 0) = (0, 0, 1)).
  { unfold jmul. rewrite (row_support ex_n _ _ [Vep 0]); [|constructor; [cbn; tauto|constructor]|intros s [<-|[]]; cbn; lia|].
    - unfold fsum. cbn [fold_right jac_noise Nat.eqb]. rewrite vadd_0_r, mv_mscale, mv_m1, sqrt_1. apply vscale_1.
    - intros s Hs Hn. destruct s; try reflexivity. cbn [jac_noise]. destruct (Nat.eqb_spec 0 c); [subst; exfalso; apply Hn; now left|reflexivity]. }
  rewrite E in D. destruct D as (_ & _ & D), D1 as (_ & _ & D1). pose proof (dR_unique _ _ _ D D1) as U. unfold vz, v0 in U. cbn in U. lra.
Qed.
Example C62_ex : wf ex_n ex_x /\ usable ex_n ex_x 0 /\ a_calib (x_aux ex_x) = true /\ 0 < / 100.
Proof. split; [exact ex_wf|]. split; [exact ex_usable|]. split; [reflexivity|lra]. Qed.

(** ** C63. *)
Theorem C63_warp_transport : forall n P im ip dt x i u, wf n x -> (i < d_max n)%nat -> usable n x i -> ft_track (x_fea x i) = true ->
  let f' := x_fea (predict n P im ip no_noise dt x) i in
  let old := mv2 (ft_warp (x_fea x i)) u in let new := mv2 (ft_warp f') u in
  dV (fun t => nor (ft_Q (x_fea (predict n P im ip no_noise dt (boxplus x (along (bump i old) t))) i)))
     (Mmul (ft_Q f') (fst new) (snd new)).
Proof. exact warp_transport. Qed.
(** untracked warps, the camera and the parametrisation are left alone *)
Theorem C63_rest_unchanged : forall n P im ip nz dt x i,
  let f := x_fea x i in let f' := x_fea (predict n P im ip nz dt x) i in
  ft_cam f' = ft_cam f /\ fd_type (ft_d f') = fd_type (ft_d f) /\ ft_track f' = ft_track f /\ (ft_track f = false -> ft_warp f' = ft_warp f).
Proof.
  intros n P im ip nz dt x i f f'. unfold f', predict. cbn [x_fea]. destruct (i <? d_max n)%nat; [|auto]. fold f.
  unfold predict_fea. destruct (cam_of n f); [|auto]. cbn [ft_cam ft_d fd_type ft_track ft_warp]. repeat split. now intros ->.
Qed.
Example C63_ex : wf ex_n ex_x /\ usable ex_n ex_x 0 /\ ft_track (x_fea ex_x 0) = true.
Proof. split; [exact ex_wf|]. split; [exact ex_usable|reflexivity]. Qed.

Print Assumptions C41_position.
Print Assumptions C41_attitude.
Print Assumptions C41_attitude_steps.
Print Assumptions C41_acceleration.
Print Assumptions C41_constants.
Print Assumptions C41_no_measurement.
Print Assumptions C41_standing_still.
Print Assumptions C41_rotations_stay.
Print Assumptions C41_motion_timer.
Print Assumptions C41_speed_inflation.
Print Assumptions C42_static_point.
Print Assumptions C61_prediction_jacobian.
Print Assumptions C61_unassigned_feature_refuted.
Print Assumptions C62_noise_jacobian.
Print Assumptions C62_fixed_extrinsics_refuted.
Print Assumptions C63_warp_transport.
Print Assumptions C63_rest_unchanged.
