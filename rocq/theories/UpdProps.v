(** C36, C43, C64-C67: initialisation, resets, extrinsics, pose and velocity updates. *)
From Coq Require Import Reals ZArith List Bool Arith Lia Lra.
From Verif Require Import Geo Lie DistModel FiltModel FiltSpec FiltProofs FiltJac FiltKin FiltMore UpdModel UpdSpec UpdProofs.
Import ListNotations.
Local Open Scope R_scope.

Definition ux_f : feat := {| ft_cam := 0; ft_Q := m1; ft_d := {| fd_type := REGULAR; fd_p := 2 |}; ft_track := true; ft_warp := ((1, 0), (0, 1)) |}.
Definition ux_aux (b : bool) : aux :=
  {| a_wmeas := v0; a_west := v0; a_wcov := m1; a_calib := b; a_qCM := fun _ => m1; a_MrMC := fun _ => v0; a_timerI := 0; a_timerV := 0 |}.
Definition ux_n : dims := {| d_cam := 1; d_max := 1; d_pose := 2 |}.
Definition ux (b : bool) : state :=
  {| x_pos := (1, 2, 3); x_vel := v0; x_acb := v0; x_gyb := (0, 0, 1); x_att := m1; x_vep := fun _ => (0, 1, 0); x_vea := fun _ => m1;
     x_fea := fun i => ux_f; x_pop := fun _ => v0; x_poa := fun _ => m1; x_aux := ux_aux b |}.
Definition ux_axis (u : V3) : V3 :=
  let '(x, y, z) := u in if Req_EM_T (x * x + y * y) 0 then (1, 0, 0) else vscale (/ sqrt (x * x + y * y)) (- y, x, 0).
Lemma ux_wf b : wf ux_n (ux b).
Proof. constructor; intros; cbn [ux x_att x_vea x_aux x_poa x_fea ux_aux a_qCM ft_Q ux_f]; apply rot_1. Qed.
Lemma ux_good : good_axis ux_axis.
Proof.
  intros [[x y] z] H. unfold ux_axis. destruct (Req_EM_T (x * x + y * y) 0) as [E|E].
  - assert (x = 0 /\ y = 0) as [-> ->] by (split; nra). unfold dot. cbn. split; ring.
  - assert (P : 0 < x * x + y * y) by (pose proof (Rle_0_sqr x); pose proof (Rle_0_sqr y); unfold Rsqr in *; lra).
    assert (S1 : sqrt (x * x + y * y) <> 0) by (intros K; apply sqrt_lt_R0 in P; lra).
    assert (S2 : sqrt (x * x + y * y) * sqrt (x * x + y * y) = x * x + y * y) by (apply sqrt_sqrt; lra).
    set (s := sqrt (x * x + y * y)) in *. unfold dot, vscale. cbn. split; [|field; auto].
    replace (/ s * - y * (/ s * - y) + / s * x * (/ s * x) + / s * 0 * (/ s * 0)) with ((x * x + y * y) * / (s * s)) by (field; auto). rewrite S2. apply Rinv_r. lra.
Qed.

(** ** C36. *)
Theorem C36_gravity_aligned : forall axis f x, good_axis axis -> / 1000000 < norm f ->
  is_rot (x_att (init_acc axis f x)) /\ mv (x_att (init_acc axis f x)) f = (0, 0, norm f).
Proof. exact init_acc_ok. Qed.
Theorem C36_negligible_reading : forall axis f x, norm f <= / 1000000 -> x_att (init_acc axis f x) = m1.
Proof. exact init_acc_small. Qed.
Theorem C36_rest_unchanged : forall axis f x, let y := init_acc axis f x in same_rest y x /\ x_pos y = x_pos x /\ x_aux y = x_aux x.
Proof. intros. repeat split. Qed.
(** a resting device initialised this way stays at rest, over any sequence of predictions *)
Theorem C36_startup_at_rest : forall axis n P f g x dts, good_axis axis -> / 1000000 < norm f -> wf n x -> x_vel x = v0 -> x_acb x = v0 -> g = x_gyb x ->
  p_g P = (0, 0, - norm f) ->
  let y := init_acc axis f x in let im := {| i_gyr := g; i_acc := f |} in
  same_motion n (fold_left (fun z dt => predict n P im true no_noise dt z) dts y) y.
Proof. exact startup_still. Qed.
Example C36_ex : good_axis ux_axis /\ / 1000000 < norm (0, 0, - 9) /\ wf ux_n (ux true) /\ x_vel (ux true) = v0 /\ x_acb (ux true) = v0.
Proof.
  split; [exact ux_good|]. split; [|split; [apply ux_wf|split; reflexivity]].
  unfold norm. replace (dot (0, 0, - 9) (0, 0, - 9)) with (9 * 9) by (unfold dot; cbn; ring). rewrite sqrt_square; lra.
Qed.

(** ** C43. *)
Theorem C43_first_measurement : forall c u m x, u_did u = false -> doAlign c = true -> distinct_idx c ->
  is_rot (x_att x) -> is_rot (get_qVM c u x) -> is_rot (m_att m) ->
  let '(u', x') := pre_process c u m x in
  tracker_pos (get_qWI c u' x') (get_IrIW c u' x') (get_MrMV c u' x') (x_pos x') (x_att x') = m_pos m /\
  tracker_att (get_qWI c u' x') (get_qVM c u' x') (x_att x') = m_att m /\
  innov_pos c u' m x' v0 = v0 /\ innov_att c u' m x' v0 = m1.
Proof. exact align_zero. Qed.
(** later measurements, predictions and resets leave the stored alignment alone *)
Theorem C43_kept_over_history : forall axis c l F x, u_did (f_upd F) = true -> inertial c = None ->
  get_qWI c (f_upd (frun axis c F l)) x = get_qWI c (f_upd F) x /\ get_IrIW c (f_upd (frun axis c F l)) x = get_IrIW c (f_upd F) x.
Proof. intros axis c l F x H E. rewrite did_run by exact H. split; reflexivity. Qed.
Theorem C43_later_measurement : forall c u m x, u_did u = true -> pre_process c u m x = (u, x).
Proof. exact align_again. Qed.
Theorem C43_alignment_off : forall c u m x, doAlign c = false -> pre_process c u m x = (u, x).
Proof. exact align_off. Qed.
(** When the alignment is a filter state, a filter reset discards it and it is never found again. *)
Theorem C43_state_alignment_reset_refuted : exists axis c F m f, good_axis axis /\ doAlign c = true /\ distinct_idx c /\
  (let F1 := frun axis c F [OPose m] in innov_pos c (f_upd F1) m (f_cur F1) v0 = v0) /\
  (let F2 := frun axis c F [OPose m; OReset_acc f; OPose m] in innov_pos c (f_upd F2) m (f_cur F2) v0 <> v0).
Proof.
  exists ux_axis, {| enPos := true; enAtt := true; noFb := false; doAlign := true; inertial := Some 0%nat; body := None |},
    {| f_init := ux true; f_cur := ux true; f_upd := {| u_IrIW := v0; u_qWI := m1; u_MrMV := v0; u_qVM := m1; u_did := false |} |},
    {| m_pos := (5, 0, 0); m_att := m1 |}, v0.
  split; [exact ux_good|]. split; [reflexivity|]. split; [exact I|]. cbv zeta. split.
  - apply (C43_first_measurement {| enPos := true; enAtt := true; noFb := false; doAlign := true; inertial := Some 0%nat; body := None |}
      {| u_IrIW := v0; u_qWI := m1; u_MrMV := v0; u_qVM := m1; u_did := false |} {| m_pos := (5, 0, 0); m_att := m1 |} (ux true)); try reflexivity; apply rot_1.
  - intros H. apply (f_equal vx) in H. revert H. cbv -[Rplus Rminus Rmult Ropp IZR from_vectors norm Rlt_dec Rinv].
    destruct (Rlt_dec _ _); [destruct (from_vectors _ _ _) as [[[[? ?] ?] [[? ?] ?]] [[? ?] ?]]|]; intros H; lra.
Qed.
(** what the innovation compares: the pose the tracker would report, and the reported one *)
Theorem C43_innovation_meaning : forall c u m x, is_rot (m_att m) ->
  (enPos c = true -> innov_pos c u m x v0 = vsub (tracker_pos (get_qWI c u x) (get_IrIW c u x) (get_MrMV c u x) (x_pos x) (x_att x)) (m_pos m)) /\
  (enAtt c = true -> mm (innov_att c u m x v0) (m_att m) = tracker_att (get_qWI c u x) (get_qVM c u x) (x_att x)) /\
  (enPos c = false -> innov_pos c u m x v0 = v0) /\ (enAtt c = false -> innov_att c u m x v0 = m1).
Proof.
  intros c u m x R. split; [apply innov_pos_tracker|]. split; [intros; now apply innov_att_tracker|].
  split; intros H; [unfold innov_pos|unfold innov_att]; rewrite H; [reflexivity|apply expm_0].
Qed.
(** the displayed camera pose of a perfectly explained measurement is the estimated one *)
Theorem C43_displayed_pose : forall c u m x, is_rot (get_qWI c u x) -> is_rot (get_qVM c u x) ->
  tracker_pos (get_qWI c u x) (get_IrIW c u x) (get_MrMV c u x) (x_pos x) (x_att x) = m_pos m ->
  tracker_att (get_qWI c u x) (get_qVM c u x) (x_att x) = m_att m ->
  pose_meas_lin c u m x = vadd (x_pos x) (mv (x_att x) (MrMC x 0)) /\ pose_meas_rot c u m x = mm (qCM x 0) (mt (x_att x)).
Proof. intros. split; [now apply post_lin|now apply post_rot]. Qed.
Example C43_ex : let c := {| enPos := true; enAtt := true; noFb := false; doAlign := true; inertial := Some 0%nat; body := Some 1%nat |} in
  let u := {| u_IrIW := v0; u_qWI := m1; u_MrMV := v0; u_qVM := m1; u_did := false |} in
  distinct_idx c /\ is_rot (get_qVM c u (ux true)) /\ is_rot (get_qWI c u (ux true)) /\
  snd (pre_process c u {| m_pos := (5, 0, 0); m_att := m1 |} (ux true)) <> ux true.
Proof.
  cbv zeta. split; [cbn; lia|]. split; [apply rot_1|]. split; [apply rot_1|]. intros H. apply (f_equal (fun x => vx (x_pop x 0%nat))) in H. cbv -[Rplus Rminus Rmult Ropp IZR] in H. lra.
Qed.

(** ** C64. *)
Theorem C64_extrinsics_meaning : forall RCM CrCM c x pM, is_rot RCM -> a_calib (x_aux x) = false ->
  let y := set_extrinsics RCM CrCM c x in mv (qCM y c) (vsub pM (MrMC y c)) = apply RCM CrCM pM.
Proof. exact extr_effect. Qed.
Theorem C64_other_cameras : forall RCM CrCM c x k, k <> c -> let y := set_extrinsics RCM CrCM c x in qCM y k = qCM x k /\ MrMC y k = MrMC x k.
Proof. exact extr_others. Qed.
(** takes effect at the next reset, not before *)
Theorem C64_from_next_reset : forall axis cfg F RCM CrCM c f pM, is_rot RCM -> a_calib (x_aux (f_init F)) = false ->
  f_cur (fstep axis cfg F (OExtr RCM CrCM c)) = f_cur F /\
  let x := f_cur (frun axis cfg F [OExtr RCM CrCM c; OReset_acc f]) in mv (qCM x c) (vsub pM (MrMC x c)) = apply RCM CrCM pM.
Proof.
  intros axis cfg F RCM CrCM c f pM R C. split; [reflexivity|]. cbv zeta.
  rewrite <- (extr_effect RCM CrCM c (f_init F) pM R C). reflexivity.
Qed.
(** with online extrinsics calibration, the default, the call has no effect at all *)
Theorem C64_no_effect_with_calibration : forall RCM CrCM c x, a_calib (x_aux x) = true ->
  let y := set_extrinsics RCM CrCM c x in forall k, qCM y k = qCM x k /\ MrMC y k = MrMC x k.
Proof. intros RCM CrCM c x H y k. now apply extr_noop. Qed.
Example C64_ex : is_rot m1 /\ a_calib (x_aux (ux false)) = false /\ a_calib (x_aux (ux true)) = true /\
  MrMC (set_extrinsics m1 (1, 2, 3) 0 (ux false)) 0 <> MrMC (ux false) 0.
Proof. split; [apply rot_1|]. split; [reflexivity|]. split; [reflexivity|]. intros H. apply (f_equal vx) in H. cbv -[Rplus Rminus Rmult Ropp IZR] in H. lra. Qed.

(** ** C65. *)
Theorem C65_position_jacobian : forall n c u m x tv, is_rot (get_qWI c u x) -> distinct_idx c -> idx_in n (inertial c) -> idx_in n (body c) ->
  (noFb c = true -> no_pose_dir tv) ->
  dV (fun t => innov_pos c u m (boxplus x (along tv t)) v0) (row_mul n (jac_pos c u x) tv).
Proof. intros. eapply jac_pos_ok; eauto. Qed.
Theorem C65_attitude_jacobian : forall n c u m x tv, wf n x -> is_rot (get_qVM c u x) -> distinct_idx c -> idx_in n (inertial c) -> idx_in n (body c) ->
  (noFb c = true -> no_pose_dir tv) ->
  dM (fun t => innov_att c u m (boxplus x (along tv t)) v0) (mm (skew (row_mul n (jac_att c u x) tv)) (innov_att c u m x v0)).
Proof. intros. eapply jac_att_ok; eauto. Qed.
Theorem C65_noise_jacobian : forall c u m x w,
  dV (fun t => innov_pos c u m x (vscale t w)) w /\ dM (fun t => innov_att c u m x (vscale t w)) (mm (skew w) (innov_att c u m x v0)).
Proof. intros. split; [apply noise_pos|apply noise_att]. Qed.
(** without feedback the IMU pose columns vanish *)
Theorem C65_no_feedback : forall c u x, noFb c = true -> forall s, s = Pos \/ s = Vel \/ s = Att -> jac_pos c u x s = mzero /\ jac_att c u x s = mzero.
Proof. intros c u x H s Hs. unfold jac_pos, jac_att. rewrite H. destruct Hs as [-> | [-> | ->]]; destruct (enPos c), (enAtt c); split; reflexivity. Qed.
Example C65_ex : let c := {| enPos := true; enAtt := true; noFb := false; doAlign := true; inertial := Some 0%nat; body := Some 1%nat |} in
  distinct_idx c /\ idx_in ux_n (inertial c) /\ idx_in ux_n (body c) /\ wf ux_n (ux true).
Proof. cbv zeta. split; [cbn; lia|]. split; [cbn; lia|]. split; [cbn; lia|apply ux_wf]. Qed.

(** ** C66. *)
Theorem C66_velocity_innovation : forall q m x, is_rot q -> (innov_vel q m x v0 = v0 <-> m = mv q (vneg (x_vel x))).
Proof. exact innov_vel_zero. Qed.
Theorem C66_velocity_jacobian : forall n q m x tv, dV (fun t => innov_vel q m (boxplus x (along tv t)) v0) (row_mul n (jac_vel q) tv).
Proof. exact jac_vel_ok. Qed.
Theorem C66_zero_velocity_innovation : forall x, is_rot (x_att x) -> (innov_zero x v0 = v0 <-> world_velocity x = v0).
Proof. exact innov_zero_iff. Qed.
Theorem C66_zero_velocity_jacobian : forall n x tv, dV (fun t => innov_zero (boxplus x (along tv t)) v0) (row_mul n jac_zero tv).
Proof. exact jac_zero_ok. Qed.
Theorem C66_noise : forall q m x w, dV (fun t => innov_vel q m x (vscale t w)) w /\ dV (fun t => innov_zero x (vscale t w)) w.
Proof. intros. split; apply dV_line. Qed.
Example C66_ex : is_rot (x_att (ux true)) /\ world_velocity (ux true) = v0.
Proof. split; [apply rot_1|]. apply C66_zero_velocity_innovation; [apply rot_1|]. unfold innov_zero. apply vadd_0_r. Qed.

(** ** C67. *)
Theorem C67_reset_with_accelerometer : forall axis c F l f, let x := f_cur (frun axis c F (l ++ [OReset_acc f])) in
  same_rest x (f_init F) /\ x_pos x = last_reset_pos (x_pos (f_init F)) l.
Proof. exact reset_acc_history. Qed.
Theorem C67_reset_with_pose : forall axis c F l W q, let x := f_cur (frun axis c F (l ++ [OReset_pose W q])) in
  same_rest x (f_init F) /\ x_pos x = W /\ x_att x = mt q.
Proof. exact reset_pose_history. Qed.
Theorem C67_reset_attitude : forall axis c F l f, good_axis axis -> / 1000000 < norm f ->
  mv (x_att (f_cur (frun axis c F (l ++ [OReset_acc f])))) f = (0, 0, norm f).
Proof. intros axis c F l f G H. rewrite frun_snoc. apply init_acc_ok; auto. Qed.
(** so a reset to gravity after a reset to a pose does not go back to the configured start position *)
Theorem C67_position_remembered_refuted : exists axis c F W f, good_axis axis /\
  x_pos (f_cur (frun axis c F [OReset_acc f])) <> x_pos (f_cur (frun axis c F [OReset_pose W m1; OReset_acc f])).
Proof.
  exists ux_axis, {| enPos := true; enAtt := true; noFb := false; doAlign := true; inertial := None; body := None |},
    {| f_init := ux true; f_cur := ux true; f_upd := {| u_IrIW := v0; u_qWI := m1; u_MrMV := v0; u_qVM := m1; u_did := false |} |}, (7, 7, 7), v0.
  split; [exact ux_good|]. intros H. apply (f_equal vx) in H. unfold vx in H. cbn in H. lra.
Qed.
Example C67_ex : last_reset_pos (1, 2, 3) [OReset_pose (4, 5, 6) m1; OReset_acc v0; OPose {| m_pos := v0; m_att := m1 |}] = (4, 5, 6).
Proof. reflexivity. Qed.

Print Assumptions C36_gravity_aligned.
Print Assumptions C36_negligible_reading.
Print Assumptions C36_rest_unchanged.
Print Assumptions C36_startup_at_rest.
Print Assumptions C43_first_measurement.
Print Assumptions C43_kept_over_history.
Print Assumptions C43_later_measurement.
Print Assumptions C43_alignment_off.
Print Assumptions C43_state_alignment_reset_refuted.
Print Assumptions C43_innovation_meaning.
Print Assumptions C43_displayed_pose.
Print Assumptions C64_extrinsics_meaning.
Print Assumptions C64_other_cameras.
Print Assumptions C64_from_next_reset.
Print Assumptions C64_no_effect_with_calibration.
Print Assumptions C65_position_jacobian.
Print Assumptions C65_attitude_jacobian.
Print Assumptions C65_noise_jacobian.
Print Assumptions C65_no_feedback.
Print Assumptions C66_velocity_innovation.
Print Assumptions C66_velocity_jacobian.
Print Assumptions C66_zero_velocity_innovation.
Print Assumptions C66_zero_velocity_jacobian.
Print Assumptions C66_noise.
Print Assumptions C67_reset_with_accelerometer.
Print Assumptions C67_reset_with_pose.
Print Assumptions C67_reset_attitude.
Print Assumptions C67_position_remembered_refuted.
