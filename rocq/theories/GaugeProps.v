(** C93: position and heading in the world are never learned; C94: the choice of the world frame does not
    matter. *)
From Coq Require Import Reals ZArith List Bool Arith Lia Lra FunctionalExtensionality.
From Verif Require Import Geo Lie DistModel FiltModel OutModel CamModel InnoModel UpdModel CovModel CovSpec CovProofs BornModel BornProps SlotModel SlotSpec SlotProofs SlotProps KalSpec KalProofs KalInv KalProps GaugeSpec GaugeProofs.
Import ListNotations.
Local Open Scope R_scope.

(** ** C93 *)
(** Uncertainty about position and heading (in any correlation) added to the covariance changes nothing in the
    estimate, whatever happens except external poses; it stays such uncertainty, and that of the heading stays
    exactly what it was. *)
Theorem C93_frame_uncertainty_is_inert : forall n P cams frame logm inv front nth_elt ign track ic l F A p q b, Forall no_pose l ->
  exists A' p' q',
  krun n P cams frame logm inv front nth_elt ign track ic (with_cov F (padd (k_P F) (about_frame (p_g P) A p q b))) l =
  option_map (fun G => with_cov G (padd (k_P G) (about_frame (p_g P) A' p' q' b))) (krun n P cams frame logm inv front nth_elt ign track ic F l).
Proof.
  intros n P cams frame logm inv front nth_elt ign track ic l F A p q b NP.
  destruct (run_inert n P cams frame logm inv front nth_elt ign track ic l NP F A p q b) as (A' & p' & q' & E & _). now exists A', p', q'.
Qed.
Lemma rsum_framed n f : (forall s, ~ framed s -> f s = 0) -> rsum (segs n) f = f Pos + f Att.
Proof.
  intros Z. unfold segs. cbn [app]. rewrite !rsum_cons. rewrite (Z Vel), (Z Acb), (Z Gyb) by (intros [H|H]; discriminate).
  set (rest := map Vep _ ++ _). assert (E : rsum rest f = 0).
  { rewrite (rsum_ext rest f (fun _ => 0)); [apply rsum_zero|]. intros s I. apply Z. unfold rest in I.
    repeat (apply in_app_or in I; destruct I as [I|I]); apply in_map_iff in I; destruct I as (k & <- & _); intros [H|H]; discriminate. }
  rewrite E. ring.
Qed.
Lemma variance_about n g A p q b v : variance n (about_frame g A p q b) v =
  dot (v Pos) (mv A (v Pos)) + dot (v Pos) p * dot g (v Att) + dot g (v Att) * dot q (v Pos) + b * (dot g (v Att) * dot g (v Att)).
Proof.
  unfold variance.
  rewrite rsum_framed.
  2: { intros s Ns. rewrite (rsum_ext (segs n) _ (fun _ => 0)); [apply rsum_zero|]. intros r _. rewrite about_supported by (now left). now rewrite mv_0_l, dot_0_r. }
  rewrite !rsum_framed by (intros r Nr; rewrite about_supported by (now right); now rewrite mv_0_l, dot_0_r).
  cbn [about_frame]. rewrite mv_mscale_l, !mv_outer, !dot_scale_r, (dot_comm (v Att) g). ring.
Qed.
(** Heading: as much of the initial uncertainty as was independent of everything else remains forever. *)
Theorem C93_heading_never_learned : forall n P cams frame logm inv front nth_elt ign track ic l F G b, inverts inv -> good_init (b_cov (c_b ic)) ->
  Forall (step_ok n) l -> Forall no_pose l -> valid_cov n (k_P F) ->
  krun n P cams frame logm inv front nth_elt ign track ic (with_cov F (padd (k_P F) (about_frame (p_g P) mzero v0 v0 b))) l = Some G ->
  forall v, v Pos = v0 -> b * (dot (p_g P) (v Att) * dot (p_g P) (v Att)) <= variance n (k_P G) v.
Proof.
  intros n P cams frame logm inv front nth_elt ign track ic l F G b HI HB OK NP V R v Z.
  destruct (run_inert n P cams frame logm inv front nth_elt ign track ic l NP F mzero v0 v0 b) as (A' & p' & q' & E & _). rewrite E in R.
  destruct (krun n P cams frame logm inv front nth_elt ign track ic F l) as [K|] eqn:RF; [|discriminate]. cbn [option_map] in R. injection R as <-. cbn [with_cov k_P].
  pose proof (C92_stays_covariance n P cams frame logm inv front nth_elt ign track ic HI HB l F K OK V RF) as VK.
  unfold padd. rewrite variance_madd, variance_about, Z, mv_0_r, !dot_0_l, dot_0_r. pose proof (vc_psd n _ VK v). lra.
Qed.
(** Position: likewise, for any covariance [A] of it. *)
Theorem C93_position_never_learned : forall n P cams frame logm inv front nth_elt ign track ic l F G A, inverts inv -> good_init (b_cov (c_b ic)) ->
  Forall (step_ok n) l -> Forall no_pose l -> valid_cov n (k_P F) ->
  krun n P cams frame logm inv front nth_elt ign track ic (with_cov F (padd (k_P F) (about_frame (p_g P) A v0 v0 0))) l = Some G ->
  forall v, dot (v Pos) (mv A (v Pos)) <= variance n (k_P G) v.
Proof.
  intros n P cams frame logm inv front nth_elt ign track ic l F G A HI HB OK NP V R v.
  destruct (run_inert n P cams frame logm inv front nth_elt ign track ic l NP F A v0 v0 0) as (A' & p' & q' & E & E1 & E2). rewrite E in R.
  destruct (E1 eq_refl) as [-> ->]. rewrite (E2 eq_refl eq_refl eq_refl) in R.
  destruct (krun n P cams frame logm inv front nth_elt ign track ic F l) as [K|] eqn:RF; [|discriminate]. cbn [option_map] in R. injection R as <-. cbn [with_cov k_P].
  pose proof (C92_stays_covariance n P cams frame logm inv front nth_elt ign track ic HI HB l F K OK V RF) as VK.
  unfold padd. rewrite variance_madd, variance_about, !dot_0_l, dot_0_r. pose proof (vc_psd n _ VK v). lra.
Qed.
(** everything else is as certain as without it *)
Theorem C93_the_rest_is_unaffected : forall n P cams frame logm inv front nth_elt ign track ic l F G G' A p q b, Forall no_pose l ->
  krun n P cams frame logm inv front nth_elt ign track ic F l = Some G ->
  krun n P cams frame logm inv front nth_elt ign track ic (with_cov F (padd (k_P F) (about_frame (p_g P) A p q b))) l = Some G' ->
  k_x G' = k_x G /\ k_used G' = k_used G /\
  forall v, v Pos = v0 -> dot (p_g P) (v Att) = 0 -> variance n (k_P G') v = variance n (k_P G) v.
Proof.
  intros n P cams frame logm inv front nth_elt ign track ic l F G G' A p q b NP R R'.
  destruct (run_inert n P cams frame logm inv front nth_elt ign track ic l NP F A p q b) as (A' & p' & q' & E & _). rewrite E, R in R'. cbn [option_map] in R'. injection R' as <-.
  split; [reflexivity|]. split; [reflexivity|]. intros v Z1 Z2. cbn [with_cov k_P]. unfold padd. rewrite variance_madd, variance_about, Z1, Z2, mv_0_r, !dot_0_l, dot_0_r. ring.
Qed.

(** ** C94 *)
Theorem C94_any_world_frame : forall n P cams frame logm inv front nth_elt ign track ic Y t iw l F, heading_rotation (p_g P) Y -> Forall (pose_fits t iw) l ->
  krun n P cams frame logm inv front nth_elt ign track ic (moved Y t iw F) (map (moved_op Y iw) l) =
  option_map (moved Y t iw) (krun n P cams frame logm inv front nth_elt ign track ic F l).
Proof.
  intros n P cams frame logm inv front nth_elt ign track ic Y t iw l F HY A.
  pose proof (run_moved n P cams frame logm inv front nth_elt ign track ic Y t iw l HY A F) as E. rewrite mvd_zero in E. rewrite E.
  destruct (krun n P cams frame logm inv front nth_elt ign track ic F l) as [G|]; [|reflexivity]. cbn [option_map]. now rewrite mvd_zero.
Qed.
(** with position noise alike in all directions and no estimated external frames, nothing has to be changed in
    the history *)
Theorem C94_same_history : forall n P cams frame logm inv front nth_elt ign track ic Y t l F, heading_rotation (p_g P) Y ->
  Forall (pose_fits t (fun _ => false)) l -> Forall isotropic l ->
  krun n P cams frame logm inv front nth_elt ign track ic (moved Y t (fun _ => false) F) l =
  option_map (moved Y t (fun _ => false)) (krun n P cams frame logm inv front nth_elt ign track ic F l).
Proof.
  intros n P cams frame logm inv front nth_elt ign track ic Y t l F HY A I.
  rewrite <- (C94_any_world_frame n P cams frame logm inv front nth_elt ign track ic Y t (fun _ => false) l F HY A). f_equal.
  symmetry. rewrite <- (map_id l) at 2. apply map_ext_in. intros o J. rewrite Forall_forall in I. specialize (I o J). destruct o as [m dt Q| | | | |]; try reflexivity. cbn [moved_op]. f_equal.
  destruct I as [[c Ic] I]. apply functional_extensionality; intros s. apply functional_extensionality; intros r. unfold turned.
  assert (N : forall z, z <> Pos -> noise_turn Y (fun _ => false) z = m1) by (intros z; destruct z; try reflexivity; congruence).
  destruct (seg_eq s Pos) as [->|Ns], (seg_eq r Pos) as [->|Nr].
  - cbn [noise_turn]. rewrite Ic, mm_mscale_r, mm_mscale_l, mm_1_r. f_equal. apply (proj1 HY).
  - now rewrite (proj1 (I r Nr)), mm_0_r, mm_0_l.
  - now rewrite (proj2 (I s Ns)), mm_0_r, mm_0_l.
  - now rewrite (N s Ns), (N r Nr), mt_1, mm_1_l, mm_1_r.
Qed.
Lemma place_inner' Y t Q M b : vadd (vadd (mv Y b) t) (mv (mm Y Q) M) = vadd (mv Y (vadd b (mv Q M))) t.
Proof. rewrite mv_mm, mv_add. apply alg1. Qed.
(** What is published moves along: positions, attitudes; velocities and rates (in body and camera coordinates),
    landmarks (in body coordinates) and features stay. *)
Theorem C94_published : forall Y t iw x c i,
  camera_out c (moved_state Y t iw x) =
    {| o_pos := vadd (mv Y (o_pos (camera_out c x))) t; o_vel := o_vel (camera_out c x); o_ror := o_ror (camera_out c x); o_att := mm (o_att (camera_out c x)) (mt Y) |} /\
  imu_out (moved_state Y t iw x) =
    {| o_pos := vadd (mv Y (o_pos (imu_out x))) t; o_vel := o_vel (imu_out x); o_ror := o_ror (imu_out x); o_att := mm (o_att (imu_out x)) (mt Y) |} /\
  landmark_out (moved_state Y t iw x) i = landmark_out x i /\ feature_out (moved_state Y t iw x) i = feature_out x i.
Proof.
  intros Y t iw x c i. split; [|split; [|split; reflexivity]].
  - unfold camera_out. cbn [moved_state x_pos x_att x_vel o_pos o_vel o_ror o_att]. change (MrMC (moved_state Y t iw x) c) with (MrMC x c). change (qCM (moved_state Y t iw x) c) with (qCM x c).
    rewrite place_inner', mt_mm, mm_assoc. reflexivity.
  - unfold imu_out. cbn [moved_state x_pos x_att x_vel o_pos o_vel o_ror o_att]. rewrite mt_mm. reflexivity.
Qed.

(** ** Examples *)
(** a quarter turn about gravity *)
Definition quarter : M3 := ((0, -1, 0), (1, 0, 0), (0, 0, 1)).
Example C94_ex_turn : heading_rotation (p_g ex_P) quarter /\ quarter <> m1.
Proof.
  split; [split; [split; [|split]|]|].
  1-4: unfold quarter, ex_P; cbn [p_g]; cbv [vx vy vz dot cross r0 r1 r2 mv mt mm m1 det3 fst snd]; repeat apply f_equal2; ring.
  - intros E. apply (f_equal (fun M => vx (r0 M))) in E. unfold quarter, m1, vx, r0 in E. cbn in E. lra.
Qed.
(** a history that meets all hypotheses: zero-velocity updates, prediction, removal and addition of a feature,
    velocity *)
Definition ex_hist : list kop :=
  [KMeas MZero unit_noise 2; KFree 0; KPredict ex_still 1 unit_cov; KUse [{| w_slot := 0; w_cam := 0; w_Q := m1; w_type := REGULAR; w_seen := None |}]; KMeas (MVel m1 v0) unit_noise 0].
Example C94_ex_history : forall t, Forall (pose_fits t (fun _ => false)) ex_hist /\ Forall isotropic ex_hist /\ Forall no_pose ex_hist /\ Forall (step_ok ex_n) ex_hist.
Proof.
  intros t. split; [|split; [|split]].
  - repeat (apply Forall_cons; [exact I|]). apply Forall_nil.
  - apply Forall_cons; [exact I|]. apply Forall_cons; [exact I|]. apply Forall_cons.
    { cbn [isotropic]. split; [exists 1; unfold unit_cov, mscale, m1, vscale, vx, vy, vz, r0, r1, r2; cbn [seg_eq fst snd]; repeat apply f_equal2; destruct (seg_eq Pos Pos); try congruence; cbn [fst snd]; try ring|].
      intros s N. unfold unit_cov. destruct (seg_eq Pos s), (seg_eq s Pos); try congruence. now split. }
    apply Forall_cons; [exact I|]. apply Forall_cons; [exact I|apply Forall_nil].
  - repeat (apply Forall_cons; [exact I|]). apply Forall_nil.
  - apply Forall_cons; [exact C92_ex_noise|]; apply Forall_cons; [exact I|]; apply Forall_cons; [apply C92_ex_cov|]; apply Forall_cons; [exact I|]; apply Forall_cons; [exact C92_ex_noise|apply Forall_nil].
Qed.
(** with a heading variance of 1 (gravity 10) the filter still has it at the end *)
Example C93_ex_heading : forall cams frame logm front nth_elt ign track,
  let ic := {| c_b := {| b_ncam := 1; b_stereo := false; b_cov := fun i j => if (i =? j)%nat then 1 else 0 |}; c_init := 3; c_ratio := 0; c_dold := ft_d ex_fea |} in
  let F := {| k_x := ex_x; k_P := unit_cov; k_used := k_used ex_F; k_u := k_u ex_F |} in
  exists G, krun ex_n ex_P cams frame logm the_inverse front nth_elt ign track ic (with_cov F (padd (k_P F) (about_frame (p_g ex_P) mzero v0 v0 (1 / 100)))) ex_hist = Some G /\
  1 <= variance ex_n (k_P G) (fun s => match s with Att => (0, 0, 1) | _ => v0 end).
Proof.
  intros cams frame logm front nth_elt ign track ic F.
  destruct (C94_ex_history v0) as (_ & _ & NP & OK).
  destruct (C92_ex_run cams frame logm front nth_elt ign track) as (_ & V & K & RK & _). fold ic in RK. fold F in RK, V. fold ex_hist in RK.
  destruct (C93_frame_uncertainty_is_inert ex_n ex_P cams frame logm the_inverse front nth_elt ign track ic ex_hist F mzero v0 v0 (1 / 100) NP) as (A' & p' & q' & E).
  rewrite RK in E. cbn [option_map] in E. eexists. split; [exact E|].
  pose proof (C93_heading_never_learned ex_n ex_P cams frame logm the_inverse front nth_elt ign track ic ex_hist F _ (1 / 100) the_inverse_ok C92_ex_init OK NP V E (fun s => match s with Att => (0, 0, 1) | _ => v0 end) eq_refl) as H.
  revert H. set (w := variance _ _ _). cbv beta iota. assert (D : dot (p_g ex_P) (0, 0, 1) = -10) by (unfold ex_P, dot, vx, vy, vz; cbn [p_g fst snd]; ring). rewrite D. lra.
Qed.
Lemma predict_vel n P m nz dt x : x_vel (predict n P m true nz dt x) =
  vsub (mv (madd m1 (mneg (skew (vscale dt (vadd (vsub (i_gyr m) (x_gyb x)) (vscale (/ sqrt dt) (nz Att))))))) (x_vel x))
       (vscale dt (vsub (imu_acc_err P x m) (vscale (/ sqrt dt) (nz Vel)))).
Proof. reflexivity. Qed.
(** The rotation has to keep the direction of gravity: upside down, the same measurement of a body at rest
    means free fall. *)
Definition flip : M3 := ((1, 0, 0), (0, -1, 0), (0, 0, -1)).
Example C94_ex_tilt_matters : is_rot flip /\ forall cams frame logm inv front nth_elt ign track ic,
  krun ex_n ex_P cams frame logm inv front nth_elt ign track ic (moved flip v0 (fun _ => false) ex_F) [KPredict ex_still 1 (fun _ _ => mzero)] <>
  option_map (moved flip v0 (fun _ => false)) (krun ex_n ex_P cams frame logm inv front nth_elt ign track ic ex_F [KPredict ex_still 1 (fun _ _ => mzero)]).
Proof.
  split.
  - split; [|split]; unfold flip; cbv [vx vy vz dot cross r0 r1 r2 mv mt mm m1 det3 fst snd]; repeat apply f_equal2; ring.
  - intros cams frame logm inv front nth_elt ign track ic E.
    apply (f_equal (fun o => match o with Some G => vz (x_vel (k_x G)) | None => 0 end)) in E. revert E.
    unfold krun. cbn [fold_left kstep option_map moved k_x moved_state x_vel]. rewrite !predict_vel.
    unfold imu_acc_err, ex_F, ex_still, ex_P, ex_x, flip, no_noise. cbn [k_x x_vel x_gyb x_acb x_att i_gyr i_acc p_g moved_state].
    cbv [vx vy vz v0 vadd vsub vneg vscale dot cross r0 r1 r2 mv mt mm m1 madd mneg skew fst snd]. intros E. lra.
Qed.

Print Assumptions C93_frame_uncertainty_is_inert.
Print Assumptions C93_heading_never_learned.
Print Assumptions C93_position_never_learned.
Print Assumptions C93_the_rest_is_unaffected.
Print Assumptions C94_any_world_frame.
Print Assumptions C94_same_history.
Print Assumptions C94_published.
